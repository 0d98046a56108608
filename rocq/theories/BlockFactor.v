(** Block Cholesky: factorization and solves. *)
From Coq Require Import List Arith Reals Lra Lia Bool Permutation.
From Verif Require Import Base BaseFacts TriWorkspaceModel AssemblerModel Spec_Block TriWorkspaceProofs SupernodeProofs AssemblerProofs
  DenseModel BlockModel RSum DenseProofs BlockProofs.
Import ListNotations.
Open Scope R_scope.

Definition anode (a : addr) : nat := match a with ADiag k _ _ => k | AOff k _ _ => k end.

Section Fac.
  Variables (rows : list (list nat)) (size : list nat).
  Hypothesis FC : fill_closed rows size.
  Variable w : TriWS.
  Hypothesis HW : ws_ok rows size w.
  Variable ss : list (list addr).
  Hypothesis HSS : seperator_diagonal w = Ok ss.
  Notation n := (length rows).
  Notation N := (dim size).
  Notation off := (offset size).
  Notation sz k := (nth k size 0%nat).
  Notation sepof := (sepof rows size).
  Notation owner := (owner rows size).
  Notation stored := (stored rows size).
  Notation address := (address rows size).
  Notation view := (view rows size).
  Notation Gof := (Gof rows size).
  Notation sepn k j := (nth j (sepof k) 0%nat).

  Lemma sizeof_eq k : sizeof w k = sz k.
  Proof. unfold sizeof. rewrite (wk_size _ _ _ HW). auto. Qed.

  Lemma sepsof_eq k : (k < n)%nat -> sepsof w k = sepof k.
  Proof. apply (nth_seps _ _ _ HW). Qed.

  Lemma ss_eq k : (k < n)%nat -> nth_error ss k =
    Some (map (fun ij => address (sepn k (fst ij)) (sepn k (snd ij))) (lower_pairs (length (sepof k)))).
  Proof.
    intros Hk. destruct (seperator_diagonal_ok _ _ FC w HW) as (sd & E & Hl & H).
    rewrite HSS in E. inversion E; subst sd.
    rewrite <- H by auto. apply nth_error_nth'. lia.
  Qed.

  Lemma sep_le k i j : (k < n)%nat -> (j <= i < length (sepof k))%nat -> (sepn k j <= sepn k i)%nat.
  Proof.
    intros Hk H. destruct (rows_split _ _ FC k Hk) as (_ & Ss & _). apply sorted_nth_le; auto; lia.
  Qed.

  Lemma sep_low k i j : (k < n)%nat -> (j <= i < length (sepof k))%nat -> stored (sepn k i) (sepn k j).
  Proof.
    intros Hk H. apply (sep_stored _ _ FC k); auto; try (apply nth_In; lia). apply sep_le; auto.
  Qed.

  Lemma sep_inj k i j : (k < n)%nat -> (i < length (sepof k))%nat -> (j < length (sepof k))%nat ->
    sepn k i = sepn k j -> i = j.
  Proof. intros Hk Hi Hj E. pose proof (sep_nodup _ _ FC k Hk). eapply NoDup_nth; eauto. Qed.

  Lemma anode_address r c : stored r c -> anode (address r c) = owner c.
  Proof.
    intros Hs. unfold TriWorkspaceProofs.address. destruct (Nat.eqb_spec (owner r) (owner c)); auto.
    destruct (stored_cases _ _ FC r c Hs) as [|[_ Hin]]; [congruence|].
    pose proof (sep_pos_spec r (sepof (owner c)) 0) as H1. destruct (sep_pos r _ 0); [auto|tauto].
  Qed.

  (** ** The Schur complement update *)
  Lemma schur_update_ok m s k T X : (k < n)%nat ->
    let s_s := map (fun ij => address (sepn k (fst ij)) (sepn k (snd ij))) (lower_pairs (length (sepof k))) in
    exists m', schur_update m s (length (sepof k)) T X s_s = Ok m' /\
      (forall i j, (j <= i < length (sepof k))%nat ->
         m' (address (sepn k i) (sepn k j)) = m (address (sepn k i) (sepn k j)) - rsum s (fun t => T t j * X t i)) /\
      (forall a, (forall i j, (j <= i < length (sepof k))%nat -> a <> address (sepn k i) (sepn k j)) -> m' a = m a).
  Proof.
    intros Hk s_s. unfold schur_update. subst s_s. rewrite map_length, Nat.leb_refl. eexists. split; [reflexivity|].
    set (adr := fun i j => address (sepn k i) (sepn k j)).
    set (L := lower_pairs (length (sepof k))).
    assert (combine L (map (fun ij => adr (fst ij) (snd ij)) L) = map (fun ij => (ij, adr (fst ij) (snd ij))) L) as EC.
    { clear. induction L; cbn; auto. f_equal; auto. }
    unfold adr in EC at 1. rewrite EC, fold_left_map.
    assert (forall l m, fold_left (fun (m0 : rmem) a => let '(j, k0, a0) := (a, adr (fst a) (snd a)) in
        mem_set R m0 a0 (m0 a0 - rsum s (fun t => T t k0 * X t j))) l m =
      fold_left (fun m ij => mem_set R m (adr (fst ij) (snd ij)) (m (adr (fst ij) (snd ij)) - rsum s (fun t => T t (snd ij) * X t (fst ij)))) l m) as EF.
    { clear. induction l as [|(i,j) l IH]; intros m; cbn; auto. }
    rewrite EF. split.
    - intros i j H.
      refine (eq_trans (fold_set_hit R (fun ij => adr (fst ij) (snd ij)) (fun x ij => x - rsum s (fun t => T t (snd ij) * X t (fst ij))) L m (i, j) _ _) _); auto.
      + apply nodup_map_inj; [apply lower_pairs_nodup|].
        intros (a,b) (a',b') H1 H2 E'. apply lower_pairs_in in H1, H2. unfold adr in E'. cbn in E'.
        apply (address_inj _ _ FC) in E'; try (apply sep_low; auto).
        destruct E' as [E1 E2]. apply sep_inj in E1, E2; try lia. congruence.
      + apply lower_pairs_in; auto.
    - intros a Ha.
      apply (fold_set_other R (fun ij => adr (fst ij) (snd ij)) (fun m ij => m (adr (fst ij) (snd ij)) - rsum s (fun t => T t (snd ij) * X t (fst ij)))).
      intros (i,j) Hin E'. apply lower_pairs_in in Hin. symmetry in E'. exact (Ha i j Hin E').
  Qed.

  Definition sepval k r (f : nat -> R) : R :=
    match sep_pos r (sepof k) 0 with Some j => f j | None => 0 end.

  Lemma sepval_nth k j f : (k < n)%nat -> (j < length (sepof k))%nat -> sepval k (sepn k j) f = f j.
  Proof.
    intros Hk Hj. unfold sepval. rewrite sep_pos_nth; auto. apply (sep_nodup _ _ FC); auto.
  Qed.

  Lemma sepval_none k r f : ~ In r (sepof k) -> sepval k r f = 0.
  Proof.
    intros H. unfold sepval. pose proof (sep_pos_spec r (sepof k) 0) as H1. destruct (sep_pos r (sepof k) 0) as [j|]; auto.
    exfalso. apply H. destruct H1 as [H1 H2]. rewrite <- H2. apply nth_In. lia.
  Qed.

  (** Columns of later blocks in terms of the updated storage. *)
  Lemma schur_view m s k T X m' : (k < n)%nat ->
    schur_update m s (length (sepof k)) T X
      (map (fun ij => address (sepn k (fst ij)) (sepn k (snd ij))) (lower_pairs (length (sepof k)))) = Ok m' ->
    (forall a, (anode a <= k)%nat -> m' a = m a) /\
    (forall r c, (off (S k) <= c <= r)%nat -> (r < N)%nat ->
       view m r c = view m' r c + rsum s (fun t => sepval k c (T t) * sepval k r (X t))).
  Proof.
    intros Hk E. destruct (schur_update_ok m s k T X Hk) as (m0 & E0 & H1 & H2).
    cbv zeta in E0. rewrite E0 in E. inversion E; subst m0. clear E E0.
    split.
    - intros a Ha. apply H2. intros i j Hij ->. rewrite anode_address in Ha by (apply sep_low; auto).
      destruct (sep_in _ _ FC k j Hk ltac:(lia)) as [_ Ho]. lia.
    - intros r c Hc Hr.
      destruct (in_dec Nat.eq_dec r (sepof k)) as [Ir|Ir]; [destruct (in_dec Nat.eq_dec c (sepof k)) as [Ic|Ic]|].
      + apply (In_nth _ _ 0%nat) in Ir as (i & Hi & Ei). apply (In_nth _ _ 0%nat) in Ic as (j & Hj & Ej).
        assert (j <= i)%nat as Hji.
        { destruct (Nat.le_gt_cases j i) as [|Hlt]; auto. pose proof (sep_le k j i Hk ltac:(lia)).
          assert (sepn k i = sepn k j) as E by lia. apply sep_inj in E; auto; lia. }
        subst r c. rewrite !(view_stored _ _ FC) by (apply sep_low; auto).
        rewrite H1 by auto.
        assert (rsum s (fun t => sepval k (sepn k j) (T t) * sepval k (sepn k i) (X t)) = rsum s (fun t => T t j * X t i)) as ->; [|lra].
        apply rsum_ext. intros t _. rewrite !sepval_nth; auto.
      + rewrite (rsum_zero s) by (intros t _; rewrite (sepval_none k c) by auto; ring).
        assert (forall mm, (forall a, (forall i j, (j <= i < length (sepof k))%nat -> a <> address (sepn k i) (sepn k j)) -> mm a = m a) ->
                 view mm r c = view m r c) as Hv.
        { intros mm Hm. destruct (stored_dec rows size r c ltac:(lia) ltac:(lia)) as [Hs|Hs].
          - rewrite !(view_stored _ _ FC) by auto. apply Hm. intros i j Hij E.
            apply (address_inj _ _ FC) in E; auto; [|apply sep_low; auto]. apply Ic. destruct E as [_ ->]. apply nth_In. lia.
          - rewrite !(view_unstored _ _ FC) by (auto; lia). auto. }
        rewrite (Hv m') by auto. lra.
      + rewrite (rsum_zero s) by (intros t _; rewrite (sepval_none k r) by auto; ring).
        assert (view m' r c = view m r c) as ->; [|lra].
        destruct (stored_dec rows size r c ltac:(lia) ltac:(lia)) as [Hs|Hs].
        * rewrite !(view_stored _ _ FC) by auto. apply H2. intros i j Hij E.
          apply (address_inj _ _ FC) in E; auto; [|apply sep_low; auto]. apply Ir. destruct E as [-> _]. apply nth_In. lia.
        * rewrite !(view_unstored _ _ FC) by (auto; lia). auto.
  Qed.

  Lemma view_frame m m' k r c : (k <= n)%nat -> (forall a, (k <= anode a)%nat -> m' a = m a) ->
    (off k <= c)%nat -> (c < N)%nat -> view m' r c = view m r c.
  Proof.
    intros Hk H Hc HcN. apply (owner_le _ _ FC) in Hc; auto.
    unfold BlockProofs.view, BlockProofs.Gof, diag_of. cbv zeta. destruct (owner r =? owner c)%nat; [apply H; auto|].
    destruct (sep_pos _ _ _); auto.
  Qed.

  Lemma Gof_frame gd gd' m m' k r c : (k <= n)%nat ->
    (forall a, (anode a < k)%nat -> m' a = m a) ->
    (forall j i t, (j < k)%nat -> (i < sz j)%nat -> (t < sz j)%nat -> gd' j i t = gd j i t) ->
    (r < N)%nat -> (c < off k)%nat -> Gof gd' m' r c = Gof gd m r c.
  Proof.
    intros Hk H Hg Hr Hc.
    assert (c < N)%nat as HcN by (pose proof (off_le_dim _ _ FC k ltac:(lia)); lia).
    assert (owner c < k)%nat as Ho.
    { destruct (Nat.lt_ge_cases (owner c) k) as [|Hge]; auto. apply (owner_le _ _ FC) in Hge; auto. lia. }
    unfold BlockProofs.Gof. cbv zeta. destruct (Nat.eqb_spec (owner r) (owner c)) as [E|E].
    - apply Hg; auto.
      + destruct (owner_decomp _ _ FC r Hr) as (_ & i & Hi & ->). rewrite <- E at 1 2.
        destruct (owner_block _ _ FC _ Hr) as [_ [H1 H2]]. cbn in H2. rewrite E in *. lia.
      + destruct (owner_block _ _ FC _ HcN) as [_ [H1 H2]]. cbn in H2. lia.
    - destruct (sep_pos _ _ _); auto.
  Qed.

  (** Sum of the products of a block column, row by row. *)
  Definition Xrow gd (m : rmem) k r t : R := Gof gd m r (off k + t)%nat.

  Lemma Xrow_sep gd m k r t : (k < n)%nat -> (t < sz k)%nat -> (off (S k) <= r < N)%nat ->
    Gof gd m r (off k + t)%nat = sepval k r (fun j => m (AOff k t j)).
  Proof.
    intros Hk Ht Hr. assert (owner r <> k) as Ho.
    { pose proof (proj1 (owner_le _ _ FC (S k) r ltac:(lia) ltac:(lia)) ltac:(lia)). lia. }
    destruct (in_dec Nat.eq_dec r (sepof k)) as [Hin|Hin].
    - apply (In_nth _ _ 0%nat) in Hin as (j & Hj & Ej). subst r. rewrite (Gof_off _ _ FC) by auto.
      rewrite sepval_nth; auto.
    - rewrite (Gof_none _ _) by auto. rewrite sepval_none; auto.
  Qed.

  (** ** Cholesky factorization *)
  Definition chol_gd (m : rmem) : nat -> mat := fun k i t => if (t <=? i)%nat then m (ADiag k i t) else 0.
  Definition ones : vec := fun _ => 1.
  Definition GL (m : rmem) : mat := Gof (chol_gd m) m.

  Definition chol_inv (A : rmem) (k : nat) (m : rmem) : Prop :=
    elim_inv size (view A) (GL m) ones (fun _ => 0) (view m) k /\
    (forall j i, (j < k)%nat -> (i < sz j)%nat -> 0 < m (ADiag j i i)).

  Lemma chol_sum L s r c : (c <= r < s)%nat ->
    rsum s (fun t => (if (t <=? r)%nat then L r t else 0) * 1 * (if (t <=? c)%nat then L c t else 0)) =
    rsum (S c) (fun t => L r t * L c t).
  Proof.
    intros H. rewrite (rsum_split_at (S c) s) by lia.
    rewrite (rsum_zero (s - S c)).
    2:{ intros t Ht. destruct (Nat.leb_spec (S c + t) c); [lia|]. lra. }
    rewrite Rplus_0_r. apply rsum_ext. intros t Ht.
    destruct (Nat.leb_spec t r); [|lia]. destruct (Nat.leb_spec t c); [|lia]. lra.
  Qed.

  Lemma chol_block_step A m k m' : (k < n)%nat -> chol_inv A k m ->
    chol_block w ss m k = Ok (Some m') -> chol_inv A (S k) m'.
  Proof.
    intros Hk (IE & IP) E. unfold chol_block in E. rewrite sizeof_eq, sepsof_eq in E by auto.
    (* the diagonal block *)
    assert (forall L, (if (0 <? sz k * sz k)%nat then llt (sz k) (diag_of m k) else Some (diag_of m k)) = Some L ->
      (forall r c, (c <= r < sz k)%nat -> m (ADiag k r c) = rsum (S c) (fun t => L r t * L c t)) /\
      (forall c, (c < sz k)%nat -> 0 < L c c)) as HL.
    { intros L HL. destruct (Nat.ltb_spec 0 (sz k * sz k)) as [Hs|Hs].
      - destruct (llt_ok _ _ _ HL) as (H1 & H2 & _). split; auto.
      - assert (sz k = 0%nat) as -> by nia. split; intros; lia. }
    destruct (if (0 <? sz k * sz k)%nat then llt (sz k) (diag_of m k) else Some (diag_of m k)) as [L|]; [|discriminate].
    specialize (HL L eq_refl) as (HL & HP).
    (* state after the block: [m'] is related to [put_diag m k L] *)
    assert (exists X m2, m2 = put_off (put_diag m k L) k X /\
        (forall i j, (i < sz k)%nat -> (j < length (sepof k))%nat ->
            rsum (S i) (fun t => L i t * X t j) = m (AOff k i j)) /\
        (forall a, (anode a <= k)%nat -> m' a = m2 a) /\
        (forall r c, (off (S k) <= c <= r)%nat -> (r < N)%nat ->
           view m2 r c = view m' r c + rsum (sz k) (fun t => sepval k c (X t) * sepval k r (X t)))) as (X & m2 & Em2 & HX & HF & HV).
    { destruct (Nat.ltb_spec 0 (sz k * length (sepof k))) as [Hs|Hs].
      - unfold idx in E. rewrite (ss_eq k Hk) in E.
        cbn [bind] in E.
        match type of E with context [put_off _ k ?f] => set (X := f) in * end.
        destruct (schur_update _ _ _ _ _ _) as [m3| | |] eqn:ES; cbn [bind] in E; try discriminate.
        inversion E; subst m3. clear E.
        destruct (schur_view _ _ k _ _ _ Hk ES) as (S1 & S2).
        exists X. eexists. split; [reflexivity|]. split; [|split; auto].
        intros i j Hi Hj.
        destruct (fwd_solve_ok (sz k) L (fun t => off_of (put_diag m k L) k t j)) as (F1 & _).
        { intros t Ht. specialize (HP t Ht). lra. }
        rewrite (rsum_ext _ _ (fun t => L i t * fwd_solve (sz k) L (fun t => off_of (put_diag m k L) k t j) t)).
        2:{ intros t Ht. unfold X. destruct (Nat.ltb_spec j (length (sepof k))); [auto|lia]. }
        rewrite F1 by auto. reflexivity.
      - inversion E; subst m'. clear E. exists (off_of m k). eexists. split; [reflexivity|].
        split; [intros; nia|]. split.
        + intros [] _; cbn; auto. destruct (Nat.eqb_spec node k) as [->|]; auto.
        + intros r c Hc Hr. rewrite rsum_zero.
          * rewrite Rplus_0_r. apply view_frame with (k := S k); auto; [|lia|lia].
            intros [] Ha; cbn in *; auto. destruct (Nat.eqb_spec node k); auto; lia.
          * intros t Ht. assert (length (sepof k) = 0)%nat by nia.
            rewrite (sepval_none k c); [lra|]. destruct (sepof k); [auto|cbn in *; lia]. }
    assert (forall a, (anode a < k)%nat -> m' a = m a) as HFr.
    { intros a Ha. rewrite HF by lia. subst m2. destruct a; cbn in *; destruct (Nat.eqb_spec node k); auto; lia. }
    assert (forall i j, m' (ADiag k i j) = L i j) as HD.
    { intros i j. rewrite HF by (cbn; lia). subst m2. cbn. rewrite Nat.eqb_refl. auto. }
    assert (forall i j, m' (AOff k i j) = X i j) as HO.
    { intros i j. rewrite HF by (cbn; lia). subst m2. cbn. rewrite Nat.eqb_refl. auto. }
    split.
    2:{ intros j i Hj Hi. destruct (Nat.eq_dec j k) as [->|].
        - rewrite HD. auto.
        - rewrite HFr by (cbn; lia). apply IP; auto. lia. }
    refine (elim_step _ _ FC (view A) (GL m) (GL m') ones ones (fun _ => 0) (fun _ => 0) (view m) (view m') k (fun _ => 0) (fun _ => 0)
              Hk _ _ _ _ _ _ _ _ IE); auto.
    - intros r t Hr Ht. apply Gof_frame with (k := k); auto; [lia|].
      intros j i t' Hj Hi Ht'. unfold chol_gd. destruct (t' <=? i)%nat; auto; apply HFr; cbn; lia.
    - intros r t Ht Ho. apply (Gof_upper _ _ FC); auto.
    - intros; lra.
    - intros; lra.
    - intros r c Hc Hr.
      destruct (row_cases rows size k c Hk ltac:(lia)) as [(j & Hj & ->)|]; [|lia].
      destruct (row_cases rows size k r Hk ltac:(lia)) as [(i & Hi & ->)|Hr'].
      + unfold gdg, GL, ones. unfold BlockProofs.view. rewrite (Gof_diag _ _) by auto.
        unfold delta. replace (if (off k + i =? off k + j)%nat then 0 else 0) with 0 by (destruct (_ =? _)%nat; auto).
        rewrite Rplus_0_r. unfold diag_of. rewrite HL by lia. rewrite <- (chol_sum L (sz k)) by lia.
        apply rsum_ext. intros t Ht. rewrite !(Gof_diag _ _) by auto. unfold chol_gd. rewrite !HD. auto.
      + unfold gdg, GL, ones. unfold delta.
        replace (if (r =? off k + j)%nat then 0 else 0) with 0 by (destruct (_ =? _)%nat; auto).
        rewrite Rplus_0_r. unfold BlockProofs.view. rewrite Xrow_sep by (auto; lia).
        destruct (in_dec Nat.eq_dec r (sepof k)) as [Hin|Hin].
        * apply (In_nth _ _ 0%nat) in Hin as (p & Hp & Ep). subst r. rewrite sepval_nth by auto.
          rewrite <- HX by auto.
          rewrite (rsum_split_at (S j) (sz k)) by lia. rewrite (rsum_zero (sz k - S j)).
          2:{ intros t Ht. rewrite !(Gof_diag _ _) by (auto; lia). unfold chol_gd.
              destruct (Nat.leb_spec (S j + t) j); [lia|]. lra. }
          rewrite Rplus_0_r. apply rsum_ext. intros t Ht. rewrite !(Gof_off _ _ FC), !(Gof_diag _ _) by (auto; lia).
          unfold chol_gd. rewrite HD, HO. destruct (Nat.leb_spec t j); [|lia]. ring.
        * rewrite sepval_none by auto. symmetry. apply rsum_zero. intros t Ht. rewrite (Xrow_sep _ _ _ r) by (auto; lia).
          rewrite sepval_none by auto. ring.
    - intros r c Hc Hr. unfold delta.
      replace (if (r =? c)%nat then 0 else 0) with 0 by (destruct (_ =? _)%nat; auto).
      rewrite Rplus_0_r. assert (view m r c = view m2 r c) as ->.
      { symmetry. apply view_frame with (k := S k); auto; [|lia|lia].
        intros a Ha. subst m2. destruct a; cbn in *; destruct (Nat.eqb_spec node k); auto; lia. }
      rewrite HV by auto. f_equal. apply rsum_ext. intros t Ht. unfold GL, ones.
      rewrite !Xrow_sep by (auto; lia). unfold sepval.
      destruct (sep_pos c (sepof k) 0), (sep_pos r (sepof k) 0); rewrite ?HO; ring.
  Qed.

  Lemma chol_loop_ok A : forall len k m m', (k + len = n)%nat -> chol_inv A k m ->
    chol_loop w ss (seq k len) m = Ok (Some m') -> chol_inv A n m'.
  Proof.
    induction len as [|len IH]; intros k m m' Hk HI E; cbn in E.
    - inversion E; subst. replace n with k by lia. auto.
    - destruct (chol_block w ss m k) as [[m1|]| | |] eqn:EB; cbn in E; try discriminate.
      apply (IH (S k) m1); auto; [lia|]. eapply chol_block_step; eauto. lia.
  Qed.

  Lemma chol_block_total m k : (k < n)%nat -> exists r, chol_block w ss m k = Ok r.
  Proof.
    intros Hk. unfold chol_block. rewrite sizeof_eq, sepsof_eq by auto.
    destruct (if (0 <? sz k * sz k)%nat then _ else _); [|eexists; reflexivity].
    destruct (0 <? sz k * length (sepof k))%nat; [|eexists; reflexivity].
    unfold idx. rewrite ss_eq by auto. cbn [bind].
    match goal with |- exists r, bind (schur_update ?a ?b _ ?c ?d _) _ = _ => destruct (schur_update_ok a b k c d Hk) as (m' & E & _) end.
    cbv zeta in E. rewrite E. eexists; reflexivity.
  Qed.

  Lemma chol_total m : exists r, BlockCholeskyInPlace w ss m = Ok r.
  Proof.
    unfold BlockCholeskyInPlace. rewrite (len_snodes _ _ _ HW).
    assert (forall len k m, (k + len = n)%nat -> exists r, chol_loop w ss (seq k len) m = Ok r) as H; [|apply H; auto].
    induction len as [|len IH]; intros k m0 Hk; cbn; [eexists; reflexivity|].
    destruct (chol_block_total m0 k ltac:(lia)) as (r & ->). cbn. destruct r as [m1|]; [|eexists; reflexivity].
    apply IH. lia.
  Qed.

  Lemma chol_fact m m' : BlockCholeskyInPlace w ss m = Ok (Some m') ->
    (forall r c, (c <= r < N)%nat -> view m r c = rsum N (fun t => GL m' r t * GL m' c t)) /\
    (forall k i, (k < n)%nat -> (i < sz k)%nat -> 0 < m' (ADiag k i i)).
  Proof.
    unfold BlockCholeskyInPlace. rewrite (len_snodes _ _ _ HW). intros E.
    destruct (chol_loop_ok m n 0 m m' ltac:(lia)) as (HE & HP); auto.
    - split; [|intros; lia].
      split; intros r c H; cbn; try lia. intros _. unfold delta, gdg. cbn. destruct (r =? c)%nat; lra.
    - split; auto. intros r c H. destruct HE as (HE & _). rewrite (off_n _ _ FC) in HE.
      specialize (HE r c H ltac:(lia)). unfold delta in HE. replace (if (r =? c)%nat then 0 else 0) with 0 in HE by (destruct (_ =? _)%nat; auto).
      rewrite Rplus_0_r in HE. rewrite HE. apply rsum_ext. intros. unfold ones. cbn [Nat.add]. ring.
  Qed.
End Fac.
