(** Block LDLT: factorization and solves. *)
From Coq Require Import List Arith Reals Lra Lia Bool Permutation.
From Verif Require Import Base BaseFacts TriWorkspaceModel AssemblerModel Spec_Block TriWorkspaceProofs SupernodeProofs AssemblerProofs
  DenseModel BlockModel RSum DenseProofs BlockProofs BlockFactor BlockSolve.
Import ListNotations.
Open Scope R_scope.

Definition nofact : fact := mkFact [] false.

Section Ldlt.
  Variables (rows : list (list nat)) (size : list nat).
  Hypothesis FC : fill_closed rows size.
  Variable w : TriWS.
  Hypothesis HW : ws_ok rows size w.
  Variable ss : list (list addr).
  Hypothesis HSS : seperator_diagonal w = Ok ss.
  Notation n := (length rows).
  Notation N := (dim size).
  Notation off := (offset size).
  Notation sz k := (nth k size 0%nat).
  Notation sepof := (sepof rows size).
  Notation owner := (owner rows size).
  Notation stored := (stored rows size).
  Notation address := (address rows size).
  Notation view := (view rows size).
  Notation Gof := (Gof rows size).
  Notation sepn k j := (nth j (sepof k) 0%nat).

  Definition ldlt_gd (m : rmem) (fs : list fact) : nat -> mat := fun k i t =>
    Lx (diag_of m k) (tau (f_tr (nth k fs nofact)) i) t.
  Definition GM (m : rmem) (fs : list fact) : mat := Gof (ldlt_gd m fs) m.
  Definition dof (m : rmem) : vec := fun r =>
    let k := owner r in m (ADiag k (r - off k) (r - off k))%nat.

  Lemma dof_at m k i : (k < n)%nat -> (i < sz k)%nat -> dof m (off k + i)%nat = m (ADiag k i i).
  Proof. intros Hk Hi. unfold dof. rewrite own by auto. f_equal. f_equal; lia. Qed.

  (** Row [r] starts a block that follows an empty one. *)
  Definition exposed (k r : nat) : Prop := exists j, (j < k)%nat /\ sz j = 0%nat /\ off j = r.

  (** No pivot of block [k] was regularized. *)
  Definition clean_block (m : rmem) (f : fact) (k : nat) : Prop :=
    ((2 <= sz k)%nat /\ f_reg f = false) \/ (forall i, (i < sz k)%nat -> reg < Rabs (m (ADiag k i i))).

  Definition schur_at (A : rmem) (m : rmem) (fs : list fact) (r : nat) (a : nat) : R :=
    view A r r - gdg (GM m fs) (dof m) 0 a r r.

  Record linv (A : rmem) (k : nat) (m : rmem) (fs : list fact) (E : vec) : Prop := {
    li_len : length fs = k;
    li_tr : forall j, (j < k)%nat -> tr_ok (sz j) (f_tr (nth j fs nofact));
    li_elim : elim_inv size (view A) (GM m fs) (dof m) E (view m) k;
    li_d : forall j i, (j < k)%nat -> (i < sz j)%nat -> reg <= Rabs (m (ADiag j i i));
    li_E : forall r, (r < off k)%nat -> Rabs (E r) <= 2 * reg;
    li_E0 : forall r, (off k < r)%nat -> E r = 0;
    li_E1 : (off k < N)%nat -> E (off k) = 0 \/ (Rabs (E (off k)) <= reg /\ reg <= Rabs (view m (off k) (off k)));
    li_Z : forall j i, (j < k)%nat -> (i < sz j)%nat -> clean_block m (nth j fs nofact) j ->
        (~ exposed j (off j + i)%nat \/ reg <= Rabs (schur_at A m fs (off j + i)%nat (off j))) -> E (off j + i)%nat = 0;
    li_Z1 : (off k < N)%nat -> (~ exposed k (off k) \/ reg <= Rabs (schur_at A m fs (off k) (off k))) -> E (off k) = 0
  }.

  Hypothesis Hlast : (0 < sz (n - 1))%nat.

  Lemma next_nonempty_ok k len : (k + len = n)%nat -> (0 < len)%nat -> exists k', next_nonempty w k len = Some k' /\
    (k <= k' < n)%nat /\ (0 < sz k')%nat /\ forall j, (k <= j < k')%nat -> sz j = 0%nat.
  Proof.
    revert k. induction len as [|len IH]; intros k Hk Hl; [lia|]. cbn [next_nonempty]. rewrite (sizeof_eq _ _ w HW).
    destruct (Nat.ltb_spec 0 (sz k)) as [H|H].
    - exists k. repeat split; auto; intros; lia.
    - destruct len as [|len].
      + assert (n - 1 = k)%nat as E by lia. rewrite E in Hlast. lia.
      + destruct (IH (S k) ltac:(lia) ltac:(lia)) as (k' & E & H1 & H2 & H3). exists k'. split; [exact E|].
        split; [lia|]. split; auto. intros j Hj. destruct (Nat.eq_dec j k) as [->|]; [lia|]. apply H3. lia.
  Qed.

  Lemma off_run k k' : (k <= k')%nat -> (forall j, (k <= j < k')%nat -> sz j = 0%nat) -> off k' = off k.
  Proof.
    intros Hk. induction Hk as [|q Hq IH]; intros H; auto. rewrite off_S, IH, H by (intros; try apply H; lia). lia.
  Qed.

  (** Factor columns already computed do not change. *)
  Lemma GM_frame m m' fs f k r t : (k <= n)%nat -> length fs = k ->
    (forall a, (anode a < k)%nat -> m' a = m a) -> (r < N)%nat -> (t < off k)%nat ->
    GM m' (fs ++ [f]) r t = GM m fs r t.
  Proof.
    intros Hk Hl HF Hr Ht. unfold GM. apply (Gof_frame _ _ FC) with (k := k); auto.
    intros j i t' Hj Hi Ht'. unfold ldlt_gd. rewrite app_nth1 by lia. unfold Lx, diag_of.
    destruct (_ <? _)%nat; auto.
  Qed.

  Lemma dof_frame m m' k t : (k <= n)%nat -> (forall a, (anode a < k)%nat -> m' a = m a) -> (t < off k)%nat -> dof m' t = dof m t.
  Proof.
    intros Hk HF Ht. unfold dof. apply HF. cbn.
    pose proof (off_le_dim _ _ FC k ltac:(lia)).
    destruct (Nat.lt_ge_cases (owner t) k) as [|Hge]; auto. apply (owner_le _ _ FC) in Hge; lia.
  Qed.

  Lemma gdg_frame m m' fs f k a r c : (k <= n)%nat -> length fs = k ->
    (forall b, (anode b < k)%nat -> m' b = m b) -> (r < N)%nat -> (c < N)%nat -> (a <= off k)%nat ->
    gdg (GM m' (fs ++ [f])) (dof m') 0 a r c = gdg (GM m fs) (dof m) 0 a r c.
  Proof.
    intros Hk Hl HF Hr Hc Ha. unfold gdg. apply rsum_ext. intros t Ht. cbn [Nat.add].
    rewrite !(GM_frame m m' fs f k), (dof_frame m m' k) by (auto; lia). auto.
  Qed.

  Lemma clean_frame m m' fs f k j : length fs = k -> (j < k)%nat ->
    (forall b, (anode b < k)%nat -> m' b = m b) ->
    clean_block m' (nth j (fs ++ [f]) nofact) j -> clean_block m (nth j fs nofact) j.
  Proof.
    intros Hl Hj HF [H|H].
    - left. rewrite app_nth1 in H by lia. auto.
    - right. intros i Hi. rewrite <- HF by (cbn; lia). auto.
  Qed.

  (** ** Empty block *)
  Lemma ldlt_empty_step A k m fs E : (k < n)%nat -> sz k = 0%nat -> linv A k m fs E ->
    exists m' f E', ldlt_block w ss m k = Ok (m', f) /\ linv A (S k) m' (fs ++ [f]) E'.
  Proof.
    intros Hk Hz HI.
    unfold ldlt_block, factor_diag. rewrite (sizeof_eq _ _ w HW), Hz. cbn [Nat.eqb].
    rewrite (len_snodes _ _ _ HW).
    destruct (next_nonempty_ok k (n - k) ltac:(lia) ltac:(lia)) as (k' & Ek & H1 & H2 & H3). rewrite Ek. cbn [bind Nat.mul Nat.ltb Nat.leb].
    assert (k < k')%nat as Hkk. { destruct (Nat.eq_dec k k') as [->|]; lia. }
    assert (off k' = off k) as Eo by (apply off_run; auto; lia).
    assert (off (S k) = off k) as EoS by (rewrite off_S; lia).
    set (x := m (ADiag k' 0 0)).
    do 2 eexists. exists (fun r => E r + (if (r =? off k)%nat then small_pivot x - x else 0)).
    split; [reflexivity|].
    set (m' := mem_set R m (ADiag k' 0 0) (small_pivot x)).
    assert (off k < N)%nat as HkN by (rewrite <- Eo; pose proof (off_in _ _ FC k' 0 ltac:(lia) H2); lia).
    assert (forall a, (anode a < S k)%nat -> m' a = m a) as HF.
    { intros a Ha. unfold m', mem_set. destruct (addr_eqb_spec (ADiag k' 0 0) a) as [<-|]; auto. cbn in Ha. lia. }
    assert (forall a, (anode a < k)%nat -> m' a = m a) as HF' by (intros; apply HF; lia).
    assert (view m (off k) (off k) = x) as Ex.
    { rewrite <- Eo. replace (off k') with (off k' + 0)%nat by lia. unfold BlockProofs.view. rewrite Gof_diag by (auto; lia). reflexivity. }
    assert (view m' (off k) (off k) = small_pivot x) as Ex'.
    { rewrite <- Eo. replace (off k') with (off k' + 0)%nat by lia. unfold BlockProofs.view. rewrite Gof_diag by (auto; lia).
      unfold diag_of, m', mem_set. destruct (addr_eqb_spec (ADiag k' 0 0) (ADiag k' 0 0)); congruence. }
    assert (forall r c, (c <= r < N)%nat -> ~ (r = off k /\ c = off k) -> view m' r c = view m r c) as Hv.
    { intros r c Hr Hn. destruct (stored_dec rows size r c ltac:(lia) ltac:(lia)) as [Hs|Hs].
      - rewrite !(view_stored _ _ FC) by auto. unfold m', mem_set. destruct (addr_eqb_spec (ADiag k' 0 0) (address r c)) as [Ea|]; auto. symmetry in Ea.
        exfalso. apply Hn. 
        assert (stored (off k') (off k')) as Hst.
        { split; auto. split; [lia|]. replace (off k') with (off k' + 0)%nat at 1 by lia. rewrite own by (auto; lia).
          unfold stored_row. destruct (rows_split _ _ FC k' ltac:(lia)) as (-> & _). apply in_app_iff. left. apply in_seq. lia. }
        assert (address (off k') (off k') = ADiag k' 0 0) as Ea'.
        { unfold TriWorkspaceProofs.address. rewrite Nat.eqb_refl. replace (owner (off k')) with k'; [f_equal; lia|].
          replace (off k') with (off k' + 0)%nat by lia. rewrite own; auto; lia. }
        rewrite <- Ea' in Ea. apply (address_inj _ _ FC) in Ea; auto. lia.
      - rewrite !(view_unstored _ _ FC) by (auto; lia). auto. }
    destruct (small_pivot_spec x) as (SP1 & SP2 & SP3).
    assert (gdg (GM m' (fs ++ [mkFact [] false])) (dof m') 0 (off k) (off k) (off k) = gdg (GM m fs) (dof m) 0 (off k) (off k) (off k)) as Hgk.
    { apply gdg_frame with (k := k); auto; try lia. apply (li_len _ _ _ _ _ HI). }
    assert (E (off k) = 0 -> x = schur_at A m fs (off k) (off k)) as Hx.
    { intros E0. destruct (li_elim _ _ _ _ _ HI) as (_ & HB). specialize (HB (off k) (off k) ltac:(lia) HkN).
      unfold delta in HB. rewrite Nat.eqb_refl, E0, Ex in HB. unfold schur_at. lra. }
    constructor.
    - rewrite app_length, (li_len _ _ _ _ _ HI). cbn. lia.
    - intros j Hj. pose proof (li_len _ _ _ _ _ HI). destruct (Nat.eq_dec j k) as [->|].
      + rewrite app_nth2 by lia. rewrite H, Nat.sub_diag. cbn. split; cbn; [lia|]. intros p [].
      + rewrite app_nth1 by lia. apply (li_tr _ _ _ _ _ HI). lia.
    - refine (elim_step _ _ FC (view A) (GM m fs) _ (dof m) _ E _ (view m) (view m') k (fun _ => 0)
                (fun r => if (r =? off k)%nat then small_pivot x - x else 0) Hk _ _ _ _ _ _ _ _ (li_elim _ _ _ _ _ HI)).
      + intros r t Hr Ht. apply GM_frame with (k := k); auto; [lia|apply (li_len _ _ _ _ _ HI)].
      + intros t Ht. apply dof_frame with (k := k); auto; lia.
      + intros r t Ht Ho. apply (Gof_upper _ _ FC); auto.
      + intros r Hr. destruct (Nat.eqb_spec r (off k)); [lia|]. lra.
      + intros r Hr. lia.
      + intros r Hr. auto.
      + intros r c Hc. lia.
      + intros r c Hc Hr. rewrite Hz. unfold gdg. cbn [rsum]. unfold delta.
        destruct (Nat.eqb_spec r c) as [->|Hrc].
        * destruct (Nat.eqb_spec c (off k)) as [->|Hck].
          -- rewrite Ex, Ex'. lra.
          -- rewrite Hv by lia. lra.
        * rewrite Hv by lia. lra.
    - intros j i Hj Hi. destruct (Nat.eq_dec j k) as [->|]; [lia|].
      rewrite HF by (cbn; lia). apply (li_d _ _ _ _ _ HI); auto. lia.
    - intros r Hr. rewrite EoS in Hr. destruct (Nat.eqb_spec r (off k)); [lia|]. rewrite Rplus_0_r. apply (li_E _ _ _ _ _ HI). auto.
    - intros r Hr. rewrite EoS in Hr. destruct (Nat.eqb_spec r (off k)); [lia|]. rewrite Rplus_0_r. apply (li_E0 _ _ _ _ _ HI). auto.
    - rewrite EoS. intros _. rewrite Nat.eqb_refl, Ex'.
      destruct (li_E1 _ _ _ _ _ HI HkN) as [E0|[E1 E2]].
      + right. rewrite E0, Rplus_0_l. auto.
      + rewrite Ex in E2. rewrite SP3 by auto. right. replace (E (off k) + (x - x)) with (E (off k)) by lra. auto.
    - intros j i Hj Hi HC HX. destruct (Nat.eq_dec j k) as [->|Hjk]; [lia|].
      assert (off j + i < off k)%nat as Hlt.
      { pose proof (off_mono size (S j) k ltac:(lia)) as Hm. rewrite off_S in Hm. lia. }
      destruct (Nat.eqb_spec (off j + i)%nat (off k)); [lia|]. rewrite Rplus_0_r.
      apply (li_Z _ _ _ _ _ HI); auto; [lia| |].
      + apply (clean_frame m m' fs (mkFact [] false) k j); [apply (li_len _ _ _ _ _ HI)|lia|exact HF'|exact HC].
      + destruct HX as [HX|HX]; auto. right. unfold schur_at in *.
        rewrite (gdg_frame m m' fs _ k) in HX; auto; try lia; try (apply (li_len _ _ _ _ _ HI)).
    - rewrite EoS. intros _ [HX|HX].
      + exfalso. apply HX. exists k. split; [lia|]. auto.
      + rewrite Nat.eqb_refl. unfold schur_at in HX. rewrite Hgk in HX. fold (schur_at A m fs (off k) (off k)) in HX.
        pose proof (li_Z1 _ _ _ _ _ HI HkN (or_intror HX)) as E0. rewrite E0. rewrite <- (Hx E0) in HX. rewrite SP3 by auto. lra.
  Qed.

  (** ** Non-empty block *)
  Lemma tau_delta s tr i j x : tr_ok s tr -> delta (tau tr i) (tau tr j) x = delta i j x.
  Proof.
    intros Ht. unfold delta. destruct (Nat.eqb_spec i j) as [->|Hij]; [rewrite Nat.eqb_refl; auto|].
    destruct (Nat.eqb_spec (tau tr i) (tau tr j)) as [E|]; auto. exfalso. apply Hij.
    rewrite <- (sigma_tau tr i), <- (sigma_tau tr j), E. auto.
  Qed.

  Lemma ldlt_full_step A k m fs E : (k < n)%nat -> (0 < sz k)%nat -> linv A k m fs E ->
    exists m' f E', ldlt_block w ss m k = Ok (m', f) /\ linv A (S k) m' (fs ++ [f]) E'.
  Proof.
    intros Hk Hz HI.
    unfold ldlt_block, factor_diag. rewrite (sizeof_eq _ _ w HW), (sepsof_eq _ _ w HW) by auto.
    destruct (Nat.eqb_spec (sz k) 0) as [|_]; [lia|]. cbn [bind f_tr].
    destruct (rldlt_ok (sz k) (diag_of m k) ltac:(lia)) as (e & RP).
    set (st := rldlt (sz k) (diag_of m k)) in *.
    set (tr := ltr st) in *. set (L := lm st) in *. set (f := mkFact tr (negb (lret st))).
    assert (tr_ok (sz k) tr) as Htr by (split; [pose proof (rl_len _ _ _ _ RP) as Hq; fold tr in Hq; lia|apply (rl_tr _ _ _ _ RP)]).
    set (m1 := put_diag m k L).
    assert (forall i, (i < sz k)%nat -> L i i <> 0) as HL0.
    { intros i Hi E0. pose proof (rl_d _ _ _ _ RP i Hi) as Hd. fold L in Hd. rewrite E0, Rabs_R0 in Hd. pose proof reg_pos. lra. }
    assert (exists X m2 m', m2 = put_off m1 k X /\
        (if (0 <? sz k * length (sepof k))%nat
         then s_s <- idx ss k ;; m3 <- schur_update
              (put_off m1 k (fun i j => if ((i <? sz k) && (j <? length (sepof k)))%nat%bool
                then fwd_solve (sz k) (unit_lower (diag_of m1 k)) (perm_apply tr (fun t => off_of m1 k t j)) i / diag_of m1 k i i
                else off_of m1 k i j)) (sz k) (length (sepof k))
              (fun i j => diag_of m1 k i i * (if ((i <? sz k) && (j <? length (sepof k)))%nat%bool
                then fwd_solve (sz k) (unit_lower (diag_of m1 k)) (perm_apply tr (fun t => off_of m1 k t j)) i / diag_of m1 k i i
                else off_of m1 k i j))
              (fun i j => if ((i <? sz k) && (j <? length (sepof k)))%nat%bool
                then fwd_solve (sz k) (unit_lower (diag_of m1 k)) (perm_apply tr (fun t => off_of m1 k t j)) i / diag_of m1 k i i
                else off_of m1 k i j) s_s ;; Ok (m3, f)
         else Ok (m1, f)) = Ok (m', f) /\
        (forall i j, (i < sz k)%nat -> (j < length (sepof k))%nat ->
            rsum (sz k) (fun t => X t j * L t t * Lx L (tau tr i) t) = m (AOff k i j)) /\
        (forall a, (anode a <= k)%nat -> m' a = m2 a) /\
        (forall r c, (off (S k) <= c <= r)%nat -> (r < N)%nat ->
           view m2 r c = view m' r c + rsum (sz k) (fun t => sepval rows size k c (fun j => L t t * X t j) * sepval rows size k r (X t))))
      as (X & m2 & m' & Em2 & EB & HX & HF & HV).
    { assert (forall i j, diag_of m1 k i j = L i j) as ED by (intros; unfold diag_of, m1, put_diag; rewrite Nat.eqb_refl; auto).
      destruct (Nat.ltb_spec 0 (sz k * length (sepof k))) as [Hs|Hs].
      - unfold idx at 1. rewrite (ss_eq _ _ FC w HW ss HSS k Hk). cbn [bind].
        match goal with |- context [put_off m1 k ?g] => set (X := g) in * end.
        match goal with |- context [schur_update _ _ _ ?g X _] => set (T := g) in * end.
        destruct (schur_update_ok _ _ FC (put_off m1 k X) (sz k) k T X Hk) as (m' & ES & _). cbv zeta in ES.
        rewrite ES. cbn [bind].
        destruct (schur_view _ _ FC _ _ k _ _ _ Hk ES) as (S1 & S2).
        exists X. do 2 eexists. split; [reflexivity|]. split; [reflexivity|]. split; [|split; auto].
        + intros i j Hi Hj.
          pose proof (tau_lt _ _ i Htr Hi) as Hti.
          destruct (fwd_solve_ok (sz k) (unit_lower (diag_of m1 k)) (perm_apply tr (fun t => off_of m1 k t j))) as (F1 & _).
          { intros t Ht. unfold unit_lower. rewrite Nat.eqb_refl. lra. }
          specialize (F1 (tau tr i) Hti). rewrite perm_apply_spec, sigma_tau in F1.
          change (off_of m1 k i j) with (m (AOff k i j)) in F1. rewrite <- F1.
          rewrite (rsum_trunc (S (tau tr i)) (sz k)); [|lia|].
          * apply rsum_ext. intros t Ht. unfold X. destruct (Nat.ltb_spec t (sz k)); [|lia]. destruct (Nat.ltb_spec j (length (sepof k))); [|lia].
            cbn [andb]. rewrite ED. unfold Lx, unit_lower. rewrite ED.
            rewrite (Nat.eqb_sym t). destruct (Nat.eqb_spec (tau tr i) t) as [->|Hn].
            -- rewrite Nat.ltb_irrefl. field. auto.
            -- destruct (Nat.ltb_spec t (tau tr i)); [|lia]. field. auto.
          * intros t Ht. unfold Lx. destruct (Nat.ltb_spec t (tau tr i)); [lia|]. destruct (Nat.eqb_spec t (tau tr i)); [lia|]. lra.
        + intros r c Hc Hr. rewrite S2 by auto. f_equal. apply rsum_ext. intros t Ht. f_equal.
          unfold T. unfold sepval. destruct (sep_pos c (sepof k) 0); auto. rewrite <- ED. reflexivity.
      - exists (off_of m k). exists (put_off m1 k (off_of m k)), m1. split; [reflexivity|]. split; [reflexivity|].
        split; [intros; nia|]. split.
        + intros [] _; cbn; auto. destruct (Nat.eqb_spec node k) as [->|]; auto.
        + intros r c Hc Hr. rewrite rsum_zero.
          * rewrite Rplus_0_r. apply (view_frame _ _ FC) with (k := S k); auto; [|lia|lia].
            intros [] Ha; cbn in *; auto. destruct (Nat.eqb_spec node k); auto; lia.
          * intros t Ht. assert (length (sepof k) = 0)%nat by nia.
            rewrite (sepval_none _ _ k c); [lra|]. destruct (sepof k); [auto|cbn in *; lia]. }
    exists m', f. exists (fun r => E r + (if ((off k <=? r) && (r <? off (S k)))%nat%bool then e (tau tr (r - off k)) else 0)).
    split; [exact EB|]. clear EB.
    assert (forall a, (anode a < k)%nat -> m' a = m a) as HFr.
    { intros a Ha. rewrite HF by lia. subst m2. unfold m1. destruct a; cbn in *; destruct (Nat.eqb_spec node k); auto; lia. }
    assert (forall i j, m' (ADiag k i j) = L i j) as HD.
    { intros i j. rewrite HF by (cbn; lia). subst m2. cbn. rewrite Nat.eqb_refl. auto. }
    assert (forall i j, m' (AOff k i j) = X i j) as HO.
    { intros i j. rewrite HF by (cbn; lia). subst m2. cbn. rewrite Nat.eqb_refl. auto. }
    pose proof (li_len _ _ _ _ _ HI) as Hlen.
    assert (nth k (fs ++ [f]) nofact = f) as Ef by (rewrite app_nth2 by lia; rewrite Hlen, Nat.sub_diag; auto).
    assert (forall i t, ldlt_gd m' (fs ++ [f]) k i t = Lx L (tau tr i) t) as Hgd.
    { intros i t. unfold ldlt_gd. rewrite Ef. cbn [f_tr f]. unfold Lx. unfold diag_of. rewrite HD. auto. }
    assert (forall i, (i < sz k)%nat -> (if ((off k <=? off k + i) && (off k + i <? off (S k)))%nat%bool then e (tau tr (off k + i - off k)) else 0) = e (tau tr i)) as Hei.
    { intros i Hi. rewrite off_S. destruct (Nat.leb_spec (off k) (off k + i)); [|lia]. destruct (Nat.ltb_spec (off k + i) (off k + sz k)); [|lia].
      cbn [andb]. f_equal. f_equal. lia. }
    assert (forall r, (r < off k \/ off (S k) <= r)%nat -> (if ((off k <=? r) && (r <? off (S k)))%nat%bool then e (tau tr (r - off k)) else 0) = 0) as Heo.
    { intros r Hr. destruct (Nat.leb_spec (off k) r), (Nat.ltb_spec r (off (S k))); cbn [andb]; auto; lia. }
    pose proof reg_pos as Hreg.
    constructor.
    - rewrite app_length, Hlen. cbn. lia.
    - intros j Hj. destruct (Nat.eq_dec j k) as [->|].
      + rewrite Ef. exact Htr.
      + rewrite app_nth1 by lia. apply (li_tr _ _ _ _ _ HI). lia.
    - refine (elim_step _ _ FC (view A) (GM m fs) _ (dof m) _ E _ (view m) (view m') k
                (fun r => if ((off k <=? r) && (r <? off (S k)))%nat%bool then e (tau tr (r - off k)) else 0) (fun _ => 0) Hk _ _ _ _ _ _ _ _ (li_elim _ _ _ _ _ HI)).
      + intros r t Hr Ht. apply GM_frame with (k := k); auto; lia.
      + intros t Ht. apply dof_frame with (k := k); auto; lia.
      + intros r t Ht Ho. apply (Gof_upper _ _ FC); auto.
      + intros r Hr. rewrite Heo by auto. lra.
      + intros r Hr. auto.
      + intros r Hr. rewrite Heo by lia. lra.
      + intros r c Hc Hr.
        destruct (row_cases rows size k c Hk ltac:(lia)) as [(j & Hj & ->)|]; [|lia].
        destruct (row_cases rows size k r Hk ltac:(lia)) as [(i & Hi & ->)|Hr'].
        * rewrite Hei by auto. unfold gdg, GM. unfold BlockProofs.view. rewrite Gof_diag by auto.
          pose proof (rl_fact _ _ _ _ RP (tau tr i) (tau tr j) (tau_lt _ _ i Htr Hi) (tau_lt _ _ j Htr Hj)) as RF.
          fold tr L in RF. rewrite !sigma_tau in RF. rewrite (tau_delta (sz k)) in RF by auto.
          replace (delta (off k + i) (off k + j) (e (tau tr i))) with (delta i j (e (tau tr i))).
          2:{ unfold delta. destruct (Nat.eqb_spec i j) as [->|]; [rewrite Nat.eqb_refl; auto|].
              destruct (Nat.eqb_spec (off k + i) (off k + j)); [lia|auto]. }
          rewrite sym_lower in RF by lia. unfold diag_of at 1 in RF. unfold diag_of at 1. rewrite RF.
          apply rsum_ext. intros t Ht. rewrite !Gof_diag by auto. rewrite !Hgd, dof_at, HD by auto. auto.
        * unfold delta. destruct (Nat.eqb_spec r (off k + j)); [lia|]. rewrite Rplus_0_r. unfold gdg, GM, BlockProofs.view.
          rewrite (Xrow_sep _ _ FC) by (auto; lia).
          destruct (in_dec Nat.eq_dec r (sepof k)) as [Hin|Hin].
          -- apply (In_nth _ _ 0%nat) in Hin as (p & Hp & Ep). subst r. rewrite (sepval_nth _ _ FC) by auto.
             rewrite <- HX by auto. apply rsum_ext. intros t Ht.
             rewrite (Gof_off _ _ FC), Gof_diag, dof_at by (auto; lia). rewrite Hgd, HD, HO. ring.
          -- rewrite sepval_none by auto. symmetry. apply rsum_zero. intros t Ht. rewrite (Xrow_sep _ _ FC _ _ _ r) by (auto; lia).
             rewrite sepval_none by auto. ring.
      + intros r c Hc Hr. unfold delta.
        replace (if (r =? c)%nat then 0 else 0) with 0 by (destruct (_ =? _)%nat; auto).
        rewrite Rplus_0_r. assert (view m r c = view m2 r c) as ->.
        { symmetry. apply (view_frame _ _ FC) with (k := S k); auto; [|lia|lia].
          intros a Ha. subst m2. unfold m1. destruct a; cbn in *; destruct (Nat.eqb_spec node k); auto; lia. }
        rewrite HV by auto. f_equal. apply rsum_ext. intros t Ht. unfold GM.
        rewrite !(Xrow_sep _ _ FC) by (auto; lia). rewrite dof_at, HD by auto. unfold sepval.
        destruct (sep_pos c (sepof k) 0), (sep_pos r (sepof k) 0); rewrite ?HO; ring.
    - intros j i Hj Hi. destruct (Nat.eq_dec j k) as [->|].
      + rewrite HD. apply (rl_d _ _ _ _ RP). auto.
      + rewrite HFr by (cbn; lia). apply (li_d _ _ _ _ _ HI); auto. lia.
    - intros r Hr. destruct (Nat.lt_ge_cases r (off k)) as [Hlt|Hge].
      + rewrite Heo by auto. rewrite Rplus_0_r. apply (li_E _ _ _ _ _ HI). auto.
      + pose proof (off_le_dim _ _ FC (S k) ltac:(lia)) as HbN.
        destruct (row_cases rows size k r Hk ltac:(lia)) as [(i & Hi & ->)|]; [|lia].
        rewrite Hei by auto. pose proof (rl_e _ _ _ _ RP (tau tr i) (tau_lt _ _ i Htr Hi)) as Hb.
        assert (Rabs (E (off k + i)%nat) <= reg) as Hb2.
        { destruct (Nat.eq_dec i 0) as [->|Hi0].
          - rewrite Nat.add_0_r. destruct (li_E1 _ _ _ _ _ HI) as [->|[H _]]; auto.
            + pose proof (off_in _ _ FC k 0 Hk Hz). lia.
            + rewrite Rabs_R0. lra.
          - rewrite (li_E0 _ _ _ _ _ HI) by lia. rewrite Rabs_R0. lra. }
        pose proof (Rabs_triang (E (off k + i)%nat) (e (tau tr i))). lra.
    - intros r Hr. rewrite Heo by lia. rewrite (li_E0 _ _ _ _ _ HI); [lra|]. rewrite off_S in Hr. lia.
    - intros _. left. rewrite Heo by lia. rewrite (li_E0 _ _ _ _ _ HI); [lra|]. rewrite off_S. lia.
    - intros j i Hj Hi HC HXX. destruct (Nat.eq_dec j k) as [->|Hjk].
      + rewrite Hei by auto. rewrite Ef in HC.
        assert (e (tau tr i) = 0) as ->.
        { pose proof (tau_lt _ _ i Htr Hi) as Hti. destruct HC as [[H1 H2]|H1].
          - apply (rl_ret _ _ _ _ RP); auto. cbn in H2. apply negb_false_iff in H2. exact H2.
          - apply (rl_strict _ _ _ _ RP); auto. fold L. rewrite <- HD. apply H1. auto. }
        rewrite Rplus_0_r. destruct (Nat.eq_dec i 0) as [->|Hi0]; [|apply (li_E0 _ _ _ _ _ HI); lia].
        pose proof (off_in _ _ FC k 0 Hk Hz) as HN. rewrite Nat.add_0_r in *.
        apply (li_Z1 _ _ _ _ _ HI); auto. destruct HXX as [HXX|HXX]; auto. right. unfold schur_at in *.
        rewrite (gdg_frame m m' fs _ k) in HXX; auto; try lia.
      + assert (off j + i < off k)%nat as Hlt.
        { pose proof (off_mono size (S j) k ltac:(lia)) as Hm. rewrite off_S in Hm. lia. }
        rewrite Heo by auto. rewrite Rplus_0_r.
        pose proof (off_le_dim _ _ FC k ltac:(lia)) as HkN.
        apply (li_Z _ _ _ _ _ HI); auto; [lia| |].
        * apply (clean_frame m m' fs f k j); [exact Hlen|lia|exact HFr|exact HC].
        * destruct HXX as [HXX|HXX]; auto. right. unfold schur_at in *.
          rewrite (gdg_frame m m' fs _ k) in HXX; auto; try lia.
    - intros _ _. rewrite Heo by lia. rewrite (li_E0 _ _ _ _ _ HI); [lra|]. rewrite off_S. lia.
  Qed.

  Lemma linv_start A : linv A 0 A [] (fun _ => 0).
  Proof.
    pose proof reg_pos. constructor; auto; try (intros; lia).
    - split; intros r c H0; cbn; try lia. intros _. unfold delta, gdg. cbn. destruct (r =? c)%nat; lra.
    - intros r Hr. cbn in Hr. lia.
  Qed.

  Lemma ldlt_loop_ok A : exists m' fs E,
    foldM (fun st k => let '(m, fs) := st in '(m', f) <- ldlt_block w ss m k ;; Ok (m', fs ++ [f]))
      (A, []) (seq 0 n) = Ok (m', fs) /\ linv A n m' fs E.
  Proof.
    destruct (foldM_seq_inv (fun st k => let '(m, fs) := st in '(m', f) <- ldlt_block w ss m k ;; Ok (m', fs ++ [f]))
       (fun k st => exists E, linv A k (fst st) (snd st) E) n (A, [])) as ((m', fs) & E1 & E & HI).
    - exists (fun _ => 0). apply linv_start.
    - intros k (m, fs) Hk (E & HI). cbn [fst snd] in HI.
      assert (exists m' f E', ldlt_block w ss m k = Ok (m', f) /\ linv A (S k) m' (fs ++ [f]) E') as (m' & f & E' & EB & HI').
      { destruct (Nat.eq_dec (sz k) 0) as [Hz|Hz].
        - apply (ldlt_empty_step A k m fs E Hk Hz HI).
        - apply (ldlt_full_step A k m fs E Hk ltac:(lia) HI). }
      rewrite EB. cbn [bind]. eexists. split; [reflexivity|]. exists E'. exact HI'.
    - exists m', fs, E. auto.
  Qed.

  Lemma ldlt_fact A : exists m fs E,
    BlockLDLTInPlace w ss A = Ok (m, fs, negb (existsb f_reg fs)) /\ linv A n m fs E /\
    (forall r c, (c <= r < N)%nat -> view A r c + delta r c (E r) = rsum N (fun t => GM m fs r t * dof m t * GM m fs c t)).
  Proof.
    destruct (ldlt_loop_ok A) as (m & fs & E & EL & HI). exists m, fs, E.
    split; [|split; auto].
    - unfold BlockLDLTInPlace. rewrite (len_snodes _ _ _ HW), EL. reflexivity.
    - intros r c Hr. destruct (li_elim _ _ _ _ _ HI) as (HE & _). rewrite (off_n _ _ FC) in HE. apply HE; lia.
  Qed.
End Ldlt.
