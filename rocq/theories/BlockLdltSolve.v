(** Solves with the block LDLT factors, and the two end results. *)
From Coq Require Import List Arith Reals Lra Lia Bool Permutation.
From Verif Require Import Base BaseFacts TriWorkspaceModel AssemblerModel Spec_Block TriWorkspaceProofs SupernodeProofs AssemblerProofs
  DenseModel BlockModel RSum DenseProofs BlockProofs BlockFactor BlockSolve BlockLdlt.
Import ListNotations.
Open Scope R_scope.

Section LdltSolve.
  Variables (rows : list (list nat)) (size : list nat).
  Hypothesis FC : fill_closed rows size.
  Variable w : TriWS.
  Hypothesis HW : ws_ok rows size w.
  Notation n := (length rows).
  Notation N := (dim size).
  Notation off := (offset size).
  Notation sz k := (nth k size 0%nat).
  Notation sepof := (sepof rows size).
  Notation owner := (owner rows size).
  Notation view := (view rows size).
  Notation Gof := (Gof rows size).

  Variable m : rmem.
  Variable fs : list fact.
  Hypothesis Hlen : length fs = n.
  Hypothesis Htr : forall k, (k < n)%nat -> tr_ok (sz k) (f_tr (nth k fs nofact)).
  Hypothesis Hd : forall k i, (k < n)%nat -> (i < sz k)%nat -> m (ADiag k i i) <> 0.
  Notation G := (GM rows size m fs).
  Notation tr k := (f_tr (nth k fs nofact)).

  Lemma fs_idx k : (k < n)%nat -> idx fs k = Ok (nth k fs nofact).
  Proof. intros Hk. unfold idx. rewrite (nth_error_nth' fs nofact) by lia. auto. Qed.

  Lemma Lx_unit L i t : (t <= i)%nat -> Lx L i t = unit_lower L i t.
  Proof.
    intros H. unfold Lx, unit_lower. destruct (Nat.ltb_spec t i).
    - destruct (Nat.eqb_spec i t); [lia|]. auto.
    - assert (t = i) as -> by lia. rewrite !Nat.eqb_refl. auto.
  Qed.
  Lemma Lx_up L i t : (i < t)%nat -> Lx L i t = 0.
  Proof.
    intros H. unfold Lx. destruct (Nat.ltb_spec t i); [lia|]. destruct (Nat.eqb_spec t i); [lia|]. auto.
  Qed.

  Lemma G_diag k i t : (k < n)%nat -> (i < sz k)%nat -> (t < sz k)%nat ->
    G (off k + i)%nat (off k + t)%nat = Lx (diag_of m k) (tau (tr k) i) t.
  Proof. intros. unfold GM. rewrite Gof_diag by auto. reflexivity. Qed.

  Lemma ldlt_fwd_diag_ok b y k : (k < n)%nat -> fwd_inv size G b y k ->
    fwd_mid size G b (ldlt_fwd_diag w m (nth k fs nofact) k (off k) y) k.
  Proof.
    intros Hk HI. unfold ldlt_fwd_diag. rewrite (sizeof_eq _ _ w HW).
    set (y1 := put_seg y (off k) (sz k) (perm_apply (tr k) (seg y (off k)))).
    destruct (fwd_solve_ok (sz k) (unit_lower (diag_of m k)) (seg y1 (off k))) as (F1 & _).
    { intros i Hi. unfold unit_lower. rewrite Nat.eqb_refl. lra. }
    eapply (fwd_solve_step _ _ FC _ _ y); eauto.
    - intros r t Ht Ho. apply (Gof_upper _ _ FC); auto.
    - intros i Hi. pose proof (tau_lt _ _ i (Htr k Hk) Hi) as Hti.
      assert (seg y1 (off k) (tau (tr k) i) = y (off k + i)%nat) as E1.
      { unfold seg at 1, y1. rewrite put_seg_in by auto. rewrite perm_apply_spec, sigma_tau. reflexivity. }
      rewrite <- E1, <- F1 by auto. rewrite (rsum_trunc (S (tau (tr k) i)) (sz k)); [|lia|].
      + apply rsum_ext. intros t Ht. rewrite G_diag by (auto; lia). rewrite put_seg_in by lia. rewrite Lx_unit by lia. auto.
      + intros t Ht. rewrite G_diag by (auto; lia). rewrite Lx_up by lia. lra.
    - intros r Hr. rewrite off_S in Hr. rewrite put_seg_out by lia. unfold y1. apply put_seg_out. lia.
  Qed.

  Lemma ldlt_bwd_diag_ok z y k : (k < n)%nat -> bwd_inv size G z y (S k) ->
    bwd_mid size G z (ldlt_bwd_diag w m (nth k fs nofact) k (off k) y) k.
  Proof.
    intros Hk HI. unfold ldlt_bwd_diag. rewrite (sizeof_eq _ _ w HW).
    set (y1 := put_seg y (off k) (sz k) (bwd_solve (sz k) (unit_lower (diag_of m k)) (seg y (off k)))).
    destruct (bwd_solve_ok (sz k) (unit_lower (diag_of m k)) (seg y (off k))) as (F1 & _).
    { intros i Hi. unfold unit_lower. rewrite Nat.eqb_refl. lra. }
    set (v := bwd_solve (sz k) (unit_lower (diag_of m k)) (seg y (off k))) in *.
    eapply (bwd_solve_step _ _ FC _ _ y); eauto.
    - intros r t Ht Ho. apply (Gof_upper _ _ FC); auto.
    - intros i Hi. change (y (off k + i)%nat) with (seg y (off k) i). rewrite <- F1 by auto.
      rewrite (rsum_ext (sz k) _ (fun a => (fun b => Lx (diag_of m k) b i * v b) (tau (tr k) a))).
      2:{ intros a Ha. rewrite G_diag by auto. rewrite put_seg_in by auto. rewrite perm_apply_T_spec.
          pose proof (tau_lt _ _ a (Htr k Hk) Ha). unfold seg at 1, y1. rewrite put_seg_in by auto. auto. }
      rewrite (rsum_reindex (sz k) (tau (tr k)) (fun b => Lx (diag_of m k) b i * v b)).
      + rewrite (rsum_split_at i (sz k)) by lia. rewrite (rsum_zero i).
        2:{ intros a Ha. rewrite Lx_up by auto. lra. }
        rewrite Rplus_0_l. apply rsum_ext. intros t Ht. rewrite Lx_unit by lia. auto.
      + intros a Ha. apply tau_lt; auto.
      + intros a a' Ha Ha' E. rewrite <- (sigma_tau (tr k) a), <- (sigma_tau (tr k) a'), E. auto.
    - intros r Hr. rewrite off_S in Hr. rewrite put_seg_out by lia. unfold y1. apply put_seg_out. lia.
  Qed.

  Lemma ldlt_scale_ok y : exists y', for_up n (ldlt_scale w m) (y, 0%nat) = (y', N) /\
    forall r, (r < N)%nat -> y' r = / dof rows size m r * y r.
  Proof.
    pose proof (for_up_inv (fun k st => snd st = off k /\
       (forall r, (r < off k)%nat -> fst st r = / dof rows size m r * y r) /\ (forall r, (off k <= r)%nat -> fst st r = y r))
       n (ldlt_scale w m) (y, 0%nat)) as H.
    destruct H as (H1 & H2 & _).
    - cbn. split; auto. split; intros; [lia|auto].
    - intros k (y0, s0) Hk (E & HA & HB). cbn [fst snd] in *. subst s0. unfold ldlt_scale. rewrite (sizeof_eq _ _ w HW). cbn [fst snd].
      rewrite off_S. split; auto. split.
      + intros r Hr. destruct (Nat.lt_ge_cases r (off k)) as [Hlt|Hge].
        * rewrite put_seg_out by auto. auto.
        * assert (exists i, (i < sz k)%nat /\ r = (off k + i)%nat) as (i & Hi & ->) by (exists (r - off k)%nat; lia).
          rewrite put_seg_in by auto. unfold seg. rewrite HB by lia. rewrite dof_at by auto. reflexivity.
      + intros r Hr. rewrite put_seg_out by lia. apply HB. lia.
    - exists (fst (for_up n (ldlt_scale w m) (y, 0%nat))). rewrite off_n in H1, H2 by auto.
      split; [apply injective_projections; auto|]. exact H2.
  Qed.

  Lemma ldlt_fwd b : (0 < n)%nat -> exists z, ApplyBlockInverseOfMD w m fs b = Ok z /\
    exists y, (forall r, (r < N)%nat -> rsum N (fun t => G r t * y t) = b r) /\
              (forall r, (r < N)%nat -> z r = / dof rows size m r * y r).
  Proof.
    intros Hn. unfold ApplyBlockInverseOfMD. rewrite (len_snodes _ _ _ HW).
    assert (exists n1, n = S n1) as (n1 & En) by (exists (n - 1)%nat; lia). rewrite En.
    rewrite fs_idx by lia. cbn [bind].
    destruct (foldM_seq_inv (ldlt_fwd_block w m fs) (fun k st => exists y, st = (y, off k) /\ fwd_mid size G b y k) n1
       (ldlt_fwd_diag w m (nth 0 fs nofact) 0 0 b, 0%nat)) as (st & E & y & -> & HM).
    - eexists. split; [reflexivity|]. apply (ldlt_fwd_diag_ok b b 0 Hn).
      split; intros r Hr; cbn in *; [lia|lra].
    - intros k st Hk (y & -> & HM). unfold ldlt_fwd_block. rewrite fs_idx by lia. cbn [bind].
      rewrite (sizeof_eq _ _ w HW), <- off_S. eexists. split; [reflexivity|]. eexists. split; [reflexivity|].
      apply ldlt_fwd_diag_ok; [lia|].
      pose proof (fwd_sub_step _ _ FC w HW (ldlt_gd m fs) m b y k ltac:(lia) HM) as HF.
      rewrite (sizeof_eq _ _ w HW) in HF. exact HF.
    - rewrite E. cbn [bind]. destruct (ldlt_scale_ok y) as (z & Ez & Hz). rewrite En in Ez. rewrite Ez.
      exists z. split; auto. exists y. split; auto.
      destruct HM as (HM & _). pose proof (off_n _ _ FC) as Ho. rewrite En in Ho. rewrite Ho in HM. auto.
  Qed.

  Lemma ldlt_bwd z : (0 < n)%nat -> exists x, ApplyBlockInverseOfMTranspose w m fs z = Ok x /\
    forall t, (t < N)%nat -> rsum N (fun r => G r t * x r) = z t.
  Proof.
    intros Hn. unfold ApplyBlockInverseOfMTranspose. rewrite (len_snodes _ _ _ HW).
    rewrite (iter_reset_ok _ _ FC w HW) by auto. cbn [snd].
    assert (exists n1, n = S n1) as (n1 & En) by (exists (n - 1)%nat; lia). rewrite En.
    destruct fs as [|f0 fs'] eqn:Ef; [cbn in Hlen; lia|]. rewrite <- Ef in *. clear Ef f0 fs'.
    rewrite (wk_size _ _ _ HW), (fc_len _ _ FC), En. replace (S n1 - 1)%nat with n1 by lia.
    assert (last fs (mkFact [] false) = nth n1 fs nofact) as ->.
    { rewrite <- (rev_involutive fs) at 1. destruct (exists_last (l := fs)) as (l & x & El).
      - intros E0. rewrite E0 in Hlen. cbn in Hlen. lia.
      - rewrite rev_involutive. rewrite El, last_last. rewrite El, app_length in Hlen. cbn in Hlen.
        rewrite app_nth2 by lia. replace (n1 - length l)%nat with 0%nat by lia. auto. }
    assert (forall q y, (q <= n1)%nat -> bwd_mid size G z y q ->
      exists y1, foldM (ldlt_bwd_block w m fs) (y, off q) (rev (seq 0 q)) = Ok (y1, 0%nat) /\ bwd_mid size G z y1 0) as HL.
    { induction q as [|q IH]; intros y Hq HM.
      - cbn. exists y. auto.
      - rewrite seq_S, rev_app_distr. cbn [rev app Nat.add foldM]. unfold ldlt_bwd_block at 1.
        destruct (sub_column_ok _ _ FC w HW (ldlt_gd m fs) m q y ltac:(lia)) as (y2 & E & R1 & R2).
        rewrite E. cbn [bind]. rewrite fs_idx by lia. cbn [bind]. rewrite (sizeof_eq _ _ w HW).
        replace (off (S q) - sz q)%nat with (off q) by (rewrite off_S; lia).
        apply IH; [lia|]. apply ldlt_bwd_diag_ok; [lia|].
        eapply (bwd_update_step _ _ FC _ _ y); eauto; [lia|]. intros r Hr. apply R2. lia. }
    destruct (HL n1 (ldlt_bwd_diag w m (nth n1 fs nofact) n1 (off n1) z) ltac:(lia)) as (y1 & E & HM).
    { apply ldlt_bwd_diag_ok; [lia|]. pose proof (off_n _ _ FC) as Ho. rewrite En in Ho. unfold bwd_inv, tailsum. rewrite Ho, Nat.sub_diag.
      split; intros; [lia|]. cbn. lra. }
    rewrite E. cbn [bind]. exists y1. split; auto. intros t Ht. destruct HM as (H1 & _). specialize (H1 t). cbn in H1. unfold tailsum in H1.
    rewrite <- H1 by lia. cbn [offset]. rewrite Nat.sub_0_r. reflexivity.
  Qed.

  Lemma dof_ne r : (r < N)%nat -> dof rows size m r <> 0.
  Proof.
    intros Hr. destruct (owner_decomp _ _ FC r Hr) as (Ho & i & Hi & E). rewrite E. rewrite dof_at by auto. apply Hd; auto.
  Qed.
End LdltSolve.

(** ** End results *)
Section Final.
  Variables (rows : list (list nat)) (size : list nat).
  Hypothesis FC : fill_closed rows size.
  Variable w : TriWS.
  Hypothesis HW : ws_ok rows size w.
  Variable ss : list (list addr).
  Hypothesis HSS : seperator_diagonal w = Ok ss.
  Notation n := (length rows).
  Notation N := (dim size).
  Notation sz k := (nth k size 0%nat).
  Notation view := (view rows size).

  Lemma sym_fact (A : mat) (F : mat) :
    (forall r c, F r c = F c r) ->
    (forall r c, (c <= r < N)%nat -> A r c = F r c) ->
    forall r c, (r < N)%nat -> (c < N)%nat -> sym A r c = F r c.
  Proof.
    intros HF HA r c Hr Hc. destruct (Nat.le_ge_cases c r).
    - rewrite sym_lower by auto. apply HA. lia.
    - rewrite sym_comm, sym_lower by auto. rewrite HF. apply HA. lia.
  Qed.

  Lemma cholesky_solve A m b : (0 < n)%nat -> BlockCholeskyInPlace w ss A = Ok (Some m) ->
    exists x, SolveInPlaceCholesky w m b = Ok x /\
      forall r, (r < N)%nat -> rsum N (fun c => sym (view A) r c * x c) = b r.
  Proof.
    intros Hn E. destruct (chol_fact _ _ FC w HW ss HSS A m E) as (HF & HP).
    destruct (chol_fwd _ _ FC w HW m HP b Hn) as (z & Ez & Hz).
    destruct (chol_bwd _ _ FC w HW m HP z Hn) as (x & Ex & Hx).
    exists x. unfold SolveInPlaceCholesky. rewrite Ez. cbn [bind]. split; auto.
    apply (solve_product size (view A) (GL rows size m) ones b z x); auto.
    - apply sym_fact.
      + intros r c. unfold gdg. apply rsum_ext. intros. ring.
      + intros r c H. rewrite HF by auto. unfold gdg, ones. apply rsum_ext. intros. cbn [Nat.add]. ring.
    - intros. unfold ones. lra.
    - intros t Ht. rewrite Hx by auto. unfold ones. field.
  Qed.

  Lemma ldlt_solve A : (0 < sz (n - 1))%nat ->
    exists m fs E,
      BlockLDLTInPlace w ss A = Ok (m, fs, negb (existsb f_reg fs)) /\ linv rows size A n m fs E /\
      forall b, exists x, SolveInPlaceLDLT w m fs b = Ok x /\
        forall r, (r < N)%nat -> rsum N (fun c => sym (view A) r c * x c) + E r * x r = b r.
  Proof.
    intros Hlast. assert (0 < n)%nat as Hn.
    { destruct n eqn:En; [|lia]. cbn in Hlast. pose proof (fc_len _ _ FC) as Hl. rewrite En in Hl. destruct size; [cbn in Hlast; lia|discriminate]. }
    destruct (ldlt_fact _ _ FC w HW ss HSS Hlast A) as (m & fs & E & EB & HI & HF).
    exists m, fs, E. split; auto. split; auto. intros b.
    pose proof (li_len _ _ _ _ _ _ _ HI) as Hlen. pose proof (li_tr _ _ _ _ _ _ _ HI) as Htr.
    assert (forall k i, (k < n)%nat -> (i < sz k)%nat -> m (ADiag k i i) <> 0) as Hd.
    { intros k i Hk Hi E0. pose proof (li_d _ _ _ _ _ _ _ HI k i Hk Hi) as H. rewrite E0, Rabs_R0 in H. pose proof reg_pos. lra. }
    destruct (ldlt_fwd _ _ FC w HW m fs Hlen Htr b Hn) as (z & Ez & y & Hy & Hz).
    destruct (ldlt_bwd _ _ FC w HW m fs Hlen Htr z Hn) as (x & Ex & Hx).
    exists x. unfold SolveInPlaceLDLT. rewrite Ez. cbn [bind]. split; auto.
    intros r Hr.
    assert (rsum N (fun c => sym (fun r c => view A r c + delta r c (E r)) r c * x c) = b r) as H.
    { apply (solve_product size (fun r c => view A r c + delta r c (E r)) (GM rows size m fs) (dof rows size m) b y x); auto.
      - apply sym_fact.
        + intros r' c. unfold gdg. apply rsum_ext. intros. ring.
        + intros r' c H. rewrite HF by auto. unfold gdg. reflexivity.
      - apply (dof_ne _ _ FC); auto.
      - intros t Ht. rewrite Hx, Hz by auto. auto. }
    rewrite <- H.
    rewrite (rsum_ext N (fun c => sym (fun r0 c0 => view A r0 c0 + delta r0 c0 (E r0)) r c * x c) (fun c => sym (view A) r c * x c + (if (c =? r)%nat then E r * x r else 0))).
    - rewrite rsum_plus. f_equal. rewrite (rsum_single N r); auto; [rewrite Nat.eqb_refl; auto|].
      intros c Hc Hn'. destruct (Nat.eqb_spec c r); [lia|auto].
    - intros c Hc. unfold sym, delta. destruct (Nat.eqb_spec c r) as [->|Hcr].
      + rewrite Nat.max_id, Nat.min_id, Nat.eqb_refl. lra.
      + destruct (Nat.eqb_spec (Nat.max r c) (Nat.min r c)); [lia|]. lra.
  Qed.
End Final.
