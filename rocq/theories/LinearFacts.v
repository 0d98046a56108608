(** Lemmas behind Prop_Linear.v: the model facts in specification vocabulary. *)
From Coq Require Import List Arith ZArith Reals Lra Lia Bool Permutation.
From Verif Require Import Base BaseFacts SupernodeModel TriWorkspaceModel AssemblerModel DenseModel BlockModel KktModel
  Spec_Block Spec_Assembly Spec_Linear TriWorkspaceProofs AssemblerProofs SymbolicFacts RSum DenseProofs BlockProofs
  BlockFactor BlockSolve BlockLdlt BlockLdltSolve KktOrder KktProofs RhsProofs PosDef.
Import ListNotations.
Open Scope R_scope.

Lemma total_rsum n f : total f (seq 0 n) = rsum n f.
Proof. rewrite rsum_lsum. induction (seq 0 n) as [|a l IH]; cbn; [auto|]. rewrite <- IH. auto. Qed.

Lemma row_times_mv n M x u : row_times n M x u = mv n M x u.
Proof. apply total_rsum. Qed.

Lemma quad_total n M x : total (fun u => x u * row_times n M x u) (seq 0 n) = quad n M x.
Proof.
  rewrite total_rsum. apply rsum_ext. intros u Hu. rewrite row_times_mv. unfold mv. rewrite <- rsum_scal.
  apply rsum_ext. intros. ring.
Qed.

Lemma solves_mv n M x b : solves n M x b <-> forall u, (u < n)%nat -> mv n M x u = b u.
Proof. unfold solves. split; intros H u Hu; specialize (H u Hu); rewrite row_times_mv in *; auto. Qed.

(** ** C11 *)
Lemma dense_view rows size w m : fill_closed rows size -> TriWS_make rows size = Ok w ->
  forall r c, (c <= r < dim size)%nat -> ToDense R 0 w rows m r c = Ok (view rows size m r c).
Proof.
  intros FC EW r c Hr. destruct (TriWS_make_ok _ _ FC) as (w' & EW' & HW). rewrite EW in EW'. injection EW' as <-.
  unfold ToDense. destruct (Get_addr_ok _ _ FC w HW r c ltac:(lia) ltac:(lia)) as [H1 H2].
  destruct (stored_dec rows size r c ltac:(lia) ltac:(lia)) as [Hs|Hs].
  - rewrite H1 by auto. cbn [bind]. f_equal. symmetry. apply (view_stored _ _ FC); auto.
  - rewrite H2 by auto. cbn [bind]. f_equal. symmetry. apply (view_unstored _ _ FC); auto; lia.
Qed.

Lemma GL_view rows size m r c : fill_closed rows size -> (c <= r < dim size)%nat ->
  GL rows size m r c = view rows size m r c.
Proof.
  intros FC Hr. destruct (owner_decomp _ _ FC c ltac:(lia)) as (Hk & j & Hj & Ec).
  destruct (owner_decomp _ _ FC r ltac:(lia)) as (Hk' & i & Hi & Er).
  unfold GL, view, Gof. destruct (Nat.eqb_spec (owner rows size r) (owner rows size c)) as [E|E]; auto.
  unfold chol_gd, diag_of. destruct (Nat.leb_spec (c - offset size (owner rows size c)) (r - offset size (owner rows size c))); auto. lia.
Qed.

Lemma block_cholesky_exact rows size w ss m m' :
  fill_closed rows size -> TriWS_make rows size = Ok w -> seperator_diagonal w = Ok ss ->
  BlockCholeskyInPlace w ss m = Ok (Some m') ->
  exists A L : nat -> nat -> R,
    (forall r c, (c <= r < dim size)%nat ->
       ToDense R 0 w rows m r c = Ok (A r c) /\ ToDense R 0 w rows m' r c = Ok (L r c)) /\
    (forall r c, (r < c)%nat -> L r c = 0) /\
    (forall r c, (c <= r < dim size)%nat -> L r c <> 0 ->
       exists k, (k < length rows)%nat /\ in_block size k c /\ stored_row rows k r) /\
    (forall c, (c < dim size)%nat -> 0 < L c c) /\
    (forall r c, (c <= r < dim size)%nat -> A r c = total (fun t => L r t * L c t) (seq 0 (dim size))).
Proof.
  intros FC EW ES EC. destruct (TriWS_make_ok _ _ FC) as (w' & EW' & HW). rewrite EW in EW'. injection EW' as <-.
  destruct (chol_fact _ _ FC w HW ss ES m m' EC) as (HF & HP).
  exists (view rows size m), (fun r c => if (c <=? r)%nat then view rows size m' r c else 0).
  split; [|split; [|split; [|split]]].
  - intros r c Hr. destruct (Nat.leb_spec c r); [|lia].
    split; apply dense_view; auto.
  - intros r c Hr. destruct (Nat.leb_spec c r); [lia|auto].
  - intros r c Hr Hne. destruct (Nat.leb_spec c r); [|lia].
    destruct (stored_dec rows size r c ltac:(lia) ltac:(lia)) as [Hs|Hs].
    + destruct (owner_block _ _ FC c ltac:(lia)) as [Ho Hb]. exists (owner rows size c). split; auto. split; auto. apply Hs.
    + exfalso. apply Hne. apply (view_unstored _ _ FC); auto; lia.
  - intros c Hc. rewrite Nat.leb_refl. destruct (owner_decomp _ _ FC c Hc) as (Hk & i & Hi & Ec).
    rewrite Ec. unfold view. rewrite Gof_diag by auto. apply HP; auto.
  - intros r c Hr. rewrite HF by auto. rewrite total_rsum. apply rsum_ext. intros t Ht.
    assert (forall a, (a < dim size)%nat -> GL rows size m' a t = if (t <=? a)%nat then view rows size m' a t else 0) as K.
    { intros a Ha. destruct (Nat.leb_spec t a); [apply GL_view; auto|apply (GL_upper _ _ FC); auto]. }
    rewrite !K by lia. auto.
Qed.

Lemma cholesky_never_faults rows size w ss m :
  fill_closed rows size -> TriWS_make rows size = Ok w -> seperator_diagonal w = Ok ss ->
  exists r, BlockCholeskyInPlace w ss m = Ok r.
Proof.
  intros FC EW ES. destruct (TriWS_make_ok _ _ FC) as (w' & EW' & HW). rewrite EW in EW'. injection EW' as <-.
  apply (chol_total _ _ FC w HW ss ES m).
Qed.

Lemma cholesky_iff_pd rows size w ss m A :
  fill_closed rows size -> (0 < length rows)%nat -> TriWS_make rows size = Ok w -> seperator_diagonal w = Ok ss ->
  (forall r c, (c <= r < dim size)%nat -> ToDense R 0 w rows m r c = Ok (A r c)) ->
  ((exists m', BlockCholeskyInPlace w ss m = Ok (Some m')) <-> positive_definite (dim size) (from_lower A)).
Proof.
  intros FC Hn EW ES HA.
  assert (forall r c, (r < dim size)%nat -> (c < dim size)%nat -> sym (view rows size m) r c = from_lower A r c) as HS.
  { intros r c Hr Hc. unfold sym, from_lower. specialize (HA (Nat.max r c) (Nat.min r c) ltac:(lia)).
    rewrite (dense_view _ _ _ m FC EW) in HA by lia. congruence. }
  destruct (TriWS_make_ok _ _ FC) as (w' & EW' & HW). rewrite EW in EW'. injection EW' as <-.
  split.
  - intros (m' & EC) x (u & Hu & Hx). rewrite quad_total.
    rewrite <- (quad_ext _ _ _ x HS).
    rewrite (chol_success_quad _ _ FC w HW ss ES m m' x EC).
    set (g := fun t => rsum (dim size) (fun r => GL rows size m' r t * x r)).
    assert (0 <= rsum (dim size) (fun t => Rsqr (g t))) as H0 by (apply rsum_nonneg; intros; apply Rle_0_sqr).
    destruct H0 as [H0|H0]; auto. exfalso. apply Hx.
    assert (forall t, (t < dim size)%nat -> g t = 0) as Hg by (apply sum_squares_zero; symmetry; exact H0).
    apply (surjective_injective (dim size) (sym (view rows size m))); auto.
    + intros. apply sym_comm.
    + intros b. destruct (cholesky_solve _ _ FC w HW ss ES m m' b Hn EC) as (y & _ & Hy). exists y. exact Hy.
    + intros i Hi. destruct (chol_fact _ _ FC w HW ss ES m m' EC) as (HF & _). unfold mv.
      rewrite (rsum_ext _ _ (fun c => rsum (dim size) (fun t => GL rows size m' i t * (GL rows size m' c t * x c)))).
      * rewrite rsum_swap. apply rsum_zero. intros t Ht. rewrite rsum_scal. fold (g t). rewrite Hg by auto. ring.
      * intros c Hc. rewrite (Rmult_comm (sym _ _ _)). rewrite <- (rsum_ext _ (fun t => x c * (GL rows size m' i t * GL rows size m' c t))) by (intros; ring).
        rewrite rsum_scal. f_equal. destruct (Nat.le_ge_cases c i).
        -- rewrite sym_lower by auto. apply HF. lia.
        -- rewrite sym_comm, sym_lower by auto. rewrite HF by lia. apply rsum_ext. intros; ring.
  - intros PD. destruct (chol_total _ _ FC w HW ss ES m) as ([m'|] & E); [eauto|].
    destruct (chol_fail _ _ FC w HW ss ES m E) as (u & c & Hc & Hu & HQ).
    exfalso. assert (0 < quad (dim size) (sym (view rows size m)) u); [|lra].
    rewrite (quad_ext _ _ _ u HS). rewrite <- quad_total. apply PD. exists c. split; auto. rewrite Hu. lra.
Qed.

(** ** C12 *)
Lemma covered_N cliques dual_vars d o bs n : admissible cliques dual_vars -> build cliques dual_vars = Ok (d, o, bs) ->
  (forall v, covered cliques v <-> (v < n)%nat) -> d_N d = n.
Proof.
  intros AD EB H. destruct (kkt_dimension _ _ AD) as (d' & o' & bs' & E & _ & K). rewrite EB in E. injection E as <- <- <-.
  apply K; intros v Hv; apply H; auto.
Qed.

Lemma cholesky_kkt_solve cliques dual_vars n d o bs :
  admissible cliques dual_vars -> build cliques dual_vars = Ok (d, o, bs) ->
  (forall v, covered cliques v <-> (v < n)%nat) -> (forall dv, In dv dual_vars -> dv = []) ->
  forall m iters FK, Factor o d dual_vars iters m = Ok (Some FK) ->
  exists M, (forall u v, (u < n)%nat -> (v < n)%nat -> KKTMatrix R 0 o d m u v = Ok (M u v)) /\
    (forall u v, M u v = M v u) /\ nonsingular n M /\
    forall b, exists x, SolveInPlace o d FK iters n b = Ok x /\ solves n M x b.
Proof.
  intros AD EB HC HD m iters FK EF. pose proof (covered_N _ _ _ _ _ _ AD EB HC) as EN. subst n.
  destruct (Factor_chol _ _ _ _ _ AD EB HC m iters HD) as (r & Er & HF). rewrite EF in Er. injection Er as <-.
  destruct (HF FK eq_refl) as (_ & FP).
  exists (Kof d m). split; [|split; [|split]].
  - intros u v Hu Hv. apply (KKT_entry _ _ _ _ _ AD EB); apply HC; auto.
  - intros. apply Kof_sym.
  - intros x Hx u Hu. apply (exact_unique d o m iters FK FP x (fun _ => 0)); auto.
    intros v Hv. rewrite (proj1 (solves_mv _ _ _ _) Hx v Hv). unfold mv. rewrite rsum_zero; auto. intros; ring.
  - intros b. destruct (solve_refined d o m iters FK (fun _ => 0) b FP) as (x & Ex & Hx & _).
    exists x. split; auto. apply solves_mv. intros u Hu. specialize (Hx (or_introl (fun _ _ => eq_refl)) u Hu). lra.
Qed.

Lemma factor_total cliques dual_vars n d o bs :
  admissible cliques dual_vars -> build cliques dual_vars = Ok (d, o, bs) ->
  (forall v, covered cliques v <-> (v < n)%nat) ->
  forall m iters, exists r, Factor o d dual_vars iters m = Ok r.
Proof.
  intros AD EB HC m iters. pose proof (covered_N _ _ _ _ _ _ AD EB HC) as EN. subst n.
  destruct (existsb (fun di => (0 <? length di)%nat) dual_vars) eqn:E.
  - apply existsb_exists in E as (dv & H1 & H2). destruct (Factor_ldlt _ _ _ _ _ AD EB HC m iters) as (m' & fs & K & E & EF & _); eauto.
    exists dv. split; auto. intros ->. discriminate.
  - destruct (Factor_chol _ _ _ _ _ AD EB HC m iters) as (r & Er & _); eauto.
    intros dv Hdv. destruct dv as [|a dv]; auto.
    exfalso. assert (existsb (fun di : list nat => (0 <? length di)%nat) dual_vars = true); [|congruence].
    apply existsb_exists. exists (a :: dv). split; auto.
Qed.

(** Success of the whole factorization. *)
Lemma factor_cholesky_iff_pd cliques dual_vars n d o bs :
  admissible cliques dual_vars -> build cliques dual_vars = Ok (d, o, bs) ->
  (forall v, covered cliques v <-> (v < n)%nat) -> (forall dv, In dv dual_vars -> dv = []) ->
  forall m iters M, (forall u v, (u < n)%nat -> (v < n)%nat -> KKTMatrix R 0 o d m u v = Ok (M u v)) ->
  ((exists FK, Factor o d dual_vars iters m = Ok (Some FK)) <-> positive_definite n M).
Proof.
  intros AD EB HC HD m iters M HM. pose proof (covered_N _ _ _ _ _ _ AD EB HC) as EN. subst n.
  pose proof (build_fun _ _ _ _ _ AD EB) as BP. pose proof (bp_an _ _ _ _ _ BP) as HA.
  pose proof (an_fill _ _ _ _ _ _ _ _ _ HA) as FC. pose proof (bp_make _ _ _ _ _ BP) as EW.
  pose proof (an_N _ _ _ _ _ _ _ _ _ HA) as EN. pose proof (bp_ws _ _ _ _ _ BP) as HW.
  destruct (seps_ok _ _ _ _ _ AD EB) as (ss & Es).
  destruct (saved_ok _ _ _ _ _ AD EB HC m iters) as (K & EK & _).
  assert ((exists FK, Factor o d dual_vars iters m = Ok (Some FK)) <-> (exists m', BlockCholeskyInPlace o ss m = Ok (Some m'))) as ->.
  { unfold Factor. rewrite EK. cbn [bind]. rewrite Es. cbn [bind].
    replace (use_cholesky dual_vars) with true.
    - split.
      + intros (FK & E). apply bind_ok in E as ([m'|] & E & H); [eauto|discriminate].
      + intros (m' & E). rewrite E. cbn [bind]. eauto.
    - symmetry. apply negb_true_iff, not_true_iff_false. intros H. apply existsb_exists in H as (dv & H1 & H2).
      rewrite (HD dv H1) in H2. discriminate. }
  rewrite (cholesky_iff_pd _ _ _ _ _ (view (d_cliques d) (d_supernode_size d) m) FC (n_pos _ _ _ _ _ AD EB) EW Es (dense_view _ _ _ m FC EW)).
  rewrite <- EN.
  assert (forall u v, (u < d_N d)%nat -> (v < d_N d)%nat -> M u v = Kof d m u v) as HK.
  { intros u v Hu Hv. specialize (HM u v Hu Hv). rewrite (KKT_entry _ _ _ _ _ AD EB) in HM by (apply HC; auto). congruence. }
  assert (forall x, quad (d_N d) M (fun v => x (nth v (d_perm d) 0%nat)) = quad (d_N d) (from_lower (view (d_cliques d) (d_supernode_size d) m)) x) as HQ.
  { intros x. rewrite (quad_ext _ _ _ _ HK). unfold quad, Kof.
    rewrite <- (rsum_reindex (d_N d) (fun v => nth v (d_perm d) 0%nat) (fun r => rsum (d_N d) (fun s => from_lower (view (d_cliques d) (d_supernode_size d) m) r s * x r * x s))).
    - apply rsum_ext. intros u Hu.
      rewrite <- (rsum_reindex (d_N d) (fun v => nth v (d_perm d) 0%nat) (fun s => from_lower (view (d_cliques d) (d_supernode_size d) m) (nth u (d_perm d) 0%nat) s * x (nth u (d_perm d) 0%nat) * x s)).
      + apply rsum_ext. intros v Hv. reflexivity.
      + intros i Hi. apply (pv_lt _ _ _ _ _ AD EB HC i Hi).
      + intros i j Hi Hj E. rewrite <- (proj2 (pv_lt _ _ _ _ _ AD EB HC i Hi)), <- (proj2 (pv_lt _ _ _ _ _ AD EB HC j Hj)), E. auto.
    - intros i Hi. apply (pv_lt _ _ _ _ _ AD EB HC i Hi).
    - intros i j Hi Hj E. rewrite <- (proj2 (pv_lt _ _ _ _ _ AD EB HC i Hi)), <- (proj2 (pv_lt _ _ _ _ _ AD EB HC j Hj)), E. auto. }
  unfold positive_definite. split; intros PD x (u & Hu & Hx).
  - rewrite quad_total.
    destruct (pv_lt _ _ _ _ _ AD EB HC u Hu) as [P1 P2].
    specialize (PD (fun c => x (nth c (d_perm_inv d) 0%nat))). rewrite quad_total in PD. rewrite <- HQ in PD.
    assert (quad (d_N d) M (fun v => x (nth (nth v (d_perm d) 0%nat) (d_perm_inv d) 0%nat)) = quad (d_N d) M x) as EQ.
    { unfold quad. apply rsum_ext. intros r Hr. apply rsum_ext. intros s Hs.
      rewrite (proj2 (pv_lt _ _ _ _ _ AD EB HC r Hr)), (proj2 (pv_lt _ _ _ _ _ AD EB HC s Hs)). auto. }
    rewrite EQ in PD. apply PD. exists (nth u (d_perm d) 0%nat). split; auto. rewrite P2. auto.
  - rewrite quad_total. rewrite <- HQ.
    specialize (PD (fun v => x (nth v (d_perm d) 0%nat))). rewrite quad_total in PD. apply PD.
    destruct (iv_lt _ _ _ _ _ AD EB HC u Hu) as [P1 P2]. exists (nth u (d_perm_inv d) 0%nat). split; auto. rewrite P2. auto.
Qed.

(** ** C13 *)
Lemma rldlt_spec n A : (1 <= n)%nat ->
  let st := rldlt n A in
  exists (s : nat -> nat) (e : nat -> R),
    permutes n s /\ (forall y i, perm_apply (ltr st) y i = y (s i)) /\
    (forall r c, (r < n)%nat -> (c < n)%nat ->
       from_lower A (s r) (s c) + (if (r =? c)%nat then e r else 0) =
       total (fun t => unit_from_lower (lm st) r t * lm st t t * unit_from_lower (lm st) c t) (seq 0 n)) /\
    (forall i, (i < n)%nat -> / 1000000000 <= Rabs (lm st i i)) /\
    (forall i, (i < n)%nat -> Rabs (e i) <= / 1000000000) /\
    (forall i, (i < n)%nat -> / 1000000000 < Rabs (lm st i i) -> e i = 0) /\
    ((2 <= n)%nat -> lret st = true -> forall i, (i < n)%nat -> e i = 0) /\
    ((2 <= n)%nat -> lret st = false -> exists i, (i < n)%nat /\ Rabs (lm st i i - e i) <= / 1000000000) /\
    (n = 1%nat -> lret st = true).
Proof.
  intros Hn st. destruct (rldlt_ok n A Hn) as (e & H). fold st in H. destruct H.
  assert (tr_ok n (ltr st)) as Ht by (split; [lia|auto]).
  exists (sigma (ltr st)), e. split; [|split; [|split; [|split; [|split; [|split; [|split; [|split]]]]]]].
  - split.
    + intros i Hi. apply (sigma_lt n); auto.
    + intros i j Hi Hj E. rewrite <- (tau_sigma (ltr st) i), <- (tau_sigma (ltr st) j), E. auto.
  - intros. apply perm_apply_spec.
  - intros r c Hr Hc. rewrite total_rsum. specialize (rl_fact r c Hr Hc). unfold delta in rl_fact. exact rl_fact.
  - exact rl_d.
  - exact rl_e.
  - exact rl_strict.
  - intros. apply rl_ret; auto.
  - intros _ E. exact (rl_ret_false E).
  - intros E. apply rl_one; auto.
Qed.

(** ** C14 *)
Lemma not_exposed rows size k i : fill_closed rows size -> (k < length rows)%nat -> (i < nth k size 0%nat)%nat ->
  ((0 < i)%nat \/ k = 0%nat \/ (0 < nth (k - 1) size 0)%nat) -> ~ exposed size k (offset size k + i).
Proof.
  intros FC Hk Hi H (j & Hj & Hs & Ho). pose proof (off_mono size (S j) k ltac:(lia)) as M1. rewrite off_S in M1.
  destruct H as [H|[H|H]]; try lia.
  pose proof (off_mono size (k - 1) k ltac:(lia)) as M2.
  pose proof (off_S size (k - 1)) as M3. replace (S (k - 1)) with k in M3 by lia.
  destruct (Nat.eq_dec j (k - 1)) as [->|]; [lia|].
  pose proof (off_mono size j (k - 1) ltac:(lia)). lia.
Qed.

Lemma ldlt_kkt_solve cliques dual_vars n d o bs :
  admissible cliques dual_vars -> build cliques dual_vars = Ok (d, o, bs) ->
  (forall v, covered cliques v <-> (v < n)%nat) -> (exists dv, In dv dual_vars /\ dv <> []) ->
  forall m iters, exists M m' fs K E,
    (forall u v, (u < n)%nat -> (v < n)%nat -> KKTMatrix R 0 o d m u v = Ok (M u v)) /\
    Factor o d dual_vars iters m = Ok (Some (FLdlt m' fs (existsb f_reg fs), K)) /\
    length fs = length cliques /\
    (* the perturbation of the diagonal *)
    (forall u, (u < n)%nat -> Rabs (E u) <= 2 / 1000000000) /\
    (forall k i, (k < length cliques)%nat -> (i < nth k (d_supernode_size d) 0)%nat ->
       (0 < i)%nat \/ k = 0%nat \/ (0 < nth (k - 1) (d_supernode_size d) 0)%nat \/
         / 1000000000 <= Rabs (schur_at (d_cliques d) (d_supernode_size d) m m' fs
                                 (offset (d_supernode_size d) k + i) (offset (d_supernode_size d) k)) ->
       ((2 <= nth k (d_supernode_size d) 0)%nat /\ f_reg (nth k fs (mkFact [] true)) = false) \/
       (forall j, (j < nth k (d_supernode_size d) 0)%nat -> / 1000000000 < Rabs (m' (ADiag k j j))) ->
       E (nth (offset (d_supernode_size d) k + i) (d_perm_inv d) 0%nat) = 0) /\
    (* a single solve is exact for the perturbed matrix *)
    (forall b, exists y, apply_solver o d (FLdlt m' fs (existsb f_reg fs)) b = Ok y /\
       forall u, (u < n)%nat -> row_times n M y u + E u * y u = b u) /\
    (* the in-place solve *)
    (forall b, exists x, SolveInPlace o d (FLdlt m' fs (existsb f_reg fs), K) iters n b = Ok x /\
       ((forall u, (u < n)%nat -> E u = 0) -> solves n M x b) /\
       (iters = 0%nat -> forall u, (u < n)%nat -> row_times n M x u + E u * x u = b u) /\
       ((0 < iters)%nat -> exists r s, apply_solver o d (FLdlt m' fs (existsb f_reg fs)) r = Ok s /\
          forall u, (u < n)%nat -> b u - row_times n M x u = E u * s u)).
Proof.
  intros AD EB HC HD m iters. pose proof (covered_N _ _ _ _ _ _ AD EB HC) as EN. subst n.
  destruct (Factor_ldlt _ _ _ _ _ AD EB HC m iters HD) as (m' & fs & K & E & EF & HI & FP).
  pose proof (build_fun _ _ _ _ _ AD EB) as BP. pose proof (bp_an _ _ _ _ _ BP) as HA.
  pose proof (an_fill _ _ _ _ _ _ _ _ _ HA) as FC. pose proof (an_rows _ _ _ _ _ _ _ _ _ HA) as Hrows.
  pose proof (an_N _ _ _ _ _ _ _ _ _ HA) as EN.
  exists (Kof d m), m', fs, K, (fun u => E (nth u (d_perm d) 0%nat)).
  split; [|split; [|split; [|split; [|split; [|split]]]]]; auto.
  - intros u v Hu Hv. apply (KKT_entry _ _ _ _ _ AD EB); apply HC; auto.
  - rewrite (li_len _ _ _ _ _ _ _ HI). auto.
  - intros u Hu. pose proof (li_E _ _ _ _ _ _ _ HI (nth u (d_perm d) 0%nat)) as H. unfold reg in H.
    unfold Rdiv. apply H. destruct (pv_lt _ _ _ _ _ AD EB HC u Hu) as [P _].
    replace (offset (d_supernode_size d) (length (d_cliques d))) with (dim (d_supernode_size d)) by (unfold dim; rewrite (fc_len _ _ FC); auto). lia.
  - intros k i Hk Hi Hx Hcl.
    assert (offset (d_supernode_size d) k + i < d_N d)%nat as Hlt.
    { rewrite EN. pose proof (off_le_dim _ _ FC (S k) ltac:(lia)) as H. rewrite off_S in H. lia. }
    destruct (iv_lt _ _ _ _ _ AD EB HC _ Hlt) as [_ P2]. rewrite P2.
    apply (li_Z _ _ _ _ _ _ _ HI); auto; [lia| |].
    + destruct Hcl as [[H1 H2]|H].
      * left. split; auto. rewrite <- H2. f_equal. apply nth_indep. rewrite (li_len _ _ _ _ _ _ _ HI). lia.
      * right. exact H.
    + destruct Hx as [Hx|[Hx|[Hx|Hx]]]; [left; apply (not_exposed _ _ _ _ FC); auto; lia..|right; exact Hx].
  - intros b. destruct (fp_solve _ _ _ _ _ _ FP b) as (y & Ey & Hy). exists y. split; auto.
    intros u Hu. rewrite row_times_mv. apply Hy; auto.
  - intros b. destruct (solve_refined d o m iters _ _ b FP) as (x & Ex & H1 & H2). exists x. split; auto.
    split; [|split].
    + intros H0. apply solves_mv. intros u Hu. specialize (H1 (or_introl H0) u Hu). cbv beta in H1. rewrite H0 in H1 by auto. lra.
    + intros Hi u Hu. rewrite row_times_mv. apply (H1 (or_intror Hi) u Hu).
    + intros Hi. destruct (H2 Hi) as (r & s & Es & Hs). exists r, s. split; auto. intros u Hu. rewrite row_times_mv. auto.
Qed.

(** ** C15 *)
Lemma refinement_residuals n K (S : (nat -> R) -> res (nat -> R)) b iters y y' :
  refine n K S b iters y = Ok y' ->
  exists r t : nat -> nat -> R,
    (forall i, r 0%nat i = b i - row_times n K y i) /\
    (forall k, (k < iters)%nat -> S (r k) = Ok (t k) /\
       forall i, r (Datatypes.S k) i = r k i - row_times n K (t k) i) /\
    (forall i, b i - row_times n K y' i = r iters i) /\
    (forall i, y' i = y i + total (fun k => t k i) (seq 0 iters)).
Proof.
  intros H. destruct (refine_residuals _ _ _ _ _ _ _ H) as (r & t & H0 & H1 & H2 & H3). exists r, t.
  split; [|split; [|split]].
  - intros i. rewrite row_times_mv. auto.
  - intros k Hk. destruct (H1 k Hk) as [E1 E2]. split; auto. intros i. rewrite row_times_mv. auto.
  - intros i. rewrite row_times_mv. auto.
  - intros i. rewrite total_rsum. auto.
Qed.

Lemma refinement_keeps_exact n K (S : (nat -> R) -> res (nat -> R)) b :
  (forall r, (forall i, (i < n)%nat -> r i = 0) -> exists t, S r = Ok t /\ forall i, (i < n)%nat -> t i = 0) ->
  forall iters y, solves n K y b ->
  exists y', refine n K S b iters y = Ok y' /\ forall i, (i < n)%nat -> y' i = y i.
Proof.
  intros HS. induction iters as [|k IH]; intros y Hy; cbn [refine]; [eauto|].
  cbv zeta. destruct (HS (fun i => b i - rsum n (fun j => K i j * y j))) as (t & Et & Ht).
  { intros i Hi. specialize (Hy i Hi). rewrite row_times_mv in Hy. unfold mv in Hy. lra. }
  rewrite Et. cbn [bind].
  destruct (IH (fun i => y i + t i)) as (y' & E & H).
  - intros u Hu. rewrite row_times_mv. specialize (Hy u Hu). rewrite row_times_mv in Hy.
    rewrite <- Hy. apply mv_ext. intros j Hj. rewrite Ht by auto. lra.
  - exists y'. split; auto. intros i Hi. rewrite H, Ht by auto. lra.
Qed.

(** ** C17 *)
Lemma solve_dimension_check cliques dual_vars d o bs :
  admissible cliques dual_vars -> build cliques dual_vars = Ok (d, o, bs) ->
  forall n, (forall v, covered cliques v -> (v < n)%nat) ->
  (forall FK iters b, (exists v, (v < n)%nat /\ ~ covered cliques v) -> SolveInPlace o d FK iters n b = Throw) /\
  ((forall v, (v < n)%nat -> covered cliques v) ->
     forall m iters FK b, Factor o d dual_vars iters m = Ok (Some FK) -> exists x, SolveInPlace o d FK iters n b = Ok x).
Proof.
  intros AD EB n Hn. destruct (kkt_dimension _ _ AD) as (d' & o' & bs' & E & _ & K). rewrite EB in E. injection E as <- <- <-.
  split.
  - intros FK iters b (v & Hv & Hc). unfold SolveInPlace. destruct (Nat.eqb_spec n (d_N d)) as [E|]; auto.
    exfalso. apply Hc. apply (proj1 (K n Hn) (eq_sym E)); auto.
  - intros HC m iters FK b EF.
    assert (forall v, covered cliques v <-> (v < n)%nat) as HC' by (split; auto).
    pose proof (covered_N _ _ _ _ _ _ AD EB HC') as EN. subst n.
    destruct (existsb (fun di => (0 <? length di)%nat) dual_vars) eqn:Ed.
    + apply existsb_exists in Ed as (dv & H1 & H2).
      destruct (Factor_ldlt _ _ _ _ _ AD EB HC' m iters) as (m' & fs & K' & E & EF' & _ & FP).
      { exists dv. split; auto. intros ->. discriminate. }
      rewrite EF in EF'. injection EF' as ->.
      destruct (solve_refined d o m iters _ _ b FP) as (x & Ex & _). eauto.
    + destruct (Factor_chol _ _ _ _ _ AD EB HC' m iters) as (r & Er & HF).
      { intros dv Hdv. destruct dv as [|a dv]; auto.
        exfalso. assert (existsb (fun di : list nat => (0 <? length di)%nat) dual_vars = true); [|congruence].
        apply existsb_exists. exists (a :: dv). split; auto. }
      rewrite EF in Er. injection Er as <-. destruct (HF FK eq_refl) as (_ & FP).
      destruct (solve_refined d o m iters _ _ b FP) as (x & Ex & _). eauto.
Qed.

(** A diagonal perturbation that vanishes on every column of every supernode
    vanishes on every variable. *)
Lemma column_by_column cliques dual_vars n d o bs (E : nat -> R) (clean : nat -> Prop) (bound : nat -> nat -> Prop) :
  admissible cliques dual_vars -> build cliques dual_vars = Ok (d, o, bs) ->
  (forall v, covered cliques v <-> (v < n)%nat) ->
  (forall k, (k < length cliques)%nat -> (0 < nth k (d_supernode_size d) 0)%nat ->
     k = 0%nat \/ (0 < nth (k - 1) (d_supernode_size d) 0)%nat \/ bound k (offset (d_supernode_size d) k + 0)%nat) ->
  (forall k i, (k < length cliques)%nat -> (i < nth k (d_supernode_size d) 0)%nat ->
       (0 < i)%nat \/ k = 0%nat \/ (0 < nth (k - 1) (d_supernode_size d) 0)%nat \/ bound k (offset (d_supernode_size d) k + i)%nat ->
       clean k -> E (nth (offset (d_supernode_size d) k + i) (d_perm_inv d) 0%nat) = 0) ->
  (forall k, (k < length cliques)%nat -> clean k) ->
  forall u, (u < n)%nat -> E u = 0.
Proof.
  intros AD EB HC HNE HE HCl u Hu. pose proof (covered_N _ _ _ _ _ _ AD EB HC) as EN. subst n.
  pose proof (build_fun _ _ _ _ _ AD EB) as BP. pose proof (bp_an _ _ _ _ _ BP) as HA.
  pose proof (an_fill _ _ _ _ _ _ _ _ _ HA) as FC. pose proof (an_rows _ _ _ _ _ _ _ _ _ HA) as Hrows.
  pose proof (an_N _ _ _ _ _ _ _ _ _ HA) as EN.
  destruct (pv_lt _ _ _ _ _ AD EB HC u Hu) as [P1 P2].
  destruct (owner_decomp _ _ FC (nth u (d_perm d) 0%nat) ltac:(lia)) as (Hk & i & Hi & Ei).
  rewrite <- P2, Ei. apply HE; auto; try lia.
  - destruct i as [|i]; [|left; lia]. right. apply HNE; lia.
  - apply HCl. lia.
Qed.
