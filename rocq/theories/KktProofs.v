(** The permuted solves of kkt_solver.cc return solutions in the original
    ordering. *)
From Coq Require Import List Arith Reals Lra Lia Bool Permutation.
From Verif Require Import Base BaseFacts SupernodeModel TriWorkspaceModel AssemblerModel DenseModel BlockModel KktModel
  Spec_Block Spec_Assembly TriWorkspaceProofs AssemblerProofs SymbolicFacts RSum DenseProofs BlockProofs BlockFactor
  BlockSolve BlockLdlt BlockLdltSolve KktOrder.
Import ListNotations.
Open Scope R_scope.

(** Matrix-vector product. *)
Definition mv (n : nat) (K : mat) (x : vec) : vec := fun i => rsum n (fun j => K i j * x j).

Lemma mv_ext n K x y i : (forall j, (j < n)%nat -> x j = y j) -> mv n K x i = mv n K y i.
Proof. intros H. apply rsum_ext. intros j Hj. rewrite H; auto. Qed.

Lemma mv_ext_mat n K K' x i : (forall j, (j < n)%nat -> K i j = K' i j) -> mv n K x i = mv n K' x i.
Proof. intros H. apply rsum_ext. intros j Hj. rewrite H; auto. Qed.

Lemma mv_plus n K x y i : mv n K (fun j => x j + y j) i = mv n K x i + mv n K y i.
Proof. unfold mv. rewrite <- rsum_plus. apply rsum_ext. intros. ring. Qed.

Lemma mv_minus n K x y i : mv n K (fun j => x j - y j) i = mv n K x i - mv n K y i.
Proof. unfold mv. rewrite <- rsum_minus. apply rsum_ext. intros. ring. Qed.

(** ** A symmetric surjective matrix is injective *)
Lemma sum_squares_zero n z : rsum n (fun i => z i * z i) = 0 -> forall i, (i < n)%nat -> z i = 0.
Proof.
  induction n as [|n IH]; intros H i Hi; [lia|]. cbn in H.
  assert (0 <= rsum n (fun i => z i * z i)) as H1 by (apply rsum_nonneg; intros; nra).
  assert (z n = 0) as H2 by nra.
  destruct (Nat.eq_dec i n) as [->|]; auto. apply IH; [nra|lia].
Qed.

Lemma surjective_injective n K :
  (forall i j, (i < n)%nat -> (j < n)%nat -> K i j = K j i) ->
  (forall b, exists x, forall i, (i < n)%nat -> mv n K x i = b i) ->
  forall z, (forall i, (i < n)%nat -> mv n K z i = 0) -> forall i, (i < n)%nat -> z i = 0.
Proof.
  intros HS HX z Hz. apply sum_squares_zero.
  destruct (HX z) as (x & Hx).
  rewrite (rsum_ext n _ (fun i => mv n K x i * z i)) by (intros i Hi; rewrite Hx; auto).
  unfold mv.
  rewrite (rsum_ext n _ (fun i => rsum n (fun j => K i j * x j * z i))).
  2:{ intros i Hi. rewrite <- rsum_scal_r. auto. }
  rewrite rsum_swap.
  rewrite (rsum_ext n _ (fun j => x j * mv n K z j)).
  - apply rsum_zero. intros j Hj. rewrite Hz by auto. ring.
  - intros j Hj. unfold mv. rewrite <- rsum_scal. apply rsum_ext. intros i Hi. rewrite (HS i j) by auto. ring.
Qed.

Lemma unique_solution n K :
  (forall i j, (i < n)%nat -> (j < n)%nat -> K i j = K j i) ->
  (forall b, exists x, forall i, (i < n)%nat -> mv n K x i = b i) ->
  forall x y, (forall i, (i < n)%nat -> mv n K x i = mv n K y i) -> forall i, (i < n)%nat -> x i = y i.
Proof.
  intros HS HX x y H i Hi.
  assert (x i - y i = 0); [|lra].
  apply (surjective_injective n K HS HX (fun j => x j - y j)); auto.
  intros k Hk. rewrite mv_minus, H by auto. lra.
Qed.

(** ** Refinement *)
Lemma refine_residuals n K S b iters : forall y y', refine n K S b iters y = Ok y' ->
  exists r t : nat -> vec,
    (forall i, r 0%nat i = b i - mv n K y i) /\
    (forall k, (k < iters)%nat -> S (r k) = Ok (t k) /\
       forall i, r (Datatypes.S k) i = r k i - mv n K (t k) i) /\
    (forall i, b i - mv n K y' i = r iters i) /\
    (forall i, y' i = y i + rsum iters (fun k => t k i)).
Proof.
  induction iters as [|k IH]; intros y y' H; cbn [refine] in H.
  - injection H as <-. exists (fun _ i => b i - mv n K y i), (fun _ _ => 0).
    split; auto. split; [intros; lia|]. split; auto. intros; cbn; lra.
  - apply bind_ok in H as (t0 & E0 & H). apply IH in H as (r & t & H0 & H1 & H2 & H3).
    exists (fun q => match q with O => fun i => b i - mv n K y i | Datatypes.S p => r p end),
           (fun q => match q with O => t0 | Datatypes.S p => t p end).
    split; auto. split; [|split].
    + intros [|q] Hq.
      * split; [exact E0|]. intros i. rewrite H0, mv_plus. lra.
      * apply H1. lia.
    + intros i. rewrite H2. auto.
    + intros i. rewrite H3. rewrite rsum_first. lra.
Qed.

Lemma refine_total n K S b iters : (forall r, exists t, S r = Ok t) ->
  forall y, exists y', refine n K S b iters y = Ok y'.
Proof.
  intros HS. induction iters as [|k IH]; intros y; cbn [refine]; eauto.
  destruct (HS (fun i => b i - rsum n (fun j => K i j * y j))) as (t & E). cbv zeta. rewrite E. cbn [bind]. auto.
Qed.

(** ** Scatter and gather *)
Lemma scatter_val l x : NoDup l -> forall i, (i < length l)%nat -> scatter l x (nth i l 0%nat) = x i.
Proof.
  intros ND i Hi. unfold scatter.
  assert (forall m y j, NoDup m -> (forall q, In q m -> (q < length l)%nat) ->
    (In j m -> fold_left (fun y p => vset y (snd p) (x (fst p))) (map (fun q => (q, nth q l 0%nat)) m) y (nth j l 0%nat) = x j) /\
    (~ In j m -> (j < length l)%nat -> fold_left (fun y p => vset y (snd p) (x (fst p))) (map (fun q => (q, nth q l 0%nat)) m) y (nth j l 0%nat) = y (nth j l 0%nat))) as K.
  { induction m as [|q m IH]; intros y j Nm Hm; cbn [map fold_left].
    - split; [intros []|auto].
    - inversion Nm; subst. cbn [fst snd]. split.
      + intros [->|Hj].
        * destruct (IH (vset y (nth j l 0%nat) (x j)) j H2 ltac:(intros; apply Hm; right; auto)) as [_ K].
          rewrite K; auto; [|apply Hm; left; auto]. unfold vset. rewrite Nat.eqb_refl. auto.
        * apply (IH _ j H2); auto. intros; apply Hm; right; auto.
      + intros Hj Hl. destruct (IH (vset y (nth q l 0%nat) (x q)) j H2 ltac:(intros; apply Hm; right; auto)) as [_ K].
        rewrite K; auto; [|intro; apply Hj; right; auto]. unfold vset.
        destruct (Nat.eqb_spec (nth j l 0%nat) (nth q l 0%nat)) as [E|]; auto.
        exfalso. apply Hj. left. symmetry. apply (proj1 (NoDup_nth _ 0%nat) ND); auto. apply Hm; left; auto. }
  replace (combine (seq 0 (length l)) l) with (map (fun q => (q, nth q l 0%nat)) (seq 0 (length l))).
  - apply K; [apply seq_NoDup|intros q Hq; apply in_seq in Hq; lia|apply in_seq; lia].
  - apply nth_ext with (d := (0%nat, 0%nat)) (d' := (0%nat, 0%nat)).
    + rewrite map_length, combine_length, seq_length. lia.
    + intros q Hq. rewrite map_length, seq_length in Hq.
      rewrite nth_map_lt with (d' := 0%nat) by (rewrite seq_length; auto).
      rewrite combine_nth by (rewrite seq_length; auto). rewrite !seq_nth by auto. reflexivity.
Qed.

Section Kkt.
  Variables (cliques dual_vars : list (list nat)) (d : MatrixData) (o : TriWS) (bs : list binding).
  Hypothesis AD : admissible cliques dual_vars.
  Hypothesis EB : build cliques dual_vars = Ok (d, o, bs).
  Notation N := (d_N d).
  Notation rows := (d_cliques d).
  Notation size := (d_supernode_size d).
  Notation p := (d_perm d).
  Notation pinv := (d_perm_inv d).
  Notation view := (view rows size).
  Notation pv v := (nth v p 0%nat).
  Notation iv v := (nth v pinv 0%nat).

  Definition BP := build_fun _ _ _ _ _ AD EB.
  Notation HA := (bp_an _ _ _ _ _ BP).
  Notation FC := (an_fill _ _ _ _ _ _ _ _ _ HA).
  Notation HW := (bp_ws _ _ _ _ _ BP).

  Lemma N_dim : N = dim size. Proof. apply (an_N _ _ _ _ _ _ _ _ _ HA). Qed.

  Lemma n_pos : (0 < length rows)%nat.
  Proof.
    rewrite (an_rows _ _ _ _ _ _ _ _ _ HA). pose proof (ad_first _ _ AD). destruct cliques; [cbn in *; congruence|cbn; lia].
  Qed.

  Lemma seps_ok : exists ss, seperator_diagonal o = Ok ss.
  Proof. destruct (seperator_diagonal_ok _ _ FC o HW) as (ss & E & _). eauto. Qed.

  (** The dense matrix, entry by entry. *)
  Definition Kof (m : rmem) : mat := fun u v => sym (view m) (pv u) (pv v).

  Lemma KKT_entry m u v : covered cliques u -> covered cliques v ->
    KKTMatrix R 0 o d m u v = Ok (Kof m u v).
  Proof.
    intros Hu Hv. unfold KKTMatrix. destruct (an_max _ _ _ _ _ _ _ _ _ HA) as [HM _].
    rewrite (at_lt _ u 0%nat), (at_lt _ v 0%nat) by (apply HM; auto). cbn [bind].
    destruct (an_p _ _ _ _ _ _ _ _ _ HA u Hu) as [Pu _]. destruct (an_p _ _ _ _ _ _ _ _ _ HA v Hv) as [Pv _].
    assert (forall a b, (b <= a)%nat -> (a < N)%nat -> ToDense R 0 o rows m a b = Ok (view m a b)) as K.
    { intros a b Hba Ha. destruct (ToDense_value R 0 cliques dual_vars d o bs BP m a b Hba Ha) as [T1 T2].
      destruct (stored_dec rows size a b Hba) as [Hs|Hs].
      - rewrite <- N_dim. auto.
      - rewrite T1 by auto. f_equal. symmetry. apply (view_stored _ _ FC); auto.
      - rewrite T2 by auto. f_equal. symmetry. apply (view_unstored _ _ FC); auto. rewrite <- N_dim. auto. }
    unfold Kof, sym. destruct (Nat.leb_spec (pv v) (pv u)).
    - rewrite K by auto. f_equal. f_equal; lia.
    - rewrite K by lia. f_equal. f_equal; lia.
  Qed.

  Lemma Kof_sym m u v : Kof m u v = Kof m v u.
  Proof. apply sym_comm. Qed.

  Hypothesis Hcov : forall v, covered cliques v <-> (v < N)%nat.

  Lemma perm_len : length p = N /\ length pinv = N.
  Proof.
    destruct (an_len _ _ _ _ _ _ _ _ _ HA) as [L1 L2]. destruct (an_max _ _ _ _ _ _ _ _ _ HA) as [_ M2].
    assert (covered cliques (length p - 1)%nat) as H by exact M2. apply Hcov in H. lia.
  Qed.
  Lemma indices_eq : Pt_indices d = Ok pinv.
  Proof.
    unfold Pt_indices. destruct perm_len as [_ L]. rewrite L, Nat.leb_refl. rewrite <- L, firstn_all. auto.
  Qed.
  Lemma pv_lt v : (v < N)%nat -> (pv v < N)%nat /\ iv (pv v) = v.
  Proof. intros Hv. apply (an_p _ _ _ _ _ _ _ _ _ HA). apply Hcov; auto. Qed.
  Lemma iv_lt i : (i < N)%nat -> (iv i < N)%nat /\ pv (iv i) = i.
  Proof. intros Hi. destruct (an_pinv _ _ _ _ _ _ _ _ _ HA i Hi) as [H1 H2]. split; auto. apply Hcov; auto. Qed.
  Lemma pinv_nodup : NoDup pinv.
  Proof.
    apply (NoDup_nth _ 0%nat). destruct perm_len as [_ L]. rewrite L. intros i j Hi Hj E.
    rewrite <- (proj2 (iv_lt i Hi)), <- (proj2 (iv_lt j Hj)), E. auto.
  Qed.

  Lemma dense_kkt_ok m : exists K, dense_kkt o d m = Ok K /\
    forall u v, (u < N)%nat -> (v < N)%nat -> K u v = Kof m u v.
  Proof.
    unfold dense_kkt.
    rewrite (mapM_total _ (fun u => map (fun v => Kof m u v) (seq 0 N))).
    - cbn [bind]. eexists. split; [reflexivity|]. intros u v Hu Hv. cbv beta.
      rewrite nth_map_lt with (d' := 0%nat) by (rewrite seq_length; auto).
      rewrite nth_map_lt with (d' := 0%nat) by (rewrite seq_length; auto).
      rewrite !seq_nth by auto. reflexivity.
    - intros u Hu. apply in_seq in Hu. apply mapM_total. intros v Hv. apply in_seq in Hv.
      apply KKT_entry; apply Hcov; lia.
  Qed.

  Lemma apply_ok F b : (exists x, solve_permuted o F (gather pinv b) = Ok x) ->
    exists x y, solve_permuted o F (gather pinv b) = Ok x /\ apply_solver o d F b = Ok y /\
    forall v, (v < N)%nat -> y v = x (pv v).
  Proof.
    intros (x & Ex). exists x, (scatter pinv x). split; auto. split.
    - unfold apply_solver. rewrite indices_eq. cbn [bind].
      replace (forallb _ pinv) with true.
      + rewrite Ex. reflexivity.
      + symmetry. apply forallb_forall. intros v Hv. apply (In_nth _ _ 0%nat) in Hv as (i & Hi & <-).
        apply Nat.ltb_lt. apply iv_lt. rewrite (proj2 perm_len) in Hi. auto.
    - intros v Hv. destruct (pv_lt v Hv) as [H1 H2]. rewrite <- H2 at 1.
      apply scatter_val; [apply pinv_nodup|]. rewrite (proj2 perm_len). auto.
  Qed.

  (** A permuted solution gives a solution in the original ordering. *)
  Lemma back_permute m (E : vec) (b x y : vec) :
    (forall r, (r < N)%nat -> rsum N (fun c => sym (view m) r c * x c) + E r * x r = gather pinv b r) ->
    (forall v, (v < N)%nat -> y v = x (pv v)) ->
    forall u, (u < N)%nat -> mv N (Kof m) y u + E (pv u) * y u = b u.
  Proof.
    intros Hx Hy u Hu. destruct (pv_lt u Hu) as [H1 H2].
    specialize (Hx _ H1). unfold gather in Hx. rewrite H2 in Hx. rewrite <- Hx. unfold mv, Kof.
    rewrite <- (rsum_reindex N (fun v => pv v) (fun c => sym (view m) (pv u) c * x c)).
    - rewrite Hy by auto. f_equal. apply rsum_ext. intros v Hv. rewrite Hy by auto. auto.
    - intros i Hi. apply pv_lt; auto.
    - intros i j Hi Hj E'. rewrite <- (proj2 (pv_lt i Hi)), <- (proj2 (pv_lt j Hj)), E'. auto.
  Qed.

  (** What [Factor] leaves behind, for both factorizations. *)
  Record fact_post (m : rmem) (iters : nat) (FK : factored * mat) (E : vec) : Prop := {
    fp_solve : forall b, exists y, apply_solver o d (fst FK) b = Ok y /\
      forall u, (u < N)%nat -> mv N (Kof m) y u + E u * y u = b u;
    fp_saved : (0 < iters)%nat -> forall u v, (u < N)%nat -> (v < N)%nat -> snd FK u v = Kof m u v
  }.

  Lemma saved_ok m iters : exists K, (if (0 <? iters)%nat then dense_kkt o d m else Ok (fun _ _ => 0)) = Ok K /\
    ((0 < iters)%nat -> forall u v, (u < N)%nat -> (v < N)%nat -> K u v = Kof m u v).
  Proof.
    destruct (Nat.ltb_spec 0 iters) as [H|H].
    - destruct (dense_kkt_ok m) as (K & E & HK). eauto.
    - eexists. split; [reflexivity|]. lia.
  Qed.

  Lemma Factor_chol m iters : (forall dv, In dv dual_vars -> dv = []) ->
    exists r, Factor o d dual_vars iters m = Ok r /\
      forall FK, r = Some FK -> (exists m', fst FK = FChol m') /\ fact_post m iters FK (fun _ => 0).
  Proof.
    intros HD. unfold Factor. destruct (saved_ok m iters) as (K & EK & HK). rewrite EK. cbn [bind].
    destruct seps_ok as (ss & Es). rewrite Es. cbn [bind].
    assert (use_cholesky dual_vars = true) as Hu.
    { unfold use_cholesky. apply negb_true_iff. apply not_true_iff_false. intros H. apply existsb_exists in H as (dv & H1 & H2).
      rewrite (HD dv H1) in H2. discriminate. }
    rewrite Hu. destruct (chol_total _ _ FC o HW ss Es m) as (r & Er). rewrite Er. cbn [bind].
    eexists. split; [reflexivity|]. intros FK EF. destruct r as [m'|]; [|discriminate]. injection EF as <-.
    split; [cbn; eauto|]. constructor; [|auto]. intros b. cbn [fst].
    destruct (cholesky_solve _ _ FC o HW ss Es m m' (gather pinv b) n_pos Er) as (x & Ex & Hx).
    destruct (apply_ok (FChol m') b) as (x' & y & Ex' & Ey & Hy). { exists x. exact Ex. }
    cbn [solve_permuted] in Ex'. rewrite Ex in Ex'. injection Ex' as <-.
    exists y. split; auto. intros u Hu'.
    rewrite <- (back_permute m (fun _ => 0) b x y) by (auto; intros r Hr; rewrite N_dim in *; rewrite <- Hx by auto; lra). lra.
  Qed.

  Lemma Factor_ldlt m iters : (exists dv, In dv dual_vars /\ dv <> []) ->
    exists m' fs K E, Factor o d dual_vars iters m = Ok (Some (FLdlt m' fs (existsb f_reg fs), K)) /\
      linv rows size m (length rows) m' fs E /\
      fact_post m iters (FLdlt m' fs (existsb f_reg fs), K) (fun u => E (pv u)).
  Proof.
    intros HD. unfold Factor. destruct (saved_ok m iters) as (K & EK & HK). rewrite EK. cbn [bind].
    destruct seps_ok as (ss & Es). rewrite Es. cbn [bind].
    assert (use_cholesky dual_vars = false) as Hu.
    { unfold use_cholesky. apply negb_false_iff. apply existsb_exists. destruct HD as (dv & H1 & H2).
      exists dv. split; auto. destruct dv; [congruence|reflexivity]. }
    rewrite Hu. pose proof (last_block_nonempty _ _ _ _ _ AD EB HD) as Hlast.
    destruct (ldlt_solve _ _ FC o HW ss Es m Hlast) as (m' & fs & E & EL & HI & HS). rewrite EL. cbn [bind].
    rewrite negb_involutive.
    exists m', fs, K, E. split; auto. split; auto. constructor; [|auto]. intros b. cbn [fst].
    destruct (HS (gather pinv b)) as (x & Ex & Hx).
    destruct (apply_ok (FLdlt m' fs (existsb f_reg fs)) b) as (x' & y & Ex' & Ey & Hy). { exists x. exact Ex. }
    cbn [solve_permuted] in Ex'. rewrite Ex in Ex'. injection Ex' as <-.
    exists y. split; auto. intros u Hu'.
    rewrite <- (back_permute m E b x y); auto. intros r Hr. rewrite N_dim in *. auto.
  Qed.

  (** Solve with refinement after either factorization. *)
  Lemma solve_refined m iters FK E b : fact_post m iters FK E ->
    exists x, SolveInPlace o d FK iters N b = Ok x /\
      ((forall u, (u < N)%nat -> E u = 0) \/ iters = 0%nat -> forall u, (u < N)%nat -> mv N (Kof m) x u + E u * x u = b u) /\
      ((0 < iters)%nat -> exists r s, apply_solver o d (fst FK) r = Ok s /\
         forall u, (u < N)%nat -> b u - mv N (Kof m) x u = E u * s u).
  Proof.
    intros [HS HK]. unfold SolveInPlace. rewrite Nat.eqb_refl.
    destruct (HS b) as (y & Ey & Hy). rewrite Ey. cbn [bind].
    destruct (refine_total N (snd FK) (apply_solver o d (fst FK)) b iters) with (y := y) as (x & Ex).
    { intros r. destruct (HS r) as (t & Et & _). eauto. }
    rewrite Ex. exists x. split; auto.
    destruct iters as [|k].
    - cbn in Ex. injection Ex as <-. split; [auto|lia].
    - destruct (refine_residuals _ _ _ _ _ _ _ Ex) as (r & t & R0 & R1 & R2 & _).
      specialize (HK ltac:(lia)).
      assert (forall i, (i < N)%nat -> b i - mv N (Kof m) x i = E i * t k i) as HR.
      { intros i Hi. destruct (R1 k ltac:(lia)) as [Et Er].
        destruct (HS (r k)) as (t' & Et' & Ht'). rewrite Et in Et'. injection Et' as <-.
        rewrite <- (mv_ext_mat N (snd FK) (Kof m) x i) by (intros; apply HK; auto).
        rewrite R2, Er. rewrite (mv_ext_mat N (snd FK) (Kof m) (t k) i) by (intros; apply HK; auto).
        rewrite <- (Ht' i Hi). lra. }
      split.
      + intros [HE|HE]; [|discriminate]. intros u Hu. specialize (HR u Hu). rewrite HE in * by auto. lra.
      + intros _. exists (r k), (t k). split; [apply R1; lia|auto].
  Qed.

  Lemma exact_unique m iters FK : fact_post m iters FK (fun _ => 0) ->
    forall x y, (forall u, (u < N)%nat -> mv N (Kof m) x u = mv N (Kof m) y u) -> forall u, (u < N)%nat -> x u = y u.
  Proof.
    intros [HS _]. apply unique_solution.
    - intros. apply Kof_sym.
    - intros b. destruct (HS b) as (y & _ & Hy). exists y. intros i Hi. specialize (Hy i Hi). lra.
  Qed.
End Kkt.
