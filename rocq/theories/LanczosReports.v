(** The reported norms against each other, and the defined cases. *)
From Coq Require Import List Arith Reals Lra Lia FunctionalExtensionality.
From Verif Require Import Base DenseModel RSum JordanModel LanczosModel Spec_Hyper Spec_Lanczos HyperFacts JordanProofs JordanInterior JordanSteps
  LanczosProofs LanczosLinks LanczosFacts RealFactor.
Import ListNotations.
Open Scope R_scope.

Lemma good_slack k (Hk : (k <= 2)%nat) d b o0 o c y : herm_data k d o0 -> good k d b o0 o ->
  posdef d (matrix_of k (h_W o)) /\ hermitian_matrix d (matrix_of k (HNegativeSlack o c y)).
Proof.
  intros HD HG. pose proof (good_data k d _ _ _ HG HD) as HO. destruct HG as (_ & _ & _ & H4 & _). split; auto.
  apply cl_herm. apply slack_hermitian; auto.
Qed.

Lemma hermitian_norm_bound k (Hk : (k <= 2)%nat) d b o0 o opt y : herm_data k d o0 -> good k d b o0 o -> so_affine opt = false -> so_e_weight opt = 1 ->
  exists s, snd (HPrepareStep (2 ^ k) o opt y) = Some s /\
    norm_at_most d (matrix_of k (h_W o)) (matrix_of k (HNegativeSlack o (so_c_weight opt) y)) 1 (sqrt s) /\ 0 <= s.
Proof.
  intros HD HG Ha He. pose proof HG as (G1 & G2 & G3 & G4 & (F & F1 & F2) & G6).
  pose proof (prepare_norm k Hk d b o0 o opt y HD HG Ha F F1 F2) as EN. cbv zeta in EN.
  eexists. split; [exact EN|]. split; [|apply (minner_nonneg _ _ (laws_cd k))].
  set (S := matrix_of k (HNegativeSlack o (so_c_weight opt) y)) in *.
  assert (same_matrix d (matrix_of k (h_W o)) (mmul d F (mconj F))) as HF.
  { apply clip_same. unfold cl in F2. rewrite (clip_mul _ _ (laws_cd k)), (clip_conj _ _ (laws_cd k)), F1. exact F2. }
  pose proof (factored_norm k Hk d _ S F 1 HF (proj1 G4)) as HN.
  rewrite (minner_clip k d) in HN. rewrite (clip_add _ _ (laws_cd k)), !(clip_mul _ _ (laws_cd k)), (clip_conj _ _ (laws_cd k)), F1 in HN.
  rewrite (clip_scal _ _ (laws_cd k)) in HN. 
  replace (mscal 1 (clip (cd k) d mid)) with (one (cd k) d) in HN; [exact HN|].
  fext. unfold mscal, one. apply (co_sep _ _ (laws_cd k)). intros i. rewrite (co_scal _ _ (laws_cd k)). ring.
Qed.

(** A real semidefinite constraint seen as a Hermitian one. *)
Definition lift (X : mat) : hyper := fun i => if (i =? 0)%nat then X else fun _ _ => 0.
Lemma lift_matrix X : matrix_of 0 (lift X) = X.
Proof. reflexivity. Qed.
Lemma real_norm_bound d (W S : mat) : posdef (A := reals) d W -> hermitian_matrix (A := reals) d S ->
  norm_at_most (A := reals) d W S 1 (sqrt (PNormSquared d (PWeightedSlack d W S))) /\ 0 <= PNormSquared d (PWeightedSlack d W S).
Proof.
  intros HW HS.
  set (o := mkHermitian d [] (lift (fun r c => - S r c)) (lift W) Zero Zero).
  set (opt := mkStepOptions false 1 1 1).
  assert (forall y, HNegativeSlack o (so_c_weight opt) y = ScalarMultiply (lift (fun r c => - S r c)) (- 1)) as EN by reflexivity.
  assert (matrix_of 0 (HNegativeSlack o (so_c_weight opt) (fun _ => 0)) = S) as ES.
  { rewrite EN. fext. unfold matrix_of, ScalarMultiply, lift. cbn. ring. }
  assert (herm_data 0 d o) as HD.
  { split; [intros X []|]. cbn [h_affine o]. rewrite lift_matrix. intros r c Hr Hc. specialize (HS r c Hr Hc). unfold mconj in *. cbn in *. rewrite HS. auto. }
  destruct (real_factor d W) as [F HF].
  { intros i j Hi Hj. symmetry. apply (proj1 HW i j Hi Hj). }
  { intros x Hx. apply (proj2 HW x Hx). }
  assert (good 0 d false o o) as HG.
  { split; [auto|]. split; [auto|]. split; [auto|]. split; [cbn [h_W o]; rewrite lift_matrix; auto|]. split; [|discriminate].
    exists (clip (cd 0) d F). split; [apply clip_clip|]. unfold cl. cbn [h_W o]. rewrite lift_matrix.
    rewrite <- (clip_conj _ _ (laws_cd 0)), <- (clip_mul _ _ (laws_cd 0)). apply clip_same. intros r c Hr Hc. rewrite HF by auto. reflexivity. }
  destruct (hermitian_norm_bound 0 (Nat.le_0_l 2) d false o o opt (fun _ => 0) HD HG eq_refl eq_refl) as (s & E1 & E2 & E3).
  rewrite ES in E2. cbn [h_W o] in E2. rewrite lift_matrix in E2.
  assert (s = PNormSquared d (PWeightedSlack d W S)) as <-; [|auto].
  cbn [HPrepareStep so_affine opt snd] in E1. injection E1 as <-. cbn [h_rank o h_W].
  change (HNegativeSlack _ _ _) with (HNegativeSlack o (so_c_weight opt) (fun _ => 0)).
  assert (Multiply 1 d (lift W) (HNegativeSlack o (so_c_weight opt) (fun _ => 0)) 0%nat = rprod d W S) as EW.
  { transitivity (matrix_of 0 (Multiply (2 ^ 0) d (lift W) (HNegativeSlack o (so_c_weight opt) (fun _ => 0)))); [reflexivity|].
    rewrite of_multiply, ES by lia. reflexivity. }
  unfold PNormSquared, PWeightedSlack, trace0. f_equal. f_equal.
  - apply rsum_ext. intros r Hr. 
    transitivity (matrix_of 0 (Multiply (2 ^ 0) d (Multiply 1 d (lift W) (HNegativeSlack o (so_c_weight opt) (fun _ => 0))) (Multiply 1 d (lift W) (HNegativeSlack o (so_c_weight opt) (fun _ => 0)))) r r); [reflexivity|].
    rewrite of_multiply by lia. change (matrix_of 0 ?X) with (X 0%nat). rewrite EW. reflexivity.
  - f_equal. apply rsum_ext. intros r Hr. rewrite EW. auto.
Qed.

(** The real recurrence is defined exactly for a non-zero start vector. *)
Lemma real_defined d (W WS : mat) r num : posdef (A := reals) d W ->
  ((exists T, AsymmetricLanczos d WS W r num = Some T) <-> (0 < num)%nat /\ exists i, (i < d)%nat /\ r i <> 0).
Proof.
  intros HW. unfold AsymmetricLanczos. rewrite lanczos_defined by (intros; lra).
  assert (inner_product d (fun i => rsum d (fun t => W i t * r t), r) (fun i => rsum d (fun t => W i t * r t), r) = form (A := reals) d W r) as E.
  { rewrite rform_form. unfold inner_product, rform. cbn [fst snd]. apply rsum_ext. intros i Hi. rewrite <- rsum_scal_r. apply rsum_ext. intros. ring. }
  rewrite E. split; intros [H1 H2]; split; auto.
  - apply Classical_Prop.NNPP. intros Hn. assert (forall i, (i < d)%nat -> r i = 0) as Hz by (intros i Hi; apply Classical_Prop.NNPP; intros Hi'; apply Hn; eauto).
    rewrite rform_form in H2. unfold rform in H2. rewrite rsum_zero in H2; [lra|]. intros i Hi. apply rsum_zero. intros j Hj. rewrite (Hz i) by auto. ring.
  - apply HW. auto.
Qed.

(** The hypercomplex recurrence needs in addition a non-zero image, or one iteration. *)
Lemma loop_defined_or E add scale ip op th todo V U : (todo = 0%nat \/ 0 < th) -> exists r, lanczos_loop E add scale ip op th todo V U = Some r.
Proof. intros [->|H]; [cbn; eauto|apply loop_defined; auto]. Qed.
Lemma posdef_nonzero {A : star} co (L : laws A co) d (W : amat A) z : posdef d W -> (0 < form d W z <-> exists i, (i < d)%nat /\ z i <> s0).
Proof.
  intros HW. split; [|apply HW]. intros H. apply Classical_Prop.NNPP. intros Hn.
  assert (forall r, (r < d)%nat -> z r = s0) as Hz by (intros r Hr; apply Classical_Prop.NNPP; intros Hr'; apply Hn; exists r; auto).
  unfold form in H. rewrite (ssum_0 A co L) in H; [rewrite (re_0 A co L) in H; lra|]. intros r Hr. apply (ssum_0 A co L). intros c Hc. rewrite (Hz c), !(mul_0_r A co L) by auto. auto.
Qed.
Section HyperDefined.
  Variables (k d : nat) (W S : hyper).
  Hypothesis Hk : (k <= 2)%nat.
  Hypothesis HW : posdef d (matrix_of k W).
  Hypothesis HS : hermitian_matrix d (matrix_of k S).
  Notation n := (2 ^ k)%nat.
  Notation A := (cd k). Notation L := (laws_cd k).
  Notation Wm := (matrix_of k W). Notation Sm := (matrix_of k S).
  Let c0 := fun V : hcolumns => column k (fst V).
  Let c1 := fun V : hcolumns => column k (snd V).
  Lemma scal_nonzero (s : R) (x : el A) : s <> 0 -> (sscal s x <> s0 <-> x <> s0).
  Proof.
    intros Hs. split; intros H E; apply H.
    - rewrite E. apply (scal_0_r A _ L).
    - apply (co_sep _ _ L). intros i. assert (coords_of k i (sscal s x) = 0) as E' by (rewrite E; apply (co_0 _ _ L)). rewrite (co_scal _ _ L) in E'. rewrite (co_0 _ _ L).
      apply Rmult_integral in E'. destruct E'; [contradiction|auto].
  Qed.
  Lemma hyper_defined r num : (exists T, HApproximateEigenvalues n d (Multiply n d W S) W r num = Some T) <->
    (0 < num)%nat /\ (exists i, (i < d)%nat /\ column k r i <> s0) /\
    (num = 1%nat \/ exists i, (i < d)%nat /\ act d Sm (act d Wm (column k r)) i <> s0).
  Proof.
    unfold HApproximateEigenvalues. set (WS := Multiply n d W S). set (V := ((Multiply n d W r, r) : hcolumns)).
    assert (forall x y, c1 (hcolumns_add x y) = fun r0 => sadd (c1 x r0) (c1 y r0)) as A2 by (intros x y; unfold c1, column; cbn [hcolumns_add snd]; rewrite of_add; reflexivity).
    assert (forall x y, c0 (hcolumns_add x y) = fun r0 => sadd (c0 x r0) (c0 y r0)) as A1 by (intros x y; unfold c0, column; cbn [hcolumns_add fst]; rewrite of_add; reflexivity).
    assert (forall x s, c0 (hcolumns_scale x s) = fun r0 => sscal s (c0 x r0)) as A3 by (intros x s; unfold c0, column; cbn [hcolumns_scale fst]; rewrite of_scal; reflexivity).
    assert (forall x s, c1 (hcolumns_scale x s) = fun r0 => sscal s (c1 x r0)) as A4 by (intros x s; unfold c1, column; cbn [hcolumns_scale snd]; rewrite of_scal; reflexivity).
    assert (forall x, c0 (happly_both n d WS x) = mv A d (mmul d Wm Sm) (c0 x)) as A5
      by (intros x; unfold c0; cbn [happly_both fst]; unfold WS; rewrite column_multiply, of_multiply by lia; reflexivity).
    assert (forall x, c1 (happly_both n d WS x) = mv A d (mconj (mmul d Wm Sm)) (c1 x)) as A6
      by (intros x; unfold c1; cbn [happly_both snd]; unfold WS; rewrite column_multiply, of_conj, of_multiply by lia; reflexivity).
    set (linked := linked A d Wm hcolumns c0 c1).
    pose proof (linked_norm A _ L (assoc_cd k Hk) d Wm (proj1 HW) hcolumns (hinner_product n d) c0 c1 (hinner_ip k d Hk)) as HN. fold linked in HN.
    assert (linked V) as HV by (intros i Hi; unfold c0, c1; cbn [V fst snd]; rewrite column_multiply by auto; reflexivity).
    pose proof (linked_scale A _ L d Wm hcolumns hcolumns_scale c0 c1 A3 A4) as HLs. fold linked in HLs.
    pose proof (linked_op A _ L (assoc_cd k Hk) d Wm Sm (proj1 HW) HS hcolumns (happly_both n d WS) c0 c1 A5 A6) as HLo. fold linked in HLo.
    pose proof (linked_op_value A _ L (assoc_cd k Hk) d Wm Sm (proj1 HW) HS hcolumns (happly_both n d WS) c0 c1 A6) as HLv. fold linked in HLv.
    pose proof (linked_add A _ L d Wm hcolumns hcolumns_add c0 c1 A1 A2) as HLa. fold linked in HLa.
    unfold lanczos. destruct num as [|todo]; [split; [intros [T H]; discriminate|lia]|].
    rewrite (HN V HV). change (c1 V) with (column k r).
    destruct (Rle_dec (form d Wm (column k r)) 0) as [Hle|Hgt].
    { split; [intros [T H]; discriminate|]. intros (_ & H & _). apply (posdef_nonzero _ L d Wm) in H; auto. lra. }
    assert (0 < form d Wm (column k r)) as Hpos by lra. pose proof Hpos as Hr. apply (posdef_nonzero _ L d Wm) in Hr; auto.
    set (s := 1 / sqrt (form d Wm (column k r))). assert (s <> 0) as Hs.
    { unfold s, Rdiv. rewrite Rmult_1_l. apply Rinv_neq_0_compat. apply Rgt_not_eq. apply sqrt_lt_R0; auto. }
    set (v := hcolumns_scale V s). assert (linked v) as Hv by (apply HLs; auto).
    set (u := happly_both n d WS v). assert (linked u) as Hu by (apply HLo; auto).
    rewrite (HN u Hu).
    assert (forall i, (i < d)%nat -> c1 u i = sscal s (act d Sm (act d Wm (column k r)) i)) as Eu.
    { intros i Hi. unfold u. rewrite HLv by auto. unfold v. rewrite A4. rewrite (mv_times A _ L), (mv_times A _ L). reflexivity. }
    assert (0 < form d Wm (c1 u) <-> exists i, (i < d)%nat /\ act d Sm (act d Wm (column k r)) i <> s0) as HC.
    { rewrite (posdef_nonzero _ L d Wm) by auto. split; intros (i & Hi & H); exists i; (split; [auto|]).
      - rewrite Eu in H by auto. apply scal_nonzero in H; auto.
      - rewrite Eu by auto. apply scal_nonzero; auto. }
    set (al := hinner_product n d v u). set (U1 := hcolumns_add u (hcolumns_scale v (- al))).
    split.
    - intros [T HT]. split; [lia|]. split; [auto|]. destruct todo as [|todo]; [left; auto|right]. apply HC.
      destruct (posdef_psd _ L d Wm HW) as [_ Hpsd]. destruct (Hpsd (c1 u)) as [H0|H0]; [auto|]. exfalso.
      assert (forall i, (i < d)%nat -> c1 u i = s0) as Hz.
      { intros i Hi. apply Classical_Prop.NNPP. intros Hn. assert (0 < form d Wm (c1 u)); [apply HW; exists i; auto|lra]. }
      assert (al = 0) as Ha.
      { unfold al. rewrite (hinner_ip k d Hk). unfold ip. change (column k (snd u)) with (c1 u). rewrite (ssum_0 _ _ L); [apply (re_0 _ _ L)|]. intros t Ht. rewrite Hz by auto. apply (mul_0_r _ _ L). }
      assert (hinner_product n d U1 U1 = 0) as HU.
      { assert (linked U1) as HU1 by (apply HLa; [auto|apply HLs; auto]). rewrite HN by auto.
        assert (~ 0 < form d Wm (c1 U1)) as Hng.
        { intros H. apply (posdef_nonzero _ L d Wm) in H; auto. destruct H as (i & Hi & H). apply H. unfold U1. rewrite A2, A4. cbn beta. rewrite Hz by auto. rewrite Ha.
          apply (co_sep _ _ L). intros j. coords (laws_cd k). ring. }
        destruct (Hpsd (c1 U1)); [contradiction|auto]. }
      cbn [lanczos_loop] in HT. rewrite HU, <- H0 in HT. destruct (Rlt_dec 0 (1 / 10 ^ 5 * 0)); [lra|]. destruct (Rle_dec 0 0); [discriminate|lra].
    - intros (_ & _ & Hc).
      destruct (loop_defined_or hcolumns hcolumns_add hcolumns_scale (hinner_product n d) (happly_both n d WS) (1 / 10 ^ 5 * form d Wm (c1 u)) todo v U1) as [[a b] Hl].
      + destruct Hc as [Hc|Hc]; [left; lia|right]. apply HC in Hc. lra.
      + rewrite Hl. eauto.
  Qed.
End HyperDefined.

(** The quadratic representation of the identity, also for octonions. *)
Lemma quadratic_identity : forall k d s, (k <= 3)%nat ->
  clip (cd k) d (matrix_of k (QuadraticRepresentation (2 ^ k) d Identity s)) = clip (cd k) d (matrix_of k s).
Proof.
  intros k d s Hk. unfold QuadraticRepresentation. rewrite of_add, !of_scal, !of_jordan by lia. rewrite of_identity.
  repeat (rewrite (clip_add _ _ (laws_cd k)) || rewrite (clip_scal _ _ (laws_cd k)) || rewrite (clip_mul _ _ (laws_cd k))).
  change (clip (cd k) d mid) with (one (cd k) d). mpush k.
  set (X := clip (cd k) d (matrix_of k s)). assert (clipped (cd k) d X) as HX by apply clip_clip. clearbody X.
  assert (clipped (cd k) d (one (cd k) d)) as H1 by apply clip_clip.
  pose proof (one_l _ _ (laws_cd k) d X HX) as E1. pose proof (one_r _ _ (laws_cd k) d X HX) as E2. pose proof (one_l _ _ (laws_cd k) d _ H1) as E3.
  repeat (rewrite E1 || rewrite E2 || rewrite E3). mlin k.
Qed.
Lemma quadratic_identity_trace : forall k d s x, (k <= 3)%nat ->
  TraceInnerProduct (2 ^ k) d d (QuadraticRepresentation (2 ^ k) d Identity s) x = TraceInnerProduct (2 ^ k) d d s x.
Proof. intros. rewrite !of_trace, (minner_clip k), (minner_clip k _ (matrix_of k s)), quadratic_identity; auto. Qed.
