(** Properties C33 (exponential maps), C37 (Hermitian constraints), C43, C47, C56. *)
From Coq Require Import List Arith Reals Lra Lia Bool FunctionalExtensionality.
From Verif Require Import Base BaseFacts DenseModel RSum JordanModel Spec_Hyper HyperFacts JordanProofs JordanInterior JordanSteps
  JordanSchur JordanTrace PadeProofs.
Import ListNotations.
Open Scope R_scope.

(** ** C43: the algebra of hypercomplex matrices *)

(** The sign and index tables implement the product of matrices over the reals, the
    complex numbers, the quaternions and the octonions ([2^k] components). *)
Theorem C43_product : forall k d X Y r c, (k <= 3)%nat ->
  matrix_of k (Multiply (2 ^ k) d X Y) r c = mmul d (matrix_of k X) (matrix_of k Y) r c.
Proof. intros. rewrite of_multiply by auto. auto. Qed.

Theorem C43_associative : forall k d X Y Z i r c, (k <= 2)%nat -> (i < 2 ^ k)%nat ->
  Multiply (2 ^ k) d (Multiply (2 ^ k) d X Y) Z i r c = Multiply (2 ^ k) d X (Multiply (2 ^ k) d Y Z) i r c.
Proof. exact multiply_assoc. Qed.

Definition unit_matrix (j : nat) : hyper := fun i r c => if (i =? j)%nat then 1 else 0.
Lemma octonion_left : Multiply 8 1 (Multiply 8 1 (unit_matrix 1) (unit_matrix 2)) (unit_matrix 4) 7%nat 0%nat 0%nat = 1
  /\ Multiply 8 1 (unit_matrix 1) (Multiply 8 1 (unit_matrix 2) (unit_matrix 4)) 7%nat 0%nat 0%nat = -1
  \/ Multiply 8 1 (Multiply 8 1 (unit_matrix 1) (unit_matrix 2)) (unit_matrix 4) 7%nat 0%nat 0%nat = -1
  /\ Multiply 8 1 (unit_matrix 1) (Multiply 8 1 (unit_matrix 2) (unit_matrix 4)) 7%nat 0%nat 0%nat = 1.
Proof. run. cbn [rsum]. unfold unit_matrix. cbn [Nat.eqb]. lra. Qed.
Theorem C43_octonions_associative_refuted : exists X Y Z i, (i < 8)%nat /\
  Multiply 8 1 (Multiply 8 1 X Y) Z i 0%nat 0%nat <> Multiply 8 1 X (Multiply 8 1 Y Z) i 0%nat 0%nat.
Proof.
  exists (unit_matrix 1), (unit_matrix 2), (unit_matrix 4), 7%nat. split; [lia|]. destruct octonion_left as [[-> ->]|[-> ->]]; lra.
Qed.

Theorem C43_conjugate : forall k d X Y i r c, (k <= 3)%nat -> (i < 2 ^ k)%nat ->
  ConjugateTranspose (Multiply (2 ^ k) d X Y) i r c = Multiply (2 ^ k) d (ConjugateTranspose Y) (ConjugateTranspose X) i r c.
Proof. exact conjugate_product. Qed.

(** [|x y|^2 = |x|^2 |y|^2] for 1 x 1 matrices. *)
Theorem C43_norm : forall k X Y, (k <= 3)%nat ->
  squaredNorm (2 ^ k) 1 1 (Multiply (2 ^ k) 1 X Y) = squaredNorm (2 ^ k) 1 1 X * squaredNorm (2 ^ k) 1 1 Y.
Proof. exact norm_product. Qed.

Theorem C43_jordan : forall k d X Y, (k <= 3)%nat ->
  hermitian_matrix d (matrix_of k X) -> hermitian_matrix d (matrix_of k Y) ->
  hermitian_matrix d (matrix_of k (JordanMultiply (2 ^ k) d X Y)) /\
  forall i r c, JordanMultiply (2 ^ k) d X Y i r c = JordanMultiply (2 ^ k) d Y X i r c.
Proof.
  intros k d X Y Hk HX HY. split; [apply jordan_hermitian; auto|]. intros. rewrite jordan_comm. auto.
Qed.

Theorem C43_quadratic : forall k d x y i r c, (k <= 2)%nat -> (i < 2 ^ k)%nat ->
  QuadraticRepresentation (2 ^ k) d x y i r c = Multiply (2 ^ k) d x (Multiply (2 ^ k) d y x) i r c.
Proof. exact quadratic_product. Qed.

Theorem C43_trace : forall n rows cols x y,
  TraceInnerProduct n rows cols x y = TraceInnerProduct n rows cols y x /\
  (forall k, n = (2 ^ k)%nat -> rows = cols -> TraceInnerProduct n rows cols x y = inner cols (matrix_of k x) (matrix_of k y)).
Proof.
  intros. split; [apply trace_symmetric|]. intros k -> ->. rewrite of_trace. unfold minner, inner. rewrite (ssum_re _ _ (laws_cd k)).
  apply rsum_ext. intros. rewrite (ssum_re _ _ (laws_cd k)). auto.
Qed.

(** The trace form is associative for the Jordan product, octonions included. *)
Theorem C43_trace_associative : forall k d X Y Z, (k <= 3)%nat ->
  hermitian_matrix d (matrix_of k X) -> hermitian_matrix d (matrix_of k Y) -> hermitian_matrix d (matrix_of k Z) ->
  TraceInnerProduct (2 ^ k) d d (JordanMultiply (2 ^ k) d X Y) Z = TraceInnerProduct (2 ^ k) d d X (JordanMultiply (2 ^ k) d Y Z).
Proof. intros k d X Y Z Hk HX HY HZ. apply cl_herm in HX, HY, HZ. apply jordan_trace; auto. Qed.

(** A Hermitian 2 x 2 matrix over each algebra, and a product of imaginary units. *)
Definition sample : hyper := fun i r c =>
  if (i =? 0)%nat then (if (r =? c)%nat then 2 else 1) else if (r =? c)%nat then 0 else if (r <? c)%nat then 1 else -1.
Lemma read_sample_conj : forall k f g, (forall i, (i < 2 ^ k)%nat -> g i = if (i =? 0)%nat then f i else - f i) -> sconj (read k f) = read k g.
Proof. intros k f g H. rewrite <- read_conj. apply read_ext. intros i Hi. rewrite H; auto. Qed.
Lemma sample_hermitian : forall k d, hermitian_matrix d (matrix_of k sample).
Proof.
  intros k d r c _ _. unfold mconj, matrix_of. apply read_sample_conj. intros i _. unfold sample.
  destruct (i =? 0)%nat; [rewrite Nat.eqb_sym; auto|]. rewrite Nat.eqb_sym. destruct (Nat.eqb_spec c r) as [->|H]; [ring|].
  destruct (Nat.ltb_spec r c); destruct (Nat.ltb_spec c r); try lia; lra.
Qed.
Example C43_example : (forall k, hermitian_matrix 2 (matrix_of k sample)) /\ sample 1%nat 0%nat 1%nat = 1 /\
  Multiply 4 1 (unit_matrix 1) (unit_matrix 2) 3%nat 0%nat 0%nat = - Multiply 4 1 (unit_matrix 2) (unit_matrix 1) 3%nat 0%nat 0%nat /\
  Multiply 4 1 (unit_matrix 1) (unit_matrix 2) 3%nat 0%nat 0%nat <> 0.
Proof.
  split; [intros; apply sample_hermitian|]. split; [reflexivity|]. run. cbn [rsum]. unfold unit_matrix. cbn [Nat.eqb]. lra.
Qed.

(** ** C47: updates of Hermitian scaling matrices are congruences *)

Theorem C47_congruence : forall k d w s, (k <= 2)%nat -> hermitian_matrix d (matrix_of k w) -> hermitian_matrix d (matrix_of k s) ->
  let W := matrix_of k w in let X := madd (mscal (3 / 2) mid) (mscal (1 / 2) (mmul d W (matrix_of k s))) in
  exists w', GeodesicUpdateScaled (2 ^ k) d w s = Ok w' /\ same_matrix d (matrix_of k w') (mmul d X (mmul d W (mconj X))).
Proof.
  intros k d w s Hk Hw Hs W X. exists (DoGeodesicUpdateScaled (2 ^ k) d w s). split; [|apply geodesic_congruence; auto].
  destruct k as [|[|[|]]]; [reflexivity..|lia].
Qed.
Theorem C47_semidefinite : forall k d w s w', (k <= 2)%nat -> possemidef d (matrix_of k w) -> hermitian_matrix d (matrix_of k s) ->
  GeodesicUpdateScaled (2 ^ k) d w s = Ok w' -> possemidef d (matrix_of k w').
Proof.
  intros k d w s w' Hk Hw Hs E. assert (w' = DoGeodesicUpdateScaled (2 ^ k) d w s) as ->.
  { destruct k as [|[|[|]]]; [injection E as <-; reflexivity..|lia]. }
  apply geodesic_semidefinite; auto.
Qed.
(** Octonions included: the result is Hermitian. *)
Theorem C47_hermitian : forall k d w s w', (k <= 3)%nat -> GeodesicUpdateScaled (2 ^ k) d w s = Ok w' -> hermitian_matrix d (matrix_of k w').
Proof.
  intros k d w s w' Hk E. assert (w' = DoGeodesicUpdateScaled (2 ^ k) d w s) as ->.
  { destruct k as [|[|[|[|]]]]; [injection E as <-; reflexivity..|lia]. }
  apply geodesic_hermitian.
Qed.
(** A definite scaling point may become singular. *)
Theorem C47_definite_refuted : exists w s w', posdef 1 (matrix_of 0 w) /\ hermitian_matrix 1 (matrix_of 0 s) /\
  GeodesicUpdateScaled 1 1 w s = Ok w' /\ ~ posdef 1 (matrix_of 0 w').
Proof.
  exists Identity, (ScalarMultiply Identity (-3)), (DoGeodesicUpdateScaled 1 1 Identity (ScalarMultiply Identity (-3))).
  split; [|split; [|split; [reflexivity|]]].
  - split; [intros r c _ _; unfold mconj, matrix_of, Identity; cbn; rewrite Nat.eqb_sym; auto|].
    intros z (r & Hr & Hn). unfold form. cbn. replace r with 0%nat in Hn by lia. cbn in Hn. nra.
  - intros r c _ _. unfold mconj, matrix_of, ScalarMultiply, Identity. cbn. rewrite Nat.eqb_sym. auto.
  - intros [_ H]. specialize (H (fun _ => 1)). unfold form, matrix_of in H. cbn [read ssum cd reals sre sadd smul sconj s0] in H.
    assert (DoGeodesicUpdateScaled 1 1 Identity (ScalarMultiply Identity (-3)) 0%nat 0%nat 0%nat = 0) as E.
    { unfold DoGeodesicUpdateScaled, MakeHermitian, ScalarMultiply, Add, ConjugateTranspose, QuadraticRepresentation, ScalarMultiply, Add, JordanMultiply, ScalarMultiply, Add.
      run. cbn [rsum]. unfold Identity. cbn [Nat.eqb]. lra. }
    rewrite E in H. assert (0 < 0 + (0 + 1 * (0 * 1))); [apply H; exists 0%nat; split; [lia|cbn; lra]|lra].
Qed.
(** The step of the Hermitian constraint is also a congruence: [Y = T^2] with
    [T = I + X/4 + X^2/32], the square root of the exponential map of the scaled
    direction [X = s (W S + e I)]. *)
Theorem C47_take_step : forall k o0 o opt, (k <= 2)%nat -> herm_data k (h_rank o0) o0 -> reached (2 ^ k) o0 true o ->
  let d := h_rank o0 in
  let X := mscal (so_step_size opt) (madd (matrix_of k (h_WS o)) (mscal (so_e_weight opt) mid)) in
  let T := madd (madd mid (mscal (1 / 4) X)) (mscal (1 / 32) (mmul d X X)) in
  let Y := mmul d T T in
  exists o', HTakeStep (2 ^ k) o opt = Ok o' /\
    same_matrix d (matrix_of k (h_W o')) (mmul d Y (mmul d (matrix_of k (h_W o)) (mconj Y))).
Proof.
  intros k o0 o opt Hk HD HR. apply (take_formula k Hk (h_rank o0) o0 o opt). apply (reached_good k Hk (h_rank o0) o0 true o eq_refl HD HR).
Qed.

(** A Hermitian constraint of order 2 with one constraint matrix. *)
Definition sample_constraint : hermitian := mkHermitian 2 [sample] Identity Zero Zero Zero.
Lemma identity_hermitian : forall k d, hermitian_matrix d (matrix_of k Identity).
Proof. intros k d. apply cl_herm. rewrite cl_identity. apply (mconj_one _ _ (laws_cd k)). Qed.
Example C47_example : forall k opt y, (k <= 2)%nat -> so_affine opt = false -> herm_data k 2 sample_constraint /\
  reached (2 ^ k) sample_constraint true (fst (HPrepareStep (2 ^ k) (HSetIdentity sample_constraint) opt y)).
Proof.
  intros k opt y Hk Ho. split.
  - split; [|apply identity_hermitian]. intros X [<-|[]]. apply sample_hermitian.
  - apply RPrepare with (b := false); auto. constructor.
Qed.

(** ** C37 for Hermitian constraints *)

(** The scaling point stays positive definite whatever the directions, weights and
    step sizes are, and a step never fails. *)
Theorem C37_hermitian : forall k o0 b o, (k <= 2)%nat -> herm_data k (h_rank o0) o0 -> reached (2 ^ k) o0 b o ->
  posdef (h_rank o0) (matrix_of k (h_W o)) /\ (b = true -> forall opt, exists o', HTakeStep (2 ^ k) o opt = Ok o').
Proof.
  intros k o0 b o Hk HD HR. pose proof (reached_good k Hk (h_rank o0) o0 b o eq_refl HD HR) as HG. split; [apply HG|].
  intros -> opt. destruct (good_take k Hk (h_rank o0) o0 o opt HG) as (o' & E & _). exists o'. exact E.
Qed.
(** In the affine mode (preparing duals) the scaling point may leave the cone. *)
Theorem C37_hermitian_affine_refuted : exists o opt y, herm_data 0 1 o /\ h_rank o = 1%nat /\ so_affine opt = true /\
  ~ posdef 1 (matrix_of 0 (h_W (fst (HPrepareStep 1 (HSetIdentity o) opt y)))).
Proof.
  exists (mkHermitian 1 [Identity] Identity Zero Zero Zero), (mkStepOptions true 0 1 1), (fun _ => 0).
  split; [|split; [reflexivity|split; [reflexivity|]]].
  - split; [intros X [<-|[]]|]; apply identity_hermitian.
  - intros [_ H]. specialize (H (fun _ => 1)). unfold form, matrix_of in H. cbn [read ssum cd reals sre sadd smul sconj s0] in H.
    match type of H with _ -> 0 < 0 + (0 + 1 * (?w * 1)) => assert (w = 0) as E end.
    { unfold HPrepareStep. cbn [so_affine fst h_W HSetIdentity with_W h_rank so_e_weight]. destruct (Req_EM_T 0 0); [|lra].
      unfold Add. run. cbn [rsum]. unfold HNegativeSlack. cbn. unfold Add, ScalarMultiply, Identity. cbn. lra. }
    rewrite E in H. assert (0 < 0 + (0 + 1 * (0 * 1))); [apply H; exists 0%nat; split; [lia|cbn; lra]|lra].
Qed.

(** ** C33: exponential maps *)

Theorem C33_exponential : forall k d x, (k <= 2)%nat -> hermitian_matrix d (matrix_of k x) ->
  exists y, ExponentialMap (2 ^ k) d x = Ok y /\ posdef d (matrix_of k y).
Proof.
  intros k d x Hk Hx. exists (DoExponentialMap (2 ^ k) d x). split; [apply exp_dispatch; auto|]. apply exp_posdef; auto.
Qed.
(** The rational map: if the step times the norm of the direction (in the metric of
    [W]) is at most [sqrt 2], as C33_steps_taken guarantees for the exact norm, the
    linear system solved is regular, there is a new scaling point, and it is
    positive definite. *)
Theorem C33_pade : forall d W S WS opt nu, posdef (A := reals) d W -> hermitian_matrix (A := reals) d S ->
  (forall r c, (r < d)%nat -> (c < d)%nat -> WS r c = rsum d (fun t => W r t * S t c)) ->
  0 <= nu -> Rabs (so_step_size opt) * nu <= sqrt 2 ->
  (forall v, form (A := reals) d W (direction d WS (so_e_weight opt) v) <= nu * nu * form (A := reals) d W v) ->
  JordanModel.invertible d (PadeDenominator d (GeodesicArgument WS opt)) /\
  (exists W', PTakeStep d W WS opt W') /\
  forall W', PTakeStep d W WS opt W' -> posdef (A := reals) d W'.
Proof.
  intros d W S WS opt nu H1 H2 H3 H4 H5 H6. split; [|split].
  - eapply pade_invertible; eauto.
  - eapply pade_exists; eauto.
  - intros W' HW'. eapply (pade_posdef d W S WS W' opt nu); eauto.
Qed.
(** Without the bound on the step the rational map is not positive. *)
Theorem C33_pade_refuted : exists W S WS opt W', posdef (A := reals) 1 W /\ hermitian_matrix (A := reals) 1 S /\
  (forall r c, (r < 1)%nat -> (c < 1)%nat -> WS r c = rsum 1 (fun t => W r t * S t c)) /\
  PTakeStep 1 W WS opt W' /\ ~ posdef (A := reals) 1 W'.
Proof.
  exists ridentity, (fun _ _ => -6), (fun _ _ => -6), (mkStepOptions false 1 1 1), (fun _ _ => -5 / 845).
  assert (GeodesicArgument (fun _ _ => -6) (mkStepOptions false 1 1 1) 0%nat 0%nat = -5) as EG.
  { unfold GeodesicArgument. cbn [so_e_weight so_step_size]. destruct (Req_EM_T 1 1); rewrite Nat.eqb_refl; lra. }
  split; [|split; [|split; [|split]]].
  - split; [intros r c _ _; unfold mconj, ridentity; cbn; rewrite Nat.eqb_sym; auto|].
    intros z (r & Hr & Hn). unfold form. cbn. replace r with 0%nat in Hn by lia. cbn in Hn. nra.
  - intros r c _ _. reflexivity.
  - intros r c Hr Hc. replace r with 0%nat by lia. cbn. lra.
  - exists (fun _ _ => -5 / 845). split.
    + intros _ r c Hr Hc. replace r with 0%nat by lia. replace c with 0%nat by lia.
      unfold rprod, PadeDenominator, PadeNumerator, odd_powers, even_powers, rprod. cbn [rsum Nat.eqb]. unfold ridentity. cbn [Nat.eqb].
      rewrite EG. lra.
    + intros r c Hr Hc. replace r with 0%nat by lia. replace c with 0%nat by lia. unfold rprod, ridentity. cbn. lra.
  - intros [_ H]. specialize (H (fun _ => 1)). unfold form in H. cbn in H.
    assert (0 < 0 + (0 + 1 * (-5 / 845 * 1))); [apply H; exists 0%nat; split; [lia|lra]|lra].
Qed.
Example C33_pade_example : let W := ridentity in let S := fun r c => if (r =? c)%nat then -2 else 0 in let opt := mkStepOptions false 1 1 1 in
  posdef (A := reals) 2 W /\ hermitian_matrix (A := reals) 2 S /\
  (forall r c, (r < 2)%nat -> (c < 2)%nat -> S r c = rsum 2 (fun t => W r t * S t c)) /\ Rabs (so_step_size opt) * 1 <= sqrt 2 /\
  (forall v, form (A := reals) 2 W (direction 2 S (so_e_weight opt) v) <= 1 * 1 * form (A := reals) 2 W v).
Proof.
  cbv zeta. split; [|split; [|split; [|split]]].
  - split; [intros r c _ _; unfold mconj, ridentity; cbn; rewrite Nat.eqb_sym; auto|].
    intros z (r & Hr & Hn). unfold form. cbn. destruct r as [|[|]]; [| |lia]; cbn in Hn; assert (0 < z 0%nat * z 0%nat \/ 0 < z 1%nat * z 1%nat) by nra;
      pose proof (Rle_0_sqr (z 0%nat)); pose proof (Rle_0_sqr (z 1%nat)); unfold Rsqr in *; lra.
  - intros r c _ _. unfold mconj. cbn. rewrite Nat.eqb_sym. auto.
  - intros r c Hr Hc. destruct r as [|[|]]; [| |lia]; (destruct c as [|[|]]; [| |lia]); unfold ridentity; cbn; lra.
  - cbn. rewrite Rabs_R1. assert (sqrt 1 <= sqrt 2) by (apply sqrt_le_1_alt; lra). rewrite sqrt_1 in *. lra.
  - intros v. unfold form, direction, ridentity. cbn. lra.
Qed.

(** ** C56: norms and Newton blocks of Hermitian constraints *)

(** The reported squared norm is the squared Frobenius norm of [I + F^* S F] for a
    factor [W = F F^*], in particular it is not negative. *)
Theorem C56_norm : forall k o0 b o, (k <= 2)%nat -> herm_data k (h_rank o0) o0 -> reached (2 ^ k) o0 b o ->
  let d := h_rank o0 in exists F : amat (cd k), same_matrix d (matrix_of k (h_W o)) (mmul d F (mconj F)) /\
  forall opt y, so_affine opt = false ->
  let N := madd mid (mmul d (mconj F) (mmul d (matrix_of k (HNegativeSlack o (so_c_weight opt) y)) F)) in
  snd (HPrepareStep (2 ^ k) o opt y) = Some (inner d N N) /\ 0 <= inner d N N.
Proof.
  intros k o0 b o Hk HD HR d. pose proof (reached_good k Hk d o0 b o eq_refl HD HR) as HG.
  destruct HG as (G1 & G2 & G3 & G4 & (F & F1 & F2) & G6). exists F. split.
  { apply clip_same. unfold cl in F2. rewrite (clip_mul _ _ (laws_cd k)), (clip_conj _ _ (laws_cd k)), F1. exact F2. }
  intros opt y Ha N.
  assert (inner d N N = minner d d N N) as EI.
  { unfold minner, inner. rewrite (ssum_re _ _ (laws_cd k)). apply rsum_ext. intros. rewrite (ssum_re _ _ (laws_cd k)). auto. }
  rewrite EI. split; [|apply (minner_nonneg _ _ (laws_cd k))].
  rewrite (prepare_norm k Hk d b o0 o opt y HD (conj G1 (conj G2 (conj G3 (conj G4 (conj (ex_intro _ F (conj F1 F2)) G6))))) Ha F F1 F2).
  f_equal. rewrite (minner_clip k d N N). f_equal; unfold N; rewrite (clip_add _ _ (laws_cd k)), !(clip_mul _ _ (laws_cd k)), (clip_conj _ _ (laws_cd k)), F1; reflexivity.
Qed.

(** The lower triangle of the block holds [<A_r, W A_c W>]; the upper triangle is not
    written.  [put] adds to the previous content unless [initialize] is set. *)
Theorem C56_schur : forall k o0 b o initialize sys, (k <= 2)%nat -> herm_data k (h_rank o0) o0 -> reached (2 ^ k) o0 b o ->
  let d := h_rank o0 in let m := length (h_mats o0) in let A := fun i => matrix_of k (nth i (h_mats o0) Zero) in
  let W := matrix_of k (h_W o) in let C := matrix_of k (h_affine o0) in let Q := fun X => mmul d W (mmul d X W) in
  let s := HSchur (2 ^ k) o initialize sys in
  (forall r c, (c <= r < m)%nat -> sc_G s r c = (if initialize then 0 else sc_G sys r c) + inner d (A r) (Q (A c))) /\
  (forall r c, (r < c \/ m <= r)%nat -> sc_G s r c = sc_G sys r c) /\
  (forall c, (c < m)%nat -> sc_AW s c = (if initialize then 0 else sc_AW sys c) + inner d (A c) W /\
     sc_AQc s c = (if initialize then 0 else sc_AQc sys c) + inner d C (Q (A c))) /\
  sc_wc s = (if initialize then 0 else sc_wc sys) + inner d C W /\
  sc_cQc s = (if initialize then 0 else sc_cQc sys) + inner d C (Q C).
Proof.
  intros k o0 b o initialize sys Hk HD HR d m A W C Q s. pose proof (reached_good k Hk d o0 b o eq_refl HD HR) as HG.
  pose proof (good_data k d _ _ _ HG HD) as HO. destruct HG as (G1 & G2 & G3 & G4 & G5).
  destruct (schur_spec (2 ^ k) o initialize sys) as (S1 & S2 & S3 & S4 & S5). rewrite ?G1, ?G2, ?G3 in S1, S2, S3, S4, S5. fold m s in S1, S2, S3, S4, S5.
  assert (forall X Y : amat (cd k), inner d X Y = minner d d X Y) as EI.
  { intros X Y. unfold minner, inner. rewrite (ssum_re _ _ (laws_cd k)). apply rsum_ext. intros. rewrite (ssum_re _ _ (laws_cd k)). auto. }
  assert (forall x new, put initialize x new = (if initialize then 0 else x) + new) as EP by (intros; unfold put; destruct initialize; lra).
  assert (forall i, cl k d (waw (2 ^ k) o i) = clip _ d (Q (A i))) as EW.
  { intros i. rewrite cl_waw by auto. rewrite G2. unfold Q. rewrite !(clip_mul _ _ (laws_cd k)). reflexivity. }
  assert (forall X i, TraceInnerProduct (2 ^ k) d d X (waw (2 ^ k) o i) = inner d (matrix_of k X) (Q (A i))) as ET.
  { intros X i. rewrite EI, (cl_inner k d), EW. unfold cl. rewrite <- (minner_clip k d). auto. }
  split; [|split; [|split; [|split]]].
  - intros r c Hrc. rewrite S1 by (rewrite G2; auto). rewrite EP, G1, G2, ET. auto.
  - intros r c Hrc. rewrite S2 by (rewrite G2; auto). auto.
  - intros c Hc. destruct (S3 c ltac:(rewrite G2; exact Hc)) as [E1 E2]. rewrite E1, E2, !EP, G1, G3, ET. split; auto. f_equal. unfold awi, HWAW.
    assert ((2 ^ k =? 8)%nat = false) as -> by (destruct k as [|[|[|]]]; auto; lia). cbn [fst]. rewrite G1, G2, (cl_trace k d), cl_mul by auto.
    rewrite EI, (minner_clip k d), (minner_retr _ _ (laws_cd k)), <- (clip_conj _ _ (laws_cd k)).
    f_equal. f_equal. symmetry. apply clip_same. apply HD. apply nth_In. auto.
  - rewrite S4, EP, EI, G1, G3, (cl_inner k d). unfold cl. rewrite <- (minner_clip k d). auto.
  - rewrite S5, EP. f_equal. rewrite EI, G1, G3, (cl_inner k d), cl_quad by auto.
    rewrite (minner_clip k d C). f_equal. unfold Q. rewrite !(clip_mul _ _ (laws_cd k)). reflexivity.
Qed.

(** The block is positive semidefinite, and definite on combinations of the
    constraint matrices that do not vanish. *)
Theorem C56_gram : forall k o0 b o sys y, (k <= 2)%nat -> herm_data k (h_rank o0) o0 -> reached (2 ^ k) o0 b o ->
  let m := length (h_mats o0) in let g := sc_G (HSchur (2 ^ k) o true sys) in
  let G := fun r c => if (c <=? r)%nat then g r c else g c r in
  let q := rsum m (fun i => rsum m (fun j => y i * y j * G i j)) in
  0 <= q /\ ((exists t r c, (t < 2 ^ k)%nat /\ (r < h_rank o0)%nat /\ (c < h_rank o0)%nat /\
               rsum m (fun j => y j * nth j (h_mats o0) Zero t r c) <> 0) -> 0 < q).
Proof.
  intros k o0 b o sys y Hk HD HR m g G q. pose proof (reached_good k Hk (h_rank o0) o0 b o eq_refl HD HR) as HG.
  pose proof (gram_quad k Hk (h_rank o0) b o0 o sys y HD HG) as H. destruct HG as (_ & G2 & _). rewrite G2 in H. fold m in H. cbv zeta in H.
  change (0 <= q /\ (q = 0 -> forall t r c, (t < 2 ^ k)%nat -> (r < h_rank o0)%nat -> (c < h_rank o0)%nat -> rsum m (fun j => y j * nth j (h_mats o0) Zero t r c) = 0)) in H.
  destruct H as [H1 H2]. split; auto. intros (t & r & c & Ht & Hr & Hc & Hn). destruct H1 as [H1|H1]; auto. exfalso. apply Hn. apply H2; auto.
Qed.
(** Octonions: the block is symmetric in the two constraint matrices. *)
Theorem C56_octonion_symmetric : forall d W X Y, hermitian_matrix d (matrix_of 3 W) -> hermitian_matrix d (matrix_of 3 X) -> hermitian_matrix d (matrix_of 3 Y) ->
  TraceInnerProduct 8 d d X (QuadraticRepresentation 8 d W Y) = TraceInnerProduct 8 d d Y (QuadraticRepresentation 8 d W X).
Proof. intros d W X Y HW HX HY. apply cl_herm in HW, HX, HY. apply (quad_symmetric 3); auto. Qed.

Example C56_example : forall k opt y, (k <= 2)%nat -> so_affine opt = false -> herm_data k 2 sample_constraint /\
  reached (2 ^ k) sample_constraint true (fst (HPrepareStep (2 ^ k) (HSetIdentity sample_constraint) opt y)) /\
  rsum (length (h_mats sample_constraint)) (fun j => 3 * nth j (h_mats sample_constraint) Zero 0%nat 0%nat 0%nat) <> 0.
Proof.
  intros k opt y Hk Ho. destruct (C47_example k opt y Hk Ho) as [H1 H2]. split; auto. split; auto. unfold sample_constraint, sample. cbn. lra.
Qed.

Print Assumptions C43_product.
Print Assumptions C43_associative.
Print Assumptions C43_octonions_associative_refuted.
Print Assumptions C43_conjugate.
Print Assumptions C43_norm.
Print Assumptions C43_jordan.
Print Assumptions C43_quadratic.
Print Assumptions C43_trace.
Print Assumptions C43_trace_associative.
Print Assumptions C47_congruence.
Print Assumptions C47_semidefinite.
Print Assumptions C47_hermitian.
Print Assumptions C47_definite_refuted.
Print Assumptions C47_take_step.
Print Assumptions C37_hermitian.
Print Assumptions C37_hermitian_affine_refuted.
Print Assumptions C33_exponential.
Print Assumptions C33_pade.
Print Assumptions C33_pade_refuted.
Print Assumptions C56_norm.
Print Assumptions C56_schur.
Print Assumptions C56_gram.
Print Assumptions C56_octonion_symmetric.
