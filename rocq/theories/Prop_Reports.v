(** Property C65: slacks, spectral sums and norms of Hermitian constraints, and the
    series of the geodesic update. *)
From Coq Require Import List Arith Reals Lra Lia Bool FunctionalExtensionality.
From Verif Require Import Base BaseFacts DenseModel RSum JordanModel Spec_Hyper Spec_Reports HyperFacts JordanProofs JordanInterior
  JordanSteps LanczosReports JordanReports.
Import ListNotations.
Open Scope R_scope.

(** [ComputeNegativeSlack] is [A y - k c] in every component of every entry. *)
Theorem C65_slack : forall o k y t r c,
  HNegativeSlack o k y t r c = rsum (length (h_mats o)) (fun j => y j * nth j (h_mats o) Zero t r c) - k * h_affine o t r c.
Proof. exact slack_entries. Qed.

(** In every state reached from the identity the scaling matrix is [F F^*], and for
    every such [F] the reported trace and squared Frobenius norm are those of
    [F^* S F], where [S = k c - A y] is the slack. *)
Theorem C65_weighted : forall k b o0 o y c, (k <= 2)%nat -> herm_data k (h_rank o0) o0 -> reached (2 ^ k) o0 b o ->
  let d := h_rank o0 in
  (exists F, same_matrix d (matrix_of k (h_W o)) (mmul d F (mconj F))) /\
  forall F, same_matrix d (matrix_of k (h_W o)) (mmul d F (mconj F)) ->
  let N := mmul d (mconj F) (mmul d (mscal (-1) (matrix_of k (HNegativeSlack o c y))) F) in
  HWeightedSlack (2 ^ k) o y c = (inner d mid N, inner d N N).
Proof.
  intros k b o0 o y c Hk HD HR d. pose proof (reached_good k Hk (h_rank o0) o0 b o eq_refl HD HR) as HG. pose proof (laws_cd k) as L. split.
  - destruct HG as (_ & _ & _ & _ & (F & HF & E) & _). exists F. unfold clipped in HF. fold d in HF. apply clip_same. change (cl k d (h_W o) = clip (cd k) d (mmul d F (mconj F))).
    rewrite (clip_mul _ _ L), (clip_conj _ _ L), HF. exact E.
  - intros F HF N. rewrite (weighted_slack k Hk d b o0 o y c HD HG (clip (cd k) d F)).
    + rewrite !inner_minner, (minner_clip k d mid N), (minner_clip k d N N), (minner_clip k d mid), (minner_clip k d (mmul d _ _)).
      unfold N. rewrite !(clip_mul _ _ L), (clip_conj _ _ L), !clip_clip, ?(clip_conj _ _ L), ?clip_clip. auto.
    + apply clip_clip.
    + apply clip_same in HF. unfold cl. rewrite HF, (clip_mul _ _ L), (clip_conj _ _ L). auto.
Qed.

(** At the identity the norm reported for an octonion constraint is that of
    [I - S]. *)
Theorem C65_octonion_norm : forall o opt y, h_W o = Identity ->
  let N := madd mid (matrix_of 3 (HNegativeSlack o (so_c_weight opt) y)) in
  snd (OPrepareStep o opt y) = inner (h_rank o) N N.
Proof. exact octonion_norm. Qed.

(** The geodesic update adds the first twelve terms of the exponential series. *)
Theorem C65_geodesic : forall k d w s, (k <= 2)%nat -> hermitian_matrix d (matrix_of k w) -> hermitian_matrix d (matrix_of k s) ->
  exists w', GeodesicUpdate (2 ^ k) d w s = Ok w' /\
  same_matrix d (matrix_of k w')
    (fun r c => ssum 12 (fun i => sscal (/ INR (fact i)) (geodesic_term d (matrix_of k w) (matrix_of k s) i r c))).
Proof.
  intros k d w s Hk Hw Hs. exists (DoGeodesicUpdate (2 ^ k) d w s). split; [|apply geodesic_series; auto].
  destruct k as [|[|[|]]]; [reflexivity..|lia].
Qed.

(** A constraint of order 2 with an off-diagonal coefficient of order 1, and the
    update of a number. *)
Definition shear : hyper := fun i r c =>
  if (i =? 0)%nat then (if (r =? c)%nat then 2 else 1) else if (r =? c)%nat then 0 else if (r <? c)%nat then 1 else -1.
Definition report_constraint : hermitian := mkHermitian 2 [shear] Identity Identity Zero Zero.
Lemma shear_hermitian : forall k d, hermitian_matrix d (matrix_of k shear).
Proof.
  intros k d r c _ _. unfold mconj, matrix_of. rewrite <- read_conj. apply read_ext. intros i _. unfold shear.
  destruct (i =? 0)%nat; rewrite (Nat.eqb_sym c r); destruct (Nat.eqb_spec r c) as [->|H]; try ring.
  destruct (Nat.ltb_spec c r); destruct (Nat.ltb_spec r c); try lia; lra.
Qed.
Example C65_example : forall k, (k <= 2)%nat ->
  herm_data k 2 report_constraint /\ reached (2 ^ k) report_constraint false (HSetIdentity report_constraint) /\
  same_matrix 2 (matrix_of k (h_W (HSetIdentity report_constraint))) (mmul 2 mid (mconj mid)) /\
  HNegativeSlack report_constraint 3 (fun _ => 5) 0%nat 0%nat 0%nat = 7 /\ h_W report_constraint = Identity /\
  hermitian_matrix 2 (matrix_of k shear).
Proof.
  intros k Hk. pose proof (laws_cd k) as L. split; [|split; [|split; [|split; [|split]]]].
  - split; [|apply cl_herm; cbn [h_affine report_constraint]; rewrite cl_identity; apply (mconj_one _ _ L)].
    intros X [<-|[]]. apply shear_hermitian.
  - apply RIdentity.
  - apply clip_same. rewrite (clip_mul _ _ L), (clip_conj _ _ L). change (clip (cd k) 2 mid) with (one (cd k) 2).
    rewrite (mconj_one _ _ L), (one_l _ _ L) by apply clip_clip. cbn [h_W HSetIdentity]. rewrite <- (cl_identity k 2). reflexivity.
  - rewrite C65_slack. unfold rsum. cbn. unfold shear, Identity. cbn. lra.
  - reflexivity.
  - apply shear_hermitian.
Qed.
(** [w = 2], [s = 1/2]: twelve terms of [2 e]. *)
Example C65_number_example : forall w', let w := ScalarMultiply Identity 2 in let s := ScalarMultiply Identity (1 / 2) in
  hermitian_matrix 1 (matrix_of 0 w) /\ hermitian_matrix 1 (matrix_of 0 s) /\
  (GeodesicUpdate 1 1 w s = Ok w' -> w' 0%nat 0%nat 0%nat = 2 * rsum 12 (fun i => / INR (fact i))).
Proof.
  intros w' w s. assert (hermitian_matrix 1 (matrix_of 0 w)) as Hw by (intros r c _ _; unfold mconj, matrix_of, w, ScalarMultiply, Identity; cbn; rewrite Nat.eqb_sym; auto).
  assert (hermitian_matrix 1 (matrix_of 0 s)) as Hs by (intros r c _ _; unfold mconj, matrix_of, s, ScalarMultiply, Identity; cbn; rewrite Nat.eqb_sym; auto).
  split; [auto|split; [auto|]]. intros E. destruct (C65_geodesic 0 1 w s) as (v & Ev & HV); [lia|auto|auto|].
  change (2 ^ 0)%nat with 1%nat in Ev. rewrite E in Ev. injection Ev as <-. specialize (HV 0%nat 0%nat ltac:(lia) ltac:(lia)).
  change (w' 0%nat 0%nat 0%nat) with (matrix_of 0 w' 0%nat 0%nat). rewrite HV.
  assert (forall i, geodesic_term 1 (matrix_of 0 w) (matrix_of 0 s) i 0%nat 0%nat = 2) as ET.
  { induction i as [|i IH]; cbn [geodesic_term].
    - unfold matrix_of, w, ScalarMultiply, Identity. cbn. ring.
    - unfold mmul at 1. cbn [ssum]. unfold mmul. cbn [ssum]. rewrite IH. unfold matrix_of, w, s, ScalarMultiply, Identity. cbn. field. }
  assert (forall m, ssum m (fun i => sscal (/ INR (fact i)) (geodesic_term 1 (matrix_of 0 w) (matrix_of 0 s) i 0%nat 0%nat)) = 2 * rsum m (fun i => / INR (fact i)) :> R) as ->; [|auto].
  induction m as [|m IH]; [unfold rsum; cbn; ring|].
  match goal with |- ?x = _ => transitivity (ssum m (fun i => sscal (/ INR (fact i)) (geodesic_term 1 (matrix_of 0 w) (matrix_of 0 s) i 0%nat 0%nat))
    + / INR (fact m) * geodesic_term 1 (matrix_of 0 w) (matrix_of 0 s) m 0%nat 0%nat); [reflexivity|] end. rewrite IH, ET, rsum_S. ring.
Qed.

Print Assumptions C65_slack.
Print Assumptions C65_weighted.
Print Assumptions C65_octonion_norm.
Print Assumptions C65_geodesic.
