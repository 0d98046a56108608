(** Property C73: the eigenvalue estimates that no constraint calls, compared with the
    one the constraints use. *)
From Coq Require Import List Arith Reals Lra Lia FunctionalExtensionality.
From Verif Require Import Base DenseModel RSum JordanModel LanczosModel EstimateModel Spec_Hyper Spec_Lanczos Spec_Estimate HyperFacts
  LanczosFacts RealFactor EstimateLinks EstimateColumns EstimateFacts Prop_Lanczos.
Import ListNotations.
Open Scope R_scope.

(** ** The symmetric recurrence *)

(** Every returned value lies between any two bounds of the spectrum of [A]. *)
Theorem C73_symmetric_in_spectrum : forall d A r num al be lambda lo hi, hermitian_matrix (A := reals) d A ->
  SymmetricLanczos d A r num = Some (al, be) -> is_eigenvalue al be lambda -> form_between d A lo hi -> lo <= lambda <= hi.
Proof.
  intros d A r num al be lambda lo hi HA HL HE HB. destruct (symmetric_ritz d A HA r num al be HL lambda HE) as (x & Hp & Hq).
  specialize (HB x). rewrite <- dot_form, <- times_form, Hq in HB. split; apply Rmult_le_reg_r with (dot d x x); lra.
Qed.
(** With as many iterations as rows the returned values are exactly the eigenvalues. *)
Theorem C73_symmetric_exact : forall d A r al be lambda, hermitian_matrix (A := reals) d A ->
  SymmetricLanczos d A r d = Some (al, be) -> (is_eigenvalue al be lambda <-> eigenvalue_of d A lambda).
Proof. intros d A r al be lambda HA HL. exact (symmetric_exact d A HA r d al be HL lambda eq_refl). Qed.
(** With more iterations than rows the recurrence divides by zero. *)
Theorem C73_symmetric_too_many : forall d A r num, hermitian_matrix (A := reals) d A -> (d < num)%nat -> SymmetricLanczos d A r num = None.
Proof.
  intros d A r num HA Hn. destruct (SymmetricLanczos d A r num) as [[al be]|] eqn:HL; [|auto].
  exfalso. pose proof (symmetric_short d A HA r num al be HL). lia.
Qed.
(** The same happens from the second iteration on if it starts from an eigenvector. *)
Theorem C73_symmetric_eigenvector : forall d A r lambda num, (exists i, (i < d)%nat /\ r i <> 0) ->
  (forall i, (i < d)%nat -> act (A := reals) d A r i = lambda * r i) -> (2 <= num)%nat -> SymmetricLanczos d A r num = None.
Proof. exact symmetric_eigen. Qed.

(** ** The uncompressed variant *)

(** It returns the matrix of the compressed variant whenever that one completes all
    iterations, and only then if no residual is below the threshold; no assumption on
    the matrices is made. *)
Theorem C73_uncompressed_same : forall d WS W r num al be, d <> 1%nat ->
  (ApproximateEigenvalues d WS W r num = Some (al, be) /\ length al = num <->
   UncompressedEigenvalues d WS W r num = Some (al, be) /\ (forall b, In b be -> 1 / 10 ^ 6 <= b * b)).
Proof.
  intros d WS W r num al be Hd. unfold ApproximateEigenvalues, UncompressedEigenvalues. apply Nat.eqb_neq in Hd. rewrite Hd. apply same_estimates.
Qed.
Theorem C73_uncompressed_in_spectrum : forall d W S r num al be lambda lo hi, posdef (A := reals) d W -> hermitian_matrix (A := reals) d S ->
  UncompressedEigenvalues d (rprod d W S) W r num = Some (al, be) -> is_eigenvalue al be lambda ->
  spectrum_between (A := reals) d W S lo hi -> lo <= lambda <= hi.
Proof. intros d W S r num al be lambda lo hi HW HS. exact (uncompressed_range d W S HW HS r num al be lambda lo hi). Qed.
Theorem C73_uncompressed_exact : forall d W S r al be lambda, posdef (A := reals) d W -> hermitian_matrix (A := reals) d S ->
  UncompressedEigenvalues d (rprod d W S) W r d = Some (al, be) -> (is_eigenvalue al be lambda <-> eigenvalue_of d (rprod d W S) lambda).
Proof. intros d W S r al be lambda HW HS. exact (uncompressed_exact d W S HW HS r al be lambda). Qed.
Theorem C73_uncompressed_too_many : forall d W S r num, posdef (A := reals) d W -> hermitian_matrix (A := reals) d S ->
  d <> 1%nat -> (d < num)%nat -> UncompressedEigenvalues d (rprod d W S) W r num = None.
Proof. intros d W S r num HW HS. exact (uncompressed_too_many d W S HW HS r num). Qed.
Theorem C73_uncompressed_eigenvector : forall d W S r lambda num, posdef (A := reals) d W -> hermitian_matrix (A := reals) d S ->
  (exists i, (i < d)%nat /\ r i <> 0) -> (forall i, (i < d)%nat -> act (A := reals) d S (act (A := reals) d W r) i = lambda * r i) ->
  d <> 1%nat -> (2 <= num)%nat -> UncompressedEigenvalues d (rprod d W S) W r num = None.
Proof. intros d W S r lambda num HW HS Hr HE. exact (eigen_uncompressed d W S HW HS r lambda Hr HE num). Qed.

(** ** The compressed variant, which the constraints use *)

Theorem C73_compressed_exact : forall d W S r num al be lambda, posdef (A := reals) d W -> hermitian_matrix (A := reals) d S ->
  ApproximateEigenvalues d (rprod d W S) W r num = Some (al, be) -> length al = d ->
  (is_eigenvalue al be lambda <-> eigenvalue_of d (rprod d W S) lambda).
Proof. intros d W S r num al be lambda HW HS. exact (compressed_exact d W S HW HS r num al be lambda). Qed.
(** From an eigenvector it returns the eigenvalue and stops. *)
Theorem C73_compressed_eigenvector : forall d W S r lambda num, posdef (A := reals) d W -> hermitian_matrix (A := reals) d S ->
  (exists i, (i < d)%nat /\ r i <> 0) -> (forall i, (i < d)%nat -> act (A := reals) d S (act (A := reals) d W r) i = lambda * r i) ->
  d <> 1%nat -> (1 <= num)%nat -> ApproximateEigenvalues d (rprod d W S) W r num = Some ([lambda], []).
Proof. intros d W S r lambda num HW HS Hr HE. exact (eigen_compressed d W S HW HS r lambda Hr HE num). Qed.

(** ** Examples *)

Definition from34 : vec := fun i => if (i =? 0)%nat then 3 else 4.
(** The exchange of two coordinates from [(3, 4)]: the symmetric recurrence finds both
    eigenvalues. *)
Example C73_symmetric_example :
  SymmetricLanczos 2 (two 0 1 0) from34 2 = Some ([24 / 25; - (24 / 25)], [7 / 25]) /\
  form_between 2 (two 0 1 0) (-1) 1 /\ eigenvalue_of 2 (two 0 1 0) 1 /\ eigenvalue_of 2 (two 0 1 0) (-1) /\ ~ eigenvalue_of 2 (two 0 1 0) (24 / 25).
Proof.
  assert (SymmetricLanczos 2 (two 0 1 0) from34 2 = Some ([24 / 25; - (24 / 25)], [7 / 25])) as HL.
  { unfold SymmetricLanczos, lanczos. cbn zeta.
    assert (dot 2 from34 from34 = 25) as -> by (unfold dot, from34; cbn [rsum Nat.eqb]; lra). destruct (Rle_dec 25 0); [lra|]. rewrite (sqrt_of 25 5) by lra.
    cbv beta. set (v := fun i : nat => from34 i * (1 / 5)). set (u := times _ _ v).
    assert (dot 2 v u = 24 / 25) as -> by (unfold dot, u, times, v, from34, two; cbn [rsum Nat.eqb]; field).
    cbn [lanczos_loop]. match goal with |- context [dot 2 ?X ?X] => set (U := X) end.
    assert (dot 2 U U = 49 / 625) as -> by (unfold dot, U, u, times, v, from34, two; cbn [rsum Nat.eqb]; field).
    destruct (Rlt_dec (49 / 625) 0); [lra|]. destruct (Rle_dec (49 / 625) 0); [lra|].
    rewrite (sqrt_of (49 / 625) (7 / 25)) by lra. do 3 f_equal. f_equal. unfold dot, times, U, u, times, v, from34, two; cbn [rsum Nat.eqb]; field. }
  pose proof (fun l => C73_symmetric_exact 2 (two 0 1 0) from34 _ _ l (two_hermitian 0 1 0) HL) as HX.
  split; [exact HL|]. split; [|split; [|split]].
  - intros z. rewrite (rform_form 2 mid), (rform_form 2 (two 0 1 0)). unfold rform, two, mid. cbn [rsum Nat.eqb reals s0 s1 el].
    pose proof (Rle_0_sqr (z 0%nat + z 1%nat)). pose proof (Rle_0_sqr (z 0%nat - z 1%nat)). unfold Rsqr in *. split; nra.
  - apply HX, two_eigenvalue. lra.
  - apply HX, two_eigenvalue. lra.
  - rewrite <- HX, two_eigenvalue. lra.
Qed.
(** The two other variants agree on the same data, and both are exact. *)
Example C73_uncompressed_example :
  let WS := rprod 2 (two 1 0 1) (two 0 1 0) in
  posdef (A := reals) 2 (two 1 0 1) /\ hermitian_matrix (A := reals) 2 (two 0 1 0) /\ spectrum_between (A := reals) 2 (two 1 0 1) (two 0 1 0) (-1) 1 /\
  ApproximateEigenvalues 2 WS (two 1 0 1) from34 2 = Some ([24 / 25; - (24 / 25)], [7 / 25]) /\
  UncompressedEigenvalues 2 WS (two 1 0 1) from34 2 = Some ([24 / 25; - (24 / 25)], [7 / 25]) /\
  eigenvalue_of 2 WS 1 /\ eigenvalue_of 2 WS (-1).
Proof.
  intros WS. destruct C62_example as (EL & E1 & E2 & HB). pose proof two_posdef as HP. pose proof (two_hermitian 0 1 0) as HH.
  assert (ApproximateEigenvalues 2 WS (two 1 0 1) from34 2 = Some ([24 / 25; - (24 / 25)], [7 / 25])) as EA by exact EL.
  assert (UncompressedEigenvalues 2 WS (two 1 0 1) from34 2 = Some ([24 / 25; - (24 / 25)], [7 / 25])) as EU.
  { exact (proj1 (proj1 (C73_uncompressed_same 2 WS (two 1 0 1) from34 2 _ _ ltac:(lia)) (conj EA eq_refl))). }
  split; [exact HP|]. split; [exact HH|]. split; [exact HB|]. split; [exact EA|]. split; [exact EU|].
  split; apply (C73_uncompressed_exact 2 _ _ _ _ _ _ HP HH EU); auto.
Qed.
(** From the eigenvector [(1, 1)] two of the variants divide by zero and the third
    returns the eigenvalue. *)
Example C73_eigenvector_example :
  SymmetricLanczos 2 (two 0 1 0) (fun _ => 1) 2 = None /\
  UncompressedEigenvalues 2 (rprod 2 (two 1 0 1) (two 0 1 0)) (two 1 0 1) (fun _ => 1) 2 = None /\
  ApproximateEigenvalues 2 (rprod 2 (two 1 0 1) (two 0 1 0)) (two 1 0 1) (fun _ => 1) 2 = Some ([1], []).
Proof.
  assert (exists i, (i < 2)%nat /\ (fun _ : nat => 1) i <> 0) as Hr by (exists 0%nat; split; [lia|lra]).
  assert (forall i, (i < 2)%nat -> act (A := reals) 2 (two 0 1 0) (act (A := reals) 2 (two 1 0 1) (fun _ => 1)) i = 1 * 1) as HE.
  { intros i Hi. destruct i as [|[|]]; [| |lia]; unfold act, two; cbn; ring. }
  split; [|split].
  - apply (C73_symmetric_eigenvector 2 _ _ 1); auto. intros i Hi. destruct i as [|[|]]; [| |lia]; unfold act, two; cbn; ring.
  - apply (C73_uncompressed_eigenvector 2 _ _ _ 1); auto using two_posdef, two_hermitian.
  - apply C73_compressed_eigenvector; auto using two_posdef, two_hermitian.
Qed.
(** Three iterations on two rows. *)
Example C73_too_many_example :
  SymmetricLanczos 2 (two 0 1 0) from34 3 = None /\ UncompressedEigenvalues 2 (rprod 2 (two 1 0 1) (two 0 1 0)) (two 1 0 1) from34 3 = None.
Proof.
  split; [apply C73_symmetric_too_many|apply C73_uncompressed_too_many]; auto using two_posdef, two_hermitian.
Qed.

Print Assumptions C73_symmetric_in_spectrum.
Print Assumptions C73_symmetric_exact.
Print Assumptions C73_symmetric_too_many.
Print Assumptions C73_symmetric_eigenvector.
Print Assumptions C73_uncompressed_same.
Print Assumptions C73_uncompressed_in_spectrum.
Print Assumptions C73_uncompressed_exact.
Print Assumptions C73_uncompressed_too_many.
Print Assumptions C73_uncompressed_eigenvector.
Print Assumptions C73_compressed_exact.
Print Assumptions C73_compressed_eigenvector.
