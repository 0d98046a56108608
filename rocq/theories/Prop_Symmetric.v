(** Property C78: the eigenvalue estimate for Hermitian hypercomplex matrices. *)
From Coq Require Import List Arith Reals Lra Lia FunctionalExtensionality.
From Verif Require Import Base DenseModel RSum JordanModel LanczosModel SymmetricModel Spec_Hyper Spec_Lanczos Spec_Symmetric HyperFacts JordanProofs LanczosProofs LanczosLinks
  SymmetricProofs Prop_Lanczos.
Import ListNotations.
Open Scope R_scope.

(** Real, complex and quaternion matrices: every returned value lies between any two
    bounds of the quadratic form. *)
Theorem C78_in_range : forall k d X r num al be lambda lo hi, (k <= 2)%nat -> hermitian_matrix d (matrix_of k X) ->
  HSymmetricEigenvalues (2 ^ k) d X r num = Some (al, be) -> is_eigenvalue al be lambda ->
  range_between d (matrix_of k X) lo hi -> lo <= lambda <= hi.
Proof.
  intros k d X r num al be lambda lo hi Hk HX E HE HB. destruct (hermitian_ritz k d X Hk r num al be lambda HX E HE) as (z & Hp & Hq).
  specialize (HB z). rewrite Hq in HB. split; apply Rmult_le_reg_r with (form d (mid (A := cd k)) z); lra.
Qed.

(** As many values as iterations were asked for. *)
Theorem C78_count : forall k d X r num al be, HSymmetricEigenvalues (2 ^ k) d X r num = Some (al, be) ->
  length al = num /\ S (length be) = num.
Proof. intros k d X r num al be E. exact (run_count k d X r num al be E). Qed.

(** One iteration gives the Rayleigh quotient of the start vector. *)
Theorem C78_one : forall k d X r, (k <= 2)%nat -> (exists i, (i < d)%nat /\ matrix_of k r i 0%nat <> s0) ->
  exists a, HSymmetricEigenvalues (2 ^ k) d X r 1 = Some ([a], []) /\ a * form d mid (fun i => matrix_of k r i 0%nat) = form d (matrix_of k X) (fun i => matrix_of k r i 0%nat).
Proof. intros k d X r Hk Hr. exact (one_step k d X Hk r Hr). Qed.

(** Started from an eigenvector, the second iteration divides by zero; a start vector of
    zeros is divided by at once. *)
Theorem C78_eigenvector : forall k d X r lambda num, (k <= 2)%nat -> eigenvector d (matrix_of k X) lambda (fun i => matrix_of k r i 0%nat) -> (2 <= num)%nat ->
  HSymmetricEigenvalues (2 ^ k) d X r num = None.
Proof. intros k d X r lambda num Hk. exact (eigen_stops k d X Hk r num lambda). Qed.
Theorem C78_zero_start : forall k d X r num, (k <= 2)%nat -> (forall i, (i < d)%nat -> matrix_of k r i 0%nat = s0) ->
  HSymmetricEigenvalues (2 ^ k) d X r num = None.
Proof. intros k d X r num Hk. exact (zero_stops k d X Hk r num). Qed.

(** A complex matrix with the eigenvalues -1 and 1. *)
Ltac ssteps := lazy [rayleigh squaredNorm TraceInnerProduct fst snd Multiply for_up fold_left seq multiply_step index_at sign_at index_table sign_table nth
  Nat.eqb Z.leb Z.compare Pos.compare Pos.compare_cont CompOpp Zero Nat.pow Nat.mul Nat.add rprod rsum ConjugateTranspose ScalarMultiply Add turn first_unit Identity andb].
Example C78_example : hermitian_matrix 2 (matrix_of 1 turn) /\ HSymmetricEigenvalues (2 ^ 1) 2 turn first_unit 2 = Some ([0; 0], [1]) /\
  is_eigenvalue [0; 0] [1] 1 /\ is_eigenvalue [0; 0] [1] (-1) /\ range_between 2 (matrix_of 1 turn) (-1) 1.
Proof.
  split; [|split; [|split; [apply two_eigenvalue; ring|split; [apply two_eigenvalue; ring|]]]].
  - intros r c Hr Hc. unfold mconj, matrix_of, turn. destruct r as [|[|]], c as [|[|]]; try lia; cbn; f_equal; ring.
  - unfold HSymmetricEigenvalues. cbv zeta. assert (squaredNorm (2 ^ 1) 2 1 first_unit = 1) as -> by (ssteps; ring).
    destruct (Req_EM_T 1 0); [lra|]. rewrite sqrt_1. set (v := ScalarMultiply first_unit (1 / 1)).
    assert (rayleigh (2 ^ 1) 2 turn v = 0) as -> by (unfold v; ssteps; field).
    set (w := Add _ _). cbn [symmetric_loop]. assert (squaredNorm (2 ^ 1) 2 1 w = 1) as -> by (unfold w, v; ssteps; field).
    destruct (Req_EM_T 1 0); [lra|]. rewrite sqrt_1. do 4 f_equal. unfold w, v. ssteps. field.
  - intros z. unfold form, mid, matrix_of, turn. cbn. destruct (z 0%nat) as [a b]. destruct (z 1%nat) as [c e]. cbn.
    pose proof (Rle_0_sqr (a - e)). pose proof (Rle_0_sqr (a + e)). pose proof (Rle_0_sqr (b - c)). pose proof (Rle_0_sqr (b + c)). unfold Rsqr in *. lra.
Qed.
(** The vector [(1, i)] is an eigenvector of it. *)
Definition diagonal_start : hyper := fun i r _ => if ((i =? 0) && (r =? 0))%nat%bool then 1 else if ((i =? 1) && (r =? 1))%nat%bool then 1 else 0.
Example C78_eigenvector_example : eigenvector 2 (matrix_of 1 turn) 1 (fun i => matrix_of 1 diagonal_start i 0%nat) /\
  forall num, (2 <= num)%nat -> HSymmetricEigenvalues (2 ^ 1) 2 turn diagonal_start num = None.
Proof.
  assert (eigenvector 2 (matrix_of 1 turn) 1 (fun i => matrix_of 1 diagonal_start i 0%nat)) as H.
  { split.
    - exists 0%nat. split; [lia|]. unfold matrix_of, diagonal_start. cbn. intros H. injection H as H. lra.
    - intros r Hr. unfold act, matrix_of, turn, diagonal_start. destruct r as [|[|]]; [| |lia]; cbn; f_equal; ring. }
  split; [exact H|]. intros num Hn. apply (C78_eigenvector 1 2 turn diagonal_start 1 num); auto.
Qed.
Print Assumptions C78_in_range.
Print Assumptions C78_count.
Print Assumptions C78_one.
Print Assumptions C78_eigenvector.
Print Assumptions C78_zero_start.
