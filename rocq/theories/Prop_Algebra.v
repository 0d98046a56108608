(** Property C75: the helpers of the matrix algebras. *)
From Coq Require Import List Arith Reals Lra Lia Bool.
From Verif Require Import Base DenseModel RSum Spec_Hyper HyperFacts JordanModel JordanProofs AlgebraModel Spec_Algebra AlgebraProofs MinimalProofs.
Import ListNotations.
Open Scope R_scope.

(** ** Orthogonalization *)
Theorem C75_orthogonalize : forall k rows cols Q, (k <= 2)%nat ->
  (independent_columns rows cols (matrix_of k Q) <-> exists Q', Orthogonalize (2 ^ k) rows cols Q = Ok (Some Q')) /\
  forall Q', Orthogonalize (2 ^ k) rows cols Q = Ok (Some Q') ->
    unitary_columns rows cols (matrix_of k Q') /\ triangular_factor rows cols (matrix_of k Q) (matrix_of k Q').
Proof. exact orthogonalize_ok. Qed.

Theorem C75_orthogonalize_octonions : forall rows cols Q, Orthogonalize (2 ^ 3) rows cols Q = Throw.
Proof. reflexivity. Qed.

Definition shear : hyper := fun i r c =>
  if (i =? 0)%nat then (if (r =? c)%nat then 1 else 0) else if (i =? 1)%nat && (r =? 0)%nat && (c =? 1)%nat then 1 else 0.
(** The complex matrix with rows [1 i] and [0 1]. *)
Lemma shear_independent : independent_columns 2 2 (matrix_of 1 shear).
Proof.
  intros x H c Hc. assert (H1 := H 1%nat ltac:(lia)). assert (H0 := H 0%nat ltac:(lia)).
  destruct (x 0%nat) as [a b] eqn:E0. destruct (x 1%nat) as [a' b'] eqn:E1. cbn in H0, H1. rewrite E0, E1 in H0, H1. cbn in H0, H1.
  injection H0 as H2 H3. injection H1 as H4 H5. assert (a' = 0) by lra. assert (b' = 0) by lra.
  assert (a = 0) by lra. assert (b = 0) by lra. subst. destruct c as [|[|]]; [rewrite E0; auto|rewrite E1; auto|lia].
Qed.
Example C75_orthogonalize_example : exists Q', Orthogonalize 2 2 2 shear = Ok (Some Q') /\
  unitary_columns 2 2 (matrix_of 1 Q') /\ triangular_factor 2 2 (matrix_of 1 shear) (matrix_of 1 Q').
Proof.
  destruct (C75_orthogonalize 1 2 2 shear ltac:(lia)) as [H1 H2]. destruct (proj1 H1 shear_independent) as (Q' & E).
  exists Q'. split; [exact E|]. exact (H2 Q' E).
Qed.

(** ** Comparisons *)
Theorem C75_equal : forall n d x y,
  ((forall i r c, (i < n)%nat -> (r < d)%nat -> (c < d)%nat -> x i r c = y i r c) -> IsEqual n d x y = true) /\
  (IsEqual n d x y = true -> forall i r c, (i < n)%nat -> (r < d)%nat -> (c < d)%nat -> Rabs (x i r c - y i r c) <= / 10 ^ 8).
Proof. exact is_equal_ok. Qed.

Theorem C75_hermitian : forall n d w, (1 <= n)%nat ->
  ((forall i r c, (i < n)%nat -> (r < d)%nat -> (c < d)%nat -> ConjugateTranspose w i r c = w i r c) -> IsHermitian n d w = true) /\
  (IsHermitian n d w = true -> forall i r c, (i < n)%nat -> (r < d)%nat -> (c < d)%nat -> Rabs (w i r c - ConjugateTranspose w i r c) <= / 10 ^ 12).
Proof. exact is_hermitian_ok. Qed.

(** [shear] is not Hermitian, and the test notices. *)
Example C75_hermitian_example : IsHermitian 2 2 shear = false /\ IsEqual 2 2 shear shear = true.
Proof.
  split; [|apply C75_equal; auto].
  destruct (IsHermitian 2 2 shear) eqn:E; auto. exfalso.
  pose proof (proj2 (C75_hermitian 2 2 shear ltac:(lia)) E 1%nat 0%nat 1%nat ltac:(lia) ltac:(lia) ltac:(lia)) as H. cbn in H.
  replace (1 - - 0) with 1 in H by ring. rewrite Rabs_R1 in H. lra.
Qed.

(** ** Powers and eigenvalues *)
Theorem C75_powers : forall k d x j, (k <= 2)%nat -> same_matrix d (matrix_of k (jordan_power (2 ^ k) d x j)) (mpower d (matrix_of k x) j).
Proof. intros k d x j Hk. exact (jordan_power_ok k d Hk x j). Qed.

Theorem C75_eigenvalues_complete : forall k d Q c l, (k <= 2)%nat -> annihilated d (matrix_of k Q) -> MinimalPolynomial (2 ^ k) d Q c ->
  eigenvalue_of k d (matrix_of k Q) l -> Eigenvalues (2 ^ k) d Q c l.
Proof. exact eigenvalues_complete. Qed.

Theorem C75_eigenvalues : forall k d Q c l, (k <= 2)%nat -> annihilated d (matrix_of k Q) -> MinimalPolynomial (2 ^ k) d Q c ->
  hermitian_matrix d (matrix_of k Q) -> powers_independent d (matrix_of k Q) ->
  Eigenvalues (2 ^ k) d Q c l <-> eigenvalue_of k d (matrix_of k Q) l.
Proof.
  intros k d Q c l Hk Ha HM HX Hi. split; [apply (eigenvalues_sound k d Hk); auto|apply eigenvalues_complete; auto].
Qed.

Definition sym2 (a b c : R) : hyper := fun i r s => if (r =? s)%nat then (if (r =? 0)%nat then a else c) else b.
(** The matrix with rows [2 1] and [1 2]; [x^2 - 4 x + 3]. *)
Definition coeffs (a b : R) : vec := fun j => if (j =? 0)%nat then a else b.
Ltac two_by_two := intros r s Hr Hs; destruct r as [|[|]], s as [|[|]]; try lia; cbn; unfold mmul, mid, matrix_of, sym2, coeffs; cbn; try lra.
Lemma ex_annihilated : annihilated 2 (matrix_of 0 (sym2 2 1 2)).
Proof. exists (fun j => if (j =? 0)%nat then 3 else if (j =? 1)%nat then -4 else 1). split; [reflexivity|]. two_by_two. Qed.
Lemma ex_minimal : MinimalPolynomial 1 2 (sym2 2 1 2) (coeffs 3 (-4)).
Proof.
  intros k Hk.
  transitivity (TraceInnerProduct (2 ^ 0) 2 2 (jordan_power (2 ^ 0) 2 (sym2 2 1 2) k) (residual 0 2 (sym2 2 1 2) (coeffs 3 (-4)))); [reflexivity|].
  rewrite of_trace. rewrite (minner_same 0 2 (matrix_of 0 (jordan_power (2 ^ 0) 2 (sym2 2 1 2) k)) (matrix_of 0 (jordan_power (2 ^ 0) 2 (sym2 2 1 2) k))
    (matrix_of 0 (residual 0 2 (sym2 2 1 2) (coeffs 3 (-4)))) (fun _ _ => s0)).
  - unfold minner. apply rsum_zero. intros r Hr. apply rsum_zero. intros s Hs. cbn. ring.
  - intros r s _ _. reflexivity.
  - eapply same_trans; [exact (of_residual 0 2 ltac:(lia) (sym2 2 1 2) (coeffs 3 (-4)))|]. two_by_two.
Qed.
Lemma ex_hermitian : hermitian_matrix 2 (matrix_of 0 (sym2 2 1 2)).
Proof. two_by_two. Qed.
Lemma ex_independent : powers_independent 2 (matrix_of 0 (sym2 2 1 2)).
Proof.
  intros p H j Hj. assert (H0 := H 0%nat 0%nat ltac:(lia) ltac:(lia)). assert (H1 := H 0%nat 1%nat ltac:(lia) ltac:(lia)).
  cbn in H0, H1. unfold mmul, mid, matrix_of, sym2 in H0, H1. cbn in H0, H1. destruct j as [|[|]]; [lra|lra|lia].
Qed.
Lemma ex_eigenvalue l : eigenvalue_of 0 2 (matrix_of 0 (sym2 2 1 2)) l <-> l = 1 \/ l = 3.
Proof.
  split.
  - intros (z & (r & Hr & Hz) & H). assert (H0 := H 0%nat ltac:(lia)). assert (H1 := H 1%nat ltac:(lia)).
    cbn in H0, H1, z, Hz. unfold matrix_of, sym2 in H0, H1. cbn in H0, H1.
    assert ((l - 1) * (l - 3) * z r = 0) as E.
    { assert (z 1%nat = (l - 2) * z 0%nat) as E1 by lra. assert (z 0%nat = (l - 2) * z 1%nat) as E0 by lra.
      destruct r as [|[|]]; [| |lia]; [rewrite E1 in E0|rewrite E0 in E1]; lra. }
    apply Rmult_integral in E. destruct E as [E|E]; [|contradiction]. apply Rmult_integral in E. destruct E; [left|right]; lra.
  - intros [->| ->].
    + exists (fun r => if (r =? 0)%nat then 1 else -1). split; [exists 0%nat; split; [lia|cbn; lra]|].
      intros r Hr. destruct r as [|[|]]; [| |lia]; cbn; unfold matrix_of, sym2; cbn; lra.
    + exists (fun r => 1). split; [exists 0%nat; split; [lia|cbn; lra]|].
      intros r Hr. destruct r as [|[|]]; [| |lia]; cbn; unfold matrix_of, sym2; cbn; lra.
Qed.
Example C75_eigenvalues_example : forall l, Eigenvalues 1 2 (sym2 2 1 2) (coeffs 3 (-4)) l <-> l = 1 \/ l = 3.
Proof.
  intros l. rewrite <- ex_eigenvalue.
  apply (C75_eigenvalues 0 2 (sym2 2 1 2) (coeffs 3 (-4)) l ltac:(lia) ex_annihilated ex_minimal ex_hermitian ex_independent).
Qed.

(** With dependent powers the least-squares problem has many solutions; for the identity
    matrix of order two the two basic ones add a value that is not an eigenvalue. *)
Lemma identity_minimal c : MinimalPolynomial 1 2 (sym2 1 0 1) c <-> c 0%nat + c 1%nat + 1 = 0.
Proof.
  set (J := sym2 1 0 1). assert (forall j, same_matrix 2 (matrix_of 0 (jordan_power 1 2 J j)) mid) as HJ.
  { intros j. eapply same_trans; [exact (jordan_power_ok 0 2 ltac:(lia) J j)|]. unfold J. induction j as [|j IH]; [intros r s _ _; reflexivity|].
    cbn [mpower]. eapply same_trans; [apply same_mmul_r; exact IH|]. two_by_two. }
  assert (forall j r s, (r < 2)%nat -> (s < 2)%nat -> jordan_power 1 2 J j 0%nat r s = if (r =? s)%nat then 1 else 0) as HE.
  { intros j r s Hr Hs. specialize (HJ j r s Hr Hs). unfold matrix_of, mid in HJ. cbn [read] in HJ. rewrite HJ. auto. }
  assert (forall k, TraceInnerProduct 1 2 2 (jordan_power 1 2 J k)
     (fun i r s => rsum 2 (fun k => jordan_power 1 2 J k i r s * c k) + jordan_power 1 2 J 2 i r s) = 2 * (c 0%nat + c 1%nat + 1)) as HT.
  { intros k. transitivity (TraceInnerProduct (2 ^ 0) 2 2 (jordan_power 1 2 J k) (residual 0 2 J c)); [reflexivity|].
    rewrite of_trace. rewrite (minner_same 0 2 _ _ _ (fun r s => if (r =? s)%nat then c 0%nat + c 1%nat + 1 else 0) (HJ k)).
    - unfold minner, mid. cbn. lra.
    - intros r s Hr Hs. unfold matrix_of, residual. cbn [read rsum]. change (2 ^ 0)%nat with 1%nat. rewrite !HE by auto. destruct (r =? s)%nat; cbn; lra. }
  unfold MinimalPolynomial. cbv zeta. split.
  - intros H. specialize (H 0%nat ltac:(lia)). rewrite HT in H. lra.
  - intros H k Hk. rewrite HT, H. ring.
Qed.
Theorem C75_eigenvalues_repeated_refuted : exists Q, hermitian_matrix 2 (matrix_of 0 Q) /\ annihilated 2 (matrix_of 0 Q) /\
  (exists c, MinimalPolynomial 1 2 Q c /\ c 0%nat = 0) /\ (exists c, MinimalPolynomial 1 2 Q c /\ c 1%nat = 0) /\
  forall c, MinimalPolynomial 1 2 Q c -> c 0%nat = 0 \/ c 1%nat = 0 -> exists a, Eigenvalues 1 2 Q c a /\ ~ eigenvalue_of 0 2 (matrix_of 0 Q) a.
Proof.
  exists (sym2 1 0 1). split; [two_by_two|]. split; [|split; [|split]].
  - exists (fun j => if (j =? 0)%nat then 1 else if (j =? 1)%nat then -2 else 1). split; [reflexivity|]. two_by_two.
  - exists (coeffs 0 (-1)). split; [apply identity_minimal; cbn; lra|reflexivity].
  - exists (coeffs (-1) 0). split; [apply identity_minimal; cbn; lra|reflexivity].
  - intros c HM Hc. exists (c 0%nat). split.
    + split; auto. exists 0. apply root_companion; [lia|]. apply identity_minimal in HM. unfold monic. cbn. nra.
    + intros (z & (r & Hr & Hz) & H). apply identity_minimal in HM.
      specialize (H r Hr). cbn in H, z, Hz. assert (c 0%nat * z r = z r) as E.
      { destruct r as [|[|]]; [| |lia]; cbn in H; unfold matrix_of, sym2 in H; cbn in H; lra. }
      assert ((c 0%nat - 1) * z r = 0) as E' by lra. apply Rmult_integral in E'. destruct E'; [|contradiction]. destruct Hc; lra.
Qed.

Print Assumptions C75_orthogonalize.
Print Assumptions C75_orthogonalize_octonions.
Print Assumptions C75_equal.
Print Assumptions C75_hermitian.
Print Assumptions C75_powers.
Print Assumptions C75_eigenvalues_complete.
Print Assumptions C75_eigenvalues.
Print Assumptions C75_eigenvalues_repeated_refuted.
