(** Bounds on the eigenvalues of a pencil from traces: accurate estimates in the
    sense of Spec_Semidefinite.v exist. *)
From Coq Require Import List Arith Reals Bool Lia Lra FunctionalExtensionality.
From Verif Require Import RSum JordanModel Spec_Hyper HyperFacts JordanProofs JordanInterior JordanSteps JordanSchur HermFactor HermBound HermCone Spec_Semidefinite.
Import ListNotations.
Open Scope R_scope.

(** Mean of the eigenvalues plus and minus the root of the sum of their squared
    distances from it. *)
Definition trace_estimate (draws h n : nat) (WS W : hyper) : option (R * R) :=
  let t := trace0 n WS / INR n in
  let q := trace0 n (Multiply h n WS WS) - INR n * t * t in
  Some (t - sqrt q, t + sqrt q).

Section Estimate.
  Variable k : nat.
  Hypothesis Hk : (k <= 2)%nat.
  Notation A := (cd k).
  Let L : laws A (coords_of k) := laws_cd k.
  Let HA : associative A := assoc_cd k Hk.
  Variable d : nat.
  Notation "X ** Y" := (mmul d X Y) (at level 40, left associativity).
  Notation "X +m Y" := (madd X Y) (at level 50, left associativity).
  Notation I := (one A d).

  Lemma form_bound_root : forall (D : amat A) z, Rabs (form d D z) <= sqrt (minner d d D D) * ip A d z z.
  Proof.
    intros D z. rewrite (form_outer k Hk d). pose proof (minner_cauchy k d (outer k z) D) as C. rewrite (outer_norm k Hk d) in C.
    pose proof (ip_nonneg k d z) as P. pose proof (minner_nonneg A _ L d D) as Q. set (q := minner d d (outer k z) D) in *. set (i := ip A d z z) in *.
    set (m := minner d d D D) in *. pose proof (sqrt_pos m) as Ps.
    apply Rsqr_incr_0_var; [|apply Rmult_le_pos; auto]. rewrite <- Rsqr_abs. unfold Rsqr. replace (sqrt m * i * (sqrt m * i)) with (sqrt m * sqrt m * (i * i)) by ring.
    rewrite sqrt_sqrt by auto. lra.
  Qed.

  Lemma trace_pencil : forall WS W S : hyper, (0 < d)%nat -> posdef d (matrix_of k W) -> hermitian_matrix d (matrix_of k S) ->
    same_matrix d (matrix_of k WS) (mmul d (matrix_of k W) (matrix_of k S)) ->
    let t := trace0 d WS / INR d in let q := trace0 d (Multiply (2 ^ k) d WS WS) - INR d * t * t in
    forall z, Rabs (form d (mmul d (mmul d (matrix_of k W) (matrix_of k S)) (matrix_of k W)) z - t * form d (matrix_of k W) z) <= sqrt q * form d (matrix_of k W) z.
  Proof.
    intros WS W S Hd HW HS HWS t q z.
    destruct (posdef_factor k Hk d _ HW) as (F & HF & HE). apply clip_same in HE.
    assert (cl k d W = F ** mconj F) as EW. { unfold cl. rewrite HE, (clip_mul _ _ L), (clip_conj _ _ L), HF. auto. }
    apply clip_same in HWS. rewrite (clip_mul _ _ L) in HWS. change (cl k d WS = cl k d W ** cl k d S) in HWS. rewrite EW in HWS.
    assert (mconj (cl k d S) = cl k d S) as HSc by (apply cl_herm; auto).
    set (T := cl k d S) in *. set (N := mconj F ** (T ** F)).
    assert (trace0 d WS = minner d d I N) as E1. { rewrite (cl_trace k d), HWS, (retr_lin A _ L HA) by auto. reflexivity. }
    assert (trace0 d (Multiply (2 ^ k) d WS WS) = minner d d N N) as E2.
    { rewrite (cl_trace k d), (cl_mul k Hk d), HWS, (retr_quad A _ L HA) by auto. reflexivity. }
    assert (0 < INR d) as Pd by (apply lt_0_INR; auto).
    assert (minner d d I N = INR d * t) as E3. { unfold t. rewrite E1. field. lra. }
    set (D := N +m mscal (- t) I).
    assert (minner d d D D = q) as E4.
    { unfold D. rewrite (minner_add_r k d), (minner_scal_r k d). rewrite !(minner_sym k d (N +m _)), !(minner_add_r k d), !(minner_scal_r k d).
      rewrite (minner_sym k d N I), E3. rewrite (minner_retr A _ L d I I), (mconj_one _ _ L), (one_l _ _ L) by apply clipped_one. rewrite (retr_one A _ L).
      unfold q. rewrite E2. ring. }
    set (u := mv A d (mconj F) z).
    assert (form d (matrix_of k W) z = ip A d u u) as F1.
    { rewrite <- (form_clip A d). change (clip A d (matrix_of k W)) with (cl k d W). rewrite EW.
      rewrite <- (one_l _ _ L d (mconj F)) by (apply (clipped_conj A _ L); auto). rewrite (form_congruence _ _ L HA). apply form_one. }
    assert (form d (matrix_of k W ** matrix_of k S ** matrix_of k W) z = form d N u) as F2.
    { rewrite <- (form_clip A d), !(clip_mul _ _ L). change (clip A d (matrix_of k W)) with (cl k d W). change (clip A d (matrix_of k S)) with T. rewrite EW.
      unfold u. rewrite <- (form_congruence _ _ L HA). f_equal. unfold N. rewrite !(mmul_assoc _ _ L HA). reflexivity. }
    rewrite F1, F2. pose proof (form_bound_root D u) as B. rewrite E4 in B. unfold D in B. rewrite (form_add _ _ L), (form_scal _ _ L), (form_one k d) in B.
    replace (form d N u - t * ip A d u u) with (form d N u + - t * ip A d u u) by ring. exact B.
  Qed.
End Estimate.

Theorem trace_accurate : accurate 0 trace_estimate.
Proof.
  intros draws k n WS W S Hk Hn M HW HS HWS. unfold trace_estimate. cbv beta iota zeta. intros z.
  pose proof (trace_pencil k Hk n WS W S Hn HW HS HWS z) as B. cbv zeta in B. fold M in B.
  set (w := form n (M W) z) in *. set (v := form n (mmul n (mmul n (M W) (M S)) (M W)) z) in *.
  set (t := trace0 n WS / INR n) in *. set (q := trace0 n (Multiply (2 ^ k) n WS WS) - INR n * t * t) in *.
  pose proof (Rle_abs (v - t * w)). pose proof (Rle_abs (- (v - t * w))) as H1. rewrite Rabs_Ropp in H1.
  set (x := sqrt q * w) in *. replace ((t - sqrt q - 0) * w) with (t * w - x) by (unfold x; ring).
  replace ((t + sqrt q + 0) * w) with (t * w + x) by (unfold x; ring). lra.
Qed.
