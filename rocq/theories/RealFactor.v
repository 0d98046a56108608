(** A real positive definite matrix is [F F^T] (used in proofs only). *)
From Coq Require Import Arith Reals Lra Lia FunctionalExtensionality.
From Verif Require Import Base DenseModel RSum Spec_Hyper.
Open Scope R_scope.

Definition rform (d : nat) (W : nat -> nat -> R) (x : nat -> R) : R := rsum d (fun i => rsum d (fun j => x i * (W i j * x j))).
Lemma rform_form d W x : form (A := reals) d W x = rform d W x.
Proof. reflexivity. Qed.

Lemma real_factor d : forall W : nat -> nat -> R, (forall i j, (i < d)%nat -> (j < d)%nat -> W i j = W j i) ->
  (forall x, (exists i, (i < d)%nat /\ x i <> 0) -> 0 < rform d W x) ->
  exists F : nat -> nat -> R, forall i j, (i < d)%nat -> (j < d)%nat -> W i j = rsum d (fun t => F i t * F j t).
Proof.
  induction d; intros W HS HP; [exists W; intros; lia|].
  set (c := W 0%nat 0%nat). set (b := fun i => W (S i) 0%nat).
  assert (0 < c) as Hc.
  { specialize (HP (fun i => if (i =? 0)%nat then 1 else 0)). unfold rform in HP. rewrite rsum_first in HP. rewrite rsum_first in HP. cbn [Nat.eqb] in HP.
    rewrite (rsum_zero d) in HP by (intros; ring). rewrite (rsum_zero d) in HP by (intros; rewrite rsum_zero; [auto|]; intros; ring).
    fold c in HP. assert (0 < 1 * (c * 1) + 0 + 0); [apply HP; exists 0%nat; split; [lia|cbn; lra]|lra]. }
  destruct (IHd (fun i j => W (S i) (S j) - b i * b j / c)) as [F HF].
  - intros i j Hi Hj. rewrite (HS (S i) (S j)) by lia. field. lra.
  - intros x (i0 & Hi0 & Hx). set (x0 := - rsum d (fun j => b j * x j) / c).
    assert (rform d (fun i j => W (S i) (S j) - b i * b j / c) x = rform (S d) W (fun i => match i with O => x0 | S h => x h end)) as ->.
    { unfold rform. rewrite rsum_first. rewrite rsum_first. fold c.
      rewrite (rsum_ext d (fun j => x0 * (W 0%nat (S j) * x j)) (fun j => x0 * (b j * x j))) by (intros; unfold b; rewrite (HS 0%nat (S i)) by lia; auto).
      rewrite (rsum_ext d (fun i => rsum (S d) _) (fun i => x0 * (b i * x i) + rsum d (fun j => x i * (W (S i) (S j) * x j)))) by (intros; rewrite rsum_first; fold (b i); f_equal; ring).
      rewrite (rsum_ext d (fun i => rsum d (fun j => x i * ((W (S i) (S j) - b i * b j / c) * x j)))
        (fun i => rsum d (fun j => x i * (W (S i) (S j) * x j)) - (b i * x i) * (rsum d (fun j => b j * x j) / c))).
      - rewrite rsum_minus, rsum_plus, rsum_scal_r, !rsum_scal. unfold x0. field. lra.
      - intros i Hi. unfold Rdiv. rewrite <- (rsum_scal_r d (/ c)). rewrite <- rsum_scal, <- rsum_minus. apply rsum_ext. intros j Hj. field. lra. }
    apply HP. exists (S i0). split; [lia|auto].
  - assert (0 < sqrt c) as Hs by (apply sqrt_lt_R0; auto). assert (sqrt c * sqrt c = c) as Hss by (apply sqrt_sqrt; lra).
    exists (fun i t => match i, t with O, O => sqrt c | O, S _ => 0 | S h, O => b h / sqrt c | S h, S t => F h t end).
    intros i j Hi Hj. rewrite rsum_first. destruct i as [|i], j as [|j].
    + rewrite rsum_zero by (intros; ring). rewrite Hss. unfold c. ring.
    + rewrite rsum_zero by (intros; ring). rewrite (HS 0%nat (S j)) by lia. fold (b j). field. lra.
    + rewrite rsum_zero by (intros; ring). fold (b i). field. lra.
    + rewrite <- HF by lia. replace (b i / sqrt c * (b j / sqrt c)) with (b i * b j / (sqrt c * sqrt c)) by (field; lra). rewrite Hss. ring.
Qed.
