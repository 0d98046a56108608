(** Hermitian matrices of Frobenius norm at most one, lists of entries, and matrices
    with given entries. *)
From Coq Require Import List Arith Reals Lra Lia Bool FunctionalExtensionality Classical.
From Verif Require Import Base BaseFacts DenseModel RSum JordanModel Spec_Linear Spec_Hyper HyperFacts JordanProofs JordanInterior JordanSteps JordanSchur.
From Verif Require Import SocLinks RhsProofs.
Import ListNotations.
Open Scope R_scope.

(** ** Norms of elements *)
Lemma norm_scalar : forall k (x : el (cd k)), smul (sconj x) x = sscal (sre (smul (sconj x) x)) s1.
Proof.
  induction k as [|k IH]; intros x.
  - cbn. ring.
  - destruct x as [a b]. pose proof (laws_cd k) as L. cbn [cd double smul sconj sscal sre s1 fst snd] in *.
    pose proof (IH a) as Ha. pose proof (IH (sconj b)) as Hb. rewrite (conj_conj _ _ L) in Hb.
    rewrite (conj_scal _ _ L), (mul_scal_r _ _ L), (mul_scal_r _ _ L), (conj_conj _ _ L).
    f_equal.
    + rewrite Ha, Hb. rewrite !(re_add _ _ L), !(re_scal _ _ L), (re_1 _ _ L). apply (co_sep _ _ L). intros i. coords L. ring.
    + apply (co_sep _ _ L). intros i. coords L. ring.
Qed.
Lemma norm_mul : forall k (x y : el (cd k)), (k <= 2)%nat ->
  sre (smul (sconj (smul x (sconj y))) (smul x (sconj y))) = sre (smul (sconj x) x) * sre (smul (sconj y) y).
Proof.
  intros k x y Hk. pose proof (laws_cd k) as L. pose proof (assoc_cd k Hk) as HA.
  rewrite (conj_mul _ _ L), (conj_conj _ _ L). rewrite (HA y), <- (HA (sconj x)). pose proof (norm_scalar k x) as E. set (q := sre (smul (sconj x) x)) in *. rewrite E.
  rewrite (mul_scal_l _ _ L), (mul_1_l _ _ L), (mul_scal_r _ _ L), (re_scal _ _ L), (re_comm _ _ L y). reflexivity.
Qed.

Section Bound.
  Variable k : nat.
  Hypothesis Hk : (k <= 2)%nat.
  Notation A := (cd k).
  Let L : laws A (coords_of k) := laws_cd k.
  Let HA : associative A := assoc_cd k Hk.
  Variable d : nat.

  Definition outer (z : nat -> el A) : amat A := fun r c => smul (z r) (sconj (z c)).
  Lemma form_outer : forall (D : amat A) z, form d D z = minner d d (outer z) D.
  Proof.
    intros D z. unfold form, minner, outer. rewrite (ssum_re _ _ L). apply rsum_ext. intros r _. rewrite (ssum_re _ _ L). apply rsum_ext. intros c _.
    rewrite (conj_mul _ _ L), (conj_conj _ _ L). rewrite (re_comm _ _ L), (HA (D r c)), (re_comm _ _ L (D r c)). reflexivity.
  Qed.
  Lemma outer_norm : forall z, minner d d (outer z) (outer z) = ip A d z z * ip A d z z.
  Proof.
    intros z. unfold minner, outer, ip. rewrite (ssum_re _ _ L). rewrite <- rsum_scal_r. apply rsum_ext. intros r _.
    rewrite <- rsum_scal. apply rsum_ext. intros c _. apply norm_mul; auto.
  Qed.
  Lemma minner_add_r : forall X Y Z : amat A, minner d d X (madd Y Z) = minner d d X Y + minner d d X Z.
  Proof.
    intros. unfold minner. rewrite <- rsum_plus. apply rsum_ext. intros r _. rewrite <- rsum_plus. apply rsum_ext. intros c _.
    unfold madd. rewrite (mul_add_r _ _ L). apply (re_add _ _ L).
  Qed.
  Lemma minner_scal_r : forall s (X Y : amat A), minner d d X (mscal s Y) = s * minner d d X Y.
  Proof.
    intros. unfold minner. rewrite <- rsum_scal. apply rsum_ext. intros r _. rewrite <- rsum_scal. apply rsum_ext. intros c _.
    unfold mscal. rewrite (mul_scal_r _ _ L). apply (re_scal _ _ L).
  Qed.
  Lemma minner_cauchy : forall X Y : amat A, minner d d X Y * minner d d X Y <= minner d d X X * minner d d Y Y.
  Proof.
    intros X Y. set (a := minner d d X X). set (b := minner d d X Y). set (c := minner d d Y Y).
    assert (forall s t, 0 <= s * s * a + 2 * s * t * b + t * t * c) as H.
    { intros s t. pose proof (minner_nonneg A _ L d (madd (mscal s X) (mscal t Y))) as P.
      rewrite minner_add_r, !minner_scal_r in P. rewrite !(minner_sym k d (madd _ _)), !minner_add_r, !minner_scal_r in P.
      rewrite (minner_sym k d Y X) in P. fold a b c in P. lra. }
    assert (0 <= a) as Ha by apply (minner_nonneg A _ L). assert (0 <= c) as Hc by apply (minner_nonneg A _ L).
    destruct (Req_dec a 0) as [E|E].
    - pose proof (H (- b * (1 + c)) (b * b)) as P. pose proof (H (- (c + 1)) b) as Q. rewrite E in *. nra.
    - pose proof (H (- b) a) as P. nra.
  Qed.

  Lemma form_one : forall z, form d (one A d) z = ip A d z z.
  Proof.
    intros z. unfold one. rewrite form_clip, (form_ip _ _ L). unfold ip. f_equal. apply ssum_ext. intros r Hr. f_equal. unfold mv.
    rewrite (ssum_single _ _ L d r); auto.
    - unfold mid. rewrite Nat.eqb_refl. apply (mul_1_l _ _ L).
    - intros t Ht Hn. unfold mid. assert ((r =? t)%nat = false) as -> by (apply Nat.eqb_neq; auto). apply (mul_0_l _ _ L).
  Qed.
  Lemma ip_nonneg : forall z, 0 <= ip A d z z.
  Proof. intros z. unfold ip. rewrite (ssum_re _ _ L). apply rsum_nonneg. intros r _. apply (re_nonneg _ _ L). Qed.

  Lemma form_bound : forall (D : amat A) z, minner d d D D <= 1 -> Rabs (form d D z) <= ip A d z z.
  Proof.
    intros D z H. rewrite form_outer. pose proof (minner_cauchy (outer z) D) as C. rewrite outer_norm in C.
    pose proof (ip_nonneg z) as P. set (q := minner d d (outer z) D) in *. set (i := ip A d z z) in *.
    pose proof (minner_nonneg A _ L d D). apply Rsqr_incr_0_var; auto. rewrite <- Rsqr_abs. unfold Rsqr.
    assert (i * i * minner d d D D <= i * i * 1) by (apply Rmult_le_compat_l; [nra|lra]). lra.
  Qed.
  Lemma form_bound_strict : forall (D : amat A) z, minner d d D D < 1 -> nz A d z -> Rabs (form d D z) < ip A d z z.
  Proof.
    intros D z H Hz. rewrite form_outer. pose proof (minner_cauchy (outer z) D) as C. rewrite outer_norm in C.
    pose proof (ip_pos A _ L d z Hz) as P. set (q := minner d d (outer z) D) in *. set (i := ip A d z z) in *.
    pose proof (minner_nonneg A _ L d D). apply Rsqr_incrst_0; [|apply Rabs_pos|lra]. rewrite <- Rsqr_abs. unfold Rsqr.
    assert (i * i * minner d d D D < i * i * 1) by (apply Rmult_lt_compat_l; [nra|lra]). lra.
  Qed.
  Lemma near_one : forall (D : amat A) s, mconj D = D -> (s = 1 \/ s = -1) ->
    (minner d d D D <= 1 -> possemidef d (madd (one A d) (mscal s D))) /\ (minner d d D D < 1 -> posdef d (madd (one A d) (mscal s D))).
  Proof.
    intros D s HD Hs.
    assert (hermitian_matrix d (madd (one A d) (mscal s D))) as HH.
    { intros r c _ _. assert (mconj (madd (one A d) (mscal s D)) = madd (one A d) (mscal s D)) as ->; auto.
      rewrite (mconj_add _ _ L), (mconj_scal _ _ L), (mconj_one _ _ L), HD. auto. }
    split; intros H; split; auto; intros z.
    - rewrite (form_add _ _ L), (form_scal _ _ L), form_one. pose proof (form_bound D z H) as B.
      pose proof (Rle_abs (form d D z)). pose proof (Rle_abs (- form d D z)) as N. rewrite Rabs_Ropp in N. destruct Hs as [->| ->]; lra.
    - intros Hz. rewrite (form_add _ _ L), (form_scal _ _ L), form_one. pose proof (form_bound_strict D z H Hz) as B.
      pose proof (Rle_abs (form d D z)). pose proof (Rle_abs (- form d D z)) as N. rewrite Rabs_Ropp in N. destruct Hs as [->| ->]; lra.
  Qed.
End Bound.

(** ** Matrices with given entries *)
Fixpoint coordinates (k : nat) : el (cd k) -> nat -> R :=
  match k return el (cd k) -> nat -> R with
  | O => fun x _ => x
  | S k' => fun x i => if (i <? 2 ^ k')%nat then coordinates k' (fst x) i else coordinates k' (snd x) (i - 2 ^ k')
  end.
Lemma read_coordinates : forall k (x : el (cd k)), read k (coordinates k x) = x.
Proof.
  induction k as [|k IH]; intros x; [reflexivity|]. destruct x as [a b]. cbn [read coordinates]. f_equal.
  - etransitivity; [|apply (IH a)]. apply read_ext. intros i Hi. cbn [fst]. apply Nat.ltb_lt in Hi. rewrite Hi. reflexivity.
  - etransitivity; [|apply (IH b)]. apply read_ext. intros i Hi. cbn [snd]. destruct (Nat.ltb_spec (2 ^ k + i) (2 ^ k)); [lia|]. f_equal. lia.
Qed.
Definition components (k : nat) (M : amat (cd k)) : hyper := fun i r c => coordinates k (M r c) i.
Lemma matrix_components : forall k M, matrix_of k (components k M) = M.
Proof. intros. fext. unfold matrix_of, components. apply read_coordinates. Qed.

(** ** Lists of entries *)
Lemma total_blocks : forall b m (g : nat -> R), total g (seq 0 (m * b)) = total (fun i => total (fun j => g (i * b + j)%nat) (seq 0 b)) (seq 0 m).
Proof.
  intros b m g. rewrite <- !rsum_total. rewrite (rsum_ext m _ (fun i => rsum b (fun j => g (i * b + j)%nat))) by (intros; rewrite <- rsum_total; auto).
  induction m as [|m IH]; [reflexivity|]. rewrite rsum_S, <- IH. cbn [Nat.mul]. rewrite Nat.add_comm, rsum_split. reflexivity.
Qed.
Lemma flat_map_nth : forall (f : nat -> list R) b m i j d, (forall t, length (f t) = b) -> (i < m)%nat -> (j < b)%nat ->
  nth (i * b + j) (flat_map f (seq 0 m)) d = nth j (f i) d.
Proof.
  intros f b m i j d Hf Hi Hj. assert (forall s, nth (i * b + j) (flat_map f (seq s m)) d = nth j (f (s + i)%nat) d) as G; [|apply (G 0%nat)].
  revert i Hi. induction m as [|m IH]; intros i Hi s; [lia|]. cbn [seq flat_map]. destruct i as [|i].
  - rewrite app_nth1 by (rewrite Hf; lia). cbn. rewrite Nat.add_0_r. reflexivity.
  - rewrite app_nth2 by (rewrite Hf; cbn; lia). rewrite Hf. replace (S i * b + j - b)%nat with (i * b + j)%nat by (cbn; lia).
    rewrite IH by lia. f_equal. f_equal. lia.
Qed.
Lemma flat_map_len : forall (f : nat -> list R) b l, (forall t, length (f t) = b) -> length (flat_map f l) = (length l * b)%nat.
Proof. intros f b l Hf. induction l as [|x l IH]; cbn; auto. rewrite app_length, Hf, IH. reflexivity. Qed.

Definition entries (h n : nat) (X : hyper) : list R :=
  flat_map (fun q => map (fun c => X (q / n)%nat (q mod n)%nat c) (seq 0 n)) (seq 0 (h * n)).
Lemma entries_length : forall h n X, length (entries h n X) = (h * n * n)%nat.
Proof. intros. unfold entries. rewrite (flat_map_len _ n); [rewrite seq_length; auto|]. intros. rewrite map_length, seq_length. auto. Qed.
Lemma entries_nth : forall h n X t r c, (t < h)%nat -> (r < n)%nat -> (c < n)%nat -> nth ((t * n + r) * n + c) (entries h n X) 0 = X t r c.
Proof.
  intros h n X t r c Ht Hr Hc. unfold entries. rewrite (flat_map_nth _ n); auto.
  - rewrite (nth_map_lt _ _ c 0 0%nat) by (rewrite seq_length; auto). rewrite seq_nth by auto. cbn [Nat.add]. f_equal.
    + rewrite Nat.div_add_l by lia. rewrite Nat.div_small by auto. lia.
    + rewrite Nat.add_comm, Nat.mod_add by lia. apply Nat.mod_small. auto.
  - intros. rewrite map_length, seq_length. auto.
  - nia.
Qed.
Lemma entries_total : forall h n (g : nat -> R), total g (seq 0 (h * n * n)) =
  total (fun t => total (fun r => total (fun c => g ((t * n + r) * n + c)%nat) (seq 0 n)) (seq 0 n)) (seq 0 h).
Proof. intros. rewrite total_blocks, total_blocks. reflexivity. Qed.
