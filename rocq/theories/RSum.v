(** Finite sums of reals. *)
From Coq Require Import List Arith Reals Lra Lia Bool Permutation.
From Verif Require Import DenseModel.
Import ListNotations.
Open Scope R_scope.

Lemma rsum_ext n f g : (forall i, (i < n)%nat -> f i = g i) -> rsum n f = rsum n g.
Proof. induction n; cbn; intros H; auto. rewrite IHn, H; auto. Qed.

Lemma rsum_zero n f : (forall i, (i < n)%nat -> f i = 0) -> rsum n f = 0.
Proof. induction n; cbn; intros H; auto. rewrite IHn, H; auto; lra. Qed.

Lemma rsum_plus n f g : rsum n (fun i => f i + g i) = rsum n f + rsum n g.
Proof. induction n; cbn; lra. Qed.

Lemma rsum_minus n f g : rsum n (fun i => f i - g i) = rsum n f - rsum n g.
Proof. induction n; cbn; lra. Qed.

Lemma rsum_scal n c f : rsum n (fun i => c * f i) = c * rsum n f.
Proof. induction n; cbn; lra. Qed.

Lemma rsum_scal_r n c f : rsum n (fun i => f i * c) = rsum n f * c.
Proof. induction n; cbn; lra. Qed.

Lemma rsum_swap n m f : rsum n (fun i => rsum m (fun j => f i j)) = rsum m (fun j => rsum n (fun i => f i j)).
Proof.
  induction n; cbn.
  - symmetry. apply rsum_zero. auto.
  - rewrite IHn, <- rsum_plus. auto.
Qed.

Lemma rsum_split n m f : rsum (n + m) f = rsum n f + rsum m (fun i => f (n + i)%nat).
Proof.
  induction m; cbn.
  - rewrite Nat.add_0_r. lra.
  - rewrite Nat.add_succ_r. cbn. rewrite IHm. lra.
Qed.

Lemma rsum_split_at k n f : (k <= n)%nat -> rsum n f = rsum k f + rsum (n - k) (fun i => f (k + i)%nat).
Proof. intros H. rewrite <- rsum_split. f_equal. lia. Qed.

(** a single term *)
Lemma rsum_single n k f : (k < n)%nat -> (forall i, (i < n)%nat -> i <> k -> f i = 0) -> rsum n f = f k.
Proof.
  induction n; intros Hk H; [lia|]. cbn. destruct (Nat.eq_dec k n) as [->|Hn].
  - rewrite rsum_zero; [lra|]. intros. apply H; lia.
  - rewrite IHn, (H n); try lia; try lra. intros. apply H; lia.
Qed.

Lemma rsum_trunc k n f : (k <= n)%nat -> (forall i, (k <= i < n)%nat -> f i = 0) -> rsum n f = rsum k f.
Proof.
  intros Hk H. rewrite (rsum_split_at k n) by auto. rewrite (rsum_zero (n - k)); [lra|].
  intros. apply H. lia.
Qed.

Lemma rsum_nonneg n f : (forall i, (i < n)%nat -> 0 <= f i) -> 0 <= rsum n f.
Proof. induction n; cbn; intros H; [lra|]. specialize (IHn ltac:(auto)). specialize (H n ltac:(lia)). lra. Qed.

Lemma rsum_le n f g : (forall i, (i < n)%nat -> f i <= g i) -> rsum n f <= rsum n g.
Proof. induction n; cbn; intros H; [lra|]. specialize (IHn ltac:(auto)). specialize (H n ltac:(lia)). lra. Qed.

Lemma rsum_S n f : rsum (S n) f = rsum n f + f n.
Proof. reflexivity. Qed.

Lemma rsum_first n f : rsum (S n) f = f 0%nat + rsum n (fun i => f (S i)).
Proof. change (S n) with (1 + n)%nat. rewrite rsum_split. replace (rsum 1 f) with (f 0%nat) by (cbn; lra). reflexivity. Qed.

(** sums over lists *)
Fixpoint lsum {A} (f : A -> R) (l : list A) : R :=
  match l with [] => 0 | a :: t => f a + lsum f t end.

Lemma lsum_app {A} (f : A -> R) l1 l2 : lsum f (l1 ++ l2) = lsum f l1 + lsum f l2.
Proof. induction l1; cbn; lra. Qed.

Lemma lsum_ext {A} (f g : A -> R) l : (forall a, In a l -> f a = g a) -> lsum f l = lsum g l.
Proof. induction l; cbn; intros H; auto. rewrite IHl, H; auto. Qed.

Lemma lsum_zero {A} (f : A -> R) l : (forall a, In a l -> f a = 0) -> lsum f l = 0.
Proof. induction l; cbn; intros H; auto. rewrite IHl, H; auto; lra. Qed.

Lemma lsum_perm {A} (f : A -> R) l l' : Permutation l l' -> lsum f l = lsum f l'.
Proof. induction 1; cbn; lra. Qed.

Lemma lsum_map {A B} (f : B -> R) (g : A -> B) l : lsum f (map g l) = lsum (fun a => f (g a)) l.
Proof. induction l; cbn; auto. rewrite IHl. auto. Qed.

Lemma lsum_plus {A} (f g : A -> R) l : lsum (fun a => f a + g a) l = lsum f l + lsum g l.
Proof. induction l; cbn; lra. Qed.

Lemma lsum_scal {A} c (f : A -> R) l : lsum (fun a => c * f a) l = c * lsum f l.
Proof. induction l; cbn; lra. Qed.

Lemma rsum_lsum n f : rsum n f = lsum f (seq 0 n).
Proof.
  induction n; [reflexivity|]. cbn [rsum]. rewrite IHn, seq_S, lsum_app. cbn. lra.
Qed.

Lemma lsum_seq a n f : lsum f (seq a n) = rsum n (fun i => f (a + i)%nat).
Proof.
  induction n; [reflexivity|]. rewrite seq_S, lsum_app, IHn. cbn. lra.
Qed.

Lemma lsum_filter {A} (f : A -> R) (p : A -> bool) l :
  lsum f (filter p l) = lsum (fun a => if p a then f a else 0) l.
Proof. induction l as [|a l IH]; cbn; auto. destruct (p a); cbn; rewrite IH; lra. Qed.

(** reindexing by a bijection given by a list of images *)
Lemma rsum_reindex n (s : nat -> nat) f :
  (forall i, (i < n)%nat -> (s i < n)%nat) ->
  (forall i j, (i < n)%nat -> (j < n)%nat -> s i = s j -> i = j) ->
  rsum n (fun i => f (s i)) = rsum n f.
Proof.
  intros H1 H2. rewrite !rsum_lsum. rewrite <- (lsum_map f s). apply lsum_perm.
  apply NoDup_Permutation_bis.
  - apply (NoDup_nth _ 0%nat). intros i j Hi Hj E. rewrite map_length, seq_length in *.
    rewrite !(nth_indep _ 0%nat (s 0%nat)) in E by (rewrite map_length, seq_length; auto).
    rewrite !map_nth, !seq_nth in E by auto. cbn in E. auto.
  - rewrite map_length. lia.
  - intros x Hx. apply in_map_iff in Hx as (i & <- & Hi). apply in_seq in Hi. apply in_seq.
    specialize (H1 i). lia.
Qed.

Lemma for_up_inv {St} (J : nat -> St -> Prop) n (f : St -> nat -> St) s :
  J 0%nat s -> (forall k s, (k < n)%nat -> J k s -> J (S k) (f s k)) -> J n (for_up n f s).
Proof.
  intros H0 HS. unfold for_up.
  assert (forall m, (m <= n)%nat -> J m (fold_left f (seq 0 m) s)) as G; [|apply G; auto].
  induction m as [|m IH]; intros Hm; auto. rewrite seq_S, fold_left_app. cbn. apply HS; auto. apply IH. lia.
Qed.

Lemma for_down_inv {St} (J : nat -> St -> Prop) n (f : St -> nat -> St) s :
  J n s -> (forall k s, (k < n)%nat -> J (S k) s -> J k (f s k)) -> J 0%nat (for_down n f s).
Proof.
  intros H0 HS. unfold for_down. revert s H0. induction n as [|n IH]; intros s H0; auto.
  rewrite seq_S, rev_app_distr. cbn. apply IH; auto.
Qed.

Lemma for_opt_inv {St} (J : nat -> St -> Prop) (f : St -> nat -> option St) n s s' :
  for_opt f (seq 0 n) s = Some s' ->
  J 0%nat s -> (forall k s s', (k < n)%nat -> J k s -> f s k = Some s' -> J (S k) s') -> J n s'.
Proof.
  intros E H0 HS.
  assert (forall m a s, (a + m = n)%nat -> for_opt f (seq a m) s = Some s' -> J a s -> J n s') as G.
  { induction m as [|m IH]; intros a s1 Ha E1 H1; cbn in E1.
    - injection E1 as <-. replace n with a by lia. auto.
    - destruct (f s1 a) as [s2|] eqn:E2; [|discriminate].
      apply (IH (S a) s2); auto; [lia|]. apply (HS a s1); auto. lia. }
  apply (G n 0%nat s); auto.
Qed.
