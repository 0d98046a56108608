(** The operations of JordanModel are those of matrices over the Cayley-Dickson
    algebras. *)
From Coq Require Import List Arith ZArith Reals Lra Lia Bool FunctionalExtensionality.
From Verif Require Import Base DenseModel RSum JordanModel Spec_Hyper HyperFacts.
Import ListNotations.
Open Scope R_scope.

Ltac run := lazy [matrix_of read Multiply for_up fold_left seq multiply_step index_at sign_at index_table sign_table nth
  Nat.eqb Z.leb Z.compare Pos.compare Pos.compare_cont CompOpp Zero Nat.pow Nat.mul Nat.add rprod].
Ltac mult_case := 
  intros d X Y; apply functional_extensionality; intros r; apply functional_extensionality; intros c;
  unfold mmul; induction d as [|d IH];
  [run; cbn [rsum ssum cd double reals s0 el]; repeat match goal with |- (_, _) = (_, _) => f_equal end; ring|];
  cbn [ssum]; rewrite <- IH; clear IH; run; cbn [rsum];
  cbn [cd double reals sadd smul sconj sscal fst snd el];
  repeat match goal with |- (_, _) = (_, _) => f_equal end; ring.
Lemma multiply_1 : forall d X Y, matrix_of 0 (Multiply 1 d X Y) = mmul d (matrix_of 0 X) (matrix_of 0 Y).
Proof. mult_case. Qed.
Lemma multiply_2 : forall d X Y, matrix_of 1 (Multiply 2 d X Y) = mmul d (matrix_of 1 X) (matrix_of 1 Y).
Proof. mult_case. Qed.
Lemma multiply_4 : forall d X Y, matrix_of 2 (Multiply 4 d X Y) = mmul d (matrix_of 2 X) (matrix_of 2 Y).
Proof. mult_case. Qed.
Lemma multiply_8 : forall d X Y, matrix_of 3 (Multiply 8 d X Y) = mmul d (matrix_of 3 X) (matrix_of 3 Y).
Proof. mult_case. Qed.

Ltac fext := let r := fresh "r" in let c := fresh "c" in apply functional_extensionality; intros r; apply functional_extensionality; intros c.

Lemma of_multiply : forall k d X Y, (k <= 3)%nat -> matrix_of k (Multiply (2 ^ k) d X Y) = mmul d (matrix_of k X) (matrix_of k Y).
Proof.
  intros k d X Y Hk. destruct k as [|[|[|[|]]]]; [apply multiply_1|apply multiply_2|apply multiply_4|apply multiply_8|lia].
Qed.

Lemma read_ext : forall k f g, (forall i, (i < 2 ^ k)%nat -> f i = g i) -> read k f = read k g.
Proof.
  induction k; intros f g H; cbn [read].
  - apply H. cbn. lia.
  - cbn [Nat.pow] in H. f_equal; apply IHk; intros; apply H; lia.
Qed.
Lemma read_inj : forall k f g, read k f = read k g -> forall i, (i < 2 ^ k)%nat -> f i = g i.
Proof.
  induction k; intros f g H i Hi; cbn [read] in H.
  - cbn in Hi. replace i with 0%nat by lia. exact H.
  - injection H as H1 H2. cbn [Nat.pow] in Hi. destruct (lt_dec i (2 ^ k)); [apply (IHk f g); auto|].
    specialize (IHk _ _ H2 (i - 2 ^ k)%nat). cbn beta in IHk. replace (2 ^ k + (i - 2 ^ k))%nat with i in IHk by lia. apply IHk. lia.
Qed.
Lemma read_add : forall k f g, read k (fun i => f i + g i) = sadd (read k f) (read k g).
Proof. induction k; intros; cbn [read]; [reflexivity|]. rewrite (IHk f g), (IHk (fun i => f (2 ^ k + i)%nat) (fun i => g (2 ^ k + i)%nat)). reflexivity. Qed.
Lemma read_scal : forall k s f, read k (fun i => f i * s) = sscal s (read k f).
Proof. induction k; intros; cbn [read]; [apply Rmult_comm|]. rewrite (IHk s f), (IHk s (fun i => f (2 ^ k + i)%nat)). reflexivity. Qed.
Lemma read_zero : forall k, read k (fun _ => 0) = s0.
Proof. induction k; cbn [read]; [reflexivity|]. rewrite IHk. reflexivity. Qed.
Lemma read_neg : forall k f, read k (fun i => - f i) = sscal (-1) (read k f).
Proof. intros. rewrite <- read_scal. apply read_ext. intros. ring. Qed.
Lemma pow2_pos : forall k, (0 < 2 ^ k)%nat.
Proof. induction k; cbn; lia. Qed.
Lemma read_conj : forall k f, read k (fun i => if (i =? 0)%nat then f i else - f i) = sconj (read k f).
Proof.
  induction k; intros f; cbn [read]; [reflexivity|]. rewrite (IHk f).
  rewrite (read_ext k (fun i => if (2 ^ k + i =? 0)%nat then _ else _) (fun i => - f (2 ^ k + i)%nat)).
  - rewrite read_neg. reflexivity.
  - intros i _. pose proof (pow2_pos k). assert ((2 ^ k + i =? 0)%nat = false) as -> by (apply Nat.eqb_neq; lia). auto.
Qed.
Lemma read_one : forall k, read k (fun i => if (i =? 0)%nat then 1 else 0) = s1.
Proof.
  induction k; cbn [read]; [reflexivity|]. rewrite IHk. rewrite (read_ext k _ (fun _ => 0)).
  - rewrite read_zero. reflexivity.
  - intros i _. pose proof (pow2_pos k). assert ((2 ^ k + i =? 0)%nat = false) as -> by (apply Nat.eqb_neq; lia). auto.
Qed.
Lemma read_inner : forall k f g, sre (smul (sconj (read k f)) (read k g)) = rsum (2 ^ k) (fun i => f i * g i).
Proof.
  induction k; intros f g.
  - cbn. ring.
  - cbn [read cd double smul sconj sre fst snd]. rewrite (re_add _ _ (laws_cd k)), (re_scal _ _ (laws_cd k)). rewrite (conj_scal _ _ (laws_cd k)), (mul_scal_r _ _ (laws_cd k)), (re_scal _ _ (laws_cd k)).
    rewrite (re_comm _ _ (laws_cd k) (read k (fun i => g _))). rewrite !IHk. cbn [Nat.pow]. replace (2 * 2 ^ k)%nat with (2 ^ k + 2 ^ k)%nat by lia. rewrite rsum_split. ring.
Qed.

Lemma of_add : forall k X Y, matrix_of k (Add X Y) = madd (matrix_of k X) (matrix_of k Y).
Proof. intros. fext. unfold matrix_of, Add, madd. apply read_add. Qed.
Lemma of_scal : forall k X s, matrix_of k (ScalarMultiply X s) = mscal s (matrix_of k X).
Proof. intros. fext. unfold matrix_of, ScalarMultiply, mscal. apply read_scal. Qed.
Lemma of_conj : forall k X, matrix_of k (ConjugateTranspose X) = mconj (matrix_of k X).
Proof. intros. fext. unfold matrix_of, ConjugateTranspose, mconj. apply (read_conj k (fun i => X i c r)). Qed.
Lemma of_zero : forall k, matrix_of k Zero = fun _ _ => s0.
Proof. intros. fext. apply read_zero. Qed.
Lemma of_identity : forall k, matrix_of k Identity = mid.
Proof.
  intros. fext. unfold matrix_of, Identity, mid. destruct (r =? c)%nat; [apply read_one|].
  rewrite <- (read_zero k). apply read_ext. intros. destruct (i =? 0)%nat; auto.
Qed.
Lemma of_diagonal : forall k X e, matrix_of k (add_diagonal X e) = madd (matrix_of k X) (mscal e mid).
Proof.
  intros. rewrite <- of_identity, <- of_scal, <- of_add. fext. unfold matrix_of. apply read_ext. intros i _.
  unfold add_diagonal, Add, ScalarMultiply, Identity. destruct (i =? 0)%nat; destruct (r =? c)%nat; cbn [andb]; ring.
Qed.
Lemma matrix_inj : forall k X Y, matrix_of k X = matrix_of k Y -> forall i r c, (i < 2 ^ k)%nat -> X i r c = Y i r c.
Proof.
  intros k X Y H i r c Hi. assert (matrix_of k X r c = matrix_of k Y r c) as E by (rewrite H; auto).
  apply (read_inj k (fun i => X i r c) (fun i => Y i r c)); auto.
Qed.

(** Linear combinations of matrices. *)
Ltac mlin k := fext; unfold madd, mscal; apply (co_sep _ _ (laws_cd k)); let i := fresh "i" in intros i; coords (laws_cd k); field.
Ltac mpush k := repeat (rewrite (mmul_add_l _ _ (laws_cd k)) || rewrite (mmul_add_r _ _ (laws_cd k)) || rewrite (mmul_scal_l _ _ (laws_cd k))
  || rewrite (mmul_scal_r _ _ (laws_cd k)) || rewrite (mconj_add _ _ (laws_cd k)) || rewrite (mconj_scal _ _ (laws_cd k))
  || rewrite (mconj_mul _ _ (laws_cd k)) || rewrite (mconj_mconj _ _ (laws_cd k))).

Lemma of_jordan : forall k d x y, (k <= 3)%nat -> matrix_of k (JordanMultiply (2 ^ k) d x y) =
  mscal (1 / 2) (madd (mmul d (matrix_of k x) (matrix_of k y)) (mmul d (matrix_of k y) (matrix_of k x))).
Proof. intros. unfold JordanMultiply. rewrite of_scal, of_add, !of_multiply by auto. auto. Qed.
Lemma of_quadratic : forall k d x y, (k <= 2)%nat -> matrix_of k (QuadraticRepresentation (2 ^ k) d x y) =
  mmul d (matrix_of k x) (mmul d (matrix_of k y) (matrix_of k x)).
Proof.
  intros k d x y Hk. unfold QuadraticRepresentation. rewrite of_add, !of_scal, !of_jordan by lia.
  pose proof (assoc_cd k Hk) as HA. mpush k. rewrite !(mmul_assoc _ _ (laws_cd k) HA). mlin k.
Qed.

(** ** The laws of the model's operations *)
Lemma multiply_assoc : forall k d X Y Z i r c, (k <= 2)%nat -> (i < 2 ^ k)%nat ->
  Multiply (2 ^ k) d (Multiply (2 ^ k) d X Y) Z i r c = Multiply (2 ^ k) d X (Multiply (2 ^ k) d Y Z) i r c.
Proof.
  intros k d X Y Z i r c Hk Hi. apply (matrix_inj k); auto. rewrite !of_multiply by lia.
  apply (mmul_assoc _ _ (laws_cd k) (assoc_cd k Hk)).
Qed.
Lemma conjugate_product : forall k d X Y i r c, (k <= 3)%nat -> (i < 2 ^ k)%nat ->
  ConjugateTranspose (Multiply (2 ^ k) d X Y) i r c = Multiply (2 ^ k) d (ConjugateTranspose Y) (ConjugateTranspose X) i r c.
Proof.
  intros k d X Y i r c Hk Hi. apply (matrix_inj k); auto. rewrite of_conj, !of_multiply, !of_conj by lia. apply (mconj_mul _ _ (laws_cd k)).
Qed.
Lemma quadratic_product : forall k d x y i r c, (k <= 2)%nat -> (i < 2 ^ k)%nat ->
  QuadraticRepresentation (2 ^ k) d x y i r c = Multiply (2 ^ k) d x (Multiply (2 ^ k) d y x) i r c.
Proof. intros k d x y i r c Hk Hi. apply (matrix_inj k); auto. rewrite of_quadratic, !of_multiply by lia. auto. Qed.

(** Trace inner product. *)
Lemma for_up_sum : forall (f : nat -> R) n a, for_up n (fun s i => s + f i) a = a + rsum n f.
Proof.
  intros f n a. unfold for_up. induction n; [cbn; ring|]. rewrite seq_S, fold_left_app. cbn [fold_left Nat.add]. rewrite IHn. cbn [rsum]. ring.
Qed.
Definition minner {A : star} (rows cols : nat) (X Y : nat -> nat -> el A) : R :=
  rsum rows (fun r => rsum cols (fun c => sre (smul (sconj (X r c)) (Y r c)))).
Lemma of_trace : forall k rows cols x y, TraceInnerProduct (2 ^ k) rows cols x y = minner rows cols (matrix_of k x) (matrix_of k y).
Proof.
  intros. unfold TraceInnerProduct, minner. rewrite for_up_sum, Rplus_0_l. rewrite rsum_swap.
  rewrite (rsum_swap rows cols). apply rsum_ext. intros c _. rewrite rsum_swap. apply rsum_ext. intros r _. unfold matrix_of. rewrite read_inner. auto.
Qed.
Lemma trace_symmetric : forall n rows cols x y, TraceInnerProduct n rows cols x y = TraceInnerProduct n rows cols y x.
Proof.
  intros. unfold TraceInnerProduct. rewrite !for_up_sum. f_equal. apply rsum_ext. intros. apply rsum_ext. intros. apply rsum_ext. intros. ring.
Qed.
Lemma norm_product : forall k X Y, (k <= 3)%nat ->
  squaredNorm (2 ^ k) 1 1 (Multiply (2 ^ k) 1 X Y) = squaredNorm (2 ^ k) 1 1 X * squaredNorm (2 ^ k) 1 1 Y.
Proof.
  intros k X Y Hk. unfold squaredNorm, TraceInnerProduct. rewrite !for_up_sum, !Rplus_0_l. cbn [rsum].
  destruct k as [|[|[|[|]]]]; [| | | |lia]; cbn [Nat.pow Nat.mul Nat.add]; cbn [rsum]; run; cbn [rsum]; ring.
Qed.
