(** Correctness of the dense kernels. *)
From Coq Require Import List Arith Reals Lra Lia Bool Permutation.
From Verif Require Import DenseModel RSum.
Import ListNotations.
Open Scope R_scope.

Lemma vset_eq y i v : vset y i v i = v.
Proof. unfold vset. rewrite Nat.eqb_refl. auto. Qed.
Lemma vset_neq y i j v : j <> i -> vset y i v j = y j.
Proof. unfold vset. intros H. apply Nat.eqb_neq in H. rewrite H. auto. Qed.
Lemma mset_eq M i j v : mset M i j v i j = v.
Proof. unfold mset. rewrite !Nat.eqb_refl. auto. Qed.
Lemma mset_neq M i j v r c : (r <> i \/ c <> j) -> mset M i j v r c = M r c.
Proof.
  unfold mset. intros H. destruct (Nat.eqb_spec r i), (Nat.eqb_spec c j); cbn; auto. lia.
Qed.

(** ** LLT *)
Definition llt_inv (n : nat) (M : mat) (k : nat) (L : mat) : Prop :=
  (forall r c, (c < k)%nat -> (c <= r < n)%nat -> M r c = rsum (S c) (fun t => L r t * L c t)) /\
  (forall c, (c < k)%nat -> 0 < L c c) /\
  (forall r c, (k <= c)%nat \/ ~ (c <= r < n)%nat -> L r c = M r c).

Lemma llt_prefix n q M L : (q <= n)%nat -> for_opt (llt_step n) (seq 0 q) M = Some L -> llt_inv n M q L.
Proof.
  intros Hq E. set (J := llt_inv n M).
  apply (for_opt_inv J _ q M L E).
    - split; [|split]; intros; auto; lia.
    - clear E L. intros k L L' Hk (A & B & C) E. assert (k < n)%nat as Hkn by lia. unfold llt_step in E.
      set (x := L k k - rsum k (fun j => L k j * L k j)) in *.
      destruct (Rle_dec x 0) as [|Hx]; [discriminate|]. injection E as <-. apply Rnot_le_lt in Hx.
      assert (0 < sqrt x) as Hs by (apply sqrt_lt_R0; auto).
      assert (sqrt x * sqrt x = x) as Hss by (apply sqrt_sqrt; lra).
      set (L' := fun r c => _) in |- *.
      assert (forall r c, c <> k -> L' r c = L r c) as Hne.
      { intros r c Hc. unfold L'. apply Nat.eqb_neq in Hc. rewrite Hc. auto. }
      assert (L' k k = sqrt x) as Hkk by (unfold L'; rewrite !Nat.eqb_refl; auto).
      assert (forall r, (k < r < n)%nat -> L' r k = (L r k - rsum k (fun j => L r j * L k j)) / sqrt x) as Hrk.
      { intros r Hr. unfold L'. rewrite Nat.eqb_refl. destruct (Nat.eqb_spec r k); [lia|].
        destruct (Nat.ltb_spec k r), (Nat.ltb_spec r n); cbn; auto; lia. }
      split; [|split].
      + intros r c Hc Hr. destruct (Nat.eq_dec c k) as [->|Hck].
        * rewrite rsum_S.
          rewrite (rsum_ext k _ (fun t => L r t * L k t)) by (intros; rewrite !Hne by lia; auto).
          destruct (Nat.eq_dec r k) as [->|Hrk'].
          -- rewrite Hkk, Hss. unfold x. rewrite C by auto. lra.
          -- rewrite Hkk, Hrk by lia. rewrite C by auto. field. lra.
        * rewrite (A r c) by lia. apply rsum_ext. intros t Ht. rewrite !Hne by lia. auto.
      + intros c Hc. destruct (Nat.eq_dec c k) as [->|Hck]; [rewrite Hkk; auto|].
        rewrite Hne by auto. apply B. lia.
      + intros r c Hc. destruct (Nat.eq_dec c k) as [->|Hck].
        * unfold L'. rewrite Nat.eqb_refl. destruct (Nat.eqb_spec r k) as [->|]; [lia|].
          destruct (Nat.ltb_spec k r), (Nat.ltb_spec r n); cbn; try lia; apply C; lia.
        * rewrite Hne by auto. apply C. lia.
Qed.

Lemma llt_ok n M L : llt n M = Some L ->
  (forall r c, (c <= r < n)%nat -> M r c = rsum (S c) (fun t => L r t * L c t)) /\
  (forall c, (c < n)%nat -> 0 < L c c) /\
  (forall r c, ~ (c <= r < n)%nat -> L r c = M r c).
Proof.
  intros E. destruct (llt_prefix n n M L (le_n _) E) as (A & B & C).
  split; [|split]; auto. intros. apply A; lia.
Qed.

(** ** Triangular solves *)
Lemma fwd_solve_ok n L y : (forall i, (i < n)%nat -> L i i <> 0) ->
  let z := fwd_solve n L y in
  (forall i, (i < n)%nat -> rsum (S i) (fun t => L i t * z t) = y i) /\
  (forall i, (n <= i)%nat -> z i = y i).
Proof.
  intros HL. cbv zeta. unfold fwd_solve.
  apply (for_up_inv (fun k z =>
    (forall i, (i < k)%nat -> rsum (S i) (fun t => L i t * z t) = y i) /\
    (forall i, (k <= i)%nat -> z i = y i))).
  - split; intros; auto; lia.
  - intros k z Hk (A & B). split.
    + intros i Hi. destruct (Nat.eq_dec i k) as [->|Hik].
      * rewrite rsum_S, vset_eq.
        rewrite (rsum_ext k _ (fun t => L k t * z t)) by (intros; rewrite vset_neq by lia; auto).
        rewrite B by auto. field. auto.
      * rewrite <- (A i) by lia. apply rsum_ext. intros. rewrite vset_neq by lia. auto.
    + intros i Hi. rewrite vset_neq by lia. apply B. lia.
Qed.

Lemma bwd_solve_ok n L y : (forall i, (i < n)%nat -> L i i <> 0) ->
  let z := bwd_solve n L y in
  (forall i, (i < n)%nat -> rsum (n - i) (fun t => L (i + t)%nat i * z (i + t)%nat) = y i) /\
  (forall i, (n <= i)%nat -> z i = y i).
Proof.
  intros HL. cbv zeta. unfold bwd_solve.
  match goal with |- context [for_down n ?f y] => set (F := f) end.
  assert ((forall i, (0 <= i < n)%nat -> rsum (n - i) (fun t => L (i + t)%nat i * for_down n F y (i + t)%nat) = y i) /\
    (forall i, (i < 0 \/ n <= i)%nat -> for_down n F y i = y i)) as [A B].
  { apply (for_down_inv (fun k z =>
    (forall i, (k <= i < n)%nat -> rsum (n - i) (fun t => L (i + t)%nat i * z (i + t)%nat) = y i) /\
    (forall i, (i < k \/ n <= i)%nat -> z i = y i))).
    - split; intros; auto; lia.
    - intros k z Hk (A & B). unfold F. split.
      + intros i Hi. destruct (Nat.eq_dec i k) as [->|Hik].
        * replace (n - k)%nat with (S (n - 1 - k)) by lia. rewrite rsum_first, Nat.add_0_r, vset_eq.
          match goal with |- _ + rsum _ ?f = _ => rewrite (rsum_ext (n - 1 - k) f (fun t => L (S k + t)%nat k * z (S k + t)%nat)) end.
          2:{ intros t Ht. replace (k + S t)%nat with (S k + t)%nat by lia. rewrite vset_neq by lia. auto. }
          rewrite (B k) by lia. field. auto.
        * rewrite <- (A i) by lia. apply rsum_ext. intros. rewrite vset_neq by lia. auto.
      + intros i Hi. rewrite vset_neq by lia. apply B. lia. }
  split; intros; [apply A|apply B]; lia.
Qed.

(** ** Permutations given by transpositions *)
Definition sw (k p i : nat) : nat := if (i =? k)%nat then p else if (i =? p)%nat then k else i.

Lemma sw_invol k p i : sw k p (sw k p i) = i.
Proof.
  unfold sw. destruct (Nat.eqb_spec i k) as [->|H1].
  - rewrite Nat.eqb_refl. destruct (Nat.eqb_spec p k); auto.
  - destruct (Nat.eqb_spec i p) as [->|H2]; [rewrite Nat.eqb_refl; auto|].
    apply Nat.eqb_neq in H1, H2. rewrite H1, H2. auto.
Qed.

Lemma sw_lt k p n i : (k < n)%nat -> (p < n)%nat -> (i < n)%nat -> (sw k p i < n)%nat.
Proof. unfold sw. intros. destruct (i =? k)%nat, (i =? p)%nat; auto. Qed.

Lemma vswap_sw k p y i : vswap k p y i = y (sw k p i).
Proof. unfold vswap, sw. destruct (i =? k)%nat, (i =? p)%nat; auto. Qed.

(** The index map of a transposition sequence. *)
Fixpoint sigma_of (l : list (nat * nat)) (i : nat) : nat :=
  match l with [] => i | (k, p) :: t => sw k p (sigma_of t i) end.
Definition sigma (tr : list nat) : nat -> nat := sigma_of (combine (seq 0 (length tr)) tr).
Fixpoint tau_of (l : list (nat * nat)) (i : nat) : nat :=
  match l with [] => i | (k, p) :: t => tau_of t (sw k p i) end.
Definition tau (tr : list nat) : nat -> nat := tau_of (combine (seq 0 (length tr)) tr).

Lemma tau_sigma_of l i : tau_of l (sigma_of l i) = i.
Proof. revert i. induction l as [|(k, p) l IH]; intros i; cbn; auto. rewrite sw_invol. auto. Qed.
Lemma sigma_tau_of l i : sigma_of l (tau_of l i) = i.
Proof. revert i. induction l as [|(k, p) l IH]; intros i; cbn; auto. rewrite IH, sw_invol. auto. Qed.

Lemma fold_vswap l : forall y i,
  fold_left (fun y kp => vswap (fst kp) (snd kp) y) l y i = y (sigma_of l i).
Proof.
  induction l as [|(k, p) l IH]; intros y i; cbn; auto. rewrite IH, vswap_sw. auto.
Qed.
Lemma fold_vswap_rev l : forall y i,
  fold_left (fun y kp => vswap (fst kp) (snd kp) y) (rev l) y i = y (tau_of l i).
Proof.
  induction l as [|(k, p) l IH]; intros y i; cbn; auto. rewrite fold_left_app. cbn. rewrite vswap_sw, IH. auto.
Qed.

Lemma perm_apply_spec tr y i : perm_apply tr y i = y (sigma tr i).
Proof. apply fold_vswap. Qed.
Lemma perm_apply_T_spec tr y i : perm_apply_T tr y i = y (tau tr i).
Proof. apply fold_vswap_rev. Qed.

Definition tr_ok (n : nat) (tr : list nat) : Prop :=
  (length tr <= n)%nat /\ (forall p, In p tr -> (p < n)%nat).

Lemma combine_in_lt n l : forall a, (a + length l <= n)%nat -> (forall p, In p l -> (p < n)%nat) ->
  forall k p, In (k, p) (combine (seq a (length l)) l) -> (k < n)%nat /\ (p < n)%nat.
Proof.
  induction l as [|q l IH]; intros a Ha Hl k p H; cbn in H; [tauto|].
  destruct H as [H|H].
  - injection H as <- <-. cbn in Ha. split; [lia|]. apply Hl. cbn; auto.
  - apply (IH (S a)); auto; cbn in *; [lia|]. intros; apply Hl; auto.
Qed.

Lemma sigma_lt n tr i : tr_ok n tr -> (i < n)%nat -> (sigma tr i < n)%nat.
Proof.
  intros (H1 & H2) Hi. unfold sigma.
  assert (forall k p, In (k, p) (combine (seq 0 (length tr)) tr) -> (k < n)%nat /\ (p < n)%nat) as H.
  { apply combine_in_lt; auto. }
  revert H. generalize (combine (seq 0 (length tr)) tr). induction l as [|(k, p) l IH]; intros H; cbn; auto.
  destruct (H k p (or_introl eq_refl)). apply sw_lt; auto. apply IH. intros. apply H. right; auto.
Qed.
Lemma tau_lt n tr i : tr_ok n tr -> (i < n)%nat -> (tau tr i < n)%nat.
Proof.
  intros (H1 & H2) Hi. unfold tau.
  assert (forall k p, In (k, p) (combine (seq 0 (length tr)) tr) -> (k < n)%nat /\ (p < n)%nat) as H.
  { apply combine_in_lt; auto. }
  revert i Hi H. generalize (combine (seq 0 (length tr)) tr). induction l as [|(k, p) l IH]; intros i Hi H; cbn; auto.
  destruct (H k p (or_introl eq_refl)). apply IH. apply sw_lt; auto. intros. apply H. right; auto.
Qed.
Lemma sigma_tau tr i : sigma tr (tau tr i) = i.
Proof. apply sigma_tau_of. Qed.
Lemma tau_sigma tr i : tau tr (sigma tr i) = i.
Proof. apply tau_sigma_of. Qed.

Lemma combine_snoc {A B} (l : list A) (l' : list B) a b : length l = length l' ->
  combine (l ++ [a]) (l' ++ [b]) = combine l l' ++ [(a, b)].
Proof.
  revert l'. induction l as [|x l IH]; intros [|y l'] E; cbn in *; try lia; auto. f_equal. apply IH. lia.
Qed.

Lemma sigma_of_app l1 l2 i : sigma_of (l1 ++ l2) i = sigma_of l1 (sigma_of l2 i).
Proof. induction l1 as [|(k,p) l1 IH]; cbn; congruence. Qed.

Lemma sigma_snoc tr p i : sigma (tr ++ [p]) i = sigma tr (sw (length tr) p i).
Proof.
  unfold sigma. rewrite app_length. cbn [length]. rewrite Nat.add_1_r, seq_S.
  rewrite combine_snoc by (rewrite seq_length; auto). rewrite sigma_of_app. cbn. auto.
Qed.

(** ** RLDLT *)
Lemma argmax_range f n : forall len best i, (best < i)%nat -> (i + len <= n)%nat -> 
  (best <= argmax_from f best i len < n)%nat \/ n = 0%nat.
Proof.
  induction len as [|l IH]; intros best i H1 H2; cbn [argmax_from].
  - left. lia.
  - destruct (Rlt_dec _ _).
    + specialize (IH i (S i)). destruct IH; try lia.
    + apply IH; lia.
Qed.

Lemma argmax_abs_range f k n : (k < n)%nat -> (k <= argmax_abs f k n < n)%nat.
Proof. intros H. unfold argmax_abs. destruct (argmax_range f n (n - k - 1) k (S k)); lia. Qed.

(** The pivot has the largest absolute value. *)
Lemma argmax_from_max f : forall len best i j, (j = best \/ i <= j < i + len)%nat ->
  Rabs (f j) <= Rabs (f (argmax_from f best i len)).
Proof.
  induction len as [|l IH]; intros best i j H; cbn [argmax_from].
  - destruct H; [subst; lra|lia].
  - destruct (Rlt_dec _ _) as [Hl|Hl].
    + destruct H as [->|H].
      * eapply Rle_trans; [apply Rlt_le, Hl|]. apply IH. auto.
      * apply IH. lia.
    + destruct (Nat.eq_dec j i) as [->|Hj].
      * eapply Rle_trans; [apply Rnot_lt_le, Hl|]. apply IH. auto.
      * apply IH. lia.
Qed.

(** symmetric completion of the lower triangle *)
Definition sym (M : mat) : mat := fun r c => M (Nat.max r c) (Nat.min r c).
Lemma sym_comm M r c : sym M r c = sym M c r.
Proof. unfold sym. f_equal; lia. Qed.
Lemma sym_lower M r c : (c <= r)%nat -> sym M r c = M r c.
Proof. intros. unfold sym. f_equal; lia. Qed.

Lemma swap_middle_spec k p M : (k < p)%nat ->
  (forall r c, swap_middle k p M r c =
     if ((c =? k) && (k <? r) && (r <? p))%nat%bool then M p r
     else if ((r =? p) && (k <? c) && (c <? p))%nat%bool then M c k else M r c).
Proof.
  intros Hk. unfold swap_middle.
  assert (forall m, (S k + m <= p)%nat -> forall r c,
    fold_left (fun M i => mset (mset M i k (M p i)) p i (M i k)) (seq (S k) m) M r c =
     if ((c =? k) && (k <? r) && (r <? S k + m))%nat%bool then M p r
     else if ((r =? p) && (k <? c) && (c <? S k + m))%nat%bool then M c k else M r c) as G.
  { induction m as [|m IH]; intros Hm r c.
    - cbn [seq fold_left].
      destruct (Nat.eqb_spec c k), (Nat.eqb_spec r p), (Nat.ltb_spec k r), (Nat.ltb_spec r (S k + 0)),
        (Nat.ltb_spec k c), (Nat.ltb_spec c (S k + 0)); cbn [andb]; auto; lia.
    - rewrite seq_S, fold_left_app. cbn [fold_left].
      specialize (IH ltac:(lia)). set (M' := fold_left _ _ M) in *. set (i := (S k + m)%nat) in *.
      assert (M' p i = M p i) as E1.
      { rewrite IH. destruct (Nat.eqb_spec i k), (Nat.ltb_spec i i), (Nat.ltb_spec p i), (Nat.eqb_spec p p), (Nat.ltb_spec k p); cbn [andb]; try lia; rewrite ?andb_false_r; auto. }
      assert (M' i k = M i k) as E2.
      { rewrite IH. destruct (Nat.ltb_spec i i), (Nat.eqb_spec i p); cbn [andb]; try lia; rewrite ?andb_false_r; auto. }
      rewrite E1, E2. replace (S k + S m)%nat with (S i) by lia.
      unfold mset at 1. destruct (Nat.eqb_spec r p) as [->|Hr]; cbn [andb].
      + destruct (Nat.eqb_spec c i) as [->|Hc].
        * destruct (Nat.eqb_spec i k); [lia|]. cbn [andb].
          destruct (Nat.ltb_spec k i), (Nat.ltb_spec i (S i)); cbn [andb]; auto; lia.
        * rewrite mset_neq by lia. rewrite IH, Nat.eqb_refl.
          destruct (Nat.eqb_spec c k), (Nat.ltb_spec k p), (Nat.ltb_spec p i), (Nat.ltb_spec p (S i)), (Nat.ltb_spec k c), (Nat.ltb_spec c i), (Nat.ltb_spec c (S i)); cbn [andb]; auto; lia.
      + unfold mset. destruct (Nat.eqb_spec r i) as [->|Hri]; cbn [andb].
        * destruct (Nat.eqb_spec c k) as [->|Hc]; cbn [andb].
          -- destruct (Nat.ltb_spec k i), (Nat.ltb_spec i (S i)); cbn [andb]; auto; lia.
          -- rewrite IH. destruct (Nat.eqb_spec c k), (Nat.eqb_spec i p); try lia. cbn [andb]. auto.
        * rewrite IH. destruct (Nat.eqb_spec c k), (Nat.eqb_spec r p), (Nat.ltb_spec k r), (Nat.ltb_spec r i), (Nat.ltb_spec r (S i)); cbn [andb]; auto; lia. }
  intros r c. rewrite G by lia. replace (S k + (p - S k))%nat with p by lia. auto.
Qed.

Lemma swap_sym_spec k p n M r c : (k <= p < n)%nat -> (c <= r < n)%nat ->
  swap_sym k p n M r c = sym M (sw k p r) (sw k p c) .
Proof.
  intros Hk Hr. unfold swap_sym. destruct (Nat.eqb_spec k p) as [->|Hn].
  - unfold sw. assert (forall i, (if (i =? p)%nat then p else if (i =? p)%nat then p else i) = i) as E.
    { intros i. destruct (Nat.eqb_spec i p); auto. }
    rewrite !E, sym_lower by lia. auto.
  - rewrite swap_middle_spec by lia. unfold swap_diag, swap_tails, swap_heads, mset, sym, sw.
    repeat match goal with
      | |- context [Nat.eqb ?a ?b] => destruct (Nat.eqb_spec a b); try lia
      | |- context [Nat.ltb ?a ?b] => destruct (Nat.ltb_spec a b); try lia
      end; cbn [andb]; try lia; subst; try (f_equal; lia); auto.
Qed.

Lemma reg_pos : 0 < reg.
Proof. unfold reg. lra. Qed.

Lemma ldlt_pivot_spec x : reg <= Rabs (ldlt_pivot x) /\ Rabs (ldlt_pivot x - x) <= reg /\
  (pivot_valid x = true -> ldlt_pivot x = x) /\ (pivot_valid x = false -> Rabs x <= reg).
Proof.
  pose proof reg_pos as Hr. unfold ldlt_pivot, pivot_valid. destruct (Rlt_dec reg (Rabs x)) as [H|H].
  - repeat split; try lra; try discriminate. rewrite Rminus_eq_0, Rabs_R0. lra.
  - apply Rnot_lt_le in H. destruct (Rlt_dec x 0) as [Hx|Hx].
    + rewrite Rabs_left in H by lra. repeat split; try discriminate.
      * rewrite Rabs_Ropp, Rabs_right; lra.
      * apply Rabs_le. lra.
      * intros _. rewrite Rabs_left; lra.
    + rewrite Rabs_right in H by lra. repeat split; try discriminate.
      * rewrite Rabs_right; lra.
      * apply Rabs_le. lra.
      * intros _. rewrite Rabs_right; lra.
Qed.

Lemma ldlt_pivot_strict x : reg < Rabs (ldlt_pivot x) -> ldlt_pivot x = x.
Proof.
  pose proof reg_pos as Hr. unfold ldlt_pivot. destruct (Rlt_dec reg (Rabs x)) as [H|H]; auto.
  destruct (Rlt_dec x 0); rewrite ?Rabs_Ropp, Rabs_right by lra; lra.
Qed.

Lemma small_pivot_strict x : reg < Rabs (small_pivot x) -> small_pivot x = x.
Proof.
  pose proof reg_pos as Hr. unfold small_pivot. destruct (Rlt_dec (Rabs x) reg) as [H|H]; auto.
  destruct (Rlt_dec x 0); rewrite ?Rabs_Ropp, Rabs_right by lra; lra.
Qed.

Lemma small_pivot_spec x : reg <= Rabs (small_pivot x) /\ Rabs (small_pivot x - x) <= reg /\
  (reg <= Rabs x -> small_pivot x = x).
Proof.
  pose proof reg_pos as Hr. unfold small_pivot. destruct (Rlt_dec (Rabs x) reg) as [H|H].
  - destruct (Rlt_dec x 0) as [Hx|Hx].
    + rewrite Rabs_left in H by lra. repeat split.
      * rewrite Rabs_Ropp, Rabs_right; lra.
      * apply Rabs_le. lra.
      * rewrite Rabs_left; lra.
    + rewrite Rabs_right in H by lra. repeat split.
      * rewrite Rabs_right; lra.
      * apply Rabs_le. lra.
      * rewrite Rabs_right; lra.
  - apply Rnot_lt_le in H. repeat split; auto. rewrite Rminus_eq_0, Rabs_R0. lra.
Qed.

Definition delta (r c : nat) (x : R) : R := if (r =? c)%nat then x else 0.

(** Entry [(r,t)] of the unit lower triangular factor. *)
Definition Lx (M : mat) (r t : nat) : R :=
  if (t <? r)%nat then M r t else if (t =? r)%nat then 1 else 0.

Definition ldlt_inv (n : nat) (A : mat) (k : nat) (st : ldlt_state) : Prop :=
  exists e : nat -> R,
    length (ltr st) = k /\ (forall p, In p (ltr st) -> (p < n)%nat) /\
    (forall r c, (c < k)%nat -> (c <= r < n)%nat ->
       sym A (sigma (ltr st) r) (sigma (ltr st) c) + delta r c (e r) =
       rsum c (fun t => lm st r t * lm st t t * lm st c t) +
       (if (r =? c)%nat then lm st c c else lm st r c * lm st c c)) /\
    (forall r c, (k <= c <= r)%nat -> (r < n)%nat -> lm st r c = sym A (sigma (ltr st) r) (sigma (ltr st) c)) /\
    (forall c, (c < k)%nat -> reg <= Rabs (lm st c c) /\ Rabs (e c) <= reg /\ (reg < Rabs (lm st c c) -> e c = 0)) /\
    (lret st = true -> forall c, (c < k)%nat -> e c = 0) /\
    (lret st = false -> exists c, (c < k)%nat /\ Rabs (lm st c c - e c) <= reg).

Lemma ldlt_step_inv n A k st : (k < n)%nat -> ldlt_inv n A k st -> ldlt_inv n A (S k) (ldlt_step n st k).
Proof.
  intros Hk (e & Hl & Hp & HA & HB & HC & HD & HE).
  unfold ldlt_step.
  set (p := argmax_abs (fun i => lm st i i) k n).
  assert (k <= p < n)%nat as Hkp by (apply argmax_abs_range; auto).
  set (M1 := swap_sym k p n (lm st)).
  set (M2 := ldlt_update n k M1). set (piv := ldlt_pivot (M2 k k)).
  set (M3 := fun r c => if (c =? k)%nat then _ else _).
  set (s := sigma (ltr st)) in *. set (s' := sigma (ltr st ++ [p])).
  assert (forall i, s' i = s (sw k p i)) as Es.
  { intros i. unfold s', s. rewrite sigma_snoc, Hl. auto. }
  assert (forall i, (i < k)%nat -> sw k p i = i) as Esw.
  { intros i Hi. unfold sw. destruct (Nat.eqb_spec i k), (Nat.eqb_spec i p); lia. }
  assert (forall i, (k <= i < n)%nat -> (k <= sw k p i < n)%nat) as Esw2.
  { intros i Hi. unfold sw. destruct (Nat.eqb_spec i k), (Nat.eqb_spec i p); lia. }
  assert (forall r c, (c <= r < n)%nat -> M1 r c = sym (lm st) (sw k p r) (sw k p c)) as E1.
  { intros r c Hr. apply swap_sym_spec; auto. }
  assert (forall r c, (c < k)%nat -> (c <= r < n)%nat -> M1 r c = lm st (sw k p r) c) as E1a.
  { intros r c Hc Hr. rewrite E1, (Esw c) by lia. apply sym_lower.
    destruct (Nat.lt_ge_cases r k); [rewrite Esw by auto; lia|]. specialize (Esw2 r). lia. }
  assert (forall r c, (k <= c <= r)%nat -> (r < n)%nat -> M1 r c = sym A (s' r) (s' c)) as E1b.
  { intros r c Hc Hr. rewrite E1 by lia. rewrite !Es. pose proof (Esw2 r ltac:(lia)). pose proof (Esw2 c ltac:(lia)).
    destruct (Nat.le_ge_cases (sw k p c) (sw k p r)) as [H1|H1].
    - rewrite sym_lower by auto. apply HB; lia.
    - rewrite sym_comm, sym_lower by auto. rewrite HB by lia. apply sym_comm. }
  assert (forall r c, c <> k -> M3 r c = M1 r c) as E3.
  { intros r c Hc. unfold M3, M2, ldlt_update. destruct (Nat.eqb_spec c k); [lia|]. cbn [andb]. auto. }
  assert (M2 k k = M1 k k - rsum k (fun j => M1 k j * (M1 j j * M1 k j))) as E2k.
  { unfold M2, ldlt_update. rewrite Nat.eqb_refl. destruct (Nat.leb_spec k k), (Nat.ltb_spec k n); try lia. auto. }
  assert (forall r, (k < r < n)%nat -> M3 r k = (M1 r k - rsum k (fun j => M1 r j * (M1 j j * M1 k j))) / piv) as E3k.
  { intros r Hr. unfold M3. rewrite Nat.eqb_refl. destruct (Nat.eqb_spec r k); [lia|].
    destruct (Nat.ltb_spec k r), (Nat.ltb_spec r n); cbn [andb]; try lia.
    unfold M2, ldlt_update. rewrite Nat.eqb_refl.
    destruct (Nat.leb_spec k r), (Nat.ltb_spec r n); cbn [andb]; try lia. auto. }
  assert (M3 k k = piv) as E3kk by (unfold M3; rewrite !Nat.eqb_refl; auto).
  destruct (ldlt_pivot_spec (M2 k k)) as (P1 & P2 & P3 & P4). fold piv in P1, P2, P3.
  assert (piv <> 0) as Hpiv.
  { intros E0. rewrite E0, Rabs_R0 in P1. pose proof reg_pos. lra. }
  exists (fun c => if (c =? k)%nat then piv - M2 k k else e c).
  cbn [ltr lm lret]. fold s'. split; [|split; [|split; [|split; [|split; [|split]]]]].
  - rewrite app_length. cbn. lia.
  - intros q Hq. apply in_app_iff in Hq as [Hq|[<-|[]]]; auto. lia.
  - intros r c Hc Hr. destruct (Nat.eq_dec c k) as [->|Hck].
    + rewrite <- E1b by lia.
      rewrite (rsum_ext k _ (fun j => M1 r j * (M1 j j * M1 k j))).
      2:{ intros t Ht. rewrite !E3 by lia. lra. }
      unfold delta. destruct (Nat.eqb_spec r k) as [->|Hrk].
      * rewrite E3kk, E2k. lra.
      * rewrite E3k, E3kk by lia. field. auto.
    + assert (c < k)%nat as Hc' by lia.
      rewrite (Es r), (Es c), (Esw c) by auto.
      assert (sw k p r = r \/ (k <= r < n /\ k <= sw k p r < n))%nat as Hsr.
      { destruct (Nat.lt_ge_cases r k); [left; apply Esw; auto|right; split; [lia|apply Esw2; lia]]. }
      assert (delta r c (if (r =? k)%nat then piv - M2 k k else e r) = delta (sw k p r) c (e (sw k p r))) as ->.
      { unfold delta. destruct (Nat.eqb_spec r c) as [->|Hrc].
        - rewrite (Esw c) by auto. rewrite Nat.eqb_refl. destruct (Nat.eqb_spec c k); [lia|auto].
        - destruct (Nat.eqb_spec (sw k p r) c); auto. lia. }
      rewrite HA by lia. f_equal.
      * apply rsum_ext. intros t Ht. rewrite !E3 by lia. rewrite !E1a by lia. rewrite (Esw t), (Esw c) by lia. auto.
      * rewrite !E3 by lia. rewrite !E1a by lia. rewrite (Esw c) by lia.
        destruct (Nat.eqb_spec (sw k p r) c), (Nat.eqb_spec r c); auto; lia.
  - intros r c Hc Hr. rewrite E3 by lia. apply E1b; lia.
  - intros c Hc. destruct (Nat.eqb_spec c k) as [->|Hck].
    + rewrite E3kk. split; auto. split; auto. intros Hs. unfold piv in Hs |- *. rewrite (ldlt_pivot_strict _ Hs). lra.
    + rewrite E3, E1a, Esw by lia. apply HC. lia.
  - intros Hret c Hc. apply andb_true_iff in Hret as [R1 R2]. destruct (Nat.eqb_spec c k) as [->|Hck].
    + rewrite (P3 R2). lra.
    + apply HD; auto. lia.
  - intros Hret. apply andb_false_iff in Hret as [R1|R2].
    + destruct (HE R1) as (c & Hc & H). exists c. split; [lia|]. destruct (Nat.eqb_spec c k); [lia|].
      rewrite E3, E1a, Esw by lia. auto.
    + exists k. split; [lia|]. rewrite Nat.eqb_refl, E3kk. replace (piv - (piv - M2 k k)) with (M2 k k) by lra. auto.
Qed.

(** What a regularized LDLT of order [n] computes: [e] is the regularization. *)
Record rldlt_post (n : nat) (A : mat) (st : ldlt_state) (e : nat -> R) : Prop := {
  rl_len : length (ltr st) = n;
  rl_tr : forall p, In p (ltr st) -> (p < n)%nat;
  rl_fact : forall r c, (r < n)%nat -> (c < n)%nat ->
    sym A (sigma (ltr st) r) (sigma (ltr st) c) + delta r c (e r) =
    rsum n (fun t => Lx (lm st) r t * lm st t t * Lx (lm st) c t);
  rl_d : forall c, (c < n)%nat -> reg <= Rabs (lm st c c);
  rl_e : forall c, (c < n)%nat -> Rabs (e c) <= reg;
  rl_strict : forall c, (c < n)%nat -> reg < Rabs (lm st c c) -> e c = 0;
  rl_ret : lret st = true -> (2 <= n)%nat -> forall c, (c < n)%nat -> e c = 0;
  rl_ret_false : lret st = false -> exists c, (c < n)%nat /\ Rabs (lm st c c - e c) <= reg;
  rl_one : n = 1%nat -> lret st = true /\ e 0%nat = small_pivot (A 0%nat 0%nat) - A 0%nat 0%nat
}.

Lemma Lx_sum M n r c : (c <= r < n)%nat ->
  rsum n (fun t => Lx M r t * M t t * Lx M c t) =
  rsum c (fun t => M r t * M t t * M c t) + (if (r =? c)%nat then M c c else M r c * M c c).
Proof.
  intros H. rewrite (rsum_trunc (S c) n); [|lia|].
  - rewrite rsum_S. f_equal.
    + apply rsum_ext. intros t Ht. unfold Lx.
      destruct (Nat.ltb_spec t r), (Nat.ltb_spec t c); try lia; auto.
    + unfold Lx. rewrite Nat.ltb_irrefl, Nat.eqb_refl.
      destruct (Nat.eqb_spec r c) as [->|Hr].
      * rewrite Nat.ltb_irrefl, Nat.eqb_refl. lra.
      * destruct (Nat.ltb_spec c r); [lra|lia].
  - intros t Ht. unfold Lx. destruct (Nat.ltb_spec t c), (Nat.eqb_spec t c); try lia. lra.
Qed.

Lemma rldlt_ok n A : (1 <= n)%nat -> exists e, rldlt_post n A (rldlt n A) e.
Proof.
  intros Hn. unfold rldlt. destruct (Nat.leb_spec n 1) as [H1|H1].
  - assert (n = 1)%nat as -> by lia. destruct (small_pivot_spec (A 0%nat 0%nat)) as (S1 & S2 & S3).
    exists (fun _ => small_pivot (A 0%nat 0%nat) - A 0%nat 0%nat).
    constructor; cbn [ltr lm lret]; auto; try discriminate; try lia.
    + intros p [<-|[]]. lia.
    + intros r c Hr Hc. assert (r = 0 /\ c = 0)%nat as [-> ->] by lia.
      cbn. unfold sym, sigma, Lx, delta, mset. cbn. unfold sw; cbn. lra.
    + intros c Hc. assert (c = 0)%nat as -> by lia. rewrite mset_eq. auto.
    + intros c Hc. assert (c = 0)%nat as -> by lia. rewrite mset_eq. intros Hs. rewrite small_pivot_strict by auto. lra.
  - destruct (for_up_inv (ldlt_inv n A) n (ldlt_step n) (mkLdlt A [] true)) as (e & Hl & Hp & HA & HB & HC & HD & HE).
    + exists (fun _ => 0). cbn [ltr lm lret length]. split; auto. split; [intros p []|].
      split; [intros; lia|]. split; [|split; [intros; lia|split; [intros; lia|discriminate]]].
      intros r c Hc Hr. unfold sigma. cbn. rewrite sym_lower by lia. auto.
    + intros k st Hk H. apply ldlt_step_inv; auto.
    + set (st := for_up _ _ _) in *. exists e. constructor; auto; try (intros; apply HC; assumption); [|intros ->; lia].
      intros r c Hr Hc. destruct (Nat.le_ge_cases c r) as [H|H].
      * rewrite Lx_sum by lia. apply HA; lia.
      * rewrite (rsum_ext n _ (fun t => Lx (lm st) c t * lm st t t * Lx (lm st) r t)) by (intros; lra).
        rewrite Lx_sum by lia. rewrite sym_comm. replace (delta r c (e r)) with (delta c r (e c)).
        { apply HA; lia. }
        unfold delta. rewrite Nat.eqb_sym. destruct (Nat.eqb_spec r c) as [->|]; auto.
Qed.
