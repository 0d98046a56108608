(** Lemmas about the container operations of Base.v. *)
From Coq Require Import List Arith ZArith Bool Lia Sorting.Sorted Permutation.
From Verif Require Import Base.
Import ListNotations.

(** * Outcomes *)
Lemma bind_ok {A B} (x : res A) (f : A -> res B) b :
  bind x f = Ok b -> exists a, x = Ok a /\ f a = Ok b.
Proof. destruct x; cbn; try discriminate. eauto. Qed.

Lemma at_ok {A} (l : list A) i a : at_ l i = Ok a <-> nth_error l i = Some a.
Proof.
  unfold at_. destruct (nth_error l i); split; intro H; try discriminate; congruence.
Qed.

Lemma idx_ok {A} (l : list A) i a : idx l i = Ok a <-> nth_error l i = Some a.
Proof.
  unfold idx. destruct (nth_error l i); split; intro H; try discriminate; congruence.
Qed.

Lemma at_lt {A} (l : list A) i d : i < length l -> at_ l i = Ok (nth i l d).
Proof. intros H. apply at_ok. apply nth_error_nth'; auto. Qed.

Lemma idx_lt {A} (l : list A) i d : i < length l -> idx l i = Ok (nth i l d).
Proof. intros H. apply idx_ok. apply nth_error_nth'; auto. Qed.

Lemma upd_length {A} (l : list A) i a : length (upd l i a) = length l.
Proof. revert i; induction l; intros [|i]; cbn; auto. Qed.

Lemma nth_upd_eq {A} (l : list A) i a d : i < length l -> nth i (upd l i a) d = a.
Proof. revert i; induction l; intros [|i] H; cbn in *; try lia; auto. apply IHl; lia. Qed.

Lemma nth_upd_neq {A} (l : list A) i j a d : i <> j -> nth j (upd l i a) d = nth j l d.
Proof.
  revert i j; induction l; intros [|i] [|j] H; cbn; auto; try lia.
Qed.

Lemma nth_upd {A} (l : list A) i j a d :
  i < length l -> nth j (upd l i a) d = if i =? j then a else nth j l d.
Proof.
  intros H. destruct (Nat.eqb_spec i j) as [<-|E].
  - apply nth_upd_eq; auto.
  - apply nth_upd_neq; auto.
Qed.

Lemma upd_oob {A} (l : list A) i a : length l <= i -> upd l i a = l.
Proof. revert i; induction l; intros [|i] H; cbn in *; auto; try lia. f_equal. apply IHl; lia. Qed.

Lemma set_at_lt {A} (l : list A) i a : i < length l -> set_at l i a = Ok (upd l i a).
Proof. intros H. unfold set_at. destruct (Nat.ltb_spec i (length l)); auto; lia. Qed.

Lemma set_idx_lt {A} (l : list A) i a : i < length l -> set_idx l i a = Ok (upd l i a).
Proof. intros H. unfold set_idx. destruct (Nat.ltb_spec i (length l)); auto; lia. Qed.

Lemma foldM_app {S A} (f : S -> A -> res S) s l1 l2 :
  foldM f s (l1 ++ l2) = (s' <- foldM f s l1 ;; foldM f s' l2).
Proof.
  revert s; induction l1; intros; cbn; auto.
  destruct (f s a); cbn; auto.
Qed.

(** Loop rule: an invariant indexed by the processed prefix. *)
Lemma foldM_inv {S A} (f : S -> A -> res S) (I : list A -> S -> Prop) l s :
  I [] s ->
  (forall pre a post s, l = pre ++ a :: post -> I pre s ->
     exists s', f s a = Ok s' /\ I (pre ++ [a]) s') ->
  exists s', foldM f s l = Ok s' /\ I l s'.
Proof.
  intros H0 Hstep.
  enough (forall post pre s, l = pre ++ post -> I pre s ->
            exists s', foldM f s post = Ok s' /\ I l s') as G.
  { apply (G l []); auto. }
  induction post as [|a post IH]; intros pre s1 E HI.
  - rewrite app_nil_r in E; subst. eexists; split; [reflexivity|auto].
  - destruct (Hstep pre a post s1 E HI) as (s2 & E2 & I2).
    cbn. rewrite E2. cbn. apply (IH (pre ++ [a])); auto.
    rewrite <- app_assoc; auto.
Qed.

(** Loop rule for a prefix-independent invariant. *)
Lemma foldM_inv' {S A} (f : S -> A -> res S) (I : S -> Prop) l s :
  I s ->
  (forall a s, In a l -> I s -> exists s', f s a = Ok s' /\ I s') ->
  exists s', foldM f s l = Ok s' /\ I s'.
Proof.
  intros H0 Hstep.
  destruct (foldM_inv f (fun _ => I) l s H0) as (s' & E & HI); [|eauto].
  intros; subst. apply Hstep; auto. apply in_elt.
Qed.

Lemma foldM_preserves {S A} (f : S -> A -> res S) (I : S -> Prop) l s s' :
  foldM f s l = Ok s' -> I s ->
  (forall a s s1, In a l -> I s -> f s a = Ok s1 -> I s1) -> I s'.
Proof.
  revert s; induction l; cbn; intros s E H0 Hs.
  - congruence.
  - apply bind_ok in E as (s1 & E1 & E2).
    eapply IHl; eauto. 
Qed.

Lemma mapM_ok {A B} (f : A -> res B) l bs :
  mapM f l = Ok bs <-> Forall2 (fun a b => f a = Ok b) l bs.
Proof.
  revert bs; induction l; cbn; intros bs; split; intro H.
  - injection H as <-. constructor.
  - inversion H; auto.
  - apply bind_ok in H as (b & E1 & H). apply bind_ok in H as (t & E2 & H).
    injection H as <-. constructor; auto. apply IHl; auto.
  - inversion H as [|? ? ? ? E1 E2]; subst. rewrite E1. cbn.
    apply IHl in E2. rewrite E2. reflexivity.
Qed.

Lemma mapM_total {A B} (f : A -> res B) (g : A -> B) l :
  (forall a, In a l -> f a = Ok (g a)) -> mapM f l = Ok (map g l).
Proof.
  induction l; cbn; intros H; auto.
  rewrite H by auto. cbn. rewrite IHl by auto. reflexivity.
Qed.

Lemma mapM_exists {A B} (f : A -> res B) (P : A -> B -> Prop) l :
  (forall a, In a l -> exists b, f a = Ok b /\ P a b) ->
  exists bs, mapM f l = Ok bs /\ Forall2 P l bs.
Proof.
  induction l; cbn; intros H.
  - eexists; split; eauto.
  - destruct (H a) as (b & E & Hb); auto.
    destruct IHl as (bs & Es & Hbs); auto.
    rewrite E; cbn. rewrite Es; cbn. eexists; split; eauto.
Qed.

(** * Sorted lists *)
Notation SSorted := (StronglySorted lt).

Lemma ssorted_nodup l : SSorted l -> NoDup l.
Proof.
  induction 1 as [|a l H IH F]; constructor; auto.
  intro Hin. rewrite Forall_forall in F. apply F in Hin. lia.
Qed.

Lemma ssorted_cons_inv a l : SSorted (a :: l) -> SSorted l /\ (forall x, In x l -> a < x).
Proof.
  inversion 1; subst. split; auto. intros. rewrite Forall_forall in *. auto.
Qed.

Lemma ssorted_cons a l : SSorted l -> (forall x, In x l -> a < x) -> SSorted (a :: l).
Proof. intros; constructor; auto. rewrite Forall_forall; auto. Qed.

Lemma set_intersection_spec l1 l2 :
  SSorted l1 -> SSorted l2 ->
  (forall x, In x (set_intersection l1 l2) <-> In x l1 /\ In x l2)
  /\ SSorted (set_intersection l1 l2).
Proof.
  revert l2. induction l1 as [|a t1 IH1]; intros l2 H1 H2.
  { cbn. split; [tauto|constructor]. }
  apply ssorted_cons_inv in H1 as [H1 A1].
  induction l2 as [|b t2 IH2].
  { cbn. split; [tauto|constructor]. }
  pose proof H2 as H2c.
  apply ssorted_cons_inv in H2 as [H2 A2].
  cbn [set_intersection]. destruct (Nat.ltb_spec a b).
  - destruct (IH1 (b :: t2) H1 H2c) as [E S]. split; auto.
    intros x. rewrite E. cbn. split; [tauto|].
    intros [[->|?] [->|Hx]]; try lia; auto. apply A2 in Hx. lia.
  - destruct (Nat.ltb_spec b a).
    + destruct (IH2 H2) as [E S]. split; auto.
      intros x. rewrite E. cbn. split; [tauto|].
      intros [[->|Hx] [->|?]]; try lia; auto. apply A1 in Hx; lia.
    + assert (a = b) by lia; subst b.
      destruct (IH1 t2 H1 H2) as [E S]. split.
      * intros x. cbn. rewrite E. split; [intuition|].
        intros [[->|Hx] [?|Hy]]; auto.
      * apply ssorted_cons; auto. intros x Hx. apply E in Hx. intuition.
Qed.

Lemma set_union_spec l1 l2 :
  SSorted l1 -> SSorted l2 ->
  (forall x, In x (set_union l1 l2) <-> In x l1 \/ In x l2)
  /\ SSorted (set_union l1 l2).
Proof.
  revert l2. induction l1 as [|a t1 IH1]; intros l2 H1 H2.
  { cbn. split; [tauto|auto]. }
  pose proof H1 as H1c.
  apply ssorted_cons_inv in H1 as [H1 A1].
  induction l2 as [|b t2 IH2].
  { cbn. split; [tauto|auto]. }
  pose proof H2 as H2c.
  apply ssorted_cons_inv in H2 as [H2 A2].
  cbn [set_union]. destruct (Nat.ltb_spec b a).
  - destruct (IH2 H2) as [E S]. cbn [set_union] in E, S. split.
    + intros x. cbn [In]. rewrite E. cbn [In]. tauto.
    + apply ssorted_cons; auto. intros x Hx. apply E in Hx.
      destruct Hx as [[->|Hx]|Hx]; auto. apply A1 in Hx; lia.
  - destruct (Nat.ltb_spec a b).
    + destruct (IH1 (b :: t2) H1 H2c) as [E S]. split.
      * intros x. cbn [In]. rewrite E. cbn [In]. tauto.
      * apply ssorted_cons; auto. intros x Hx. apply E in Hx.
        destruct Hx as [Hx|[->|Hx]]; auto. apply A2 in Hx; lia.
    + assert (a = b) by lia; subst b.
      destruct (IH1 t2 H1 H2) as [E S]. split.
      * intros x. cbn [In]. rewrite E. tauto.
      * apply ssorted_cons; auto. intros x Hx. apply E in Hx. intuition.
Qed.

Lemma set_difference_spec l1 l2 :
  SSorted l1 -> SSorted l2 ->
  (forall x, In x (set_difference l1 l2) <-> In x l1 /\ ~ In x l2)
  /\ SSorted (set_difference l1 l2).
Proof.
  revert l2. induction l1 as [|a t1 IH1]; intros l2 H1 H2.
  { cbn. split; [tauto|constructor]. }
  pose proof H1 as H1c.
  apply ssorted_cons_inv in H1 as [H1 A1].
  induction l2 as [|b t2 IH2].
  { cbn. split; [tauto|auto]. }
  pose proof H2 as H2c.
  apply ssorted_cons_inv in H2 as [H2 A2].
  cbn [set_difference]. destruct (Nat.ltb_spec a b).
  - destruct (IH1 (b :: t2) H1 H2c) as [E S]. split.
    + intros x. cbn [In]. rewrite E. cbn [In]. split.
      * intros [->|Hx]; [|tauto]. split; auto. intros [->|Hy]; try lia. apply A2 in Hy; lia.
      * intros [[->|Hx] Hn]; auto.
    + apply ssorted_cons; auto. intros x Hx. apply E in Hx. intuition.
  - destruct (Nat.ltb_spec b a).
    + destruct (IH2 H2) as [E S]. cbn [set_difference] in E, S. split; auto.
      intros x. rewrite E. cbn [In]. split.
      * intros [Hx Hn]; split; auto. intros [->|?]; auto.
        destruct Hx as [->|Hx]; try lia. apply A1 in Hx; lia.
      * tauto.
    + assert (a = b) by lia; subst b.
      destruct (IH1 t2 H1 H2) as [E S]. split; auto.
      intros x. rewrite E. cbn [In]. split.
      * intros [Hx Hn]; split; auto. intros [->|?]; auto. apply A1 in Hx; lia.
      * intros [[->|Hx] Hn]; intuition.
Qed.

Lemma nodup_incl_length_eq l (P : nat -> bool) :
  length l = length (filter P l) + length (filter (fun x => negb (P x)) l).
Proof. induction l; cbn; auto. destruct (P a); cbn; lia. Qed.

Lemma same_elements_length (l l' : list nat) :
  NoDup l -> NoDup l' -> (forall x, In x l <-> In x l') -> length l = length l'.
Proof.
  intros H H' E. apply Permutation_length. apply NoDup_Permutation; auto.
Qed.

Lemma set_difference_length l1 l2 :
  SSorted l1 -> SSorted l2 -> incl l2 l1 ->
  length (set_difference l1 l2) = length l1 - length l2.
Proof.
  intros H1 H2 Hi. destruct (set_difference_spec l1 l2 H1 H2) as [E S].
  set (P := fun x => if in_dec Nat.eq_dec x l2 then true else false).
  pose proof (nodup_incl_length_eq l1 P) as HL.
  assert (length (filter P l1) = length l2) as A1.
  { apply same_elements_length.
    - apply NoDup_filter. apply ssorted_nodup; auto.
    - apply ssorted_nodup; auto.
    - intros x. rewrite filter_In. unfold P.
      destruct (in_dec Nat.eq_dec x l2); split; intuition; try discriminate. }
  assert (length (filter (fun x => negb (P x)) l1) = length (set_difference l1 l2)) as A2.
  { apply same_elements_length.
    - apply NoDup_filter. apply ssorted_nodup; auto.
    - apply ssorted_nodup; auto.
    - intros x. rewrite filter_In, E. unfold P.
      destruct (in_dec Nat.eq_dec x l2); cbn; split; intuition; try discriminate. }
  lia.
Qed.

Lemma set_union_single s v :
  SSorted s ->
  (forall x, In x (set_union s [v]) <-> In x s \/ x = v) /\ SSorted (set_union s [v]).
Proof.
  intros H. destruct (set_union_spec s [v]) as [E S]; auto.
  { repeat constructor. }
  split; auto. intros x. rewrite E. cbn. intuition.
Qed.

Lemma insert_perm a l : Permutation (a :: l) (insert_sorted a l).
Proof.
  induction l; cbn; auto. destruct (a <=? a0); auto.
  rewrite perm_swap. apply perm_skip. auto.
Qed.

Lemma sort_perm l : Permutation l (sort l).
Proof.
  induction l; cbn; auto. rewrite <- insert_perm. apply perm_skip; auto.
Qed.

Lemma sort_in l x : In x (sort l) <-> In x l.
Proof.
  split; apply Permutation_in; [apply Permutation_sym|]; apply sort_perm.
Qed.

Lemma sort_length l : length (sort l) = length l.
Proof. symmetry. apply Permutation_length, sort_perm. Qed.

Lemma insert_le a l : StronglySorted le l -> StronglySorted le (insert_sorted a l).
Proof.
  induction 1 as [|b l H IH F]; cbn.
  - repeat constructor.
  - destruct (Nat.leb_spec a b).
    + constructor. { constructor; auto. }
      constructor; auto. rewrite Forall_forall in *. intros x Hx. apply F in Hx. lia.
    + constructor; auto. rewrite Forall_forall in *. intros x Hx.
      eapply Permutation_in in Hx; [|apply Permutation_sym, insert_perm].
      destruct Hx as [->|Hx]; auto. lia.
Qed.

Lemma sort_le l : StronglySorted le (sort l).
Proof. induction l; cbn; [constructor|apply insert_le; auto]. Qed.

Lemma sort_lt l : NoDup l -> SSorted (sort l).
Proof.
  intros H. assert (NoDup (sort l)) as N.
  { eapply Permutation_NoDup; [apply sort_perm|auto]. }
  pose proof (sort_le l) as S. induction S as [|a t S IH F]; constructor.
  - apply IH. inversion N; auto.
  - inversion N; subst. rewrite Forall_forall in *. intros x Hx.
    pose proof (F x Hx). assert (a <> x) by (intros ->; auto). lia.
Qed.

(** A sorted duplicate-free list is determined by its elements. *)
Lemma ssorted_unique l1 : forall l2, SSorted l1 -> SSorted l2 ->
  (forall x, In x l1 <-> In x l2) -> l1 = l2.
Proof.
  induction l1 as [|a t1 IH]; intros [|b t2] H1 H2 E; auto.
  - exfalso. apply (E b). left; auto.
  - exfalso. apply (E a). left; auto.
  - apply ssorted_cons_inv in H1 as [H1 A1]. apply ssorted_cons_inv in H2 as [H2 A2].
    assert (a = b) as <-.
    { assert (In a (b :: t2)) as Ha by (apply E; left; auto).
      assert (In b (a :: t1)) as Hb by (apply E; left; auto).
      destruct Ha as [->|Ha]; auto. destruct Hb as [->|Hb]; auto.
      apply A2 in Ha. apply A1 in Hb. lia. }
    f_equal. apply IH; auto. intros x. split; intros Hx.
    + assert (In x (a :: t2)) as [->|?] by (apply E; right; auto); auto.
      apply A1 in Hx; lia.
    + assert (In x (a :: t1)) as [->|?] by (apply E; right; auto); auto.
      apply A2 in Hx; lia.
Qed.

Lemma sort_sorted_id l : SSorted l -> sort l = l.
Proof.
  intros H. apply ssorted_unique; auto.
  - apply sort_lt, ssorted_nodup; auto.
  - intros; apply sort_in.
Qed.

Lemma set_intersection_comm l1 l2 :
  SSorted l1 -> SSorted l2 -> set_intersection l1 l2 = set_intersection l2 l1.
Proof.
  intros H1 H2. destruct (set_intersection_spec l1 l2 H1 H2) as [E1 S1].
  destruct (set_intersection_spec l2 l1 H2 H1) as [E2 S2].
  apply ssorted_unique; auto. intros x. rewrite E1, E2. tauto.
Qed.

(** * Sums *)
Lemma fold_left_add l a : fold_left Nat.add l a = a + fold_left Nat.add l 0.
Proof.
  revert a; induction l; intros; cbn; auto.
  rewrite IHl. rewrite (IHl a). lia.
Qed.

Lemma sum_list_cons a l : sum_list (a :: l) = a + sum_list l.
Proof. unfold sum_list. cbn. apply fold_left_add. Qed.

Lemma sum_list_app l1 l2 : sum_list (l1 ++ l2) = sum_list l1 + sum_list l2.
Proof.
  induction l1; cbn [app]; auto. rewrite !sum_list_cons. lia.
Qed.

Lemma concat_length_sum {A} (l : list (list A)) :
  length (concat l) = sum_list (map (@length A) l).
Proof.
  induction l; cbn [concat map]; auto.
  rewrite app_length, sum_list_cons. lia.
Qed.

(** * Misc lists *)
Lemma nth_error_nth_eq {A} (l : list A) i a d : nth_error l i = Some a -> nth i l d = a.
Proof. apply nth_error_nth. Qed.

Lemma nth_error_lt {A} (l : list A) i a : nth_error l i = Some a -> i < length l.
Proof. intros H. apply nth_error_Some. congruence. Qed.

Lemma NoDup_app_inv {A} (l1 l2 : list A) :
  NoDup (l1 ++ l2) <-> NoDup l1 /\ NoDup l2 /\ (forall x, In x l1 -> ~ In x l2).
Proof.
  induction l1; cbn.
  - split; [|tauto]. intros H. repeat split; auto. constructor.
  - rewrite !NoDup_cons_iff, in_app_iff, IHl1. split.
    + intros (Hn & H1 & H2 & H3). repeat split; auto.
      intros x [->|Hx]; auto.
    + intros ((Hn & H1) & H2 & H3). repeat split; auto.
      intros [?|?]; auto. eapply H3; eauto.
Qed.

Lemma removelast_last_decomp {A} (l : list A) d :
  l <> [] -> l = removelast l ++ [last l d].
Proof. intros. apply app_removelast_last; auto. Qed.

Lemma nth_repeat_any {A} (a : A) n i : nth i (repeat a n) a = a.
Proof. revert i; induction n; intros [|i]; cbn; auto. Qed.

Lemma nth_repeat_lt {A} (a d : A) n i : i < n -> nth i (repeat a n) d = a.
Proof. revert i; induction n; intros [|i] H; cbn; auto; try lia. apply IHn; lia. Qed.

Lemma at_app_l {A} (l1 l2 : list A) i : i < length l1 -> at_ (l1 ++ l2) i = at_ l1 i.
Proof. intros. unfold at_. rewrite nth_error_app1; auto. Qed.

Lemma ssorted_snoc l a : SSorted l -> (forall x, In x l -> x < a) -> SSorted (l ++ [a]).
Proof.
  induction l as [|b l IH]; intros H Hx; cbn.
  - repeat constructor.
  - apply ssorted_cons_inv in H as [H1 H2]. apply ssorted_cons.
    + apply IH; auto. intros; apply Hx; right; auto.
    + intros x Hin. rewrite in_app_iff in Hin. destruct Hin as [|[<-|[]]]; auto.
      apply Hx; left; auto.
Qed.

Lemma firstn_S_snoc {A} (l : list A) i d : i < length l -> firstn (S i) l = firstn i l ++ [nth i l d].
Proof.
  revert i. induction l as [|a l IH]; intros i H; cbn in H; [lia|].
  destruct i; cbn; auto. f_equal. apply IH. lia.
Qed.

Lemma app_inj_len {A} (a b c d : list A) : length a = length c -> a ++ b = c ++ d -> a = c /\ b = d.
Proof.
  revert c. induction a as [|x a IH]; intros c L E; destruct c as [|y c]; cbn in *; try lia; auto.
  injection E as -> E. destruct (IH c ltac:(lia) E) as [-> ->]. auto.
Qed.

Lemma nth_map_lt {A B} (f : A -> B) l i d d' : i < length l -> nth i (map f l) d = f (nth i l d').
Proof.
  intros H. rewrite nth_indep with (d' := f d') by (rewrite map_length; auto). apply map_nth.
Qed.

Lemma sorted_nth_lt s i j : SSorted s -> i < j -> j < length s -> nth i s 0 < nth j s 0.
Proof.
  revert i j. induction s as [|a s IH]; intros i j H Hij Hj; cbn in Hj; [lia|].
  apply ssorted_cons_inv in H as [H1 H2]. destruct i as [|i], j as [|j]; cbn; auto; try lia.
  - apply H2. apply nth_In; lia.
  - apply IH; auto; lia.
Qed.

Lemma nth_firstn_lt {A} (l : list A) n i d : i < n -> nth i (firstn n l) d = nth i l d.
Proof.
  revert n i. induction l as [|a l IH]; intros n i H; destruct n; try lia; [rewrite firstn_nil; auto|].
  destruct i; cbn; auto. apply IH. lia.
Qed.
