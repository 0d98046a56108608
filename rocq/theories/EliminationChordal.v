(** Orders with the greedy property are perfect on chordal graphs; perfect orders
    exist only on chordal graphs; the completeness test of the model. *)
From Coq Require Import List Arith ZArith Bool Lia Permutation.
From Verif Require Import Base BaseFacts EliminationModel Spec_Elimination EliminationProofs.
Import ListNotations.

Lemma linked_spec : forall A u x, linked A u x = true <-> adjacent A u x.
Proof. intros. unfold linked, adjacent. rewrite andb_true_iff, !negb_true_iff, Nat.eqb_neq, Z.eqb_neq. tauto. Qed.
Lemma adjacent_sym : forall G n i j, undirected G n -> i < n -> j < n -> adjacent G i j -> adjacent G j i.
Proof. intros G n i j HU Hi Hj [H1 H2]. split; auto. Qed.

Lemma filter_exists : forall (f g : nat -> bool) l w, NoDup l -> length (filter f l) <= length (filter g l) ->
  In w l -> f w = true -> g w = false -> exists x, In x l /\ g x = true /\ f x = false.
Proof.
  intros f g l w ND HL Hw Hf Hg. destruct (existsb (fun x => g x && negb (f x)) l) eqn:E.
  - apply existsb_exists in E as (x & Hx & E). apply andb_true_iff in E as [E1 E2]. apply negb_true_iff in E2. eauto.
  - exfalso. assert (incl (filter g l) (filter f (remove Nat.eq_dec w l))) as HI.
    { intros x Hx. apply filter_In in Hx as [Hx Hgx]. apply filter_In. split.
      - apply in_in_remove; auto. intros ->. congruence.
      - destruct (f x) eqn:Ef; auto. assert (existsb (fun x => g x && negb (f x)) l = true); [|congruence].
        apply existsb_exists. exists x. rewrite Hgx, Ef. auto. }
    apply NoDup_incl_length in HI; [|apply NoDup_filter; auto].
    assert (length (filter f (remove Nat.eq_dec w l)) < length (filter f l)); [|lia].
    clear - Hw Hf. induction l as [|a l IH]; [destruct Hw|]. cbn [remove filter]. destruct (Nat.eq_dec w a) as [->|Hn].
    + rewrite Hf. cbn [length]. clear. assert (length (filter f (remove Nat.eq_dec a l)) <= length (filter f l)); [|lia].
      induction l as [|b l IH]; cbn [remove filter]; auto. destruct (Nat.eq_dec a b); destruct (f b) eqn:E; cbn [filter]; try rewrite E; cbn [length]; lia.
    + destruct Hw as [->|Hw]; [congruence|]. specialize (IH Hw). cbn [filter]. destruct (f a); cbn [length]; lia.
Qed.

Lemma order_lt : forall n order i, vertex_order n order -> i < length order -> nth i order 0 < n.
Proof. intros n order i HV Hi. assert (In (nth i order 0) (seq 0 n)); [apply (Permutation_in _ HV); apply nth_In; auto|]. apply in_seq in H. lia. Qed.
Lemma order_length : forall n order, vertex_order n order -> length order = n.
Proof. intros n order HV. apply Permutation_length in HV. rewrite seq_length in HV. auto. Qed.
Lemma order_nodup : forall n order, vertex_order n order -> NoDup order.
Proof. intros n order HV. apply Permutation_NoDup with (seq 0 n); [apply Permutation_sym; auto|apply seq_NoDup]. Qed.
Lemma order_inj : forall n order i j, vertex_order n order -> i < length order -> j < length order -> nth i order 0 = nth j order 0 -> i = j.
Proof. intros n order i j HV Hi Hj E. apply (NoDup_nth order 0); auto. apply (order_nodup n); auto. Qed.
Lemma order_has : forall n order x, vertex_order n order -> x < n -> exists i, i < length order /\ nth i order 0 = x.
Proof.
  intros n order x HV Hx. assert (In x order) as Hin. { apply Permutation_in with (seq 0 n); [apply Permutation_sym; auto|]. apply in_seq; lia. }
  apply In_nth with (d := 0) in Hin as (i & Hi & E). eauto.
Qed.

(** The exchange property of greedy orders, on positions. *)
Lemma greedy_exchange : forall G n order u v w, vertex_order n order -> greedy G n order ->
  u < v -> v < w -> w < length order ->
  adjacent G (nth u order 0) (nth w order 0) -> ~ adjacent G (nth v order 0) (nth w order 0) ->
  exists x, v < x /\ x < length order /\ adjacent G (nth v order 0) (nth x order 0) /\ ~ adjacent G (nth u order 0) (nth x order 0).
Proof.
  intros G n order u v w HV HG Huv Hvw Hw Ha Hn.
  pose proof (order_nodup _ _ HV) as ND.
  assert (v < length order) as Hv by lia.
  destruct (nth_split order 0 Hv) as (l1 & l2 & El & L1).
  assert (forall x, x > v -> x < length order -> nth x order 0 = nth (x - v - 1) l2 0) as HN.
  { intros x Hx Hx2. rewrite El at 1. rewrite app_nth2 by lia. rewrite L1. destruct (x - v) eqn:E; [lia|]. cbn [nth]. f_equal. lia. }
  assert (length order = v + 1 + length l2) as LO. { rewrite El at 1. rewrite app_length. cbn [length]. lia. }
  assert (nth u order 0 < n) as Hu by (apply (order_lt n); auto; lia).
  assert (~ In (nth u order 0) (nth v order 0 :: l2)) as Hnot.
  { intros [E|Hin].
    - apply (order_inj n order) in E; auto; lia.
    - apply In_nth with (d := 0) in Hin as (k & Hk & E). rewrite <- (Nat.add_sub k (v + 1)) in E.
      replace (k + (v + 1) - (v + 1)) with ((k + v + 1) - v - 1) in E by lia. rewrite <- HN in E by lia. apply (order_inj n order) in E; auto; lia. }
  pose proof (HG l1 (nth v order 0) l2 El _ Hu Hnot) as HW. unfold weight in HW.
  assert (NoDup l2) as ND2. { rewrite El in ND. clear - ND. induction l1; cbn in ND; inversion_clear ND; auto. }
  destruct (filter_exists _ _ l2 (nth w order 0) ND2 HW) as (x & Hx & Hg & Hf).
  - rewrite HN by lia. apply nth_In. lia.
  - apply linked_spec; auto.
  - apply not_true_is_false. rewrite linked_spec. auto.
  - apply In_nth with (d := 0) in Hx as (k & Hk & E). exists (k + v + 1). assert (nth (k + v + 1) order 0 = x) as ->.
    { rewrite HN by lia. rewrite <- E. f_equal. lia. }
    split; [lia|]. split; [lia|]. split; [apply linked_spec; auto|]. rewrite <- linked_spec. congruence.
Qed.

(** ** Chordless paths *)

(** [p 0 .. p k] are positions of a chordless path whose interior vertices come
    before both ends. *)
Definition low_path (G : zmatrix) (order : list nat) (k : nat) (p : nat -> nat) : Prop :=
  2 <= k /\ (forall i, i <= k -> p i < length order) /\
  (forall i j, i < j -> j <= k -> p i <> p j) /\
  (forall i, i < k -> adjacent G (nth (p i) order 0) (nth (p (i + 1)) order 0)) /\
  (forall i j, i + 1 < j -> j <= k -> ~ adjacent G (nth (p i) order 0) (nth (p j) order 0)) /\
  (forall i, 0 < i -> i < k -> p i < p 0 /\ p i < p k).

(** The last index below [k] with a property that holds somewhere. *)
Lemma last_index : forall (P : nat -> Prop) k i, (forall j, P j \/ ~ P j) -> i < k -> P i ->
  exists j, i <= j /\ j < k /\ P j /\ forall t, j < t -> t < k -> ~ P t.
Proof.
  intros P k i HD. induction k as [|k IH]; intros Hi HP; [lia|].
  destruct (HD k) as [Hk|Hk]; [exists k; repeat split; auto; lia|].
  destruct (Nat.eq_dec i k); [subst; contradiction|]. destruct IH as (j & H1 & H2 & H3 & H4); auto; [lia|].
  exists j. repeat split; auto. intros t Ht Ht2. destruct (Nat.eq_dec t k); [subst; auto|]. apply H4; lia.
Qed.
Lemma adjacent_dec : forall G i j, adjacent G i j \/ ~ adjacent G i j.
Proof. intros. rewrite <- linked_spec. destruct (linked G i j); auto. Qed.

Lemma no_low_path : forall G n order, undirected G n -> chordal G n -> vertex_order n order -> greedy G n order ->
  forall d k p, length order - Nat.min (p 0) (p k) <= d -> ~ low_path G order k p.
Proof.
  intros G n order HU HC HV HG.
  assert (forall a, a < length order -> nth a order 0 < n) as HB by (intros; apply (order_lt n order); auto).
  assert (forall a b, a < length order -> b < length order -> adjacent G (nth a order 0) (nth b order 0) -> adjacent G (nth b order 0) (nth a order 0)) as HS.
  { intros a b Ha Hb. apply (adjacent_sym G n); auto. }
  induction d as [|d IH].
  { intros k p Hd (Hk & Hlt & _). pose proof (Hlt 0 ltac:(lia)). pose proof (Hlt k ltac:(lia)). lia. }
  assert (forall k p, length order - Nat.min (p 0) (p k) <= S d -> p 0 < p k -> ~ low_path G order k p) as Main.
  { intros k p Hd H0k (Hk & Hlt & Hdist & Hedge & Hchord & Hlow).
    destruct (greedy_exchange G n order (p (k - 1)) (p 0) (p k) HV HG) as (x & Hx0 & Hxl & Hx1 & Hx2).
    - apply Hlow; lia.
    - auto.
    - apply Hlt; lia.
    - replace k with ((k - 1) + 1) at 2 by lia. apply Hedge. lia.
    - apply Hchord; lia.
    - set (P := fun i => adjacent G (nth x order 0) (nth (p i) order 0)).
      assert (P 0) as HP0. { apply HS; auto. apply Hlt; lia. }
      assert (~ P (k - 1)) as HPk1. { intros H. apply Hx2. apply HS; auto. apply Hlt; lia. }
      destruct (last_index P k 0) as (j & _ & Hj & HPj & Hlast); auto; [intros; apply adjacent_dec|lia|].
      assert (j <> k - 1) by (intros ->; auto).
      assert (forall i, i < k -> p i <> x) as Hne. { intros i Hi. destruct (Nat.eq_dec i 0); [subst; lia|]. pose proof (Hlow i ltac:(lia) ltac:(lia)). lia. }
      assert (p k <> x) as Hnek.
      { intros E. apply Hx2. rewrite <- E. replace k with ((k - 1) + 1) at 2 by lia. apply Hedge. lia. }
      destruct (adjacent_dec G (nth x order 0) (nth (p k) order 0)) as [Hxk|Hxk].
      + (* the cycle x, p j, ..., p k *)
        set (m := k - j + 2). set (q := fun i => if i =? 0 then x else p (j + i - 1)).
        destruct (HC m (fun i => nth (q i) order 0)) as (a & b & Hab & Hb & Hab1 & Hends & Hadj).
        * unfold m. lia.
        * assert (forall i, i < m -> q i < length order) as Hq. { intros i Hi. unfold q. destruct (i =? 0) eqn:E; auto. apply Nat.eqb_neq in E. apply Hlt. unfold m in Hi. lia. }
          split; [|split].
          -- intros i Hi. apply HB. auto.
          -- intros a b Hab Hb E. apply (order_inj n order) in E; auto; [|apply Hq; lia].
             unfold q in E. assert ((b =? 0) = false) as Eb by (apply Nat.eqb_neq; lia). rewrite Eb in E. destruct (a =? 0) eqn:Ea.
             ++ unfold m in Hb. destruct (Nat.eq_dec (j + b - 1) k) as [E2|E2]; [rewrite E2 in E; auto|]. apply (Hne (j + b - 1)); [lia|auto].
             ++ apply Nat.eqb_neq in Ea. unfold m in Hb. apply (Hdist (j + a - 1) (j + b - 1)); auto; lia.
          -- intros i Hi. destruct (Nat.eq_dec i (m - 1)) as [E|E].
             ++ replace (i + 1) with m by lia. rewrite Nat.mod_same by lia. unfold q. cbn [Nat.eqb].
                assert ((i =? 0) = false) as -> by (apply Nat.eqb_neq; unfold m in E; lia). replace (j + i - 1) with k by (unfold m in E; lia).
                apply HS; auto; apply Hlt; lia.
             ++ rewrite Nat.mod_small by lia. unfold q. assert ((i + 1 =? 0) = false) as -> by (apply Nat.eqb_neq; lia). destruct (i =? 0) eqn:Ei.
                ** apply Nat.eqb_eq in Ei. subst i. replace (j + (0 + 1) - 1) with j by lia. exact HPj.
                ** apply Nat.eqb_neq in Ei. replace (j + (i + 1) - 1) with ((j + i - 1) + 1) by lia. apply Hedge. unfold m in Hi, E. lia.
        * unfold q in Hadj. assert ((b =? 0) = false) as Eb by (apply Nat.eqb_neq; lia). rewrite Eb in Hadj. unfold m in *. destruct (a =? 0) eqn:Ea.
          -- apply Nat.eqb_eq in Ea. subst a. destruct (Nat.eq_dec b (k - j + 2 - 1)); [lia|]. apply (Hlast (j + b - 1)); [lia|lia|exact Hadj].
          -- apply Nat.eqb_neq in Ea. apply (Hchord (j + a - 1) (j + b - 1)); [lia|lia|exact Hadj].
      + (* the path x, p j, ..., p k *)
        set (q := fun i => if i =? 0 then x else p (j + i - 1)).
        apply (IH (k - j + 1) q).
        * unfold q. cbn [Nat.eqb]. assert ((k - j + 1 =? 0) = false) as -> by (apply Nat.eqb_neq; lia). replace (j + (k - j + 1) - 1) with k by lia. lia.
        * assert (forall i, i <= k - j + 1 -> q i < length order) as Hq. { intros i Hi. unfold q. destruct (i =? 0) eqn:E; auto. apply Nat.eqb_neq in E. apply Hlt. lia. }
          split; [lia|]. split; [exact Hq|]. split; [|split; [|split]].
          -- intros a b Hab Hb. unfold q. assert ((b =? 0) = false) as Eb by (apply Nat.eqb_neq; lia). rewrite Eb. destruct (a =? 0) eqn:Ea.
             ++ destruct (Nat.eq_dec (j + b - 1) k) as [E2|E2]; [rewrite E2; auto|]. intros E. symmetry in E. revert E. apply Hne. lia.
             ++ apply Nat.eqb_neq in Ea. apply Hdist; lia.
          -- intros i Hi. unfold q. assert ((i + 1 =? 0) = false) as -> by (apply Nat.eqb_neq; lia). destruct (i =? 0) eqn:Ei.
             ++ apply Nat.eqb_eq in Ei. subst i. replace (j + (0 + 1) - 1) with j by lia. exact HPj.
             ++ apply Nat.eqb_neq in Ei. replace (j + (i + 1) - 1) with ((j + i - 1) + 1) by lia. apply Hedge. lia.
          -- intros a b Hab Hb. unfold q. assert ((b =? 0) = false) as Eb by (apply Nat.eqb_neq; lia). rewrite Eb. destruct (a =? 0) eqn:Ea.
             ++ apply Nat.eqb_eq in Ea. subst a. destruct (Nat.eq_dec (j + b - 1) k) as [E2|E2]; [rewrite E2; auto|]. apply (Hlast (j + b - 1)); lia.
             ++ apply Nat.eqb_neq in Ea. apply Hchord; lia.
          -- intros i Hi Hi2. unfold q. cbn [Nat.eqb]. assert ((i =? 0) = false) as -> by (apply Nat.eqb_neq; lia).
             assert ((k - j + 1 =? 0) = false) as -> by (apply Nat.eqb_neq; lia). replace (j + (k - j + 1) - 1) with k by lia.
             destruct (Nat.eq_dec (j + i - 1) 0) as [E|E]; [rewrite E; lia|]. pose proof (Hlow (j + i - 1) ltac:(lia) ltac:(lia)). lia. }
  intros k p Hd HL. destruct HL as (Hk & Hlt & Hdist & Hedge & Hchord & Hlow).
  destruct (Nat.lt_trichotomy (p 0) (p k)) as [H|[H|H]].
  - apply (Main k p); auto. exact (conj Hk (conj Hlt (conj Hdist (conj Hedge (conj Hchord Hlow))))).
  - apply (Hdist 0 k); auto; lia.
  - apply (Main k (fun i => p (k - i))).
    + rewrite Nat.sub_0_r, Nat.sub_diag. lia.
    + rewrite Nat.sub_0_r, Nat.sub_diag. auto.
    + split; auto. split; [intros; apply Hlt; lia|]. split; [|split; [|split]].
      * intros i j Hij Hj E. apply (Hdist (k - j) (k - i)); auto; lia.
      * intros i Hi. apply HS; [apply Hlt; lia|apply Hlt; lia|]. replace (k - i) with ((k - (i + 1)) + 1) by lia. apply Hedge. lia.
      * intros i j Hij Hj HA. apply (Hchord (k - j) (k - i)); [lia|lia|]. apply HS; auto; apply Hlt; lia.
      * intros i Hi Hi2. rewrite Nat.sub_0_r, Nat.sub_diag. destruct (Hlow (k - i)); lia.
Qed.

Lemma greedy_perfect : forall G n order, undirected G n -> chordal G n -> vertex_order n order -> greedy G n order -> perfect_order G order.
Proof.
  intros G n order HU HC HV HG a b c Hab Hbc Hc H1 H2.
  destruct (adjacent_dec G (nth b order 0) (nth c order 0)) as [|Hn]; auto. exfalso.
  assert (forall a b, a < length order -> b < length order -> adjacent G (nth a order 0) (nth b order 0) -> adjacent G (nth b order 0) (nth a order 0)) as HS.
  { intros x y Hx Hy. apply (adjacent_sym G n); auto; apply (order_lt n order); auto. }
  apply (no_low_path G n order HU HC HV HG (length order) 2 (fun i => match i with 0 => b | 1 => a | _ => c end)); [lia|].
  split; [lia|]. split; [|split; [|split; [|split]]].
  - intros [|[|[|]]]; lia.
  - intros [|[|[|]]] [|[|[|]]]; lia.
  - intros [|[|]] Hi; cbn [Nat.add]; auto; [|lia]. apply HS; auto; lia.
  - intros i j Hij Hj. destruct i as [|i]; [|lia]. destruct j as [|[|[|j]]]; try lia. auto.
  - intros [|[|]]; lia.
Qed.

(** A graph with a perfect order is chordal. *)
Lemma first_index : forall (f : nat -> nat) k, 0 < k -> exists m, m < k /\ forall i, i < k -> f m <= f i.
Proof.
  intros f k. induction k as [|k IH]; intros Hk; [lia|]. destruct (Nat.eq_dec k 0) as [->|Hn].
  - exists 0. split; [lia|]. intros i Hi. replace i with 0 by lia. auto.
  - destruct IH as (m & Hm & H); [lia|]. destruct (le_lt_dec (f m) (f k)).
    + exists m. split; [lia|]. intros i Hi. destruct (Nat.eq_dec i k); [subst; auto|]. apply H; lia.
    + exists k. split; [lia|]. intros i Hi. destruct (Nat.eq_dec i k); [subst; auto|]. specialize (H i ltac:(lia)). lia.
Qed.
Fixpoint position (l : list nat) (x : nat) : nat :=
  match l with [] => 0 | y :: t => if y =? x then 0 else S (position t x) end.
Lemma position_ok : forall l x, In x l -> position l x < length l /\ nth (position l x) l 0 = x.
Proof.
  induction l as [|y l IH]; intros x Hx; [destruct Hx|]. cbn [position]. destruct (Nat.eqb_spec y x) as [->|Hn].
  - cbn. split; [lia|auto].
  - destruct Hx as [->|Hx]; [congruence|]. apply IH in Hx as [H1 H2]. cbn [length nth]. split; [lia|auto].
Qed.

Lemma perfect_chordal : forall G n order, undirected G n -> vertex_order n order -> perfect_order G order -> chordal G n.
Proof.
  intros G n order HU HV HP k c Hk (HB & Hdist & Hedge).
  set (pos := fun i => position order (c i)).
  assert (forall i, i < k -> pos i < length order /\ nth (pos i) order 0 = c i) as Hpos.
  { intros i Hi. apply position_ok. apply Permutation_in with (seq 0 n); [apply Permutation_sym; auto|]. apply in_seq. specialize (HB i Hi). lia. }
  destruct (first_index pos k) as (m & Hm & Hmin); [lia|].
  assert (forall i, i < k -> i <> m -> pos m < pos i) as Hlt.
  { intros i Hi Hn. specialize (Hmin i Hi). destruct (Nat.eq_dec (pos m) (pos i)) as [E|E]; [|lia]. exfalso.
    assert (c m = c i) as Ec by (rewrite <- (proj2 (Hpos m Hm)), <- (proj2 (Hpos i Hi)), E; auto).
    destruct (Nat.lt_trichotomy i m) as [H|[H|H]]; [|lia|].
    - apply (Hdist i m); auto.
    - apply (Hdist m i); auto. }
  assert (forall i, i < k -> i + 1 < k -> adjacent G (c i) (c (i + 1))) as He1.
  { intros i Hi Hi2. specialize (Hedge i Hi). rewrite Nat.mod_small in Hedge by auto. auto. }
  assert (adjacent G (c (k - 1)) (c 0)) as He2.
  { specialize (Hedge (k - 1) ltac:(lia)). replace (k - 1 + 1) with k in Hedge by lia. rewrite Nat.mod_same in Hedge by lia. auto. }
  assert (forall i j, i < k -> j < k -> i <> m -> j <> m -> i <> j -> adjacent G (c m) (c i) -> adjacent G (c m) (c j) -> adjacent G (c i) (c j)) as Key.
  { assert (forall i j, i < k -> j < k -> i <> m -> j <> m -> pos i < pos j -> adjacent G (c m) (c i) -> adjacent G (c m) (c j) -> adjacent G (c i) (c j)) as K.
    { intros i j Hi Hj Hi2 Hj2 Hij A1 A2. rewrite <- (proj2 (Hpos i Hi)), <- (proj2 (Hpos j Hj)). rewrite <- (proj2 (Hpos m Hm)) in A1, A2.
      rewrite <- (proj2 (Hpos i Hi)) in A1. rewrite <- (proj2 (Hpos j Hj)) in A2. apply (HP (pos m)); auto; apply Hpos; auto. }
    intros i j Hi Hj Hi2 Hj2 Hij A1 A2. destruct (Nat.lt_trichotomy (pos i) (pos j)) as [H|[H|H]]; [apply K; auto| |].
    - exfalso. assert (c i = c j) as Ec by (rewrite <- (proj2 (Hpos i Hi)), <- (proj2 (Hpos j Hj)), H; auto).
      destruct (Nat.lt_trichotomy i j) as [H'|[H'|H']]; [|lia|].
      + apply (Hdist i j); auto.
      + apply (Hdist j i); auto.
    - apply (adjacent_sym G n); auto. }
  assert (forall i j, i < k -> j < k -> adjacent G (c i) (c j) -> adjacent G (c j) (c i)) as HS by (intros i j Hi Hj; apply (adjacent_sym G n); auto).
  destruct (Nat.eq_dec m 0) as [->|Hm0]; [|destruct (Nat.eq_dec m (k - 1)) as [->|Hmk]].
  - exists 1, (k - 1). split; [lia|]. split; [lia|]. split; [lia|]. split; [lia|].
    apply Key; try lia; [apply (He1 0); lia|]. apply HS; auto; lia.
  - exists 0, (k - 2). split; [lia|]. split; [lia|]. split; [lia|]. split; [lia|].
    apply Key; try lia; auto. apply HS; try lia. replace (k - 1) with (k - 2 + 1) by lia. apply He1; lia.
  - exists (m - 1), (m + 1). split; [lia|]. split; [lia|]. split; [lia|]. split; [lia|].
    apply Key; try lia; [|apply He1; lia]. apply HS; try lia. replace m with (m - 1 + 1) at 2 by lia. apply He1; lia.
Qed.
