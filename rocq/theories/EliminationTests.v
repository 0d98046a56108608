(** The tests of EliminationModel against the specification. *)
From Coq Require Import List Arith ZArith Bool Lia Permutation.
From Verif Require Import Base BaseFacts EliminationModel Spec_Elimination EliminationProofs EliminationChordal.
Import ListNotations.

Lemma zsum_bound : forall f c l, (forall i, In i l -> (f i <= c)%Z) ->
  (zsum f l <= c * Z.of_nat (length l))%Z /\ (zsum f l = c * Z.of_nat (length l) <-> forall i, In i l -> f i = c)%Z.
Proof.
  intros f c l. induction l as [|x l IH]; intros H.
  - cbn. split; [lia|]. split; [intros _ i []|lia].
  - destruct IH as [H1 H2]. { intros; apply H; right; auto. } pose proof (H x (or_introl eq_refl)) as Hx.
    cbn [zsum fold_right length]. fold (zsum f l). rewrite Nat2Z.inj_succ. split; [lia|]. split.
    + intros E. assert (f x = c /\ zsum f l = c * Z.of_nat (length l))%Z as [E1 E2] by lia. intros i [<-|Hi]; auto. apply H2; auto.
    + intros E. rewrite (E x) by (left; auto). assert (zsum f l = c * Z.of_nat (length l))%Z; [|lia]. apply H2. intros; apply E; right; auto.
Qed.

Lemma kept_in : forall A N node a, node < N -> (In a (kept_indices A N node) <-> node + a < N /\ A node (node + a) <> 0%Z).
Proof.
  intros A N node a Hn. unfold kept_indices. rewrite filter_In, in_seq, negb_true_iff, Z.eqb_neq.
  split; intros [H1 H2]; split; auto; lia.
Qed.

Lemma complete_submat_ok : forall A N node, zero_one A N -> node < N ->
  complete_submat A N node = true <->
  (forall a b, node <= a < N -> node <= b < N -> a <> b -> A node a <> 0%Z -> A node b <> 0%Z -> A a b <> 0%Z).
Proof.
  intros A N node HZ Hn. unfold complete_submat. set (keep := kept_indices A N node). set (m := length keep).
  assert (forall i, i < m -> node + nth i keep 0 < N /\ A node (node + nth i keep 0) <> 0%Z) as HK.
  { intros i Hi. apply kept_in; auto. apply nth_In. auto. }
  assert (forall i j, i < m -> j < m -> (submat A N node i j * submat A N node i j <= 1)%Z /\
            ((submat A N node i j * submat A N node i j = 1)%Z <-> i = j \/ A (node + nth i keep 0) (node + nth j keep 0) <> 0%Z)) as HE.
  { intros i j Hi Hj. unfold submat. fold keep. destruct (Nat.eqb_spec i j) as [E|E]; [split; [lia|split; auto]|].
    destruct (HZ (node + nth i keep 0) (node + nth j keep 0)) as [->| ->]; [apply HK; auto|apply HK; auto| |]; split; try lia; split; try lia; intros [?|?]; try contradiction; congruence. }
  assert (forall i, i < m -> (zsum (fun j => submat A N node i j * submat A N node i j)%Z (seq 0 m) <= Z.of_nat m)%Z /\
     ((zsum (fun j => submat A N node i j * submat A N node i j)%Z (seq 0 m) = Z.of_nat m)%Z <->
      forall j, j < m -> i = j \/ A (node + nth i keep 0) (node + nth j keep 0) <> 0%Z)) as HI.
  { intros i Hi. destruct (zsum_bound (fun j => submat A N node i j * submat A N node i j)%Z 1 (seq 0 m)) as [H1 H2].
    { intros j Hj. apply in_seq in Hj. apply HE; auto; lia. }
    rewrite seq_length, Z.mul_1_l in H1, H2. split; auto. rewrite H2. split.
    - intros H j Hj. apply HE; auto. apply H. apply in_seq; lia.
    - intros H j Hj. apply in_seq in Hj. apply HE; auto; [lia|]. apply H; lia. }
  destruct (zsum_bound (fun i => zsum (fun j => submat A N node i j * submat A N node i j)%Z (seq 0 m)) (Z.of_nat m) (seq 0 m)) as [_ H2].
  { intros i Hi. apply in_seq in Hi. apply HI; lia. }
  rewrite seq_length in H2. rewrite Z.eqb_eq.
  transitivity (zsum (fun i => zsum (fun j => submat A N node i j * submat A N node i j)%Z (seq 0 m)) (seq 0 m) = Z.of_nat m * Z.of_nat m)%Z; [lia|].
  rewrite H2. split.
  - intros H a b Ha Hb Hab Ea Eb.
    assert (In (a - node) keep) as Ia by (apply kept_in; auto; replace (node + (a - node)) with a by lia; split; auto; lia).
    assert (In (b - node) keep) as Ib by (apply kept_in; auto; replace (node + (b - node)) with b by lia; split; auto; lia).
    apply In_nth with (d := 0) in Ia as (i & Hi & Ei). apply In_nth with (d := 0) in Ib as (j & Hj & Ej).
    destruct (proj1 (proj2 (HI i Hi)) (H i ltac:(apply in_seq; lia)) j Hj) as [E|E].
    + subst j. exfalso. rewrite Ei in Ej. lia.
    + rewrite Ei, Ej in E. replace (node + (a - node)) with a in E by lia. replace (node + (b - node)) with b in E by lia. auto.
  - intros H i Hi. apply in_seq in Hi. apply HI; [lia|]. intros j Hj. destruct (Nat.eq_dec i j) as [E|E]; [left; auto|right].
    destruct (HK i ltac:(lia)) as [K1 K2]. destruct (HK j Hj) as [K3 K4]. apply H; auto; try lia.
    assert (nth i keep 0 <> nth j keep 0); [|lia]. intros E2. apply E. apply (NoDup_nth keep 0); auto; [|fold m; lia].
    apply NoDup_filter, seq_NoDup.
Qed.

Lemma forallb_fold : forall (f : nat -> bool) l b, fold_left (fun pass i => pass && f i) l b = b && forallb f l.
Proof. intros f l. induction l as [|x l IH]; intros b; cbn; [rewrite andb_true_r; auto|]. rewrite IH, andb_assoc. auto. Qed.

(** Cliques of later neighbours are the perfect order condition. *)
Lemma perfect_cliques : forall G n order, undirected G n -> vertex_order n order ->
  (perfect_order G order <->
   forall node, node < n -> forall a b, node <= a < n -> node <= b < n -> a <> b ->
     permuted G order node a <> 0%Z -> permuted G order node b <> 0%Z -> permuted G order a b <> 0%Z).
Proof.
  intros G n order HU HV. pose proof (order_length _ _ HV) as HL. unfold permuted. split.
  - intros HP node Hn a b Ha Hb Hab Ea Eb.
    assert (forall x, x < n -> nth x order 0 < n) as HB by (intros; apply (order_lt n order); auto; lia).
    assert (forall x y, x < n -> y < n -> x <> y -> nth x order 0 <> nth y order 0) as HD.
    { intros x y Hx Hy Hn2 E. apply Hn2. apply (order_inj n order); auto; lia. }
    destruct (Nat.eq_dec a node) as [->|Na]; auto. destruct (Nat.eq_dec b node) as [->|Nb]; [apply HU; auto; apply HB; lia|].
    assert (forall x y, node < x -> x < y -> y < n -> G (nth node order 0) (nth x order 0) <> 0%Z -> G (nth node order 0) (nth y order 0) <> 0%Z ->
              G (nth x order 0) (nth y order 0) <> 0%Z) as K.
    { intros x y Hx Hxy Hy E1 E2. apply (HP node x y); auto; [lia| |]; split; auto; apply HD; lia. }
    destruct (Nat.lt_trichotomy a b) as [H|[H|H]]; [apply K; auto; lia|lia|]. apply HU; [apply HB; lia|apply HB; lia|apply K; auto; lia].
  - intros H a b c Hab Hbc Hc [_ H1] [_ H2]. split.
    + intros E. apply (order_inj n order) in E; auto; lia.
    + apply (H a); auto; lia.
Qed.

Lemma undirected_norm : forall G n, undirected G n -> undirected (fun i j => if (G i j =? 0)%Z then 0%Z else 1%Z) n.
Proof.
  intros G n HU i j Hi Hj H. destruct (Z.eqb_spec (G i j) 0) as [E|E]; [contradiction|].
  destruct (Z.eqb_spec (G j i) 0) as [E2|E2]; [|lia]. exfalso. revert E2. apply HU; auto.
Qed.
Lemma seq_order : forall n, vertex_order n (seq 0 n).
Proof. intros. apply Permutation_refl. Qed.

Lemma is_perfectly_ordered_ok : forall G n, undirected G n -> (IsPerfectlyOrdered G n = true <-> perfect_order G (seq 0 n)).
Proof.
  intros G n HU. unfold IsPerfectlyOrdered. rewrite forallb_fold. cbn [andb]. set (G1 := fun i j => if (G i j =? 0)%Z then 0%Z else 1%Z).
  assert (zero_one G1 n) as HZ. { intros i j _ _. unfold G1. destruct (_ =? _)%Z; auto. }
  assert (forall i j, G1 i j <> 0%Z <-> G i j <> 0%Z) as HG. { intros i j. unfold G1. destruct (Z.eqb_spec (G i j) 0); split; intros; try lia. }
  rewrite (perfect_cliques G n (seq 0 n) HU (seq_order n)). rewrite forallb_forall. unfold permuted. split.
  - intros H node Hn a b Ha Hb Hab. rewrite !seq_nth by lia. cbn [Nat.add]. rewrite <- !HG.
    apply (complete_submat_ok G1 n node HZ Hn); auto. apply H. apply in_seq; lia.
  - intros H node Hn. apply in_seq in Hn. apply complete_submat_ok; auto; [lia|]. intros a b Ha Hb Hab. rewrite !HG.
    specialize (H node ltac:(lia) a b Ha Hb Hab). rewrite !seq_nth in H by lia. exact H.
Qed.

Lemma chordal_loop_forallb : forall Gp n l, chordal_loop Gp n false l = Ok (forallb (complete_submat Gp n) l, None).
Proof. intros Gp n. induction l as [|i l IH]; cbn [chordal_loop forallb]; auto. destruct (complete_submat Gp n i); auto. Qed.

Lemma is_chordal_ok : forall G n, n <> 0 -> undirected G n -> zero_one G n ->
  exists b order, IsChordal G n = Ok b /\ vertex_order n order /\ greedy G n order /\ (b = true <-> perfect_order G order).
Proof.
  intros G n Hn HU HZ. destruct (find_order_ok G n 0) as (order & E & HV & HG & _); [lia|].
  exists (forallb (complete_submat (permuted G order) n) (seq 0 n)), order. split; [|split; [|split]]; auto.
  - unfold IsChordal, IsChordal_path. rewrite E. cbn [bind]. rewrite chordal_loop_forallb. reflexivity.
  - assert (zero_one (permuted G order) n) as HZ'. { intros i j Hi Hj. apply HZ; apply (order_lt n order); auto; rewrite (order_length n order); auto. }
    rewrite forallb_forall, (perfect_cliques G n order HU HV). split.
    + intros H node Hnode. apply complete_submat_ok; auto. apply H. apply in_seq; lia.
    + intros H node Hnode. apply in_seq in Hnode. apply complete_submat_ok; auto; [lia|]. apply H; lia.
Qed.

(** ** Degrees *)

Lemma zsum_row : forall G n i, zsum (G i) (seq 0 n) = row_sum G n i.
Proof. intros. unfold zsum, row_sum. induction (seq 0 n); cbn; congruence. Qed.

Lemma max_vertex_gen : forall (f : nat -> Z) l a m, m = f a ->
  let r := fold_left (fun acc i => let '(argmax, max) := (acc : nat * Z) in if (max <? f i)%Z then (i, f i) else (argmax, max)) l (a, m) in
  (fst r = a \/ In (fst r) l) /\ snd r = f (fst r) /\ (m <= snd r)%Z /\ forall i, In i l -> (f i <= f (fst r))%Z.
Proof.
  intros f l. induction l as [|x l IH]; intros a m Hm; cbn [fold_left].
  - cbn. repeat split; auto; try lia.
  - destruct (Z.ltb_spec m (f x)) as [H|H].
    + destruct (IH x (f x) eq_refl) as (H1 & H2 & H3 & H4). cbn zeta in *. split; [|split; [auto|split; [lia|]]].
      * right. destruct H1 as [->|H1]; [left; auto|right; auto].
      * intros i [<-|Hi]; auto. rewrite <- H2. auto.
    + destruct (IH a m Hm) as (H1 & H2 & H3 & H4). cbn zeta in *. split; [|split; [auto|split; [lia|]]].
      * destruct H1; auto. right; right; auto.
      * intros i [<-|Hi]; auto. lia.
Qed.
Lemma max_degree_ok : forall G n, n <> 0 -> exists v, MaxDegreeVertex G n = Ok v /\ v < n /\
  forall i, i < n -> (row_sum G n i - G i i <= row_sum G n v - G v v)%Z.
Proof.
  intros G n Hn. destruct (max_degree_lt G n Hn) as (v & E & Hv). exists v. split; auto. split; auto.
  unfold MaxDegreeVertex in E. destruct (n =? 0) eqn:E0; [discriminate|]. injection E as E.
  destruct (max_vertex_gen (Degree G n) (seq 1 (n - 1)) 0 _ eq_refl) as (_ & H2 & H3 & H4). cbn zeta in *. rewrite E in *.
  intros i Hi. unfold Degree in *. rewrite zsum_row in *. specialize (H4 i). rewrite !zsum_row in *. destruct (Nat.eq_dec i 0) as [->|Hi0].
  - rewrite H2 in H3. auto.
  - apply H4. apply in_seq. lia.
Qed.

Lemma max_vertices_gen : forall (f : nat -> Z) k,
  let r := fold_left (fun acc i => let '(argmax, max) := (acc : list nat * Z) in
                  if (max <=? f i)%Z then ((if (max <? f i)%Z then [] else argmax) ++ [i], f i) else (argmax, max)) (seq 1 k) ([], f 0) in
  (exists i, i <= k /\ snd r = f i) /\ (forall i, i <= k -> (f i <= snd r)%Z) /\
  (forall i, In i (fst r) <-> 1 <= i <= k /\ f i = snd r).
Proof.
  intros f. induction k as [|k IH]; cbn zeta.
  - cbn. split; [exists 0; auto|]. split; [intros i Hi; replace i with 0 by lia; lia|]. intros i. split; [intros []|lia].
  - rewrite seq_S, fold_left_app. cbn [fold_left]. cbn zeta in IH. destruct (fold_left _ (seq 1 k) _) as [argmax max]. cbn [fst snd] in IH.
    destruct IH as ((i0 & Hi0 & E0) & H1 & H2). replace (1 + k) with (S k) by lia.
    destruct (Z.leb_spec max (f (S k))) as [H|H]; cbn [fst snd].
    + split; [exists (S k); auto|]. split.
      * intros i Hi. destruct (Nat.eq_dec i (S k)) as [->|Hn]; [lia|]. specialize (H1 i ltac:(lia)). lia.
      * intros i. rewrite in_app_iff. cbn [In]. destruct (Z.ltb_spec max (f (S k))) as [Hl|Hl].
        -- cbn [In]. split.
           ++ intros [[]|[<-|[]]]. split; [lia|auto].
           ++ intros [Hi E]. right. left. destruct (Nat.eq_dec i (S k)); auto. specialize (H1 i ltac:(lia)). lia.
        -- assert (max = f (S k)) by lia. rewrite H2. split.
           ++ intros [[Hi E]|[<-|[]]]; [split; [lia|congruence]|split; [lia|auto]].
           ++ intros [Hi E]. destruct (Nat.eq_dec i (S k)); auto. left. split; [lia|congruence].
    + split; [exists i0; split; [lia|auto]|]. split.
      * intros i Hi. destruct (Nat.eq_dec i (S k)) as [->|Hn]; [lia|]. apply H1; lia.
      * intros i. rewrite H2. split; intros [Hi E]; split; auto; try lia. destruct (Nat.eq_dec i (S k)); [subst; lia|lia].
Qed.
Lemma max_vertices_ok : forall G n, n <> 0 -> exists l, MaximumDegreeVertices G n = Ok l /\
  forall i, In i l <-> 1 <= i < n /\ forall j, j < n -> (row_sum G n j <= row_sum G n i)%Z.
Proof.
  intros G n Hn. unfold MaximumDegreeVertices. destruct (Nat.eqb_spec n 0); [lia|]. eexists. split; [reflexivity|].
  destruct (max_vertices_gen (fun i => zsum (G i) (seq 0 n)) (n - 1)) as ((i0 & Hi0 & E0) & H1 & H2). cbn zeta in *.
  intros i. rewrite H2. setoid_rewrite <- zsum_row. split.
  - intros [Hi E]. split; [lia|]. intros j Hj. rewrite E. apply H1. lia.
  - intros [Hi E]. split; [lia|]. pose proof (H1 i ltac:(lia)). pose proof (E i0 ltac:(lia)). cbn beta in *. lia.
Qed.
