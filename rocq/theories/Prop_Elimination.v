(** Property C46: elimination orderings and the chordality test. *)
From Coq Require Import List Arith ZArith Bool Lia Permutation.
From Verif Require Import Base EliminationModel Spec_Elimination EliminationProofs EliminationChordal EliminationTests.
Import ListNotations.

(** The ordering is a permutation that ends in a vertex of maximal degree, and it
    is perfect for every chordal graph, whatever the weights. *)
Theorem C46_ordering : forall G n, n <> 0 ->
  exists order v, EliminationOrdering G n = Ok (order ++ [v]) /\ vertex_order n (order ++ [v]) /\
    (forall i, i < n -> (row_sum G n i - G i i <= row_sum G n v - G v v)%Z) /\
    (undirected G n -> chordal G n -> perfect_order G (order ++ [v])).
Proof.
  intros G n Hn. destruct (max_degree_ok G n Hn) as (v & E & Hv & Hmax).
  destruct (find_order_ok G n v Hv) as (order & EO & HV & HG & (l & ->)). exists l, v. split; [|split; [|split]]; auto.
  - unfold EliminationOrdering, FindOrder. rewrite E. exact EO.
  - intros HU HC. apply (greedy_perfect G n); auto.
Qed.

(** On the empty graph the code writes before the start of a vector. *)
Theorem C46_empty_refuted : exists G, EliminationOrdering G 0 = UB /\ IsChordal G 0 = UB.
Proof. exists (fun _ _ => 0%Z). split; reflexivity. Qed.

Theorem C46_perfect_test : forall G n, undirected G n -> (IsPerfectlyOrdered G n = true <-> perfect_order G (seq 0 n)).
Proof. exact is_perfectly_ordered_ok. Qed.

(** For symmetric 0/1 matrices the test decides chordality, and a graph is chordal
    exactly if it has a perfect elimination ordering. *)
Theorem C46_chordal_test : forall G n, n <> 0 -> undirected G n -> zero_one G n ->
  exists b, IsChordal G n = Ok b /\ (b = true <-> chordal G n) /\
            (b = true <-> exists order, vertex_order n order /\ perfect_order G order).
Proof.
  intros G n Hn HU HZ. destruct (is_chordal_ok G n Hn HU HZ) as (b & order & E & HV & HG & HB). exists b. split; auto.
  assert (chordal G n -> b = true) as H1. { intros HC. apply HB. apply (greedy_perfect G n); auto. }
  assert (b = true -> chordal G n) as H2. { intros Hb. apply (perfect_chordal G n order); auto. apply HB; auto. }
  split; [split; auto|]. split.
  - intros Hb. exists order. split; auto. apply HB; auto.
  - intros (o & HV' & HP). apply H1. apply (perfect_chordal G n o); auto.
Qed.

(** ** Weighted matrices *)

Definition table (rows : list (list Z)) : zmatrix := fun i j => nth j (nth i rows []) 0%Z.

(** A triangle with weights 2 is rejected. *)
Theorem C46_weighted_reject_refuted : exists G n, undirected G n /\ IsChordal G n = Ok false /\ chordal G n.
Proof.
  exists (table [[0;2;2];[2;0;2];[2;2;0]]%Z), 3. assert (undirected (table [[0;2;2];[2;0;2];[2;2;0]]%Z) 3) as HU.
  { intros i j Hi Hj. destruct i as [|[|[|]]]; try lia; destruct j as [|[|[|]]]; try lia; cbn; lia. }
  split; auto. split; [reflexivity|]. apply (perfect_chordal _ 3 (seq 0 3)); auto; [apply seq_order|]. apply is_perfectly_ordered_ok; auto.
Qed.

(** A graph with the chordless cycle 0-1-2-5 is accepted. *)
Definition six : zmatrix := table
  [[0;1;0;0;0;1]; [1;0;2;2;3;0]; [0;2;0;2;1;1]; [0;2;2;0;1;1]; [0;3;1;1;0;1]; [1;0;1;1;1;0]]%Z.
Theorem C46_weighted_accept_refuted : exists G n, undirected G n /\ IsChordal G n = Ok true /\ ~ chordal G n.
Proof.
  exists six, 6. split; [|split; [reflexivity|]].
  - intros i j Hi Hj. destruct i as [|[|[|[|[|[|]]]]]]; try lia; destruct j as [|[|[|[|[|[|]]]]]]; try lia; cbn; lia.
  - intros H. destruct (H 4 (fun i => nth i [0; 1; 2; 5] 0)) as (i & j & H1 & H2 & H3 & H4 & H5).
    + lia.
    + split; [|split].
      * intros i Hi. destruct i as [|[|[|[|]]]]; cbn; lia.
      * intros i j Hi Hj. destruct i as [|[|[|[|]]]]; try lia; destruct j as [|[|[|[|]]]]; try lia; cbn; lia.
      * intros i Hi. destruct i as [|[|[|[|]]]]; try lia; split; cbn; lia.
    + destruct i as [|[|[|[|]]]]; try lia; destruct j as [|[|[|[|]]]]; try lia; destruct H5 as [_ H5]; apply H5; reflexivity.
Qed.

(** ** The extracted path *)

(** A 4-cycle 0-1-2-3 with the pendant vertex 4 at vertex 1, all diagonal entries
    1: the graph is rejected, but the extraction of the path reads out of bounds. *)
Definition pendant : zmatrix := table [[1;1;0;1;0]; [1;1;1;0;1]; [0;1;1;1;0]; [1;0;1;1;0]; [0;1;0;0;1]]%Z.
Theorem C46_path_refuted : exists G n, undirected G n /\ zero_one G n /\ (forall i, i < n -> G i i = 1%Z) /\
  IsChordal G n = Ok false /\ IsChordal_path G n true = UB.
Proof.
  exists pendant, 5. split; [|split; [|split; [|split; reflexivity]]].
  - intros i j Hi Hj. destruct i as [|[|[|[|[|]]]]]; try lia; destruct j as [|[|[|[|[|]]]]]; try lia; cbn; lia.
  - intros i j Hi Hj. destruct i as [|[|[|[|[|]]]]]; try lia; destruct j as [|[|[|[|[|]]]]]; try lia; cbn; auto.
  - intros i Hi. destruct i as [|[|[|[|[|]]]]]; try lia; reflexivity.
Qed.

(** ** The maximum-degree query *)

(** It returns the vertices other than 0 whose row sum is maximal. *)
Theorem C46_max_degree : forall G n, n <> 0 -> exists l, MaximumDegreeVertices G n = Ok l /\
  forall i, In i l <-> 1 <= i < n /\ forall j, j < n -> (row_sum G n j <= row_sum G n i)%Z.
Proof. exact max_vertices_ok. Qed.

(** In a star the centre 0 is the vertex of maximal degree and is not returned. *)
Theorem C46_vertex_zero_refuted : exists G n, undirected G n /\ (forall i, 0 < i < n -> (row_sum G n i < row_sum G n 0)%Z) /\
  MaximumDegreeVertices G n = Ok [].
Proof.
  exists (table [[0;1;1];[1;0;0];[1;0;0]]%Z), 3. split; [|split; [|reflexivity]].
  - intros i j Hi Hj. destruct i as [|[|[|]]]; try lia; destruct j as [|[|[|]]]; try lia; cbn; lia.
  - intros i Hi. destruct i as [|[|[|]]]; try lia; cbn; lia.
Qed.

(** ** Examples *)

(** Two triangles that share the edge 1-2, and a 4-cycle. *)
Definition diamond : zmatrix := table [[0;1;1;0];[1;0;1;1];[1;1;0;1];[0;1;1;0]]%Z.
Definition square4 : zmatrix := table [[0;1;0;1];[1;0;1;0];[0;1;0;1];[1;0;1;0]]%Z.
Lemma diamond_ok : undirected diamond 4 /\ zero_one diamond 4.
Proof. split; intros i j Hi Hj; destruct i as [|[|[|[|]]]]; try lia; destruct j as [|[|[|[|]]]]; try lia; cbn; auto; lia. Qed.
Lemma square4_ok : undirected square4 4 /\ zero_one square4 4.
Proof. split; intros i j Hi Hj; destruct i as [|[|[|[|]]]]; try lia; destruct j as [|[|[|[|]]]]; try lia; cbn; auto; lia. Qed.
Example C46_chordal_example : undirected diamond 4 /\ zero_one diamond 4 /\ IsChordal diamond 4 = Ok true /\
  IsPerfectlyOrdered diamond 4 = true /\ EliminationOrdering diamond 4 = Ok [0; 2; 3; 1].
Proof. destruct diamond_ok as [HU HZ]. exact (conj HU (conj HZ (conj eq_refl (conj eq_refl eq_refl)))). Qed.
Example C46_not_chordal_example : undirected square4 4 /\ zero_one square4 4 /\ IsChordal square4 4 = Ok false /\ ~ chordal square4 4.
Proof.
  destruct square4_ok as [HU HZ]. split; auto. split; auto. split; [reflexivity|]. intros HC.
  destruct (C46_chordal_test square4 4 ltac:(lia) HU HZ) as (b & E & Hb & _). apply Hb in HC. subst b. discriminate.
Qed.
Example C46_ordering_example : undirected diamond 4 /\ chordal diamond 4.
Proof.
  destruct diamond_ok as [HU HZ]. split; auto. destruct (C46_chordal_test diamond 4 ltac:(lia) HU HZ) as (b & E & Hb & _). apply Hb.
  vm_compute in E. congruence.
Qed.
Example C46_max_degree_example : MaximumDegreeVertices diamond 4 = Ok [1; 2].
Proof. reflexivity. Qed.

Print Assumptions C46_ordering.
Print Assumptions C46_empty_refuted.
Print Assumptions C46_perfect_test.
Print Assumptions C46_chordal_test.
Print Assumptions C46_weighted_reject_refuted.
Print Assumptions C46_weighted_accept_refuted.
Print Assumptions C46_path_refuted.
Print Assumptions C46_max_degree.
Print Assumptions C46_vertex_zero_refuted.
