(** Properties of the symbolic analysis (C01-C07, C17 core).  Statements use the
    vocabulary of Spec_Tree, Spec_Clique, Spec_Block and Spec_Assembly. *)
From Coq Require Import List Arith ZArith Lia Sorting.Sorted Permutation.
From Verif Require Import Base BaseFacts TreeModel CliqueModel SupernodeModel TriWorkspaceModel AssemblerModel
  Spec_Tree Spec_Clique Spec_Block Spec_Assembly SymbolicFacts.
Import ListNotations.

(** ** C01 *)
Theorem C01_tree_path : forall n par hei x y,
  forest n par hei -> x < n -> y < n -> same_tree par x y ->
  exists l z, PathInTree x y par hei = Ok (l ++ [z]) /\
    closest_common_ancestor par x y z /\ NoDup (l ++ [z]) /\
    (forall u, In u l <-> (ancestor par x u \/ ancestor par y u) /\ ancestor par u z /\ u <> z).
Proof. exact tree_path. Qed.
Print Assumptions C01_tree_path.

(** If [y] is an ancestor of [x], it is the last node returned. *)
Theorem C01_tree_path_ancestor : forall n par hei x y,
  forest n par hei -> x < n -> y < n -> ancestor par x y ->
  (exists l, PathInTree x y par hei = Ok (l ++ [y])) /\
  (exists l, PathInTree y x par hei = Ok (l ++ [y])).
Proof. exact tree_path_ancestor. Qed.
Print Assumptions C01_tree_path_ancestor.

(** Tree 0 <- 1 <- 3, 0 <- 2, and a second tree 4 <- 5. *)
Definition ex_par := [0; 0; 0; 1; 4; 4].
Definition ex_hei := [0; 1; 1; 2; 0; 1].
Example C01_example : forest 6 ex_par ex_hei /\ same_tree ex_par 3 2 /\
  PathInTree 3 2 ex_par ex_hei = Ok [3; 1; 2; 0].
Proof.
  split.
  - split; [reflexivity|]. split; [reflexivity|].
    intros e He. do 6 (destruct e as [|e]; [cbn; lia|]). lia.
  - split; [|reflexivity]. exists 0. split.
    + apply anc_step. cbn. apply anc_step. cbn. apply anc_refl.
    + apply anc_step. cbn. apply anc_refl.
Qed.

(** ** C02 *)
Theorem C02_clique_order : forall cliques valid_leaf root,
  (forall c, In c cliques -> StronglySorted lt c) ->
  valid_leaf = [] \/ length valid_leaf = length cliques ->
  cliques <> [] -> (root < Z.of_nat (length cliques))%Z ->
  exists order snodes seps t,
    GetCliqueEliminationOrder cliques valid_leaf root (RootedTree_init (length cliques))
      = Ok (order, snodes, seps, t) /\
    clique_tree cliques order (parent t) (height t).
Proof. exact clique_order. Qed.
Print Assumptions C02_clique_order.

(** A program with two components: cliques 0-2 form a path, 3 and 4 share
    variable 7, clique 5 is empty. *)
Definition ex_cliques := [[0;1;2]; [2;3]; [3;4]; [5;6;7]; [7;8]; []].
Lemma ex_sorted : forall c, In c ex_cliques -> StronglySorted lt c.
Proof.
  intros c Hc. cbn in Hc.
  repeat (destruct Hc as [<-|Hc]; [repeat constructor; lia|]). destruct Hc.
Qed.
Example C02_example :
  (forall c, In c ex_cliques -> StronglySorted lt c) /\
  exists sn sp t, GetCliqueEliminationOrder ex_cliques [] 0 (RootedTree_init 6) = Ok ([5; 4; 3; 2; 1; 0], sn, sp, t)
     /\ parent t = [0; 0; 1; 3; 3; 5].
Proof.
  split; [exact ex_sorted|]. eexists _, _, _. split; [vm_compute; reflexivity|reflexivity].
Qed.

(** ** C03 *)
Theorem C03_eliminated_once : forall cliques valid_leaf root,
  (forall c, In c cliques -> StronglySorted lt c) ->
  valid_leaf = [] \/ length valid_leaf = length cliques ->
  nth 0 cliques [] <> [] -> (root < Z.of_nat (length cliques))%Z ->
  exists order sn sep, PickCliqueOrder cliques valid_leaf root = Ok (order, sn, sep) /\
    length sn = length cliques /\ length sep = length cliques /\
    (* union of the supernodes = variables that occur *)
    (forall v, (exists e, e < length cliques /\ occurs cliques v e) <->
               (exists e, e < length cliques /\ In v (nth e sn []))) /\
    (* pairwise disjoint, duplicate free *)
    (forall v e e', In v (nth e sn []) -> In v (nth e' sn []) -> e = e') /\
    (forall e, NoDup (nth e sn [])) /\
    (* cliques are covered, supernode and separator are disjoint *)
    (forall v e, occurs cliques v e -> In v (nth e sn []) \/ In v (nth e sep [])) /\
    (forall v e, In v (nth e sn []) -> ~ In v (nth e sep [])).
Proof. exact eliminated_once. Qed.
Print Assumptions C03_eliminated_once.

Example C03_example :
  nth 0 ex_cliques [] <> [] /\
  PickCliqueOrder ex_cliques [] 0 =
    Ok ([5; 4; 3; 2; 1; 0], [[0;1;2]; [3]; [4]; [5;6;7]; [8]; []], [[]; [2]; [3]; []; [7]; []]).
Proof. split; [discriminate|vm_compute; reflexivity]. Qed.

(** ** C04 *)
Theorem C04_fill_in_closed : forall cliques valid_leaf root,
  (forall c, In c cliques -> StronglySorted lt c) ->
  valid_leaf = [] \/ length valid_leaf = length cliques ->
  nth 0 cliques [] <> [] -> (root < Z.of_nat (length cliques))%Z ->
  exists order sn sep, PickCliqueOrder cliques valid_leaf root = Ok (order, sn, sep) /\
    (* a separator variable is eliminated strictly later *)
    (forall e v, e < length cliques -> In v (nth e sep []) ->
       exists f, f < length cliques /\ In v (nth f sn []) /\ before order e f) /\
    (* all separator variables of [e] eliminated no earlier than [u] are in the
       columns of the clique [f] that eliminates [u] *)
    (forall e f g u v, e < length cliques ->
       In u (nth e sep []) -> In v (nth e sep []) ->
       In u (nth f sn []) -> In v (nth g sn []) -> f = g \/ before order f g ->
       In v (nth f sn []) \/ In v (nth f sep [])).
Proof. exact fill_in_closed. Qed.
Print Assumptions C04_fill_in_closed.

(** The lookup of a separator pair never throws and never reads outside the
    tables. *)
Theorem C04_lookup_total : forall cliques dual_vars,
  admissible cliques dual_vars ->
  exists d o bs, build cliques dual_vars = Ok (d, o, bs) /\
    forall k i j, k < length cliques ->
      let sep := skipn (nth k (d_supernode_size d) 0) (nth k (d_cliques d) []) in
      j <= i < length sep -> exists a, LookupAddress o (nth i sep 0) (nth j sep 0) = Ok a.
Proof. exact lookup_total. Qed.
Print Assumptions C04_lookup_total.

(** A cycle of four cliques needs fill-in. *)
Definition ex_cycle := [[0;1]; [1;2]; [2;3]; [0;3]].
Example C04_example :
  (forall c, In c ex_cycle -> StronglySorted lt c) /\
  PickCliqueOrder ex_cycle [] 0 =
    Ok ([2; 3; 1; 0], [[0;1;2]; []; []; [3]], [[]; [1;2]; [2;3]; [0;2]]) /\
  admissible ex_cycle [[]; []; []; []].
Proof.
  split; [|split; [vm_compute; reflexivity|]].
  - intros c Hc. cbn in Hc. repeat (destruct Hc as [<-|Hc]; [repeat constructor; lia|]). destruct Hc.
  - constructor; try discriminate; auto.
    + intros c Hc. cbn in Hc.
      repeat (destruct Hc as [<-|Hc]; [repeat constructor; cbn; lia|]). destruct Hc.
    + intros e He. cbn in He. exists (nth e ex_cycle []).
      do 4 (destruct e as [|e]; [reflexivity|]). lia.
Qed.

(** ** C05 *)
Theorem C05_permutation : forall cliques valid_leaf root n,
  (forall c, In c cliques -> NoDup c) ->
  valid_leaf = [] \/ length valid_leaf = length cliques ->
  nth 0 cliques [] <> [] -> (root < Z.of_nat (length cliques))%Z ->
  (forall v, v < n <-> covered cliques v) ->
  exists d, GetData cliques valid_leaf root = Ok d /\ d_N d = n /\
    Permutation (d_perm d) (seq 0 n) /\ Permutation (d_perm_inv d) (seq 0 n) /\
    (forall i, i < n -> nth (nth i (d_perm_inv d) 0) (d_perm d) 0 = i) /\
    (forall v, v < n -> nth (nth v (d_perm d) 0) (d_perm_inv d) 0 = v) /\
    (* supernode columns are consecutive, separators strictly increasing *)
    (forall k, k < length cliques -> exists sep,
       nth k (d_cliques d) [] = seq (offset (d_supernode_size d) k) (nth k (d_supernode_size d) 0) ++ sep /\
       StronglySorted lt sep /\ forall x, In x sep -> offset (d_supernode_size d) (S k) <= x < n).
Proof. exact permutation_bijection. Qed.
Print Assumptions C05_permutation.

Example C05_example :
  (forall c, In c [[3;0];[0;1];[1;2]] -> NoDup c) /\
  (forall v, v < 4 <-> covered [[3;0];[0;1];[1;2]] v) /\
  exists d, GetData [[3;0];[0;1];[1;2]] [] 0 = Ok d /\
    d_perm d = [2;1;0;3] /\ d_perm_inv d = [2;1;0;3].
Proof.
  split; [|split].
  - intros c Hc. cbn in Hc. repeat (destruct Hc as [<-|Hc]; [repeat constructor; cbn; lia|]). destruct Hc.
  - intros v. split.
    + intros Hv. destruct v as [|[|[|[|v]]]]; [exists [0;1]|exists [0;1]|exists [1;2]|exists [3;0]|lia]; cbn; tauto.
    + intros (c & Hc & Hv). cbn in Hc. repeat (destruct Hc as [<-|Hc]; [cbn in Hv; lia|]). destruct Hc.
  - eexists. split; [vm_compute; reflexivity|split; reflexivity].
Qed.

(** ** C06 *)
Theorem C06_analysis_succeeds : forall cliques dual_vars,
  (forall c, In c cliques -> NoDup c) ->
  nth 0 cliques [] <> [] -> length dual_vars = length cliques ->
  (forall e, length (nth e dual_vars []) <= length (nth e cliques [])) ->
  exists d o bs idx, build cliques dual_vars = Ok (d, o, bs) /\ Pt_indices d = Ok idx.
Proof. exact analysis_succeeds. Qed.
Print Assumptions C06_analysis_succeeds.

Theorem C06_empty_first_clique_throws : forall cliques dual_vars,
  (forall c, In c cliques -> NoDup c) ->
  cliques <> [] -> nth 0 cliques [] = [] -> length dual_vars = length cliques ->
  build cliques dual_vars = Throw.
Proof. exact empty_first_clique_throws. Qed.
Print Assumptions C06_empty_first_clique_throws.

Example C06_example : exists d o bs, build ex_cycle [[]; []; []; []] = Ok (d, o, bs).
Proof. eexists _, _, _. vm_compute. reflexivity. Qed.
Example C06_throw_example : build [[]; [0;1]] [[]; []] = Throw.
Proof. reflexivity. Qed.

(** ** C07 *)
(** Entry (r,c) is in the pattern: [c <= r] and [r] is a row of the block column
    that owns column [c]. *)
Theorem C07_storage : forall cliques dual_vars,
  admissible cliques dual_vars ->
  exists d o bs, build cliques dual_vars = Ok (d, o, bs) /\
    exists addr_of : nat -> nat -> addr,
    let pat r c := c <= r /\ exists k, k < length cliques /\ in_block (d_supernode_size d) k c /\
                                       stored_row (d_cliques d) k r in
    (* the address the code computes *)
    (forall r c, pat r c -> LookupAddress o r c = Ok (addr_of r c) /\
                            Get_addr o (d_cliques d) r c = Ok (Some (addr_of r c))) /\
    (forall r c, r < d_N d -> c <= r -> ~ pat r c -> Get_addr o (d_cliques d) r c = Ok None) /\
    (forall r c, pat r c -> addr_offset o (addr_of r c) < SizeOf_ws o) /\
    (forall r c r' c', pat r c -> pat r' c' ->
       addr_offset o (addr_of r c) = addr_offset o (addr_of r' c') -> r = r' /\ c = c').
Proof. exact storage. Qed.
Print Assumptions C07_storage.

Example C07_example : admissible ex_cycle [[]; []; []; []] /\
  exists d o bs, build ex_cycle [[]; []; []; []] = Ok (d, o, bs) /\ SizeOf_ws o = 20 /\
  (* rows of the block columns; block column 1 stores entry (3,0), fill-in *)
  d_cliques d = [[0; 3]; [0; 1; 3]; [2; 3]; [1; 2; 3]] /\ d_supernode_size d = [0; 1; 0; 3] /\
  addr_offset o (AOff 1 0 1) = 5 /\ LookupAddress o 3 0 = Ok (AOff 1 0 1).
Proof.
  split; [apply C04_example|].
  eexists _, _, _. split; [vm_compute; reflexivity|]. repeat split; vm_compute; reflexivity.
Qed.

(** ** C17, symbolic core: the dimension of the KKT solver is the number of
    variables that occur. *)
Theorem C17_dimension : forall cliques dual_vars,
  admissible cliques dual_vars ->
  exists d o bs, build cliques dual_vars = Ok (d, o, bs) /\
    (forall vars, NoDup vars -> (forall v, In v vars <-> covered cliques v) -> d_N d = length vars) /\
    (forall n, (forall v, covered cliques v -> v < n) ->
       (d_N d = n <-> forall v, v < n -> covered cliques v)).
Proof. exact kkt_dimension. Qed.
Print Assumptions C17_dimension.

(** Variables 0,1,3 occur, variable 2 does not: dimension 3, not 4. *)
Example C17_example : admissible [[0;1];[1;3]] [[]; []] /\
  exists d o bs, build [[0;1];[1;3]] [[]; []] = Ok (d, o, bs) /\ d_N d = 3.
Proof.
  split.
  - constructor; try discriminate; auto.
    + intros c Hc. cbn in Hc.
      repeat (destruct Hc as [<-|Hc]; [repeat constructor; cbn; lia|]). destruct Hc.
    + intros e He. cbn in He. exists (nth e [[0;1];[1;3]] []).
      do 2 (destruct e as [|e]; [reflexivity|]). lia.
  - eexists _, _, _. split; [vm_compute; reflexivity|reflexivity].
Qed.
