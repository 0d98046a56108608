(** Model of conex/clique_ordering.cc.  The optional [post_order_pointer]
    output (lines 242-257 and 319-332) is not modelled: the solver never asks
    for it. *)
From Coq Require Import List Arith ZArith Bool.
From Verif Require Import Base TreeModel.
Import ListNotations.

(** conex/clique_ordering.cc:16-26 (and the identical
    conex/supernodal_solver.cc:30-40). *)
Definition GetMax (cliques : list (list nat)) : res nat :=
  c0 <- at_ cliques 0 ;;
  m0 <- at_ c0 0 ;;
  Ok (fold_left (fun mx c => fold_left (fun m ci => if m <? ci then ci else m) c mx)
                cliques m0).

(** conex/clique_ordering.cc:28-34. *)
Definition LinearIndex (i j n : nat) : nat :=
  if j <? i then j * n + i else i * n + j.

(** conex/clique_ordering.cc:36-45; [None] stands for the return value -1. *)
Fixpoint GetUnvisited_from (x : list nat) (cnt : nat) : option nat :=
  match x with
  | [] => None
  | xi :: t => if xi =? 0 then Some cnt else GetUnvisited_from t (S cnt)
  end.
Definition GetUnvisited (x : list nat) : option nat := GetUnvisited_from x 0.

(** conex/clique_ordering.cc:47-59, [class SymmetricMatrix]: [n*n] entries,
    entry [(a,b)] and [(b,a)] share storage. *)
Record SymMat := mkSym { sm_n : nat; sm_data : list (list nat) }.
Definition SymMat_init (n : nat) : SymMat := mkSym n (repeat [] (n * n)).
Definition sm_get (m : SymMat) (a b : nat) : res (list nat) :=
  at_ (sm_data m) (LinearIndex a b (sm_n m)).
Definition sm_set (m : SymMat) (a b : nat) (v : list nat) : res SymMat :=
  d <- set_at (sm_data m) (LinearIndex a b (sm_n m)) v ;;
  Ok (mkSym (sm_n m) d).

(** conex/clique_ordering.cc:61-75. *)
Definition GetMaxWeightedDegreeNode (n : nat) (edges : list (nat * nat))
  (inter : SymMat) : res (list nat) :=
  foldM (fun w e =>
           s <- sm_get inter (fst e) (snd e) ;;
           w1 <- at_ w (fst e) ;;
           wa <- set_at w (fst e) (w1 + length s) ;;
           w2 <- at_ wa (snd e) ;;
           set_at wa (snd e) (w2 + length s))
        (repeat 0 n) edges.

(** [weight += 1e4], conex/clique_ordering.cc:101,104. *)
Definition leaf_penalty : nat := 100 * 100.

(** conex/clique_ordering.cc:92-108, [Weight::get_weight]; returns the weight
    and the updated cache.  [valid_leaf] holds 0/1 integers. *)
Definition get_weight (cliques : list (list nat)) (valid_leaf : list nat)
  (inter : SymMat) (active i : nat) : res (nat * SymMat) :=
  s0 <- sm_get inter active i ;;
  inter' <- (if length s0 =? 0 then
               ca <- at_ cliques active ;;
               ci <- at_ cliques i ;;
               sm_set inter active i (set_intersection ca ci)
             else Ok inter) ;;
  s <- sm_get inter' active i ;;
  if 0 <? length valid_leaf then
    vi <- at_ valid_leaf i ;;
    va <- at_ valid_leaf active ;;
    Ok (length s + (if vi =? 0 then leaf_penalty else 0)
                 + (if va =? 0 then leaf_penalty else 0), inter')
  else Ok (length s, inter').

(** Mutable state of [PickCliqueOrderHelper]. *)
Record hstate := mkH {
  h_order : list nat;
  h_visited : list nat;
  h_stack : list nat;              (* top of the stack first *)
  h_tree : RootedTree;
  h_seps : list (list nat);
  h_inter : SymMat;
  h_edges : list (nat * nat)
}.

(** conex/clique_ordering.cc:149-164: scan for the unvisited nodes of maximal
    weight.  State: cache, [max_weight], [argmax]. *)
Definition scan_step (cliques : list (list nat)) (valid_leaf visited : list nat)
  (active : nat) (st : SymMat * nat * list nat) (i : nat)
  : res (SymMat * nat * list nat) :=
  let '(inter, maxw, argmax) := st in
  if i =? active then Ok st
  else
    '(w, inter') <- get_weight cliques valid_leaf inter active i ;;
    if maxw <=? w then
      vi <- at_ visited i ;;
      if vi =? 0 then
        if maxw <? w then Ok (inter', w, [i])
        else Ok (inter', maxw, argmax ++ [i])
      else Ok (inter', maxw, argmax)
    else Ok (inter', maxw, argmax).

Definition scan (cliques : list (list nat)) (valid_leaf visited : list nat)
  (active : nat) (inter : SymMat) : res (SymMat * nat * list nat) :=
  foldM (scan_step cliques valid_leaf visited active) (inter, 1, [])
        (seq 0 (length cliques)).

(** conex/clique_ordering.cc:166-179: attach the selected nodes to [active];
    stops early after attaching a node that should not become a leaf. *)
Fixpoint attach (valid_leaf : list nat) (active : nat) (argmax : list nat)
  (st : hstate) : res hstate :=
  match argmax with
  | [] => Ok st
  | e :: rest =>
      s <- sm_get (h_inter st) active e ;;
      seps <- set_at (h_seps st) e s ;;
      vis <- set_at (h_visited st) e 1 ;;
      par <- set_at (parent (h_tree st)) e active ;;
      ha <- at_ (height (h_tree st)) active ;;
      hei <- set_at (height (h_tree st)) e (ha + 1) ;;
      let st' := mkH (h_order st ++ [e]) vis (e :: h_stack st)
                     (mkTree par hei) seps (h_inter st)
                     (h_edges st ++ [(active, e)]) in
      if 0 <? length valid_leaf then
        ve <- at_ valid_leaf e ;;
        if ve =? 0 then Ok st' else attach valid_leaf active rest st'
      else attach valid_leaf active rest st'
  end.

(** conex/clique_ordering.cc:141-146: a node that starts a new tree. *)
Definition visit_root (active : nat) (st : hstate) : res hstate :=
  va <- at_ (h_visited st) active ;;
  if va =? 0 then
    vis <- set_at (h_visited st) active 1 ;;
    par <- set_at (parent (h_tree st)) active active ;;
    hei <- set_at (height (h_tree st)) active 0 ;;
    Ok (mkH (h_order st ++ [active]) vis (h_stack st) (mkTree par hei)
            (h_seps st) (h_inter st) (h_edges st))
  else Ok st.

(** conex/clique_ordering.cc:138-192: the main loop.  The loop test is on the
    length of [order]; [node_stack.top()] on an empty stack is UB. *)
Fixpoint helper_loop (fuel : nat) (cliques : list (list nat))
  (valid_leaf : list nat) (st : hstate) : res hstate :=
  if length (h_order st) <? length cliques then
    match fuel with
    | 0 => Diverge
    | S fuel' =>
        match h_stack st with
        | [] => UB
        | active :: below =>
            st1 <- visit_root active st ;;
            '(inter, _, argmax) <-
               scan cliques valid_leaf (h_visited st1) active (h_inter st1) ;;
            st2 <- attach valid_leaf active argmax
                     (mkH (h_order st1) (h_visited st1) (h_stack st1)
                          (h_tree st1) (h_seps st1) inter (h_edges st1)) ;;
            if length argmax =? 0 then
              match below with
              | [] =>
                  match GetUnvisited (h_visited st2) with
                  | None => Ok (mkH (h_order st2) (h_visited st2) []
                                    (h_tree st2) (h_seps st2) (h_inter st2)
                                    (h_edges st2))
                  | Some node =>
                      helper_loop fuel' cliques valid_leaf
                        (mkH (h_order st2) (h_visited st2) [node] (h_tree st2)
                             (h_seps st2) (h_inter st2) (h_edges st2))
                  end
              | _ =>
                  helper_loop fuel' cliques valid_leaf
                    (mkH (h_order st2) (h_visited st2) below (h_tree st2)
                         (h_seps st2) (h_inter st2) (h_edges st2))
              end
            else helper_loop fuel' cliques valid_leaf st2
        end
    end
  else Ok st.

(** [std::max_element]: position of the first maximum. *)
Fixpoint argmax_from (l : list nat) (i best bestv : nat) : nat :=
  match l with
  | [] => best
  | a :: t => if bestv <? a then argmax_from t (S i) i a
              else argmax_from t (S i) best bestv
  end.
Definition max_element_index (l : list nat) : nat :=
  match l with [] => 0 | a :: t => argmax_from t 1 0 a end.

(** conex/clique_ordering.cc:111-201.  Returns (better root, order, separators,
    tree, cache).  The assertion on line 120 is compiled out.
    Simplification: the loop gets fuel [3*n+3], shown to be sufficient. *)
Definition PickCliqueOrderHelper (cliques : list (list nat))
  (valid_leaf : list nat) (root_in : Z) (inter : SymMat)
  (seps : list (list nat)) (tree : RootedTree)
  : res (nat * (list nat * list (list nat) * RootedTree * SymMat)) :=
  let n := length cliques in
  let root := if (root_in <? 0)%Z then 0 else Z.to_nat root_in in
  st <- helper_loop (3 * n + 3) cliques valid_leaf
          (mkH [] (repeat 0 n) [root] tree seps inter []) ;;
  w <- GetMaxWeightedDegreeNode n (h_edges st) (h_inter st) ;;
  Ok (max_element_index w,
      (rev (h_order st), h_seps st, h_tree st, h_inter st)).

(** conex/clique_ordering.cc:231-239, one supernode: the vector is resized to
    [|clique| - |separator|] and the difference written through its iterator.
    When the sizes disagree the algorithm writes past the end (UB) or leaves
    zeros. *)
Definition write_difference (clique sep : list nat) : res (list nat) :=
  let size := length clique - length sep in
  if length clique <? length sep then Throw (* resize of a huge size_t *)
  else if 0 <? size then
    let d := set_difference clique sep in
    if length d <=? size then Ok (d ++ repeat 0 (size - length d)) else UB
  else Ok [].

(** conex/clique_ordering.cc:203-240.  [order]/[separators]/[supernodes] are
    pure outputs here (the caller passes empty vectors). *)
Definition GetCliqueEliminationOrder (cliques : list (list nat))
  (valid_leaf : list nat) (root : Z) (tree : RootedTree)
  : res (list nat * list (list nat) * list (list nat) * RootedTree) :=
  let n := length cliques in
  '(better_root, (order0, seps0, tree0, inter0)) <-
     PickCliqueOrderHelper cliques valid_leaf root (SymMat_init n)
                           (repeat [] n) tree ;;
  '(order, seps, tree') <-
     (if (root =? -1)%Z then
        '(_, (order1, seps1, tree1, _)) <-
           PickCliqueOrderHelper cliques valid_leaf (Z.of_nat better_root) inter0
                                 (repeat [] n) (RootedTree_init n) ;;
        Ok (order1, seps1, tree1)
      else Ok (order0, seps0, tree0)) ;;
  snodes <- foldM (fun sn e =>
                     c <- at_ cliques e ;;
                     s <- at_ seps e ;;
                     d <- write_difference c s ;;
                     set_at sn e d)
                  (repeat [] n) order ;;
  Ok (order, snodes, seps, tree').

(** conex/clique_ordering.cc:281-284: make [v] a separator of every node of
    the path but the last. *)
Definition add_separator (v : nat) (seps : list (list nat)) (e : nat)
  : res (list (list nat)) :=
  s <- at_ seps e ;;
  set_at seps e (set_union s [v]).

(** conex/clique_ordering.cc:277-289: processing of one variable of one
    supernode.  State: [eliminated], [separators]. *)
Definition fill_var (tree : RootedTree) (num_cliques node : nat)
  (st : list nat * list (list nat)) (v : nat) : res (list nat * list (list nat)) :=
  let '(eliminated, seps) := st in
  ev <- at_ eliminated v ;;
  if ev <? num_cliques then
    fill_in <- PathInTree node ev (parent tree) (height tree) ;;
    seps' <- foldM (add_separator v) seps (removelast fill_in) ;;
    elim' <- set_at eliminated v (last fill_in 0) ;;
    Ok (elim', seps')
  else
    elim' <- set_at eliminated v node ;;
    Ok (elim', seps).

(** conex/clique_ordering.cc:276-290. *)
Definition fill_loop (tree : RootedTree) (num_cliques : nat)
  (supernodes : list (list nat)) (order : list nat)
  (st : list nat * list (list nat)) : res (list nat * list (list nat)) :=
  foldM (fun st node =>
           sn <- at_ supernodes node ;;
           foldM (fill_var tree num_cliques node) st sn) st order.

(** conex/clique_ordering.cc:292-302. *)
Definition collect_supernodes (num_cliques : nat) (eliminated : list nat)
  : res (list (list nat)) :=
  foldM (fun sn i =>
           e <- at_ eliminated i ;;
           if e <? num_cliques then
             s <- at_ sn e ;; set_at sn e (s ++ [i])
           else Ok sn)
        (repeat [] num_cliques) (seq 0 (length eliminated)).

(** conex/clique_ordering.cc:261-305. *)
Definition FillIn (tree : RootedTree) (num_variables : nat) (order : list nat)
  (supernodes separators : list (list nat))
  : res (list (list nat) * list (list nat)) :=
  let num_cliques := length order in
  '(eliminated, seps) <-
     fill_loop tree num_cliques supernodes order
               (repeat (num_cliques + 1) num_variables, separators) ;;
  sn <- collect_supernodes num_cliques eliminated ;;
  Ok (map sort sn, map sort seps).

(** conex/clique_ordering.cc:307-333, returning (order, supernodes,
    separators). *)
Definition PickCliqueOrder (cliques : list (list nat)) (valid_leaf : list nat)
  (root : Z) : res (list nat * list (list nat) * list (list nat)) :=
  let n := length cliques in
  '(order, snodes, seps, tree) <-
     GetCliqueEliminationOrder cliques valid_leaf root (RootedTree_init n) ;;
  mx <- GetMax cliques ;;
  '(snodes', seps') <- FillIn tree (mx + 1) order snodes seps ;;
  Ok (order, snodes', seps').
