(** Model of the symbolic part of conex/supernodal_solver.cc and of
    conex/kkt_solver.cc (labels, root selection, constructor). *)
From Coq Require Import List Arith ZArith Bool.
From Verif Require Import Base TreeModel CliqueModel.
Import ListNotations.

(** conex/supernodal_solver.cc:21-28. *)
Definition Relabel (x labels : list nat) : res (list nat) :=
  mapM (fun xi => at_ labels xi) x.

(** conex/supernodal_solver.h:18-29, [struct MatrixData]. *)
Record MatrixData := mkData {
  d_cliques : list (list nat);
  d_sn_labels : list (list nat);     (* supernodes_original_labels *)
  d_sep_labels : list (list nat);    (* separators_original_labels *)
  d_supernode_size : list nat;
  d_perm : list nat;
  d_perm_inv : list nat;
  d_order : list nat;
  d_N : nat
}.

(** conex/supernodal_solver.cc:396-403: number the variables in elimination
    order.  State: [i], [permutation], [permutation_inverse]. *)
Definition number_vars (order : list nat) (supernodes : list (list nat))
  (st : nat * list nat * list nat) : res (nat * list nat * list nat) :=
  foldM (fun st e =>
           sn <- at_ supernodes e ;;
           foldM (fun st v =>
                    let '(i, p, pinv) := st in
                    pinv' <- set_at pinv i v ;;
                    p' <- set_at p v i ;;
                    Ok (S i, p', pinv')) st sn) st order.

(** conex/supernodal_solver.cc:411-428, body for one clique: returns
    (relabelled clique, supernode size, supernode, separator in elimination
    order). *)
Definition data_for_clique (supernodes separators : list (list nat))
  (p pinv : list nat) (e : nat)
  : res (list nat * nat * list nat * list nat) :=
  sn <- at_ supernodes e ;;
  s <- at_ separators e ;;
  temp <- Relabel s p ;;
  sep <- Relabel (sort temp) pinv ;;
  c <- Relabel (sn ++ sep) p ;;
  Ok (c, length sn, sn, sep).

(** conex/supernodal_solver.cc:389-431.  Simplification: [d.cliques] is resized
    to [supernodes.size()]; the model keeps the [order.size()] entries that are
    written (the two sizes agree for every caller). *)
Definition SupernodesToData (num_vars : nat) (order : list nat)
  (supernodes separators : list (list nat)) : res MatrixData :=
  '(_, p, pinv) <- number_vars order supernodes
                     (0, repeat 0 num_vars, repeat 0 num_vars) ;;
  rows <- mapM (data_for_clique supernodes separators p pinv) order ;;
  let sizes := map (fun r => let '(_, n, _, _) := r in n) rows in
  Ok (mkData (map (fun r => let '(c, _, _, _) := r in c) rows)
             (map (fun r => let '(_, _, sn, _) := r in sn) rows)
             (map (fun r => let '(_, _, _, sep) := r in sep) rows)
             sizes p pinv order (sum_list sizes)).

(** conex/supernodal_solver.cc:376-387. *)
Definition GetData (cliques : list (list nat)) (valid_leaf : list nat)
  (root : Z) : res MatrixData :=
  '(order, snodes, seps) <- PickCliqueOrder (map sort cliques) valid_leaf root ;;
  mx <- GetMax cliques ;;
  SupernodesToData (mx + 1) order snodes seps.

(** conex/kkt_solver.cc:11-21. *)
Definition ConcatFirstN (a : list nat) (N : nat) (b : list nat) : res (list nat) :=
  if N <=? length a then Ok (firstn N a ++ b) else Throw.

(** [std::find] / [std::distance]: position of the first occurrence. *)
Fixpoint find_pos (x : nat) (b : list nat) (i : nat) : option nat :=
  match b with
  | [] => None
  | y :: t => if x =? y then Some i else find_pos x t (S i)
  end.

(** conex/kkt_solver.cc:23-40 with [label_fill_in = true] (the only use); the
    label -1 marks fill-in. *)
Definition ReplaceWithPosition (a b : list nat) : list Z :=
  map (fun ai => match find_pos ai b 0 with
                 | Some i => Z.of_nat i
                 | None => (-1)%Z
                 end) a.

(** conex/kkt_solver.cc:53-67: the label lists of position [e] of the
    elimination order, for (supernode, separator).  [size - size] is an
    unsigned subtraction; its wrapped value makes [ConcatFirstN] throw. *)
Definition relabel_one (cliques dual_vars : list (list nat))
  (d : MatrixData) (e : nat) : res (list Z * list Z) :=
  j <- at_ (d_order d) e ;;
  c <- at_ cliques j ;;
  dv <- at_ dual_vars j ;;
  labels <- (if length dv <=? length c
             then ConcatFirstN c (length c - length dv) dv else Throw) ;;
  sn <- at_ (d_sn_labels d) e ;;
  sep <- at_ (d_sep_labels d) e ;;
  Ok (ReplaceWithPosition sn labels, ReplaceWithPosition sep labels).

(** conex/kkt_solver.cc:47-68, [RelabelCliques]. *)
Definition RelabelCliques (cliques dual_vars : list (list nat))
  (d : MatrixData) : res (list (list Z * list Z)) :=
  mapM (relabel_one cliques dual_vars d) (seq 0 (length cliques)).

(** The scan "first index of maximal size" of conex/kkt_solver.cc:74-80 and
    86-92. *)
Fixpoint argmax_size (l : list (list nat)) (i best bestv : nat) : nat * nat :=
  match l with
  | [] => (best, bestv)
  | a :: t => if bestv <? length a then argmax_size t (S i) i (length a)
              else argmax_size t (S i) best bestv
  end.

(** conex/kkt_solver.cc:70-94. *)
Definition GetRootNode (vars dual_vars : list (list nat)) : res nat :=
  d0 <- at_ dual_vars 0 ;;
  let '(am, mx) := argmax_size (tl dual_vars) 1 0 (length d0) in
  if 0 <? mx then Ok am
  else
    v0 <- at_ vars 0 ;;
    Ok (fst (argmax_size (tl vars) 1 0 (length v0))).

(** conex/kkt_solver.cc:96-102. *)
Definition is_empty (vect : list (list nat)) : list nat :=
  map (fun v => if length v =? 0 then 1 else 0) vect.

(** conex/kkt_solver.cc:104-116: analysis done by the constructor of
    [SupernodalKKTSolver] (the matrix storage is in TriWorkspaceModel). *)
Definition kkt_analyze (cliques dual_vars : list (list nat))
  : res (MatrixData * list (list Z * list Z)) :=
  root <- GetRootNode cliques dual_vars ;;
  d <- GetData cliques (is_empty dual_vars) (Z.of_nat root) ;;
  labels <- RelabelCliques cliques dual_vars d ;;
  Ok (d, labels).

(** conex/kkt_solver.cc:114-115: [Pt.indices()] maps the first [N] entries of
    [permutation_inverse].  Reading past its end is UB. *)
Definition Pt_indices (d : MatrixData) : res (list nat) :=
  if d_N d <=? length (d_perm_inv d) then Ok (firstn (d_N d) (d_perm_inv d))
  else UB.
