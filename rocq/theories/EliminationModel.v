(** Model of conex/elimination_ordering.cc.  A matrix is its dimension and a
    function of row and column; entries are integers (the code has [double]; sums
    and squares of entries are exact here).  Indices stored in [double] vectors
    are natural numbers.  No proofs in this file. *)
From Coq Require Import List Arith ZArith Bool.
From Verif Require Import Base.
Import ListNotations.
Open Scope nat_scope.

Definition zmatrix := nat -> nat -> Z.

Definition zsum (f : nat -> Z) (l : list nat) : Z := fold_right (fun i s => (f i + s)%Z) 0%Z l.

(** ** [MaximumCardinalitySearch], conex/elimination_ordering.cc:31-117 *)

(** The members [W_] and [not_eliminated] (115-116). *)
Record mcs := mkMcs { mc_W : list nat; mc_left : list bool }.

(** [Initialize], 101-104. *)
Definition mcs_init (N : nat) : mcs := mkMcs (repeat 0 N) (repeat true N).

(** [UpdateWeights], 57-66, with [is_adjacent] (106). *)
Definition UpdateWeights (A : zmatrix) (N v : nat) (W : list nat) : list nat :=
  fold_left (fun W i => if (i =? v) then W
                        else if (A i v =? 0)%Z then W else upd W i (nth i W 0 + 1))
            (seq 0 N) W.

(** [ArgMaxWeight], 68-78; [None] is [-1]. *)
Definition ArgMaxWeight (N : nat) (s : mcs) : option nat :=
  fst (fold_left (fun acc i =>
          let '(pos, max) := (acc : option nat * Z) in
          if nth i (mc_left s) false && (max <=? Z.of_nat (nth i (mc_W s) 0%nat))%Z
          then (Some i, Z.of_nat (nth i (mc_W s) 0%nat)) else (pos, max))
        (seq 0 N) (None, (-1)%Z)).

(** [Degree], 80-86. *)
Definition Degree (A : zmatrix) (N i : nat) : Z := (zsum (A i) (seq 0 N) - A i i)%Z.

(** [MaxDegreeVertex], 88-99.  [sums(0)] of an empty vector is undefined. *)
Definition MaxDegreeVertex (A : zmatrix) (N : nat) : res nat :=
  if (N =? 0) then UB
  else Ok (fst (fold_left (fun acc i =>
                  let '(argmax, max) := (acc : nat * Z) in
                  if (max <? Degree A N i)%Z then (i, Degree A N i) else (argmax, max))
                (seq 1 (N - 1)) (0, Degree A N 0))).

(** [FindOrder(int v)], 43-54: [k] passes of the loop; [order] holds the entries
    written so far, which are the last ones of the vector. *)
Fixpoint order_loop (A : zmatrix) (N k : nat) (s : mcs) (v : nat) (order : list nat) : res (list nat) :=
  match k with
  | 0 => Ok order
  | S k' =>
      if (N <=? v) then UB
      else
        let s' := mkMcs (UpdateWeights A N v (mc_W s)) (upd (mc_left s) v false) in
        match ArgMaxWeight N s' with
        | None => UB
        | Some v' => order_loop A N k' s' v' (v' :: order)
        end
  end.
Definition FindOrderFrom (A : zmatrix) (N v : nat) : res (list nat) :=
  if (N =? 0) then UB else order_loop A N (N - 1) (mcs_init N) v [v].

(** [FindOrder()], 38-41. *)
Definition FindOrder (A : zmatrix) (N : nat) : res (list nat) :=
  v <- MaxDegreeVertex A N ;; FindOrderFrom A N v.

(** ** Perfect orderings *)

(** [submat], 121-150: the kept indices, relative to [node]. *)
Definition kept_indices (A : zmatrix) (N node : nat) : list nat :=
  filter (fun i => negb (Z.eqb (A node (node + i)) 0)) (seq 0 (N - node)).
(** The entries of the returned matrix. *)
Definition submat (A : zmatrix) (N node : nat) (i j : nat) : Z :=
  let keep := kept_indices A N node in
  if (i =? j) then 1%Z else A (node + nth i keep 0) (node + nth j keep 0).

(** [S.rows() * S.rows() - (S * S.transpose()).trace() == 0], 165 and 252. *)
Definition complete_submat (A : zmatrix) (N node : nat) : bool :=
  let n := length (kept_indices A N node) in
  let S := submat A N node in
  (Z.of_nat n * Z.of_nat n - zsum (fun i => zsum (fun j => S i j * S i j)%Z (seq 0 n)) (seq 0 n) =? 0)%Z.

(** [IsPerfectlyOrdered], 152-168. *)
Definition IsPerfectlyOrdered (Gdata : zmatrix) (n : nat) : bool :=
  let G i j := if (Gdata i j =? 0)%Z then 0%Z else 1%Z in
  fold_left (fun pass i => pass && complete_submat G n i) (seq 0 n) true.

(** [P2.transpose() * G * P2] with [P2.indices() = order], 243-249. *)
Definition permuted (G : zmatrix) (order : list nat) : zmatrix :=
  fun i j => G (nth i order 0) (nth j order 0).

(** [ExtractChordlessPath], 170-237, on the permuted matrix [A].  [None] is the
    initial value [-1] of [x], [y], [z] and [v]; an access to column [-1] is
    undefined.  192-207: *)
Definition choose_pair (A : zmatrix) (w : nat) (indices : list nat) : option (nat * nat) :=
  let m := length indices in
  fold_left (fun acc i =>
    if (i =? w) then acc
    else fold_left (fun acc j =>
      if (j =? w) then acc
      else
        let i_pos := nth i indices 0 in
        let j_pos := nth j indices 0 in
        if negb (A w j_pos =? 0)%Z && negb (A w i_pos =? 0)%Z && (A i_pos j_pos =? 0)%Z
           && match acc with None => true | Some (x, _) => (x <? i_pos) end
        then Some (i_pos, j_pos) else acc)
      (seq (i + 1) (m - (i + 1))) acc)
    (seq 0 m) None.
(** 209-216. *)
Definition choose_z (A : zmatrix) (n w : nat) (x : option nat) : res (option nat) :=
  match x with
  | Some x => Ok (find (fun i => (A i w =? 0)%Z && (0 <? A i x)%Z) (seq 0 n))
  | None => if existsb (fun i => (A i w =? 0)%Z) (seq 0 n) then UB else Ok None
  end.
(** 218-228. *)
Definition same (o : option nat) (i : nat) : bool := match o with Some x => i =? x | None => false end.
Definition choose_v (A : zmatrix) (n w : nat) (x y z : option nat) : res (option nat) :=
  let others := filter (fun i => negb (i =? w) && negb (same x i) && negb (same y i)) (seq 0 n) in
  match z with
  | Some z => Ok (find (fun i => (0 <? A i z)%Z) others)
  | None => match others with [] => Ok None | _ => UB end
  end.
Definition entry (o : option nat) : Z := match o with Some x => Z.of_nat x | None => (-1)%Z end.
Definition ExtractChordlessPath (A : zmatrix) (n : nat) (relative : list nat) (w : nat) : res (list Z) :=
  let indices := map (fun i => i + w) relative in
  let pair := choose_pair A w indices in
  let x := option_map fst pair in
  let y := option_map snd pair in
  z <- choose_z A n w x ;;
  v <- choose_v A n w x y z ;;
  Ok [Z.of_nat w; entry x; entry y; entry v].

(** [IsChordal], 239-265: the result and, when a path is asked for, the path. *)
Fixpoint chordal_loop (Gp : zmatrix) (n : nat) (want : bool) (nodes : list nat) : res (bool * option (list Z)) :=
  match nodes with
  | [] => Ok (true, None)
  | i :: t =>
      if complete_submat Gp n i then chordal_loop Gp n want t
      else if want
           then path <- ExtractChordlessPath Gp n (kept_indices Gp n i) i ;; Ok (false, Some path)
           else Ok (false, None)
  end.
Definition IsChordal_path (G : zmatrix) (n : nat) (want : bool) : res (bool * option (list Z)) :=
  order <- FindOrderFrom G n 0 ;;
  chordal_loop (permuted G order) n want (seq 0 n).

(** 267. *)
Definition IsChordal (G : zmatrix) (n : nat) : res bool :=
  '(b, _) <- IsChordal_path G n false ;; Ok b.

(** [EliminationOrdering], 269-278: the indices of the permutation. *)
Definition EliminationOrdering (G : zmatrix) (n : nat) : res (list nat) := FindOrder G n.

(** [MaximumDegreeVertices], 280-300. *)
Definition MaximumDegreeVertices (G : zmatrix) (N : nat) : res (list nat) :=
  let sums i := zsum (G i) (seq 0 N) in
  if (N =? 0) then UB
  else Ok (fst (fold_left (fun acc i =>
                  let '(argmax, max) := (acc : list nat * Z) in
                  if (max <=? sums i)%Z
                  then ((if (max <? sums i)%Z then [] else argmax) ++ [i], sums i)
                  else (argmax, max))
                (seq 1 (N - 1)) ([], sums 0))).
