(** Specification vocabulary for block triangular sparsity patterns; independent
    of the model's helpers. *)
From Coq Require Import List Arith Sorting.Sorted Permutation.
Import ListNotations.

(** First column of block [k] when block [i] has [size_i] columns. *)
Fixpoint offset (size : list nat) (k : nat) : nat :=
  match k with
  | 0 => 0
  | S j => offset size j + nth j size 0
  end.

(** Number of columns. *)
Definition dim (size : list nat) : nat := offset size (length size).

(** Column [c] belongs to block [k]. *)
Definition in_block (size : list nat) (k c : nat) : Prop :=
  offset size k <= c < offset size (S k).

(** Row [r] is stored in block column [k] ([rows] lists the rows of each block
    column, own rows first). *)
Definition stored_row (rows : list (list nat)) (k r : nat) : Prop :=
  In r (nth k rows []).

(** The pattern of a block triangular factor: block column [k] has the rows of
    its own block followed by increasing later rows, and the pattern is closed
    under elimination. *)
Record fill_closed (rows : list (list nat)) (size : list nat) : Prop := {
  fc_len : length size = length rows;
  fc_shape : forall k, k < length rows -> exists sep,
    nth k rows [] = seq (offset size k) (nth k size 0) ++ sep /\
    StronglySorted lt sep /\
    forall x, In x sep -> offset size (S k) <= x < dim size;
  fc_closed : forall k j r c, k < length rows -> j < length rows ->
    stored_row rows k r -> stored_row rows k c -> c <= r ->
    in_block size j c -> stored_row rows j r
}.

(** What the analysis promises about the data [order, rows, size, p, pinv, N]
    it computes for [cliques] (duplicate-free lists of variables). [snl]/[sepl]
    are the rows of each block column in original variable names. *)
Record analysis_ok (cliques : list (list nat)) (order : list nat)
  (rows : list (list nat)) (size : list nat) (p pinv : list nat) (N : nat)
  (snl sepl : list (list nat)) : Prop := {
  an_order : Permutation order (seq 0 (length cliques));
  an_rows : length rows = length cliques;
  an_fill : fill_closed rows size;
  an_N : N = dim size;
  (* p and pinv are mutually inverse between variables and columns *)
  an_len : length p = length pinv /\ N <= length pinv;
  an_max : (forall v, (exists c, In c cliques /\ In v c) -> v < length p) /\
           exists c, In c cliques /\ In (length p - 1) c;
  an_p : forall v, (exists c, In c cliques /\ In v c) ->
           nth v p 0 < N /\ nth (nth v p 0) pinv 0 = v;
  an_pinv : forall i, i < N -> (exists c, In c cliques /\ In (nth i pinv 0) c) /\
              nth (nth i pinv 0) p 0 = i;
  (* the k-th eliminated clique is stored in block column k *)
  an_cover : forall k v, k < length cliques ->
      In v (nth (nth k order 0) cliques []) -> stored_row rows k (nth v p 0);
  an_lens : length snl = length cliques /\ length sepl = length cliques;
  an_labels : forall k, k < length cliques ->
      length (nth k snl []) = nth k size 0 /\
      nth k snl [] ++ nth k sepl [] = map (fun i => nth i pinv 0) (nth k rows [])
}.
