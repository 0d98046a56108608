(** Model of the helper [conncomp] and of [BinaryPsdCompletion] around it,
    interfaces/matlab/util/BinaryPsdCompletion.m, which split matrix inequalities into
    blocks.

    Indices start at zero.  A pattern is a boolean matrix.  No proofs in this file. *)
From Coq Require Import List Arith Bool.
Import ListNotations.

(** Lines 21-26: diagonal removed, made symmetric; line 41: [find(A(:, v))]. *)
Definition neighbors (N : nat) (A : nat -> nat -> bool) (v : nat) : list nat :=
  filter (fun u => negb (u =? v) && (A u v || A v u)) (seq 0 N).

(** Lines 39-51: the loop over [ptr]; [disc] lists the nodes with [isDiscovered],
    [mem] is [members{end}].  [None]: out of fuel. *)
Fixpoint grow (fuel N : nat) (A : nat -> nat -> bool) (disc mem : list nat) (ptr : nat) : option (list nat * list nat) :=
  match fuel with
  | O => None
  | S fuel' =>
      match nth_error mem ptr with
      | None => Some (disc, mem)
      | Some v =>
          let fresh := filter (fun u => negb (existsb (Nat.eqb u) disc)) (neighbors N A v) in
          grow fuel' N A (disc ++ fresh) (mem ++ fresh) (ptr + 1)
      end
  end.
(** Lines 31-53: the loop over [n]. *)
Fixpoint components_loop (N : nat) (A : nat -> nat -> bool) (l : list nat) (disc : list nat) (members : list (list nat)) : option (list (list nat)) :=
  match l with
  | [] => Some members
  | n :: t =>
      if existsb (Nat.eqb n) disc then components_loop N A t disc members
      else
        match grow (S N) N A (disc ++ [n]) [n] 0 with
        | None => None
        | Some (disc', mem) => components_loop N A t disc' (members ++ [mem])
        end
  end.
(** Lines 61-62: stable sort by size. *)
Fixpoint insert_size (m : list nat) (l : list (list nat)) : list (list nat) :=
  match l with
  | [] => [m]
  | x :: t => if length m <=? length x then m :: l else x :: insert_size m t
  end.
Definition sort_size (l : list (list nat)) : list (list nat) := fold_right insert_size [] l.
(** Lines 18-64. *)
Definition conncomp (N : nat) (A : nat -> nat -> bool) : option (list (list nat)) :=
  option_map sort_size (components_loop N A (seq 0 N) [] []).

(** Lines 1-15, of a pattern of order [d]: the rows that are not empty, their
    components as sets of rows, and the pattern with full blocks. *)
Definition used_rows (d : nat) (M : nat -> nat -> bool) : list nat := filter (fun r => existsb (fun c => M r c) (seq 0 d)) (seq 0 d).
Definition BinaryPsdCompletion (d : nat) (M : nat -> nat -> bool) : option ((nat -> nat -> bool) * list (list nat)) :=
  let r := used_rows d M in
  if length r =? 0 then Some (M, [])
  else
    match conncomp (length r) (fun i j => M (nth i r 0) (nth j r 0)) with
    | None => None
    | Some cl =>
        let cliques := map (map (fun i => nth i r 0)) cl in
        Some (fun i j => M i j || existsb (fun q => existsb (Nat.eqb i) q && existsb (Nat.eqb j) q) cliques, cliques)
    end.
