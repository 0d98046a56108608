(** Model of interfaces/matlab/util/BuildMask.m: which entries of the matrix variable
    matter, and the blocks they form.  [ConexPreprocess] splits the problem along
    these blocks.

    Only the zero patterns of [A] ([m] rows, [n] columns), [b] and [c] are read, so
    these are boolean functions; indices start at zero.  One semidefinite cone
    ([K.s] has one entry) and no other cones.  [None]: out of fuel.  No proofs in
    this file. *)
From Coq Require Import List Arith Bool.
From Verif Require Import ComponentModel.
Import ListNotations.

(** [nnz]. *)
Definition nnz (n : nat) (M : nat -> bool) : nat := length (filter M (seq 0 n)).

(** Lines 71-72: the columns of the rows that meet [M]. *)
Definition spread (m n : nat) (A : nat -> nat -> bool) (M : nat -> bool) : nat -> bool := fun c =>
  existsb (fun r => existsb (fun k => A r k && M k) (seq 0 n) && A r c) (seq 0 m).
(** Lines 70-78. *)
Fixpoint closure_loop (fuel m n : nat) (A : nat -> nat -> bool) (M : nat -> bool) (nnz_M : nat) : option (nat -> bool) :=
  match fuel with
  | O => None
  | S fuel' =>
      let M := spread m n A M in
      if nnz_M =? nnz n M then Some M else closure_loop fuel' m n A M (nnz n M)
  end.
(** [SubspaceClosureCoordDisjointSupport], 63-83. *)
Definition SubspaceClosure (m n : nat) (A : nat -> nat -> bool) (b M : nat -> bool) : option (nat -> bool) :=
  let M := fun c => existsb (fun r => b r && A r c) (seq 0 m) || M c in
  closure_loop (n + 2) m n A M (nnz n M).

(** Lines 15-34 for a cone of order [d]; entry [(i, j)] is column [i + d * j]. *)
Fixpoint mask_loop (fuel m d : nat) (A : nat -> nat -> bool) (b M : nat -> bool) (nnz_M : nat) : option (list (list nat)) :=
  match fuel with
  | O => None
  | S fuel' =>
      match SubspaceClosure m (d * d) A b M with
      | None => None
      | Some M =>
          match BinaryPsdCompletion d (fun i j => M (i + d * j)) with
          | None => None
          | Some (temp, cliques) =>
              let M := fun k => temp (k mod d) (k / d) in
              if nnz_M =? nnz (d * d) M then Some cliques else mask_loop fuel' m d A b M (nnz (d * d) M)
          end
      end
  end.
(** Lines 1-34: the blocks. *)
Definition BuildMask (m d : nat) (A : nat -> nat -> bool) (b c : nat -> bool) : option (list (list nat)) :=
  mask_loop (d * d + 2) m d A b c (nnz (d * d) c).
