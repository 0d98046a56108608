(** Statement vocabulary for the partition of the workspace buffer (C26). *)
From Coq Require Import List Arith.
From Verif Require Import LayoutModel.
Import ListNotations.

(** Double number [o] of the buffer belongs to piece [p]. *)
Definition inside (p : piece) (o : nat) : Prop := pc_start p <= o < pc_start p + pc_len p.

(** Piece [a] of area [i] when the areas [l] are laid out from the start of the
    buffer. *)
Definition piece_at (l : list ws) (i a : nat) (p : piece) : Prop :=
  exists ps, nth_error (ws_layout l 0) i = Some ps /\ nth_error ps a = Some p.

(** Second-order cone workspaces have order at least one. *)
Definition soc_orders (l : list ws) : Prop := forall n, In (WSoc n) l -> 1 <= n.
