(** Statement vocabulary for objectives with a known dual solution. *)
From Coq Require Import List Arith Reals Bool.
From Verif Require Import Base ProgramModel Spec_Linear Spec_Conex.
Import ListNotations.
Open Scope R_scope.

(** One half for every row of a linear constraint, the vector [(1, 0, ..., 0)] for
    a second-order cone, half of the identity matrix, listed by components and rows,
    for a Hermitian constraint. *)
Definition half (p : program) (i : nat) : list R :=
  match nth_error (p_eqs p) i with
  | Some co =>
      match ct_data co with
      | CLinear _ A _ => repeat (1 / 2) (length A)
      | CSoc n _ _ => 1 :: repeat 0 n
      | CHerm h n _ _ =>
          map (fun e => if (e <? n * n)%nat && (e / n =? e mod n)%nat then 1 / 2 else 0) (seq 0 (h * n * n))
      | _ => []
      end
  | None => []
  end.

(** Dual variables in the interior of all cones. *)
Definition interior_duals (p : program) (x : nat -> list R) : Prop :=
  forall i co, nth_error (p_eqs p) i = Some co ->
  match ct_data co with
  | CLinear _ A _ => length (x i) = length A /\ Forall (fun v => 0 < v) (x i)
  | CSoc n _ _ => length (x i) = (n + 1)%nat /\ lorentz_interior n (fun k => nth k (x i) 0)
  | CHerm h n _ _ => length (x i) = (h * n * n)%nat /\ herm_pd h n (listed_matrix n (x i))
  | _ => True
  end.

(** [b . z]. *)
Definition value (b z : list R) : R := total (fun u => nth u b 0 * nth u z 0) (seq 0 (length b)).
