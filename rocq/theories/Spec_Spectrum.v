(** Vocabulary for the eigenvalues of the scaled slacks of a program. *)
From Coq Require Import List Arith Reals.
From Verif Require Import DenseModel ProgramModel LinearModel ConcreteBackend DivergenceModel Spec_Linear Spec_Conex.
From Verif Require Spec_Divergence Spec_Soc.
Import ListNotations.
Open Scope R_scope.

(** [l] are the eigenvalues of [Q(w^(1/2)) (k b - A y)] for the constraint data [x] over
    the variables [vars] with the memory [s]: the products of weights and slacks of a
    linear constraint, the two eigenvalues in the spin algebra for a second-order
    cone, none for equalities and quadratic costs. *)
Definition slack_values (vars : list nat) (x : cdata) (s : cstate) (y : list R) (k : R) (l : list R) : Prop :=
  match x, s with
  | CLinear _ A b, SLinear w => exists W, lw_W w = Some W /\
      l = map (fun r => nth r W 0 * (k * nth r b 0 - row_value (nth r A []) vars y)) (seq 0 (length A))
  | CSoc n A c, SSoc w => exists W root slack t u, sw_W w = Some W /\ Spec_Soc.root_of (Spec_Soc.euclid n) W root /\
      fst slack = k * nth 0 c 0 - column_value A vars y 0 /\
      (forall i, (i < n)%nat -> snd slack i = k * nth (S i) c 0 - column_value A vars y (S i)) /\
      l = [t; u] /\
      forall a, Spec_Soc.eigenvalue (Spec_Soc.euclid n) (Spec_Soc.quadrep (Spec_Soc.euclid n) root slack) a <-> a = t \/ a = u
  | CEq _ _, SEq _ | CQuad _, SQuad => l = []
  | _, _ => False
  end.

(** One list for each constraint. *)
Definition slack_eigenvalues (p : program) (st : cst) (y : list R) (k : R) (ls : list (list R)) : Prop :=
  length ls = length (p_eqs p) /\
  forall i co s, nth_error (p_eqs p) i = Some co -> nth_error (ct_cons st) i = Some s ->
    slack_values (nth i (p_cliques p) []) (ct_data co) s y k (nth i ls []).

(** [lo] is the least of [l] and [bound], [hi] the greatest. *)
Definition least (l : list R) (bound lo : R) : Prop := lo <= bound /\ Forall (fun x => lo <= x) l /\ (lo = bound \/ In lo l).
Definition greatest (l : list R) (bound hi : R) : Prop := bound <= hi /\ Forall (fun x => x <= hi) l /\ (hi = bound \/ In hi l).
