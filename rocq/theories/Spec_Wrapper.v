(** Statement vocabulary for clients of the Python class. *)
From Coq Require Import List Arith ZArith Reals Bool.
From Verif Require Import Base ProgramModel ApiModel WrapperModel Spec_Program.
Import ListNotations.
Open Scope R_scope.

(** Methods that leave the lists of the object in step with the [n]-variable program
    behind it: rows and matrix inequalities as a whole, matrix inequalities filled
    in later, updates, solves. *)
Definition keeps_books (n : nat) (k : pycall) : Prop :=
  match k with
  | PyAddLinearInequality _ A c _ => length c = length A
  | PyAddSparseLMI _ _ _ vars => good_list n vars
  | PyAddDenseLMI _ _ _ | PyNewLMI _ _ | PyUpdateQuadraticCostMatrix _ _ _ _ | PyUpdateLinearOperator _ _ _ _ _ _
  | PyUpdateAffineTerm _ _ _ _ _ | PySolve _ _ _ | PyMaximize _ _ _ _ => True
  | _ => False
  end.

(** Number of entries of the multiplier of rows and of (the real part of) the
    multiplier of a matrix inequality. *)
Definition entries (o : cdata) : option nat :=
  match o with
  | CLinear _ A _ => Some (length A)
  | CHerm _ n _ _ | CDenseLmi n _ _ => Some (n * n)%nat
  | _ => None
  end.

(** A solve with the options of the class. *)
Definition default_solve (k : pycall) : Prop :=
  match k with PySolve _ None _ | PyMaximize _ _ None _ => True | _ => False end.
Definition py_solves (k : pycall) : Prop := match k with PySolve _ _ _ | PyMaximize _ _ _ _ => True | _ => False end.
