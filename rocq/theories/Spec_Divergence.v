(** The divergence bound in terms of the eigenvalues themselves. *)
From Coq Require Import List Reals.
From Verif Require Import DivergenceModel.
Import ListNotations.
Open Scope R_scope.

Definition total (f : R -> R) (l : list R) : R := fold_right (fun x s => f x + s) 0 l.

(** The summary [p] is that of the eigenvalues [l]. *)
Record summarises (p : spectrum) (l : list R) : Prop := {
  sm_square : frobenius_norm_squared p = total (fun x => x * x) l;
  sm_trace : trace p = total (fun x => x) l;
  sm_rank : rank p = INR (length l);
  sm_min : In (lambda_min p) l /\ Forall (fun x => lambda_min p <= x) l;
  sm_max : In (lambda_max p) l /\ Forall (fun x => x <= lambda_max p) l
}.

(** The largest distance of [k] times an eigenvalue from one is [M]. *)
Definition distance_from_one (k : R) (l : list R) (M : R) : Prop :=
  (exists x, In x l /\ Rabs (k * x - 1) = M) /\ Forall (fun x => Rabs (k * x - 1) <= M) l.

(** The divergence bound ||k S - I||_F^2 / (1 - ||k S - I||) is finite and equals [bound]. *)
Definition divergence_is (k : R) (l : list R) (bound : R) : Prop :=
  exists M, distance_from_one k l M /\ M < 1 /\ total (fun x => (k * x - 1) * (k * x - 1)) l / (1 - M) = bound.
