(** Statement vocabulary for clients of the C interface: linear programs. *)
From Coq Require Import List Arith ZArith Reals Bool.
From Verif Require Import Base ProgramModel ApiModel Spec_Preprocess Spec_Linear.
Import ListNotations.
Open Scope R_scope.

(** Calls that add constraints over all variables, or none. *)
Definition whole_list (k : call) : Prop :=
  match k with
  | AAddQuadraticCost _ _ | AAddSparseLMI _ _ _ _ | PAddConstraint _ _ (Some _) | PAddQuadraticCost _ _ => False
  | _ => True
  end.

(** What a client passes in one call: rows [a . y <= b], or rows
    [lb <= a . y <= ub]. *)
Inductive group := Upper (A : list (list R)) (b : list R) | Between (rows : list (list R * R * R)).
Definition group_call (n : nat) (g : group) : call :=
  match g with Upper A b => AAddDenseLinear n A b | Between rows => AAddLinearInequalities n rows end.

(** [n] variables, then the groups. *)
Definition client_calls (n : nat) (gs : list group) : list call :=
  ASetNumberOfVariables (Z.of_nat n) :: map (group_call n) gs.

(** Sizes match, and no used row is zero together with its bound. *)
Definition group_ok (n : nat) (g : group) : Prop :=
  match g with
  | Upper A b => A <> [] /\ length b = length A /\ Forall (fun a => length a = n) A
  | Between rows => forall a lb ub, In (a, lb, ub) rows -> length a = n /\
      (lb = ub \/ ub < 10 ^ 8 -> nonzero_row a ub) /\ (lb <> ub -> - 10 ^ 8 < lb -> nonzero_row a lb)
  end.

(** The point [y] satisfies the group; bounds of absolute value [10^8] and more
    do not count (C40). *)
Definition group_holds (g : group) (y : list R) : Prop :=
  match g with
  | Upper A b => forall k, (k < length A)%nat -> product (nth k A []) y <= nth k b 0
  | Between rows => kept_bounds_hold rows y
  end.

(** A bound of the row counts. *)
Definition counts (lb ub : R) : Prop := lb = ub \/ ub < 10 ^ 8 \/ - 10 ^ 8 < lb.

(** The rows of the group vanish at [z]; the group has a row; it has an equality. *)
Definition group_flat (g : group) (z : list R) : Prop :=
  match g with
  | Upper A b => forall a, In a A -> product a z = 0
  | Between rows => forall a lb ub, In (a, lb, ub) rows -> counts lb ub -> product a z = 0
  end.
Definition restricts (g : group) : Prop :=
  match g with
  | Upper A b => A <> []
  | Between rows => exists a lb ub, In (a, lb, ub) rows /\ counts lb ub
  end.
Definition equates (g : group) : Prop :=
  match g with Upper _ _ => False | Between rows => exists a lb ub, In (a, lb, ub) rows /\ lb = ub end.

(** Number of inequalities of a group. *)
Definition bound_count (lb ub : R) : nat :=
  if Req_EM_T lb ub then 0
  else (if Rlt_dec ub (10 ^ 8) then 1 else 0) + (if Rlt_dec (- 10 ^ 8) lb then 1 else 0).
Definition group_count (g : group) : nat :=
  match g with
  | Upper A b => length A
  | Between rows => list_sum (map (fun r => bound_count (snd (fst r)) (snd r)) rows)
  end.

(** The rows of the groups determine the point. *)
Definition spanning (n : nat) (gs : list group) : Prop :=
  forall z, (forall g, In g gs -> group_flat g z) -> forall v, (v < n)%nat -> nth v z 0 = 0.

(** Options of a cold start that may end and return a point. *)
Record plain_options (c : config) : Prop := {
  po_cold : initialization_mode c = 0%Z;
  po_duals : prepare_dual_variables c = 0%Z;
  po_limit : (0 < max_iterations c)%Z;
  po_mu : - / 10 ^ 15 < maximum_mu c;
  po_threshold : / 10 ^ 15 + maximum_mu c <= infeasibility_threshold c;
  po_steps : (0 < final_centering_steps c)%Z \/
    (0 < inv_sqrt_mu_max c /\ 0 <= kkt_error_tolerance c /\ (final_centering_steps c < max_iterations c)%Z);
  po_scaling : enable_rescaling c <> 0%Z -> inv_sqrt_mu_max c <> 0;
  po_solver : kkt_solver c <> 2%Z
}.
