(** Statement vocabulary for clients of the C interface: conic programs whose
    second-order cones, matrix inequalities and quadratic costs are filled in
    entry by entry. *)
From Coq Require Import List Arith ZArith Reals Bool.
From Verif Require Import Base ProgramModel ApiModel SolveModel ConcreteBackend Spec_Program Spec_Preprocess Spec_Conex Spec_Semidefinite Spec_Client Spec_Linear.
Import ListNotations.
Open Scope R_scope.

(** Rows as in C71; a second-order cone of order [m], or a matrix inequality of
    order [m] over the reals ([h = 1]), complex numbers (2) or quaternions (4),
    and the coefficients that are written afterwards; a quadratic cost and the
    entries (value, row, column) of its matrix that are written afterwards. *)
Inductive cgroup := Rows (g : group) | Cone (m : nat) (l : list write) | Matrix (h m : nat) (l : list write) | Cost (l : list (R * nat * nat)).

(** The call that writes a coefficient of constraint [i]. *)
Definition write_call (i : Z) (w : write) : call :=
  match w_var w with
  | Some v => AUpdateLinearOperator i (w_val w) v (w_r w) (w_c w) (w_dim w)
  | None => AUpdateAffineTerm i (w_val w) (w_r w) (w_c w) (w_dim w)
  end.

(** The call that writes an entry of the matrix of cost [i]. *)
Definition entry_call (i : Z) (e : R * nat * nat) : call :=
  match e with (x, r, c) => AUpdateQuadraticCostMatrix i x (Z.of_nat r) (Z.of_nat c) end.

(** A client that creates a constraint, reads its identifier from the reply and
    writes the coefficients with it; it gives up without an identifier. *)
Definition fill (p : program) (k : call) (ws : Z -> list call) : res program :=
  '(p1, r) <- api_step p k ;;
  match rp_id r with
  | None => Throw
  | Some i => '(p2, _) <- api_run p1 (ws i) ;; Ok p2
  end.
Definition enter (n : nat) (p : program) (g : cgroup) : res program :=
  match g with
  | Rows g => '(p', _) <- api_step p (group_call n g) ;; Ok p'
  | Cone m l => fill p (ANewLorentzCone (Z.of_nat m) false) (fun i => map (write_call i) l)
  | Matrix h m l => fill p (ANewLMI (Z.of_nat m) (Z.of_nat h) false) (fun i => map (write_call i) l)
  | Cost l => fill p (ANewQuadraticCost false) (fun i => map (entry_call i) l)
  end.
Fixpoint enter_all (n : nat) (p : program) (gs : list cgroup) : res program :=
  match gs with [] => Ok p | g :: t => p' <- enter n p g ;; enter_all n p' t end.
Definition conic_client (n : nat) (gs : list cgroup) : res program :=
  '(p, _) <- api_step CONEX_CreateConeProgram (ASetNumberOfVariables (Z.of_nat n)) ;; enter_all n p gs.

(** The last value written to a place, zero if there is none. *)
Definition written (o : cdata) (l : list write) (q : place) : R :=
  fold_left (fun acc w => match assigns o w q with Some x => x | None => acc end) l 0.

(** Coefficient [k] of the cone, and entry [(r, c)] of component [t] of the matrix,
    that belong to variable [v], or to the affine term. *)
Definition cone_entry (m : nat) (l : list write) (v : option nat) (k : nat) : R := written (CSoc m [] []) l (mkPlace v k 0 0).
Definition matrix_entry (h m : nat) (l : list write) (v : option nat) (t r c : nat) : R := written (CHerm h m [] []) l (mkPlace v r c t).

(** Entry [(r, c)] of the matrix of a cost, and the form [y^T Q y]. *)
Definition cost_entry (l : list (R * nat * nat)) (r c : nat) : R :=
  fold_left (fun acc e => match e with (x, i, j) => if ((i =? r) && (j =? c))%nat then x else acc end) l 0.
Definition cost_at (n : nat) (l : list (R * nat * nat)) (y : list R) : R :=
  total (fun r => total (fun c => cost_entry l r c * nth r y 0 * nth c y 0) (seq 0 n)) (seq 0 n).

(** Affine minus linear part at [y]. *)
Definition slack_at (n : nat) (a : option nat -> R) (y : list R) : R :=
  a None - total (fun j => a (Some j) * nth j y 0) (seq 0 n).

(** Every coefficient is one of the cone (the matrix) and of one of the [n]
    variables or the affine term; the last variable and the affine term have one.
    The matrix of a cost is symmetric. *)
Definition writes_ok (n : nat) (o : cdata) (l : list write) : Prop :=
  Forall (fun w => in_range o w /\ acceptable o w /\ forall v, w_var w = Some v -> (v < Z.of_nat n)%Z) l /\
  Exists (fun w => w_var w = Some (Z.of_nat n - 1)%Z) l /\ Exists (fun w => w_var w = None) l.
Definition cgroup_ok (n : nat) (g : cgroup) : Prop :=
  match g with
  | Rows g => group_ok n g
  | Cone m l => (0 < m)%nat /\ writes_ok n (CSoc m [] []) l
  | Matrix h m l => (0 < m)%nat /\ (h = 1 \/ h = 2 \/ h = 4)%nat /\ writes_ok n (CHerm h m [] []) l
  | Cost l => Forall (fun e => (snd (fst e) < n /\ snd e < n)%nat) l /\ forall r c, cost_entry l r c = cost_entry l c r
  end.

(** The point satisfies the group. *)
Definition cgroup_holds (n : nat) (g : cgroup) (y : list R) : Prop :=
  match g with
  | Rows g => group_holds g y
  | Cone m l => lorentz m (fun k => slack_at n (fun v => cone_entry m l v k) y)
  | Matrix h m l => herm_psd h m (fun t r c => slack_at n (fun v => matrix_entry h m l v t r c) y)
  | Cost l => True
  end.

(** The group does not change along [z]; it adds a constraint or cost; an equality. *)
Definition cgroup_flat (n : nat) (g : cgroup) (z : list R) : Prop :=
  match g with
  | Rows g => group_flat g z
  | Cone m l => forall k, (k <= m)%nat -> total (fun j => cone_entry m l (Some j) k * nth j z 0) (seq 0 n) = 0
  | Matrix h m l => forall t r c, (t < h)%nat -> (r < m)%nat -> (c < m)%nat -> total (fun j => matrix_entry h m l (Some j) t r c * nth j z 0) (seq 0 n) = 0
  | Cost l => cost_at n l z = 0
  end.
Definition crestricts (g : cgroup) : Prop := match g with Rows g => restricts g | _ => True end.
Definition cequates (g : cgroup) : Prop := match g with Rows g => equates g | _ => False end.
Definition is_matrix (g : cgroup) : Prop := match g with Matrix _ _ _ => True | _ => False end.
Definition is_cost (g : cgroup) : bool := match g with Cost _ => true | _ => false end.

(** What the client maximises: [b . y - 1/2 sum y^T Q y] over its costs. *)
Definition value (n : nat) (gs : list cgroup) (b y : list R) : R :=
  product b y - / 2 * total (fun g => match g with Cost l => cost_at n l y | _ => 0 end) gs.
Definition cconvex (n : nat) (gs : list cgroup) : Prop := forall l z, In (Cost l) gs -> 0 <= cost_at n l z.

(** Degree of the barrier of the group: 2 for a cone, the order for a matrix, 0
    for a cost. *)
Definition cgroup_count (g : cgroup) : nat :=
  match g with Rows g => group_count g | Cone _ _ => 2 | Matrix _ m _ => m | Cost _ => 0 end.

Definition cspanning (n : nat) (gs : list cgroup) : Prop :=
  forall z, (forall g, In g gs -> cgroup_flat n g z) -> forall v, (v < n)%nat -> nth v z 0 = 0.

(** Costs need the line search and no rescaling. *)
Definition cost_options (gs : list cgroup) (c : config) : Prop :=
  (exists l, In (Cost l) gs) -> enable_line_search c <> 0%Z /\ enable_rescaling c = 0%Z.

(** The last norm [d] certifies the inequalities: there are none, or it is at most
    one and there are no matrix inequalities, or it is so with the error of the
    estimates. *)
Definition certified (env : environment) (gs : list cgroup) (d : R) : Prop :=
  list_sum (map cgroup_count gs) = 0%nat \/ (d <= 1 /\ forall g, In g gs -> ~ is_matrix g) \/ exists eps, 0 <= eps /\ accurate eps (env_estimate env) /\ d + eps <= 1.
