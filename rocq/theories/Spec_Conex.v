(** Statement vocabulary for solves with the real constraint operations. *)
From Coq Require Import List Arith ZArith Reals Bool.
From Verif Require Import Base LayoutModel SupernodeModel TriWorkspaceModel AssemblerModel KktModel ProgramModel ApiModel SolveModel LinearModel ConcreteBackend
  Spec_Linear Spec_Assembly Spec_Program Spec_Solve.
From Verif Require Spec_Soc Spec_Hyper.
Import ListNotations.
Open Scope R_scope.

(** Value of the row [a] at the point [y]; entry [j] of the row belongs to the
    variable [nth j vars]. *)
Definition row_value (a : list R) (vars : list nat) (y : list R) : R :=
  total (fun j => nth j a 0 * nth (nth j vars 0%nat) y 0) (seq 0 (length a)).

(** The point [y] satisfies [A y <= b], [A y = b]. *)
Definition inequality_holds (A : matrix) (b : list R) (vars : list nat) (y : list R) : Prop :=
  forall k, (k < length A)%nat -> row_value (nth k A []) vars y <= nth k b 0.
Definition equality_holds (A : matrix) (b : list R) (vars : list nat) (y : list R) : Prop :=
  forall k, (k < length A)%nat -> row_value (nth k A []) vars y = nth k b 0.

(** All rows have [cols] entries. *)
Definition has_cols (cols : nat) (A : matrix) : Prop := Forall (fun r => length r = cols) A.

(** Constraint [i] only involves variables that have a cost coefficient (are not
    multipliers). *)
Definition on_variables (p : program) (i : nat) : Prop :=
  Forall (fun v => (v < length (p_cost p))%nat) (nth i (p_cliques p) []).

(** Second-order cones: the vectors [s] with entries [0 .. n] whose first entry is
    at least the length of the rest, and those where it is larger. *)
Definition lorentz (n : nat) (s : nat -> R) : Prop :=
  0 <= s 0%nat /\ total (fun k => s k * s k) (seq 1 n) <= s 0%nat * s 0%nat.
Definition lorentz_interior (n : nat) (s : nat -> R) : Prop :=
  0 < s 0%nat /\ total (fun k => s k * s k) (seq 1 n) < s 0%nat * s 0%nat.

(** Entry [k] of [A y] for a matrix given by its columns, and of [c - A y]. *)
Definition column_value (A : matrix) (vars : list nat) (y : list R) (k : nat) : R :=
  total (fun j => nth k (nth j A []) 0 * nth (nth j vars 0%nat) y 0) (seq 0 (length A)).
Definition cone_slack (A : matrix) (c : list R) (vars : list nat) (y : list R) (k : nat) : R :=
  nth k c 0 - column_value A vars y k.

(** Matrices with [h] real components (the reals, complex numbers, quaternions) of
    order [n]: positive definite, positive semidefinite. *)
Definition herm_pd (h n : nat) (X : nat -> nat -> nat -> R) : Prop :=
  exists k, (k <= 2)%nat /\ h = (2 ^ k)%nat /\ Spec_Hyper.posdef n (Spec_Hyper.matrix_of k X).
Definition herm_psd (h n : nat) (X : nat -> nat -> nat -> R) : Prop :=
  exists k, (k <= 2)%nat /\ h = (2 ^ k)%nat /\ Spec_Hyper.possemidef n (Spec_Hyper.matrix_of k X).

(** The entry of component [t] of a matrix given by its components, and of
    [C - sum_j y_j A_j]. *)
Definition component (M : list matrix) (t r c : nat) : R := mget (nth t M []) r c.
Definition herm_slack (As : list (list matrix)) (C : list matrix) (vars : list nat) (y : list R) (t r c : nat) : R :=
  component C t r c - total (fun j => component (nth j As []) t r c * nth (nth j vars 0%nat) y 0) (seq 0 (length As)).

(** The matrix whose entries are listed by components and rows. *)
Definition listed_matrix (n : nat) (l : list R) (t r c : nat) : R := nth ((t * n + r) * n + c) l 0.
(** Sum of the products of all entries. *)
Definition herm_inner (h n : nat) (X Y : nat -> nat -> nat -> R) : R :=
  total (fun t => total (fun r => total (fun c => X t r c * Y t r c) (seq 0 n)) (seq 0 n)) (seq 0 h).

(** The scaling of every linear constraint, of every second-order cone and of every
    Hermitian constraint is in the interior of its cone.  The product of a stored
    direction of a Hermitian constraint with the scaling is Hermitian. *)
Definition interior (st : cst) : Prop :=
  forall i s, nth_error (ct_cons st) i = Some s ->
  match s with
  | SLinear w => forall W, lw_W w = Some W -> Forall (fun x => 0 < x) W
  | SSoc w => forall W, sw_W w = Some W -> Spec_Soc.interior (Spec_Soc.euclid (sw_n w)) W
  | SHerm w => forall W, hw_W w = Some W -> exists k, (k <= 2)%nat /\ hw_h w = (2 ^ k)%nat /\
      let d := hw_n w in let M := Spec_Hyper.matrix_of k W in
      Spec_Hyper.posdef d M /\
      forall WS, hw_WS w = Some WS -> Spec_Hyper.hermitian_matrix d (Spec_Hyper.mmul d (Spec_Hyper.matrix_of k WS) M)
  | _ => True
  end.

(** Every number written to the statistics area (centering parameters and
    scalings) is positive. *)
Definition stats_positive {St} (n : numeric St) : Prop :=
  forall k v, nth_error (nm_area n) k = Some (Some v) -> 0 < v.

(** The numeric state a solve starts from is re-created, or sound. *)
Definition sound_start (p : program) (n : numeric cst) (c : config) : Prop :=
  reinitialises p c \/ (interior (nm_bk n) /\ stats_positive n).

(** A client's use of one program: API calls, and solves that come back and do
    not prepare dual variables.  Each solve may use its own options. *)
Inductive conex_session (nf : environment) : program -> numeric cst -> Prop :=
| CFresh m n : conex_session nf (new_program m) n
| CCall p n k p' r : conex_session nf p n -> ~ is_solve k -> api_step p k = Ok (p', r) -> conex_session nf p' n
| CSolved p n c r : conex_session nf p n -> prepare_dual_variables c = 0%Z ->
    ConexSolve nf p n c = Ok (Returned _ r) -> conex_session nf (rt_prog _ r) (rt_num _ r).

(** ** Line search *)

(** Order of the numbers with infinities; false when an operand is NaN. *)
Definition ele (a b : ext) : Prop :=
  match a, b with
  | NaN, _ | _, NaN => False
  | NInf, _ | _, PInf => True
  | Fin x, Fin y => x <= y
  | _, _ => False
  end.

(** Component of the search direction: weight [w], row [a] over [vars], right-hand
    side [b], at the point [y] and the multiple [c] of the right-hand side. *)
Definition direction (w : R) (a : list R) (vars : list nat) (b : R) (y : list R) (c : R) : R :=
  w * (row_value a vars y - c * b) + 1.

(** [P] holds for every row of every linear constraint: constraint data, weight. *)
Definition each_row (p : program) (st : cst) (P : R -> list R -> list nat -> R -> Prop) : Prop :=
  forall i co cols A b w W k, nth_error (p_eqs p) i = Some co -> ct_data co = CLinear cols A b ->
    nth_error (ct_cons st) i = Some (SLinear w) -> lw_W w = Some W -> (k < length A)%nat ->
    P (nth k W 0) (nth k A []) (nth i (p_cliques p) []) (nth k b 0).

(** All components of the direction interpolated between [(y0, c0)] and
    [(y1, c1)] are within [bound]. *)
Definition within (p : program) (st : cst) (y0 y1 : list R) (c0 c1 bound t : R) : Prop :=
  each_row p st (fun w a vars b =>
    Rabs (direction w a vars b y0 c0 + t * (direction w a vars b y1 c1 - direction w a vars b y0 c0)) <= bound).

(** No component is constant and exactly at the bound. *)
Definition no_tie (p : program) (st : cst) (y0 y1 : list R) (c0 c1 bound : R) : Prop :=
  each_row p st (fun w a vars b =>
    ~ (direction w a vars b y1 c1 = direction w a vars b y0 c0 /\ Rabs (direction w a vars b y0 c0) = bound)).

(** The rows of all linear constraints have the declared number of columns. *)
Definition rectangular (p : program) : Prop :=
  forall i co cols A b, nth_error (p_eqs p) i = Some co -> ct_data co = CLinear cols A b -> has_cols cols A.

(** The columns of a second-order cone of order [n] and its affine term have
    [n + 1] entries. *)
Definition sized_cones (p : program) : Prop :=
  forall i co n A c, nth_error (p_eqs p) i = Some co -> ct_data co = CSoc n A c ->
    has_cols (n + 1) A /\ length c = (n + 1)%nat.

(** There are no second-order cones and Hermitian constraints. *)
Definition no_cones (p : program) : Prop :=
  forall i co, nth_error (p_eqs p) i = Some co -> (forall n A c, ct_data co <> CSoc n A c) /\ forall h n A c, ct_data co <> CHerm h n A c.
(** There are no Hermitian constraints. *)
Definition no_matrices (p : program) : Prop :=
  forall i co h n A c, nth_error (p_eqs p) i = Some co -> ct_data co <> CHerm h n A c.

(** ** The linear system *)

(** The variable lists fit the constraints, every variable and multiplier occurs,
    and the symbolic factorization is not affected by the fault of C08. *)
Record well_built (p : program) : Prop := {
  wb_admissible : admissible (p_cliques p) (p_duals p);
  wb_lengths : length (p_cliques p) = length (p_eqs p);
  wb_vars : forall i c, nth_error (p_eqs p) i = Some c -> ct_vars c = length (nth i (p_cliques p) []);
  wb_covered : forall v, covered (p_cliques p) v <-> (v < SizeOfKKTSystem p)%nat;
  wb_private : forall i j v, In v (nth i (p_duals p) []) -> In v (nth j (p_cliques p) []) -> i = j;
  wb_multipliers : forall i v, In v (nth i (p_duals p) []) -> (length (p_cost p) <= v)%nat;
  wb_direct : forall d o bs, build (p_cliques p) (p_duals p) = Ok (d, o, bs) ->
    forall b, In b bs -> direct_update b = true -> ~ In (-1)%Z (b_sn b)
}.

(** A solve uses a KKT solver for all present constraints. *)
Definition up_to_date (p : program) (c : config) : Prop :=
  reinitialises p c \/ (p_solver p = Some (p_cliques p, p_duals p) /\ p_sys p = SizeOfKKTSystem p).

(** Equality constraints [A y = b] have one multiplier per row and at most one
    column per other entry of their variable list. *)
Definition sized_equalities (p : program) : Prop :=
  forall i co A b, nth_error (p_eqs p) i = Some co -> ct_data co = CEq A b ->
    has_cols (mcols A) A /\ (mcols A + length A <= length (nth i (p_cliques p) []))%nat /\ length (nth i (p_duals p) []) = length A.

(** Entry of a symmetric matrix of which the lower triangle is given. *)
Definition symmetric_entry (Q : matrix) (a b : nat) : R :=
  if ((Nat.max a b <? length Q) && (Nat.min a b <? mcols Q))%nat then mget Q (Nat.max a b) (Nat.min a b) else 0.

(** Contribution of constraint [i] to the derivative by the entry [a] of its
    variable list: [x] are the dual variables of the rows of inequalities, of
    second-order cones and of the entries of Hermitian constraints, [y] the unknowns
    of the system, [c] the multiple of the right-hand side of equalities. *)
Definition contribution (p : program) (x : nat -> list R) (y : list R) (c : R) (i a : nat) : R :=
  let vars := nth i (p_cliques p) [] in
  match nth_error (p_eqs p) i with
  | Some co =>
      match ct_data co with
      | CLinear _ A _ => total (fun k => mget A k a * nth k (x i) 0) (seq 0 (length A))
      | CSoc n A _ => total (fun k => nth k (nth a A []) 0 * nth k (x i) 0) (seq 0 (n + 1))
      | CHerm h n As _ => herm_inner h n (component (nth a As [])) (listed_matrix n (x i))
      | CEq A b =>
          let n := (length vars - length A)%nat in
          if (a <? n)%nat
          then total (fun j => mget A j a * nth (nth (n + j) vars 0%nat) y 0) (seq 0 (length A))
          else row_value (nth (a - n) A []) vars y - c * nth (a - n) b 0
      | CQuad Q => total (fun b => symmetric_entry Q a b * nth (nth b vars 0%nat) y 0) (seq 0 (length vars))
      | _ => 0
      end
  | None => 0
  end.

(** Component [u] of the gradient: the sum over all constraints. *)
Definition gradient (p : program) (x : nat -> list R) (y : list R) (c : R) (u : nat) : R :=
  total (fun i => placed (nth i (p_cliques p) []) (contribution p x y c i) u) (seq 0 (length (p_eqs p))).

(** ** Results *)

(** Only linear inequalities. *)
Definition linear_only (p : program) : Prop :=
  (forall i co, nth_error (p_eqs p) i = Some co -> exists cols A b, ct_data co = CLinear cols A b) /\
  forall dv, In dv (p_duals p) -> dv = [].

(** Only linear inequalities, second-order cones and Hermitian constraints. *)
Definition conic_only (p : program) : Prop :=
  (forall i co, nth_error (p_eqs p) i = Some co ->
     (exists cols A b, ct_data co = CLinear cols A b) \/ (exists n A c, ct_data co = CSoc n A c) \/ exists h n As C, ct_data co = CHerm h n As C) /\
  forall dv, In dv (p_duals p) -> dv = [].

(** The QR solutions are exact for nonsingular symmetric matrices. *)
Definition qr_solves (qr : nat -> (nat -> nat -> R) -> (nat -> R) -> nat -> R) : Prop :=
  forall n K b, (forall u v, (u < n)%nat -> (v < n)%nat -> K u v = K v u) -> nonsingular n K -> solves n K (qr n K b) b.

(** Multiplier blocks are absent, or were factored without regularisation: every
    supernode is nonempty and every pivot above the threshold. *)
Definition exact_pivots (p : program) (st : cst) : Prop :=
  (forall dv, In dv (p_duals p) -> dv = []) \/
  forall d o bs, build (p_cliques p) (p_duals p) = Ok (d, o, bs) ->
  match ct_fact st with
  | Some (Blocks (FLdlt m fs _, _)) => forall k, (k < length (p_cliques p))%nat -> (0 < nth k (d_supernode_size d) 0)%nat /\
      forall j, (j < nth k (d_supernode_size d) 0)%nat -> / 1000000000 < Rabs (m (ADiag k j j))
  | _ => True
  end.

(** The program in mathematical form: minimise
    [cost . y + k / 2 * sum_i y^T Q_i y] subject to [A y <= b], [A y = b],
    [c - A y] in second-order cones and [C - sum_j y_j A_j] positive
    semidefinite. *)
Definition quadratic_form (Q : matrix) (vars : list nat) (y : list R) : R :=
  total (fun a => nth (nth a vars 0%nat) y 0 *
    total (fun b => symmetric_entry Q a b * nth (nth b vars 0%nat) y 0) (seq 0 (length vars))) (seq 0 (length vars)).
Definition objective (p : program) (k : R) (y : list R) : R :=
  total (fun v => nth v (p_cost p) 0 * nth v y 0) (seq 0 (length (p_cost p))) +
  k / 2 * total (fun i => match nth_error (p_eqs p) i with
                          | Some co => match ct_data co with CQuad Q => quadratic_form Q (nth i (p_cliques p) []) y | _ => 0 end
                          | None => 0
                          end) (seq 0 (length (p_eqs p))).
Definition feasible (p : program) (y : list R) : Prop :=
  forall i co, nth_error (p_eqs p) i = Some co ->
  match ct_data co with
  | CLinear _ A b => inequality_holds A b (nth i (p_cliques p) []) y
  | CSoc n A c => lorentz n (cone_slack A c (nth i (p_cliques p) []) y)
  | CHerm h n As C => herm_psd h n (herm_slack As C (nth i (p_cliques p) []) y)
  | CEq A b => equality_holds A b (nth i (p_cliques p) []) y
  | _ => True
  end.

(** All quadratic costs are convex. *)
Definition convex (p : program) : Prop :=
  forall i co Q y, nth_error (p_eqs p) i = Some co -> ct_data co = CQuad Q -> 0 <= quadratic_form Q (nth i (p_cliques p) []) y.

(** No constraint other than the multiplier part of an equality refers to a
    multiplier. *)
Definition on_costs (p : program) : Prop :=
  forall i co, nth_error (p_eqs p) i = Some co ->
  Forall (fun v => (v < length (p_cost p))%nat)
    (match ct_data co with CEq A _ => firstn (length (nth i (p_cliques p) []) - length A) (nth i (p_cliques p) [])
                         | _ => nth i (p_cliques p) [] end).

(** Number of inequalities; a second-order cone counts as two, a Hermitian
    constraint as many as its order. *)
Definition inequalities (p : program) : R :=
  total (fun i => match nth_error (p_eqs p) i with
                  | Some co => match ct_data co with CLinear _ A _ => INR (length A) | CSoc _ _ _ => 2 | CHerm _ n _ _ => INR n | _ => 0 end
                  | None => 0
                  end) (seq 0 (length (p_eqs p))).

(** A solve with well-formed inputs that hands back the scaled point [y]; [e] is
    the record of its last iteration.  [1 / en_ism e ^ 2] is the final centering
    parameter [mu]. *)
Record handed_back (nf : environment) (p : program) (n : numeric cst) (c : config)
  (r : returned (conex (mode_of nf c) nf)) (y : list R) (e : entry) : Prop := {
  hb_starts : starts p c;
  hb_sound : sound_start p n c;
  hb_limit : limit_fits p c;
  hb_built : well_built p;
  hb_recent : up_to_date p c;
  hb_solve : ConexSolve nf p n c = Ok (Returned _ r);
  hb_y : rt_y _ r = YVec y;
  hb_entry : exists t, rt_log _ r = e :: t;
  hb_mu : 1 / (en_ism e * en_ism e) <= infeasibility_threshold c
}.

(** The scalings of the cost ([bs]) and of the right-hand sides ([cs]) that a
    solve leaves in its statistics. *)
Definition scalings {St} (p : program) (n : numeric St) (bs cs : R) : Prop :=
  exists ss, p_stats p = Some ss /\ cell_is n (b_cell (ss_max_iter ss)) bs /\ cell_is n (c_cell (ss_max_iter ss)) cs.

(** Left-hand side minus right-hand side of row [j] of the equality [A y = b]. *)
Definition residual (A : matrix) (b : list R) (vars : list nat) (y : list R) (j : nat) : R :=
  row_value (nth j A []) vars y - nth j b 0.

(** Slack of row [k] of the inequality [A y <= b]. *)
Definition slack_of (A : matrix) (b : list R) (vars : list nat) (y : list R) (k : nat) : R :=
  nth k b 0 - row_value (nth k A []) vars y.

(** [cost . y], and the sum of [b_k x_k] over all rows of the inequalities and
    second-order cones and all entries of the Hermitian constraints. *)
Definition linear_cost (p : program) (y : list R) : R :=
  total (fun v => nth v (p_cost p) 0 * nth v y 0) (seq 0 (length (p_cost p))).
Definition dual_value (p : program) (x : nat -> list R) : R :=
  total (fun i => match nth_error (p_eqs p) i with
                  | Some co => match ct_data co with
                               | CLinear _ A b => total (fun k => nth k b 0 * nth k (x i) 0) (seq 0 (length A))
                               | CSoc n _ c => total (fun k => nth k c 0 * nth k (x i) 0) (seq 0 (n + 1))
                               | CHerm h n _ C => herm_inner h n (component C) (listed_matrix n (x i))
                               | _ => 0
                               end
                  | None => 0
                  end) (seq 0 (length (p_eqs p))).

(** Sum of the squared entries of the directions [D]; those of second-order cones
    count twice. *)
Definition squares (p : program) (D : list (list R)) : R :=
  total (fun i => match nth_error (p_eqs p) i with
                  | Some co => match ct_data co with
                               | CSoc _ _ _ => 2 * total (fun k => nth k (nth i D []) 0 * nth k (nth i D []) 0) (seq 0 (length (nth i D [])))
                               | _ => total (fun k => nth k (nth i D []) 0 * nth k (nth i D []) 0) (seq 0 (length (nth i D [])))
                               end
                  | None => 0
                  end) (seq 0 (length (p_eqs p))).

(** ** Completed solves *)

(** A matrix with [h] components of [n] rows and columns that is Hermitian. *)
Definition hermitian_entries (h n : nat) (M : list matrix) : Prop :=
  length M = h /\ Forall (fun X => length X = n /\ has_cols n X) M /\
  forall t r c, (t < h)%nat -> (r < n)%nat -> (c < n)%nat ->
    component M t r c = (if (t =? 0)%nat then component M t c r else - component M t c r).

(** The data of all constraints have matching sizes, no inequality is empty, no
    second-order cone or Hermitian constraint has order zero, the matrices of the
    latter are Hermitian, and only the modelled classes occur. *)
Definition consistent (p : program) : Prop :=
  forall i co, nth_error (p_eqs p) i = Some co ->
  match ct_data co with
  | CLinear cols A b => A <> [] /\ length b = length A /\ (cols <= ct_vars co)%nat
  | CEq A b => length b = length A /\ (length A <= ct_vars co)%nat /\ (mcols A <= ct_vars co)%nat
  | CQuad Q => (length Q <= ct_vars co)%nat /\ (mcols Q <= ct_vars co)%nat
  | CSoc n A c => (0 < n)%nat /\ length A = ct_vars co /\ c <> []
  | CHerm h n As C => (0 < n)%nat /\ (h = 1 \/ h = 2 \/ h = 4)%nat /\ length As = ct_vars co /\ Forall (hermitian_entries h n) (C :: As)
  | _ => False
  end.

(** The list of constraints that take steps contains all inequalities,
    second-order cones and Hermitian constraints, and only existing constraints. *)
Definition listed (p : program) : Prop :=
  (forall i, In i (p_constraints p) -> (i < length (p_eqs p))%nat) /\
  (forall i co cols A b, nth_error (p_eqs p) i = Some co -> ct_data co = CLinear cols A b -> In i (p_constraints p)) /\
  (forall i co n A c, nth_error (p_eqs p) i = Some co -> ct_data co = CSoc n A c -> In i (p_constraints p)) /\
  (forall i co h n As C, nth_error (p_eqs p) i = Some co -> ct_data co = CHerm h n As C -> In i (p_constraints p)).

(** No variable direction leaves all inequalities, second-order cones, Hermitian
    constraints and quadratic costs unchanged, quadratic costs are convex, and there are no equalities. *)
Definition definite (p : program) : Prop :=
  convex p /\ (forall i co A b, nth_error (p_eqs p) i = Some co -> ct_data co <> CEq A b) /\
  (forall dv, In dv (p_duals p) -> dv = []) /\
  forall z,
    (forall i co cols A b k, nth_error (p_eqs p) i = Some co -> ct_data co = CLinear cols A b -> (k < length A)%nat ->
       row_value (nth k A []) (nth i (p_cliques p) []) z = 0) ->
    (forall i co n A c k, nth_error (p_eqs p) i = Some co -> ct_data co = CSoc n A c -> (k <= n)%nat ->
       column_value A (nth i (p_cliques p) []) z k = 0) ->
    (forall i co h n As C t r c, nth_error (p_eqs p) i = Some co -> ct_data co = CHerm h n As C -> (t < h)%nat -> (r < n)%nat -> (c < n)%nat ->
       total (fun j => component (nth j As []) t r c * nth (nth j (nth i (p_cliques p) []) 0%nat) z 0) (seq 0 (length As)) = 0) ->
    (forall i co Q, nth_error (p_eqs p) i = Some co -> ct_data co = CQuad Q -> quadratic_form Q (nth i (p_cliques p) []) z = 0) ->
    forall v, (v < SizeOfKKTSystem p)%nat -> nth v z 0 = 0.

(** The factorization cannot fail: there are multipliers, or the system is
    positive definite. *)
Definition factorable (p : program) : Prop :=
  (exists dv, In dv (p_duals p) /\ dv <> []) \/ definite p.

(** Entry [v] of the sum of the transposed equality rows, weighted by the
    multipliers in [l]. *)
Definition multiplier_sum (p : program) (l : list R) (v : nat) : R :=
  total (fun i => match nth_error (p_eqs p) i with
    | Some co => match ct_data co with
        | CEq A b => placed (nth i (p_cliques p) [])
            (fun a => total (fun k => nth a (nth k A []) 0 * nth (nth k (nth i (p_duals p) []) 0%nat) l 0) (seq 0 (length A))) v
        | _ => 0
        end
    | None => 0
    end) (seq 0 (length (p_eqs p))).

(** Directions that keep all constraint functions, quadratic costs and equalities
    unchanged are zero, quadratic costs are convex, and the rows of the equalities
    are independent. *)
Definition regular (p : program) : Prop :=
  convex p /\ sized_equalities p /\
  (forall z,
    (forall i co cols A b k, nth_error (p_eqs p) i = Some co -> ct_data co = CLinear cols A b -> (k < length A)%nat ->
       row_value (nth k A []) (nth i (p_cliques p) []) z = 0) ->
    (forall i co n A c k, nth_error (p_eqs p) i = Some co -> ct_data co = CSoc n A c -> (k <= n)%nat ->
       column_value A (nth i (p_cliques p) []) z k = 0) ->
    (forall i co h n As C t r c, nth_error (p_eqs p) i = Some co -> ct_data co = CHerm h n As C -> (t < h)%nat -> (r < n)%nat -> (c < n)%nat ->
       total (fun j => component (nth j As []) t r c * nth (nth j (nth i (p_cliques p) []) 0%nat) z 0) (seq 0 (length As)) = 0) ->
    (forall i co Q, nth_error (p_eqs p) i = Some co -> ct_data co = CQuad Q -> quadratic_form Q (nth i (p_cliques p) []) z = 0) ->
    (forall i co A b k, nth_error (p_eqs p) i = Some co -> ct_data co = CEq A b -> (k < length A)%nat ->
       row_value (nth k A []) (nth i (p_cliques p) []) z = 0) ->
    forall v, (v < SizeOfKKTSystem p)%nat ->
      (forall i co A b, nth_error (p_eqs p) i = Some co -> ct_data co = CEq A b -> ~ In v (nth i (p_duals p) [])) -> nth v z 0 = 0) /\
  forall l, (forall v, (v < SizeOfKKTSystem p)%nat -> multiplier_sum p l v = 0) ->
    forall i co A b k, nth_error (p_eqs p) i = Some co -> ct_data co = CEq A b -> (k < length A)%nat ->
      nth (nth k (nth i (p_duals p) []) 0%nat) l 0 = 0.

(** In QR mode the systems are nonsingular and solved exactly. *)
Definition qr_ready (nf : environment) (p : program) (c : config) : Prop :=
  kkt_solver c = 2%Z -> rectangular p /\ regular p /\ qr_solves (env_qr nf).
