(** Model of the operations of the constraint classes [LinearConstraint]
    (conex/linear_constraint.cc:47-205), [EqualityConstraints]
    (conex/equality_constraint.cc:12-38) and [QuadraticFunction]
    (conex/quadratic_cost.cc:18-70).

    Simplifications: real numbers instead of doubles; a division by zero has the
    explicit results of [ext]; a matrix is the list of its rows.  Operands of
    unequal size and blocks reaching over the border of a matrix are [UB] (the
    checks of Eigen are compiled out), so is the largest or smallest entry of an
    empty vector.  Vectors that were never written are [None]; reading one is
    [UB].  No proofs in this file. *)
From Coq Require Import List Arith Reals Bool.
From Verif Require Import Base LayoutModel DenseModel KktModel ProgramModel DivergenceModel SolveModel.
Import ListNotations.
Open Scope R_scope.

Definition written {A} (x : option A) : res A := match x with Some a => Ok a | None => UB end.

(** Eigen [maxCoeff] and [minCoeff]. *)
Definition maxCoeff (l : list R) : res R :=
  match l with [] => UB | x :: t => Ok (fold_left Rmax t x) end.
Definition minCoeff (l : list R) : res R :=
  match l with [] => UB | x :: t => Ok (fold_left Rmin t x) end.
Definition vtotal (l : list R) : R := fold_right Rplus 0 l.

(** ** Numbers with infinities *)

Inductive ext := NInf | Fin (r : R) | PInf | NaN.

(** IEEE division; a zero divisor is [+0] (the divisor below is a difference of
    two equal numbers). *)
Definition ediv (a b : R) : ext :=
  if Req_EM_T b 0 then
    if Rlt_dec 0 a then PInf else if Rlt_dec a 0 then NInf else NaN
  else Fin (a / b).

(** The comparison [<]; false when an operand is NaN. *)
Definition elt (a b : ext) : bool :=
  match a, b with
  | NaN, _ | _, NaN => false
  | NInf, NInf => false
  | NInf, _ => true
  | Fin x, Fin y => Rltb x y
  | Fin _, PInf => true
  | _, _ => false
  end.

(** ** [LinearConstraint] *)

(** The maps [W], [temp_1], [temp_2] of conex/linear_workspace.h:40-42. *)
Record linear_ws := mkLin { lw_W : option (list R); lw_t1 : option (list R); lw_t2 : option (list R) }.

(** conex/linear_constraint.cc:164-168. *)
Definition ComputeNegativeSlack (cols : nat) (A : matrix) (b : list R) (inv_sqrt_mu : R) (y : list R)
  : res (list R) :=
  if (length y <? cols)%nat then UB
  else vminus (map (fun a => vdot a (firstn cols y)) A) (vscale inv_sqrt_mu b).

(** conex/linear_constraint.cc:47-81: one pass of the loop and the result
    [(lower_bound, upper_bound)]; [first] is [i == 0]. *)
Definition search_step (dinfmax : R) (first : bool) (lower upper : ext) (d0 delta : R) : ext * ext :=
  let u := ediv (dinfmax - d0) delta in
  let l := ediv (- dinfmax - d0) delta in
  let '(l, u) := if elt u l then (u, l) else (l, u) in
  (if elt lower l || first then l else lower, if elt u upper || first then u else upper).

Fixpoint FindMinimumMu_loop (dinfmax : R) (first : bool) (d0 delta : list R) (lower upper : ext)
  : res (ext * ext) :=
  match d0, delta with
  | [], [] => Ok (lower, upper)
  | x :: d0', z :: delta' =>
      let '(l, u) := search_step dinfmax first lower upper x z in
      FindMinimumMu_loop dinfmax false d0' delta' l u
  | _, _ => UB
  end.

(** [None]: returns false. *)
Definition FindMinimumMu (d0 delta : list R) (dinfmax : R) : res (option (ext * ext)) :=
  '(l, u) <- FindMinimumMu_loop dinfmax true d0 delta (Fin (- DBL_MAX)) (Fin DBL_MAX) ;;
  Ok (if elt u l then None else Some (l, u)).

(** conex/linear_constraint.cc:83-103; [None] is failure. *)
Definition linear_search (cols : nat) (A : matrix) (b : list R) (w : linear_ws) (params : line_params)
  (y0 y1 : list R) : res (linear_ws * option (ext * ext)) :=
  W <- written (lw_W w) ;;
  s0 <- ComputeNegativeSlack cols A b (ln_c0 params) y0 ;;
  e0 <- zip_ Rmult s0 W ;;
  let d0 := map (fun x => x + 1) e0 in
  s1 <- ComputeNegativeSlack cols A b (ln_c1 params) y1 ;;
  e1 <- zip_ Rmult s1 W ;;
  d1 <- vminus (map (fun x => x + 1) e1) d0 ;;
  r <- FindMinimumMu d0 d1 (ln_dinf params) ;;
  Ok (mkLin (Some W) (Some d0) (Some d1), r).

(** conex/linear_constraint.cc:105. *)
Definition linear_identity (A : matrix) (w : linear_ws) : linear_ws :=
  mkLin (Some (repeat 1 (length A))) (lw_t1 w) (lw_t2 w).

(** conex/linear_constraint.cc:170-175. *)
Definition AffineUpdate (w : linear_ws) : res linear_ws :=
  W <- written (lw_W w) ;;
  minus_s <- written (lw_t1 w) ;;
  SW <- zip_ Rmult minus_s W ;;
  u <- zip_ Rmult W SW ;;
  W' <- vplus W u ;;
  Ok (mkLin (Some W') (Some SW) (lw_t2 w)).

(** conex/linear_constraint.cc:130-144. *)
Definition linear_take (w : linear_ws) (o : step_options) : res linear_ws :=
  if op_affine o then AffineUpdate w
  else
    d <- written (lw_t2 w) ;;
    W <- written (lw_W w) ;;
    let d1 := if Req_EM_T (op_step_size o) 1 then d else vscale (op_step_size o) d in
    let d2 := map exp d1 in
    W' <- zip_ Rmult W d2 ;;
    Ok (mkLin (Some W') (lw_t1 w) (Some d2)).

(** conex/linear_constraint.cc:108-128: result [(norminfd, normsqrd)].  In affine
    mode the two numbers are left alone; zeros stand for them (see [PrepareStep]
    of SolveModel.v). *)
Definition linear_prepare (cols : nat) (A : matrix) (b : list R) (w : linear_ws) (o : step_options)
  (y : list R) : res (linear_ws * (R * R)) :=
  if op_affine o then
    minus_s <- ComputeNegativeSlack cols A b 0 y ;;
    w' <- linear_take (mkLin (lw_W w) (Some minus_s) (lw_t2 w)) o ;;
    Ok (w', (0, 0))
  else
    W <- written (lw_W w) ;;
    s <- ComputeNegativeSlack cols A b (op_c_weight o) y ;;
    e <- zip_ Rmult s W ;;
    let d := map (fun x => x + op_e_weight o) e in
    norminf <- maxCoeff (map Rabs d) ;;
    Ok (mkLin (Some W) (lw_t1 w) (Some d), (norminf, vdot d d)).

(** conex/linear_constraint.cc:147-162:
    [lambda_min, lambda_max, frobenius_norm_squared, trace]. *)
Definition linear_spectrum (cols : nat) (A : matrix) (b : list R) (w : linear_ws) (y : list R) (c_weight : R)
  : res (linear_ws * (R * R * R * R)) :=
  W <- written (lw_W w) ;;
  minus_s <- ComputeNegativeSlack cols A b c_weight y ;;
  Ws <- zip_ Rmult W minus_s ;;
  lo <- minCoeff Ws ;;
  hi <- maxCoeff Ws ;;
  Ok (mkLin (Some W) (Some minus_s) (Some Ws), (- hi, - lo, vdot Ws Ws, - vtotal Ws)).

(** ** Constraint blocks *)

(** The matrix [G] and the vectors of one constraint (conex/newton_step.h:51-110). *)
Record schur := mkSchur { sc_G : nat -> nat -> R; sc_rhs : rhs }.

(** [M^T v] for a matrix of [cols] columns. *)
Definition tmul (cols : nat) (M : matrix) (v : list R) : list R :=
  map (fun j => vdot (map (fun r => nth j r 0) M) v) (seq 0 cols).

(** [v] at the top of a zero vector of length [n]. *)
Definition pad (n : nat) (v : list R) : list R := v ++ repeat 0 (n - length v).

(** conex/linear_constraint.cc:177-205 with [initialize = true] (the only value
    used, conex/supernodal_assembler.h:114); [n] is the size of the block.  When
    the sizes differ the zeroing of line 193 also erases the two inner products
    (lines 190-191). *)
Definition linear_schur (cols : nat) (A : matrix) (b : list R) (w : linear_ws) (n : nat)
  : res (linear_ws * schur) :=
  W <- written (lw_W w) ;;
  WA <- (if (length W =? length A)%nat then Ok (map (fun p => vscale (fst p) (snd p)) (combine W A)) else UB) ;;
  WC <- zip_ Rmult W b ;;
  if (n <? cols)%nat then UB
  else
    let full := (n =? cols)%nat in
    let G := fun i j => if ((i <? cols) && (j <? cols))%nat
                        then vdot (map (fun r => nth i r 0) WA) (map (fun r => nth j r 0) WA) else 0 in
    Ok (mkLin (Some W) (Some WC) (lw_t2 w),
        mkSchur G (mkRhs (pad n (tmul cols A W)) (pad n (tmul cols WA WC))
                         (if full then vtotal WC else 0) (if full then vdot WC WC else 0))).

(** Columns of a matrix given by its rows. *)
Definition mcols (A : matrix) : nat := match A with [] => 0 | r :: _ => length r end.
Definition mget (A : matrix) (i j : nat) : R := nth j (nth i A []) 0.

(** conex/equality_constraint.cc:12-29 with [initialize = true]: the lower left
    corner is written first, then the upper right one. *)
Definition equality_schur (A : matrix) (b : list R) (n : nat) : res schur :=
  let r := length A in
  let c := mcols A in
  if ((n <? r) || (n <? c) || negb (length b =? r))%nat then UB
  else
    let G := fun i j =>
               if ((i <? c) && (n - r <=? j) && (j <? n))%nat then mget A (j - (n - r)) i
               else if ((n - r <=? i) && (i <? n) && (j <? c))%nat then mget A (i - (n - r)) j else 0 in
    Ok (mkSchur G (mkRhs (repeat 0 n) (repeat 0 (n - r) ++ b) 0 0)).

(** conex/equality_constraint.cc:31-36: the member [lambda_]. *)
Definition equality_prepare (b : list R) (y : list R) : res (list R) :=
  if (length y <? length b)%nat then UB else Ok (skipn (length y - length b) y).

(** conex/quadratic_cost.cc:46-58 with [initialize = true]. *)
Definition quadratic_schur (Q : matrix) (n : nat) : res schur :=
  if ((n <? length Q) || (n <? mcols Q))%nat then UB
  else Ok (mkSchur (fun i j => if ((i <? length Q) && (j <? mcols Q))%nat then mget Q i j else 0)
                   (mkRhs (repeat 0 n) (repeat 0 n) 0 0)).
