(** Model of conex/soc_constraint.{h,cc}, conex/quadratic_cone_constraint.{h,cc},
    conex/quadratic_epigraph.cc, of both modes of
    conex/linear_constraint.cc:177-205 and of [NonZeroSubMat] in interfaces/conex.cc.

    A vector of length [n + 1] is stored as the pair of its first entry and of its
    tail of length [n] (the sources keep [W0], [W1] and [d0], [temp1_1] apart in the
    same way).  Matrices with [n + 1] rows are given by their columns.  Exact real
    arithmetic.  The vector [y] handed to a constraint has as many entries as the
    constraint has variables.  Printing ([DUMP]) and [assert] are ignored.  No
    proofs in this file. *)
From Coq Require Import List Arith Reals Bool.
From Verif Require Import Base DenseModel JordanModel.
Import ListNotations.
Open Scope R_scope.

Definition spin := (R * vec)%type.

(** [u.dot(v)], [M * v] and the like on vectors of length [n]. *)
Definition vdotp (n : nat) (u v : vec) : R := rsum n (fun i => u i * v i).
Definition mvec (n : nat) (M : mat) (v : vec) : vec := fun i => rsum n (fun j => M i j * v j).
Definition vscal (a : R) (v : vec) : vec := fun i => a * v i.
Definition vadd (u v : vec) : vec := fun i => u i + v i.
Definition sdotp (n : nat) (x y : spin) : R := fst x * fst y + vdotp n (snd x) (snd y).
Definition sscal (a : R) (x : spin) : spin := (a * fst x, vscal a (snd x)).
Definition sadd (x y : spin) : spin := (fst x + fst y, vadd (snd x) (snd y)).

(** ** soc_constraint.cc *)

(** [SpectralDecompSpinFactor::Compute], 42-51: [q_] and [norm_of_q_]; the
    eigenvalues are [x(0) + norm_of_q_] and [x(0) - norm_of_q_].  The Peirce
    decomposition members (82-121) are never used. *)
Definition spec_norm (n : nat) (x : spin) : R := sqrt (vdotp n (snd x) (snd x)).
Definition spec_q (n : nat) (x : spin) : vec :=
  if Rlt_dec 0 (spec_norm n x) then fun i => snd x i / spec_norm n x else snd x.
Definition spec_ev (n : nat) (x : spin) : R * R := (fst x + spec_norm n x, fst x - spec_norm n x).

(** [Idempotents], 57-69. *)
Definition spec_idem (n : nat) (x : spin) : spin * spin :=
  if Rlt_dec 0 (spec_norm n x)
  then ((/ 2, vscal (/ 2) (spec_q n x)), (/ 2, vscal (- / 2) (spec_q n x)))
  else ((/ 2, fun _ => 0), (/ 2, fun _ => 0)).

(** [QuadraticRepresentation], 130-143. *)
Definition SQuadRep (n : nat) (x y : spin) : spin :=
  let det_x := fst x * fst x - vdotp n (snd x) (snd x) in
  let z := sscal det_x y in
  let z := (fst z * -1, snd z) in
  sadd (sscal (2 * sdotp n x y) x) z.

(** [Sqrt], 145-163: [None] when an eigenvalue is negative ([std::sqrt] is then NaN;
    the [assert] is compiled out). *)
Definition SSqrt (n : nat) (x : spin) : option spin :=
  let '(e0, e1) := spec_ev n x in
  if Rlt_dec (Rmin e0 e1) 0 then None
  else let '(c0, c1) := spec_idem n x in Some (sadd (sscal (sqrt e0) c0) (sscal (sqrt e1) c1)).

(** [Exp], 165-176. *)
Definition SExp (n : nat) (x : spin) : spin :=
  let '(e0, e1) := spec_ev n x in
  let '(c0, c1) := spec_idem n x in sadd (sscal (exp e0) c0) (sscal (exp e1) c1).

(** [NormInf], 178-191. *)
Definition SNormInf (n : nat) (x : spin) : R :=
  let '(e0, e1) := spec_ev n x in
  if Rlt_dec (Rabs e1) (Rabs e0) then Rabs e0 else Rabs e1.

(** The members of [SOCConstraint] (soc_constraint.h) with its workspace
    (workspace_soc.h): the order [n_] of the workspace, the number of columns and
    the columns of [constraint_matrix_], [constraint_affine_] ([None]: still the
    empty matrix of the constructor [SOCConstraint(int)], reading it is undefined),
    [W], and the search direction [d0], [temp1_1]. *)
Record soc := mkSoc { so_n : nat; so_m : nat; so_A : nat -> spin; so_c : option spin; so_W : spin; so_d : spin }.
Definition soc_state (o : soc) (W d : spin) : soc := mkSoc (so_n o) (so_m o) (so_A o) (so_c o) W d.

(** The square root of a vector outside the cone is NaN, and so is everything
    computed from it; the model stops there with the outcome [UB]. *)
Definition finite {A} (x : option A) : res A := match x with Some a => Ok a | None => UB end.
Definition filled {A} (x : option A) : res A := match x with Some a => Ok a | None => UB end.

(** [SetIdentity], soc_constraint.h:30-33. *)
Definition SSetIdentity (o : soc) : soc := soc_state o (1, fun _ => 0) (so_d o).

(** [A * y] for a matrix given by its columns. *)
Definition columns_times (m : nat) (A : nat -> spin) (y : vec) : spin :=
  (rsum m (fun j => fst (A j) * y j), fun i => rsum m (fun j => snd (A j) i * y j)).

(** [ComputeNegativeSlack], 193-197. *)
Definition SNegativeSlack (o : soc) (k : R) (y : vec) : res spin :=
  c <- filled (so_c o) ;;
  let Ay := columns_times (so_m o) (so_A o) y in
  Ok (fst Ay - fst c * k, fun i => snd Ay i - snd c i * k).

(** [GetWeightedSlackEigenvalues], 200-223: [lambda_min], [lambda_max],
    [frobenius_norm_squared], [trace]. *)
Definition report_slack (e0 e1 : R) : R * R * R * R :=
  let lamda_max := - Rmin e0 e1 in
  let lamda_min := - Rmax e0 e1 in
  (lamda_min, lamda_max, lamda_max ^ 2 + lamda_min ^ 2, lamda_max + lamda_min).
Definition SWeightedSlack (o : soc) (y : vec) (c_weight : R) : res (R * R * R * R) :=
  minus_s <- SNegativeSlack o c_weight y ;;
  wsqrt <- finite (SSqrt (so_n o) (so_W o)) ;;
  let '(e0, e1) := spec_ev (so_n o) (SQuadRep (so_n o) wsqrt minus_s) in
  Ok (report_slack e0 e1).

(** [TakeStep], 225-249.  The scaling point still holds the square root left by
    [PrepareStep].  [d1] is a view of [temp1_1], so scaling it changes the
    workspace; [d0] is a copy. *)
Definition STakeStep (o : soc) (step_size : R) : soc :=
  let d := if Req_EM_T step_size 1 then so_d o else sscal step_size (so_d o) in
  soc_state o (SQuadRep (so_n o) (so_W o) (SExp (so_n o) d)) (fst (so_d o), snd d).

(** [PrepareStep], 251-270: the new state, [norminfd] and [normsqrd].  The fields
    [affine] and [e_weight] of the options are not read. *)
Definition SPrepareStep (o : soc) (c_weight : R) (y : vec) : res (soc * (R * R)) :=
  minus_s <- SNegativeSlack o c_weight y ;;
  wsqrt <- finite (SSqrt (so_n o) (so_W o)) ;;
  let d := SQuadRep (so_n o) wsqrt minus_s in
  let d := (fst d + 1, snd d) in
  Ok (soc_state o wsqrt d, (SNormInf (so_n o) d, 2 * sdotp (so_n o) d d)).

(** [ConstructSchurComplementSystem], 272-303. *)
Definition SSchur (o : soc) (initialize : bool) (sys : schur) : res schur :=
  let n := so_n o in
  wsqrt <- finite (SSqrt n (so_W o)) ;;
  c <- filled (so_c o) ;;
  let WsqrtC := SQuadRep n wsqrt c in
  let WA := fun j => SQuadRep n wsqrt (so_A o j) in
  Ok (mkSchur
        (fun i j => put initialize (sc_G sys i j) (2 * sdotp n (WA i) (WA j)))
        (fun i => put initialize (sc_AW sys i) (2 * sdotp n (so_A o i) (so_W o)))
        (fun i => put initialize (sc_AQc sys i) (2 * sdotp n (WA i) WsqrtC))
        (put initialize (sc_wc sys) (2 * fst WsqrtC))
        (put initialize (sc_cQc sys) (2 * sdotp n WsqrtC WsqrtC))).

(** ** quadratic_cone_constraint.cc *)

(** [InnerProduct] and [SquaredNorm], 13-21 and 30-38; [None] is the empty matrix. *)
Definition QInner (n : nat) (Q : option mat) (x y : vec) : R :=
  match Q with Some Q => vdotp n x (mvec n Q y) | None => vdotp n x y end.
Definition QSquaredNorm (n : nat) (Q : option mat) (x : vec) : R := QInner n Q x x.

(** [square_root] and [Norm], 23-28. *)
Definition square_root (x : R) : R := sqrt (Rabs x).
Definition QNorm (n : nat) (Q : option mat) (x : vec) : R := square_root (QSquaredNorm n Q x).

(** [QuadraticRepresentation], 41-56. *)
Definition QQuadRep (x1_norm_squared inner : R) (x y : spin) : spin :=
  let det_x := fst x * fst x - x1_norm_squared in
  let scale := 2 * (fst x * fst y + inner) in
  (scale * fst x - det_x * fst y, fun i => scale * snd x i + det_x * snd y i).

(** [Exp], 58-65, and [Sqrt], 67-74. *)
Definition QExp (k : R) (x : spin) : spin :=
  (/ 2 * (exp (fst x + k) + exp (fst x - k)),
   if Rlt_dec 0 k then vscal (/ 2 * (exp (fst x + k) - exp (fst x - k)) / k) (snd x) else snd x).
Definition QSqrt (k : R) (x : spin) : spin :=
  (/ 2 * (square_root (fst x + k) + square_root (fst x - k)),
   if Rlt_dec 0 k then vscal (/ 2 * (square_root (fst x + k) - square_root (fst x - k)) / k) (snd x) else snd x).

(** The members of [QuadraticConstraintBase] and its workspace: dimension [n_],
    number of variables, [Q_], the columns of [(A0_; A1_)], [(C0_; C1_)],
    [A_gram_], [W0]/[W1], [d0], [temp2_1], [temp3_1], [wsqrt_q1_norm_sqr].  The
    buffer [temp1_1] and the member [A_dot_x_] are written before they are read in
    every function and are left out.  [qc_epi] tells the class [QuadraticEpigraph]
    from its base class. *)
Record qcone := mkQcone {
  qc_n : nat; qc_m : nat; qc_Q : option mat; qc_A : nat -> spin; qc_c : spin; qc_gram : mat; qc_epi : bool;
  qc_W : spin; qc_d0 : R; qc_temp2 : vec; qc_temp3 : vec; qc_wnorm : R }.
Definition qc_state (o : qcone) (W : spin) (d0 : R) (temp2 temp3 : vec) (wnorm : R) : qcone :=
  mkQcone (qc_n o) (qc_m o) (qc_Q o) (qc_A o) (qc_c o) (qc_gram o) (qc_epi o) W d0 temp2 temp3 wnorm.

(** [EvalAtQX], 99-116, on one column [X]. *)
Definition QEvalAtQX (n : nat) (Q : option mat) (A : nat -> spin) (X : vec) : vec :=
  fun j => QInner n Q (snd (A j)) X.

(** [QuadraticEpigraph::EvalAtQX], quadratic_epigraph.cc:44-63 ([n] is the number
    of rows of [Q_]): [Qi * X.bottomRows(n - 1)] above [-.5 * X(0)]. *)
Definition EEvalAtQX (n : nat) (Q : option mat) (X : vec) : vec :=
  fun j => if (j <? n - 1)%nat
           then rsum (n - 1) (fun l => match Q with Some Q => Q (S j) (S l) | None => 0 end * X (S l))
           else - / 2 * X 0%nat.
Definition eval_AtQX (o : qcone) (X : vec) : vec :=
  if qc_epi o then EEvalAtQX (qc_n o) (qc_Q o) X else QEvalAtQX (qc_n o) (qc_Q o) (qc_A o) X.

(** The constructor, quadratic_cone_constraint.h:12-27, and [Initialize], 210-213.
    The virtual call inside the constructor runs the base-class function for both
    classes.  The buffers are uninitialised memory, the arguments
    [W d0 temp2 temp3 wnorm]. *)
Definition QConstruct (n m : nat) (Q : option mat) (A : nat -> spin) (c : spin) (epi : bool)
    (W : spin) (d0 : R) (temp2 temp3 : vec) (wnorm : R) : qcone :=
  mkQcone n m Q A c (fun i j => QEvalAtQX n Q A (snd (A j)) i) epi W d0 temp2 temp3 wnorm.

(** [SetIdentity], 292-295. *)
Definition QSetIdentity (o : qcone) : qcone :=
  qc_state o (1, fun _ => 0) (qc_d0 o) (qc_temp2 o) (qc_temp3 o) (qc_wnorm o).

(** [ComputeNegativeSlack], 127-136. *)
Definition QNegativeSlack (o : qcone) (k : R) (y : vec) : spin :=
  let Ay := columns_times (qc_m o) (qc_A o) y in
  (fst Ay - fst (qc_c o) * k, fun i => snd Ay i - snd (qc_c o) i * k).

(** [GetWeightedSlackEigenvalues], 138-170.  It overwrites [temp2_1] and
    [temp3_1]. *)
Definition QWeightedSlack (o : qcone) (y : vec) (c_weight : R) : qcone * (R * R * R * R) :=
  let n := qc_n o in
  let Q := qc_Q o in
  let minus_s := QNegativeSlack o c_weight y in
  let wsqrt := QSqrt (QNorm n Q (snd (qc_W o))) (qc_W o) in
  let Ws := QQuadRep (QSquaredNorm n Q (snd wsqrt)) (QInner n Q (snd wsqrt) (snd minus_s)) wsqrt minus_s in
  let e0 := fst Ws + QNorm n Q (snd Ws) in
  let e1 := fst Ws - QNorm n Q (snd Ws) in
  (qc_state o (qc_W o) (qc_d0 o) (snd Ws) (snd wsqrt) (qc_wnorm o), report_slack e0 e1).

(** [PrepareStep], 172-208: the new state, [norminfd] and [normsqrd].  Only the
    first entry [W0] of the scaling point is replaced by that of its square root;
    the rest of the square root goes to [temp3_1]. *)
Definition QPrepareStep (o : qcone) (c_weight : R) (y : vec) : qcone * (R * R) :=
  let n := qc_n o in
  let Q := qc_Q o in
  let minus_s := QNegativeSlack o c_weight y in
  let wsqrt := QSqrt (QNorm n Q (snd (qc_W o))) (qc_W o) in
  let wnorm := QSquaredNorm n Q (snd wsqrt) in
  let d := QQuadRep wnorm (QInner n Q (snd wsqrt) (snd minus_s)) wsqrt minus_s in
  let d := (fst d + 1, snd d) in
  let e0 := fst d + QNorm n Q (snd d) in
  let e1 := fst d - QNorm n Q (snd d) in
  let norminfd := if Rlt_dec (Rabs e0) (Rabs e1) then Rabs e1 else Rabs e0 in
  (qc_state o (fst wsqrt, snd (qc_W o)) (fst d) (snd d) (snd wsqrt) wnorm,
   (norminfd, e0 * e0 + e1 * e1)).

(** [TakeStep], 215-235. *)
Definition QTakeStep (o : qcone) (step_size : R) : qcone :=
  let n := qc_n o in
  let Q := qc_Q o in
  let d := (qc_d0 o, qc_temp2 o) in
  let d := if Req_EM_T step_size 1 then d else (step_size * fst d, vscal step_size (snd d)) in
  let expd := QExp (QNorm n Q (snd d)) d in
  let wsqrt := (fst (qc_W o), qc_temp3 o) in
  qc_state o (QQuadRep (qc_wnorm o) (QInner n Q (snd wsqrt) (snd expd)) wsqrt expd)
           (fst expd) (snd expd) (qc_temp3 o) (qc_wnorm o).

(** [ConstructSchurComplementSystem], 239-290, with [SchurComplement], 83-96, and
    [EvalCQX], 118-125.  When [Q_] is not empty [temp2_1] is overwritten.  The final
    doubling applies to the whole content. *)
Definition QSchur (o : qcone) (initialize : bool) (sys : schur) : qcone * schur :=
  let n := qc_n o in
  let Q := qc_Q o in
  let W := qc_W o in
  let A0 := fun i => fst (qc_A o i) in
  let C0 := fst (qc_c o) in
  let C1 := snd (qc_c o) in
  let c_dot_x := QInner n Q C1 (snd W) in
  let A_dot_x := eval_AtQX o (snd W) in
  let det_w := fst W * fst W - QSquaredNorm n Q (snd W) in
  let v := fun i => A_dot_x i + A0 i * fst W in
  let G := fun i j =>
    (if initialize then (A0 i * A0 j - qc_gram o i j) * - det_w
     else sc_G sys i j + det_w * (qc_gram o i j - A0 i * A0 j)) + v i * v j + v i * v j in
  let AW := fun i => put initialize (sc_AW sys i) (v i) in
  let AQc := fun i => put initialize (sc_AQc sys i) (det_w * (eval_AtQX o C1 i - A0 i * C0)) in
  let cQc := put initialize (sc_cQc sys) (det_w * (QInner n Q C1 C1 - C0 * C0)) in
  let scale := match Q with Some Q => vdotp n (mvec n Q (snd W)) C1 | None => vdotp n (snd W) C1 end + C0 * fst W in
  let AQc := fun i => AQc i + 2 * v i * scale in
  let cQc := cQc + 2 * (c_dot_x + C0 * fst W) * scale in
  let wc := put initialize (sc_wc sys) scale in
  (qc_state o W (qc_d0 o) (match Q with Some Q => mvec n Q (snd W) | None => qc_temp2 o end) (qc_temp3 o) (qc_wnorm o),
   mkSchur (fun i j => G i j * 2) (fun i => AW i * 2) (fun i => AQc i * 2) (wc * 2) (cQc * 2)).

(** ** Quadratic costs in epigraph form *)

(** The data built by [AddQuadraticCostEpigraph], quadratic_cone_constraint.h:91-118,
    and by [BuildQ], [BuildA], [Buildb], quadratic_epigraph.cc:6-35, for a cost
    matrix of order [k]: [Q], the columns of [A] and [b]. *)
Definition epi_Q (k : nat) (Qi : mat) : mat := fun i j =>
  match i, j with O, O => 1 | S a, S b => if ((a <? k) && (b <? k))%nat then Qi a b else 0 | _, _ => 0 end.
Definition epi_A (k : nat) (j : nat) : spin :=
  (if (j =? k)%nat then - / 2 else 0,
   fun i => match i with O => if (j =? k)%nat then - / 2 else 0 | S a => if ((a =? j) && (a <? k))%nat then 1 else 0 end).
Definition epi_b : spin := (1, fun i => match i with O => -1 | _ => 0 end).
Definition Epigraph (k : nat) (Qi : mat) (epi : bool) (W : spin) (d0 : R) (temp2 temp3 : vec) (wnorm : R) : qcone :=
  QConstruct (k + 1) (k + 1) (Some (epi_Q k Qi)) (epi_A k) epi_b epi W d0 temp2 temp3 wnorm.

(** ** Linear constraints *)

(** [ConstructSchurComplementSystem], linear_constraint.cc:177-205, for [r] rows and
    [m] variables in a system of order [size], in both modes. *)
Definition LSchur (r m size : nat) (A : mat) (c W : vec) (initialize : bool) (sys : schur) : schur :=
  let WA := fun k j => W k * A k j in
  let WC := fun k => W k * c k in
  let clear := (initialize && negb (size =? m)%nat)%bool in
  let old := if clear then mkSchur (fun _ _ => 0) (fun _ => 0) (fun _ => 0) 0 0 else sys in
  mkSchur
    (fun i j => if ((i <? m) && (j <? m))%nat
                then put initialize (sc_G old i j) (rsum r (fun k => WA k i * WA k j)) else sc_G old i j)
    (fun i => if (i <? m)%nat then put initialize (sc_AW old i) (rsum r (fun k => A k i * W k)) else sc_AW old i)
    (fun i => if (i <? m)%nat then put initialize (sc_AQc old i) (rsum r (fun k => WA k i * WC k)) else sc_AQc old i)
    (if clear then 0 else put initialize (sc_wc sys) (rsum r WC))
    (if clear then 0 else put initialize (sc_cQc sys) (rsum r (fun k => WC k * WC k))).

(** ** [NonZeroSubMat], interfaces/conex.cc:44-64 *)

(** The list [vars] of a matrix with [n] rows. *)
Definition nz_vars (n : nat) (M : mat) : list nat :=
  filter (fun i => if Rlt_dec 0 (M i i) then true else false) (seq 0 n).

(** The two loops: each entry is written to ([row], [col]) and then to ([col],
    [row]).  The argument [Y] is the uninitialised matrix. *)
Definition nz_write (M : mat) (vars : list nat) (Y : mat) (row col : nat) : mat :=
  let i := nth row vars 0%nat in
  let j := nth col vars 0%nat in
  let Y := mset Y row col ((M i j + M j i) / 2) in
  mset Y col row (Y row col).
Definition NonZeroSubMat (n : nat) (M Y : mat) : list nat * mat :=
  let vars := nz_vars n M in
  (vars, for_up (length vars) (fun Y row => for_up (length vars) (fun Y col => nz_write M vars Y row col) Y) Y).
