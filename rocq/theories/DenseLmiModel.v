(** conex/dense_lmi_constraint.{h,cc} with the workspace of conex/psd_constraint.{h,cc}:
    the state of a real linear matrix inequality and the calls made on it.
    Simplifications: exact real arithmetic; all matrices are [n x n] (the constructor
    copies [n * n] numbers of each matrix and the products assume that shape, other
    shapes are undefined behaviour of the C++ program and are outside this model). *)
From Coq Require Import List Arith Reals Bool.
From Verif Require Import Base DenseModel JordanModel.
Import ListNotations.
Open Scope R_scope.

(** The members of [MatrixLMIConstraint] (dense_lmi_constraint.h:14-16) and of
    [WorkspaceDensePSD] (psd_constraint.h:33-35): the order, the constraint matrices,
    the affine term, and the blocks [W], [temp_1], [temp_2]. *)
Record dense_lmi := mkDenseLmi {
  dl_n : nat; dl_mats : list mat; dl_affine : mat;
  dl_W : mat; dl_temp1 : mat; dl_temp2 : mat }.
Definition dl_mat (o : dense_lmi) (i : nat) : mat := nth i (dl_mats o) (fun _ _ => 0).
Definition with_temps (o : dense_lmi) (t1 t2 : mat) : dense_lmi :=
  mkDenseLmi (dl_n o) (dl_mats o) (dl_affine o) (dl_W o) t1 t2.

(** [constraint_matrices_vect_], dense_lmi_constraint.cc:46-51: column [i] is the
    column-major content of matrix [i]. *)
Definition dl_vect (o : dense_lmi) (p i : nat) : R := dl_mat o i (p mod dl_n o)%nat (p / dl_n o)%nat.
(** [Map<VectorXd>(WAW.data(), n * n)], dense_lmi_constraint.cc:76. *)
Definition as_vector (n : nat) (X : mat) : vec := fun p => X (p mod n)%nat (p / n)%nat.

(** [MultByA<false>] and [DenseLMIConstraint::ComputeNegativeSlack],
    dense_lmi_constraint.cc:8-27. *)
Definition MultByA (y : vec) (mats : list mat) : mat :=
  fst (fold_left (fun acc A => let '(Y, i) := (acc : mat * nat) in ((fun r c => Y r c + y i * A r c), (i + 1)%nat))
         mats ((fun _ _ => 0), 0%nat)).
Definition DNegativeSlack (o : dense_lmi) (k : R) (y : vec) : mat :=
  fun r c => MultByA y (dl_mats o) r c - k * dl_affine o r c.

(** [TraceInnerProduct], dense_lmi_constraint.cc:54-60. *)
Definition DTraceInner (n : nat) (X Y : mat) : R := rsum n (fun i => rsum n (fun r => X r i * Y r i)).
Definition dtrace (n : nat) (X : mat) : R := rsum n (fun r => X r r).

(** One round of the loop in [SCHUR_COMPLEMENT_FUNCTION],
    dense_lmi_constraint.cc:77-83, with [ComputeAW] 29-33 and [EvalDualObjective]
    67-70: row [i] of the lower triangle, [AW] and [AQc]. *)
Definition DSchurRow (o : dense_lmi) (initialize : bool) (st : schur * dense_lmi) (i : nat) : schur * dense_lmi :=
  let '(sys, o) := st in
  let n := dl_n o in
  let AW := rprod n (dl_mat o i) (dl_W o) in
  let WAW := rprod n (dl_W o) AW in
  let G := fold_left (fun G j => mset G i j (put initialize (G i j) (rsum (n * n) (fun p => as_vector n WAW p * dl_vect o p j))))
                     (seq 0 (i + 1)) (sc_G sys) in
  (mkSchur G (vset (sc_AW sys) i (put initialize (sc_AW sys i) (dtrace n AW)))
           (vset (sc_AQc sys) i (put initialize (sc_AQc sys i) (DTraceInner n (dl_affine o) WAW)))
           (sc_wc sys) (sc_cQc sys),
   with_temps o AW WAW).
(** [ConstructSchurComplementSystem], dense_lmi_constraint.cc:74-107, with
    [ComputeWCW] 35-39.  The two temporaries are left with [C W] and [W C W]. *)
Definition DSchur (o : dense_lmi) (initialize : bool) (sys : schur) : schur * dense_lmi :=
  let '(sys, o) := for_up (length (dl_mats o)) (DSchurRow o initialize) (sys, o) in
  let n := dl_n o in
  let wc := put initialize (sc_wc sys) (DTraceInner n (dl_affine o) (dl_W o)) in
  let CW := rprod n (dl_affine o) (dl_W o) in
  let WCW := rprod n (dl_W o) CW in
  (mkSchur (sc_G sys) (sc_AW sys) (sc_AQc sys) wc (put initialize (sc_cQc sys) (DTraceInner n (dl_affine o) WCW)),
   with_temps o CW WCW).

(** [SetIdentity], psd_constraint.cc:92-95. *)
Definition DSetIdentity (o : dense_lmi) : dense_lmi :=
  mkDenseLmi (dl_n o) (dl_mats o) (dl_affine o) PSetIdentity (dl_temp1 o) (dl_temp2 o).

(** [PrepareStep], psd_constraint.cc:45-84, with [AffineUpdate] 33-43: the new state and
    [normsqrd] (nothing is reported in the affine mode).  [minus_s] and [WS] share
    [temp_1].  The value [norminfd] is [PNormInf] of [LanczosModel.v]. *)
Definition DPrepareStep (o : dense_lmi) (opt : step_options) (y : vec) : dense_lmi * option R :=
  let n := dl_n o in
  let minus_s := DNegativeSlack o (so_c_weight opt) y in
  let WS := rprod n (dl_W o) minus_s in
  if so_affine opt then
    (mkDenseLmi n (dl_mats o) (dl_affine o) (PAffineUpdate n (dl_W o) WS (so_e_weight opt)) WS (rprod n WS (dl_W o)), None)
  else (with_temps o WS (rprod n WS WS), Some (PNormSquared n WS)).

(** [TakeStep] and [GeodesicUpdate], psd_constraint.cc:13-28,86-90, as a relation
    between the old and the new state: the content of [temp_1] is the argument. *)
Definition DTakeStep (o : dense_lmi) (opt : step_options) (o' : dense_lmi) : Prop :=
  exists expWS, PadeApproximation (dl_n o) (GeodesicArgument (dl_temp1 o) opt) expWS /\
    let P := rprod (dl_n o) expWS (dl_W o) in
    o' = mkDenseLmi (dl_n o) (dl_mats o) (dl_affine o) (fun r c => (P r c + P c r) * (1 / 2)) (fun r c => P c r) expWS.

(** [GetWeightedSlackEigenvalues], psd_constraint.cc:97-127: the new state, [trace]
    and [frobenius_norm_squared].  [minus_s] and [WSWS] share [temp_1].  The two
    eigenvalues are [PSlackEigenvalues] of [LanczosModel.v]. *)
Definition DWeightedSlack (o : dense_lmi) (y : vec) (c_weight : R) : dense_lmi * (R * R) :=
  let n := dl_n o in
  let WS := rprod n (dl_W o) (DNegativeSlack o c_weight y) in
  let WSWS := rprod n WS WS in
  (with_temps o WSWS WS, (- dtrace n WS, dtrace n WSWS)).
