(** Model of conex/jordan_matrix_algebra.{h,cc}, conex/exponential_map.cc,
    conex/exponential_map_pade.cc and of the numeric part of
    conex/hermitian_psd.{h,cc} and conex/psd_constraint.cc.

    A [HyperComplexMatrix] is a function from the component index to a real
    matrix; real matrices are functions of row and column.  The number of
    components [n] (the template parameter) and the dimensions are explicit
    arguments.  Arrays with fewer components than [n], on which [at] throws, are
    not represented.  Exact real arithmetic.  No proofs in this file. *)
From Coq Require Import List Arith ZArith Reals Bool.
From Verif Require Import Base DenseModel.
Import ListNotations.
Open Scope R_scope.

Definition hyper := nat -> mat.

(** ** jordan_matrix_algebra.cc *)

(** [Identity], 61-69. *)
Definition Identity : hyper := fun i r c => if (i =? 0)%nat then (if (r =? c)%nat then 1 else 0) else 0.

(** [Zero], 71-78. *)
Definition Zero : hyper := fun _ _ _ => 0.

(** [ConjugateTranspose], 89-98. *)
Definition ConjugateTranspose (x : hyper) : hyper :=
  fun i r c => if (i =? 0)%nat then x i c r else - x i c r.

(** The tables [M] and [indx], 106-122. *)
Definition sign_table : list (list Z) :=
  [[1; 1; 1; 1; 1; 1; 1; 1];
   [1; -1; -1; 1; -1; 1; 1; -1];
   [1; 1; -1; -1; -1; -1; 1; 1];
   [1; -1; 1; -1; -1; 1; -1; 1];
   [1; 1; 1; 1; -1; -1; -1; -1];
   [1; -1; 1; -1; 1; -1; 1; -1];
   [1; -1; -1; 1; 1; -1; -1; 1];
   [1; 1; -1; -1; 1; 1; -1; -1]]%Z.
Definition index_table : list (list nat) :=
  [[0; 1; 2; 3; 4; 5; 6; 7];
   [1; 0; 3; 2; 5; 4; 7; 6];
   [2; 3; 0; 1; 6; 7; 4; 5];
   [3; 2; 1; 0; 7; 6; 5; 4];
   [4; 5; 6; 7; 0; 1; 2; 3];
   [5; 4; 7; 6; 1; 0; 3; 2];
   [6; 7; 4; 5; 2; 3; 0; 1];
   [7; 6; 5; 4; 3; 2; 1; 0]]%nat.
Definition sign_at (i j : nat) : Z := nth j (nth i sign_table []) 0%Z.
Definition index_at (i j : nat) : nat := nth j (nth i index_table []) 0%nat.

(** [X.at(i) * Y.at(j)] with inner dimension [d]. *)
Definition rprod (d : nat) (A B : mat) : mat := fun r c => rsum d (fun t => A r t * B t c).

(** [Multiply], 100-138. *)
Definition multiply_step (d : nat) (X Y : hyper) (i : nat) (Z : hyper) (j : nat) : hyper :=
  let k := index_at i j in
  let P := rprod d (X i) (Y j) in
  fun l r c => if (l =? k)%nat
               then (if (1 <=? sign_at i j)%Z then Z k r c + P r c else Z k r c - P r c)
               else Z l r c.
Definition Multiply (n d : nat) (X Y : hyper) : hyper :=
  for_up n (fun Z i => for_up n (multiply_step d X Y i) Z) Zero.

(** [Add], 140-150, and [ScalarMultiply], 152-161. *)
Definition Add (x y : hyper) : hyper := fun i r c => x i r c + y i r c.
Definition ScalarMultiply (x : hyper) (s : R) : hyper := fun i r c => x i r c * s.

(** [JordanMultiply], 163-169. *)
Definition JordanMultiply (n d : nat) (x y : hyper) : hyper :=
  ScalarMultiply (Add (Multiply n d x y) (Multiply n d y x)) (1 / 2).

(** [QuadraticRepresentation], 171-177. *)
Definition QuadraticRepresentation (n d : nat) (x y : hyper) : hyper :=
  let X1 := ScalarMultiply (JordanMultiply n d x (JordanMultiply n d x y)) 2 in
  let X2 := ScalarMultiply (JordanMultiply n d (JordanMultiply n d x x) y) (-1) in
  Add X1 X2.

(** [TraceInnerProduct], 203-210, on matrices with [rows] rows and [cols] columns. *)
Definition TraceInnerProduct (n rows cols : nat) (x y : hyper) : R :=
  for_up n (fun ip i => ip + rsum cols (fun c => rsum rows (fun r => x i r c * y i r c))) 0.

(** [HyperComplexMatrix::squaredNorm], jordan_matrix_algebra.h:61-67. *)
Definition squaredNorm (n rows cols : nat) (x : hyper) : R := TraceInnerProduct n rows cols x x.

(** [MakeHermitian], jordan_matrix_algebra.h:117-119. *)
Definition MakeHermitian (x : hyper) : hyper := ScalarMultiply (Add x (ConjugateTranspose x)) (1 / 2).

(** [at(0).trace()]. *)
Definition trace0 (d : nat) (x : hyper) : R := rsum d (fun r => x 0%nat r r).

(** [at(0).diagonal().array() += e]. *)
Definition add_diagonal (x : hyper) (e : R) : hyper :=
  fun i r c => if ((i =? 0) && (r =? c))%nat then x i r c + e else x i r c.

(** ** exponential_map.cc *)

(** [DoExponentialMap], 15-42, with [squarings = 2] and [degree = 2]: one pass of
    each loop. *)
Definition DoExponentialMap (n d : nat) (xinput : hyper) : hyper :=
  let xpow := ScalarMultiply xinput (1 / 4) in
  let y := add_diagonal xpow 1 in
  let xpow := ScalarMultiply (Multiply n d xinput xpow) (1 / 2 * 1 / 4) in
  let y := Add y xpow in
  let xpow := Multiply n d y y in
  Multiply n d xpow xpow.

(** [ExponentialMap], 44-65: dispatch on the number of components. *)
Definition ExponentialMap (size d : nat) (arg : hyper) : res hyper :=
  match size with
  | 1 | 2 | 4 | 8 => Ok (DoExponentialMap size d arg)
  | _ => Throw
  end%nat.

(** [DoGeodesicUpdateScaled], 133-144. *)
Definition DoGeodesicUpdateScaled (n d : nat) (w s : hyper) : hyper :=
  let c := 3 / 2 in
  let k := 1 / 2 in
  MakeHermitian
    (Add (Add (ScalarMultiply w (c * c))
              (ScalarMultiply (QuadraticRepresentation n d w s) (2 * k * c)))
         (ScalarMultiply (QuadraticRepresentation n d w (QuadraticRepresentation n d s w)) (k * k))).

(** [GeodesicUpdateScaled], 146-170. *)
Definition GeodesicUpdateScaled (size d : nat) (x s : hyper) : res hyper :=
  match size with
  | 1 | 2 | 4 | 8 => Ok (DoGeodesicUpdateScaled size d x s)
  | _ => Throw
  end%nat.

(** [factorial], 6-12. *)
Definition factorial (n : nat) : R := for_up (n - 1) (fun y i => y * INR (i + 2)) 1.
(** [DoGeodesicUpdate], 67-84. *)
Definition geodesic_step (n d : nat) (w s : hyper) (st : hyper * hyper * hyper) (i : nat) : hyper * hyper * hyper :=
  let '(y1, y2, y) := st in
  let y1 := QuadraticRepresentation n d w (QuadraticRepresentation n d s y1) in
  let y2 := QuadraticRepresentation n d w (QuadraticRepresentation n d s y2) in
  let y := Add y (Add (ScalarMultiply y1 (1 / factorial (2 * i)))
                      (ScalarMultiply y2 (1 / factorial (2 * i + 1)))) in
  (MakeHermitian y1, MakeHermitian y2, MakeHermitian y).
Definition DoGeodesicUpdate (n d : nat) (w s : hyper) : hyper :=
  let y2 := QuadraticRepresentation n d w s in
  snd (fold_left (geodesic_step n d w s) (seq 1 5) (w, y2, Add w y2)).
(** [GeodesicUpdate], 86-109. *)
Definition GeodesicUpdate (size d : nat) (x s : hyper) : res hyper :=
  match size with
  | 1 | 2 | 4 | 8 => Ok (DoGeodesicUpdate size d x s)
  | _ => Throw
  end%nat.

(** ** hermitian_psd.{h,cc} *)

(** The members of [HermitianPsdConstraint] (hermitian_psd.h:86-95): the rank, the
    constraint matrices, the affine term, and the state [W], [WS], [minus_s].
    [workspace_] only mirrors the real part of [W]. *)
Record hermitian := mkHermitian {
  h_rank : nat; h_mats : list hyper; h_affine : hyper;
  h_W : hyper; h_WS : hyper; h_minus_s : hyper }.
Definition with_W (o : hermitian) (W : hyper) : hermitian :=
  mkHermitian (h_rank o) (h_mats o) (h_affine o) W (h_WS o) (h_minus_s o).

(** The fields of [StepOptions] that are read here. *)
Record step_options := mkStepOptions { so_affine : bool; so_e_weight : R; so_c_weight : R; so_step_size : R }.

(** [SetIdentity], hermitian_psd.h:54-56. *)
Definition HSetIdentity (o : hermitian) : hermitian := with_W o Identity.

(** [ComputeNegativeSlack], hermitian_psd.h:104-109. *)
Definition HNegativeSlack (o : hermitian) (k : R) (y : nat -> R) : hyper :=
  fst (fold_left (fun acc A => let '(s, i) := (acc : hyper * nat) in (Add s (ScalarMultiply A (y i)), (i + 1)%nat))
         (h_mats o) (ScalarMultiply (h_affine o) (- k), 0%nat)).

(** [PrepareStep], hermitian_psd.cc:33-71, for the associative algebras.  The value
    [norminfd], a Lanczos estimate from a random start vector, is modelled apart in
    [LanczosModel.v]; the result is the new state and [normsqrd] (in the affine mode
    nothing is reported). *)
Definition HPrepareStep (n : nat) (o : hermitian) (opt : step_options) (y : nat -> R) : hermitian * option R :=
  let d := h_rank o in
  let minus_s := HNegativeSlack o (so_c_weight opt) y in
  let WS := Multiply n d (h_W o) minus_s in
  if so_affine opt then
    let WSW := Multiply n d WS (h_W o) in
    let W := if Req_EM_T (so_e_weight opt) 0 then h_W o else ScalarMultiply (h_W o) (1 + so_e_weight opt) in
    (mkHermitian d (h_mats o) (h_affine o) (Add W WSW) WS minus_s, None)
  else
    let WSWS := Multiply n d WS WS in
    (mkHermitian d (h_mats o) (h_affine o) (h_W o) WS minus_s,
     Some (trace0 d WSWS + 2 * trace0 d WS + INR d)).

(** [TakeStep], hermitian_psd.cc:9-31, for the associative algebras. *)
Definition HTakeStep (n : nat) (o : hermitian) (opt : step_options) : res hermitian :=
  let d := h_rank o in
  let WS := add_diagonal (h_WS o) (so_e_weight opt) in
  let WS := if Req_EM_T (so_step_size opt) 1 then WS else ScalarMultiply WS (so_step_size opt) in
  expWS <- ExponentialMap n d WS ;;
  let W := Multiply n d expWS (h_W o) in
  let W := ScalarMultiply (Add W (ConjugateTranspose W)) (1 / 2) in
  Ok (mkHermitian d (h_mats o) (h_affine o) W WS (h_minus_s o)).

(** The octonion specialisations, hermitian_psd.cc:116-145 ([norminfd] is
    in [LanczosModel.v]; [PrepareStep] ignores [opt.affine]). *)
Definition OTakeStep (o : hermitian) (opt : step_options) : res hermitian :=
  let s := if Req_EM_T (so_step_size opt) 1 then h_minus_s o else ScalarMultiply (h_minus_s o) (so_step_size opt) in
  W <- GeodesicUpdateScaled 8 (h_rank o) (h_W o) s ;;
  Ok (mkHermitian (h_rank o) (h_mats o) (h_affine o) W (h_WS o) s).
Definition OPrepareStep (o : hermitian) (opt : step_options) (y : nat -> R) : hermitian * R :=
  let d := h_rank o in
  let minus_s := HNegativeSlack o (so_c_weight opt) y in
  (mkHermitian d (h_mats o) (h_affine o) (h_W o) (h_WS o) minus_s,
   TraceInnerProduct 8 d d (QuadraticRepresentation 8 d (h_W o) minus_s) minus_s
   + 2 * TraceInnerProduct 8 d d (h_W o) minus_s + INR d).

(** The exact fields of [GetWeightedSlackEigenvalues], hermitian_psd.cc:73-91:
    [trace] and [frobenius_norm_squared].  The two eigenvalues are Lanczos
    estimates, see [LanczosModel.v]. *)
Definition HWeightedSlack (n : nat) (o : hermitian) (y : nat -> R) (c_weight : R) : R * R :=
  let d := h_rank o in
  let WS := Multiply n d (h_W o) (HNegativeSlack o c_weight y) in
  (- trace0 d WS, trace0 d (Multiply n d WS WS)).

(** [ConstructSchurComplementSystem], hermitian_psd.cc:170-230, with
    [EvalDualConstraint] and [EvalDualObjective] (hermitian_psd.h:97-102).  Only the
    lower triangle of [G] is written.  [initialize] selects assignment or
    accumulation. *)
Record schur := mkSchur { sc_G : mat; sc_AW : vec; sc_AQc : vec; sc_wc : R; sc_cQc : R }.
Definition put (initialize : bool) (old new : R) : R := if initialize then new else old + new.
Definition HWAW (n : nat) (o : hermitian) (A : hyper) : hyper * hyper :=
  let d := h_rank o in
  if (n =? 8)%nat then (Zero, QuadraticRepresentation n d (h_W o) A)
  else let AW := Multiply n d A (h_W o) in (AW, Multiply n d (h_W o) AW).
Definition HSchurRow (n : nat) (o : hermitian) (initialize : bool) (sys : schur) (i : nat) : schur :=
  let d := h_rank o in
  let m := length (h_mats o) in
  let '(AW, WAW) := HWAW n o (nth i (h_mats o) Zero) in
  let G := fold_left (fun G j => mset G j i (put initialize (G j i) (TraceInnerProduct n d d (nth j (h_mats o) Zero) WAW)))
                     (seq i (m - i)) (sc_G sys) in
  let aw := if (n =? 8)%nat then TraceInnerProduct n d d (nth i (h_mats o) Zero) (h_W o) else trace0 d AW in
  mkSchur G (vset (sc_AW sys) i (put initialize (sc_AW sys i) aw))
          (vset (sc_AQc sys) i (put initialize (sc_AQc sys i) (TraceInnerProduct n d d (h_affine o) WAW)))
          (sc_wc sys) (sc_cQc sys).
Definition HSchur (n : nat) (o : hermitian) (initialize : bool) (sys : schur) : schur :=
  let d := h_rank o in
  let sys := for_up (length (h_mats o)) (HSchurRow n o initialize) sys in
  let wc := (if initialize then 0 else sc_wc sys) + TraceInnerProduct n d d (h_affine o) (h_W o) in
  let WCW := QuadraticRepresentation n d (h_W o) (h_affine o) in
  mkSchur (sc_G sys) (sc_AW sys) (sc_AQc sys) wc
          (put initialize (sc_cQc sys) (TraceInnerProduct n d d (h_affine o) WCW)).

(** ** exponential_map_pade.cc and psd_constraint.cc *)

(** [ComputeWeightedPowers], exponential_map_pade.cc:10-21. *)
Definition ridentity : mat := fun r c => if (r =? c)%nat then 1 else 0.
Definition odd_powers (d : nat) (A : mat) : mat :=
  rprod d A (fun r c => 1 * rprod d A A r c + 60 * ridentity r c).
Definition even_powers (d : nat) (A : mat) : mat :=
  fun r c => if (r =? c)%nat then rprod d A A r c * 12 + 120 else rprod d A A r c * 12.

(** [ExponentialMapPadeApproximation], exponential_map_pade.cc:23-33, as a relation
    between argument and result: [partialPivLu().solve] returns the solution of
    [denom * result = numer] if [denom] is invertible, and is unspecified
    otherwise. *)
Definition PadeDenominator (d : nat) (A : mat) : mat := fun r c => - odd_powers d A r c + even_powers d A r c.
Definition PadeNumerator (d : nat) (A : mat) : mat := fun r c => odd_powers d A r c + even_powers d A r c.
Definition invertible (d : nat) (D : mat) : Prop :=
  forall v : vec, (forall r, (r < d)%nat -> rsum d (fun t => D r t * v t) = 0) -> forall r, (r < d)%nat -> v r = 0.
Definition PadeApproximation (d : nat) (A X : mat) : Prop :=
  invertible d (PadeDenominator d A) ->
  forall r c, (r < d)%nat -> (c < d)%nat -> rprod d (PadeDenominator d A) X r c = PadeNumerator d A r c.

(** [PsdConstraint::GeodesicUpdate], psd_constraint.cc:13-28 ([TakeStep] 86-90),
    as a relation between the old and the new [W]. *)
Definition GeodesicArgument (WS : mat) (opt : step_options) : mat :=
  let WS := fun r c => if (r =? c)%nat then WS r c + so_e_weight opt else WS r c in
  if Req_EM_T (so_step_size opt) 1 then WS else fun r c => WS r c * so_step_size opt.
Definition PTakeStep (d : nat) (W WS : mat) (opt : step_options) (W' : mat) : Prop :=
  exists expWS, PadeApproximation d (GeodesicArgument WS opt) expWS /\
    forall r c, (r < d)%nat -> (c < d)%nat -> W' r c = (rprod d expWS W r c + rprod d expWS W c r) * (1 / 2).
(** [PrepareStep], psd_constraint.cc:45-84 and [AffineUpdate] 33-43: the matrix [WS]
    of the normal mode, [normsqrd], and the new [W] of the affine mode. *)
Definition PWeightedSlack (d : nat) (W minus_s : mat) : mat := rprod d W minus_s.
Definition PNormSquared (d : nat) (WS : mat) : R :=
  rsum d (fun r => rprod d WS WS r r) + 2 * rsum d (fun r => WS r r) + INR d.
Definition PAffineUpdate (d : nat) (W WS : mat) (e_weight : R) : mat :=
  fun r c => if Req_EM_T e_weight 0 then W r c + rprod d WS W r c
             else W r c * (1 + e_weight) + rprod d WS W r c.
(** [SetIdentity], psd_constraint.cc:92-95. *)
Definition PSetIdentity : mat := ridentity.
