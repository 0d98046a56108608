(** Model of conex/divergence.cc and of [MinimizeNormInf]
    (conex/cone_program.cc:166-172), exact real arithmetic.  A division by zero
    is a distinct outcome ([None]); the square root of a negative number, which
    is a NaN, is followed through the comparisons.  No proofs in this file. *)
From Coq Require Import List Reals Bool.
Import ListNotations.
Open Scope R_scope.

(** conex/newton_step.h:11-18 (the member [limit] is never read here). *)
Record spectrum := mkSpectrum {
  frobenius_norm_squared : R;
  trace : R;
  lambda_min : R;
  lambda_max : R;
  rank : R
}.

(** Comparisons of numbers, as [bool]. *)
Definition Rltb (a b : R) : bool := if Rlt_dec a b then true else false.
Definition Rleb (a b : R) : bool := if Rle_dec a b then true else false.
Definition Req0 (a : R) : bool := if Req_EM_T a 0 then true else false.

(** [std::sqrt]: [None] is NaN. *)
Definition sqrt_nan (x : R) : option R := if Rlt_dec x 0 then None else Some (sqrt x).

(** conex/divergence.cc:18-23, for [a <> 0]; [None] is NaN. *)
Definition SolveRationalEquation (a b c d k : R) : option R :=
  let under_radical := b * b - 4 * a * c + 8 * a * k + 2 * b * d * k + (d * k) ^ 2 in
  match sqrt_nan under_radical with
  | None => None
  | Some r => Some (- (b + d * k - r) / (2 * a))
  end.

(** conex/divergence.cc:26-41: comparing with NaN is false. *)
Definition InverseLambdaMaxBranch (bound : R) (p : spectrum) : R :=
  let a := frobenius_norm_squared p in
  let b := - 2 * trace p in
  let c := rank p in
  let d := lambda_max p in
  let lower_bound := 2 / (lambda_max p + lambda_min p) in
  match SolveRationalEquation a b c d bound with
  | None => -1
  | Some x => if Rleb lower_bound x then x else -1
  end.

(** conex/divergence.cc:43-45. *)
Definition InLimits (x lower upper : R) : bool := Rleb lower x && Rleb x upper.

(** conex/divergence.cc:47-60, for [a <> 0]; [None]: returns false (the two
    numbers are then NaN). *)
Definition SolveQuadratic (a b n c : R) : option (R * R) :=
  let under_radical := b * b + 2 * b * c + c * c - 4 * a * n in
  if Rlt_dec under_radical 0 then None
  else Some ((b + c + sqrt under_radical) / (2 * a), (b + c - sqrt under_radical) / (2 * a)).

(** conex/divergence.cc:62-83. *)
Definition InverseLambdaMinBranch (bound : R) (p : spectrum) : R :=
  let lower_bound := 0 in
  let upper_bound := 2 / (lambda_max p + lambda_min p) in
  match SolveQuadratic (frobenius_norm_squared p / lambda_min p)
                       (2 * trace p / lambda_min p) (rank p / lambda_min p) bound with
  | None => -1
  | Some (first, second) =>
      let k := if InLimits first lower_bound upper_bound then first else -1 in
      if InLimits second lower_bound upper_bound then
        (if Rltb k second then second else k)
      else k
  end.

(** conex/divergence.cc:86-89 and 116-119. *)
Definition norm_inf (k : R) (p : spectrum) : R :=
  let n := Rabs (k * lambda_max p - 1) in
  if Rltb n (Rabs (k * lambda_min p - 1)) then Rabs (k * lambda_min p - 1) else n.

(** conex/divergence.cc:85-94. *)
Definition BoundIsFinite (k : R) (p : spectrum) : bool := Rltb (norm_inf k p) 1.

(** conex/divergence.cc:96-111.  [None]: a denominator of one of the two
    branches is zero. *)
Definition DivergenceUpperBoundInverse (bound : R) (p : spectrum) : option R :=
  if Req0 (frobenius_norm_squared p) || Req0 (lambda_min p)
     || Req0 (lambda_max p + lambda_min p) then None
  else
    let k1 := InverseLambdaMinBranch bound p in
    let k2 := InverseLambdaMaxBranch bound p in
    let k := if BoundIsFinite k1 p then k1 else -1 in
    Some (if Rltb k k2 && BoundIsFinite k2 p then k2 else k).

(** conex/divergence.cc:113-121, for [norm_inf k p <> 1]. *)
Definition DivergenceUpperBound (k : R) (p : spectrum) : R :=
  (k * k * frobenius_norm_squared p - 2 * k * trace p + rank p) / (1 - norm_inf k p).

(** conex/cone_program.cc:166-172. *)
Definition MinimizeNormInf (p : spectrum) : option R :=
  if Rltb 0 (lambda_min p) then
    (if Req0 (lambda_min p + lambda_max p) then None else Some (2 / (lambda_min p + lambda_max p)))
  else Some (-1).

(** conex/cone_program.cc:187-213: the part of [ComputeMuFromDivergence] after
    the spectrum is known; [upper] is [config.divergence_upper_bound].  [None]:
    a division by zero. *)
Definition mu_from_spectrum (upper : R) (rankK : nat) (p : spectrum) : option R :=
  match DivergenceUpperBoundInverse (upper * INR rankK) p with
  | None => None
  | Some k0 =>
      match (if Req_EM_T k0 (-1) then MinimizeNormInf p else Some k0) with
      | None => None
      | Some k =>
          if Rltb k 0 && Rltb (/ 10 ^ 12) (trace p) then
            let f := frobenius_norm_squared p in
            if Req0 f then None
            else
              let kstar := trace p / f in
              let nb := 15 / 10 * (f * kstar * kstar - 2 * trace p * kstar + INR rankK) in
              let norm_bound := if Rltb (INR rankK * (7 / 10)) nb then INR rankK * (7 / 10) else nb in
              let a := f in
              let b := - 2 * trace p in
              let c := INR rankK - norm_bound in
              if Rltb (b * b - 4 * a * c) 0 then Some (trace p / f)
              else Some ((- b + sqrt (b * b - 4 * a * c)) / (2 * a))
          else Some k
      end
  end.
