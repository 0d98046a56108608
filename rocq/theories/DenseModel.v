(** Dense linear-algebra kernels used by conex: Eigen's [LLT], triangular
    solves, and conex/RLDLT.h.  Exact real arithmetic stands for doubles (rounding,
    overflow and NaN are not modelled).  Vectors are functions [nat -> R] and
    matrices [nat -> nat -> R] together with an explicit order. *)
From Coq Require Import List Arith Reals Bool.
Import ListNotations.
Open Scope R_scope.

Definition vec := nat -> R.
Definition mat := nat -> nat -> R.

(** Sum of [f 0 .. f (n-1)]. *)
Fixpoint rsum (n : nat) (f : nat -> R) : R :=
  match n with O => 0 | S k => rsum k f + f k end.

(** [for (i = 0; i < n; i++)] and [for (i = n-1; i >= 0; i--)]. *)
Definition for_up {St} (n : nat) (f : St -> nat -> St) (s : St) : St :=
  fold_left f (seq 0 n) s.
Definition for_down {St} (n : nat) (f : St -> nat -> St) (s : St) : St :=
  fold_left f (rev (seq 0 n)) s.

(** [for (i = 0; i < n; i++)] with early exit. *)
Fixpoint for_opt {St} (f : St -> nat -> option St) (l : list nat) (s : St) : option St :=
  match l with
  | [] => Some s
  | i :: t => match f s i with Some s' => for_opt f t s' | None => None end
  end.

Definition vset (y : vec) (i : nat) (v : R) : vec := fun j => if (j =? i)%nat then v else y j.
Definition mset (M : mat) (i j : nat) (v : R) : mat :=
  fun r c => if ((r =? i) && (c =? j))%nat%bool then v else M r c.

(** Step [k] of Eigen's unblocked in-place lower LLT (the factorization used by
    conex/block_triangular_operations.cc:193; Eigen/src/Cholesky/LLT.h,
    [llt_inplace<Lower>::unblocked]).  Simplification: Eigen switches to a
    blocked variant for order >= 32, which computes the same exact values. *)
Definition llt_step (n : nat) (M : mat) (k : nat) : option mat :=
  let x := M k k - rsum k (fun j => M k j * M k j) in
  if Rle_dec x 0 then None
  else Some (fun r c =>
    if (c =? k)%nat then
      if (r =? k)%nat then sqrt x
      else if ((k <? r) && (r <? n))%nat%bool
           then (M r k - rsum k (fun j => M r j * M k j)) / sqrt x
           else M r c
    else M r c).
Definition llt (n : nat) (M : mat) : option mat := for_opt (llt_step n) (seq 0 n) M.

(** [L.triangularView<Lower>().solveInPlace(y)]: forward substitution. *)
Definition fwd_solve (n : nat) (L : mat) (y : vec) : vec :=
  for_up n (fun y i => vset y i ((y i - rsum i (fun t => L i t * y t)) / L i i)) y.

(** [L.triangularView<Lower>().transpose().solveInPlace(y)]: backward
    substitution. *)
Definition bwd_solve (n : nat) (L : mat) (y : vec) : vec :=
  for_down n (fun y i =>
    vset y i ((y i - rsum (n - 1 - i) (fun t => L (S i + t)%nat i * y (S i + t)%nat)) / L i i)) y.

(** The [UnitLower] view of conex/RLDLT.h:509-518 ([matrixL()]). *)
Definition unit_lower (M : mat) : mat := fun i j => if (i =? j)%nat then 1 else M i j.

(** conex/RLDLT.h:310. *)
Definition reg : R := / 1000000000.

(** [mat.diagonal().tail(size - k).cwiseAbs().maxCoeff(&idx)] (RLDLT.h:334-337):
    index of the first largest entry among [k .. k + len]. *)
Fixpoint argmax_from (f : nat -> R) (best : nat) (i len : nat) : nat :=
  match len with
  | O => best
  | S l => if Rlt_dec (Rabs (f best)) (Rabs (f i)) then argmax_from f i (S i) l
           else argmax_from f best (S i) l
  end.
Definition argmax_abs (f : nat -> R) (k n : nat) : nat := argmax_from f k (S k) (n - k - 1).

(** conex/RLDLT.h:345: swap of the heads of rows [k] and [p]. *)
Definition swap_heads (k p : nat) (M : mat) : mat := fun r c =>
  if (c <? k)%nat then
    if (r =? k)%nat then M p c else if (r =? p)%nat then M k c else M r c
  else M r c.
(** conex/RLDLT.h:346: swap of the tails of columns [k] and [p]. *)
Definition swap_tails (k p n : nat) (M : mat) : mat := fun r c =>
  if ((p <? r) && (r <? n))%nat%bool then
    if (c =? k)%nat then M r p else if (c =? p)%nat then M r k else M r c
  else M r c.
(** conex/RLDLT.h:347-348. *)
Definition swap_diag (k p : nat) (M : mat) : mat :=
  mset (mset M k k (M p p)) p p (M k k).
(** conex/RLDLT.h:349-354. *)
Definition swap_middle (k p : nat) (M : mat) : mat :=
  fold_left (fun M i => mset (mset M i k (M p i)) p i (M i k)) (seq (S k) (p - S k)) M.
(** conex/RLDLT.h:340-358 (real scalars). *)
Definition swap_sym (k p n : nat) (M : mat) : mat :=
  if (k =? p)%nat then M
  else swap_middle k p (swap_diag k p (swap_tails k p n (swap_heads k p M))).

(** conex/RLDLT.h:369-374: update of column [k] from the finished columns. *)
Definition ldlt_update (n k : nat) (M : mat) : mat := fun r c =>
  if ((c =? k) && (k <=? r) && (r <? n))%nat%bool
  then M r c - rsum k (fun j => M r j * (M j j * M k j)) else M r c.

(** conex/RLDLT.h:381-393: the pivot actually used. *)
Definition ldlt_pivot (x : R) : R :=
  if Rlt_dec reg (Rabs x) then x
  else if Rlt_dec x 0 then - reg else reg.
Definition pivot_valid (x : R) : bool := if Rlt_dec reg (Rabs x) then true else false.

(** Factorization state: matrix, transpositions (in order), [ret] flag. *)
Record ldlt_state := mkLdlt { lm : mat; ltr : list nat; lret : bool }.

(** conex/RLDLT.h:332-428, one iteration.  [sign] is not used by conex and left
    out.  [pivot_is_valid] is forced to true on line 385, so the branches on
    lines 395-406, 410-411 and 415-416 are dead. *)
Definition ldlt_step (n : nat) (st : ldlt_state) (k : nat) : ldlt_state :=
  let p := argmax_abs (fun i => lm st i i) k n in
  let M1 := swap_sym k p n (lm st) in
  let M2 := ldlt_update n k M1 in
  let x := M2 k k in
  let piv := ldlt_pivot x in
  let M3 := fun r c =>
    if (c =? k)%nat then
      if (r =? k)%nat then piv
      else if ((k <? r) && (r <? n))%nat%bool then M2 r k / piv else M2 r c
    else M2 r c in
  mkLdlt M3 (ltr st ++ [p]) (lret st && pivot_valid x).

(** conex/RLDLT.h:312-319: the regularization done for order <= 1 (strict
    comparison, not reported). *)
Definition small_pivot (x : R) : R :=
  if Rlt_dec (Rabs x) reg then (if Rlt_dec x 0 then - reg else reg) else x.

(** conex/RLDLT.h:300-431 for order [n >= 1]; the case [n = 0] reads outside the
    matrix and is handled where the factorization is called.  The transpositions
    of order 1 are set to the identity (line 320). *)
Definition rldlt (n : nat) (M : mat) : ldlt_state :=
  if (n <=? 1)%nat then mkLdlt (mset M 0 0 (small_pivot (M 0 0)))%nat [0%nat] true
  else for_up n (ldlt_step n) (mkLdlt M [] true).

(** [PermutationMatrix P(transpositions); P * y]: the transpositions are applied
    in order; [P.transpose() * y]: in reverse order. *)
Definition vswap (i j : nat) (y : vec) : vec := fun k =>
  if (k =? i)%nat then y j else if (k =? j)%nat then y i else y k.
Definition perm_apply (tr : list nat) (y : vec) : vec :=
  fold_left (fun y kp => vswap (fst kp) (snd kp) y) (combine (seq 0 (length tr)) tr) y.
Definition perm_apply_T (tr : list nat) (y : vec) : vec :=
  fold_left (fun y kp => vswap (fst kp) (snd kp) y) (rev (combine (seq 0 (length tr)) tr)) y.
