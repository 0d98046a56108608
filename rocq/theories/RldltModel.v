(** Model of the class [RLDLT] of conex/RLDLT.h around the factorization itself, which
    is in DenseModel.v: the sign, rank-one updates, the solve and the reconstruction.

    Exact real arithmetic.  The order [n >= 1] is an argument; only the lower triangle
    of the stored matrix is used ([UpLo = Lower]).  No proofs in this file. *)
From Coq Require Import List Arith Reals Bool.
From Verif Require Import DenseModel.
Import ListNotations.
Open Scope R_scope.

(** [SignMatrix], RLDLT.h:26. *)
Inductive sign_matrix := PositiveSemiDef | NegativeSemiDef | ZeroSign | Indefinite.

(** RLDLT.h:418-427, for the pivot [x]. *)
Definition sign_step (s : sign_matrix) (x : R) : sign_matrix :=
  match s with
  | PositiveSemiDef => if Rlt_dec x 0 then Indefinite else s
  | NegativeSemiDef => if Rlt_dec 0 x then Indefinite else s
  | ZeroSign => if Rlt_dec 0 x then PositiveSemiDef else if Rlt_dec x 0 then NegativeSemiDef else s
  | Indefinite => s
  end.

(** The members [m_matrix], [m_transpositions], [m_sign], [m_regularization_used] of an
    initialised object.  [m_l1_norm], [m_temporary] and [m_info] are left out. *)
Record rldlt_object := mkRldlt { r_matrix : mat; r_trans : list nat; r_sign : sign_matrix; r_regularized : bool }.

(** [compute], RLDLT.h:535-573.  The sign is read off the finished factorization: a
    pivot is not written again after its own iteration.  For order 1 the lines 321-328
    give the same sign. *)
Definition compute (n : nat) (A : mat) : rldlt_object :=
  let st := rldlt n A in
  mkRldlt (lm st) (ltr st) (for_up n (fun s k => sign_step s (lm st k k)) ZeroSign) (negb (lret st)).

(** [isPositive], [isNegative] (RLDLT.h, class body). *)
Definition isPositive (o : rldlt_object) : bool :=
  match r_sign o with PositiveSemiDef | ZeroSign => true | _ => false end.
Definition isNegative (o : rldlt_object) : bool :=
  match r_sign o with NegativeSemiDef | ZeroSign => true | _ => false end.

(** State of the loop of [updateInPlace]: the matrix, [w], and [alpha], which is [None]
    when it is not finite. *)
Record update_state := mkUpdate { u_mat : mat; u_w : vec; u_alpha : option R }.

(** [updateInPlace], RLDLT.h:453-470, iteration [j].  The result [None] stands for a
    value stored in the matrix that is not finite ([swj2 / alpha] with [alpha = 0]). *)
Definition update_step (n : nat) (sigma : R) (st : update_state) (j : nat) : option update_state :=
  match u_alpha st with
  | None => Some st
  | Some alpha =>
      if Req_EM_T alpha 0 then None
      else
        let M := u_mat st in
        let dj := M j j in
        let wj := u_w st j in
        let swj2 := sigma * (wj * wj) in
        let gamma := dj * alpha + swj2 in
        let alpha' := if Req_EM_T dj 0 then None else Some (alpha + swj2 / dj) in
        let w' := fun i => if ((j <? i) && (i <? n))%nat%bool then u_w st i - wj * M i j else u_w st i in
        let M' := mset M j j (dj + swj2 / alpha) in
        let M'' := if Req_EM_T gamma 0 then M'
                   else fun r c => if ((c =? j) && (j <? r) && (r <? n))%nat%bool
                                   then M r j + sigma * wj / gamma * w' r else M' r c in
        Some (mkUpdate M'' w' alpha')
  end.
(** RLDLT.h:441-473. *)
Definition updateInPlace (n : nat) (M : mat) (w : vec) (sigma : R) : option mat :=
  match for_opt (update_step n sigma) (seq 0 n) (mkUpdate M w (Some 1)) with
  | Some st => Some (u_mat st)
  | None => None
  end.

(** [rankUpdate], RLDLT.h:581-602, with [update], 475-483.  [None] as first argument is
    an object that is not initialised. *)
Definition rankUpdate (n : nat) (o : option rldlt_object) (w : vec) (sigma : R) : option rldlt_object :=
  let o := match o with
           | Some o => o
           | None => mkRldlt (fun _ _ => 0) (seq 0 n) (if Rle_dec 0 sigma then PositiveSemiDef else NegativeSemiDef) false
           end in
  match updateInPlace n (r_matrix o) (perm_apply (r_trans o) w) sigma with
  | Some M => Some (mkRldlt M (r_trans o) (r_sign o) (r_regularized o))
  | None => None
  end.

(** [numeric_limits<double>::min()], RLDLT.h:628. *)
Definition tiny : R := / 2 ^ 1022.
(** [_solve_impl], RLDLT.h:607-645, for one right-hand side. *)
Definition rldlt_solve (n : nat) (o : rldlt_object) (b : vec) : vec :=
  let M := r_matrix o in
  let y := perm_apply (r_trans o) b in
  let y := fwd_solve n (unit_lower M) y in
  let y := for_up n (fun y i => vset y i (if Rlt_dec tiny (Rabs (M i i)) then y i / M i i else 0)) y in
  let y := bwd_solve n (unit_lower M) y in
  perm_apply_T (r_trans o) y.

(** [matrixU() * y], [matrixL() * y] for the unit triangular views, RLDLT.h:509-518. *)
Definition mul_U (n : nat) (M : mat) (y : vec) : vec := fun i => y i + rsum (n - 1 - i) (fun t => M (S i + t)%nat i * y (S i + t)%nat).
Definition mul_L (M : mat) (y : vec) : vec := fun i => y i + rsum i (fun t => M i t * y t).
(** [reconstructedMatrix], RLDLT.h:680-697; every product acts on the columns. *)
Definition reconstructedMatrix (n : nat) (o : rldlt_object) : mat := fun r c =>
  let M := r_matrix o in
  let y := fun i => if (i =? c)%nat then 1 else 0 in
  let y := perm_apply (r_trans o) y in
  let y := mul_U n M y in
  let y := fun i => M i i * y i in
  let y := mul_L M y in
  perm_apply_T (r_trans o) y r.
