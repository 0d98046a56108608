(** Model of [PreprocessLinearInequality] (conex/linear_constraint.cc:9-46),
    exact real arithmetic.  No proofs in this file. *)
From Coq Require Import List Arith Reals Bool.
From Verif Require Import Base ProgramModel.
Import ListNotations.
Open Scope R_scope.

(** [A.row(i).squaredNorm()]. *)
Definition squared_norm (r : list R) : R := fold_left (fun s x => s + x * x) r 0.

(** [1.0 / std::sqrt(A.row(i).squaredNorm() + ub.row(i).squaredNorm())]
    (conex/linear_constraint.cc:27-28, 33-34, 39-40); [None] when the argument
    of the square root is zero: the quotient is infinite and the scaled row is
    not a number. *)
Definition row_scale (a : list R) (u : R) : option R :=
  let s := squared_norm a + u * u in
  if Rlt_dec 0 s then Some (1 / sqrt s) else None.

Definition scale_row (k : R) (a : list R) : list R := map (fun x => k * x) a.

(** The four outputs [Aineq, bineq, Aeq, beq], rows in order. *)
Record split_rows := mkSplit {
  sp_ineq : list (list R * R);
  sp_eq : list (list R * R)
}.

(** One pass of the loop, conex/linear_constraint.cc:25-45; [AppendRow]
    (9-20) appends at the bottom; its exception needs rows of different lengths,
    which a matrix does not have. *)
Definition preprocess_row (s : split_rows) (a : list R) (lb ub : R) : option split_rows :=
  if Req_EM_T lb ub then
    match row_scale a ub with
    | None => None
    | Some k => Some (mkSplit (sp_ineq s) (sp_eq s ++ [(scale_row k a, k * ub)]))
    end
  else
    let s1 := if Rlt_dec ub 100000000 then
                match row_scale a ub with
                | None => None
                | Some k => Some (mkSplit (sp_ineq s ++ [(scale_row k a, k * ub)]) (sp_eq s))
                end
              else Some s in
    match s1 with
    | None => None
    | Some s1 =>
        if Rlt_dec (-100000000) lb then
          match row_scale a lb with
          | None => None
          | Some k => Some (mkSplit (sp_ineq s1 ++ [(scale_row (- k) a, - k * lb)]) (sp_eq s1))
          end
        else Some s1
    end.

(** conex/linear_constraint.cc:22-46.  [rows] lists [(A.row(i), lb(i), ub(i))].
    [None]: a row of the result is not a number. *)
Fixpoint preprocess (rows : list (list R * R * R)) (s : split_rows) : option split_rows :=
  match rows with
  | [] => Some s
  | (a, lb, ub) :: t =>
      match preprocess_row s a lb ub with
      | None => None
      | Some s' => preprocess t s'
      end
  end.

Definition PreprocessLinearInequality (rows : list (list R * R * R)) : option split_rows :=
  preprocess rows (mkSplit [] []).
