(** Model of conex/block_triangular_operations.{h,cc} over the storage of
    TriWorkspaceModel/AssemblerModel.  Exact real arithmetic. *)
From Coq Require Import List Arith Reals Bool.
From Verif Require Import Base TriWorkspaceModel AssemblerModel DenseModel.
Import ListNotations.
Open Scope R_scope.

Notation rmem := (mem R).

(** Views of the blocks [diagonal[k]] and [off_diagonal[k]]. *)
Definition diag_of (m : rmem) (k : nat) : mat := fun i j => m (ADiag k i j).
Definition off_of (m : rmem) (k : nat) : mat := fun i j => m (AOff k i j).
Definition put_diag (m : rmem) (k : nat) (D : mat) : rmem := fun a =>
  match a with ADiag n i j => if (n =? k)%nat then D i j else m a | AOff _ _ _ => m a end.
Definition put_off (m : rmem) (k : nat) (X : mat) : rmem := fun a =>
  match a with AOff n i j => if (n =? k)%nat then X i j else m a | ADiag _ _ _ => m a end.

Definition sizeof (o : TriWS) (k : nat) : nat := nth k (ws_size o) 0%nat.
Definition sepsof (o : TriWS) (k : nat) : list nat := nth k (ws_seps o) [].

(** conex/block_triangular_operations.cc:209-215 and 339-345:
    [*s_s[index++] -= T.col(k).dot(X.col(j))] for [k], then [j >= k]
    ([lower_pairs] lists the pairs [(j, k)] in this order); [s] rows.  An
    [s_s] that is too short is an out-of-bounds access. *)
Definition schur_update (m : rmem) (s ncols : nat) (T X : mat) (s_s : list addr)
  : res rmem :=
  if (length (lower_pairs ncols) <=? length s_s)%nat then
    Ok (fold_left (fun m p =>
          let '((j, k), a) := p in
          mem_set R m a (m a - rsum s (fun t => T t k * X t j)))
        (combine (lower_pairs ncols) s_s) m)
  else UB.

(** conex/block_triangular_operations.cc:190-217, one supernode; [None] when
    [return false] is taken.  For an empty supernode the dummy decomposition
    is never used. *)
Definition chol_block (o : TriWS) (ss : list (list addr)) (m : rmem) (k : nat)
  : res (option rmem) :=
  let s := sizeof o k in
  let nc := length (sepsof o k) in
  match (if (0 <? s * s)%nat then llt s (diag_of m k) else Some (diag_of m k)) with
  | None => Ok None
  | Some L =>
      let m1 := put_diag m k L in
      if (0 <? s * nc)%nat then
        let X := fun i j => if (j <? nc)%nat then fwd_solve s L (fun t => off_of m1 k t j) i
                            else off_of m1 k i j in
        let m2 := put_off m1 k X in
        s_s <- idx ss k ;;
        m3 <- schur_update m2 s nc X X s_s ;;
        Ok (Some m3)
      else Ok (Some m1)
  end.

Fixpoint chol_loop (o : TriWS) (ss : list (list addr)) (l : list nat) (m : rmem)
  : res (option rmem) :=
  match l with
  | [] => Ok (Some m)
  | k :: t => r <- chol_block o ss m k ;;
              match r with None => Ok None | Some m' => chol_loop o ss t m' end
  end.

(** conex/block_triangular_operations.cc:184-219.  [None]: returns false (the
    partially overwritten storage is not described). *)
Definition BlockCholeskyInPlace (o : TriWS) (ss : list (list addr)) (m : rmem)
  : res (option rmem) :=
  chol_loop o ss (seq 0 (length (ws_snodes o))) m.

(** Segments of a vector ([b_.segment(start, size)]). *)
Definition seg (y : vec) (start : nat) : vec := fun i => y (start + i)%nat.
Definition put_seg (y : vec) (start n : nat) (v : vec) : vec := fun i =>
  if ((start <=? i) && (i <? start + n))%nat%bool then v (i - start)%nat else y i.

(** conex/block_triangular_operations.cc:171-177 (and 278-283): subtract
    [off_diagonal^T * y_i] at the separators. *)
Definition sub_sep (y : vec) (s : nat) (X : mat) (yi : vec) (sep : list nat) : vec :=
  let temp := fun j => rsum s (fun t => X t j * yi t) in
  fold_left (fun y p => vset y (snd p) (y (snd p) - temp (fst p)))
            (combine (seq 0 (length sep)) sep) y.

(** conex/block_triangular_operations.cc:164-180, one supernode. State: vector
    and [start_i] of the forward iterator (lines 25-36). *)
Definition fwd_block (o : TriWS) (m : rmem) (st : vec * nat) (k : nat) : vec * nat :=
  let '(y, start) := st in
  let s := sizeof o k in
  if (s * s =? 0)%nat then (y, start + s)%nat
  else
    let y1 := put_seg y start s (fwd_solve s (diag_of m k) (seg y start)) in
    let y2 := if (0 <? s * length (sepsof o k))%nat
              then sub_sep y1 s (off_of m k) (seg y1 start) (sepsof o k) else y1 in
    (y2, start + s)%nat.

(** conex/block_triangular_operations.cc:160-182.  With no supernode
    [sizes_[0]] is an out-of-bounds read. *)
Definition ApplyBlockInverseInPlace (o : TriWS) (m : rmem) (y : vec) : res vec :=
  match length (ws_snodes o) with
  | 0%nat => UB
  | S n1 =>
      let '(y1, start) := for_up n1 (fwd_block o m) (y, 0%nat) in
      let s := sizeof o n1 in
      Ok (put_seg y1 start s (fwd_solve s (diag_of m n1) (seg y1 start)))
  end.

(** The backward iterator (conex/block_triangular_operations.cc:58-101):
    [Set(j)] decrements while [j < i_]; state [(i_, start_i)]. *)
Fixpoint iter_down (o : TriWS) (cnt : nat) (it : nat * nat) : nat * nat :=
  match cnt with
  | 0%nat => it
  | S c => iter_down o c (fst it - 1, snd it - sizeof o (fst it - 1))%nat
  end.
Definition iter_set (o : TriWS) (j : nat) (it : nat * nat) : nat * nat :=
  iter_down o (fst it - j) it.
Definition iter_reset (o : TriWS) : nat * nat :=
  let last := (length (ws_size o) - 1)%nat in (last, ws_N o - sizeof o last)%nat.

(** conex/block_triangular_operations.cc:139-142 (and 251-255):
    [residual.b_i() -= off_diagonal[j].col(second) * y_i(first)]. *)
Definition sub_cols (m : rmem) (j rstart rsize start : nat) (pairs : list (nat * nat))
  (y : vec) : vec :=
  fold_left (fun y pr =>
    put_seg y rstart rsize
      (fun t => seg y rstart t - off_of m j t (snd pr) * seg y start (fst pr)))
    pairs y.

(** conex/block_triangular_operations.cc:130-143 (and 236-256): subtract the
    contribution of block [i+1] (whose vector segment starts at [start]).
    [residual.Reset()] is implicit: the iterator is fresh or reset. *)
Definition sub_column (o : TriWS) (m : rmem) (i start : nat) (y : vec) : res vec :=
  cols <- idx (ws_colint o) i ;;
  ips <- idx (ws_intpos o) i ;;
  '(y', _) <- foldM (fun st jc =>
       let '(y, it) := st in
       let it' := iter_set o (fst jc) it in
       pairs <- idx ips (snd jc) ;;
       Ok (sub_cols m (fst jc) (snd it') (sizeof o (fst it')) start pairs y, it'))
     (y, iter_reset o) (combine cols (seq 0 (length cols))) ;;
  Ok y'.

(** conex/block_triangular_operations.cc:120-146, iteration [i] (block
    [i+1]). *)
Definition bwd_block (o : TriWS) (m : rmem) (st : vec * nat) (i : nat)
  : res (vec * nat) :=
  let '(y, start) := st in
  let s := sizeof o (S i) in
  if (s * s =? 0)%nat then Ok (y, start - sizeof o i)%nat
  else
    let y1 := put_seg y start s (bwd_solve s (diag_of m (S i)) (seg y start)) in
    y2 <- sub_column o m i start y1 ;;
    Ok (y2, start - sizeof o i)%nat.

(** conex/block_triangular_operations.cc:114-151. *)
Definition ApplyBlockInverseOfTransposeInPlace (o : TriWS) (m : rmem) (y : vec)
  : res vec :=
  match length (ws_snodes o) with
  | 0%nat => UB
  | S n1 =>
      '(y1, start) <- foldM (bwd_block o m) (y, snd (iter_reset o)) (rev (seq 0 n1)) ;;
      let s := sizeof o 0 in
      if (0 <? s * s)%nat
      then Ok (put_seg y1 start s (bwd_solve s (diag_of m 0) (seg y1 start)))
      else Ok y1
  end.

(** conex/block_triangular_operations.h:39-43. *)
Definition SolveInPlaceCholesky (o : TriWS) (m : rmem) (y : vec) : res vec :=
  y1 <- ApplyBlockInverseInPlace o m y ;;
  ApplyBlockInverseOfTransposeInPlace o m y1.

(** ** LDLT *)

(** The address the pointer of an empty diagonal block [k] aliases: empty
    blocks occupy no storage (conex/triangular_matrix_workspace.cc:123-133),
    so it is the first entry of the next non-empty diagonal block, or the end
    of the buffer ([None]). *)
Fixpoint next_nonempty (o : TriWS) (k len : nat) : option nat :=
  match len with
  | 0%nat => None
  | S l => if (0 <? sizeof o k)%nat then Some k else next_nonempty o (S k) l
  end.

(** Result of factoring one diagonal block: transpositions and the flag
    [regularization_used()]; the factor overwrites the block. *)
Record fact := mkFact { f_tr : list nat; f_reg : bool }.

(** [llts.emplace_back(C->diagonal[k])] (conex/block_triangular_operations.cc:324,
    conex/RLDLT.h:300-431,537-573).  For an empty block
    RLDLT.h:312-319 reads, and possibly overwrites, the aliased entry. *)
Definition factor_diag (o : TriWS) (m : rmem) (k : nat) : res (rmem * fact) :=
  let s := sizeof o k in
  if (s =? 0)%nat then
    match next_nonempty o k (length (ws_snodes o) - k) with
    | None => UB
    | Some k' => Ok (mem_set R m (ADiag k' 0 0) (small_pivot (m (ADiag k' 0 0))),
                     mkFact [] false)
    end
  else
    let st := rldlt s (diag_of m k) in
    Ok (put_diag m k (lm st), mkFact (ltr st) (negb (lret st))).

(** conex/block_triangular_operations.cc:322-347, one supernode. *)
Definition ldlt_block (o : TriWS) (ss : list (list addr)) (m : rmem) (k : nat)
  : res (rmem * fact) :=
  let s := sizeof o k in
  let nc := length (sepsof o k) in
  '(m1, f) <- factor_diag o m k ;;
  if (0 <? s * nc)%nat then
    let L := diag_of m1 k in
    let X := fun i j =>
      if ((i <? s) && (j <? nc))%nat%bool
      then fwd_solve s (unit_lower L) (perm_apply (f_tr f) (fun t => off_of m1 k t j)) i / L i i
      else off_of m1 k i j in
    let T := fun i j => L i i * X i j in
    let m2 := put_off m1 k X in
    s_s <- idx ss k ;;
    m3 <- schur_update m2 s nc T X s_s ;;
    Ok (m3, f)
  else Ok (m1, f).

(** conex/block_triangular_operations.cc:315-349.  Returns the factors and
    [!regularization_used]. *)
Definition BlockLDLTInPlace (o : TriWS) (ss : list (list addr)) (m : rmem)
  : res (rmem * list fact * bool) :=
  '(m', fs) <- foldM (fun st k =>
      let '(m, fs) := st in
      '(m', f) <- ldlt_block o ss m k ;;
      Ok (m', fs ++ [f])) (m, []) (seq 0 (length (ws_snodes o))) ;;
  Ok (m', fs, negb (existsb f_reg fs)).

(** conex/block_triangular_operations.cc:271-273 and 285-287: apply
    [inv(L_k) P_k] to block [k]. *)
Definition ldlt_fwd_diag (o : TriWS) (m : rmem) (f : fact) (k start : nat) (y : vec) : vec :=
  let s := sizeof o k in
  let y1 := put_seg y start s (perm_apply (f_tr f) (seg y start)) in
  put_seg y1 start s (fwd_solve s (unit_lower (diag_of m k)) (seg y1 start)).

(** conex/block_triangular_operations.cc:275-288; state: vector,
    [start_i_minus_1]; iteration for block [k = i]. *)
Definition ldlt_fwd_block (o : TriWS) (m : rmem) (fs : list fact) (st : vec * nat) (i1 : nat)
  : res (vec * nat) :=
  let '(y, start) := st in
  let s := sizeof o i1 in
  let start' := (start + s)%nat in
  let y1 := if (0 <? s * length (sepsof o i1))%nat
            then sub_sep y s (off_of m i1) (seg y start) (sepsof o i1) else y in
  f <- idx fs (S i1) ;;
  Ok (ldlt_fwd_diag o m f (S i1) start' y1, start').

(** conex/block_triangular_operations.cc:290-298. *)
Definition ldlt_scale (o : TriWS) (m : rmem) (st : vec * nat) (k : nat) : vec * nat :=
  let '(y, start) := st in
  let s := sizeof o k in
  (put_seg y start s (fun i => / diag_of m k i i * seg y start i), (start + s)%nat).

(** conex/block_triangular_operations.cc:265-299. *)
Definition ApplyBlockInverseOfMD (o : TriWS) (m : rmem) (fs : list fact) (y : vec) : res vec :=
  match length (ws_snodes o) with
  | 0%nat => UB
  | S n1 =>
      f0 <- idx fs 0 ;;
      '(y1, _) <- foldM (ldlt_fwd_block o m fs) (ldlt_fwd_diag o m f0 0 0 y, 0%nat) (seq 0 n1) ;;
      Ok (fst (for_up (S n1) (ldlt_scale o m) (y1, 0%nat)))
  end.

(** conex/block_triangular_operations.cc:228-230 and 259-261: apply
    [P_k^T inv(L_k^T)] to block [k]. *)
Definition ldlt_bwd_diag (o : TriWS) (m : rmem) (f : fact) (k start : nat) (y : vec) : vec :=
  let s := sizeof o k in
  let y1 := put_seg y start s (bwd_solve s (unit_lower (diag_of m k)) (seg y start)) in
  put_seg y1 start s (perm_apply_T (f_tr f) (seg y1 start)).

(** conex/block_triangular_operations.cc:232-262, iteration [i]; state: vector
    and [start_i] before the decrement. *)
Definition ldlt_bwd_block (o : TriWS) (m : rmem) (fs : list fact) (st : vec * nat) (i : nat)
  : res (vec * nat) :=
  let '(y, start) := st in
  let start' := (start - sizeof o i)%nat in
  y1 <- sub_column o m i start y ;;
  f <- idx fs i ;;
  Ok (ldlt_bwd_diag o m f i start' y1, start').

(** conex/block_triangular_operations.cc:222-263. *)
Definition ApplyBlockInverseOfMTranspose (o : TriWS) (m : rmem) (fs : list fact) (y : vec)
  : res vec :=
  match length (ws_snodes o) with
  | 0%nat => UB
  | S n1 =>
      match fs with
      | [] => UB
      | _ =>
        let fb := last fs (mkFact [] false) in
        let start := snd (iter_reset o) in
        '(y1, _) <- foldM (ldlt_bwd_block o m fs)
                          (ldlt_bwd_diag o m fb (length (ws_size o) - 1) start y, start)
                          (rev (seq 0 n1)) ;;
        Ok y1
      end
  end.

(** conex/block_triangular_operations.h:30-37. *)
Definition SolveInPlaceLDLT (o : TriWS) (m : rmem) (fs : list fact) (y : vec) : res vec :=
  y1 <- ApplyBlockInverseOfMD o m fs y ;;
  ApplyBlockInverseOfMTranspose o m fs y1.
