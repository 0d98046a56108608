(** Model of the class [TriangularMatrixOperations] and of the copy operations of
    [SparseTriangularMatrix]: conex/supernodal_solver.cc:42-137 and 139-354,
    conex/supernodal_solver.h:64-106.  Exact real arithmetic: a square root of a
    number that is not positive and a division by zero are a distinct outcome [None]
    (the program continues with values that are not finite). *)
From Coq Require Import List Arith Reals Bool.
From Verif Require Import Base TriWorkspaceModel AssemblerModel DenseModel BlockModel.
Import ListNotations.
Open Scope R_scope.

(** conex/supernodal_solver.h:64-106.  The memory is a function of the addresses of
    the blocks, large enough by construction. *)
Record sparse := mkSparse { sp_N : nat; sp_path : list (list nat); sp_ws : TriWS; sp_mem : rmem }.
Definition with_mem (s : sparse) (m : rmem) : sparse := mkSparse (sp_N s) (sp_path s) (sp_ws s) m.

(** conex/supernodal_solver.h:66-79: the workspace is built and its pointers are set
    up ([Initialize], triangular_matrix_workspace.cc:123-138). *)
Definition make_sparse (num_cols : nat) (cliques : list (list nat)) (sizes : list nat) (memory : rmem) : res sparse :=
  w <- TriWS_make cliques sizes ;;
  _ <- seperator_diagonal w ;;
  Ok (mkSparse num_cols cliques w memory).
(** conex/supernodal_solver.h:91-92, the copy constructor. *)
Definition copy_sparse (s : sparse) : res sparse := make_sparse (sp_N s) (sp_path s) (ws_size (sp_ws s)) (sp_mem s).
(** conex/supernodal_solver.h:94-96, [a = b]: the operator returns a copy of [b] and
    does not write to [a].  Result: [a] afterwards, and the returned object. *)
Definition assign (a b : sparse) : res (sparse * sparse) := c <- copy_sparse b ;; Ok (a, c).

(** conex/supernodal_solver.cc:264-273. *)
Definition SpToDense (s : sparse) (i j : nat) : res R := ToDense R 0 (sp_ws s) (sp_path s) (sp_mem s) i j.
(** conex/supernodal_solver.cc:275-283: all entries of all blocks. *)
Definition SetConstant (s : sparse) (val : R) : sparse := with_mem s (fun _ => val).

(** An entry of a block: the vector of blocks is accessed with [at], the entry
    without check. *)
Definition in_storage (o : TriWS) (a : addr) : res addr :=
  let node := match a with ADiag k _ _ => k | AOff k _ _ => k end in
  _ <- at_ (ws_snodes o) node ;;
  if addr_in_block o a then Ok a else UB.

(** ** Columns: conex/supernodal_solver.cc:42-103.  [dense_size] is never used while
    negative. *)
Record cursor := mkCursor { cu_node : nat; cu_dense : nat; cu_column : nat; cu_sncol : nat }.
(** conex/supernodal_solver.cc:44-46. *)
Definition first_column (s : sparse) : res cursor :=
  d <- at_ (ws_size (sp_ws s)) 0 ;; Ok (mkCursor 0 d 0 0).
(** conex/supernodal_solver.cc:47-56: one supernode further at most. *)
Definition NextColumn (s : sparse) (cu : cursor) : res cursor :=
  sz <- at_ (ws_size (sp_ws s)) (cu_node cu) ;;
  if (sz <=? S (cu_sncol cu))%nat then
    d <- at_ (ws_size (sp_ws s)) (S (cu_node cu)) ;;
    Ok (mkCursor (S (cu_node cu)) d (S (cu_column cu)) 0)
  else Ok (mkCursor (cu_node cu) (cu_dense cu - 1) (S (cu_column cu)) (S (cu_sncol cu))).
(** conex/supernodal_solver.cc:65-68. *)
Definition Diagonal (s : sparse) (cu : cursor) : res R :=
  a <- in_storage (sp_ws s) (ADiag (cu_node cu) (cu_sncol cu) (cu_sncol cu)) ;; Ok (sp_mem s a).
(** conex/supernodal_solver.cc:58-63: column of the supernode block, row of the
    separator block. *)
Definition Rescale (s : sparse) (cu : cursor) (scale : R) : res sparse :=
  _ <- in_storage (sp_ws s) (ADiag (cu_node cu) (cu_sncol cu) (cu_sncol cu)) ;;
  Ok (with_mem s (fun a => match a with
        | ADiag k i j => if ((k =? cu_node cu) && (j =? cu_sncol cu))%nat%bool then sp_mem s a * scale else sp_mem s a
        | AOff k i j => if ((k =? cu_node cu) && (i =? cu_sncol cu))%nat%bool then sp_mem s a * scale else sp_mem s a
        end)).
(** conex/supernodal_solver.cc:71-82; [n] is the length of [b]. *)
Definition SubtractWeightedColumn (s : sparse) (cu : cursor) (n : nat) (b : vec) (y : R) : res vec :=
  let k := cu_node cu in
  sz <- at_ (ws_size (sp_ws s)) k ;;
  _ <- at_ (ws_snodes (sp_ws s)) k ;;
  if ((cu_column cu + cu_dense cu <=? n) && (cu_sncol cu <? sz) && (cu_dense cu <=? sz))%nat%bool then
    let b1 := for_up (cu_dense cu) (fun b i => vset b (cu_column cu + i)
                (b (cu_column cu + i)%nat - y * sp_mem s (ADiag k (sz - cu_dense cu + i) (cu_sncol cu)))) b in
    sep <- at_ (ws_seps (sp_ws s)) k ;;
    foldM (fun b i =>
             p <- at_ (sp_path s) k ;;
             row <- at_ p (sz + i) ;;
             if (row <? n)%nat then Ok (vset b row (b row - y * sp_mem s (AOff k (cu_sncol cu) i))) else UB)
          b1 (seq 0 (length sep))
  else UB.
(** conex/supernodal_solver.cc:84-95. *)
Definition NonzeroRows (s : sparse) (cu : cursor) : res (list nat) :=
  sz <- at_ (ws_size (sp_ws s)) (cu_node cu) ;;
  sep <- at_ (ws_seps (sp_ws s)) (cu_node cu) ;;
  rest <- mapM (fun i => p <- at_ (sp_path s) (cu_node cu) ;; at_ p (sz + i)%nat) (seq 0 (length sep)) ;;
  Ok (map (fun i => (cu_column cu + i)%nat) (seq 1 (cu_dense cu - 1)) ++ rest).

(** ** Entries: conex/supernodal_solver.cc:139-236, class [LowerTriangularSuperNodal]. *)
(** conex/supernodal_solver.cc:165-172: by the first row of the clique, also of a
    clique without supernode. *)
Fixpoint lookup_path_from (path : list (list nat)) (index k : nat) : res nat :=
  match k with
  | O => Throw
  | S j => p <- at_ path j ;; f <- at_ p 0 ;;
           if (f <=? index)%nat then Ok j else lookup_path_from path index j
  end.
Definition LookupPath (s : sparse) (index : nat) : res nat := lookup_path_from (sp_path s) index (length (sp_path s)).
(** The part common to [Get] and [Increment], conex/supernodal_solver.cc:182-193 and
    208-225.  The offset of the column is not negative because the clique found starts
    at or before it; nor is the one of the row, which is at least the column. *)
Definition locate (s : sparse) (node i j : nat) : res (option addr) :=
  p <- at_ (sp_path s) node ;;
  first <- at_ p 0 ;;
  sz <- at_ (ws_size (sp_ws s)) node ;;
  let oi := (i - first)%nat in
  let oj := (j - first)%nat in
  if ((oi <? sz) && (oj <? sz))%nat%bool then a <- in_storage (sp_ws s) (ADiag node oi oj) ;; Ok (Some a)
  else match path_pos i (skipn sz p) 0 with
       | Some k => a <- in_storage (sp_ws s) (AOff node oj k) ;; Ok (Some a)
       | None => Ok None
       end.
(** conex/supernodal_solver.cc:174-194. *)
Definition Get (s : sparse) (i j : nat) : res R :=
  if (i <? j)%nat then Ok 0
  else node <- LookupPath s j ;; a <- locate s node i j ;;
       match a with Some a => Ok (sp_mem s a) | None => Ok 0 end.
(** conex/supernodal_solver.cc:196-228, always called without [supernode_index]. *)
Definition Increment (s : sparse) (val : R) (i j : nat) : res sparse :=
  if Req_EM_T val 0 then Ok s
  else node <- LookupPath s j ;; a <- locate s node i j ;;
       match a with Some a => Ok (with_mem s (mem_set R (sp_mem s) a (sp_mem s a + val))) | None => Throw end.

(** ** conex/supernodal_solver.cc:285-307 *)
(** Lines 288-289 and 304-305. *)
Definition scale_column (s : sparse) (cu : cursor) : res (option sparse) :=
  d <- Diagonal s cu ;;
  if Rlt_dec 0 d then s' <- Rescale s cu (1 / sqrt d) ;; Ok (Some s') else Ok None.
(** Lines 294-302. *)
Definition subtract_column (s : sparse) (i : nat) (indices : list nat) : res sparse :=
  let len := length indices in
  foldM (fun s k =>
           rk <- at_ indices k ;;
           g <- Get s rk i ;;
           foldM (fun s j => rj <- at_ indices j ;; v <- Get s rj i ;; Increment s (- g * v) rj rk)
                 s (seq k (len - k)))
        s (seq 0 len).
Definition chol_column (st : option (cursor * sparse)) (i : nat) : res (option (cursor * sparse)) :=
  match st with
  | None => Ok None
  | Some (cu, s) =>
      indices <- NonzeroRows s cu ;;
      s1 <- subtract_column s i indices ;;
      cu' <- NextColumn s1 cu ;;
      r <- scale_column s1 cu' ;;
      match r with Some s2 => Ok (Some (cu', s2)) | None => Ok None end
  end.
Definition CholeskyInPlace (s : sparse) : res (option sparse) :=
  cu <- first_column s ;;
  r <- scale_column s cu ;;
  match r with
  | None => Ok None
  | Some s1 =>
      st <- foldM chol_column (Some (cu, s1)) (seq 0 (sp_N s - 1)) ;;
      match st with Some (_, s2) => Ok (Some s2) | None => Ok None end
  end.

(** A division; [None] for a zero divisor. *)
Definition quotient (a b : R) : option R := if Req_EM_T b 0 then None else Some (a / b).

(** conex/supernodal_solver.cc:334-354; [n] is the length of [b].  State: the cursor,
    [res] and [y]. *)
Definition forward_column (s : sparse) (n : nat) (st : option (cursor * vec * vec)) (i : nat) : res (option (cursor * vec * vec)) :=
  match st with
  | None => Ok None
  | Some (cu, re, y) =>
      re' <- SubtractWeightedColumn s cu n re (y (i - 1)%nat) ;;
      cu' <- NextColumn s cu ;;
      d <- Diagonal s cu' ;;
      match quotient (re' i) d with Some q => Ok (Some (cu', re', vset y i q)) | None => Ok None end
  end.
Definition ApplyInverse (s : sparse) (n : nat) (b : vec) : res (option vec) :=
  cu <- first_column s ;;
  if (n =? 0)%nat then UB else
  d <- Diagonal s cu ;;
  match quotient (b 0%nat) d with
  | None => Ok None
  | Some q =>
      st <- foldM (forward_column s n) (Some (cu, b, vset (fun _ => 0) 0 q)) (seq 1 (n - 1)) ;;
      match st with Some (_, _, y) => Ok (Some y) | None => Ok None end
  end.

(** conex/supernodal_solver.cc:316-332. *)
Definition backward_column (s : sparse) (st : option (vec * vec)) (i : nat) : res (option (vec * vec)) :=
  match st with
  | None => Ok None
  | Some (re, y) =>
      re' <- foldM (fun re j => g <- Get s (i + 1)%nat j ;; Ok (vset re j (re j - g * y (i + 1)%nat))) re (seq 0 (i + 1)) ;;
      d <- Get s i i ;;
      match quotient (re' i) d with Some q => Ok (Some (re', vset y i q)) | None => Ok None end
  end.
Definition ApplyInverseOfTranspose (s : sparse) (n : nat) (b : vec) : res (option vec) :=
  if (n =? 0)%nat then UB else
  d <- Get s (n - 1)%nat (n - 1)%nat ;;
  match quotient (b (n - 1)%nat) d with
  | None => Ok None
  | Some q =>
      st <- foldM (backward_column s) (Some (b, vset (fun _ => 0) (n - 1)%nat q)) (rev (seq 0 (n - 1))) ;;
      match st with Some (_, y) => Ok (Some y) | None => Ok None end
  end.
