(** Model of conex/triangular_matrix_workspace.{h,cc} and of the storage part
    of conex/supernodal_solver.{h,cc}. *)
From Coq Require Import List Arith Bool.
From Verif Require Import Base.
Import ListNotations.

(** conex/memory_utils.h: round up to a multiple of 4 doubles. *)
Definition get_size_aligned (n : nat) : nat :=
  if n mod 4 =? 0 then n else n + (4 - n mod 4).

(** conex/triangular_matrix_workspace.h:14-65 (the integer members). *)
Record TriWS := mkWS {
  ws_N : nat;
  ws_size : list nat;                       (* supernode_size *)
  ws_snodes : list (list nat);
  ws_seps : list (list nat);
  ws_v2sn : list nat;                       (* variable_to_supernode_ *)
  ws_v2pos : list nat;                      (* variable_to_supernode_position_ *)
  ws_colint : list (list nat);              (* column_intersections *)
  ws_intpos : list (list (list (nat * nat)))(* intersection_position *)
}.

(** conex/triangular_matrix_workspace.cc:57-65, inner loop for supernode
    [cnt].  [variable_to_supernode_[var]] is an unchecked write; the check on
    lines 58-60 constructs an exception without throwing it, so it has no
    effect. State: snode being filled, v2sn, v2pos, var. *)
Definition fill_snode (path_cnt : list nat) (cnt : nat)
  (st : list nat * list nat * list nat * nat) (i : nat)
  : res (list nat * list nat * list nat * nat) :=
  let '(si, v2sn, v2pos, var) := st in
  x <- at_ path_cnt i ;;
  si' <- set_at si i x ;;
  v2sn' <- set_idx v2sn var cnt ;;
  v2pos' <- set_idx v2pos var i ;;
  Ok (si', v2sn', v2pos', S var).

(** conex/triangular_matrix_workspace.cc:52-67.  State: snodes so far, v2sn,
    v2pos, var. *)
Definition build_snodes (path : list (list nat)) (size : list nat) (N : nat)
  : res (list (list nat) * list nat * list nat * nat) :=
  foldM (fun st cnt =>
           let '(sns, v2sn, v2pos, var) := st in
           sz <- at_ size cnt ;;
           p <- (if 0 <? sz then at_ path cnt else Ok []) ;;
           '(si, v2sn', v2pos', var') <-
              foldM (fill_snode p cnt) (repeat 0 sz, v2sn, v2pos, var) (seq 0 sz) ;;
           Ok (sns ++ [si], v2sn', v2pos', var'))
        ([], repeat 0 N, repeat 0 N, 0) (seq 0 (length path)).

(** conex/triangular_matrix_workspace.cc:82-110: register separator entry [i]
    of clique [cnt] with the supernode that owns its variable.  [sn] may be -1
    (variable owned by supernode 0): unchecked index, hence UB.  State:
    separator so far, column_intersections, intersection_position (lists in
    insertion order). *)
Definition add_intersection (path_cnt : list nat) (cnt sz : nat)
  (v2sn v2pos : list nat)
  (st : list nat * list (list nat) * list (list (list (nat * nat)))) (i : nat)
  : res (list nat * list (list nat) * list (list (list (nat * nat)))) :=
  let '(sep, ci, ip) := st in
  var <- at_ path_cnt (i + sz) ;;
  sn1 <- idx v2sn var ;;
  pos <- idx v2pos var ;;
  match sn1 with
  | 0 => UB
  | S sn =>
      l <- idx ci sn ;;
      ps <- idx ip sn ;;
      let fresh := (length l =? 0) || negb (last l 0 =? cnt) in
      let l' := if fresh then l ++ [cnt] else l in
      let ps' := if fresh then ps ++ [[(pos, i)]]
                 else removelast ps ++ [last ps [] ++ [(pos, i)]] in
      ci' <- set_idx ci sn l' ;;
      ip' <- set_idx ip sn ps' ;;
      Ok (sep ++ [var], ci', ip')
  end.

(** conex/triangular_matrix_workspace.cc:69-112. *)
Definition build_seps (path : list (list nat)) (size : list nat)
  (v2sn v2pos : list nat)
  : res (list (list nat) * list (list nat) * list (list (list (nat * nat)))) :=
  foldM (fun st cnt =>
           let '(seps, ci, ip) := st in
           p <- at_ path cnt ;;
           sz <- at_ size cnt ;;
           if length p <? sz then Throw
           else
           '(sep, ci', ip') <-
              foldM (add_intersection p cnt sz v2sn v2pos) ([], ci, ip)
                    (seq 0 (length p - sz)) ;;
           Ok (seps ++ [sep], ci', ip'))
        ([], repeat [] (length path - 1), repeat [] (length path - 1))
        (seq 0 (length path)).

(** conex/triangular_matrix_workspace.cc:37-121: constructor. *)
Definition TriWS_make (path : list (list nat)) (size : list nat) : res TriWS :=
  let N := sum_list size in
  '(sns, v2sn, v2pos, _) <- build_snodes path size N ;;
  '(seps, ci, ip) <- build_seps path size v2sn v2pos ;;
  Ok (mkWS N size sns seps v2sn v2pos (map (@rev nat) ci)
           (map (@rev (list (nat * nat))) ip)).

(** An address: entry [(i,j)] of the diagonal block, or of the off-diagonal
    block, of a supernode. *)
Inductive addr :=
| ADiag (node i j : nat)
| AOff (node i j : nat).

(** conex/triangular_matrix_workspace.cc:24-33: position of [r] among the
    separators. *)
Fixpoint sep_pos (r : nat) (seps : list nat) (cnt : nat) : option nat :=
  match seps with
  | [] => None
  | si :: t => if si =? r then Some cnt else sep_pos r t (S cnt)
  end.

(** conex/triangular_matrix_workspace.cc:13-33, [LookupAddress]. *)
Definition LookupAddress (o : TriWS) (r c : nat) : res addr :=
  node <- idx (ws_v2sn o) c ;;
  node_r <- idx (ws_v2sn o) r ;;
  j <- idx (ws_v2pos o) c ;;
  if node =? node_r then
    i <- idx (ws_v2pos o) r ;;
    Ok (ADiag node i j)
  else
    s <- idx (ws_seps o) node ;;
    match sep_pos r s 0 with
    | Some cnt => Ok (AOff node j cnt)
    | None => Throw
    end.

(** The index pairs visited by the loops of conex/
    triangular_matrix_workspace.cc:154-158 (and by the update loops that
    consume the result): [(i, j)] with [j <= i], column by column. *)
Definition lower_pairs (n : nat) : list (nat * nat) :=
  flat_map (fun j => map (fun i => (i, j)) (seq j (n - j))) (seq 0 n).

(** conex/triangular_matrix_workspace.cc:149-159, [S_S]. *)
Definition S_S (o : TriWS) (clique : nat) : res (list addr) :=
  s <- at_ (ws_seps o) clique ;;
  mapM (fun ij => r <- idx s (fst ij) ;; c <- idx s (snd ij) ;;
                  LookupAddress o r c) (lower_pairs (length s)).

(** conex/triangular_matrix_workspace.cc:135-138. *)
Definition seperator_diagonal (o : TriWS) : res (list (list addr)) :=
  mapM (S_S o) (seq 0 (length (ws_snodes o))).

(** conex/triangular_matrix_workspace.h:58-64. *)
Definition SizeOfSupernode (o : TriWS) (i : nat) : nat :=
  get_size_aligned (nth i (ws_size o) 0 * nth i (ws_size o) 0).
Definition SizeOfSeparator (o : TriWS) (i : nat) : nat :=
  get_size_aligned (nth i (ws_size o) 0 * length (nth i (ws_seps o) [])).

(** conex/triangular_matrix_workspace.h:27-36. *)
Definition SizeOf_ws (o : TriWS) : nat :=
  sum_list (map (SizeOfSupernode o) (seq 0 (length (ws_snodes o)))) +
  sum_list (map (SizeOfSeparator o) (seq 0 (length (ws_seps o)))).

(** conex/triangular_matrix_workspace.cc:123-133: start offsets of the
    diagonal and off-diagonal block of supernode [j] in the buffer. *)
Fixpoint block_start (o : TriWS) (j : nat) : nat :=
  match j with
  | 0 => 0
  | S k => block_start o k + SizeOfSupernode o k + SizeOfSeparator o k
  end.
Definition diag_offset (o : TriWS) (j : nat) : nat := block_start o j.
Definition off_offset (o : TriWS) (j : nat) : nat :=
  block_start o j + SizeOfSupernode o j.

(** Both blocks are column-major [Eigen::Map<MatrixXd>] with
    [supernode_size[j]] rows (triangular_matrix_workspace.cc:126-131). *)
Definition addr_offset (o : TriWS) (a : addr) : nat :=
  match a with
  | ADiag n i j => diag_offset o n + (i + j * nth n (ws_size o) 0)
  | AOff n i j => off_offset o n + (i + j * nth n (ws_size o) 0)
  end.

(** Entry exists in its block. *)
Definition addr_in_block (o : TriWS) (a : addr) : bool :=
  match a with
  | ADiag n i j => (n <? length (ws_snodes o)) && (i <? nth n (ws_size o) 0)
                   && (j <? nth n (ws_size o) 0)
  | AOff n i j => (n <? length (ws_snodes o)) && (i <? nth n (ws_size o) 0)
                  && (j <? length (nth n (ws_seps o) []))
  end.

(** conex/supernodal_solver.cc:105-115, [LookupSuperNode]: last non-empty
    supernode whose first column is at most [index]. *)
Fixpoint lookup_sn_from (snodes : list (list nat)) (index : nat) (j : nat)
  : res nat :=
  match j with
  | 0 => Throw
  | S k =>
      match nth_error snodes k with
      | None => Throw
      | Some [] => lookup_sn_from snodes index k
      | Some (f :: _) => if f <=? index then Ok k else lookup_sn_from snodes index k
      end
  end.
Definition LookupSuperNode (o : TriWS) (index : nat) : res nat :=
  lookup_sn_from (ws_snodes o) index (length (ws_snodes o)).

(** conex/supernodal_solver.cc:131-135: search of row [i] in the separator
    part of [path]. *)
Fixpoint path_pos (i : nat) (p : list nat) (k : nat) : option nat :=
  match p with
  | [] => None
  | x :: t => if i =? x then Some k else path_pos i t (S k)
  end.

(** conex/supernodal_solver.cc:117-137, [Get]: where entry [(i,j)] of the lower
    triangle is read; [None] means the constant 0.  [path] is the relabelled
    clique list.  For [j <= i] the offsets are non-negative because the owner of
    column [j] starts at or before [j]. *)
Definition Get_addr (o : TriWS) (path : list (list nat)) (i j : nat)
  : res (option addr) :=
  if i <? j then Ok None
  else
    node <- LookupSuperNode o j ;;
    p <- at_ path node ;;
    first <- at_ p 0 ;;
    sz <- at_ (ws_size o) node ;;
    let oi := i - first in
    let oj := j - first in
    if (oi <? sz) && (oj <? sz) then Ok (Some (ADiag node oi oj))
    else
      match path_pos i (skipn sz p) 0 with
      | Some k => Ok (Some (AOff node oj k))
      | None => Ok None
      end.
