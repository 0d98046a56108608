(** Model of the carving of the single workspace buffer: conex/memory_utils.h,
    conex/workspace.h, conex/newton_step.h, conex/linear_workspace.h,
    conex/workspace_soc.h, conex/psd_constraint.h, conex/hermitian_psd.h,
    conex/equality_constraint.h, conex/quadratic_cost.cc.  Offsets and sizes
    count doubles from the start of the buffer.  Integer overflow of [int] and
    the conversion to [unsigned int] in [get_size_aligned] are not modelled
    (sizes are natural numbers).  No proofs in this file. *)
From Coq Require Import List Arith Bool.
From Verif Require Import Base.
Import ListNotations.

(** conex/memory_utils.h:4-12. *)
Definition get_size_aligned (n : nat) : nat :=
  let remainder := n mod 4 in
  if negb (remainder =? 0) then n + 4 - remainder else n.

(** The objects registered in the vector [workspaces]
    (conex/cone_program.h:174-181). *)
Inductive ws :=
| WLinear (n num_vars : nat)                 (* conex/linear_workspace.h:7-41 *)
| WSoc (n : nat)                             (* conex/workspace_soc.h:7-47 *)
| WPsd (n : nat)                             (* conex/psd_constraint.h:9-37, conex/hermitian_psd.h:10-38 *)
| WEmpty                                     (* conex/equality_constraint.h:9-18, conex/quadratic_cost.cc:7-16 *)
| WSchur (m : nat) (residual_only : bool)    (* conex/newton_step.h:51-107 *)
| WStats (max_iter : nat).                   (* conex/workspace.h:73-117 *)

(** [SizeOf] of each of them: linear_workspace.h:11-17, workspace_soc.h:10-14,
    psd_constraint.h:15-17, hermitian_psd.h:16-18, equality_constraint.h:12,
    quadratic_cost.cc:10, newton_step.h:55-65, workspace.h:83-86. *)
Definition ws_size (w : ws) : nat :=
  match w with
  | WLinear n v => 3 * get_size_aligned n + get_size_aligned (n * v)
  | WSoc n => get_size_aligned n + 4 * get_size_aligned n
  | WPsd n => 3 * get_size_aligned (n * n)
  | WEmpty => 0
  | WSchur m residual_only =>
      2 * get_size_aligned m + (if residual_only then 0 else get_size_aligned (m * m))
  | WStats max_iter => max_iter * 2 + 2
  end.

(** A piece of the buffer used by one member: first offset, number of doubles,
    and whether the member is an [Eigen::Map<..., Eigen::Aligned>]. *)
Record piece := mkPiece { pc_start : nat; pc_len : nat; pc_map : bool }.

(** [Initialize(o, data)] of each of them: linear_workspace.h:19-27,
    workspace_soc.h:16-24 (the last piece is the scalar [*W0]),
    psd_constraint.h:19-25, hermitian_psd.h:20-26, equality_constraint.h:14,
    quadratic_cost.cc:12, newton_step.h:67-78, workspace.h:75-81 (arrays
    [sqrt_inv_mu], [norm_inf_d] and the scalars [c_scaling], [b_scaling]). *)
Definition ws_pieces (w : ws) (data : nat) : list piece :=
  match w with
  | WLinear n v =>
      [ mkPiece data n true;
        mkPiece (data + 1 * get_size_aligned n) n true;
        mkPiece (data + 2 * get_size_aligned n) n true;
        mkPiece (data + 3 * get_size_aligned n) (n * v) true ]
  | WSoc n =>
      [ mkPiece data n true;
        mkPiece (data + get_size_aligned n) n true;
        mkPiece (data + 2 * get_size_aligned n) n true;
        mkPiece (data + 3 * get_size_aligned n) n true;
        mkPiece (data + 4 * get_size_aligned n) 1 false ]
  | WPsd n =>
      [ mkPiece data (n * n) true;
        mkPiece (data + 1 * get_size_aligned (n * n)) (n * n) true;
        mkPiece (data + 2 * get_size_aligned (n * n)) (n * n) true ]
  | WEmpty => []
  | WSchur m residual_only =>
      [ mkPiece data m true;
        mkPiece (data + 1 * get_size_aligned m) m true ]
      ++ (if residual_only then []
          else [ mkPiece (data + 2 * get_size_aligned m) (m * m) true ])
  | WStats max_iter =>
      [ mkPiece data max_iter false;
        mkPiece (data + max_iter) max_iter false;
        mkPiece (data + 2 * max_iter) 1 false;
        mkPiece (data + 2 * max_iter + 1) 1 false ]
  end.

(** conex/workspace.h:8-15. *)
Definition ws_total (l : list ws) : nat := fold_left (fun y w => y + ws_size w) l 0.

(** conex/workspace.h:27-34: the areas are laid out one after the other. *)
Fixpoint ws_layout (l : list ws) (data : nat) : list (list piece) :=
  match l with
  | [] => []
  | w :: t => ws_pieces w data :: ws_layout t (data + ws_size w)
  end.

(** Offset at which the [k]-th area starts (the value of [data] in
    conex/workspace.h:29-33 when it is initialised). *)
Fixpoint ws_offset (l : list ws) (data k : nat) : nat :=
  match k, l with
  | S k', w :: t => ws_offset t (data + ws_size w) k'
  | _, _ => data
  end.
