(** Model of conex/supernodal_assembler.{h,cc}, of [DoBind]
    (conex/supernodal_solver.h:36-62) and of [Assemble]/[KKTMatrix]
    (conex/kkt_solver.cc).  Generic in the scalar type.

    Memory: the factor storage is a function from block entries [addr] to
    scalars (TriWorkspaceModel shows that distinct block entries have distinct
    buffer offsets).  The private storage of a constraint's matrix [G] is not
    needed: [SetDenseData] rewrites it before every use. *)
From Coq Require Import List Arith ZArith Bool.
From Verif Require Import Base TreeModel CliqueModel SupernodeModel TriWorkspaceModel.
Import ListNotations.

Definition addr_eqb (a b : addr) : bool :=
  match a, b with
  | ADiag n i j, ADiag n' i' j' => (n =? n') && (i =? i') && (j =? j')
  | AOff n i j, AOff n' i' j' => (n =? n') && (i =? i') && (j =? j')
  | _, _ => false
  end.

Section Assembler.
  Variable F : Type.
  Variable F0 : F.
  Variable Fadd : F -> F -> F.

  Definition mem := addr -> F.
  Definition mem_set (m : mem) (a : addr) (v : F) : mem :=
    fun b => if addr_eqb a b then v else m b.

  (** A constraint block: the matrix written by [SetDenseData]
      (supernodal_assembler.h:112-116, 127), all entries. *)
  Definition block := nat -> nat -> F.

  (** What [DoBind] attaches to one constraint: position [e] in the elimination
      order, labels of supernode and separator, addresses of the separator
      products, number of variables of the constraint. *)
  Record binding := mkBind {
    b_pos : nat;
    b_sn : list Z;
    b_sep : list Z;
    b_ss : list addr;
    b_nvars : nat
  }.

  (** conex/supernodal_assembler.cc:59-70. *)
  Definition GetCoeff (G : block) (i j : Z) : F :=
    if ((i <? 0) || (j <? 0))%Z then F0
    else if (j <=? i)%Z then G (Z.to_nat i) (Z.to_nat j)
    else G (Z.to_nat j) (Z.to_nat i).

  (** conex/supernodal_assembler.cc:81-86. *)
  Fixpoint strictly_increasing (l : list Z) : bool :=
    match l with
    | [] => true
    | a :: t => match t with
                | [] => true
                | b :: _ => negb (b <=? a)%Z && strictly_increasing t
                end
    end.

  (** conex/supernodal_assembler.cc:72-93 together with
      conex/supernodal_solver.h:45 (no diagonal block is bound for an empty
      supernode, and [direct_update] is initially false). *)
  Definition direct_update (b : binding) : bool :=
    (0 <? length (b_sn b)) && (b_nvars b =? length (b_sn b))
    && strictly_increasing (b_sn b).

  (** conex/supernodal_assembler.cc:50-57 on the diagonal block. *)
  Definition SetLowerTri (m : mem) (G : block) (b : binding) : mem :=
    fold_left (fun m ij =>
                 mem_set m (ADiag (b_pos b) (fst ij) (snd ij))
                   (GetCoeff G (nth (fst ij) (b_sn b) (-1)%Z)
                               (nth (snd ij) (b_sn b) (-1)%Z)))
              (lower_pairs (length (b_sn b))) m.

  (** conex/supernodal_assembler.cc:41-48 on the off-diagonal block. *)
  Definition Set_off (m : mem) (f : nat -> nat -> F) (b : binding) : mem :=
    fold_left (fun m j =>
                 fold_left (fun m i => mem_set m (AOff (b_pos b) i j) (f i j))
                           (seq 0 (length (b_sn b))) m)
              (seq 0 (length (b_sep b))) m.

  (** conex/supernodal_assembler.cc:103-111. *)
  Definition Scatter (m : mem) (G : block) (b : binding) : mem :=
    fold_left (fun m p =>
                 let '((i, j), a) := p in
                 mem_set m a (Fadd (m a) (GetCoeff G (nth i (b_sep b) (-1)%Z)
                                                     (nth j (b_sep b) (-1)%Z))))
              (combine (lower_pairs (length (b_sep b))) (b_ss b)) m.

  (** Writing [G] through the map of conex/supernodal_assembler.cc:89-92: all
      [m x m] entries land in the diagonal block. *)
  Definition write_direct (m : mem) (G : block) (b : binding) : mem :=
    fold_left (fun m j =>
                 fold_left (fun m i => mem_set m (ADiag (b_pos b) i j) (G i j))
                           (seq 0 (b_nvars b)) m)
              (seq 0 (b_nvars b)) m.

  (** conex/supernodal_assembler.cc:113-165, release build.  The diagonal and
      off-diagonal blocks bound by [DoBind] always have [assign = 1]
      (supernodal_assembler.h:22,33), the scatter block is the one with
      [stride = -1].  Empty blocks are not bound; looping over them is the
      same as skipping them. *)
  Definition UpdateBlocks (m : mem) (G : block) (b : binding) : mem :=
    if direct_update b then
      let m1 := write_direct m G b in
      Set_off m1 (fun _ _ => F0) b
    else
      let m1 := SetLowerTri m G b in
      let m2 := Set_off m1 (fun i j => GetCoeff G (nth i (b_sn b) (-1)%Z)
                                                  (nth j (b_sep b) (-1)%Z)) b in
      Scatter m2 G b.

  (** conex/kkt_solver.cc:164-170: constraints are visited from the last to the
      first position of the elimination order.  [bs] is indexed by position,
      [G] by constraint; [order] gives the constraint at each position. *)
  Definition Assemble (bs : list binding) (order : list nat) (G : nat -> block)
    (m : mem) : mem :=
    fold_left (fun m e =>
                 match nth_error bs e with
                 | Some b => UpdateBlocks m (G (nth e order 0)) b
                 | None => m
                 end)
              (rev (seq 0 (length bs))) m.

  (** conex/supernodal_solver.h:36-62, [DoBind], as a list indexed by position
      in the elimination order. *)
  Definition make_bindings (cliques : list (list nat)) (d : MatrixData)
    (labels : list (list Z * list Z)) (ss : list (list addr)) : list binding :=
    map (fun e => let '(sn, sep) := nth e labels ([], []) in
                  mkBind e sn sep (nth e ss [])
                         (length (nth (nth e (d_order d) 0) cliques [])))
        (seq 0 (length cliques)).

  (** conex/supernodal_solver.cc:264-273, [ToDense]; entry by entry. *)
  Definition ToDense (o : TriWS) (path : list (list nat)) (m : mem) (i j : nat)
    : res F :=
    a <- Get_addr o path i j ;;
    match a with Some a => Ok (m a) | None => Ok F0 end.

  (** conex/kkt_solver.cc:265-269.  [selfadjointView<Lower>] mirrors the lower
      triangle; [Pt * G * Pt^T] has entry [(Pt(i), Pt(j)) = G(i,j)], so the
      entry for original variables [u, v] is read at their positions. *)
  Definition KKTMatrix (o : TriWS) (d : MatrixData) (m : mem) (u v : nat) : res F :=
    i <- at_ (d_perm d) u ;;
    j <- at_ (d_perm d) v ;;
    if j <=? i then ToDense o (d_cliques d) m i j
    else ToDense o (d_cliques d) m j i.

  (** The whole pipeline: constructor, [Bind], [Assemble]. *)
  Definition build (cliques dual_vars : list (list nat))
    : res (MatrixData * TriWS * list binding) :=
    '(d, labels) <- kkt_analyze cliques dual_vars ;;
    o <- TriWS_make (d_cliques d) (d_supernode_size d) ;;
    ss <- seperator_diagonal o ;;
    Ok (d, o, make_bindings cliques d labels ss).
End Assembler.
