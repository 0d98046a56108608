(** Property C80: the entries and blocks that the MATLAB interface keeps. *)
From Coq Require Import List Arith Bool Lia.
From Verif Require Import ComponentModel Spec_Component MaskModel Spec_Mask MaskProofs MaskLoop.
Import ListNotations.

(** If every given column is met by a row, the closure ends and is the set of columns
    that are reached. *)
Theorem C80_closure : forall m n A b M, (forall c, c < n -> M c = true -> touched m A c) ->
  exists M', SubspaceClosure m n A b M = Some M' /\ forall c, c < n -> (M' c = true <-> reached m n A b M c).
Proof. exact closure_ok. Qed.
Example C80_example : let A r c := match r, c with 0, 0 | 0, 1 | 1, 1 | 1, 2 | 2, 3 => true | _, _ => false end in
  let M c := c =? 0 in (forall c, c < 4 -> M c = true -> touched 3 A c) /\
  exists M', SubspaceClosure 3 4 A (fun _ => false) M = Some M' /\ map M' [0; 1; 2; 3] = [true; true; true; false].
Proof.
  intros A M. split; [|eexists; split; reflexivity]. intros c _ H. apply Nat.eqb_eq in H. subst c. exists 0. split; [lia|reflexivity].
Qed.

(** If the rows are symmetric and meet all entries of the affine term, the blocks are
    found; they are disjoint, what they keep suffices, and they are the finest ones. *)
Theorem C80_blocks : forall m d A b c, (forall r i j, r < m -> i < d -> j < d -> A r (i + d * j) = A r (j + d * i)) ->
  (forall k, k < d * d -> c k = true -> touched m A k) ->
  exists q, BuildMask m d A b c = Some q /\ NoDup (concat q) /\ (forall u, In u (concat q) -> u < d) /\ keeps m d A b c (in_block q) /\
    forall P : nat -> nat -> Prop, (forall i j, P i j -> P j i) -> (forall i j k, P i j -> P j k -> P i k) -> keeps m d A b c P ->
      forall i j, in_block q i j -> P i j.
Proof. intros m d A b c. apply build_ok. Qed.
(** Order three: one row couples the first two indices, one has the last entry. *)
Example C80_blocks_example : let A r k := match r, k with 0, 0 | 0, 1 | 0, 3 | 1, 8 => true | _, _ => false end in
  let c k := (k =? 0) || (k =? 8) in (forall r i j, r < 2 -> i < 3 -> j < 3 -> A r (i + 3 * j) = A r (j + 3 * i)) /\
  (forall k, k < 3 * 3 -> c k = true -> touched 2 A k) /\ BuildMask 2 3 A (fun _ => false) c = Some [[2]; [0; 1]].
Proof.
  intros A c. split; [|split; [|reflexivity]].
  - intros r i j Hr Hi Hj. destruct r as [|[|]]; try lia; destruct i as [|[|[|]]]; try lia; destruct j as [|[|[|]]]; try lia; reflexivity.
  - intros k _ H. apply orb_true_iff in H as [H|H]; apply Nat.eqb_eq in H; subst k; [exists 0|exists 1]; (split; [lia|reflexivity]).
Qed.

(** A given column that no row meets is dropped. *)
Theorem C80_dropped_refuted : exists m n A b M M', SubspaceClosure m n A b M = Some M' /\ exists c, c < n /\ M c = true /\ reached m n A b M c /\ M' c = false.
Proof.
  exists 1, 2, (fun r c => c =? 1), (fun r => true), (fun c => c =? 0). eexists. split; [reflexivity|]. exists 0. split; [lia|]. split; [reflexivity|].
  split; [apply Given; [lia|reflexivity]|reflexivity].
Qed.
(** The loop compares the numbers of entries: if one is dropped while another is found,
    it ends too early, and reached columns that rows do meet are missing. *)
Theorem C80_early_refuted : exists m n A b M M', SubspaceClosure m n A b M = Some M' /\
  exists c, c < n /\ touched m A c /\ reached m n A b M c /\ M' c = false.
Proof.
  exists 2, 4, (fun r c => match r, c with 0, 1 | 0, 2 | 1, 2 | 1, 3 => true | _, _ => false end), (fun r => false), (fun c => c <=? 1).
  eexists. split; [reflexivity|]. exists 3. split; [lia|]. split; [exists 1; split; [lia|reflexivity]|]. split; [|reflexivity].
  apply Through with 1 2; [|lia|lia|reflexivity|reflexivity]. apply Through with 0 1; [|lia|lia|reflexivity|reflexivity]. apply Given; [lia|reflexivity].
Qed.

(** The affine term couples two indices, the rows do not: they are put into different
    blocks, and the coupling is lost. *)
Theorem C80_coupling_refuted : exists m d A b c, (forall i j, i < d -> j < d -> c (i + d * j) = c (j + d * i)) /\
  c (0 + d * 1) = true /\ BuildMask m d A b c = Some [[0]; [1]].
Proof.
  exists 1, 2, (fun _ k => (k =? 0) || (k =? 3)), (fun _ => true), (fun k => (k =? 1) || (k =? 2)). split; [|split; reflexivity].
  intros i j Hi Hj. destruct i as [|[|]]; try lia; destruct j as [|[|]]; try lia; reflexivity.
Qed.
(** Blocks of the affine term without variables are left out. *)
Theorem C80_constant_refuted : exists m d A b c, c (1 + d * 1) = true /\ BuildMask m d A b c = Some [[0]].
Proof. exists 1, 2, (fun _ k => k =? 0), (fun _ => true), (fun k => k =? 3). split; reflexivity. Qed.
Print Assumptions C80_closure.
Print Assumptions C80_blocks.
Print Assumptions C80_dropped_refuted.
Print Assumptions C80_early_refuted.
Print Assumptions C80_coupling_refuted.
Print Assumptions C80_constant_refuted.
