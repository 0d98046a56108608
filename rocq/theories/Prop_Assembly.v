(** Properties of the assembled KKT matrix (C08-C10), over the reals. *)
From Coq Require Import List Arith ZArith Reals Lra Lia Bool.
From Verif Require Import Base BaseFacts SupernodeModel TriWorkspaceModel AssemblerModel Spec_Assembly
  AssemblerProofs Prop_Symbolic.
Import ListNotations.

Lemma R_comm_monoid : comm_monoid R 0%R Rplus.
Proof. constructor; intros; lra. Qed.

Notation AssembleR := (Assemble R 0%R Rplus).
Notation KKTMatrixR := (KKTMatrix R 0%R).

(** ** C08: guard exactly as in the English statement: no constraint is bound in
    direct-update mode while its supernode carries a fill-in label (-1). *)
Theorem C08_kkt_is_sum_of_blocks : forall cliques dual_vars d o bs,
  admissible cliques dual_vars -> build cliques dual_vars = Ok (d, o, bs) ->
  (forall b, In b bs -> direct_update b = true -> ~ In (-1)%Z (b_sn b)) ->
  forall (G : nat -> nat -> nat -> R) (m : addr -> R) u v,
  covered cliques u -> covered cliques v ->
  KKTMatrixR o d (AssembleR bs (d_order d) G m) u v = Ok (sum_of_blocks R 0%R Rplus cliques G u v).
Proof. intros. eapply assembled_kkt; eauto using R_comm_monoid. Qed.
Print Assumptions C08_kkt_is_sum_of_blocks.

(** The guard in user terms: it is enough that every supernode with as many
    variables as its constraint consists of variables of that constraint. *)
Theorem C08_kkt_is_sum_of_blocks_no_fill : forall cliques dual_vars d o bs,
  admissible cliques dual_vars -> build cliques dual_vars = Ok (d, o, bs) ->
  (forall k, k < length cliques ->
     let c := nth (nth k (d_order d) 0) cliques [] in
     let sn := nth k (d_sn_labels d) [] in
     length sn = length c -> incl sn c) ->
  forall (G : nat -> nat -> nat -> R) (m : addr -> R) u v,
  covered cliques u -> covered cliques v ->
  KKTMatrixR o d (AssembleR bs (d_order d) G m) u v = Ok (sum_of_blocks R 0%R Rplus cliques G u v).
Proof.
  intros cliques dual_vars d o bs AD E H G m u v Hu Hv.
  eapply assembled_kkt; eauto using R_comm_monoid. eapply no_fill_clean; eauto.
Qed.
Print Assumptions C08_kkt_is_sum_of_blocks_no_fill.

Definition ok_cliques := [[2;3;4];[1;2];[1;0];[1;5]].
Definition no_duals := [[]; []; []; []] : list (list nat).
Example C08_example : admissible ok_cliques no_duals /\
  exists d o bs, build ok_cliques no_duals = Ok (d, o, bs) /\
    (forall b, In b bs -> direct_update b = true -> ~ In (-1)%Z (b_sn b)).
Proof.
  split.
  - constructor; try discriminate; auto.
    + intros c Hc. cbn in Hc.
      repeat (destruct Hc as [<-|Hc]; [repeat constructor; cbn; lia|]). destruct Hc.
    + intros e He. cbn in He. exists (nth e ok_cliques []).
      do 4 (destruct e as [|e]; [reflexivity|]). lia.
  - eexists _, _, _. split; [vm_compute; reflexivity|].
    intros b Hb. cbn in Hb.
    repeat (destruct Hb as [<-|Hb]; [cbn; intros; try discriminate; intuition discriminate|]). destruct Hb.
Qed.

(** Without the guard the claim is false: variables {2,3,4},{1,2},{0,1},{0,1,5}
    and constant blocks give a wrong matrix. *)
Definition bad_cliques := [[2;3;4];[1;2];[0;1];[0;1;5]].
Theorem C08_direct_update_refuted : exists cliques dual_vars d o bs (G : nat -> nat -> nat -> R) u v,
  admissible cliques dual_vars /\ build cliques dual_vars = Ok (d, o, bs) /\
  covered cliques u /\ covered cliques v /\
  forall m, KKTMatrixR o d (AssembleR bs (d_order d) G m) u v
              <> Ok (sum_of_blocks R 0%R Rplus cliques G u v).
Proof.
  exists bad_cliques, no_duals.
  eexists _, _, _, (fun _ _ _ => 1%R), 1, 2.
  split; [|split; [vm_compute; reflexivity|]].
  - constructor; try discriminate; auto.
    + intros c Hc. cbn in Hc.
      repeat (destruct Hc as [<-|Hc]; [repeat constructor; cbn; lia|]). destruct Hc.
    + intros e He. cbn in He. exists (nth e bad_cliques []).
      do 4 (destruct e as [|e]; [reflexivity|]). lia.
  - split; [exists [1;2]; cbn; tauto|]. split; [exists [1;2]; cbn; tauto|].
    intros m. cbv -[Rplus R0 R1 IZR]. intros H. injection H as H. lra.
Qed.
Print Assumptions C08_direct_update_refuted.

(** ** C09 *)
Theorem C09_assembly_history_independent : forall cliques dual_vars d o bs,
  admissible cliques dual_vars -> build cliques dual_vars = Ok (d, o, bs) ->
  forall (G : nat -> nat -> nat -> R) (m1 m2 : addr -> R) u v,
  covered cliques u -> covered cliques v ->
  KKTMatrixR o d (AssembleR bs (d_order d) G m1) u v =
  KKTMatrixR o d (AssembleR bs (d_order d) G m2) u v.
Proof. intros. eapply assemble_history; eauto. Qed.
Print Assumptions C09_assembly_history_independent.

(** The part of the storage read by the factorization (block entries on or below
    the diagonal and all off-diagonal block entries) does not depend on it
    either. *)
Theorem C09_storage_history_independent : forall cliques dual_vars d o bs,
  admissible cliques dual_vars -> build cliques dual_vars = Ok (d, o, bs) ->
  forall (G : nat -> nat -> nat -> R) (m1 m2 : addr -> R) k i j,
  k < length cliques -> i < nth k (d_supernode_size d) 0 ->
  (j <= i -> AssembleR bs (d_order d) G m1 (ADiag k i j) = AssembleR bs (d_order d) G m2 (ADiag k i j)) /\
  (nth k (d_supernode_size d) 0 + j < length (nth k (d_cliques d) []) ->
   AssembleR bs (d_order d) G m1 (AOff k i j) = AssembleR bs (d_order d) G m2 (AOff k i j)).
Proof. intros. eapply assemble_history_storage; eauto. Qed.
Print Assumptions C09_storage_history_independent.

Example C09_example : exists d o bs, build bad_cliques no_duals = Ok (d, o, bs) /\
  KKTMatrixR o d (AssembleR bs (d_order d) (fun _ _ _ => 1%R) (fun _ => 7%R)) 3 4 = Ok 1%R.
Proof.
  eexists _, _, _. split; [vm_compute; reflexivity|]. cbv -[Rplus R0 R1 IZR Rmult]. f_equal; lra.
Qed.

(** ** C10 *)
Theorem C10_only_lower_triangle_read : forall cliques dual_vars d o bs,
  admissible cliques dual_vars -> build cliques dual_vars = Ok (d, o, bs) ->
  forall (G1 G2 : nat -> nat -> nat -> R) (m : addr -> R),
  (forall k i j, j <= i -> G1 k i j = G2 k i j) ->
  forall u v, covered cliques u -> covered cliques v ->
  KKTMatrixR o d (AssembleR bs (d_order d) G1 m) u v =
  KKTMatrixR o d (AssembleR bs (d_order d) G2 m) u v.
Proof. intros. eapply assemble_history; eauto. Qed.
Print Assumptions C10_only_lower_triangle_read.

(** Changing only an entry above the diagonal of one block has no effect. *)
Theorem C10_upper_entry_has_no_effect : forall cliques dual_vars d o bs,
  admissible cliques dual_vars -> build cliques dual_vars = Ok (d, o, bs) ->
  forall (G : nat -> nat -> nat -> R) (m : addr -> R) k r c val, r < c ->
  let G' := fun k' i j => if (k' =? k) && (i =? r) && (j =? c) then val else G k' i j in
  forall u v, covered cliques u -> covered cliques v ->
  KKTMatrixR o d (AssembleR bs (d_order d) G' m) u v =
  KKTMatrixR o d (AssembleR bs (d_order d) G m) u v.
Proof.
  intros cliques dual_vars d o bs AD E G m k r c val Hrc G' u v Hu Hv. eapply assemble_history; eauto.
  intros k' i j Hij. unfold G'.
  destruct (Nat.eqb_spec i r), (Nat.eqb_spec j c); rewrite ?andb_false_r; auto. lia.
Qed.
Print Assumptions C10_upper_entry_has_no_effect.

Example C10_example : covered bad_cliques 3 /\ covered bad_cliques 4 /\ 0 < 1.
Proof. split; [exists [2;3;4]; cbn; tauto|]. split; [exists [2;3;4]; cbn; tauto|lia]. Qed.
