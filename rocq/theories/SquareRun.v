(** A problem with a quadratic cost and an equality: minimise
    [y0 + y1 + (y0^2 + y1^2) / 2] subject to [y0 = 1/2]. *)
From Coq Require Import List Arith ZArith Reals Bool Lia Lra.
From Verif Require Import Base BaseFacts LayoutModel SupernodeModel TriWorkspaceModel AssemblerModel DenseModel BlockModel KktModel
  ProgramModel ApiModel DivergenceModel SolveModel LinearModel ConcreteBackend Spec_Linear Spec_Assembly Spec_Program Spec_Solve Spec_Conex
  SolveProofs SolveFacts SolveStats SolveLast Prop_Solve ConexFacts ConexStep ConexKkt ConexBlocks ConexNewton ConexResult ConexOutcome ConexDefinite ConexTotal ToyBackend.
Import ListNotations.
Open Scope R_scope.

Definition square_program : program :=
  match AddQuadraticCost (new_program 2) [[1; 0]; [0; 1]] [0; 1]%Z with
  | Ok (p, _) => match AddConstraint p false (CEq [[1]] [1 / 2]) (Some [0]%Z) with
                 | Ok (q, _) => fst (AddLinearCost q [1; 1])
                 | _ => new_program 0
                 end
  | _ => new_program 0
  end.


(** ** The factorization *)

Lemma pivot_kept x : 1 <= Rabs x -> ldlt_pivot x = x.
Proof. intros H. unfold ldlt_pivot, reg. destruct (Rlt_dec (/ 1000000000) (Rabs x)); [auto|lra]. Qed.

Lemma pivot_two M : M 0%nat 0%nat = 1 -> M 1%nat 0%nat = 1 -> M 1%nat 1%nat = 0 ->
  lm (rldlt 2 M) 0%nat 0%nat = 1 /\ lm (rldlt 2 M) 1%nat 1%nat = -1.
Proof.
  intros H1 H2 H3. unfold rldlt, for_up. cbn [Nat.leb seq fold_left].
  set (s1 := ldlt_step 2 (mkLdlt M [] true) 0).
  assert (lm s1 0%nat 0%nat = 1 /\ lm s1 1%nat 0%nat = 1 /\ lm s1 1%nat 1%nat = 0) as (A1 & A2 & A3).
  { unfold s1, ldlt_step. cbn [lm]. unfold argmax_abs. cbn [argmax_from Nat.sub]. rewrite H1, H3, Rabs_R1, Rabs_R0. destruct (Rlt_dec 1 0); [lra|].
    unfold swap_sym, ldlt_update. cbn. rewrite H1, H2, H3. rewrite Rminus_0_r, pivot_kept by (rewrite Rabs_R1; lra). repeat split; lra. }
  clearbody s1. unfold ldlt_step. cbn [lm]. unfold argmax_abs. cbn [argmax_from Nat.sub]. unfold swap_sym, ldlt_update. cbn. rewrite A1, A2, A3.
  replace (0 - (0 + 1 * (1 * 1))) with (-1) by lra. rewrite pivot_kept by (rewrite Rabs_left; lra). auto.
Qed.

Definition square_built := build [[0%nat; 1%nat]; [0%nat; 2%nat]] [[]; [2%nat]].

(** Entries of the factored matrix: the block of the quadratic cost is the
    identity, the block of the equality is [[0, 1], [1, 0]]. *)
Lemma square_pivots d o bs ss m m' fs flag : square_built = Ok (d, o, bs) -> seperator_diagonal o = Ok ss ->
  m (ADiag 0 0 0) = 1 -> m (AOff 0 0 0) = 0 -> m (ADiag 1 0 0) = 1 -> m (ADiag 1 1 0) = 1 -> m (ADiag 1 1 1) = 0 ->
  BlockLDLTInPlace o ss m = Ok (m', fs, flag) ->
  m' (ADiag 0 0 0) = 1 /\ m' (ADiag 1 0 0) = 1 /\ m' (ADiag 1 1 1) = -1.
Proof.
  intros E Es H1 H2 H3 H4 H5 EB. unfold square_built in E. vm_compute in E. injection E as <- <- <-. vm_compute in Es. injection Es as <-.
  unfold BlockLDLTInPlace in EB. cbn [length ws_snodes seq foldM] in EB.
  apply bind_ok in EB as ([m1 fs1] & E1 & EB). injection EB as -> -> _.
  apply bind_ok in E1 as ([m2 fs2] & E2 & E1). apply bind_ok in E2 as ([m3 f3] & E3 & E2). injection E2 as <- <-.
  apply bind_ok in E1 as ([m4 fs4] & E4 & E1). injection E1 as <- _. apply bind_ok in E4 as ([m5 f5] & E5 & E4). injection E4 as <- _.
  assert (m3 (ADiag 0 0 0) = 1 /\ m3 (ADiag 1 0 0) = 1 /\ m3 (ADiag 1 1 0) = 1 /\ m3 (ADiag 1 1 1) = 0) as (A1 & A2 & A3 & A4).
  { unfold ldlt_block, factor_diag, rldlt, sizeof, sepsof in E3. cbn in E3. injection E3 as <- _.
    unfold small_pivot, diag_of, reg. rewrite H1. rewrite Rabs_R1. destruct (Rlt_dec 1 (/ 1000000000)); [lra|].
    unfold mem_set, put_off, put_diag, off_of, unit_lower, DenseModel.mset, fwd_solve, perm_apply, for_up, vset, vswap. cbn.
    unfold mem_set. cbn. rewrite ?H1, ?H2, ?H3, ?H4, ?H5. repeat split; try lra. }
  unfold ldlt_block, factor_diag, sizeof, sepsof in E5. cbn [ws_size ws_seps nth Nat.eqb bind length Nat.mul Nat.ltb Nat.leb] in E5.
  injection E5 as <- _. unfold put_diag. cbn [Nat.eqb].
  destruct (pivot_two (diag_of m3 1) A2 A3 A4) as [P1 P2]. auto.
Qed.

Lemma square_factored iters p st st0 st1 ok : p_eqs p = p_eqs square_program -> p_cliques p = p_cliques square_program ->
  p_duals p = p_duals square_program -> p_solver p = Some (p_cliques p, p_duals p) ->
  con_assemble p st = Ok st0 -> con_factor iters p st0 = Ok (st1, ok) -> pivots_large p (ct_fact st1).
Proof.
  intros F1 F2 F3 F4 Ea Ef d o bs Eb. rewrite F2, F3 in Eb. change (square_built = Ok (d, o, bs)) in Eb.
  unfold con_assemble, con_factor, with_solver in *. rewrite F4, F2, F3 in Ea. rewrite F4, F2, F3 in Ef.
  change (build (p_cliques square_program) (p_duals square_program)) with square_built in *. rewrite Eb in Ea, Ef. cbn [bind] in Ea, Ef.
  apply bind_ok in Ea as (q & Eq & Ea). apply bind_ok in Ea as (sys & _ & Ea). injection Ea as <-. cbn [ct_mem ct_cons ct_sys] in Ef.
  destruct iters as [iters|f]; [|apply bind_ok in Ef as (K & _ & Ef); injection Ef as <- _; exact I].
  apply bind_ok in Ef as (FK & EF & Ef). unfold Factor in EF. apply bind_ok in EF as (K & _ & EF). apply bind_ok in EF as (ss & Es & EF).
  change (use_cholesky (p_duals square_program)) with false in EF. cbn [bind] in EF.
  apply bind_ok in EF as ([[m' fs] flag] & EB & EF). injection EF as <-. injection Ef as <- _. cbn [ct_fact].
  match type of EB with context [Assemble R 0 Rplus _ _ ?g _] => set (G := g) in EB end.
  assert (G 0%nat 0%nat 0%nat = 1 /\ G 0%nat 1%nat 0%nat = 0 /\ G 0%nat 1%nat 1%nat = 1 /\ G 1%nat 0%nat 0%nat = 0 /\ G 1%nat 1%nat 0%nat = 1 /\ G 1%nat 1%nat 1%nat = 0)
    as (G1 & G2 & G3 & G4 & G5 & G6).
  { rewrite F1 in Eq. change (length (p_eqs square_program)) with 2%nat in Eq. cbn [seq mapM] in Eq. unfold get_con in Eq. rewrite F1 in Eq.
    destruct (ct_cons st) as [|s0 [|s1 l]].
    - cbn in Eq. discriminate.
    - cbn in Eq. destruct s0; cbn in Eq; discriminate.
    - cbn in Eq. destruct s0; cbn in Eq; try discriminate. destruct s1; cbn in Eq; try discriminate. injection Eq as <-.
      unfold G. cbn. unfold mget. cbn. auto 10. }
  clearbody G. clear Eq.
  pose proof Eb as Eb0. unfold square_built in Eb0. vm_compute in Eb0. injection Eb0 as Ed Eo Ebs. subst d bs. cbn [d_order d_supernode_size] in *.
  match type of EB with BlockLDLTInPlace _ _ ?x = _ => set (m := x) in EB end.
  assert (m (ADiag 0 0 0) = 1 /\ m (AOff 0 0 0) = 0 /\ m (ADiag 1 0 0) = 1 /\ m (ADiag 1 1 0) = 1 /\ m (ADiag 1 1 1) = 0) as (M1 & M2 & M3 & M4 & M5).
  { unfold m. cbv -[Rplus IZR]. rewrite ?G1, ?G2, ?G3, ?G4, ?G5, ?G6. repeat split; lra. }
  destruct (square_pivots _ _ _ _ _ _ _ _ Eb Es M1 M2 M3 M4 M5 EB) as (P1 & P2 & P3).
  rewrite F2. change (length (p_cliques square_program)) with 2%nat.
  intros [|[|k]] Hk; [| |lia]; (split; [cbn; lia|]); intros j Hj; cbn in Hj.
  - destruct j; [|lia]. rewrite P1, Rabs_R1. lra.
  - destruct j as [|[|]]; [| |lia]; [rewrite P2, Rabs_R1; lra|rewrite P3, Rabs_left; lra].
Qed.

(** ** The run *)

Ltac fields :=
  change (p_cliques square_program) with [[0; 1]; [0; 2]]%nat in *; change (p_duals square_program) with [[]; [2%nat]] in *;
  change (p_eqs square_program) with [mkCont (CQuad [[1; 0]; [0; 1]]) 2; mkCont (CEq [[1]] [1 / 2]) 2] in *;
  change (p_constraints square_program) with [0%nat] in *; change (p_cost square_program) with [0 + 1; 0 + 1] in *;
  change (SizeOfKKTSystem square_program) with 3%nat in *.

Lemma square_well : well_built square_program.
Proof.
  assert (forall v, covered [[0; 1]; [0; 2]]%nat v <-> (v < 3)%nat) as HC.
  { intros v. split; [intros (c & [<-|[<-|[]]] & Hv); cbn in Hv; lia|]. intros Hv.
    destruct v as [|[|[|]]]; [exists [0; 1]%nat|exists [0; 1]%nat|exists [0; 2]%nat|lia]; cbn; auto. }
  constructor; fields; cbn.
  - constructor; cbn; [|discriminate|auto|].
    + intros c [<-|[<-|[]]]; repeat constructor; cbn; intuition lia.
    + intros [|[|e]] He; [exists [0; 1]%nat|exists [0%nat]|lia]; auto.
  - auto.
  - intros [|[|[|]]] c Hc; try discriminate; injection Hc as <-; reflexivity.
  - exact HC.
  - intros [|[|[|]]] j v; cbn; try tauto. intros [<-|[]]. destruct j as [|[|[|]]]; cbn; auto; lia.
  - intros [|[|[|]]] v; cbn; try tauto. lia.
  - intros d o bs E. change (square_built = Ok (d, o, bs)) in E. unfold square_built in E. vm_compute in E. injection E as <- <- <-.
    intros b [<-|[<-|[]]] _; cbn; intuition discriminate.
Qed.
Lemma square_consistent : consistent square_program.
Proof. unfold consistent, rectangular, on_costs; fields. intros [|[|[|]]] c Hc; try discriminate; injection Hc as <-; cbn; lia. Qed.
Lemma square_listed : listed square_program.
Proof. unfold listed; fields. split; [intros i [<-|[]]; cbn; lia|]. split; [|split]; intros [|[|[|]]] c; intros; repeat match goal with H : nth_error _ _ = Some _ |- _ => cbn in H; try discriminate H; injection H as <- end; discriminate. Qed.
Lemma square_rectangular : rectangular square_program.
Proof. unfold consistent, rectangular, on_costs; fields. intros [|[|[|]]] c cols A b Hc; try discriminate; injection Hc as <-; discriminate. Qed.
Lemma square_factorable : factorable square_program.
Proof. left. exists [2%nat]. split; [right; left; reflexivity|discriminate]. Qed.
Lemma square_sized : sized_equalities square_program.
Proof.
  unfold sized_equalities; fields. intros [|[|[|]]] c A b Hc; try discriminate; injection Hc as <-; try discriminate. intros [= <- <-].
  repeat split; cbn; auto. repeat constructor.
Qed.
Lemma square_costs : on_costs square_program.
Proof. unfold consistent, rectangular, on_costs; fields. intros [|[|[|]]] c Hc; try discriminate; injection Hc as <-; cbn; repeat constructor. Qed.

Lemma square_handed nf n c : enable_line_search c <> 0%Z -> enable_rescaling c = 0%Z ->
  initialization_mode c = 0%Z -> prepare_dual_variables c = 0%Z ->
  (0 < max_iterations c)%Z -> - / 10 ^ 15 < maximum_mu c -> / 10 ^ 15 + maximum_mu c <= infeasibility_threshold c ->
  (0 < final_centering_steps c)%Z -> kkt_solver c <> 2%Z ->
  exists r y e, handed_back nf square_program n c r y e /\ length y = 2%nat /\ exact_pivots square_program (nm_bk (rt_num _ r)).
Proof.
  intros H1 H2 H3 H4 H5 H6 H7 H8 H9.
  destruct (cold_handed nf square_program n c) as (r & y & e & H & Ly); auto using square_well, square_consistent, square_listed, square_rectangular, square_factorable.
  { split; [auto|discriminate]. } { fields. cbn. lia. } { intros Hk. congruence. }
  exists r, y, e. split; auto. split; auto.
  destruct (handed _ _ _ _ _ _ _ H) as (p2 & M & k & st & bs & cs & q & E & y0 & st2 & st3 & st4 & norm & nsq & D & cx & by_ & F & Hs & Hd).
  rewrite (Hd H4). right.
  destruct (nw_factor _ _ _ _ _ _ _ _ _ _ _ _ _ _ _ (fn_newton _ _ _ _ _ _ _ _ _ _ _ _ _ _ _ _ _ _ _ _ _ _ F)) as (sa & sb & Ea & Eb & Ec).
  destruct (fn_fields _ _ _ _ _ _ _ _ _ _ _ _ _ _ _ _ _ _ _ _ _ _ F) as (F1 & F2 & F3 & _).
  pose proof (rd_solver _ (fn_ready _ _ _ _ _ _ _ _ _ _ _ _ _ _ _ _ _ _ _ _ _ _ F)) as F4.
  pose proof (square_factored _ _ _ _ _ _ F1 F2 F3 F4 Ea Eb) as HP. unfold pivots_large in HP. rewrite F2, F3 in HP.
  destruct (fn_take _ _ _ _ _ _ _ _ _ _ _ _ _ _ _ _ _ _ _ _ _ _ F) as (nf' & ab & stp & Et).
  assert (keeps_eq st3 st4) as [K _].
  { destruct ab; [injection Et as <-; apply identity_keeps_eq|]. eapply take_keeps_eq; eauto. }
  rewrite K, Ec. exact HP.
Qed.
