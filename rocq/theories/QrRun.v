(** Programs solved in QR mode. *)
From Coq Require Import List Arith ZArith Reals Bool Lia Lra.
From Verif Require Import Base BaseFacts LayoutModel SupernodeModel TriWorkspaceModel AssemblerModel DenseModel BlockModel KktModel
  ProgramModel ApiModel DivergenceModel SolveModel LinearModel ConcreteBackend Spec_Linear Spec_Assembly Spec_Program Spec_Solve Spec_Conex
  SolveProofs SolveFacts ConexFacts ConexKkt ConexBlocks ConexNewton ConexResult ConexOutcome ConexDefinite ConexRegular ConexTotal ConexRun SquareRun Prop_Conex
  Prop_Assembly Prop_Linear QrFacts.
From Verif Require Import KktProofs SymbolicFacts LinearFacts RSum PosDef RhsProofs Spec_Linear.
Import ListNotations.
Open Scope R_scope.

Lemma solves_dec n K x b : {solves n K x b} + {~ solves n K x b}.
Proof.
  assert (forall m, {forall u, (u < m)%nat -> row_times n K x u = b u} + {~ forall u, (u < m)%nat -> row_times n K x u = b u}) as H.
  { induction m as [|m [IH|IH]]; [left; intros; lia| |right; intros H; apply IH; intros; apply H; lia].
    destruct (Req_EM_T (row_times n K x m) (b m)) as [E|E]; [left|right].
    - intros u Hu. destruct (Nat.eq_dec u m) as [->|]; auto. apply IH. lia.
    - intros H. apply E. apply H. lia. }
  exact (H n).
Qed.

(** ** A regular program *)
Definition square_qr : config := {|
  prepare_dual_variables := 0; initialization_mode := 0; inv_sqrt_mu_max := 10;
  minimum_mu := 0; maximum_mu := / 100 - / 10 ^ 15; divergence_upper_bound := 1; enable_line_search := 1;
  dinf_upper_bound := 1; final_centering_steps := 1; final_centering_tolerance := 1;
  initial_centering_steps_warmstart := 0; initial_centering_steps_coldstart := 0;
  warmstart_abort_threshold := 2; max_iterations := 5; iterative_refinement_iterations := 0;
  infeasibility_threshold := 100000; kkt_error_tolerance := 10000000000; enable_rescaling := 0;
  kkt_solver := 2 |}.

Lemma square_regular : regular square_program.
Proof.
  split; [|split; [exact square_sized|split]].
  - unfold convex; fields. intros [|[|[|]]] co Q z Hc; try discriminate; injection Hc as <-; intros HQ; try discriminate HQ. injection HQ as <-.
    unfold quadratic_form, symmetric_entry, mget. cbn. nra.
  - fields. intros z _ _ _ HQ _ v Hv HN.
    specialize (HQ 0%nat _ [[1; 0]; [0; 1]] eq_refl eq_refl). unfold quadratic_form, symmetric_entry, mget in HQ. cbn in HQ.
    destruct v as [|[|[|]]]; [nra|nra| |lia]. destruct (HN 1%nat _ [[1]] [1 / 2] eq_refl eq_refl). cbn. auto.
  - fields. intros l HM i co A b k Hi Hd Hk. specialize (HM 0%nat ltac:(lia)). unfold multiplier_sum in HM. fields. unfold placed, total in HM. cbn in HM.
    destruct i as [|[|[|]]]; try discriminate; injection Hi as <-; try discriminate Hd. injection Hd as <- <-. cbn in Hk. destruct k; [|lia]. cbn. lra.
Qed.

Lemma square_qr_example f g n : let nf := mkEnv f g normal_solve in exists r y e,
  kkt_solver square_qr = 2%Z /\ handed_back nf square_program n square_qr r y e /\ regular square_program /\ length y = 2%nat /\ nth 0 y 0 = 1 / 2.
Proof.
  intros nf. destruct (cold_handed_either nf square_program n square_qr) as (r & y & e & H & Ly);
    auto using square_well, square_consistent, square_listed, square_rectangular; try reflexivity; try (cbn; lra).
  { split; [intros _; split; [discriminate|reflexivity]|discriminate]. } { fields. cbn. lia. } { left. reflexivity. }
  { intros _. split; [exact square_rectangular|]. split; [exact square_regular|exact normal_exact]. }
  exists r, y, e. split; [reflexivity|]. split; auto. split; [exact square_regular|]. split; [exact Ly|].
  pose proof (qr_pivots _ _ _ _ _ _ _ H eq_refl eq_refl) as HX.
  pose proof (C34_equalities_hold _ _ _ _ _ _ _ 1 _ [[1]] [1 / 2] H square_rectangular square_sized square_costs eq_refl HX eq_refl eq_refl 0%nat ltac:(cbn; lia)) as HE.
  change (nth 1 (p_cliques square_program) []) with [0; 2]%nat in HE. unfold row_value in HE. cbn in HE. lra.
Qed.

(** ** A singular system *)
Definition flat_calls : list call := [PAddConstraint false (CEq [[0]] [0]) (Some [0]%Z)].
Definition flat_program : program := match api_run (new_program 1) flat_calls with Ok (p, _) => p | _ => new_program 0 end.
Definition flat_ready : program := match Initialize (clear flat_program) true 1 with Ok q => q | _ => new_program 0 end.
Definition flat_start : cst := mkCst [SEq []] (fun _ => 0) None (mkRhs [] [] 0 0) 0.

Lemma flat_well : well_built flat_program.
Proof.
  apply (C53_well_built 1 flat_calls flat_program [mkReply SUCCESS None]); [left; lia|reflexivity|discriminate| |].
  - intros v Hv. exists [0; 1]%nat. split; [left; reflexivity|]. cbn. lia.
  - intros d o bs E. vm_compute in E. injection E as <- <- <-. intros b [<-|[]] _; cbn; intuition discriminate.
Qed.
Lemma flat_is_ready : ready flat_ready.
Proof. apply (initialized_ready flat_program (line_config 0 1 5 1) 1 flat_ready); [exact flat_well|left; right; reflexivity|reflexivity]. Qed.

Lemma flat_eqs : p_eqs flat_ready = [mkCont (CEq [[0]] [0]) 2].
Proof. vm_compute. reflexivity. Qed.
Lemma flat_cliques : p_cliques flat_ready = [[0; 1]]%nat.
Proof. vm_compute. reflexivity. Qed.
Lemma flat_duals : p_duals flat_ready = [[1]]%nat.
Proof. vm_compute. reflexivity. Qed.
Lemma flat_size : SizeOfKKTSystem flat_ready = 2%nat.
Proof. vm_compute. reflexivity. Qed.

Lemma flat_factored : exists n ks p q rs st st0 d o bs,
  api_run (new_program n) ks = Ok (p, rs) /\ Initialize (clear p) true 1 = Ok q /\ con_assemble q st = Ok st0 /\
  build (p_cliques q) (p_duals q) = Ok (d, o, bs) /\
  (forall u v, (u < 2)%nat -> (v < 2)%nat -> KKTMatrixR o d (ct_mem st0) u v = Ok 0) /\
  (forall qr, exists st1, con_factor (Qr qr) q st0 = Ok (st1, true) /\ forall y, con_solve (Qr qr) q st1 [1; 0] <> Ok y) /\
  (exists st1 y, con_factor (Refine 0) q st0 = Ok (st1, true) /\ con_solve (Refine 0) q st1 [1; 0] = Ok y).
Proof.
  pose proof flat_is_ready as HR.
  assert (consistent flat_ready) as HC.
  { unfold consistent. rewrite flat_eqs. intros [|[|]] c Hc; try discriminate. injection Hc as <-. cbn. lia. }
  assert (exists st0, con_assemble flat_ready flat_start = Ok st0) as (st0 & E0).
  { destruct (assemble_total flat_ready HR HC flat_start) as (st0 & E0 & _); eauto.
    split; [rewrite flat_eqs; reflexivity|]. rewrite flat_eqs. intros [|[|]] co s Hc Hs; try discriminate. injection Hc as <-. injection Hs as <-. exact I. }
  destruct (assembled _ _ _ HR E0) as (q & Q1 & _ & _ & _ & _ & _ & _ & _ & Q9).
  destruct (kkt_dimension _ _ (wb_admissible _ (rd_built _ HR))) as (d & o & bs & Eb & _).
  assert (forall u v, matrix_of flat_ready q u v = 0) as HZ.
  { destruct Q1 as [L H]. destruct (H 0%nat _ eq_refl) as (s & Hs & Ec). cbn in Hs. injection Hs as <-.
    unfold con_schur in Ec. cbn in Ec. destruct q as [|[s' sc] q]; [discriminate|]. cbn in Ec. injection Ec as <- <-.
    intros u v. unfold matrix_of, sum_of_blocks, scattered. rewrite flat_cliques. cbn.
    repeat match goal with |- context [if ?b then _ else _] => destruct b end; unfold mget; cbn; lra. }
  exists 1%nat, flat_calls, flat_program, flat_ready, [mkReply SUCCESS None], flat_start, st0, d, o, bs.
  split; [reflexivity|]. split; [reflexivity|]. split; auto. split; auto.
  assert (forall u v, (u < 2)%nat -> (v < 2)%nat -> KKTMatrixR o d (ct_mem st0) u v = Ok 0) as HK.
  { intros u v Hu Hv. rewrite <- flat_size in Hu, Hv. rewrite (Q9 d o bs Eb u v Hu Hv), HZ. auto. }
  split; auto. split.
  - intros qr. destruct (qr_factor_total qr flat_ready st0 (rd_built _ HR) (rd_solver _ HR)) as (st1 & Ef).
    destruct (qr_factor_solve qr _ _ _ _ d o bs (rd_built _ HR) (rd_solver _ HR) Eb Ef) as (_ & K & HK' & HS).
    exists st1. split; auto. intros y. destruct (HS [1; 0]) as (_ & _ & H3). destruct (H3 eq_refl _ eq_refl) as [_ H5].
    rewrite H5; [discriminate|]. intros H. specialize (H 0%nat ltac:(rewrite flat_size; lia)).
    unfold row_times in H. rewrite (total_zero _ (seq 0 (SizeOfKKTSystem flat_ready))) in H.
    + cbn in H. lra.
    + intros v Hv. apply in_seq in Hv. rewrite flat_size in *.
      specialize (HK' 0%nat v ltac:(lia) ltac:(lia)). rewrite HK in HK' by lia. injection HK' as <-. lra.
  - assert (exists st1, con_factor (Refine 0) flat_ready st0 = Ok (st1, true)) as (st1 & Ef).
    { assert (covered_range : forall v, covered (p_cliques flat_ready) v <-> (v < d_N d)%nat).
      { intros v. rewrite (covered_N _ _ _ _ _ _ (wb_admissible _ (rd_built _ HR)) Eb (wb_covered _ (rd_built _ HR))). apply (wb_covered _ (rd_built _ HR)). }
      destruct (Factor_ldlt _ _ _ _ _ (wb_admissible _ (rd_built _ HR)) Eb covered_range (ct_mem st0) 0 ltac:(rewrite flat_duals; exists [1%nat]; split; [left; reflexivity|discriminate]))
        as (m' & fs & K & E & EF & _).
      unfold con_factor, with_solver. rewrite (rd_solver _ HR), Eb. cbn [bind]. rewrite EF. cbn [bind]. eauto. }
    destruct (solved_system (Refine 0) _ _ _ q st1 HR E0 Q1 Q9 Ef) as (E & _ & _ & _ & _ & _ & S).
    destruct (S ltac:(intros; discriminate) st1 [1; 0] eq_refl eq_refl) as (y & Ey). eauto.
Qed.
