(** Property C70: the QR mode of the solver. *)
From Coq Require Import List Arith ZArith Reals Bool Lia Lra.
From Verif Require Import Base BaseFacts LayoutModel SupernodeModel TriWorkspaceModel AssemblerModel DenseModel BlockModel KktModel
  ProgramModel ApiModel DivergenceModel SolveModel LinearModel ConcreteBackend Spec_Linear Spec_Assembly Spec_Program Spec_Solve Spec_Conex
  SolveProofs SolveFacts ConexFacts ConexKkt ConexBlocks ConexNewton ConexResult ConexOutcome ConexDefinite ConexRegular ConexTotal ConexRun SquareRun Prop_Conex
  Prop_Assembly Prop_Linear QrFacts QrRun.
From Verif Require Import RhsProofs LinearFacts Spec_Linear.
Import ListNotations.
Open Scope R_scope.

(** ** C70: factoring and solving *)

(** Factoring always reports success; solving checks the length, does no
    refinement, and what it returns solves the assembled system exactly. *)
Theorem C70_factor_and_solve : forall qr p st0 d o bs, well_built p -> p_solver p = Some (p_cliques p, p_duals p) ->
  build (p_cliques p) (p_duals p) = Ok (d, o, bs) ->
  let n := SizeOfKKTSystem p in
  exists st1 K, con_factor (Qr qr) p st0 = Ok (st1, true) /\
    (forall u v, (u < n)%nat -> (v < n)%nat -> KKTMatrixR o d (ct_mem st0) u v = Ok (K u v)) /\
    (forall r, length r <> n -> con_solve (Qr qr) p st1 r = Throw) /\
    (forall r, length r = n -> con_solve_once p st1 r = con_solve (Qr qr) p st1 r) /\
    (forall r y, con_solve (Qr qr) p st1 r = Ok y -> length y = n /\ solves n K (fun i => nth i y 0) (fun i => nth i r 0)) /\
    (forall r, length r = n -> let x := qr n K (fun i => nth i r 0) in
       solves n K x (fun i => nth i r 0) -> con_solve (Qr qr) p st1 r = Ok (map x (seq 0 n))).
Proof.
  intros qr p st0 d o bs W RS Eb n. destruct (qr_factor_total qr p st0 W RS) as (st1 & Ef).
  destruct (qr_factor_solve qr p st0 st1 true d o bs W RS Eb Ef) as (_ & K & HK & HS). fold n in HK, HS.
  exists st1, K. split; auto. split; auto. split; [intros r; apply HS|]. split; [intros r; apply HS|]. split.
  - intros r y Hy. destruct (HS r) as (H1 & _ & H3). destruct (Nat.eq_dec (length r) n) as [Hl|Hl]; [|rewrite H1 in Hy by auto; discriminate].
    destruct (H3 Hl _ eq_refl) as [H4 H5]. destruct (solves_dec n K (qr n K (fun i => nth i r 0)) (fun i => nth i r 0)) as [Hs|Hs];
      [rewrite H4 in Hy by auto|rewrite H5 in Hy by auto; discriminate]. injection Hy as <-. split; [rewrite map_length, seq_length; auto|].
    intros u Hu. rewrite <- (Hs u Hu). unfold row_times. apply total_ext. intros v Hv. apply in_seq in Hv.
    rewrite (nth_map_lt _ _ _ 0 0%nat) by (rewrite seq_length; lia). rewrite seq_nth by lia. auto.
  - intros r Hl x. destruct (HS r) as (_ & _ & H3). destruct (H3 Hl _ eq_refl) as [H4 _]. exact H4.
Qed.

(** The zero matrix is reported as factored as well, although systems with it have
    no solution. *)
Theorem C70_singular_refuted : exists n ks p q rs st st0 d o bs,
  api_run (new_program n) ks = Ok (p, rs) /\ Initialize (clear p) true 1 = Ok q /\ con_assemble q st = Ok st0 /\
  build (p_cliques q) (p_duals q) = Ok (d, o, bs) /\
  (forall u v, (u < 2)%nat -> (v < 2)%nat -> KKTMatrixR o d (ct_mem st0) u v = Ok 0) /\
  (forall qr, exists st1, con_factor (Qr qr) q st0 = Ok (st1, true) /\ forall y, con_solve (Qr qr) q st1 [1; 0] <> Ok y) /\
  (exists st1 y, con_factor (Refine 0) q st0 = Ok (st1, true) /\ con_solve (Refine 0) q st1 [1; 0] = Ok y).
Proof. exact flat_factored. Qed.

(** ** C70: solving programs *)

(** The multipliers and variables handed back satisfy the last system without
    error: equalities hold exactly. *)
Theorem C70_equalities_hold : forall nf p n c r y e i co A b, handed_back nf p n c r y e -> kkt_solver c = 2%Z ->
  rectangular p -> sized_equalities p -> on_costs p -> prepare_dual_variables c = 0%Z ->
  nth_error (p_eqs p) i = Some co -> ct_data co = CEq A b ->
  equality_holds A b (nth i (p_cliques p) []) y.
Proof. intros nf p n c r y e i co A b H Hk H1 H2 H3 H4 H5 H6. eapply C34_equalities_hold; eauto. eapply qr_pivots; eauto. Qed.

(** The pivots can be taken as exact wherever a property asks for it. *)
Theorem C70_exact : forall nf p n c r y e, handed_back nf p n c r y e -> kkt_solver c = 2%Z -> prepare_dual_variables c = 0%Z ->
  exact_pivots p (nm_bk (rt_num _ r)).
Proof. exact qr_pivots. Qed.

(** Cold starts hand back a vector for every regular program. *)
Theorem C70_hands_back : forall nf p n c, starts p c -> well_built p -> consistent p -> listed p -> rectangular p -> regular p ->
  qr_solves (env_qr nf) -> kkt_solver c = 2%Z ->
  (length (p_cost p) <= SizeOfKKTSystem p)%nat ->
  initialization_mode c = 0%Z -> prepare_dual_variables c = 0%Z ->
  (0 < max_iterations c)%Z -> - / 10 ^ 15 < maximum_mu c -> / 10 ^ 15 + maximum_mu c <= infeasibility_threshold c ->
  ((0 < final_centering_steps c)%Z \/
   (0 < inv_sqrt_mu_max c /\ 0 <= kkt_error_tolerance c /\ (final_centering_steps c < max_iterations c)%Z)) ->
  (enable_rescaling c <> 0%Z -> inv_sqrt_mu_max c <> 0) ->
  exists r y e, handed_back nf p n c r y e /\ length y = length (p_cost p).
Proof. intros. apply cold_handed_either; auto. intros _. auto. Qed.

(** Programs that are definite are regular; there are exact solutions of all
    nonsingular symmetric systems. *)
Theorem C70_definite_regular : forall p, definite p -> regular p.
Proof. exact definite_regular. Qed.
Theorem C70_exact_solutions : exists qr, qr_solves qr.
Proof. exists normal_solve. exact normal_exact. Qed.

(** An equality and a quadratic cost, solved in QR mode. *)
Example C70_example : forall f g n, let nf := mkEnv f g normal_solve in exists r y e,
  kkt_solver square_qr = 2%Z /\ handed_back nf square_program n square_qr r y e /\ regular square_program /\ length y = 2%nat /\ nth 0 y 0 = 1 / 2.
Proof. exact square_qr_example. Qed.

Print Assumptions C70_factor_and_solve.
Print Assumptions C70_singular_refuted.
Print Assumptions C70_equalities_hold.
Print Assumptions C70_exact.
Print Assumptions C70_hands_back.
Print Assumptions C70_definite_regular.
Print Assumptions C70_exact_solutions.
