(** Property C26: the areas carved from the workspace buffer. *)
From Coq Require Import List Arith ZArith Reals Bool Lia.
From Verif Require Import Base BaseFacts LayoutModel Spec_Layout LayoutProofs ProgramModel ApiModel Spec_Program
  ProgramProofs ProgramRun ProgramState.
Import ListNotations.
Open Scope nat_scope.

Lemma initialize_buffer p cold it p' : Initialize p cold it = Ok p' ->
  ws_total (p_workspaces p) <= p_buffer p -> ws_total (p_workspaces p') <= p_buffer p'.
Proof.
  unfold Initialize. destruct (negb (p_init p) || cold).
  - intros H _. apply bind_ok in H as (x & _ & H). injection H as <-. cbn [p_workspaces p_buffer InitializeWorkspace].
    destruct (Nat.ltb_spec (p_buffer p) (ws_total (make_workspaces (p_eqs p) it (SizeOfKKTSystem p)))); lia.
  - intros [= <-]. auto.
Qed.

Lemma solve_buffer p c o p' s : Solve_program p c o = Ok (p', s) ->
  ws_total (p_workspaces p) <= p_buffer p -> ws_total (p_workspaces p') <= p_buffer p'.
Proof.
  unfold Solve_program. destruct (negb (quadratic_precondition p c)); [intros [= <- _]; auto|].
  destruct (NumberOfConstraints p =? 0); [intros [= <- _]; auto|].
  intros H Hb. apply bind_ok in H as (p2 & E & H). injection H as <- _. apply initialize_buffer in E; auto.
Qed.

Lemma step_buffer p k p' r : api_step p k = Ok (p', r) ->
  ws_total (p_workspaces p) <= p_buffer p -> ws_total (p_workspaces p') <= p_buffer p'.
Proof.
  intros E H.
  assert (~ is_solve k -> ws_total (p_workspaces p') <= p_buffer p') as HNS.
  { intros Hk. destruct (step_rest _ _ _ _ E) as [HR _]. specialize (HR Hk). unfold rest in HR.
    repeat match type of HR with (_, _) = (_, _) => apply pair_equal_spec in HR as [HR ?] end. congruence. }
  destruct k; try (apply HNS; cbn; tauto); clear HNS; cbn [api_step] in E.
  - destruct (AddLinearCost (ClearLinearCosts p) (map Ropp b)) as [p1 s1] eqn:Ec.
    apply bind_ok in E as ([q s] & E1 & E). injection E as <- <-. apply solve_buffer in E1; auto.
    unfold AddLinearCost in Ec. destruct (negb _) in Ec; injection Ec as <- <-; exact H.
  - apply bind_ok in E as ([q s] & E1 & E). injection E as <- <-. apply solve_buffer in E1; auto.
Qed.

Lemma run_buffer : forall ks p p' rs, api_run p ks = Ok (p', rs) ->
  ws_total (p_workspaces p) <= p_buffer p -> ws_total (p_workspaces p') <= p_buffer p'.
Proof.
  induction ks as [|k t IH]; intros p p' rs E H.
  - cbn in E. injection E as <- <-. auto.
  - apply run_cons in E as (p1 & r & rs' & E1 & E2 & ->). eauto using step_buffer.
Qed.

(** Laid out one after the other, the pieces of any list of areas lie inside the
    total size, matrices start at even offsets, and no double belongs to two
    pieces. *)
Theorem C26_partition : forall l, soc_orders l ->
  (forall i a p, piece_at l i a p ->
     pc_start p + pc_len p <= ws_total l /\ (pc_map p = true -> Nat.even (pc_start p) = true)) /\
  (forall i a p j b q o, piece_at l i a p -> piece_at l j b q -> inside p o -> inside q o -> i = j /\ a = b).
Proof. exact partition. Qed.

(** After any sequence of calls, all pieces in use lie in the buffer of the
    program object. *)
Theorem C26_in_buffer : forall n ks p rs, api_run (new_program n) ks = Ok (p, rs) ->
  soc_orders (p_workspaces p) ->
  forall i a q o, piece_at (p_workspaces p) i a q -> inside q o -> o < p_buffer p.
Proof.
  intros n ks p rs E Hs i a q o Hp Ho. apply run_buffer in E; [|cbn; lia].
  destruct (C26_partition _ Hs) as [H _]. specialize (H _ _ _ Hp) as [H _]. unfold inside in Ho. lia.
Qed.

(** The list of areas after initialisation: two per constraint, the statistics
    and the system. *)
Theorem C26_areas : forall p cold it p', Initialize p cold it = Ok p' -> p_init p = false \/ cold = true ->
  p_workspaces p' = flat_map (fun c => [ws_of (ct_data c); WSchur (ct_vars c) false]) (p_eqs p)
                    ++ [WStats it; WSchur (SizeOfKKTSystem p) true].
Proof.
  intros p cold it p' H Hc. unfold Initialize in H.
  assert (negb (p_init p) || cold = true) as T by (destruct Hc as [-> | ->]; auto using orb_true_r). rewrite T in H.
  apply bind_ok in H as (x & _ & H). injection H as <-. reflexivity.
Qed.

(** For a second-order cone of order zero the last scalar lies in the area that
    follows. *)
Theorem C26_order_zero_refuted : exists l i a p j b q o,
  piece_at l i a p /\ piece_at l j b q /\ inside p o /\ inside q o /\ i <> j.
Proof.
  exists [WSoc 0; WStats 3], 0, 4, (mkPiece 0 1 false), 1, 0, (mkPiece 0 3 false), 0.
  unfold piece_at, inside. repeat split; try (cbn; eauto); try (cbn; lia); try discriminate;
  eexists; split; reflexivity.
Qed.

Example C26_example :
  let l := [WLinear 3 2; WSchur 2 false; WSoc 2; WSchur 2 false; WPsd 3; WSchur 5 false; WStats 25; WSchur 5 true] in
  soc_orders l /\ ws_total l = 212 /\
  nth_error (ws_layout l 0) 2 = Some [mkPiece 32 2 true; mkPiece 36 2 true; mkPiece 40 2 true; mkPiece 44 2 true; mkPiece 48 1 false] /\
  piece_at l 7 1 (mkPiece 204 5 true).
Proof.
  repeat split; try reflexivity.
  - intros n H. cbn in H. repeat destruct H as [H|H]; try discriminate; [injection H as <-; lia|contradiction].
  - eexists. split; reflexivity.
Qed.

Example C26_run_example : exists p rs, api_run (new_program 2)
    [ANewLinearInequality 3 false; ANewLorentzCone 2 false;
     ASolve (CONEX_SetDefaultOptions (mkApi 0 0 0 0 0 0 0 0 0 0 0 0 0 0 0 0 0 0 0))
            (mkOutcome 1 (mkStatus true 3 false false) (Some 3))] = Ok (p, rs) /\
  p_workspaces p = [WLinear 3 2; WSchur 2 false; WSoc 2; WSchur 2 false; WStats 25; WSchur 2 true] /\
  p_buffer p = 124 /\ soc_orders (p_workspaces p).
Proof.
  eexists _, _. split; [cbv -[Rplus Rmult IZR Rdiv Rinv pow]; reflexivity|]. split; [reflexivity|]. split; [reflexivity|].
  intros n H. cbn in H. repeat destruct H as [H|H]; try discriminate; [injection H as <-; lia|contradiction].
Qed.

Print Assumptions C26_partition.
Print Assumptions C26_in_buffer.
Print Assumptions C26_areas.
Print Assumptions C26_order_zero_refuted.
