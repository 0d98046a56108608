(** Programs whose constraints use all variables (C71). *)
From Coq Require Import List Arith ZArith Reals Bool Lia Lra.
From Verif Require Import Base BaseFacts LayoutModel SupernodeModel TriWorkspaceModel AssemblerModel KktModel Spec_Assembly
  ProgramModel PreprocessModel ApiModel Spec_Program ProgramProofs ProgramRun Prop_Program SolveModel LinearModel ConcreteBackend
  Spec_Solve Spec_Conex ConexBuilt PrivateFacts ClientModel Spec_Client.
Import ListNotations.
Open Scope nat_scope.

Record shared (n : nat) (p : program) : Prop := {
  sh_n : p_n p = n;
  sh_cliques : length (p_cliques p) = length (p_eqs p);
  sh_lens : length (p_duals p) = length (p_eqs p);
  sh_clique : forall e, e < length (p_eqs p) -> nth e (p_cliques p) [] = seq 0 n ++ nth e (p_duals p) [];
  sh_duals : forall e co, nth_error (p_eqs p) e = Some co -> (forall A b, ct_data co <> CEq A b) -> nth e (p_duals p) [] = []
}.

Lemma all_numbers p : map Z.to_nat (all_variables p) = seq 0 (p_n p).
Proof. unfold all_variables. rewrite map_map. erewrite map_ext; [apply map_id|]. intros a. cbn. apply Nat2Z.id. Qed.

Lemma shared_append n p p' x du r : shared n p -> mappended p p' x (all_variables p) du r ->
  ((forall A b, x <> CEq A b) -> du = []) -> shared n p'.
Proof.
  intros [S1 S2 S3 S4 S5] (E1 & E2 & E3 & E4 & _ & _) Hx. rewrite all_numbers, S1 in E3. split.
  - congruence.
  - rewrite E2, E3, !app_length. cbn. lia.
  - rewrite E2, E4, !app_length. cbn. lia.
  - intros e He. rewrite E3, E4. rewrite E2, app_length in He. cbn in He.
    destruct (Nat.lt_ge_cases e (length (p_eqs p))) as [Hl|Hl].
    + rewrite !app_nth1 by lia. auto.
    + rewrite !app_nth2 by lia. replace (e - length (p_cliques p)) with 0 by lia. replace (e - length (p_duals p)) with 0 by lia. reflexivity.
  - intros e co He Hc. rewrite E2 in He. rewrite E4. apply snoc_cases in He as [He|[-> ->]].
    + rewrite app_nth1 by (rewrite S3; eapply nth_error_lt; eauto). eauto.
    + rewrite app_nth2 by lia. rewrite S3, Nat.sub_diag. cbn in Hc |- *. auto.
Qed.

Lemma shared_ext n p p' : mgr p' = mgr p -> shared n p -> shared n p'.
Proof.
  intros H [S1 S2 S3 S4 S5]. unfold mgr in H. injection H as H1 H2 H3 H4 H5 H6.
  split; rewrite ?H1, ?H3, ?H4, ?H5; auto.
Qed.

Lemma shared_data n p i x ct : shared n p -> nth_error (p_eqs p) i = Some ct -> same_shape (ct_data ct) x -> shared n (set_data p i x).
Proof.
  intros [S1 S2 S3 S4 S5] Hi Hs. pose proof (nth_error_lt _ _ _ Hi) as Hl. unfold set_data. rewrite Hi.
  split; cbn; rewrite ?upd_length; auto.
  intros e co He Hc. rewrite nth_error_upd in He by auto. destruct (Nat.eqb_spec i e) as [<-|]; [|eauto].
  injection He as <-. cbn in Hc. apply (S5 i ct Hi). intros A b E. apply (Hc A b). apply (shape_class _ _ Hs). auto.
Qed.

Lemma add_none n p lv x p' s : shared n p -> AddConstraint p lv x None = Ok (p', s) -> shared n p' /\ s = SUCCESS /\
  mappended p p' x (all_variables p) (new_duals p lv x) (registered lv x).
Proof.
  intros S E. destruct (add_all p lv x) as (q & E' & Ha). rewrite E in E'. injection E' as <- ->.
  apply appended_m in Ha. split; [|auto]. eapply shared_append; eauto. intros H. destruct x; cbn; auto. exfalso. eapply H; eauto.
Qed.

Lemma shared_step n p k p' r : 0 < n -> shared n p -> whole_list k -> api_step p k = Ok (p', r) -> shared n p'.
Proof.
  intros Hn S W E. pose proof (sh_n _ _ S) as Sn.
  assert (forall i val v r c d q s, UpdateLinearOperatorOfConstraint p i val v r c d = Ok (q, s) -> shared n q) as HL.
  { intros i val v r0 c d q s. unfold UpdateLinearOperatorOfConstraint. destruct (Zneg i); [intros [= <- <-]; auto|].
    destruct (nth_error _ _) as [ct|] eqn:Hi; [|intros [= <- <-]; auto]. intros E1. apply bind_ok in E1 as ([x s1] & E1 & E2). injection E2 as <- <-.
    apply update_lin_spec in E1. eapply shared_data; eauto. tauto. }
  assert (forall i val r c d q s, UpdateAffineTermOfConstraint p i val r c d = Ok (q, s) -> shared n q) as HU.
  { intros i val r0 c d q s. unfold UpdateAffineTermOfConstraint. destruct (Zneg i); [intros [= <- <-]; auto|].
    destruct (nth_error _ _) as [ct|] eqn:Hi; [|intros [= <- <-]; auto]. intros E1. apply bind_ok in E1 as ([x s1] & E1 & E2). injection E2 as <- <-.
    apply update_aff_spec in E1. eapply shared_data; eauto. tauto. }
  assert (forall lv x q s, AddConstraint p lv x None = Ok (q, s) -> shared n q) as HA by (intros; eapply add_none; eauto).
  assert (forall q c o q' s, mgr q = mgr p -> Solve_program q c o = Ok (q', s) -> shared n q') as HS.
  { intros q c o q' s Hq E1. apply Solve_program_mgr in E1 as (E1 & _). apply (shared_ext n p); auto. congruence. }
  destruct k; cbn [api_step whole_list] in *; try contradiction;
    repeat match type of E with (if ?b then _ else _) = _ => destruct b eqn:?; [try (injection E as <- <-; auto; fail)|] end;
    try (apply bind_ok in E as ([q s] & E1 & E); injection E as <- <-; eauto; fail);
    try (injection E as <- <-; auto; fail).
  - injection E as <- <-. rewrite Sn in *. exfalso. destruct n; [lia|discriminate].
  - apply bind_ok in E as ([q s] & E1 & E). injection E as <- <-. unfold AddQuadraticCost_all in E1.
    destruct (negb _) in E1; [injection E1 as <- <-; auto|]. unfold AddQuadraticCost in E1. apply bind_ok in E1 as ([q' s'] & E1 & E2). injection E2 as <- <-.
    destruct (add_accept (set_quadratic p) false (CQuad (zeros (p_n p) (p_n p))) (Some (all_variables p))) as (q2 & E3 & Ha).
    { apply all_unique. }
    rewrite E1 in E3. injection E3 as <- ->. apply appended_m in Ha. 
    eapply (shared_append n (set_quadratic p)); [apply (shared_ext n p); auto|exact Ha|]. auto.
  - destruct (PreprocessLinearInequality rows) as [sp|]; [|discriminate].
    apply bind_ok in E as ([q1 s1] & E1 & E). apply bind_ok in E as ([q2 s2] & E2 & E). injection E as <- <-.
    assert (shared n q1) as Q1. { destruct (_ <? _) in E1; [eauto|]. injection E1 as <- <-. auto. }
    destruct (_ <? _) in E2; [|injection E2 as <- <-; auto]. eapply add_none; eauto.
  - destruct (AddLinearCost _ _) as [q s] eqn:EA in E. apply bind_ok in E as ([q' s'] & E1 & E). injection E as <- <-.
    eapply HS; [|exact E1]. unfold AddLinearCost in EA. destruct (negb _) in EA; injection EA as <- <-; reflexivity.
  - destruct vars as [v|]; [contradiction|]. apply bind_ok in E as ([q s] & E1 & E); injection E as <- <-. eauto.
  - destruct (AddLinearCost _ _) as [q s] eqn:EA in E. injection E as <- <-. apply (shared_ext n p); auto.
    unfold AddLinearCost in EA. destruct (negb _) in EA; injection EA as <- <-; reflexivity.
  - injection E as <- <-. apply (shared_ext n p); auto.
Qed.

Lemma shared_run n : forall ks p p' rs, 0 < n -> shared n p -> Forall whole_list ks -> api_run p ks = Ok (p', rs) -> shared n p'.
Proof.
  induction ks as [|k ks IH]; intros p p' rs Hn S F E.
  - cbn in E. injection E as <- <-. auto.
  - apply run_cons in E as (p1 & r & rs' & E1 & E2 & ->). inversion F; subst. eapply IH; [| |eassumption|exact E2]; auto. eapply shared_step; eauto.
Qed.

Lemma shared_new n : shared n (new_program n).
Proof. split; cbn; auto; [intros; lia|]. intros [|e] co H; discriminate. Qed.

Lemma shared_well n ks p rs : 0 < n -> Forall whole_list ks -> api_run (new_program n) ks = Ok (p, rs) -> p_eqs p <> [] -> well_built p.
Proof.
  intros Hn F E He. pose proof (shared_run n _ _ _ _ Hn (shared_new n) F E) as S.
  pose proof (minv_run n _ _ _ _ (minv_new n) (or_introl Hn) E) as I.
  assert (0 < length (p_eqs p)) as Hl by (destruct (p_eqs p); [congruence|cbn; lia]).
  assert (nth 0 (p_cliques p) [] <> []) as H0.
  { rewrite (sh_clique _ _ S 0 Hl). destruct n; [lia|discriminate]. }
  apply (built_well n ks p rs); auto.
  - intros v Hv. exists (nth 0 (p_cliques p) []). split; [apply nth_In; rewrite (sh_cliques _ _ S); auto|].
    rewrite (sh_clique _ _ S 0 Hl). apply in_app_iff. left. apply in_seq. lia.
  - intros d o bs EB. apply (shared_clean _ _ _ _ _ (seq 0 n) (minv_admissible _ _ I H0) EB).
    + intros e Hlt. apply (sh_clique _ _ S). rewrite <- (sh_cliques _ _ S). auto.
    + intros i j v Hi Hj. destruct (Nat.lt_ge_cases j (length (p_eqs p))) as [Hlt|Hge]; [|rewrite nth_overflow in Hj by (rewrite (sh_cliques _ _ S); lia); destruct Hj].
      rewrite (sh_clique _ _ S j Hlt) in Hj. apply in_app_iff in Hj as [Hj|Hj].
      * apply in_seq in Hj. eapply minv_dual_ge in Hi; eauto. lia.
      * eapply concat_nodup_disjoint; eauto. eapply minv_nodup; eauto.
Qed.
