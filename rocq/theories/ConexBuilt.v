(** Programs built by calls satisfy the conditions of a solve (C53). *)
From Coq Require Import List Arith ZArith Reals Bool Lia.
From Verif Require Import Base BaseFacts LayoutModel SupernodeModel TriWorkspaceModel AssemblerModel KktModel Spec_Assembly
  ProgramModel PreprocessModel ApiModel Spec_Program ProgramProofs ProgramRun Prop_Program SolveModel LinearModel ConcreteBackend
  Spec_Solve Spec_Conex.
Import ListNotations.
Open Scope nat_scope.

(** What the class of a constraint says about its registration and multipliers. *)
Record reg (p : program) : Prop := {
  rg_lens : length (p_duals p) = length (p_eqs p);
  rg_range : forall i, In i (p_constraints p) -> i < length (p_eqs p);
  rg_steps : forall i co, nth_error (p_eqs p) i = Some co -> In i (p_constraints p) \/ exists A b, ct_data co = CEq A b
}.
Definition owned (p : program) : Prop :=
  forall i co A b, nth_error (p_eqs p) i = Some co -> ct_data co = CEq A b -> length (nth i (p_duals p) []) = length A.

Lemma snoc_cases {A} (l : list A) x i a : nth_error (l ++ [x]) i = Some a -> nth_error l i = Some a \/ (i = length l /\ a = x).
Proof.
  intros H. destruct (Nat.lt_ge_cases i (length l)) as [Hl|Hl].
  - rewrite nth_error_app1 in H by auto. auto.
  - rewrite nth_error_app2 in H by auto. right. destruct (i - length l) as [|k] eqn:E; cbn in H.
    + injection H as <-. split; auto. lia.
    + destruct k; discriminate.
Qed.

Lemma reg_append p p' x v du r : reg p -> mappended p p' x v du r -> (r = true \/ exists A b, x = CEq A b) -> reg p'.
Proof.
  intros [R1 R2 R3] (_ & E2 & _ & E4 & _ & E6) Hr. split.
  - rewrite E2, E4, !app_length. cbn. lia.
  - intros i Hi. rewrite E6 in Hi. rewrite E2, app_length. cbn. apply in_app_iff in Hi as [Hi|Hi]; [apply R2 in Hi; lia|].
    destruct r; [destruct Hi as [<-|[]]; lia|destruct Hi].
  - intros i co Hi. rewrite E2 in Hi. rewrite E6. apply snoc_cases in Hi as [Hi|[-> ->]].
    + destruct (R3 i co Hi) as [H|H]; auto. left. apply in_app_iff. auto.
    + destruct Hr as [->|Hr]; auto. left. apply in_app_iff. right. left. auto.
Qed.

Lemma owned_append p p' x v du r : reg p -> owned p -> mappended p p' x v du r -> (forall A b, x = CEq A b -> length du = length A) -> owned p'.
Proof.
  intros [R1 _ _] O (_ & E2 & _ & E4 & _) Hx i co A b Hi Hd. rewrite E2 in Hi. rewrite E4.
  apply snoc_cases in Hi as [Hi|[-> ->]].
  - rewrite app_nth1 by (rewrite R1; eapply nth_error_lt; eauto). eauto.
  - rewrite app_nth2 by lia. rewrite R1, Nat.sub_diag. cbn. eauto.
Qed.

Lemma registered_or lv x : registered lv x = true \/ exists A b, x = CEq A b.
Proof. destruct x; cbn; auto. destruct lv; eauto. Qed.

Lemma shape_class a x : same_shape a x -> forall A b, x = CEq A b <-> a = CEq A b.
Proof. destruct a, x; cbn; intros H A' b'; split; intros E; try tauto; try discriminate; destruct H; congruence. Qed.

Definition eq_by_reference (k : call) : Prop := match k with PAddConstraint true (CEq _ _) _ => True | _ => False end.

Lemma reg_step p k p' r : reg p -> api_step p k = Ok (p', r) -> reg p' /\ (owned p -> ~ eq_by_reference k -> owned p').
Proof.
  intros G E. apply step_effect in E. destruct E as [p' H|p' lv x vars Hg Ha Hk|q p' x y Ha Hb|m p' H H0 Hm|i x ct p' Hk Hi Hu ->].
  - mgr_eq H. destruct G as [R1 R2 R3]. split; [split|intros O _; unfold owned in *]; repeat match goal with E : _ p' = _ |- _ => rewrite E; clear E end; auto.
  - split; [eapply reg_append; eauto; apply registered_or|]. intros O Hn. eapply owned_append; eauto.
    intros A b ->. destruct lv; [|cbn; apply seq_length]. destruct (Hk eq_refl) as [Hc|(v & Hv)]; [discriminate|]. exfalso. apply Hn. rewrite Hv. exact I.
  - assert (reg q) as Gq by (eapply reg_append; eauto; apply registered_or).
    split; [eapply reg_append; eauto; apply registered_or|]. intros O _.
    assert (owned q) as Oq. { apply (owned_append _ _ _ _ _ _ G O Ha). intros A b ->. cbn. apply seq_length. }
    apply (owned_append _ _ _ _ _ _ Gq Oq Hb). intros A b ->. cbn. apply seq_length.
  - mgr_eq Hm. destruct G as [R1 R2 R3]. split; [split|intros O _; unfold owned in *]; repeat match goal with E : _ p' = _ |- _ => rewrite E; clear E end; auto.
  - pose proof (set_data_mgr p i x ct Hi) as H. mgr_eq H. destruct G as [R1 R2 R3].
    assert (same_shape (ct_data ct) x) as Hs.
    { destruct Hu as (s & [(val & v & r0 & c & d & Hu)|(val & r0 & c & d & Hu)]); [apply update_lin_spec in Hu|apply update_aff_spec in Hu]; tauto. }
    pose proof (nth_error_lt _ _ _ Hi) as Hl.
    split; [split|]; [| | |intros O _; unfold owned in *]; repeat match goal with E : _ (set_data p i x) = _ |- _ => rewrite E; clear E end; rewrite ?upd_length; auto.
    + intros j co Hj. rewrite nth_error_upd in Hj by auto. destruct (Nat.eqb_spec i j) as [<-|].
      * injection Hj as <-. cbn. destruct (R3 i ct Hi) as [HR|(A & b & HR)]; auto. right. exists A, b. apply (shape_class _ _ Hs). auto.
      * eauto.
    + intros j co A b Hj Hd. rewrite nth_error_upd in Hj by auto. destruct (Nat.eqb_spec i j) as [<-|].
      * injection Hj as <-. cbn in Hd. apply (shape_class _ _ Hs) in Hd. eauto.
      * eauto.
Qed.

Lemma reg_run : forall ks p p' rs, reg p -> api_run p ks = Ok (p', rs) ->
  reg p' /\ (owned p -> Forall (fun k => ~ eq_by_reference k) ks -> owned p').
Proof.
  induction ks as [|k ks IH]; intros p p' rs G E.
  - cbn in E. injection E as <- <-. auto.
  - apply run_cons in E as (p1 & r & rs' & E1 & E2 & ->). destruct (reg_step _ _ _ _ G E1) as [G1 O1].
    destruct (IH _ _ _ G1 E2) as [G2 O2]. split; auto. intros O F. inversion F; subst. auto.
Qed.

Lemma reg_new n : reg (new_program n) /\ owned (new_program n).
Proof.
  split; [split; cbn; auto|].
  - intros i [].
  - intros [|i] co H; discriminate.
  - intros [|i] co A b H; discriminate.
Qed.

Lemma built_listed n ks p rs : api_run (new_program n) ks = Ok (p, rs) -> listed p.
Proof.
  intros E. destruct (reg_run _ _ _ _ (proj1 (reg_new n)) E) as [[R1 R2 R3] _]. split; [auto|].
  split; [|split]; intros i co; intros; (destruct (R3 i co ltac:(assumption)) as [H'|(A' & b' & H')]; auto; congruence).
Qed.

Lemma built_multipliers n ks p rs : api_run (new_program n) ks = Ok (p, rs) -> Forall (fun k => ~ eq_by_reference k) ks -> owned p.
Proof. intros E F. destruct (reg_run _ _ _ _ (proj1 (reg_new n)) E) as [_ O]. apply O; auto. apply reg_new. Qed.

Lemma built_well n ks p rs : (0 < n \/ Forall (fun k => ~ sets_variables k) ks) -> api_run (new_program n) ks = Ok (p, rs) ->
  nth 0 (p_cliques p) [] <> [] -> (forall v, v < n -> covered (p_cliques p) v) ->
  (forall d o bs, build (p_cliques p) (p_duals p) = Ok (d, o, bs) -> forall b, In b bs -> direct_update b = true -> ~ In (-1)%Z (b_sn b)) ->
  well_built p.
Proof.
  intros Hn E H0 Hc Hd. pose proof (minv_run n _ _ _ _ (minv_new n) Hn E) as I.
  destruct (C23_linear_cost n ks p rs Hn E) as [Hcost _]. destruct (mi_len _ _ I) as [L1 L2].
  constructor; auto.
  - eapply minv_admissible; eauto.
  - intros i c Hi. pose proof (nth_error_lt _ _ _ Hi) as Hl. rewrite <- (mi_vars _ _ I i Hl). f_equal. symmetry. apply nth_error_nth. auto.
  - intros v. split.
    + intros (c & H1 & H2). eapply minv_range; eauto.
    + intros Hv. destruct (Nat.lt_ge_cases v n) as [Hl|Hl]; auto.
      rewrite (minv_kkt _ _ I) in Hv. assert (In v (concat (p_duals p))) as Hin by (rewrite (mi_dual _ _ I); apply in_seq; lia).
      apply in_concat in Hin as (l & Hin & Hvl). apply (In_nth _ _ []) in Hin as (e & He & <-). rewrite L2 in He.
      exists (nth e (p_cliques p) []). split; [apply nth_In; lia|]. destruct (mi_clique _ _ I e He) as (pre & -> & _). apply in_app_iff. auto.
  - intros i j v Hi Hj. destruct (Nat.lt_ge_cases j (length (p_eqs p))) as [Hl|Hl]; [|rewrite nth_overflow in Hj by lia; destruct Hj].
    destruct (mi_clique _ _ I j Hl) as (pre & Ej & _ & Hp). rewrite Ej in Hj. apply in_app_iff in Hj as [Hj|Hj].
    + apply Hp in Hj. eapply minv_dual_ge in Hi; eauto. lia.
    + eapply concat_nodup_disjoint; eauto. eapply minv_nodup; eauto.
  - intros i v Hi. rewrite Hcost. eapply minv_dual_ge in Hi; eauto. lia.
Qed.
