(** Conic programs of clients of the C interface (C72). *)
From Coq Require Import List Arith ZArith Reals Bool Lia Lra.
From Verif Require Import Base BaseFacts LayoutModel SupernodeModel TriWorkspaceModel AssemblerModel KktModel Spec_Assembly
  ProgramModel PreprocessModel ApiModel Spec_Program ProgramProofs ProgramRun ProgramState Prop_Program SolveModel LinearModel ConcreteBackend
  Spec_Linear Spec_Solve Spec_Preprocess Spec_Conex RhsProofs ConexBuilt ConexTotal PrivateFacts ClientModel Spec_Client Spec_Conic ClientFacts ClientProofs ConicWrites.
From Verif Require CoeffProofs.
Import ListNotations.
Open Scope R_scope.

(** ** The constraints of a group *)

Definition gdata (n : nat) (g : cgroup) (ds : list cdata) : Prop :=
  match g with
  | Rows g => ds = group_data n g
  | Cone m l => exists A c, ds = [CSoc m A c] /\ length A = n /\ c <> [] /\
      forall v k, (k <= m)%nat -> value_at (CSoc m A c) (mkPlace v k 0 0) = cone_entry m l v k
  | Matrix h m l => exists As C, ds = [CHerm h m As C] /\ length As = n /\ Forall (hermitian_entries h m) (C :: As) /\
      forall v t r c, (t < h)%nat -> (r < m)%nat -> (c < m)%nat -> value_at (CHerm h m As C) (mkPlace v r c t) = matrix_entry h m l v t r c
  | Cost l => exists Q, ds = [CQuad Q] /\ length Q = n /\ (forall row, In row Q -> length row = n) /\ forall r c, CoeffProofs.entry Q r c = cost_entry l r c
  end.

Lemma cone_written n m l : (0 < n)%nat -> writes_ok n (CSoc m [] []) l ->
  exists A c ss, send_all (CSoc m [] []) l = Ok (CSoc m A c, ss) /\ gdata n (Cone m l) [CSoc m A c].
Proof.
  intros Hn HW. destruct (send_blank n (CSoc m [] []) l) as (o & ss & E & SH & W & H & L & HA & V); cbn; auto.
  { split; [intros x []|auto]. } { intros [[v|] r c d]; cbn; [destruct v|]; destruct r; reflexivity. }
  destruct o as [|m' A c| | | | |]; cbn in SH; try tauto. subst m'. exists A, c, ss. split; auto. exists A, c. split; auto. split; auto. split; auto.
  intros v k Hk. apply (V (mkPlace v k 0 0)). cbn. auto.
Qed.

Lemma well_hermitian h m As C : (0 < h)%nat -> well_sized (CHerm h m As C) -> hermitian (CHerm h m As C) -> C <> [] -> Forall (hermitian_entries h m) (C :: As).
Proof.
  intros Hh W H HC. cbn in W. assert (forall M, In M (C :: As) -> exists v, M = match v with None => C | Some j => nth j As [] end /\ (forall j, v = Some j -> (j < length As)%nat)) as HX.
  { intros M [<-|Hin]; [exists None; split; [auto|discriminate]|]. apply (In_nth _ _ []) in Hin as (j & Hj & <-). exists (Some j). split; auto. intros j' [= <-]. auto. }
  apply Forall_forall. intros M HM. destruct (W M) as [L1 L2]. { destruct HM as [<-|HM]; auto. }
  split; [auto|]. split.
  - apply Forall_forall. intros X HX'. destruct (L2 X HX') as [L3 L4]. split; auto. apply Forall_forall. auto.
  - intros t r c Ht Hr Hc. destruct (HX M HM) as (v & EM & _). pose proof (H v c r t Hc Hr Ht) as HV.
    assert (component M t r c = value_at (CHerm h m As C) (mkPlace v r c t)) as ->. { rewrite EM. destruct v; reflexivity. }
    assert (component M t c r = value_at (CHerm h m As C) (mkPlace v c r t)) as ->. { rewrite EM. destruct v; reflexivity. }
    exact HV.
Qed.

Lemma matrix_written n h m l : (0 < n)%nat -> (0 < h)%nat -> writes_ok n (CHerm h m [] []) l ->
  exists As C ss, send_all (CHerm h m [] []) l = Ok (CHerm h m As C, ss) /\ gdata n (Matrix h m l) [CHerm h m As C].
Proof.
  assert (forall q, value_at (CHerm h m [] []) q = 0) as H0.
  { intros [[v|] r c d]; cbn; [destruct v|]; destruct d, r, c; reflexivity. }
  assert (hermitian (CHerm h m [] [])) as H1.
  { intros v r c d _ _ _. rewrite !H0. destruct (d =? 0)%nat; lra. }
  assert (well_sized (CHerm h m [] [])) as H2 by (intros M [[]|[_ []]]; auto).
  intros Hn Hh HW. destruct (send_blank n (CHerm h m [] []) l) as (o & ss & E & SH & W & H & L & HA & V); auto.
  destruct o as [| |h' m' As C| | | |]; cbn in SH; try tauto. destruct SH as [<- <-]. exists As, C, ss. split; auto. exists As, C. split; auto. split; auto.
  split. { apply well_hermitian; auto. }
  intros v t r c Ht Hr Hc. apply (V (mkPlace v r c t)). cbn. auto.
Qed.

Lemma cost_written n l : cgroup_ok n (Cost l) ->
  exists Q ss, send_all (CQuad (zeros n n)) (map cost_write l) = Ok (CQuad Q, ss) /\ gdata n (Cost l) [CQuad Q].
Proof.
  intros [F _]. destruct (costs_sent n l (zeros n n)) as (Q & ss & E & L & R & V); auto.
  { apply repeat_length. } { intros row Hr. apply repeat_spec in Hr as ->. apply repeat_length. }
  exists Q, ss. split; auto. exists Q. split; auto. split; auto. split; auto. intros r c. rewrite V, CoeffProofs.entry_zeros. reflexivity.
Qed.

(** ** Entering a group *)

Record entered (n : nat) (p : program) (g : cgroup) (p' : program) (ks : list call) (ds : list cdata) : Prop := {
  et_run : exists rs, api_run p ks = Ok (p', rs);
  et_whole : Forall whole_list ks;
  et_ref : Forall (fun k => ~ eq_by_reference k) ks;
  et_solve : Forall (fun k => ~ is_solve k) ks;
  et_data : gdata n g ds;
  et_eqs : map ct_data (p_eqs p') = map ct_data (p_eqs p) ++ ds;
  et_quadratic : p_quadratic p' = p_quadratic p || is_cost g
}.

Lemma map_upd_data (l : list container) i x v : map ct_data (upd l i (mkCont x v)) = upd (map ct_data l) i x.
Proof. revert i. induction l as [|c l IH]; intros [|i]; cbn; auto. f_equal. auto. Qed.
Lemma upd_end {A} (l : list A) a b : upd (l ++ [a]) (length l) b = l ++ [b].
Proof. induction l; cbn; auto. f_equal. auto. Qed.

Lemma fill_runs p k ws x l o ss : fresh_state p -> (forall i q, api_run q (ws i) = api_run q (map (write_call i) l)) ->
  forall p0 u, rest p0 = rest p -> p_eqs p0 = p_eqs p -> AddConstraint p0 false x u = AddConstraint p0 false x None ->
  api_step p k = ('(p', _) <- AddConstraint p0 false x u ;; Ok (p', mkReply SUCCESS (Some (last_id p')))) ->
  send_all x l = Ok (o, ss) -> exists p' rs, fill p k ws = Ok p' /\ api_run p (k :: ws (Z.of_nat (NumberOfConstraints p))) = Ok (p', rs) /\
    map ct_data (p_eqs p') = map ct_data (p_eqs p) ++ [o] /\ p_quadratic p' = p_quadratic p0.
Proof.
  intros HF Hw p0 u R0 E0 Eu Ek E. rewrite Eu in Ek. clear Eu. destruct (add_all p0 false x) as (q & Eq & Ha). pose proof (appended_rest _ _ _ _ _ _ Ha) as (HR & _ & HQ). apply appended_m in Ha as (_ & E2 & _).
  rewrite R0 in HR. rewrite E0 in E2.
  assert (safer_cast q = true) as HC.
  { pose proof (fresh_cast p HF) as HC. unfold safer_cast in *. unfold rest in HR. injection HR as H1 H2 _ _ _ _ _ _. destruct HF as (F1 & F2 & _). rewrite H1, H2, F1, F2. reflexivity. }
  rewrite Eq in Ek. cbn [bind] in Ek. rewrite (last_id_snoc p q _ E2) in Ek.
  assert (nth_error (p_eqs q) (NumberOfConstraints p) = Some (mkCont x (length (new_duals p0 false x) + length (all_variables p0)))) as Hi.
  { rewrite E2. unfold NumberOfConstraints. rewrite nth_error_app2 by lia. rewrite Nat.sub_diag. reflexivity. }
  destruct (write_run (NumberOfConstraints p) l q o ss _ HC Hi E) as (rs & ER & _).
  exists (set_data q (NumberOfConstraints p) o), (mkReply SUCCESS (Some (Z.of_nat (NumberOfConstraints p))) :: rs).
  split. { unfold fill. rewrite Ek. cbn [bind rp_id]. rewrite Hw, ER. reflexivity. }
  split. { cbn [api_run]. rewrite Ek. cbn [bind]. rewrite Hw, ER. reflexivity. }
  unfold set_data. rewrite Hi. cbn [p_eqs set_manager p_quadratic]. split; [|auto].
  rewrite map_upd_data, E2, map_app. cbn [map ct_data]. unfold NumberOfConstraints. rewrite <- (map_length ct_data (p_eqs p)). apply upd_end.
Qed.

Lemma write_whole i w : whole_list (write_call i w) /\ ~ eq_by_reference (write_call i w) /\ ~ is_solve (write_call i w).
Proof. unfold write_call. destruct (w_var w); cbn; auto. Qed.

Lemma enter_ok n p g : (0 < n)%nat -> shared n p -> fresh_state p -> cgroup_ok n g -> exists p' ks ds, enter n p g = Ok p' /\ entered n p g p' ks ds.
Proof.
  intros Hn S HF HG.
  assert (forall k i l, whole_list k -> ~ eq_by_reference k -> ~ is_solve k ->
    Forall whole_list (k :: map (write_call i) l) /\ Forall (fun k => ~ eq_by_reference k) (k :: map (write_call i) l) /\ Forall (fun k => ~ is_solve k) (k :: map (write_call i) l)) as HK.
  { intros k i l H1 H2 H3. split; [|split]; (constructor; [auto|]); apply Forall_map, Forall_forall; intros w _; apply write_whole. }
  destruct g as [g|m l|h m l|l]; cbn [enter cgroup_ok] in *.
  - destruct (group_step n p g S HG) as (p' & r & E1 & E2 & E3 & _). rewrite E1. cbn [bind]. exists p', [group_call n g], (group_data n g). split; auto. split; auto.
    + exists [r]. cbn. rewrite E1. reflexivity.
    + repeat constructor. apply group_whole.
    + repeat constructor. destruct g; cbn; auto.
    + repeat constructor. destruct g; cbn; auto.
    + reflexivity.
    + cbn [is_cost]. rewrite orb_false_r. auto.
  - destruct HG as [Hm HW]. destruct (cone_written n m l Hn HW) as (A & c & ss & E & HD).
    destruct (fill_runs p (ANewLorentzCone (Z.of_nat m) false) (fun i => map (write_call i) l) (CSoc m [] []) l (CSoc m A c) ss HF (fun i q => eq_refl) p None) as (p' & rs & E1 & E2 & E3 & E4); auto.
    { cbn [api_step]. destruct (Z.leb_spec 1 (Z.of_nat m)); [|lia]. cbn [negb]. rewrite (fresh_cast p HF), Nat2Z.id. reflexivity. }
    destruct (HK (ANewLorentzCone (Z.of_nat m) false) (Z.of_nat (NumberOfConstraints p)) l) as (K1 & K2 & K3); cbn; auto.
    eexists p', _, _. split; [exact E1|]. split; [eexists; exact E2|exact K1|exact K2|exact K3|exact HD|exact E3|]. cbn [is_cost]. rewrite orb_false_r. exact E4.
  - destruct HG as (Hm & Hh & HW). destruct (matrix_written n h m l Hn ltac:(lia) HW) as (As & C & ss & E & HD).
    destruct (fill_runs p (ANewLMI (Z.of_nat m) (Z.of_nat h) false) (fun i => map (write_call i) l) (CHerm h m [] []) l (CHerm h m As C) ss HF (fun i q => eq_refl) p None) as (p' & rs & E1 & E2 & E3 & E4); auto.
    { cbn [api_step]. destruct (Z.leb_spec 1 (Z.of_nat m)); [|lia]. cbn [negb].
      assert (((Z.of_nat h =? 1) || (Z.of_nat h =? 2) || (Z.of_nat h =? 4) || (Z.of_nat h =? 8))%Z%bool = true) as -> by (destruct Hh as [->|[->| ->]]; reflexivity).
      assert ((Z.of_nat h =? 8)%Z = false) as -> by (apply Z.eqb_neq; lia). cbn [negb andb]. rewrite (fresh_cast p HF), !Nat2Z.id. reflexivity. }
    destruct (HK (ANewLMI (Z.of_nat m) (Z.of_nat h) false) (Z.of_nat (NumberOfConstraints p)) l) as (K1 & K2 & K3); cbn; auto.
    eexists p', _, _. split; [exact E1|]. split; [eexists; exact E2|exact K1|exact K2|exact K3|exact HD|exact E3|]. cbn [is_cost]. rewrite orb_false_r. exact E4.
  - destruct (cost_written n l HG) as (Q & ss & E & HD).
    destruct (fill_runs p (ANewQuadraticCost false) (fun i => map (entry_call i) l) (CQuad (zeros n n)) (map cost_write l) (CQuad Q) ss HF
      (fun i q => entry_run i l q) (set_quadratic p) (Some (all_variables p))) as (p' & rs & E1 & E2 & E3 & E4); auto.
    { unfold AddConstraint, manager_AddConstraint_all, manager_AddConstraint. change (all_variables p) with (all_variables (set_quadratic p)). rewrite all_unique. reflexivity. }
    { cbn [api_step]. rewrite (fresh_cast p HF). cbn [negb]. rewrite (sh_n _ _ S). unfold AddQuadraticCost_all. unfold zeros at 1. rewrite repeat_length, (sh_n _ _ S), Nat.eqb_refl. cbn [negb].
      unfold AddQuadraticCost. destruct (AddConstraint _ _ _ _) as [[q s]| | |]; reflexivity. }
    eexists p', _, _. split; [exact E1|]. split; [eexists; exact E2| | | |exact HD|exact E3|].
    + constructor; [exact I|]. apply Forall_map, Forall_forall. intros [[x r] c] _. exact I.
    + constructor; [intros []|]. apply Forall_map, Forall_forall. intros [[x r] c] _ [].
    + constructor; [intros []|]. apply Forall_map, Forall_forall. intros [[x r] c] _ [].
    + rewrite E4. cbn [is_cost]. rewrite orb_true_r. reflexivity.
Qed.

(** ** The program of a client *)

Record entered_all (n : nat) (p : program) (gs : list cgroup) (p' : program) (ks : list call) (dss : list (list cdata)) : Prop := {
  ea_run : exists rs, api_run p ks = Ok (p', rs);
  ea_whole : Forall whole_list ks;
  ea_ref : Forall (fun k => ~ eq_by_reference k) ks;
  ea_data : Forall2 (gdata n) gs dss;
  ea_eqs : map ct_data (p_eqs p') = map ct_data (p_eqs p) ++ concat dss;
  ea_quadratic : p_quadratic p' = p_quadratic p || existsb is_cost gs
}.

Lemma run_chain : forall k1 k2 p0 p1 p2 r1 r2, api_run p0 k1 = Ok (p1, r1) -> api_run p1 k2 = Ok (p2, r2) -> api_run p0 (k1 ++ k2) = Ok (p2, r1 ++ r2).
Proof.
  induction k1 as [|k k1 IH]; intros k2 p0 p1 p2 r1 r2 E1 E2.
  - cbn in E1. injection E1 as <- <-. auto.
  - apply run_cons in E1 as (q & r & rs' & E1 & E3 & ->). cbn [app api_run]. rewrite E1. cbn [bind]. rewrite (IH k2 _ _ _ _ _ E3 E2). reflexivity.
Qed.

Lemma enter_all_ok n : forall gs p, (0 < n)%nat -> shared n p -> fresh_state p -> Forall (cgroup_ok n) gs -> exists p' ks dss, enter_all n p gs = Ok p' /\ entered_all n p gs p' ks dss.
Proof.
  induction gs as [|g gs IH]; intros p Hn S HF F; cbn [enter_all].
  - exists p, [], []. split; auto. split; auto. exists []. reflexivity. cbn. rewrite app_nil_r. auto. cbn. rewrite orb_false_r. auto.
  - inversion F as [|g' gs' Hg F']; subst. destruct (enter_ok n p g Hn S HF Hg) as (p1 & k1 & ds & E1 & [[r1 R1] W1 F1 S1 D1 Q1 C1]). rewrite E1. cbn [bind].
    destruct (IH p1 Hn) as (p2 & k2 & dss & E2 & [[r2 R2] W2 F2 D2 Q2 C2]); auto.
    { eapply shared_run; eauto. } { eapply run_fresh; eauto. }
    exists p2, (k1 ++ k2), (ds :: dss). split; auto. split.
    + eexists. eapply run_chain; eauto.
    + apply Forall_app; auto.
    + apply Forall_app; auto.
    + constructor; auto.
    + rewrite Q2, Q1. cbn [concat]. apply eq_sym, app_assoc.
    + rewrite C2, C1. cbn [existsb]. symmetry. apply orb_assoc.
Qed.

Record cclient (n : nat) (gs : list cgroup) (dss : list (list cdata)) (b : list R) (p : program) : Prop := {
  cc_shared : shared n p;
  cc_built : p_eqs p <> [] -> well_built p;
  cc_listed : listed p;
  cc_owned : owned p;
  cc_groups : Forall2 (gdata n) gs dss;
  cc_data : map ct_data (p_eqs p) = concat dss;
  cc_quadratic : p_quadratic p = existsb is_cost gs;
  cc_cost : length (p_cost p) = n;
  cc_value : length b = n -> forall v, nth v (p_cost p) 0 = - nth v b 0
}.

Lemma create_step n : (0 < n)%nat -> api_step CONEX_CreateConeProgram (ASetNumberOfVariables (Z.of_nat n)) = Ok (new_program n, mkReply SUCCESS None).
Proof.
  intros Hn. cbn [api_step]. destruct (Z.leb_spec 1 (Z.of_nat n)); [|lia]. cbn -[new_program Z.of_nat]. rewrite Nat2Z.id. reflexivity.
Qed.

Lemma conic_run n gs : (0 < n)%nat -> Forall (cgroup_ok n) gs -> exists p ks dss, conic_client n gs = Ok p /\ entered_all n (new_program n) gs p ks dss.
Proof.
  intros Hn F. unfold conic_client. rewrite create_step by auto. cbn [bind].
  apply (enter_all_ok n gs (new_program n) Hn (shared_new n)); auto. repeat split.
Qed.

Lemma conic_program n gs p b : (0 < n)%nat -> Forall (cgroup_ok n) gs -> conic_client n gs = Ok p -> exists dss, cclient n gs dss b (set_objective p b).
Proof.
  intros Hn F E. destruct (conic_run n gs Hn F) as (q & ks & dss & E' & [[rs R] W RF D Q C]). rewrite E in E'. injection E' as <-. exists dss.
  destruct (objective_run n _ _ _ b R) as (rs1 & E4).
  assert (Forall whole_list (ks ++ [PClearLinearCosts; PAddLinearCost (map Ropp b)])) as FW by (apply Forall_app; split; [auto|repeat constructor]).
  pose proof (C23_linear_cost n _ _ _ (or_introl Hn) R) as [LC _].
  assert (p_eqs (set_objective p b) = p_eqs p /\ p_quadratic (set_objective p b) = p_quadratic p) as [EE EQ].
  { unfold set_objective, AddLinearCost. destruct (negb _); auto. }
  pose proof (shared_run n _ _ _ _ Hn (shared_new n) FW E4) as SH. split.
  - exact SH.
  - intros He. eapply shared_well; eauto.
  - eapply built_listed; eauto.
  - eapply built_multipliers; eauto. apply Forall_app. split; [auto|repeat constructor; auto].
  - auto.
  - rewrite EE, Q. reflexivity.
  - rewrite EQ, C. reflexivity.
  - apply (C23_linear_cost n _ _ _ (or_introl Hn) E4).
  - intros Hb v. unfold set_objective, AddLinearCost.
    assert (p_n (ClearLinearCosts p) = n) as Hq. { pose proof (shared_run n _ _ _ _ Hn (shared_new n) W R) as HS. apply HS. }
    rewrite Hq, map_length, Hb, Nat.eqb_refl. cbn. rewrite vadd_zero by (rewrite map_length; congruence).
    destruct (Nat.lt_ge_cases v (length b)) as [Hl|Hl]; [rewrite (nth_map_lt Ropp b v 0 0) by auto; reflexivity|].
    rewrite !nth_overflow by (rewrite ?map_length; lia). lra.
Qed.
