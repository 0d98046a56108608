(** Proofs about the Python class: its lists stay in step with the program. *)
From Coq Require Import List Arith ZArith Reals Bool Lia.
From Verif Require Import Base BaseFacts ProgramModel ApiModel SolveModel ConcreteBackend ClientModel WrapperModel Spec_Program Spec_Wrapper ProgramProofs ProgramRun.
Import ListNotations.

Record books (n : nat) (w : pyprog) : Prop := {
  bk_n : p_n (py_a w) = n;
  bk_quadratic : p_quadratic (py_a w) = false;
  bk_count : py_count w = length (p_eqs (py_a w));
  bk_shapes : length (py_c w) = length (p_eqs (py_a w));
  bk_match : forall i ct r q, nth_error (p_eqs (py_a w)) i = Some ct -> nth_error (py_c w) i = Some (r, q) -> entries (ct_data ct) = Some (r * q)%nat
}.

Lemma shape_entries a b : same_shape a b -> entries a = entries b.
Proof. destruct a, b; cbn; try tauto; intros H; decompose [and] H; subst; congruence. Qed.

(** Calls that add nothing. *)
Definition quiet (k : call) : Prop :=
  match k with
  | AUpdateLinearOperator _ _ _ _ _ _ | AUpdateAffineTerm _ _ _ _ _ | AUpdateQuadraticCostMatrix _ _ _ _ | AMaximize _ _ _ | ASolve _ _ => True
  | _ => False
  end.
Lemma set_data_size p i x : length (p_eqs (set_data p i x)) = length (p_eqs p) /\ p_n (set_data p i x) = p_n p /\ p_quadratic (set_data p i x) = p_quadratic p.
Proof. unfold set_data. destruct (nth_error _ _); cbn; rewrite ?upd_length; auto. Qed.
Lemma quiet_size p k p' r : quiet k -> api_step p k = Ok (p', r) ->
  length (p_eqs p') = length (p_eqs p) /\ p_n p' = p_n p /\ p_quadratic p' = p_quadratic p.
Proof.
  intros Q E. destruct k; try destruct Q; cbn [api_step] in E.
  - destruct (negb (safer_cast p)); [injection E as <- _; auto|]. destruct (negb _); [injection E as <- _; auto|].
    apply bind_ok in E as ((q, s) & E1 & E). injection E as <- _. unfold UpdateLinearOperatorOfConstraint in E1.
    destruct (Zneg i); [injection E1 as <- _; auto|]. destruct (nth_error _ _); [|injection E1 as <- _; auto].
    apply bind_ok in E1 as ((x, s') & _ & E1). injection E1 as <- _. apply set_data_size.
  - destruct (negb (safer_cast p)); [injection E as <- _; auto|]. destruct (negb _); [injection E as <- _; auto|].
    apply bind_ok in E as ((q, s) & E1 & E). injection E as <- _. unfold UpdateAffineTermOfConstraint in E1.
    destruct (Zneg i); [injection E1 as <- _; auto|]. destruct (nth_error _ _); [|injection E1 as <- _; auto].
    apply bind_ok in E1 as ((x, s') & _ & E1). injection E1 as <- _. apply set_data_size.
  - destruct (negb (safer_cast p)); [injection E as <- _; auto|]. destruct (negb _); [injection E as <- _; auto|].
    apply bind_ok in E as ((q, s) & E1 & E). injection E as <- _. unfold UpdateAffineTermOfConstraint in E1.
    destruct (Zneg i); [injection E1 as <- _; auto|]. destruct (nth_error _ _); [|injection E1 as <- _; auto].
    apply bind_ok in E1 as ((x, s') & _ & E1). injection E1 as <- _. apply set_data_size.
  - unfold AddLinearCost in E. destruct (negb _) in E; apply bind_ok in E as ((q, s) & E1 & E); injection E as <- _;
      apply Solve_program_mgr in E1 as (E1 & _ & E3); mgr_eq E1; rewrite E3; repeat split; cbn in *; congruence.
  - apply bind_ok in E as ((q, s) & E1 & E). injection E as <- _. apply Solve_program_mgr in E1 as (E1 & _ & E3). mgr_eq E1. rewrite E3. repeat split; congruence.
Qed.

Lemma quiet_books n w k p' r : books n w -> quiet k -> api_step (py_a w) k = Ok (p', r) -> books n (mkPy p' (py_count w) (py_c w) (py_m w)).
Proof.
  intros [B1 B2 B3 B4 B5] Q E. destruct (quiet_size _ _ _ _ Q E) as (L1 & L2 & L3). pose proof (step_kept _ _ _ _ E) as K.
  split; cbn [py_a py_count py_c]; try congruence. intros i ct a b Hi Hc.
  destruct (nth_error (p_eqs (py_a w)) i) as [ct0|] eqn:H0.
  - destruct (kp_data _ _ _ K i ct0 H0) as (ct' & H1 & _ & H2 & _). rewrite Hi in H1. injection H1 as <-.
    rewrite <- (shape_entries _ _ H2). eauto.
  - apply nth_error_None in H0. assert (i < length (p_eqs p')) by (apply nth_error_Some; congruence). lia.
Qed.

(** An accepted constraint together with its shape. *)
Lemma add_books n w p' x v m a b : books n w -> p_n p' = p_n (py_a w) -> p_quadratic p' = p_quadratic (py_a w) ->
  p_eqs p' = p_eqs (py_a w) ++ [mkCont x v] -> entries x = Some (a * b) -> books n (mkPy p' (py_count w + 1) (py_c w ++ [(a, b)]) m).
Proof.
  intros [B1 B2 B3 B4 B5] H1 H2 H3 Hx. split; cbn [py_a py_count py_c]; try congruence.
  - rewrite H3, app_length. cbn. lia.
  - rewrite H3, !app_length. cbn. lia.
  - intros i ct r q Hi Hc. rewrite H3 in Hi. destruct (Nat.ltb_spec i (length (p_eqs (py_a w)))) as [Hl|Hl].
    + rewrite nth_error_app1 in Hi by auto. rewrite nth_error_app1 in Hc by lia. eauto.
    + rewrite nth_error_app2 in Hi, Hc by lia. rewrite B4 in Hc. destruct (i - length (p_eqs (py_a w))) as [|j]; [|destruct j; discriminate].
      cbn in Hi, Hc. injection Hi as <-. injection Hc as <- <-. exact Hx.
Qed.

Lemma whole_books n w lv x v p' s m a b : books n w -> AddConstraint (py_a w) lv x v = Ok (p', s) -> (forall l, v = Some l -> good_list n l) ->
  entries x = Some (a * b) -> books n (mkPy p' (py_count w + 1) (py_c w ++ [(a, b)]) m).
Proof.
  intros B E G Hx. apply add_cases in E as [(_ & _ & A)|(_ & _ & l & -> & Hl)].
  - destruct A as (A1 & A2 & _ & _ & _ & _ & _ & A8 & _). eapply add_books; eauto.
  - destruct Hl. rewrite (bk_n _ _ B). auto.
Qed.

Lemma step_books n w k w' : books n w -> keeps_books n k -> py_step w k = Ok w' -> books n w'.
Proof.
  intros B Hk E. destruct k; cbn [keeps_books] in Hk; try contradiction; cbn [py_step] in E.
  - apply bind_ok in E as ((p', r) & E1 & E). injection E as <-. cbn [api_step] in E1. apply bind_ok in E1 as ((q, s) & E1 & E2). injection E2 as <- _.
    destruct column; (eapply whole_books; [exact B|exact E1|discriminate|cbn; f_equal; lia]).
  - apply bind_ok in E as ((p', r) & E1 & E). injection E as <-. cbn [api_step] in E1. apply bind_ok in E1 as ((q, s) & E1 & E2). injection E2 as <- _.
    eapply whole_books; [exact B|exact E1|discriminate|reflexivity].
  - destruct (_ =? 0); [discriminate|]. destruct (too_large _ _); [discriminate|]. destruct (negb _); [discriminate|].
    apply bind_ok in E as ((p', r) & E1 & E). injection E as <-. cbn [api_step] in E1. apply bind_ok in E1 as ((q, s) & E1 & E2). injection E2 as <- _.
    eapply whole_books; [exact B|exact E1| |reflexivity]. intros l H. injection H as <-. exact Hk.
  - apply bind_ok in E as ((p', r) & E1 & E). injection E as <-. unfold demanded in E1. apply bind_ok in E1 as ((q, s) & E1 & E2).
    cbn [api_step] in E1. repeat match type of E1 with (if ?b then _ else _) = _ => destruct b; [injection E1 as <- <-; discriminate E2|] end.
    apply bind_ok in E1 as ((q', s') & E1 & E3). injection E3 as <- <-. cbn in E2. injection E2 as <- _.
    eapply whole_books; [exact B|exact E1|discriminate|reflexivity].
  - apply bind_ok in E as ((p', r') & E1 & E). injection E as <-. unfold demanded in E1. apply bind_ok in E1 as ((q, s) & E1 & E2).
    destruct (_ =? 0)%Z in E2; [|discriminate]. injection E2 as <- _. eapply quiet_books; [exact B| |exact E1]. exact I.
  - apply bind_ok in E as ((p', r') & E1 & E). injection E as <-. unfold demanded in E1. apply bind_ok in E1 as ((q, s) & E1 & E2).
    destruct (_ =? 0)%Z in E2; [|discriminate]. injection E2 as <- _. eapply quiet_books; [exact B| |exact E1]. exact I.
  - apply bind_ok in E as ((p', r') & E1 & E). injection E as <-. unfold demanded in E1. apply bind_ok in E1 as ((q, s) & E1 & E2).
    destruct (_ =? 0)%Z in E2; [|discriminate]. injection E2 as <- _. eapply quiet_books; [exact B| |exact E1]. exact I.
  - apply bind_ok in E as ((p', r') & E1 & E). injection E as <-. eapply quiet_books; [exact B| |exact E1]. exact I.
  - destruct (negb _); [discriminate|]. apply bind_ok in E as ((p', r') & E1 & E). injection E as <-. eapply quiet_books; [exact B| |exact E1]. exact I.
Qed.
Lemma run_books n : forall ks w w', books n w -> Forall (keeps_books n) ks -> py_run w ks = Ok w' -> books n w'.
Proof.
  induction ks as [|k t IH]; intros w w' B F E; cbn [py_run] in E.
  - injection E as <-. exact B.
  - inversion F; subst. apply bind_ok in E as (w1 & E1 & E). apply (IH w1 w'); auto. eapply step_books; eauto.
Qed.
Lemma new_books m w : (0 < m)%Z -> py_new m = Ok w -> books (Z.to_nat m) w.
Proof.
  intros Hm E. unfold py_new in E. destruct (Z.leb_spec 0 m); [|lia]. cbn [api_step] in E.
  destruct (Z.leb_spec 1 m); [|lia]. cbn in E. injection E as <-. split; cbn; auto. intros [|]; discriminate.
Qed.

Lemma mapM_all {A B} (f : A -> res B) (g : A -> B) : forall l, (forall x, In x l -> f x = Ok (g x)) -> mapM f l = Ok (map g l).
Proof.
  induction l as [|a l IH]; intros H; [reflexivity|]. cbn [mapM map]. rewrite (H a (or_introl eq_refl)). cbn [bind].
  rewrite IH by (intros; apply H; right; auto). reflexivity.
Qed.
Lemma nth_error_map_seq {B} (g : nat -> B) n i y : nth_error (map g (seq 0 n)) i = Some y -> i < n /\ y = g i.
Proof.
  intros H. assert (i < n) as Hi. { assert (nth_error (map g (seq 0 n)) i <> None) as H1 by congruence. apply nth_error_Some in H1. rewrite map_length, seq_length in H1. exact H1. }
  split; auto. apply nth_error_nth with (d := g 0) in H. rewrite map_nth in H. rewrite seq_nth in H; auto.
Qed.

Lemma books_buffers n w : books n w -> exists l, GetDualVariables w = Ok l /\ length l = NumberOfConstraints (py_a w) /\
  forall i a b, nth_error l i = Some (a, b) -> exists ct, nth_error (p_eqs (py_a w)) i = Some ct /\ entries (ct_data ct) = Some a /\
    (i < length (p_kkt (py_a w)) -> b = a).
Proof.
  intros [B1 B2 B3 B4 B5]. set (bound := fun i => i <? length (p_kkt (py_a w))).
  set (g := fun i => match nth_error (py_c w) i, nth_error (p_eqs (py_a w)) i with
                     | Some (r, q), Some ct => (r * q, dual_variable_size (bound i) (ct_data ct)) | _, _ => (0, 0) end).
  assert (forall i, i < py_count w -> exists r q ct, nth_error (py_c w) i = Some (r, q) /\ nth_error (p_eqs (py_a w)) i = Some ct /\ g i = (r * q, dual_variable_size (bound i) (ct_data ct)) /\
    entries (ct_data ct) = Some (r * q) /\ dual_variable_size (bound i) (ct_data ct) = if bound i then r * q else 0) as HG.
  { intros i Hi. destruct (nth_error (py_c w) i) as [[r q]|] eqn:H1; [|apply nth_error_None in H1; lia].
    destruct (nth_error (p_eqs (py_a w)) i) as [ct|] eqn:H2; [|apply nth_error_None in H2; lia]. exists r, q, ct.
    split; auto. split; auto. split; [unfold g; rewrite H1, H2; auto|]. pose proof (B5 i ct r q H2 H1) as H. split; auto.
    destruct (ct_data ct); try discriminate H; cbn in H |- *; injection H as H; rewrite H; auto. }
  exists (map g (seq 0 (py_count w))). split.
  - apply mapM_all. intros i Hi. apply in_seq in Hi. destruct (HG i ltac:(lia)) as (r & q & ct & H1 & H2 & H3 & _ & H5). rewrite H1, H2, H3. fold (bound i). rewrite H5. cbv zeta.
    destruct (bound i); [rewrite Nat.ltb_irrefl; auto|]. destruct (Nat.ltb_spec (r * q) 0); [lia|auto].
  - split. { rewrite map_length, seq_length. exact B3. }
    intros i a b Hi. apply nth_error_map_seq in Hi as [Hi Hy]. destruct (HG i Hi) as (r & q & ct & H1 & H2 & H3 & H4 & H5).
    rewrite H3 in Hy. injection Hy as -> ->. exists ct. split; auto. split; auto. intros Hb. rewrite H5. unfold bound. destruct (Nat.ltb_spec i (length (p_kkt (py_a w)))); [auto|lia].
Qed.

Lemma cold_solve p c o p' s : p_quadratic p = false -> initialization_mode c = 0%Z -> Solve_program p c o = Ok (p', s) -> length (p_eqs p) <= length (p_kkt p').
Proof.
  intros Hq Hc E. unfold Solve_program, quadratic_precondition in E. rewrite Hq, Hc in E. cbn [negb orb Z.eqb] in E.
  destruct (Nat.eqb_spec (NumberOfConstraints p) 0) as [H0|H0]; [unfold NumberOfConstraints in H0; lia|].
  apply bind_ok in E as (p2 & E2 & E). injection E as <- _. cbn [set_status set_stats p_kkt]. unfold Initialize in E2. rewrite orb_true_r in E2.
  apply bind_ok in E2 as (z & _ & E2). injection E2 as <-. cbn. rewrite seq_length. auto.
Qed.
Lemma solved_bound n w k w' : books n w -> default_solve k -> py_step w k = Ok w' -> length (p_eqs (py_a w')) <= length (p_kkt (py_a w')).
Proof.
  intros B Hk E. pose proof (step_books n w k w' B) as B'. assert (length (p_eqs (py_a w')) = length (p_eqs (py_a w))) as HL.
  { destruct k; try destruct Hk; cbn [py_step] in E.
    - apply bind_ok in E as ((p', r') & E1 & E). injection E as <-. apply (quiet_size _ (ASolve (solve_options c0 config) o) _ _ I E1).
    - destruct (negb _); [discriminate|]. apply bind_ok in E as ((p', r') & E1 & E). injection E as <-. apply (quiet_size _ (AMaximize b (maximize_options c0 config) o) _ _ I E1). }
  rewrite HL. destruct k; try destruct Hk; destruct config; try destruct Hk; cbn [py_step] in E.
  - apply bind_ok in E as ((p', r') & E1 & E). injection E as <-. cbn [api_step] in E1. apply bind_ok in E1 as ((q, s) & E1 & E2). injection E2 as <- _.
    apply (cold_solve _ _ _ _ _ (bk_quadratic _ _ B)) in E1; auto.
  - destruct (negb _); [discriminate|]. apply bind_ok in E as ((p', r') & E1 & E). injection E as <-. cbn [api_step] in E1.
    unfold AddLinearCost in E1. destruct (negb _) in E1; apply bind_ok in E1 as ((q, s) & E1 & E2); injection E2 as <- _; apply cold_solve in E1; auto; apply (bk_quadratic _ _ B).
Qed.
