(** The last completed iteration of a solve, for a backend whose operations keep
    an invariant of the state. *)
From Coq Require Import List Arith ZArith Reals Bool Lia Lra.
From Verif Require Import Base BaseFacts LayoutModel AssemblerModel KktModel ProgramModel ApiModel DivergenceModel
  SolveModel Spec_Solve SolveProofs SolveFacts.
Import ListNotations.
Open Scope R_scope.

(** Every number that was written to the statistics area is positive. *)
Definition positive_area (a : list (option R)) : Prop := forall k v, nth_error a k = Some (Some v) -> 0 < v.

Lemma positive_repeat k : positive_area (repeat None k).
Proof.
  intros i v H. assert (i < length (repeat (@None R) k))%nat as Hl by (apply nth_error_Some; congruence).
  rewrite repeat_length in Hl. rewrite nth_error_repeat in H by auto. discriminate.
Qed.

Lemma positive_upd a i x : positive_area a -> 0 < x -> positive_area (upd a i (Some x)).
Proof.
  intros H Hx k v E. destruct (Nat.eq_dec i k) as [->|Hn].
  - destruct (le_lt_dec (length a) k) as [Hl|Hl].
    + assert (nth_error (upd a k (Some x)) k = None) as E' by (apply nth_error_None; rewrite upd_length; auto). congruence.
    + rewrite nth_error_upd_eq in E by auto. congruence.
  - rewrite nth_error_upd_neq in E by auto. eapply H; eauto.
Qed.

Lemma get_cell_ok a k v : get_cell a k = Ok v -> nth_error a k = Some (Some v).
Proof.
  unfold get_cell, idx. destruct (nth_error a k) as [[x|]|]; cbn; try discriminate. intros [= ->]. auto.
Qed.

Section Last.
  Variable B : backend.
  Notation St := (bk_state B).
  Variable Inv : St -> Prop.
  Variable p : program.
  Variable c : config.

  Record keeps : Prop := {
    k_assemble : forall st st', Inv st -> bk_assemble B p st = Ok st' -> Inv st';
    k_factor : forall st st' ok, Inv st -> bk_factor B p st = Ok (st', ok) -> Inv st';
    k_identity : forall st i, Inv st -> Inv (bk_identity B p st i);
    k_prepare : forall st i o y st' r, op_affine o = false -> Inv st -> bk_prepare B p st i o y = Ok (st', r) -> Inv st';
    k_take : forall st i o st', op_affine o = false -> Inv st -> bk_take B p st i o = Ok st' -> Inv st';
    k_search : forall st i q y0 y1 st' r, Inv st -> bk_search B p st i q y0 y1 = Ok (st', r) -> Inv st';
    k_spectrum : forall st i y w st' r, Inv st -> bk_spectrum B p st i y w = Ok (st', r) -> Inv st'
  }.
  Hypothesis K : keeps.

  Lemma keep_identity st : Inv st -> Inv (SetIdentity B p st).
  Proof.
    unfold SetIdentity. revert st. induction (p_constraints p) as [|i l IH]; intros st H; cbn; auto.
    apply IH. apply k_identity; auto.
  Qed.

  Lemma keep_take o st st' : op_affine o = false -> Inv st -> TakeStep B p st o = Ok st' -> Inv st'.
  Proof.
    intros Ho H E. unfold TakeStep in E.
    apply (foldM_preserves _ Inv) in E; auto. intros a s s' _ Ha Ea. eapply k_take; eauto.
  Qed.

  Lemma keep_prepare o y st st' r : op_affine o = false -> Inv st -> PrepareStep B p st o y = Ok (st', r) -> Inv st'.
  Proof.
    intros Ho H E. unfold PrepareStep in E.
    apply (foldM_preserves _ (fun acc : St * (R * R) => Inv (fst acc))) in E; auto.
    intros i [s [n q]] [s' r'] _ Ha Ea. apply bind_ok in Ea as (cl & _ & Ea). apply bind_ok in Ea as (z & _ & Ea).
    apply bind_ok in Ea as ([s1 [n1 q1]] & E1 & Ea). injection Ea as <- _. cbn in *. eapply k_prepare; eauto.
  Qed.

  Lemma keep_search_loop params y0 y1 es : forall st lo up st' r, Inv st ->
    search_loop B p st params y0 y1 es lo up = Ok (st', r) -> Inv st'.
  Proof.
    induction es as [|i t IH]; intros st lo up st' r H E; cbn in E.
    - injection E as <- _. auto.
    - apply bind_ok in E as (cl & _ & E). apply bind_ok in E as (z1 & _ & E). apply bind_ok in E as (z2 & _ & E).
      apply bind_ok in E as ([s1 r1] & E1 & E). apply k_search in E1; auto.
      destruct r1 as [[l u]|]; [eapply IH; eauto|]. injection E as <- _. auto.
  Qed.

  Lemma keep_spectrum st y w st' s : Inv st -> GetWeightedSlackEigenvalues B p st y w = Ok (st', s) -> Inv st'.
  Proof.
    intros H E. unfold GetWeightedSlackEigenvalues in E.
    apply (foldM_preserves _ (fun acc : St * spectrum => Inv (fst acc))) in E; auto.
    intros i [s1 q] [s' r'] _ Ha Ea. apply bind_ok in Ea as (cl & _ & Ea). apply bind_ok in Ea as (z & _ & Ea).
    apply bind_ok in Ea as ([s2 [[[l1 l2] f] t]] & E1 & Ea). injection Ea as <- _. cbn in *. eapply k_spectrum; eauto.
  Qed.

  Lemma keep_update_mu st b bs cs k ism st' ism' : Inv st -> update_mu B p c st b bs cs k ism = Ok (Some (st', ism')) -> Inv st'.
  Proof.
    intros H E. unfold update_mu in E. apply bind_ok in E as ([s1 t1] & E1 & E).
    assert (Inv s1) as H1.
    { destruct (negb (enable_line_search c =? 0)%Z).
      - apply bind_ok in E1 as ([s2 t] & E2 & E1). injection E1 as <- _. unfold ComputeMuFromLineSearch in E2.
        apply bind_ok in E2 as (y0 & _ & E2). apply bind_ok in E2 as (r0 & _ & E2). apply bind_ok in E2 as (r1 & _ & E2).
        apply bind_ok in E2 as (y1 & _ & E2). apply bind_ok in E2 as ([s3 r] & E3 & E2).
        apply keep_search_loop in E3; auto. destruct r as [[? ?]|]; injection E2 as <- _; auto.
      - injection E1 as <- _. auto. }
    destruct (Rltb t1 0).
    - destruct (p_quadratic p); [discriminate|]. apply bind_ok in E as ([s2 t2] & E2 & E). injection E as <- _.
      unfold ComputeMuFromDivergence in E2. apply bind_ok in E2 as (r0 & _ & E2). apply bind_ok in E2 as (y & _ & E2).
      apply bind_ok in E2 as ([s3 q] & E3 & E2). injection E2 as <- _. eapply keep_spectrum; eauto.
    - injection E as <- _. auto.
  Qed.

  Variable max_iter : nat.
  Variable b : list R.
  Variable rankK : nat.

  Lemma rescaled_positive i AQc a m a0 m0 : positive_area a -> rescaled c max_iter b i AQc a m a0 m0 -> positive_area a0.
  Proof.
    intros H E. unfold rescaled in E. destruct ((i <? 1)%nat && _); [|injection E as <- _; auto].
    unfold rescale in E. apply bind_ok in E as (a1 & E1 & E). apply bind_ok in E as (bs & _ & E). apply bind_ok in E as (cs & _ & E).
    destruct (Req0 m); [discriminate|]. injection E as <- _.
    destruct (initialization_mode c =? 0)%Z; [|injection E1 as <-; auto].
    apply bind_ok in E1 as (a2 & E2 & E1). unfold set_idx in *.
    destruct (_ <? length a)%nat; [|discriminate]. injection E2 as <-.
    destruct (_ <? _)%nat; [|discriminate]. injection E1 as <-.
    pose proof (vnorm_nonneg b). pose proof (vnorm_nonneg AQc).
    apply positive_upd; [apply positive_upd; auto|]; apply Rdiv_lt_0_compat; lra.
  Qed.

  (** The states inside a completed iteration. *)
  Lemma completed_keeps i s s' e : Inv (nm_bk (l_num s)) -> positive_area (area B s) ->
    completed B p c max_iter b rankK i s s' e -> Inv (nm_bk (l_num s')) /\ positive_area (area B s').
  Proof.
    intros HI HA H. inversion H as [st0 a0 ismax st1 st2 ism0 ini stps mn bs cs r1 r2 y st3 n nsq st4
        Ea Er Ef Eb Ec Eu El ism sys E1 E2 Ey Ep ab Et Hl by_ cx sx kkt e0]; subst s' e; clear H.
    cbn [l_num nm_bk area nm_area].
    assert (Inv st1) as H1 by exact (k_factor K st0 st1 true (k_assemble K _ _ HI Ea) Ef).
    assert (Inv st2) as H2. { destruct Eu as [[Eu _]|(-> & _)]; auto. eapply keep_update_mu; eauto. }
    assert (Inv st3) as H3 by (eapply keep_prepare; [|exact H2|exact Ep]; auto).
    split.
    - destruct ab; [injection Et as <-; apply keep_identity; auto|]. eapply keep_take; [|exact H3|exact Et]; auto.
    - apply positive_upd; [eapply rescaled_positive; eauto|].
      pose proof (lower_limit_pos c mn El). pose proof (ApplyLimits_ge ism0 mn ismax). unfold ism. lra.
  Qed.

  Record last_inv (i : nat) (s : lstate St) : Prop := {
    la_inv : Inv (nm_bk (l_num s));
    la_area : positive_area (area B s);
    la_log : match l_log s with
             | [] => True
             | e :: _ => exists k s0 s1, (k < i)%nat /\ Inv (nm_bk (l_num s0)) /\ positive_area (area B s0) /\
                           completed B p c max_iter b rankK k s0 s1 e /\
                           same_record B s1 s /\ l_num s = l_num s1 /\ l_max s = l_max s1
             end
  }.

  Lemma same_record_refl (s : lstate St) : same_record B s s.
  Proof. unfold same_record. repeat split. Qed.
  Lemma same_record_trans (s1 s2 s3 : lstate St) : same_record B s1 s2 -> same_record B s2 s3 -> same_record B s1 s3.
  Proof. unfold same_record. intuition congruence. Qed.

  Lemma last_next num0 L i s s' : linv B c num0 L i s -> last_inv i s ->
    outcome B p c max_iter b rankK i s (VNext s') -> last_inv (S i) s'.
  Proof.
    intros HL [HI HA HG] H. inversion H; subst.
    - match goal with H : completed _ _ _ _ _ _ _ _ _ _ |- _ => rename H into Hc end.
      destruct (completed_keeps _ _ _ _ HI HA Hc) as [K1 K2]. constructor; auto.
      inversion Hc; subst. cbn [l_log].
      exists i, s. eexists. split; [lia|]. split; auto. split; auto. split; [exact Hc|]. split; [apply same_record_refl|auto].
    - match goal with H : same_record _ _ _ |- _ => destruct H as (S1 & S2 & S3 & S4 & S5 & S6 & S7 & S8 & S9) end.
      match goal with H : l_num s' = _ |- _ => rename H into En end.
      match goal with H : rescaled _ _ _ _ _ _ _ _ _ |- _ => rename H into Er end.
      assert (Inv st1) as H1.
      { match goal with A : bk_assemble _ _ _ = Ok _, F : bk_factor _ _ _ = Ok _ |- _ =>
          exact (k_factor K _ _ _ (k_assemble K _ _ HI A) F) end. }
      constructor.
      + rewrite En. cbn. apply keep_identity; auto.
      + unfold area. rewrite En. cbn. eapply rescaled_positive; eauto.
      + rewrite S8. destruct HL as [Ho _ _ _ _]. destruct Ho as [Ho|(_ & Ho & _)]; [|lia].
        destruct (l_log s); [auto|discriminate].
  Qed.

  Lemma last_end num0 L i s v s' reached : linv B c num0 L i s -> last_inv i s ->
    outcome B p c max_iter b rankK i s v -> v = VBreak s' reached -> last_inv (S i) s'.
  Proof.
    intros HL [HI HA HG] H ->. inversion H; subst.
    - match goal with H : completed _ _ _ _ _ _ _ _ _ _ |- _ => rename H into Hc end.
      destruct (completed_keeps _ _ _ _ HI HA Hc) as [K1 K2]. constructor; auto.
      inversion Hc; subst. cbn [l_log].
      exists i, s. eexists. split; [lia|]. split; auto. split; auto. split; [exact Hc|]. split; [apply same_record_refl|auto].
    - match goal with H : l_num s' = _ |- _ => rename H into En end.
      match goal with H : same_record _ _ _ |- _ => rename H into Hs end.
      constructor.
      + rewrite En. auto.
      + unfold area. rewrite En. auto.
      + assert (l_log s' = l_log s) as -> by (destruct Hs as (_ & _ & _ & _ & _ & _ & _ & H8 & _); auto).
        destruct (l_log s) as [|e t]; auto. destruct HG as (k & s0 & s1 & Hk & G1 & G2 & G3 & G4 & G5 & G6).
        exists k, s0, s1. split; [lia|]. split; auto. split; auto. split; auto.
        split; [eapply same_record_trans; eauto|]. split; congruence.
  Qed.
End Last.

(** A solve that hands back a vector: its last completed iteration, and the state
    the final computations start from. *)
Section LastOfSolve.
  Variable B : backend.
  Notation St := (bk_state B).
  Variable Inv : St -> Prop.

  Record last_of (p2 : program) (c : config) (ss : stats) (r : returned B) (k : nat) (s0 s1 s2 : lstate St) (e : entry)
    (t : list entry) (reached : bool) : Prop := {
    lo_k : (k < Z.to_nat (max_iterations c))%nat;
    lo_inv0 : Inv (nm_bk (l_num s0));
    lo_area0 : positive_area (area B s0);
    lo_done : completed B p2 c (ss_max_iter ss) (cost_vector p2) (Rank B p2) k s0 s1 e;
    lo_same : same_record B s1 s2;
    lo_num : l_num s2 = l_num s1;
    lo_inv2 : Inv (nm_bk (l_num s2));
    lo_area2 : positive_area (area B s2);
    lo_log : rt_log B r = e :: t;
    lo_finish : finish B p2 c (ss_max_iter ss) (length (p_cost p2)) (cost_vector p2) s2 reached = Ok r
  }.

  Lemma Solve_last p n c r y : quadratic_precondition p c = true -> (0 < NumberOfConstraints p)%nat ->
    (forall p2, Initialize (clear p) (initialization_mode c =? 0)%Z (Z.to_nat (max_iterations c)) = Ok p2 ->
       keeps B Inv p2 /\
       Inv (nm_bk (Initialize_numeric B (clear p) p2 (initialization_mode c =? 0)%Z (Z.to_nat (max_iterations c)) n))) ->
    positive_area (initial_area B p n c) ->
    Solve B p n c = Ok (Returned B r) -> rt_y B r = YVec y ->
    exists p2 ss k s0 s1 s2 e t reached,
      Initialize (clear p) (initialization_mode c =? 0)%Z (Z.to_nat (max_iterations c)) = Ok p2 /\
      p_stats p2 = Some ss /\ last_of p2 c ss r k s0 s1 s2 e t reached.
  Proof.
    intros Hq Hn HK HA H Hy. apply Solve_run in H as (p2 & ss & v & Ei & Es & El & H); auto.
    destruct (HK p2 Ei) as [K HI0].
    set (I := fun i s => linv B c (ss_num_iter ss) (length (nm_area (Initialize_numeric B (clear p) p2 (initialization_mode c =? 0)%Z (Z.to_nat (max_iterations c)) n))) i s /\
                         last_inv B Inv p2 c (ss_max_iter ss) (cost_vector p2) (Rank B p2) i s).
    apply (loop_inv B p2 c (ss_max_iter ss) (steps_of c) (cost_vector p2) (Rank B p2) I) in El.
    2:{ intros i s s' [G1 G2] G3. split; [eapply linv_next; eauto|]. eapply last_next; eauto. }
    2:{ split; [apply start_linv|]. constructor; cbn [start l_num area l_log nm_area]; auto.
        unfold area. cbn [start l_num]. rewrite (initial_area_eq B p p2 n c). auto. }
    destruct El as (j & s'' & Hj & [I1 I2] & Hv).
    destruct v as [s|s reached|s q|q]; try tauto; try discriminate.
    2:{ injection H as ->. cbn in Hy. discriminate. }
    destruct H as (r' & Er & [= ->]).
    assert (exists i', (i' <= Z.to_nat (max_iterations c))%nat /\
              linv B c (ss_num_iter ss) (length (nm_area (Initialize_numeric B (clear p) p2 (initialization_mode c =? 0)%Z (Z.to_nat (max_iterations c)) n))) i' s /\
              exists i'', (i'' <= Z.to_nat (max_iterations c))%nat /\ last_inv B Inv p2 c (ss_max_iter ss) (cost_vector p2) (Rank B p2) i'' s)
      as (i' & Hi' & L1 & i'' & Hi'' & L2).
    { destruct Hv as [[-> [= -> ->]]|(Hj' & Ho & _)].
      - eexists. split; [|split; [exact I1|]]; [lia|]. eexists. split; [|exact I2]. lia.
      - destruct (linv_end B p2 c _ _ _ _ _ _ _ _ s I1 Ho) as (j' & Hj1 & L); [left; eauto|].
        exists j'. split; [lia|]. split; auto. exists (S j). split; [lia|]. eapply last_end; eauto. }
    destruct L2 as [A1 A2 A3].
    destruct (l_log s) as [|e t] eqn:Eg.
    { exfalso. pose proof (li_head _ _ _ _ _ _ L1) as Hh. rewrite Eg in Hh. destruct Hh as (_ & Hh & _).
      unfold finish in Er. destruct (l_num_iter s); [|discriminate]. apply bind_ok in Er as (st & _ & Er).
      apply bind_ok in Er as (cs & _ & Er). injection Er as <-. cbn in Hy. rewrite Hh in Hy. discriminate. }
    destruct A3 as (k & s0 & s1 & Hk & G1 & G2 & G3 & G4 & G5 & G6).
    exists p2, ss, k, s0, s1, s, e, t, reached. split; auto. split; auto. constructor; auto; try lia.
    unfold finish in Er. destruct (l_num_iter s); [|discriminate]. apply bind_ok in Er as (st & _ & Er).
    apply bind_ok in Er as (cs & _ & Er). injection Er as <-. cbn. auto.
  Qed.
End LastOfSolve.

Lemma initial_positive B p n c : (reinitialises p c \/ positive_area (nm_area n)) -> positive_area (initial_area B p n c).
Proof.
  intros H. unfold initial_area, Initialize_numeric. cbn [clear set_status p_init].
  destruct (negb (p_init p) || (initialization_mode c =? 0)%Z) eqn:E.
  - destruct (initialization_mode c =? 0)%Z; cbn [nm_area]; [|apply positive_repeat].
    apply positive_upd; [apply positive_upd; [apply positive_repeat|lra]|lra].
  - apply orb_false_iff in E as [E1 E2]. destruct H as [[H|H]|H]; auto.
    + rewrite H in E1. discriminate.
    + rewrite H in E2. discriminate.
Qed.

(** A solve without preparation of dual variables keeps the invariant. *)
Section KeptBySolve.
  Variable B : backend.
  Notation St := (bk_state B).
  Variable Inv : St -> Prop.

  Lemma outcome_keeps p c M b rankK (K : keeps B Inv p) i (s : lstate St) v s' : Inv (nm_bk (l_num s)) -> positive_area (area B s) ->
    outcome B p c M b rankK i s v -> (v = VNext s' \/ (exists r, v = VBreak s' r) \/ v = VReturn s' 0%Z) ->
    Inv (nm_bk (l_num s')) /\ positive_area (area B s').
  Proof.
    intros HI HA H Hv. inversion H; subst; destruct Hv as [Hv|[[r' Hv]|Hv]]; try discriminate; injection Hv as <-.
    - eapply completed_keeps; eauto.
    - eapply completed_keeps; eauto.
    - match goal with H : l_num _ = l_num s |- _ => unfold area; rewrite H end. auto.
    - match goal with H : l_num _ = _ |- _ => unfold area; rewrite H end. cbn [nm_bk nm_area].
      split; [|eapply rescaled_positive; eauto]. apply keep_identity; auto.
      match goal with A : bk_assemble _ _ _ = Ok _, F : bk_factor _ _ _ = Ok _ |- _ =>
          exact (k_factor B Inv p K _ _ _ (k_assemble B Inv p K _ _ HI A) F) end.
    - match goal with H : l_num _ = _ |- _ => unfold area; rewrite H end. cbn [nm_bk nm_area].
      split; [|eapply rescaled_positive; eauto].
      match goal with A : bk_assemble _ _ _ = Ok _, F : bk_factor _ _ _ = Ok _ |- _ =>
          exact (k_factor B Inv p K _ _ _ (k_assemble B Inv p K _ _ HI A) F) end.
  Qed.

  Lemma Solve_keeps p n c r : quadratic_precondition p c = true -> (0 < NumberOfConstraints p)%nat ->
    (forall p2, Initialize (clear p) (initialization_mode c =? 0)%Z (Z.to_nat (max_iterations c)) = Ok p2 ->
       keeps B Inv p2 /\
       Inv (nm_bk (Initialize_numeric B (clear p) p2 (initialization_mode c =? 0)%Z (Z.to_nat (max_iterations c)) n))) ->
    positive_area (initial_area B p n c) -> prepare_dual_variables c = 0%Z ->
    Solve B p n c = Ok (Returned B r) -> Inv (nm_bk (rt_num B r)) /\ positive_area (nm_area (rt_num B r)).
  Proof.
    intros Hq Hn HK HA Hd H. apply Solve_run in H as (p2 & ss & v & Ei & Es & El & H); auto.
    destruct (HK p2 Ei) as [K HI0].
    set (I := fun i s => linv B c (ss_num_iter ss) (length (nm_area (Initialize_numeric B (clear p) p2 (initialization_mode c =? 0)%Z (Z.to_nat (max_iterations c)) n))) i s /\
                         Inv (nm_bk (l_num s)) /\ positive_area (area B s)).
    apply (loop_inv B p2 c (ss_max_iter ss) (steps_of c) (cost_vector p2) (Rank B p2) I) in El.
    2:{ intros i s s' (G1 & G2 & G3) Ho. split; [eapply linv_next; eauto|]. eapply outcome_keeps; eauto. }
    2:{ split; [apply start_linv|]. split; [exact HI0|]. unfold area. cbn [start l_num]. rewrite (initial_area_eq B p p2 n c). auto. }
    destruct El as (j & s'' & Hj & (I0 & I1 & I2) & Hv).
    destruct v as [s|s reached|s q|q]; try tauto; try discriminate.
    - destruct H as (r' & Er & [= ->]).
      assert (Inv (nm_bk (l_num s)) /\ positive_area (area B s)) as [J1 J2].
      { destruct Hv as [[-> [= -> ->]]|(Hj' & Ho & _)]; auto. eapply outcome_keeps; eauto. }
      unfold finish in Er. destruct (l_num_iter s); [|discriminate]. rewrite Hd in Er. cbn [Z.eqb negb bind] in Er.
      apply bind_ok in Er as (cs & _ & Er). injection Er as <-. cbn. auto.
    - injection H as ->. cbn [rt_num]. destruct Hv as [[_ Hv]|(_ & Ho & _)]; [discriminate|].
      assert (q = 0%Z) as ->.
      { destruct (Initialize_fields _ _ _ _ Ei) as (F1 & _). inversion Ho; subst; auto.
        exfalso. eapply update_mu_demand; [| |eauto]; [eapply linv_ism; eauto|].
        unfold quadratic_precondition in *. rewrite F1. cbn. auto. }
      eapply outcome_keeps; eauto.
  Qed.
End KeptBySolve.
