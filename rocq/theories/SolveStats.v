(** Statistics area, warm starts and relation to the program-level model
    (C27-C29, C51). *)
From Coq Require Import List Arith ZArith Reals Bool Lia Lra.
From Verif Require Import Base BaseFacts LayoutModel AssemblerModel KktModel ProgramModel ApiModel DivergenceModel
  SolveModel Spec_Solve SolveProofs SolveFacts ProgramProofs ProgramRun ProgramState.
Import ListNotations.
Open Scope R_scope.

Section Stats.
  Variable B : backend.
  Notation St := (bk_state B).

  Lemma initial_sized p n c p2 ss : sized p n -> p_stats p2 = Some ss ->
    Initialize (clear p) (initialization_mode c =? 0)%Z (Z.to_nat (max_iterations c)) = Ok p2 ->
    length (initial_area B p n c) = (2 * ss_max_iter ss + 2)%nat.
  Proof.
    intros Hs Es Ei. apply Initialize_fields in Ei as (_ & _ & _ & _ & _ & _ & _ & _ & H).
    unfold initial_area, Initialize_numeric. destruct (negb (p_init (clear p)) || (initialization_mode c =? 0)%Z).
    - destruct H as (H & _). rewrite H in Es. injection Es as <-. cbn [ss_max_iter].
      destruct (initialization_mode c =? 0)%Z; cbn [nm_area]; rewrite ?upd_length, repeat_length; auto.
    - subst p2. unfold sized in Hs. cbn in Es. rewrite Es in Hs. auto.
  Qed.

  Lemma limit_enough p c p2 ss : p_stats p2 = Some ss ->
    Initialize (clear p) (initialization_mode c =? 0)%Z (Z.to_nat (max_iterations c)) = Ok p2 ->
    (reinitialises p c \/ exists s0, p_stats p = Some s0 /\ (max_iterations c <= Z.of_nat (ss_max_iter s0))%Z) ->
    (Z.to_nat (max_iterations c) <= ss_max_iter ss)%nat.
  Proof.
    intros Es Ei H. apply Initialize_fields in Ei as (_ & _ & _ & _ & _ & _ & _ & _ & F).
    destruct (negb (p_init (clear p)) || (initialization_mode c =? 0)%Z) eqn:T.
    - destruct F as (F & _). rewrite F in Es. injection Es as <-. cbn. lia.
    - subst p2. apply orb_false_iff in T as [T1 T2]. apply negb_false_iff in T1. cbn in T1.
      destruct H as [[H|H]|(s0 & H & H1)]; [congruence|rewrite H in T2; discriminate|]. cbn in Es. rewrite H in Es. injection Es as <-. lia.
  Qed.

  Lemma rescaled_cells c M b AQc a m a0 m0 : rescaled c M b 0 AQc a m a0 m0 ->
    enable_rescaling c = 0%Z \/ initialization_mode c <> 0%Z -> a0 = a.
  Proof.
    unfold rescaled, rescale. cbn [Nat.ltb Nat.leb andb]. intros H Hm.
    destruct (Z.eqb_spec (enable_rescaling c) 0) as [E|E]; cbn [negb] in H; [injection H as <- _; auto|].
    destruct Hm as [Hm|Hm]; [contradiction|]. apply Z.eqb_neq in Hm. rewrite Hm in H.
    cbn [bind] in H. apply bind_ok in H as (bs & _ & H). apply bind_ok in H as (cs & _ & H). destruct (Req0 m); [discriminate|]. injection H as <- _. auto.
  Qed.

  (** Common part: where the run ends, with the invariant of the area. *)
  Lemma run_area p n c x : quadratic_precondition p c = true -> (0 < NumberOfConstraints p)%nat ->
    sized p n ->
    (reinitialises p c \/ exists s0, p_stats p = Some s0 /\ (max_iterations c <= Z.of_nat (ss_max_iter s0))%Z) ->
    Solve B p n c = Ok x ->
    exists p2 ss r s, x = Returned B r /\ p_stats p2 = Some ss /\
      Initialize (clear p) (initialization_mode c =? 0)%Z (Z.to_nat (max_iterations c)) = Ok p2 /\
      rt_log B r = l_log s /\ nm_area (rt_num B r) = area B s /\
      (Z.to_nat (max_iterations c) <= ss_max_iter ss)%nat /\
      (exists st k, rt_prog B r = set_status (set_num_iter p2 (l_num_iter s)) st \/ rt_prog B r = set_num_iter p2 k) /\
      length (area B s) = (2 * ss_max_iter ss + 2)%nat /\
      (forall e, In e (l_log s) -> (en_i e < ss_max_iter ss)%nat /\ nth_error (area B s) (en_i e) = Some (Some (en_ism e))) /\
      ((area B s = initial_area B p n c /\ l_log s = []) \/
       exists AQc a0 m0, fixed B c (ss_max_iter ss) (cost_vector p2) (initial_area B p n c) s AQc a0 m0).
  Proof.
    intros Hq Hn Hs Hlim H.
    apply Solve_run in H as (p2 & ss & v & Ei & Es & El & H); auto.
    pose proof (initial_sized _ _ _ _ _ Hs Es Ei) as Hlen. pose proof (limit_enough _ _ _ _ Es Ei Hlim) as Hfit.
    set (M := ss_max_iter ss) in *. set (a_init := initial_area B p n c) in *.
    assert (ainv B c M (cost_vector p2) a_init 0 (start B (clear p) p2 n c ss)) as H0.
    { constructor.
      - unfold area, start. cbn [l_num]. rewrite initial_area_eq. auto.
      - intros e [].
      - intros _. split; auto. unfold area, start. cbn [l_num]. apply initial_area_eq.
      - lia. }
    eapply (loop_inv B p2 c M (steps_of c) (cost_vector p2) (Rank B p2)
       (fun i s => linv B c (ss_num_iter ss) (length a_init) i s /\
                   ((i <= Z.to_nat (max_iterations c))%nat -> ainv B c M (cost_vector p2) a_init i s))) in El.
    2:{ intros i s s' [I1 I2] Ho. split; [eapply linv_next; eauto|]. intros Hi. eapply ainv_next; eauto; [lia|apply I2; lia]. }
    2:{ split; auto. unfold a_init. rewrite <- (initial_area_eq B p p2). apply start_linv. }
    destruct El as (j & s'' & Hj & (Is & HA) & Hv). specialize (HA ltac:(lia)). cbn [Nat.add] in Hv.
    assert (forall s, end_state B v s ->
       length (area B s) = (2 * M + 2)%nat /\
      (forall e, In e (l_log s) -> (en_i e < M)%nat /\ nth_error (area B s) (en_i e) = Some (Some (en_ism e))) /\
      ((area B s = a_init /\ l_log s = []) \/
       exists AQc a0 m0, fixed B c M (cost_vector p2) a_init s AQc a0 m0)) as Hend.
    { intros s He.
      assert (forall i s, (i <= M)%nat -> ainv B c M (cost_vector p2) a_init i s ->
        length (area B s) = (2 * M + 2)%nat /\
        (forall e, In e (l_log s) -> (en_i e < M)%nat /\ nth_error (area B s) (en_i e) = Some (Some (en_ism e))) /\
        ((area B s = a_init /\ l_log s = []) \/
         exists AQc a0 m0, fixed B c M (cost_vector p2) a_init s AQc a0 m0)) as Hgen.
      { intros i s1 Hi [A1 A2 A3 A4]. split; auto. split. { intros e Hin. destruct (A2 e Hin). split; auto. lia. }
        destruct i as [|i]; [left; destruct (A3 eq_refl) as (G1 & _ & G2); auto|right; apply A4; lia]. }
      destruct Hv as [[Hv1 Hv]|(Hv1 & Hv & _)].
      - subst v. destruct He as [[r' He]|He]; [|discriminate]. injection He as <- _. apply (Hgen j); [lia|exact HA].
      - inversion Hv; subst; destruct He as [[r' He]|He]; try discriminate; injection He as <-.
        + apply (Hgen (S j)); [lia|]. eapply ainv_completed; eauto; lia.
        + destruct (Hgen j s'') as (G1 & G2 & G3); [lia|auto|].
          match goal with H : same_record _ _ _ |- _ => destruct H as (S1 & S2 & S3 & S4 & S5 & S6 & S7 & S8 & S9) end.
          assert (area B s' = area B s'') as Ea by (unfold area; congruence). rewrite Ea, S8. split; [auto|]. split; [auto|].
          destruct G3 as [G3|(AQc & b0 & m0 & F1 & F2 & F3)]; [left; auto|right]. exists AQc, b0, m0. split; auto.
          split; [congruence|]. rewrite Ea. auto.
        + match goal with H : same_record _ _ _ |- _ => destruct H as (S1 & S2 & S3 & S4 & S5 & S6 & S7 & S8 & S9) end.
          match goal with H : rescaled _ _ _ _ _ _ _ _ _ |- _ => rename H into Er end.
          match goal with H : l_num _ = _ |- _ => rename H into En end.
          destruct HA as [A1 A2 A3 A4].
          assert (area B s' = a0) as Ea by (unfold area; rewrite En; auto). rewrite Ea, S8.
          split; [rewrite (rescaled_length _ _ _ _ _ _ _ _ _ Er); auto|].
          destruct j as [|j].
          * destruct (A3 eq_refl) as (G1 & G2 & G3). rewrite G3. split; [intros e []|]. right. rewrite G1, G2 in Er.
            eexists _, _, _. split; [exact Er|]. split; auto. rewrite Ea. auto.
          * apply rescaled_later in Er as [-> Em]; [|lia]. split.
            { intros e Hin. destruct (A2 e Hin). split; auto. lia. }
            right. destruct A4 as (AQc & b0 & m0 & F1 & F2 & F3); [lia|]. exists AQc, b0, m0. split; auto. split; [congruence|].
            rewrite Ea. auto. }
    destruct v as [s|s reached|s k|i]; try tauto.
    - destruct H as (r & Ef & ->). exists p2, ss, r, s.
      pose proof Ef as Ef'. apply finish_spec in Ef' as (k & Ek & Est & El & Ea & Ep & _).
      split; auto. split; auto. split; auto. split; auto. split; auto. split; auto.
      split. { exists (p_status (rt_prog B r)), (Some k). left. rewrite Ek. auto. }
      apply Hend. left. eauto.
    - assert (k = 0%Z) as ->.
      { destruct Hv as [[Hv1 Hv]|(Hv1 & Hv & _)]; [discriminate|]. inversion Hv; subst; auto.
        destruct (Initialize_fields _ _ _ _ Ei) as (F1 & F2 & F3 & F4 & F5 & F6 & F7 & F8 & _).
        exfalso. eapply update_mu_demand; [| |eauto].
        2:{ unfold quadratic_precondition in *. rewrite F1. cbn. auto. }
        eapply linv_ism; eauto. }
      eexists p2, ss, _, s. split; [exact H|]. cbn [rt_log rt_num rt_prog]. split; auto. split; auto. split; auto. split; auto. split; auto.
      split. { exists (p_status p2), (l_num_iter s). right. auto. }
      apply Hend. right. auto.
    - exfalso. destruct Hv as [[Hv1 Hv]|(Hv1 & Hv & _)]; [discriminate|]. eapply (outcome_no_overflow B p2 c M (cost_vector p2) (Rank B p2) a_init Hlen); [|exact HA|exact Hv]. lia.
  Qed.

  Lemma set_num_iter_stats p k ss : p_stats p = Some ss -> p_stats (set_num_iter p k) = Some (mkStats (ss_max_iter ss) k).
  Proof. intros H. unfold set_num_iter. rewrite H. auto. Qed.

  Lemma initial_cold p n c : initialization_mode c = 0%Z -> let M := Z.to_nat (max_iterations c) in
    nth_error (initial_area B p n c) (b_cell M) = Some (Some 1) /\ nth_error (initial_area B p n c) (c_cell M) = Some (Some 1).
  Proof.
    intros Hc M. unfold initial_area, Initialize_numeric. rewrite Hc. cbn [Z.eqb]. rewrite orb_true_r. cbn [nm_area].
    unfold b_cell, c_cell. fold M. split.
    - rewrite nth_error_upd_neq by lia. apply nth_error_upd_eq. rewrite repeat_length. lia.
    - apply nth_error_upd_eq. rewrite upd_length, repeat_length. lia.
  Qed.

  (** ** C27 *)
  Lemma cost_norm p2 : vnorm (cost_vector p2) = vnorm (map Ropp (p_cost p2)).
  Proof.
    unfold vnorm, cost_vector. f_equal.
    generalize (map Ropp (p_cost p2)) as l. generalize (SizeOfKKTSystem p2 - length (p_cost p2))%nat as k. intros k l.
    induction l as [|x l IH]; cbn; [|rewrite IH; auto]. induction k as [|k IH]; cbn; [auto|]. rewrite IH. ring.
  Qed.

  Lemma stats_in_bounds p n c x : quadratic_precondition p c = true -> (0 < NumberOfConstraints p)%nat ->
    sized p n ->
    (reinitialises p c \/ exists s0, p_stats p = Some s0 /\ (max_iterations c <= Z.of_nat (ss_max_iter s0))%Z) ->
    Solve B p n c = Ok x ->
    exists r ss, x = Returned B r /\ p_stats (rt_prog B r) = Some ss /\ sized (rt_prog B r) (rt_num B r) /\
      let M := ss_max_iter ss in
      (forall e, In e (rt_log B r) -> (en_i e < M)%nat /\ cell_is (rt_num B r) (en_i e) (en_ism e)) /\
      (~ reinitialises p c -> nth_error (nm_area (rt_num B r)) (2 * M + 1) = nth_error (nm_area n) (2 * M + 1) /\
                              nth_error (nm_area (rt_num B r)) (2 * M) = nth_error (nm_area n) (2 * M)) /\
      (initialization_mode c = 0%Z -> enable_rescaling c = 0%Z ->
         cell_is (rt_num B r) (2 * M + 1) 1 /\ cell_is (rt_num B r) (2 * M) 1) /\
      (initialization_mode c = 0%Z -> enable_rescaling c <> 0%Z -> 0 < inv_sqrt_mu_max c -> rt_log B r <> [] ->
         cell_is (rt_num B r) (2 * M + 1) (1 / (1 + vnorm (map Ropp (p_cost p)))) /\
         exists q, cell_is (rt_num B r) (2 * M) (1 / (1 + vnorm q))).
  Proof.
    intros Hq Hn Hs Hlim H.
    apply run_area in H as (p2 & ss & r & s & -> & Es & Ei & El & Ea & Hfit & Hprog & Hlen & Hlog & Hfix); auto.
    assert (exists k, p_stats (rt_prog B r) = Some (mkStats (ss_max_iter ss) k)) as [k Ek].
    { destruct Hprog as (st & k & [->| ->]); [cbn [set_status p_stats]|]; rewrite (set_num_iter_stats _ _ ss Es); eauto. }
    exists r, (mkStats (ss_max_iter ss) k). split; auto. split; auto. cbn [ss_max_iter].
    split. { unfold sized. rewrite Ek, Ea. auto. }
    destruct (Initialize_fields _ _ _ _ Ei) as (_ & Ecost & _ & _ & _ & _ & _ & _ & F).
    unfold cell_is. rewrite El, Ea. split; auto.
    change (2 * ss_max_iter ss + 1)%nat with (b_cell (ss_max_iter ss)). change (2 * ss_max_iter ss)%nat with (c_cell (ss_max_iter ss)).
    assert (initialization_mode c = 0%Z -> ss_max_iter ss = Z.to_nat (max_iterations c)) as HM.
    { intros Hc. rewrite Hc in F. cbn [Z.eqb] in F. rewrite orb_true_r in F. destruct F as (F & _). rewrite F in Es. injection Es as <-. auto. }
    split; [|split].
    - intros Hre. assert (initial_area B p n c = nm_area n) as Einit.
      { unfold reinitialises in Hre. unfold initial_area, Initialize_numeric.
        destruct (p_init p) eqn:Tp; [|exfalso; auto]. cbn [clear set_status p_init]. rewrite Tp. cbn [negb orb].
        destruct (Z.eqb_spec (initialization_mode c) 0); [exfalso; auto|]. auto. }
      rewrite <- Einit. destruct Hfix as [[-> _]|(AQc & a0 & m0 & Hr & _ & Hb & Hc)]; auto.
      rewrite Hb, Hc. rewrite (rescaled_cells _ _ _ _ _ _ _ _ Hr); auto. right. unfold reinitialises in Hre. tauto.
    - intros Hc Hr. destruct (initial_cold p n c Hc) as [I1 I2]. rewrite <- HM in I1, I2 by auto.
      destruct Hfix as [[-> _]|(AQc & a0 & m0 & Hre & _ & Hb & Hcc)]; auto.
      rewrite Hb, Hcc. rewrite (rescaled_cells _ _ _ _ _ _ _ _ Hre); auto.
    - intros Hc Hr Hm Hne. destruct Hfix as [[_ Hfix]|(AQc & a0 & m0 & Hre & _ & Hb & Hcc)]; [rewrite Hfix in Hne; contradiction|].
      rewrite Hb, Hcc. apply rescaled_cold in Hre as (_ & -> & HL); auto. rewrite cost_norm in *. rewrite Ecost in *. cbn [clear set_status p_cost] in *.
      split.
      + rewrite nth_error_upd_neq by (unfold b_cell, c_cell; lia). apply nth_error_upd_eq. auto.
      + exists AQc. apply nth_error_upd_eq. rewrite upd_length. unfold b_cell, c_cell in *. lia.
  Qed.

  (** The size is kept whatever the limit, as long as the solve comes back. *)
  Lemma sized_kept p n c r : sized p n -> Solve B p n c = Ok (Returned B r) -> sized (rt_prog B r) (rt_num B r).
  Proof.
    intros Hs H. destruct (quadratic_precondition p c) eqn:Hq.
    2:{ unfold Solve in H. rewrite Hq in H. cbn in H. injection H as <-. auto. }
    destruct (Nat.eq_dec (NumberOfConstraints p) 0) as [E|E].
    { unfold Solve in H. rewrite Hq in H. cbn [negb] in H. rewrite E in H. cbn in H. injection H as <-. exact Hs. }
    apply Solve_summary in H; auto; [|lia]. destruct H as [(p2 & ss & s & how & Hr & H)|(i & H & _)]; [|discriminate].
    destruct Hr as [Ei Es (j & Hj & Is) Hh].
    pose proof (initial_sized _ _ _ _ _ Hs Es Ei) as Hlen. rewrite <- (li_len _ _ _ _ _ _ Is) in Hlen.
    destruct how as [reached|].
    - destruct H as (r' & Ef & [= ->]). apply finish_spec in Ef as (k & Ek & Est & El & Ea & Ep & _).
      unfold sized. rewrite Ep. cbn [set_status p_stats]. rewrite (set_num_iter_stats _ _ ss Es). rewrite Ea. auto.
    - injection H as ->. unfold sized. cbn [rt_prog rt_num]. rewrite (set_num_iter_stats _ _ ss Es). auto.
  Qed.

  (** ** C28 *)
  Lemma query_spec M n iter : (n <= M)%nat ->
    GetIterationStats (Some (mkStats M (Some n))) iter =
      Ok (if ((0 <=? iter) && (iter <? Z.of_nat n))%Z then Some (Z.to_nat iter)
          else if ((- Z.of_nat n <=? iter) && (iter <? 0))%Z then Some (Z.to_nat (Z.of_nat n + iter))
          else None).
  Proof.
    intros H. unfold GetIterationStats. cbn [ss_num_iter ss_max_iter].
    destruct (Z.ltb_spec iter 0) as [Hi|Hi].
    - destruct (Z.leb_spec 0 iter); [lia|]. cbn [andb]. rewrite andb_true_r.
      destruct (Z.leb_spec (Z.of_nat n) (Z.of_nat n + iter)); [lia|]. cbn [orb].
      destruct (Z.ltb_spec (Z.of_nat n + iter) 0); destruct (Z.leb_spec (- Z.of_nat n) iter); try lia; auto.
      destruct (Nat.ltb_spec (Z.to_nat (Z.of_nat n + iter)) M); auto. lia.
    - destruct (Z.leb_spec 0 iter); [|lia]. cbn [andb]. rewrite andb_false_r.
      destruct (Z.leb_spec (Z.of_nat n) iter); destruct (Z.ltb_spec iter (Z.of_nat n)); try lia; cbn [orb]; auto.
      destruct (Z.ltb_spec iter 0); [lia|]. destruct (Nat.ltb_spec (Z.to_nat iter) M); auto. lia.
  Qed.

  Lemma final_num_iter p n c r e t : quadratic_precondition p c = true -> (0 < NumberOfConstraints p)%nat ->
    Solve B p n c = Ok (Returned B r) -> rt_log B r = e :: t ->
    exists M, p_stats (rt_prog B r) = Some (mkStats M (Some (S (en_i e)))).
  Proof.
    intros Hq Hn H E. apply Solve_summary in H; auto. destruct H as [(p2 & ss & s & how & Hr & H)|(i & H & _)]; [|discriminate].
    destruct Hr as [Ei Es (j & Hj & Is) Hh]. pose proof (li_head _ _ _ _ _ _ Is) as Hhd.
    destruct how as [reached|].
    - destruct H as (r' & Ef & [= ->]). apply finish_spec in Ef as (k & Ek & Est & El & Ea & Ep & _).
      rewrite El in E. rewrite E in Hhd. destruct Hhd as (_ & _ & _ & G & _).
      exists (ss_max_iter ss). rewrite Ep. cbn [set_status p_stats]. rewrite (set_num_iter_stats _ _ ss Es). congruence.
    - injection H as ->. cbn [rt_log rt_prog] in *. rewrite E in Hhd. destruct Hhd as (_ & _ & _ & G & _).
      exists (ss_max_iter ss). rewrite (set_num_iter_stats _ _ ss Es). congruence.
  Qed.

  Lemma query_after_solve p n c r e t iter : quadratic_precondition p c = true -> (0 < NumberOfConstraints p)%nat ->
    sized p n ->
    (reinitialises p c \/ exists s0, p_stats p = Some s0 /\ (max_iterations c <= Z.of_nat (ss_max_iter s0))%Z) ->
    Solve B p n c = Ok (Returned B r) -> rt_log B r = e :: t ->
    let num := Z.of_nat (S (en_i e)) in
    let q := GetIterationStats (p_stats (rt_prog B r)) iter in
    ((0 <= iter < num)%Z -> q = Ok (Some (Z.to_nat iter))) /\
    ((- num <= iter < 0)%Z -> q = Ok (Some (Z.to_nat (num + iter)))) /\
    ((iter < - num \/ num <= iter)%Z -> q = Ok None) /\
    (forall i, q = Ok (Some i) -> (i <= en_i e)%nat /\
       (initialization_mode c <> 1%Z \/ (0 < i)%nat ->
        exists e', In e' (rt_log B r) /\ en_i e' = i /\ cell_is (rt_num B r) i (en_ism e'))).
  Proof.
    intros Hq Hn Hs Hlim H E num q.
    destruct (final_num_iter _ _ _ _ _ _ Hq Hn H E) as (M & EM).
    pose proof (solve_status B _ _ _ _ Hq Hn H) as (_ & (j & k & Hj & _ & Hord & Hwarm) & _).
    apply stats_in_bounds in H as (r' & ss & [= <-] & Es & _ & Hin & _); auto. rewrite EM in Es. injection Es as <-. cbn [ss_max_iter] in Hin.
    assert (S (en_i e) <= M)%nat as Hle. { destruct (Hin e); [rewrite E; left; auto|]. lia. }
    unfold q. rewrite EM, (query_spec M (S (en_i e)) iter Hle). fold num.
    destruct (Z.leb_spec 0 iter); destruct (Z.ltb_spec iter num); destruct (Z.leb_spec (- num) iter); destruct (Z.ltb_spec iter 0); cbn [andb]; try lia;
      (split; [intros; try lia; auto|]); (split; [intros; try lia; auto|]); (split; [intros; try lia; auto|]); try discriminate.
    all: assert (forall i, (i <= en_i e)%nat -> (initialization_mode c <> 1%Z \/ (0 < i)%nat) ->
           exists e', In e' (rt_log B r) /\ en_i e' = i /\ cell_is (rt_num B r) i (en_ism e')) as Hget.
    1,3:
      intros i Hi Hw;
      assert (In i (map en_i (rt_log B r))) as Hi' by
        (assert (In (en_i e) (map en_i (rt_log B r))) as He by (rewrite E; left; auto);
         rewrite Hord in *; apply in_rev in He; apply in_seq in He; apply -> in_rev; apply in_seq; destruct Hwarm as [->|Hwarm]; [lia|]; destruct Hw; [contradiction|lia]);
      apply in_map_iff in Hi' as (e' & <- & He'); exists e'; split; auto; split; auto; apply Hin; auto.
    all: intros i Hi; assert (i <= en_i e)%nat as Hi2 by
      (match type of Hi with Ok (Some ?x) = _ => assert (x = i) as <- by congruence end; subst num; clear - H H0 H1 H2; lia).
    all: split; auto.
  Qed.

  (** ** C51 *)
  Lemma unwritten_area c M b AQc a m a0 m0 k : initialization_mode c <> 0%Z ->
    (forall k x, nth_error a k <> Some (Some x)) -> rescaled c M b k AQc a m a0 m0 -> a0 = a.
  Proof.
    intros Hc Ha H. destruct k as [|k].
    - eapply rescaled_cells; eauto.
    - apply rescaled_later in H as [-> _]; auto. lia.
  Qed.

  Lemma first_warm_start p n c r : quadratic_precondition p c = true -> (0 < NumberOfConstraints p)%nat ->
    p_init p = false -> initialization_mode c <> 0%Z -> Solve B p n c = Ok (Returned B r) ->
    rt_log B r = [] /\ st_solved (p_status (rt_prog B r)) = false /\ rt_value B r = 0%Z.
  Proof.
    intros Hq Hn Hi Hc H.
    assert (rt_log B r = []) as El.
    { pose proof H as H'. apply Solve_run in H' as (p2 & ss & v & Ei & Es & El & H'); auto.
      assert (forall i s s' e M b k, ~ ((forall k x, nth_error (area B s) k <> Some (Some x)) /\ completed B p2 c M b k i s s' e)) as Hno.
      { intros i s s' e M b k [Ha Hcomp]. inversion Hcomp; subst.
        match goal with H : rescaled _ _ _ _ _ _ _ _ _ |- _ => apply unwritten_area in H; auto; subst a0 end.
        match goal with H : get_cell _ (b_cell _) = Ok _ |- _ => rename H into Hg end.
        unfold get_cell, idx in Hg. destruct (nth_error (area B s) (b_cell M)) as [[y0|]|] eqn:En; try discriminate. apply (Ha _ _ En). }
      eapply (loop_inv B p2 c (ss_max_iter ss) (steps_of c) (cost_vector p2) (Rank B p2)
         (fun i s => l_log s = [] /\ forall k x, nth_error (area B s) k <> Some (Some x))) in El.
      2:{ intros i s s' [I1 I2] Ho. inversion Ho; subst; [exfalso; eapply Hno; eauto|].
          match goal with H : same_record _ _ _ |- _ => destruct H as (S1 & S2 & S3 & S4 & S5 & S6 & S7 & S8 & S9) end.
          split; [congruence|].
          match goal with H : rescaled _ _ _ _ _ _ _ _ _ |- _ => apply unwritten_area in H; auto; subst a0 end.
          match goal with H : l_num _ = _ |- _ => unfold area at 1; rewrite H end. auto. }
      2:{ split; auto. intros k x. unfold area, start. cbn [l_num]. unfold Initialize_numeric. cbn [clear set_status p_init]. rewrite Hi. cbn [negb orb].
          apply Z.eqb_neq in Hc. rewrite Hc. cbn [nm_area]. intros Hx. apply nth_error_In in Hx. apply repeat_spec in Hx. discriminate. }
      destruct El as (j & s'' & Hj & (Is & Im) & Hv).
      destruct v as [s|s reached|s k|i]; try tauto; try discriminate.
      - destruct H' as (r' & Ef & [= ->]). apply finish_spec in Ef as (kk & _ & _ & -> & _).
        destruct Hv as [[Hv1 Hv]|(Hv1 & Hv & _)]; [injection Hv as -> _; auto|].
        inversion Hv; subst; [exfalso; eapply Hno; eauto|].
        match goal with H : same_record _ _ _ |- _ => destruct H as (S1 & S2 & S3 & S4 & S5 & S6 & S7 & S8 & S9) end. congruence.
      - injection H' as ->. cbn [rt_log]. destruct Hv as [[Hv1 Hv]|(Hv1 & Hv & _)]; [discriminate|].
        inversion Hv; subst;
        match goal with H : same_record _ _ _ |- _ => destruct H as (S1 & S2 & S3 & S4 & S5 & S6 & S7 & S8 & S9) end; congruence. }
    split; auto.
    pose proof (solve_status B _ _ _ _ Hq Hn H) as (_ & _ & _ & Hsol & _).
    rewrite (return_truthful B p n c r Hq H).
    destruct (st_solved (p_status (rt_prog B r))); auto. destruct (Hsol eq_refl) as (e & t & E & _). congruence.
  Qed.

  (** ** No iteration at all *)
  Lemma no_iterations p n c x : quadratic_precondition p c = true -> (0 < NumberOfConstraints p)%nat ->
    reinitialises p c -> (max_iterations c <= 0)%Z -> Solve B p n c <> Ok x.
  Proof.
    intros Hq Hn Hr Hm H. apply Solve_run in H as (p2 & ss & v & Ei & Es & El & H); auto.
    replace (Z.to_nat (max_iterations c)) with 0%nat in El at 1 by lia. cbn [loop] in El. injection El as <-.
    destruct H as (r & Ef & _). apply finish_spec in Ef as (k & Ek & _). cbn [start l_num_iter] in Ek.
    apply Initialize_fields in Ei as (_ & _ & _ & _ & _ & _ & _ & _ & F).
    assert (negb (p_init (clear p)) || (initialization_mode c =? 0)%Z = true) as T.
    { cbn. destruct Hr as [->| ->]; auto. rewrite orb_true_r. auto. }
    rewrite T in F. destruct F as (F & _). rewrite F in Es. injection Es as <-. discriminate.
  Qed.

  (** ** The program-level model of a solve *)
  Lemma Solve_refines p n c r : Solve B p n c = Ok (Returned B r) ->
    exists o, Solve_program p c o = Ok (rt_prog B r, rt_value B r).
  Proof.
    intros H. destruct (quadratic_precondition p c) eqn:Hq.
    2:{ unfold Solve in H. rewrite Hq in H. cbn in H. injection H as <-. exists (mkOutcome 0 (mkStatus false 0 false false) None).
        unfold Solve_program. rewrite Hq. auto. }
    destruct (Nat.eq_dec (NumberOfConstraints p) 0) as [E|E].
    { unfold Solve in H. rewrite Hq in H. cbn [negb] in H. rewrite E in H. cbn in H. injection H as <-.
      exists (mkOutcome 0 (mkStatus false 0 false false) None). unfold Solve_program. rewrite Hq, E. auto. }
    pose proof H as H'. apply Solve_summary in H; auto; [|lia]. destruct H as [(p2 & ss & s & how & Hr & H)|(i & H & _)]; [|discriminate].
    destruct Hr as [Ei Es (j & Hj & Is) Hh]. pose proof (li_head _ _ _ _ _ _ Is) as Hhd.
    exists (mkOutcome (rt_value B r) (p_status (rt_prog B r)) (l_num_iter s)). unfold Solve_program. rewrite Hq. cbn [negb].
    destruct (Nat.eqb_spec (NumberOfConstraints p) 0); [contradiction|]. fold (clear p). rewrite Ei. cbn [bind so_num_iter so_status so_return]. rewrite Es.
    assert (match l_num_iter s with Some k => Some k | None => ss_num_iter ss end = l_num_iter s) as ->.
    { destruct (l_num_iter s) eqn:En; auto. destruct (l_log s); [|destruct Hhd as (_ & _ & _ & G & _); discriminate]. destruct Hhd as (_ & _ & G & _). congruence. }
    do 2 f_equal. destruct how as [reached|].
    - destruct H as (r' & Ef & [= ->]). apply finish_spec in Ef as (k & Ek & Est & El & Ea & Ep & _).
      rewrite Ep at 2. unfold set_num_iter. rewrite Es, Ek. auto.
    - injection H as ->. cbn [rt_prog]. unfold set_num_iter. rewrite Es. destruct p2; cbn in *. auto.
  Qed.
End Stats.
