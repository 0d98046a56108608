(** Facts about [Solve] derived from the loop analysis. *)
From Coq Require Import List Arith ZArith Reals Bool Lia Lra.
From Verif Require Import Base BaseFacts LayoutModel AssemblerModel KktModel ProgramModel ApiModel DivergenceModel
  SolveModel Spec_Solve SolveProofs ProgramProofs ProgramRun ProgramState.
Import ListNotations.
Open Scope R_scope.

Lemma Initialize_fields p cold it p' : Initialize p cold it = Ok p' ->
  p_quadratic p' = p_quadratic p /\ p_cost p' = p_cost p /\ p_status p' = p_status p /\ p_eqs p' = p_eqs p /\
  p_cliques p' = p_cliques p /\ p_duals p' = p_duals p /\ p_constraints p' = p_constraints p /\ p_n p' = p_n p /\
  (if negb (p_init p) || cold then p_stats p' = Some (mkStats it None) /\ p_init p' = true /\ p_sys p' = SizeOfKKTSystem p /\
       p_solver p' = Some (p_cliques p, p_duals p) /\ p_kkt p' = seq 0 (length (p_eqs p))
   else p' = p).
Proof.
  unfold Initialize. destruct (negb (p_init p) || cold).
  - intros H. apply bind_ok in H as (x & _ & H). injection H as <-. cbn. repeat split.
  - intros [= <-]. repeat split.
Qed.

Lemma nth_error_upd_neq {A} (l : list A) i j a : i <> j -> nth_error (upd l i a) j = nth_error l j.
Proof. revert i j. induction l as [|x l IH]; intros [|i] [|j] H; cbn; auto; try lia. Qed.
Lemma nth_error_upd_eq {A} (l : list A) i a : (i < length l)%nat -> nth_error (upd l i a) i = Some a.
Proof. revert i. induction l as [|x l IH]; intros [|i] H; cbn in *; auto; try lia. apply IH. lia. Qed.

Section Facts.
  Variable B : backend.
  Notation St := (bk_state B).

  Definition cost_vector (p : program) : list R :=
    map Ropp (p_cost p) ++ repeat 0 (SizeOfKKTSystem p - length (p_cost p)).

  Definition start (p1 p2 : program) (n : numeric St) (c : config) (ss : stats) : lstate St :=
    mkL (Initialize_numeric B p1 p2 (initialization_mode c =? 0)%Z (Z.to_nat (max_iterations c)) n)
        (ss_num_iter ss) None 0 (inv_sqrt_mu_max c) 1 1 (-1) (XFin 0) true 0%Z false [].

  Definition steps_of (c : config) : Z :=
    if (initialization_mode c =? 0)%Z then initial_centering_steps_coldstart c else initial_centering_steps_warmstart c.

  Definition clear (p : program) : program :=
    set_status p (mkStatus false (st_num_iterations (p_status p)) false false).

  (** The run of a solve that reaches the loop. *)
  Lemma Solve_run p n c x : quadratic_precondition p c = true -> (0 < NumberOfConstraints p)%nat ->
    Solve B p n c = Ok x ->
    exists p2 ss v, Initialize (clear p) (initialization_mode c =? 0)%Z (Z.to_nat (max_iterations c)) = Ok p2 /\
      p_stats p2 = Some ss /\
      loop B p2 c (ss_max_iter ss) (steps_of c) (cost_vector p2) (Rank B p2) (Z.to_nat (max_iterations c)) 0
           (start (clear p) p2 n c ss) = Ok v /\
      match v with
      | VNext _ => False
      | VBreak s reached => exists r, finish B p2 c (ss_max_iter ss) (length (p_cost p2)) (cost_vector p2) s reached = Ok r /\
                              x = Returned B r
      | VReturn s k => x = Returned B (mkRet B (set_num_iter p2 (l_num_iter s)) (l_num s) k YUntouched (l_log s))
      | VOverflow i => x = Overflow B i
      end.
  Proof.
    intros Hq Hn H. unfold Solve in H. rewrite Hq in H. cbn [negb] in H.
    destruct (Nat.eqb_spec (NumberOfConstraints p) 0); [lia|].
    apply bind_ok in H as (p2 & Ei & H). fold (clear p) in Ei, H.
    destruct (p_stats p2) as [ss|] eqn:Es; [|discriminate].
    apply bind_ok in H as (v & Ev & H). exists p2, ss, v. split; auto. split; auto.
    rewrite map_length in Ev, H. fold (cost_vector p2) in Ev, H. fold (steps_of c) in Ev.
    split; [exact Ev|].
    destruct v as [s|s r|s k|i]; try discriminate.
    - apply bind_ok in H as (r' & Er & H). injection H as <-. exists r'. auto.
    - injection H as <-. auto.
    - injection H as <-. auto.
  Qed.

  Lemma start_linv p1 p2 n c ss : linv B c (ss_num_iter ss) (length (nm_area (Initialize_numeric B p1 p2 (initialization_mode c =? 0)%Z (Z.to_nat (max_iterations c)) n))) 0 (start p1 p2 n c ss).
  Proof.
    constructor; cbn; auto; try lia. all: try (intros e []). repeat split; lia.
  Qed.

  (** ** C30 *)
  Lemma update_mu_demand p c st b bs cs k ism : 0 <= ism -> quadratic_precondition p c = true ->
    update_mu B p c st b bs cs k ism <> Ok None.
  Proof.
    intros Hi Hq H. unfold update_mu in H. apply bind_ok in H as ([st1 t1] & E1 & H).
    destruct (Rltb_spec t1 0) as [Ht|Ht]; [|discriminate].
    destruct (p_quadratic p) eqn:Ep; [|apply bind_ok in H as ([? ?] & _ & H); discriminate].
    unfold quadratic_precondition in Hq. rewrite Ep in Hq. cbn in Hq. apply andb_prop in Hq as [Hq _].
    rewrite Hq in E1. apply bind_ok in E1 as ([st2 t] & E2 & E1). injection E1 as <- <-.
    destruct (Rltb_spec t 0); lra.
  Qed.

  Lemma linv_ism c num0 L i s : linv B c num0 L i s -> 0 <= l_ism s.
  Proof. intros H. pose proof (li_head _ _ _ _ _ _ H) as Hh. destruct (l_log s); [destruct Hh; lra|destruct Hh; lra]. Qed.

  Lemma return_truthful p n c r : quadratic_precondition p c = true -> Solve B p n c = Ok (Returned B r) ->
    rt_value B r = (if st_solved (p_status (rt_prog B r)) then 1 else 0)%Z.
  Proof.
    intros Hq H. destruct (Nat.eq_dec (NumberOfConstraints p) 0) as [E|E].
    { unfold Solve in H. rewrite Hq in H. cbn [negb] in H. rewrite E in H. cbn in H. injection H as <-. auto. }
    apply Solve_run in H as (p2 & ss & v & Ei & Es & El & H); auto; [|lia].
    destruct (Initialize_fields _ _ _ _ Ei) as (F1 & F2 & F3 & F4 & F5 & F6 & F7 & F8 & _).
    eapply loop_inv in El; [|intros; eapply linv_next; eauto|apply start_linv].
    destruct El as (j & s'' & Hj & Is & Hv).
    destruct v as [s|s reached|s k|i]; try tauto; try discriminate.
    - destruct H as (r' & Er & [= ->]). unfold finish in Er.
      destruct (l_num_iter s); [|discriminate]. apply bind_ok in Er as (st & _ & Er). apply bind_ok in Er as (cs & _ & Er).
      injection Er as <-. cbn. destruct (_ && _); auto.
    - injection H as ->. cbn [rt_value rt_prog].
      assert (st_solved (p_status (set_num_iter p2 (l_num_iter s))) = false) as ->.
      { unfold set_num_iter. rewrite Es. cbn. rewrite F3. reflexivity. }
      destruct Hv as [[_ Hv]|(_ & Hv & _)]; [discriminate|]. inversion Hv; subst; auto.
      exfalso. eapply update_mu_demand; [| |eauto]; [eapply linv_ism; eauto|].
      unfold quadratic_precondition in *. rewrite F1. cbn. auto.
  Qed.

  (** ** The statistics area *)
  Section Area.
    Variable p : program.
    Variable c : config.
    Variable M : nat.
    Variable steps : Z.
    Variable b : list R.
    Variable rankK : nat.
    Variable a_init : list (option R).
    Hypothesis Hlen : length a_init = (2 * M + 2)%nat.

    (** The scalings and the limit in force from the first iteration on. *)
    Definition fixed (s : lstate St) (AQc : list R) (a0 : list (option R)) (m0 : R) : Prop :=
      rescaled c M b 0 AQc a_init (inv_sqrt_mu_max c) a0 m0 /\ l_max s = m0 /\
      nth_error (area B s) (b_cell M) = nth_error a0 (b_cell M) /\
      nth_error (area B s) (c_cell M) = nth_error a0 (c_cell M).

    Record ainv (i : nat) (s : lstate St) : Prop := {
      ai_len : length (area B s) = (2 * M + 2)%nat;
      ai_log : forall e, In e (l_log s) -> (en_i e < i)%nat /\ nth_error (area B s) (en_i e) = Some (Some (en_ism e));
      ai_start : i = 0%nat -> area B s = a_init /\ l_max s = inv_sqrt_mu_max c /\ l_log s = [];
      ai_fixed : (0 < i)%nat -> exists AQc a0 m0, fixed s AQc a0 m0
    }.

    Lemma ainv_completed i s s' e : (i < M)%nat -> ainv i s -> completed B p c M b rankK i s s' e -> ainv (S i) s'.
    Proof.
      intros Hi [Al Ag As Af] H. inversion H as [st0 a0 ismax st1 st2 ism0 ini stps mn bs cs r1 r2 y st3 n nsq st4
        Ea Er Ef Eb Ec Eu El ism sys E1 E2 Ey Ep ab Et Hl by_ cx sx kkt e0]; subst s' e; clear H.
      assert (length a0 = (2 * M + 2)%nat) as Hl0 by (rewrite (rescaled_length _ _ _ _ _ _ _ _ _ Er); auto).
      constructor; cbn [l_log area l_num nm_area l_max].
      - rewrite upd_length. auto.
      - intros e [<-|He]; cbn.
        + split; [lia|]. apply nth_error_upd_eq. auto.
        + destruct (Ag e He) as [G1 G2]. split; [lia|]. rewrite nth_error_upd_neq by lia.
          apply rescaled_later in Er as [-> _]; [auto|lia].
      - lia.
      - intros _. destruct i as [|i].
        + destruct (As eq_refl) as (As1 & As2 & As3). rewrite As1, As2 in Er.
          exists (r_AQc (bk_sys B st0)), a0, ismax. split; auto. split; auto. unfold b_cell, c_cell.
          cbn [area l_num nm_area]. rewrite !nth_error_upd_neq by lia. auto.
        + destruct (Af ltac:(lia)) as (AQc & a1 & m1 & F1 & F2 & F3 & F4).
          apply rescaled_later in Er as [-> ->]; [|lia]. exists AQc, a1, m1. split; auto. split; auto.
          unfold b_cell, c_cell in *. cbn [area l_num nm_area]. rewrite !nth_error_upd_neq by lia. auto.
    Qed.

    Lemma ainv_next i s s' : (i < M)%nat -> ainv i s -> outcome B p c M b rankK i s (VNext s') -> ainv (S i) s'.
    Proof.
      intros Hi HA H. inversion H; subst.
      - eapply ainv_completed; eauto.
      - destruct HA as [Al Ag As Af]. destruct (As eq_refl) as (As1 & As2 & As3).
        match goal with H : same_record _ _ _ |- _ => destruct H as (S1 & S2 & S3 & S4 & S5 & S6 & S7 & S8 & S9) end.
        match goal with H : rescaled _ _ _ _ _ _ _ _ _ |- _ => rename H into Er end.
        rewrite As1, As2 in Er.
        match goal with H : l_num s' = _ |- _ => rename H into En end.
        constructor.
        + unfold area. rewrite En. cbn. rewrite (rescaled_length _ _ _ _ _ _ _ _ _ Er). auto.
        + rewrite S8, As3. intros e [].
        + lia.
        + intros _. eexists _, _, _. split; [exact Er|]. split; auto. unfold area. rewrite En. auto.
    Qed.

    (** The loop with a bound on the iteration number, so that the invariant is
        only needed below it. *)
    Lemma loop_ainv todo s v : (todo <= M)%nat -> ainv 0 s ->
      loop B p c M steps b rankK todo 0 s = Ok v ->
      exists j s'', (j <= todo)%nat /\ ainv j s'' /\
        ((j = todo /\ v = VBreak s'' true) \/
         ((j < todo)%nat /\ outcome B p c M b rankK j s'' v /\ forall s', v <> VNext s')).
    Proof.
      intros Ht Ha H.
      assert (forall i s s', ((i <= todo)%nat -> ainv i s) -> outcome B p c M b rankK i s (VNext s') -> ((S i <= todo)%nat -> ainv (S i) s')) as Hstep.
      { intros i s1 s2 H1 H2 H3. eapply ainv_next; eauto; [lia|]. apply H1. lia. }
      eapply (loop_inv B p c M steps b rankK (fun i s => (i <= todo)%nat -> ainv i s) Hstep) in H; [|auto].
      destruct H as (j & s'' & Hj & Hi & Hv). exists j, s''. split; [lia|]. split; [apply Hi; lia|].
      destruct Hv as [[-> ->]|[H1 H2]]; [left; split; auto; lia|right; split; auto; lia].
    Qed.

    Lemma outcome_no_overflow j s'' i : (j < M)%nat -> ainv j s'' -> outcome B p c M b rankK j s'' (VOverflow i) -> False.
    Proof.
      intros Hj HA H. inversion H; subst.
      match goal with H : rescaled _ _ _ _ _ _ _ _ _ |- _ => apply rescaled_length in H end.
      rewrite (ai_len _ _ HA) in *. lia.
    Qed.
  End Area.

  Definition end_state (v : verdict St) (s : lstate St) : Prop :=
    (exists r, v = VBreak s r) \/ v = VReturn s 0%Z.

  Lemma linv_end p c M b rankK num0 L j s v s' : linv B c num0 L j s -> outcome B p c M b rankK j s v -> end_state v s' ->
    exists j', (j <= j' <= S j)%nat /\ linv B c num0 L j' s'.
  Proof.
    intros HI H He. inversion H; subst; destruct He as [[r' He]|He]; try discriminate; injection He as <-.
    - exists (S j). split; [lia|]. eapply linv_completed; eauto.
    - exists j. split; [lia|]. destruct HI as [Ho Hk Hl Hs Hh].
      match goal with H : same_record _ _ _ |- _ => destruct H as (S1 & S2 & S3 & S4 & S5 & S6 & S7 & S8 & S9) end.
      constructor; rewrite ?S8, ?S7, ?S3, ?S2, ?S1, ?S4, ?S5, ?S9; auto.
      + match goal with H : l_max _ = l_max _ |- _ => rewrite H end. auto.
      + unfold area. match goal with H : l_num _ = l_num _ |- _ => rewrite H end. auto.
    - exists j. split; [lia|]. destruct HI as [Ho Hk Hl Hs Hh].
      match goal with H : same_record _ _ _ |- _ => destruct H as (S1 & S2 & S3 & S4 & S5 & S6 & S7 & S8 & S9) end.
      match goal with H : rescaled _ _ _ _ _ _ _ _ _ |- _ => rename H into Er end.
      match goal with H : l_num _ = _ |- _ => rename H into En end.
      constructor; rewrite ?S8, ?S7, ?S3, ?S2, ?S1, ?S4, ?S5, ?S9; auto.
      + intros e Hin. destruct j as [|j].
        * exfalso. destruct Ho as [Ho|(_ & Ho & _)]; [|lia]. destruct (l_log s); [destruct Hin|discriminate].
        * apply rescaled_later in Er as [_ ->]; [auto|lia].
      + unfold area. rewrite En. cbn. rewrite (rescaled_length _ _ _ _ _ _ _ _ _ Er). auto.
  Qed.

  (** ** Summary of a solve that reaches the loop *)
  Definition initial_area (p : program) (n : numeric St) (c : config) : list (option R) :=
    nm_area (Initialize_numeric B (clear p) (clear p) (initialization_mode c =? 0)%Z (Z.to_nat (max_iterations c)) n).

  Lemma initial_area_eq p p2 n c :
    nm_area (Initialize_numeric B (clear p) p2 (initialization_mode c =? 0)%Z (Z.to_nat (max_iterations c)) n) = initial_area p n c.
  Proof.
    unfold initial_area, Initialize_numeric. destruct (negb (p_init (clear p)) || _); auto.
    destruct (initialization_mode c =? 0)%Z; auto.
  Qed.

  (** State at the end of the loop, and how the loop was left: [how = None]:
      factorization failed. *)
  Record run_end (p p2 : program) (n : numeric St) (c : config) (ss : stats) (s : lstate St) (how : option bool) : Prop := {
    re_init : Initialize (clear p) (initialization_mode c =? 0)%Z (Z.to_nat (max_iterations c)) = Ok p2;
    re_stats : p_stats p2 = Some ss;
    re_linv : exists j, (j <= Z.to_nat (max_iterations c))%nat /\
                linv B c (ss_num_iter ss) (length (initial_area p n c)) j s;
    re_how : match how with
             | Some true => True
             | Some false =>
                 (* converged in the last iteration, or centering steps used up before the last one *)
                 (exists e t, l_log s = e :: t /\ en_dinf e <= final_centering_tolerance c /\
                    (en_final e = true \/ en_max e <= en_ism e)) \/
                 ((final_centering_steps c <= l_centering_steps s)%Z /\
                  exists i, (Z.of_nat i < max_iterations c - 1)%Z /\ (length (l_log s) <= i)%nat)
             | None => True
             end
  }.

  Lemma linv_log_length c num0 L j s : linv B c num0 L j s -> (length (l_log s) <= j)%nat.
  Proof.
    intros H. rewrite <- (map_length en_i). destruct (li_order _ _ _ _ _ _ H) as [->|(_ & _ & ->)];
      rewrite rev_length, seq_length; lia.
  Qed.

  Lemma Solve_summary p n c x : quadratic_precondition p c = true -> (0 < NumberOfConstraints p)%nat ->
    Solve B p n c = Ok x ->
    (exists p2 ss s how, run_end p p2 n c ss s how /\
       match how with
       | Some reached => exists r, finish B p2 c (ss_max_iter ss) (length (p_cost p2)) (cost_vector p2) s reached = Ok r /\ x = Returned B r
       | None => x = Returned B (mkRet B (set_num_iter p2 (l_num_iter s)) (l_num s) 0%Z YUntouched (l_log s))
       end) \/
    (exists i, x = Overflow B i /\ (i < Z.to_nat (max_iterations c))%nat /\ (length (initial_area p n c) <= i)%nat).
  Proof.
    intros Hq Hn H.
    apply Solve_run in H as (p2 & ss & v & Ei & Es & El & H); auto.
    destruct (Initialize_fields _ _ _ _ Ei) as (F1 & F2 & F3 & F4 & F5 & F6 & F7 & F8 & _).
    eapply loop_inv in El; [|intros; eapply linv_next; eauto|apply start_linv].
    destruct El as (j & s'' & Hj & Is & Hv). rewrite initial_area_eq in Is.
    destruct v as [s|s reached|s k|i].
    - destruct H.
    - left. exists p2, ss, s, (Some reached). split; auto. constructor; auto.
      + destruct Hv as [[Hv1 Hv]|(Hv1 & Hv & _)].
        * injection Hv as <- ->. exists j. split; auto. lia.
        * destruct (linv_end _ _ _ _ _ _ _ _ _ _ s Is Hv) as (j' & Hj' & Is'); [left; eauto|].
          exists j'. split; auto. lia.
      + destruct Hv as [[Hv1 Hv]|(Hv1 & Hv & _)]; [injection Hv as _ ->; auto|].
        destruct reached; auto. inversion Hv; subst.
        * left. match goal with H : completed _ _ _ _ _ _ _ _ _ _ |- _ => rename H into Hc end.
          assert (exists t, l_log s = e :: t) as [t Et] by (inversion Hc; subst; cbn; eauto).
          exists e, t. split; auto.
          match goal with H : _ && _ = true |- _ => apply andb_prop in H as [D1 D2] end.
          split. { destruct (Rleb_spec (en_dinf e) (final_centering_tolerance c)); auto; discriminate. }
          apply orb_prop in D1 as [D1|D1]; auto.
          right. destruct (Rleb_spec (en_max e) (en_ism e)); auto; discriminate.
        * right. match goal with H : same_record _ _ _ |- _ => destruct H as (S1 & S2 & S3 & S4 & S5 & S6 & S7 & S8 & S9) end.
          rewrite S7. split; auto. exists j. rewrite S8. split; [|eapply linv_log_length; eauto].
          match goal with H : (_ <=? _)%Z = false |- _ => apply Z.leb_gt in H; lia end.
    - left. exists p2, ss, s, None.
      destruct Hv as [[Hv1 Hv]|(Hv1 & Hv & _)]; [discriminate|].
      assert (k = 0%Z) as ->.
      { inversion Hv; subst; auto. exfalso. eapply update_mu_demand; [| |eauto]; [eapply linv_ism; eauto|].
        unfold quadratic_precondition in *. rewrite F1. cbn. auto. }
      split; auto. constructor; auto.
      destruct (linv_end _ _ _ _ _ _ _ _ _ _ s Is Hv) as (j' & Hj' & Is'); [right; auto|].
      exists j'. split; auto. lia.
    - right. exists i. split; auto. destruct Hv as [[Hv1 Hv]|(Hv1 & Hv & _)]; [discriminate|].
      inversion Hv; subst. split; [lia|].
      match goal with H : rescaled _ _ _ _ _ _ _ _ _ |- _ => apply rescaled_length in H end.
      rewrite (li_len _ _ _ _ _ _ Is) in *. lia.
  Qed.

  (** ** C31 *)
  Lemma mu_exceeds_spec ism t : mu_exceeds ism t = false <-> ism <> 0 /\ 1 / (ism * ism) <= t.
  Proof.
    unfold mu_exceeds. destruct (Req0_spec ism) as [->|Hi].
    - split; [discriminate|intros [H _]; lra].
    - destruct (Rltb_spec t (1 / ism * (1 / ism))) as [H|H].
      + split; [discriminate|]. intros [_ H1]. exfalso. replace (1 / (ism * ism)) with (1 / ism * (1 / ism)) in H1 by (field; auto). lra.
      + split; auto. intros _. split; auto. replace (1 / (ism * ism)) with (1 / ism * (1 / ism)) by (field; auto). lra.
  Qed.

  Lemma linv_hd_lt c num0 L j s e t : linv B c num0 L j s -> l_log s = e :: t -> (en_i e < j)%nat.
  Proof.
    intros H E. assert (In (en_i e) (map en_i (l_log s))) as Hin by (rewrite E; left; auto).
    destruct (li_order _ _ _ _ _ _ H) as [H1|(_ & _ & H1)]; rewrite H1 in Hin; apply in_rev in Hin; apply in_seq in Hin; lia.
  Qed.

  Lemma finish_spec p c M m b s reached r : finish B p c M m b s reached = Ok r ->
    exists k, l_num_iter s = Some k /\
    let inf := mu_exceeds (l_ism s) (infeasibility_threshold c) in
    p_status (rt_prog B r) = mkStatus (negb inf && negb reached) k
       (inf && Rleb (l_cx s * l_ism s) (- (5 / 10))) (inf && Rleb (5 / 10) (l_by s * l_ism s)) /\
    rt_log B r = l_log s /\ nm_area (rt_num B r) = nm_area (l_num s) /\
    rt_prog B r = set_status (set_num_iter p (Some k)) (p_status (rt_prog B r)) /\
    rt_value B r = (if negb inf && negb reached then 1 else 0)%Z /\
    rt_y B r <> YUntouched.
  Proof.
    unfold finish. destruct (l_num_iter s) as [k|]; [|discriminate]. intros H.
    apply bind_ok in H as (st & _ & H). apply bind_ok in H as (cs & _ & H). injection H as <-.
    exists k. cbn [rt_prog rt_log rt_num rt_value rt_y nm_area]. repeat split.
    destruct (l_y s); discriminate.
  Qed.

  Lemma solve_status p n c r : quadratic_precondition p c = true -> (0 < NumberOfConstraints p)%nat ->
    Solve B p n c = Ok (Returned B r) ->
    let st := p_status (rt_prog B r) in
    (length (rt_log B r) <= Z.to_nat (max_iterations c))%nat /\
    (exists j k, (j <= 1)%nat /\ (j + k <= Z.to_nat (max_iterations c))%nat /\ map en_i (rt_log B r) = rev (seq j k) /\
       (j = 0%nat \/ initialization_mode c = 1%Z)) /\
    (st_solved st = true -> st_primal_infeasible st = false /\ st_dual_infeasible st = false) /\
    (st_solved st = true -> exists e t, rt_log B r = e :: t /\ 0 < en_ism e /\
       1 / (en_ism e * en_ism e) <= infeasibility_threshold c /\
       ((en_dinf e <= final_centering_tolerance c /\ (en_final e = true \/ en_max e <= en_ism e)) \/
        ((final_centering_steps c <= Z.of_nat (length (rt_log B r)) < max_iterations c - 1)%Z))) /\
    (st_primal_infeasible st = true \/ st_dual_infeasible st = true ->
       st_solved st = false /\ exists e t, rt_log B r = e :: t /\ infeasibility_threshold c < 1 / (en_ism e * en_ism e)) /\
    (forall e t, rt_y B r <> YUntouched -> rt_log B r = e :: t ->
       st_num_iterations st = S (en_i e) /\ (S (en_i e) <= Z.to_nat (max_iterations c))%nat).
  Proof.
    intros Hq Hn H. apply Solve_summary in H; auto.
    destruct H as [(p2 & ss & s & how & Hr & H)|(i & H & _)]; [|discriminate].
    destruct Hr as [Ei Es (j & Hj & Is) Hh].
    assert (rt_log B r = l_log s) as Elog.
    { destruct how as [reached|]; [destruct H as (r' & Ef & [= ->]); apply finish_spec in Ef as (k & _ & _ & -> & _); auto|].
      injection H as ->. auto. }
    cbn zeta. rewrite Elog.
    pose proof (linv_log_length _ _ _ _ _ Is) as Hlen.
    pose proof (li_head _ _ _ _ _ _ Is) as Hhd.
    split; [lia|]. split.
    { destruct (li_order _ _ _ _ _ _ Is) as [Ho|(Ho1 & Ho2 & Ho)].
      - exists 0%nat, j. split; [lia|]. split; [lia|]. split; auto.
      - exists 1%nat, (j - 1)%nat. split; [lia|]. split; [lia|]. split; auto. }
    destruct how as [reached|].
    - destruct H as (r' & Ef & [= ->]). apply finish_spec in Ef as (k & Ek & Est & _ & _ & _ & _ & _).
      cbn zeta in Est. set (inf := mu_exceeds (l_ism s) (infeasibility_threshold c)) in *.
      rewrite Est. cbn [st_solved st_primal_infeasible st_dual_infeasible st_num_iterations].
      split. { destruct inf; cbn; auto; discriminate. }
      split.
      { intros Hs. apply andb_prop in Hs as [Hs1 Hs2]. apply negb_true_iff in Hs1. unfold inf in Hs1.
        apply mu_exceeds_spec in Hs1 as [Hi1 Hi2]. destruct (l_log s) as [|e t] eqn:El; [destruct Hhd; contradiction|].
        destruct Hhd as (G1 & G2 & G3 & G4 & G5). exists e, t. split; auto. rewrite <- G2. split; auto. split; auto.
        apply negb_true_iff in Hs2. subst reached. rewrite ?El in Hh. destruct Hh as [(e' & t' & E' & Hd)|[Hd1 (i' & Hd2 & Hd3)]].
        - injection E' as <- <-. rewrite <- G2 in Hd. left. auto.
        - right. pose proof (li_steps _ _ _ _ _ _ Is) as Hst. rewrite ?El in *. lia. }
      split.
      { intros Hp. split. { destruct inf; cbn in *; auto. destruct Hp; discriminate. }
        destruct inf eqn:Einf; [|destruct Hp; discriminate]. unfold inf in Einf.
        destruct (l_log s) as [|e t] eqn:El.
        - exfalso. destruct Hhd as (G1 & _ & _ & G2 & G3 & _). rewrite G1, G2, G3 in Hp. cbn in Hp.
          destruct Hp as [Hp|Hp]; match type of Hp with Rleb ?a ?b = true => destruct (Rleb_spec a b); [lra|discriminate] end.
        - exists e, t. split; auto. destruct Hhd as (G1 & G2 & _). rewrite <- G2.
          destruct (Rlt_or_le (infeasibility_threshold c) (1 / (l_ism s * l_ism s))) as [|Hle]; auto.
          exfalso. assert (mu_exceeds (l_ism s) (infeasibility_threshold c) = false); [|congruence].
          apply mu_exceeds_spec. split; auto. lra. }
      intros e t _ E. rewrite E in Hhd. destruct Hhd as (_ & _ & _ & G & _). rewrite Ek in G. injection G as ->.
      split; auto. pose proof (linv_hd_lt _ _ _ _ _ _ _ Is E). lia.
    - injection H as ->. cbn [rt_prog rt_y].
      destruct (Initialize_fields _ _ _ _ Ei) as (F1 & F2 & F3 & _).
      assert (p_status (set_num_iter p2 (l_num_iter s)) = mkStatus false (st_num_iterations (p_status p)) false false) as ->.
      { unfold set_num_iter. rewrite Es. cbn. rewrite F3. auto. }
      cbn. repeat split; try discriminate; try (intros; congruence); try (intros [|]; discriminate).
      all: try (match goal with |- _ -> _ => intros [?|?]; discriminate end).
      all: destruct H; discriminate.
  Qed.

  (** ** C32, C33 *)
  Lemma floor_eq c m : lower_limit c = Ok m -> m = floor_of c /\ 0 < m.
  Proof.
    intros H. pose proof (lower_limit_pos _ _ H). unfold lower_limit in H.
    destruct (Rltb 0 (/ 10 ^ 15 + maximum_mu c)); [|discriminate]. injection H as <-. auto.
  Qed.

  (** The upper limit in force after the first iteration started. *)
  Definition max_known (c : config) (M : nat) (b : list R) (a_init : list (option R)) (i : nat) (s : lstate St) : Prop :=
    (i = 0%nat -> l_max s = inv_sqrt_mu_max c /\ area B s = a_init) /\
    ((0 < i)%nat -> exists AQc a0, rescaled c M b 0 AQc a_init (inv_sqrt_mu_max c) a0 (l_max s)).

  Lemma max_known_next p c M b rankK a_init i s s' : max_known c M b a_init i s ->
    outcome B p c M b rankK i s (VNext s') -> max_known c M b a_init (S i) s'.
  Proof.
    intros [H0 H1] H. split; [lia|]. intros _. inversion H; subst.
    - match goal with H : completed _ _ _ _ _ _ _ _ _ _ |- _ => inversion H; subst; clear H end. cbn [l_max].
      destruct i as [|i].
      + destruct (H0 eq_refl) as [E1 E2]. rewrite E1, E2 in *. eauto.
      + match goal with H : rescaled _ _ _ _ _ _ _ _ _ |- _ => apply rescaled_later in H as [_ ->]; [|lia] end. apply H1. lia.
    - destruct (H0 eq_refl) as [E1 E2]. rewrite E1, E2 in *. eauto.
  Qed.

  Lemma max_known_end p c M b rankK a_init i s v s' e t : max_known c M b a_init i s ->
    outcome B p c M b rankK i s v -> end_state v s' -> l_log s' = e :: t -> (i = 0%nat -> l_log s = []) ->
    exists AQc a0, rescaled c M b 0 AQc a_init (inv_sqrt_mu_max c) a0 (l_max s').
  Proof.
    intros [H0 H1] H He El Hz. inversion H; subst; destruct He as [[r' He]|He]; try discriminate; injection He as <-.
    - match goal with H : completed _ _ _ _ _ _ _ _ _ _ |- _ => inversion H; subst; clear H end. cbn [l_max].
      destruct i as [|i].
      + destruct (H0 eq_refl) as [E1 E2]. rewrite E1, E2 in *. eauto.
      + match goal with H : rescaled _ _ _ _ _ _ _ _ _ |- _ => apply rescaled_later in H as [_ ->]; [|lia] end. apply H1. lia.
    - match goal with H : same_record _ _ _ |- _ => destruct H as (S1 & S2 & S3 & S4 & S5 & S6 & S7 & S8 & S9) end.
      destruct i as [|i]; [rewrite S8, Hz in El by auto; discriminate|].
      match goal with H : l_max _ = l_max _ |- _ => rewrite H end. apply H1. lia.
    - match goal with H : same_record _ _ _ |- _ => destruct H as (S1 & S2 & S3 & S4 & S5 & S6 & S7 & S8 & S9) end.
      destruct i as [|i]; [rewrite S8, Hz in El by auto; discriminate|].
      match goal with H : rescaled _ _ _ _ _ _ _ _ _ |- _ => apply rescaled_later in H as [_ ->]; [|lia] end. apply H1. lia.
  Qed.

  Lemma solve_log p n c r : quadratic_precondition p c = true -> (0 < NumberOfConstraints p)%nat ->
    Solve B p n c = Ok (Returned B r) ->
    exists m b M, (rt_log B r = [] \/ exists AQc a0, rescaled c M b 0 AQc (initial_area p n c) (inv_sqrt_mu_max c) a0 m) /\
    (exists p2, Initialize (clear p) (initialization_mode c =? 0)%Z (Z.to_nat (max_iterations c)) = Ok p2 /\ b = cost_vector p2 /\
       exists ss, p_stats p2 = Some ss /\ M = ss_max_iter ss) /\
    forall e, In e (rt_log B r) -> entry_ok c m e.
  Proof.
    intros Hq Hn H.
    apply Solve_run in H as (p2 & ss & v & Ei & Es & El & H); auto.
    destruct (Initialize_fields _ _ _ _ Ei) as (F1 & F2 & F3 & F4 & F5 & F6 & F7 & F8 & _).
    eapply (loop_inv B p2 c (ss_max_iter ss) (steps_of c) (cost_vector p2) (Rank B p2)
       (fun i s => linv B c (ss_num_iter ss) (length (initial_area p n c)) i s /\
                   max_known c (ss_max_iter ss) (cost_vector p2) (initial_area p n c) i s)) in El.
    2:{ intros i s s' [I1 I2] Ho. split; [eapply linv_next; eauto|eapply max_known_next; eauto]. }
    2:{ rewrite <- (initial_area_eq p p2). split; [apply start_linv|]. split; [|lia]. intros _. split; auto. }
    destruct El as (j & s'' & Hj & (Is & Im) & Hv).
    assert (forall s, end_state v s -> (exists k, v = VBreak s k) \/ v = VReturn s 0%Z ->
       (l_log s = [] \/ exists AQc a0, rescaled c (ss_max_iter ss) (cost_vector p2) 0 AQc (initial_area p n c) (inv_sqrt_mu_max c) a0 (l_max s)) /\
       (forall e, In e (l_log s) -> entry_ok c (l_max s) e)) as Hend.
    { intros s He _. destruct Hv as [[Hv1 Hv]|(Hv1 & Hv & _)].
      - subst v. destruct He as [[r' [= ->]]|]; [|discriminate]. split; [|apply (li_ok _ _ _ _ _ _ Is)].
        destruct j as [|j]; [left; destruct (li_order _ _ _ _ _ _ Is) as [Ho|(_ & Ho & _)]; [|lia]; destruct (l_log s); auto; discriminate|].
        right. apply Im. lia.
      - destruct (linv_end _ _ _ _ _ _ _ _ _ _ s Is Hv He) as (j' & Hj' & Is'). split; [|apply (li_ok _ _ _ _ _ _ Is')].
        destruct (l_log s) as [|e t] eqn:E; auto. right. eapply max_known_end; eauto.
        intros ->. destruct (li_order _ _ _ _ _ _ Is) as [Ho|(_ & Ho & _)]; [|lia]. destruct (l_log s''); auto; discriminate. }
    destruct v as [s|s reached|s k|i]; try tauto; try discriminate.
    - destruct H as (r' & Ef & [= ->]). apply finish_spec in Ef as (kk & _ & _ & -> & _).
      exists (l_max s), (cost_vector p2), (ss_max_iter ss).
      destruct (Hend s) as [E1 E2]; [left; eauto|left; eauto|]. split; auto. split; [|auto]. eauto 8.
    - injection H as ->. cbn [rt_log].
      assert (k = 0%Z) as ->.
      { destruct Hv as [[Hv1 Hv]|(Hv1 & Hv & _)]; [discriminate|]. inversion Hv; subst; auto. exfalso. eapply update_mu_demand; [| |eauto]; [eapply linv_ism; eauto|].
        unfold quadratic_precondition in *. rewrite F1. cbn. auto. }
      exists (l_max s), (cost_vector p2), (ss_max_iter ss).
      destruct (Hend s) as [E1 E2]; [right; eauto|right; eauto|]. split; auto. split; [|auto]. eauto 8.
  Qed.

  Lemma vdot_nonneg a : 0 <= vdot a a.
  Proof. induction a as [|x a IH]; cbn; nra. Qed.
  Lemma vnorm_nonneg a : 0 <= vnorm a.
  Proof. apply sqrt_pos. Qed.

  Lemma rescaled_cold c M b AQc a m a0 m0 : initialization_mode c = 0%Z -> enable_rescaling c <> 0%Z ->
    rescaled c M b 0 AQc a m a0 m0 -> 0 < m ->
    m0 = m * sqrt ((1 + vnorm b) * (1 + vnorm AQc)) /\
    a0 = upd (upd a (b_cell M) (Some (1 / (1 + vnorm b)))) (c_cell M) (Some (1 / (1 + vnorm AQc))) /\
    (b_cell M < length a)%nat.
  Proof.
    intros Hc Hr H Hm. unfold rescaled, rescale in H. apply Z.eqb_neq in Hr. rewrite Hr, Hc in H. cbn [Nat.ltb Nat.leb andb negb Z.eqb] in H.
    apply bind_ok in H as (a1 & E1 & H). apply bind_ok in E1 as (a' & E2 & E1). unfold set_idx in *.
    destruct (Nat.ltb_spec (b_cell M) (length a)) as [L1|]; [|discriminate]. injection E2 as <-.
    destruct (Nat.ltb_spec (c_cell M) (length (upd a (b_cell M) (Some (1 / (1 + vnorm b)))))) as [L2|]; [|discriminate]. injection E1 as <-.
    rewrite upd_length in L2.
    apply bind_ok in H as (bs & Eb & H). apply bind_ok in H as (cs & Ec & H).
    unfold get_cell, idx in Eb, Ec. rewrite nth_error_upd_neq in Eb by (unfold b_cell, c_cell; lia).
    rewrite nth_error_upd_eq in Eb by auto. rewrite nth_error_upd_eq in Ec by (rewrite upd_length; auto).
    cbn in Eb, Ec. injection Eb as <-. injection Ec as <-.
    destruct (Req0_spec m); [lra|]. injection H as <- <-. split; auto.
    pose proof (vnorm_nonneg b) as N1. pose proof (vnorm_nonneg AQc) as N2.
    set (x := 1 + vnorm b) in *. set (y := 1 + vnorm AQc) in *. assert (0 < x) by (unfold x; lra). assert (0 < y) by (unfold y; lra).
    assert (0 < sqrt (x * y)) as Hsq by (apply sqrt_lt_R0; nra).
    assert (sqrt (x * y) * sqrt (x * y) = x * y) as Hss by (apply sqrt_sqrt; nra).
    assert (sqrt (1 / (m * m) * (1 / x * (1 / y))) = / (m * sqrt (x * y))) as ->.
    { apply sqrt_lem_1.
      - apply Rlt_le. apply Rmult_lt_0_compat; [apply Rdiv_lt_0_compat; nra|]. apply Rmult_lt_0_compat; apply Rdiv_lt_0_compat; lra.
      - apply Rlt_le, Rinv_0_lt_compat. nra.
      - rewrite <- Rinv_mult. replace (m * sqrt (x * y) * (m * sqrt (x * y))) with (m * m * (x * y)) by (transitivity (m * m * (sqrt (x * y) * sqrt (x * y))); [rewrite Hss; ring|ring]).
        field. repeat split; lra. }
    unfold Rdiv. rewrite Rmult_1_l, Rinv_inv. auto.
  Qed.

  Lemma solve_limits p n c r : quadratic_precondition p c = true -> (0 < NumberOfConstraints p)%nat ->
    Solve B p n c = Ok (Returned B r) ->
    (forall e, In e (rt_log B r) ->
       en_min e = floor_of c /\ 0 < en_min e <= en_ism e /\
       (en_min e <= en_max e -> en_ism e <= en_max e) /\
       (en_max e < en_min e -> en_ism e = en_min e) /\
       0 < en_step e <= 1 /\ 0 <= en_dinf e /\ en_step e * en_dinf e <= sqrt 2) /\
    (forall e e', In e (rt_log B r) -> In e' (rt_log B r) -> en_max e = en_max e') /\
    (enable_rescaling c = 0%Z -> forall e, In e (rt_log B r) -> en_max e = inv_sqrt_mu_max c) /\
    (enable_rescaling c <> 0%Z -> initialization_mode c = 0%Z -> 0 < inv_sqrt_mu_max c ->
       exists AQc, forall e, In e (rt_log B r) -> en_max e = inv_sqrt_mu_max c * sqrt ((1 + vnorm (map Ropp (p_cost p))) * (1 + vnorm AQc))).
  Proof.
    intros Hq Hn H. apply solve_log in H as (m & b & M & Hm & (p2 & Ei & Eb & ss & Es & EM) & He); auto.
    split; [|split; [|split]].
    - intros e Hin. destruct (He e Hin) as (E1 & E2 & (x & E3) & (nn & E4 & E5)).
      apply floor_eq in E1 as [E1 E1']. split; auto. rewrite E4, E5. split; [split; [lra|rewrite E3; apply ApplyLimits_ge]|].
      rewrite ApplyLimits_spec in E3.
      split. { intros G. destruct (Rlt_dec (en_max e) (en_min e)); [lra|]. rewrite E3. apply Rmax_lub; [lra|apply Rmin_r]. }
      split. { intros G. destruct (Rlt_dec (en_max e) (en_min e)); [auto|lra]. }
      destruct (step_size_spec nn) as [G1 G2]. split; auto. split; [apply Rabs_pos|]. auto.
    - intros e e' H1 H2. destruct (He e H1) as (_ & -> & _). destruct (He e' H2) as (_ & -> & _). auto.
    - intros Hr e Hin. destruct (He e Hin) as (_ & -> & _). destruct Hm as [Hm|(AQc & a0 & Hm)]; [rewrite Hm in Hin; destruct Hin|].
      unfold rescaled in Hm. rewrite Hr in Hm. cbn in Hm. injection Hm as _ <-. auto.
    - intros Hr Hc Hpos. destruct Hm as [Hm|(AQc & a0 & Hm)].
      + exists []. rewrite Hm. intros e [].
      + exists AQc. intros e Hin. destruct (He e Hin) as (_ & -> & _). apply rescaled_cold in Hm as (-> & _); auto.
        assert (vnorm b = vnorm (map Ropp (p_cost p))) as ->; [|auto].
        rewrite Eb. unfold vnorm, cost_vector. f_equal. destruct (Initialize_fields _ _ _ _ Ei) as (_ & -> & _). cbn [clear set_status p_cost].
        generalize (map Ropp (p_cost p)) as l. generalize (SizeOfKKTSystem p2 - length (p_cost p))%nat as k. intros k l.
        induction l as [|x l IH]; cbn; [|rewrite IH; auto]. induction k as [|k IH]; cbn; [auto|]. rewrite IH. ring.
  Qed.
End Facts.
