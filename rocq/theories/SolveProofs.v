(** Proofs about the solve loop (C27, C28, C30-C33, C51). *)
From Coq Require Import List Arith ZArith Reals Bool Lia Lra.
From Verif Require Import Base BaseFacts LayoutModel AssemblerModel KktModel ProgramModel ApiModel DivergenceModel SolveModel.
Import ListNotations.
Open Scope R_scope.

Lemma Rltb_spec a b : reflect (a < b) (Rltb a b).
Proof. unfold Rltb. destruct (Rlt_dec a b); constructor; auto. Qed.
Lemma Rleb_spec a b : reflect (a <= b) (Rleb a b).
Proof. unfold Rleb. destruct (Rle_dec a b); constructor; auto. Qed.
Lemma Req0_spec a : reflect (a = 0) (Req0 a).
Proof. unfold Req0. destruct (Req_EM_T a 0); constructor; auto. Qed.

Lemma ApplyLimits_spec x lb ub :
  ApplyLimits x lb ub = (if Rlt_dec ub lb then lb else Rmax lb (Rmin x ub)).
Proof.
  unfold ApplyLimits. destruct (Rltb_spec ub x); destruct (Rlt_dec ub lb).
  - destruct (Rltb_spec ub lb); lra.
  - destruct (Rltb_spec ub lb); [lra|]. rewrite Rmin_right, Rmax_right; lra.
  - destruct (Rltb_spec x lb); lra.
  - rewrite Rmin_left by lra. destruct (Rltb_spec x lb); [rewrite Rmax_left|rewrite Rmax_right]; lra.
Qed.

Lemma ApplyLimits_ge x lb ub : lb <= ApplyLimits x lb ub.
Proof. rewrite ApplyLimits_spec. destruct (Rlt_dec ub lb); [lra|apply Rmax_l]. Qed.

Lemma step_size_spec n : 0 < step_size n <= 1 /\ step_size n * Rabs n <= sqrt 2.
Proof.
  unfold step_size. destruct (Req0_spec n) as [->|Hn].
  - rewrite Rabs_R0. split; [lra|]. rewrite Rmult_0_r. apply sqrt_pos.
  - assert (0 < Rabs n) as HA by (apply Rabs_pos_lt; auto).
    assert (n * n = Rabs n * Rabs n) as E by (rewrite <- Rabs_mult; symmetry; apply Rabs_pos_eq; nra).
    rewrite E. set (a := Rabs n) in *. clearbody a.
    assert (0 < a * a) as Ha by nra.
    assert (sqrt 2 * sqrt 2 = 2) as Hs by (apply sqrt_sqrt; lra).
    assert (0 < sqrt 2) as Hs0 by (apply sqrt_lt_R0; lra).
    destruct (Rltb_spec 1 (2 / (a * a))) as [H|H].
    + split; [lra|]. rewrite Rmult_1_l.
      assert (a * a < 2). { apply (Rmult_lt_compat_r (a * a)) in H; auto. unfold Rdiv in H. rewrite Rmult_assoc, Rinv_l in H by lra. lra. }
      nra.
    + assert (0 < 2 / (a * a)) by (apply Rdiv_lt_0_compat; lra). split; [lra|].
      assert (2 <= a * a). { apply Rnot_lt_le in H. apply (Rmult_le_compat_r (a * a)) in H; [|lra]. unfold Rdiv in H. rewrite Rmult_assoc, Rinv_l in H by lra. lra. }
      replace (2 / (a * a) * a) with (2 / a) by (field; lra).
      apply (Rmult_le_reg_r a); auto. unfold Rdiv. rewrite Rmult_assoc, Rinv_l by lra. nra.
Qed.

Ltac inv_bind H :=
  let a := fresh "a" in let E := fresh "E" in
  apply bind_ok in H; destruct H as (a & E & H).

Section Loop.
  Variable B : backend.
  Notation St := (bk_state B).
  Variable p : program.
  Variable c : config.
  Variable max_iter : nat.
  Variable initial_steps : Z.
  Variable b : list R.
  Variable rankK : nat.

  Definition area (s : lstate St) : list (option R) := nm_area (l_num s).

  (** The statistics area and the limit after the rescaling of iteration [i]. *)
  Definition rescaled (i : nat) (AQc : list R) (a : list (option R)) (m : R) (a0 : list (option R)) (m0 : R) : Prop :=
    (if (i <? 1)%nat && negb (enable_rescaling c =? 0)%Z
     then rescale c b AQc max_iter a m else Ok (a, m)) = Ok (a0, m0).

  Definition final_flag (i : nat) (s : lstate St) : bool :=
    Rleb (l_max s) (l_ism s) || xgt (l_kkt_error s) (kkt_error_tolerance c)
    || (max_iterations c - final_centering_steps c <=? Z.of_nat i)%Z.

  (** Everything that happened in a completed iteration [i] that started in [s]
      and ended in [s'], with log entry [e]. *)
  Inductive completed (i : nat) (s : lstate St) : lstate St -> entry -> Prop :=
  | Completed st0 a0 ismax st1 st2 ism0 initial steps min bs cs r1 r2 y st3 n nsq st4 :
      bk_assemble B p (nm_bk (l_num s)) = Ok st0 ->
      rescaled i (r_AQc (bk_sys B st0)) (area s) (l_max s) a0 ismax ->
      bk_factor B p st0 = Ok (st1, true) ->
      get_cell a0 (b_cell max_iter) = Ok bs -> get_cell a0 (c_cell max_iter) = Ok cs ->
      (update_mu B p c st1 b bs cs rankK (l_ism s) = Ok (Some (st2, ism0)) /\ steps = l_centering_steps s \/
       st2 = st1 /\ ism0 = l_ism s /\ (0 < i)%nat /\
       (steps = l_centering_steps s \/ steps = l_centering_steps s + 1)%Z) ->
      lower_limit c = Ok min ->
      let ism := ApplyLimits ism0 min ismax in
      let sys := bk_sys B st2 in
      vplus (vscale bs b) (vscale cs (r_AQc sys)) = Ok r1 ->
      vminus (vscale ism r1) (vscale 2 (r_AW sys)) = Ok r2 ->
      bk_solve B p st2 r2 = Ok y ->
      PrepareStep B p st2 (mkStep false ism (ism * cs) 1 (l_step s)) y = Ok (st3, (n, nsq)) ->
      let abort := (i =? 0)%nat && (initialization_mode c =? 1)%Z && Rleb (warmstart_abort_threshold c) n in
      (if abort then Ok (SetIdentity B p st3)
       else TakeStep B p st3 (mkStep false ism (ism * cs) 1 (step_size n))) = Ok st4 ->
      (i < length a0)%nat ->
      let by_ := vdot b y / (ism * cs) in
      let cx := (2 * r_wc sys + vdot (r_AQc sys) y - ism * r_cQc sys * cs) / (ism * bs) in
      let s_dot_x := 1 / ism * (1 / ism) * (INR rankK - sqrt (Rabs nsq) * sqrt (Rabs nsq)) / (bs * cs) in
      let kkt := if p_quadratic p then l_kkt_error s else quotient (Rabs (cx - by_ - s_dot_x)) s_dot_x in
      let e := mkEntry i min ismax ism (Rabs n) (step_size n) (final_flag i s) in
      completed i s
        (mkL (mkNum st4 (upd a0 i (Some ism))) (Some (S i)) (Some y) ism ismax (step_size n) cx by_ kkt
             initial steps abort (e :: l_log s)) e.

  (** The part of the state an early exit leaves alone. *)
  Definition same_record (s s' : lstate St) : Prop :=
    l_num_iter s' = l_num_iter s /\ l_y s' = l_y s /\ l_ism s' = l_ism s /\ l_cx s' = l_cx s /\ l_by s' = l_by s /\
    l_kkt_error s' = l_kkt_error s /\
    l_centering_steps s' = l_centering_steps s /\ l_log s' = l_log s /\ l_step s' = l_step s.

  Inductive outcome (i : nat) (s : lstate St) : verdict St -> Prop :=
  | ONext s' e : completed i s s' e ->
      (en_final e || Rleb (en_max e) (en_ism e)) && Rleb (en_dinf e) (final_centering_tolerance c) = false ->
      outcome i s (VNext s')
  | ODone s' e : completed i s s' e ->
      (en_final e || Rleb (en_max e) (en_ism e)) && Rleb (en_dinf e) (final_centering_tolerance c) = true ->
      outcome i s (VBreak s' false)
  | OSteps s' : same_record s s' -> l_num s' = l_num s -> l_max s' = l_max s -> final_flag i s = true ->
      (final_centering_steps c <= l_centering_steps s)%Z ->
      outcome i s (VBreak s' (max_iterations c - 1 <=? Z.of_nat i)%Z)
  | OAbort s' st0 a0 ismax st1 : i = 0%nat -> initialization_mode c = 1%Z -> same_record s s' ->
      bk_assemble B p (nm_bk (l_num s)) = Ok st0 ->
      rescaled i (r_AQc (bk_sys B st0)) (area s) (l_max s) a0 ismax ->
      bk_factor B p st0 = Ok (st1, false) ->
      l_num s' = mkNum (SetIdentity B p st1) a0 -> l_max s' = ismax ->
      outcome i s (VNext s')
  | OFailed s' st0 a0 ismax st1 : same_record s s' ->
      bk_assemble B p (nm_bk (l_num s)) = Ok st0 ->
      rescaled i (r_AQc (bk_sys B st0)) (area s) (l_max s) a0 ismax ->
      bk_factor B p st0 = Ok (st1, false) ->
      l_num s' = mkNum st1 a0 -> l_max s' = ismax ->
      outcome i s (VReturn s' 0%Z)
  | ODemand s' st1 bs cs : same_record s s' ->
      update_mu B p c st1 b bs cs rankK (l_ism s) = Ok None ->
      outcome i s (VReturn s' 1%Z)
  | OOver st0 a0 ismax : bk_assemble B p (nm_bk (l_num s)) = Ok st0 ->
      rescaled i (r_AQc (bk_sys B st0)) (area s) (l_max s) a0 ismax ->
      (length a0 <= i)%nat -> outcome i s (VOverflow i).

  Lemma finish_iteration_outcome i final s s1 st0 st1 st2 a0 ismax ism0 steps v bs cs :
    same_record s s1 -> final = final_flag i s ->
    bk_assemble B p (nm_bk (l_num s)) = Ok st0 ->
    rescaled i (r_AQc (bk_sys B st0)) (area s) (l_max s) a0 ismax ->
    bk_factor B p st0 = Ok (st1, true) ->
    (get_cell a0 (b_cell max_iter) = Ok bs -> get_cell a0 (c_cell max_iter) = Ok cs ->
     update_mu B p c st1 b bs cs rankK (l_ism s) = Ok (Some (st2, ism0)) /\ steps = l_centering_steps s \/
     st2 = st1 /\ ism0 = l_ism s /\ (0 < i)%nat /\
       (steps = l_centering_steps s \/ steps = l_centering_steps s + 1)%Z) ->
    (forall x, get_cell a0 (b_cell max_iter) = Ok x -> x = bs) ->
    (forall x, get_cell a0 (c_cell max_iter) = Ok x -> x = cs) ->
    finish_iteration B p c max_iter b rankK i final s1 st2 a0 ismax ism0 steps = Ok v ->
    outcome i s v.
  Proof.
    intros (S1 & S2 & S3 & S4 & S5 & S6 & S7 & S8 & S9) -> Ea Er Ef Hu Hb Hc H. unfold finish_iteration in H.
    apply bind_ok in H as (mn & Emin & H).
    apply bind_ok in H as (bs' & Ebs & H). pose proof (Hb _ Ebs); subst bs'.
    apply bind_ok in H as (cs' & Ecs & H). pose proof (Hc _ Ecs); subst cs'.
    apply bind_ok in H as (r1 & E1 & H). apply bind_ok in H as (r2 & E2 & H).
    apply bind_ok in H as (y & Ey & H). apply bind_ok in H as ([st3 [n nsq]] & Ep & H).
    apply bind_ok in H as (st4 & Et & H).
    specialize (Hu Ebs Ecs).
    destruct (Nat.leb_spec (length a0) i) as [Hl|Hl].
    { injection H as <-. eapply OOver; eauto. }
    rewrite S6, S8 in H. rewrite S9 in Ep.
    destruct ((final_flag i s || Rleb ismax (ApplyLimits ism0 mn ismax)) && Rleb (Rabs n) (final_centering_tolerance c)) eqn:Ed;
      injection H as <-; [eapply ODone|eapply ONext];
      try (eapply (Completed i s st0 a0 ismax st1 st2 ism0 (l_initial_centering s1) steps mn bs cs r1 r2 y st3 n nsq st4); eauto);
      exact Ed.
  Qed.

  Lemma iteration_outcome i s v :
    iteration B p c max_iter initial_steps b rankK i s = Ok v -> outcome i s v.
  Proof.
    intros H. unfold iteration in H. fold (final_flag i s) in H.
    destruct (final_flag i s && (final_centering_steps c <=? l_centering_steps s)%Z) eqn:Et.
    { apply andb_prop in Et as [F1 F2]. apply Z.leb_le in F2.
      injection H as <-. apply OSteps; auto. unfold same_record; cbn; repeat split. }
    apply bind_ok in H as (st0 & Ea & H). apply bind_ok in H as ([a0 ismax] & Er & H).
    apply bind_ok in H as ([st1 ok] & Ef & H).
    fold (area s) in Er. change (rescaled i (r_AQc (bk_sys B st0)) (area s) (l_max s) a0 ismax) in Er.
    destruct ok; cbn [negb] in H.
    2:{ destruct ((i =? 0)%nat && (initialization_mode c =? 1)%Z) eqn:Ew.
        - apply andb_prop in Ew as [F1 F2]. apply Nat.eqb_eq in F1. apply Z.eqb_eq in F2.
          injection H as <-. eapply OAbort; eauto. unfold same_record; cbn; repeat split.
        - injection H as <-. eapply OFailed; eauto. unfold same_record; cbn; repeat split. }
    match type of H with (if ?u then _ else _) = _ => destruct u eqn:Eu end.
    - apply bind_ok in H as (bs & Ebs & H). apply bind_ok in H as (cs & Ecs & H).
      apply bind_ok in H as (u & Em & H).
      destruct u as [[st2 ism]|].
      + eapply (finish_iteration_outcome i _ s _ st0 st1 st2 a0 ismax ism _ v bs cs); try exact H; auto.
        * unfold same_record; cbn; repeat split.
        * intros x Hx. rewrite Ebs in Hx. injection Hx; auto.
        * intros x Hx. rewrite Ecs in Hx. injection Hx; auto.
      + injection H as <-. eapply ODemand; eauto. unfold same_record; cbn; repeat split.
    - assert (0 < i)%nat as Hi. { destruct i; [discriminate|lia]. }
      destruct (get_cell a0 (b_cell max_iter)) as [bs| | |] eqn:Ebs;
        [|unfold finish_iteration in H; rewrite Ebs in H; apply bind_ok in H as (? & _ & H); discriminate..].
      destruct (get_cell a0 (c_cell max_iter)) as [cs| | |] eqn:Ecs;
        [|unfold finish_iteration in H; rewrite Ebs, Ecs in H; apply bind_ok in H as (? & _ & H); discriminate..].
      eapply (finish_iteration_outcome i _ s _ st0 st1 st1 a0 ismax (l_ism s) _ v bs cs); try exact H; auto.
      + unfold same_record; cbn; repeat split.
      + intros _ _. right. split; auto. split; auto. split; auto.
        match goal with |- context [if ?x then _ else _] => destruct x end; auto.
      + intros x Hx. rewrite Ebs in Hx. injection Hx; auto.
      + intros x Hx. rewrite Ecs in Hx. injection Hx; auto.
  Qed.

  Notation loop_ := (loop B p c max_iter initial_steps b rankK).

  Lemma loop_inv (I : nat -> lstate St -> Prop) :
    (forall i s s', I i s -> outcome i s (VNext s') -> I (S i) s') ->
    forall todo i s v, I i s -> loop_ todo i s = Ok v ->
    exists j s'', (i <= j <= i + todo)%nat /\ I j s'' /\
      ((j = i + todo /\ v = VBreak s'' true)%nat \/
       ((j < i + todo)%nat /\ outcome j s'' v /\ forall s', v <> VNext s')).
  Proof.
    intros HI. induction todo as [|t IH]; intros i s v Hi H; cbn [loop] in H.
    - injection H as <-. exists i, s. split; [lia|]. split; [auto|]. left. split; [lia|auto].
    - apply bind_ok in H as (w & Ew & H). apply iteration_outcome in Ew.
      destruct w as [s'|s' r|s' k|k].
      + apply IH in H; [|eauto]. destruct H as (j & s'' & Hj & Is & H). exists j, s''. split; [lia|]. split; auto.
        destruct H as [[H1 H2]|[H1 H2]]; [left|right]; split; auto; lia.
      + injection H as <-. exists i, s. split; [lia|]. split; [auto|]. right. split; [lia|]. split; [auto|]. discriminate.
      + injection H as <-. exists i, s. split; [lia|]. split; [auto|]. right. split; [lia|]. split; [auto|]. discriminate.
      + injection H as <-. exists i, s. split; [lia|]. split; [auto|]. right. split; [lia|]. split; [auto|]. discriminate.
  Qed.

  Lemma lower_limit_pos m : lower_limit c = Ok m -> 0 < m.
  Proof.
    unfold lower_limit. destruct (Rltb_spec 0 (/ 10 ^ 15 + maximum_mu c)) as [H|H]; [|discriminate].
    intros [= <-]. apply sqrt_lt_R0. apply Rdiv_lt_0_compat; lra.
  Qed.

  (** What every log entry satisfies. *)
  Definition entry_ok (m : R) (e : entry) : Prop :=
    lower_limit c = Ok (en_min e) /\ en_max e = m /\
    (exists x, en_ism e = ApplyLimits x (en_min e) (en_max e)) /\
    (exists n, en_dinf e = Rabs n /\ en_step e = step_size n).

  Record linv (num0 : option nat) (L : nat) (i : nat) (s : lstate St) : Prop := {
    li_order : map en_i (l_log s) = rev (seq 0 i) \/
               (initialization_mode c = 1%Z /\ (1 <= i)%nat /\ map en_i (l_log s) = rev (seq 1 (i - 1)));
    li_ok : forall e, In e (l_log s) -> entry_ok (l_max s) e;
    li_len : length (area s) = L;
    li_steps : (0 <= l_centering_steps s <= Z.of_nat (length (l_log s)))%Z;
    li_head : match l_log s with
              | [] => l_ism s = 0 /\ l_y s = None /\ l_num_iter s = num0 /\ l_cx s = 1 /\ l_by s = -1 /\ l_centering_steps s = 0%Z
              | e :: _ => 0 < l_ism s /\ l_ism s = en_ism e /\ l_y s <> None /\ l_num_iter s = Some (S (en_i e)) /\
                          l_step s = en_step e
              end
  }.

  Lemma rescaled_length i AQc a m a0 m0 : rescaled i AQc a m a0 m0 -> length a0 = length a.
  Proof.
    unfold rescaled, rescale. destruct ((i <? 1)%nat && negb (enable_rescaling c =? 0)%Z); [|intros [= <- _]; auto].
    intros H. apply bind_ok in H as (a1 & E1 & H). apply bind_ok in H as (bs & _ & H). apply bind_ok in H as (cs & _ & H).
    destruct (Req0 m); [discriminate|]. injection H as <- _.
    destruct (initialization_mode c =? 0)%Z.
    - apply bind_ok in E1 as (a' & E2 & E3). unfold set_idx in *.
      destruct (b_cell max_iter <? length a)%nat; [|discriminate]. injection E2 as <-.
      destruct (c_cell max_iter <? _)%nat; [|discriminate]. injection E3 as <-. rewrite !upd_length. auto.
    - injection E1 as <-. auto.
  Qed.

  Lemma rescaled_later i AQc a m a0 m0 : (0 < i)%nat -> rescaled i AQc a m a0 m0 -> a0 = a /\ m0 = m.
  Proof.
    intros Hi. unfold rescaled. destruct i; [lia|]. cbn. intros [= <- <-]. auto.
  Qed.

  Lemma order_snoc i (s : lstate St) : (map en_i (l_log s) = rev (seq 0 i) \/
      (initialization_mode c = 1%Z /\ (1 <= i)%nat /\ map en_i (l_log s) = rev (seq 1 (i - 1)))) ->
    forall e, en_i e = i ->
    map en_i (e :: l_log s) = rev (seq 0 (S i)) \/
      (initialization_mode c = 1%Z /\ (1 <= S i)%nat /\ map en_i (e :: l_log s) = rev (seq 1 (S i - 1))).
  Proof.
    intros [H|(H1 & H2 & H3)] e He; cbn [map]; rewrite He.
    - left. rewrite seq_S, rev_app_distr, H. auto.
    - right. split; auto. split; [lia|]. rewrite H3. replace (S i - 1)%nat with (S (i - 1)) by lia.
      rewrite seq_S, rev_app_distr. cbn. f_equal. lia.
  Qed.

  Lemma linv_completed num0 L i s s' e : linv num0 L i s -> completed i s s' e -> linv num0 L (S i) s'.
  Proof.
    intros [Ho Hk Hl Hs Hh] H. inversion H as [st0 a0 ismax st1 st2 ism0 ini steps mn bs cs r1 r2 y st3 n nsq st4
      Ea Er Ef Eb Ec Eu El ism sys E1 E2 Ey Ep ab Et Hlen by_ cx sx kkt e0]; subst s' e; clear H.
    constructor; cbn [l_log l_max l_centering_steps l_ism l_y l_num_iter l_step area l_num nm_area].
    - apply order_snoc; auto.
    - intros e [<-|He].
      + unfold entry_ok, e0; cbn. split; auto. split; auto. split; [exists ism0; auto|exists n; auto].
      + destruct i as [|i].
        * exfalso. destruct Ho as [Ho|(_ & Ho & _)]; [|lia]. destruct (l_log s); [destruct He|discriminate].
        * apply rescaled_later in Er as [_ ->]; [|lia]. auto.
    - rewrite upd_length. rewrite (rescaled_length _ _ _ _ _ _ Er). auto.
    - cbn [length]. destruct Eu as [[_ ->]|(_ & _ & _ & [->| ->])]; lia.
    - pose proof (lower_limit_pos _ El). pose proof (ApplyLimits_ge ism0 mn ismax).
      unfold e0; cbn. split; [unfold ism; lra|]. split; auto. split; [discriminate|]. auto.
  Qed.

  Lemma linv_next num0 L i s s' : linv num0 L i s -> outcome i s (VNext s') -> linv num0 L (S i) s'.
  Proof.
    intros HI H. inversion H; subst.
    - eapply linv_completed; eauto.
    - destruct HI as [Ho Hk Hl Hs Hh]. destruct Ho as [Ho|(_ & Ho & _)]; [|lia].
      destruct (l_log s) eqn:El; [|discriminate].
      match goal with H : same_record _ _ |- _ => destruct H as (S1 & S2 & S3 & S4 & S5 & S6 & S7 & S8 & S9) end.
      constructor; rewrite ?S8; cbn.
      + right. rewrite El. auto.
      + rewrite El. intros e [].
      + match goal with H : l_num s' = _ |- _ => unfold area; rewrite H; cbn end.
        match goal with H : rescaled _ _ _ _ _ _ |- _ => rewrite (rescaled_length _ _ _ _ _ _ H) end. auto.
      + rewrite S7, El. auto.
      + rewrite El, S3, S2, S1, S4, S5, S7. auto.
  Qed.
End Loop.
