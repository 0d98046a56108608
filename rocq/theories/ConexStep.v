(** The step preparation over all constraints, and the feasibility of the
    returned point (C35). *)
From Coq Require Import List Arith ZArith Reals Bool Lia Lra.
From Verif Require Import Base BaseFacts LayoutModel SupernodeModel TriWorkspaceModel AssemblerModel DenseModel BlockModel KktModel
  ProgramModel ApiModel DivergenceModel SolveModel LinearModel ConcreteBackend Spec_Linear RhsProofs Spec_Program Spec_Solve Spec_Conex
  SolveProofs SolveFacts SolveStats SolveLast ProgramProofs ProgramRun ProgramState Prop_Solve ConexFacts.
From Verif Require Import SocLinks.
From Verif Require Spec_Soc SocAlgebra SocProofs SocCone SocNewton LanczosModel HermBound HermLinks.
Import ListNotations.
Open Scope R_scope.

(** Squared norm of the direction [d] of a constraint. *)
Definition dsq (c : option container) (d : list R) : R :=
  match c with
  | Some c => match ct_data c with CSoc _ _ _ => 2 * vdot d d | _ => vdot d d end
  | None => 0
  end.

(** What preparing the step did for constraint [i]; [d] is its direction (empty
    for constraints without one). *)
Definition con_step (p : program) (st st' : cst) (o : step_options) (y : list R) (n : R) (i : nat) (d : list R) : Prop :=
  exists c s s' clique z,
    nth_error (p_eqs p) i = Some c /\ nth_error (ct_cons st) i = Some s /\ nth_error (ct_cons st') i = Some s' /\
    nth_error (p_cliques p) i = Some clique /\ Vars y clique = Ok z /\
    match ct_data c, s, s' with
    | CLinear cols A b, SLinear w, SLinear w' =>
        exists W, lw_W w = Some W /\ lw_W w' = Some W /\ lw_t2 w' = Some d /\ (cols <= length z)%nat /\
          length W = length A /\ length d = length A /\ length b = length A /\
          (forall k, (k < length A)%nat ->
             nth k d 0 = nth k W 0 * (vdot (nth k A []) (firstn cols z) - op_c_weight o * nth k b 0) + op_e_weight o) /\
          (forall k, (k < length A)%nat -> Rabs (nth k d 0) <= n)
    | CEq _ b, SEq _, SEq l => d = [] /\ (length b <= length z)%nat /\ l = skipn (length z - length b) z
    | CQuad _, SQuad, SQuad => d = []
    | CSoc m A b, SSoc w, SSoc w' =>
        exists x, soc_stepped m A b (op_c_weight o) z w w' x /\ d = list_of m x /\
          Rabs (fst x + SocAlgebra.enorm (Spec_Soc.euclid m) x) <= n /\ Rabs (fst x - SocAlgebra.enorm (Spec_Soc.euclid m) x) <= n
    | CHerm h m As C, SHerm w, SHerm w' =>
        exists x, HermLinks.herm_stepped h m As C (op_c_weight o) z w w' x /\ d = HermBound.entries h m x
    | _, _, _ => False
    end.

Lemma con_step_weaken p st st' st'' o y n n' i d : con_step p st st' o y n i d -> n <= n' ->
  nth_error (ct_cons st'') i = nth_error (ct_cons st') i -> con_step p st st'' o y n' i d.
Proof.
  intros (c & s & s' & cl & z & H1 & H2 & H3 & H4 & H5 & H) Hn E. exists c, s, s', cl, z.
  rewrite E. repeat split; auto. destruct (ct_data c); auto; destruct s; auto; destruct s'; auto.
  - destruct H as (W & G1 & G2 & G3 & G4 & G5 & G6 & G7 & G8 & G9). exists W. repeat split; auto.
    intros k Hk. specialize (G9 k Hk). lra.
  - destruct H as (x & G1 & G2 & G3 & G4). exists x. split; auto. split; auto. split; lra.
Qed.

Lemma norm_from_nonneg e lo hi : 0 <= LanczosModel.norm_from e lo hi.
Proof. unfold LanczosModel.norm_from. destruct (Rlt_dec _ _); apply Rabs_pos. Qed.

Lemma con_prepare_step env p st i o y clique z st' n q : op_affine o = false -> interior st ->
  nth_error (p_cliques p) i = Some clique -> Vars y clique = Ok z ->
  con_prepare env p st i o z = Ok (st', (n, q)) ->
  (forall k, k <> i -> nth_error (ct_cons st') k = nth_error (ct_cons st) k) /\ -1 <= n /\
  exists d, q = dsq (nth_error (p_eqs p) i) d /\ con_step p st st' o y n i d.
Proof.
  intros Ho HI Hc Hz H. unfold con_prepare in H. apply bind_ok in H as ([c s] & E & H). apply get_con_ok in E as [E1 E2].
  pose proof (nth_error_lt _ _ _ E2) as Hl.
  rewrite E1. unfold dsq.
  destruct (ct_data c) as [cols A b|m A b|hdim rank As C| | | |A b] eqn:Ed; destruct s as [w|l| |w|w|]; try discriminate.
  - apply bind_ok in H as ([w' [n' q']] & E & H). injection H as <- <- <-.
    split. { intros k Hk. cbn. apply nth_error_upd_neq. auto. }
    apply linear_prepare_ok in E as (W & d & P1 & P2 & P3 & P4 & P5 & P6 & P7 & P8 & P9 & P10 & P11); auto.
    split. { destruct P10 as (k & Hk & ->). pose proof (Rabs_pos (nth k d 0)). lra. }
    exists d. split; auto. exists c, (SLinear w), (SLinear w'), clique, z. cbn [set_con ct_cons].
    rewrite nth_error_upd_eq by auto. repeat split; auto. rewrite Ed. exists W. repeat split; auto.
  - apply bind_ok in H as (s & Es & H). apply bind_ok in H as ([s' [n' q']] & Ep & H). injection H as <- <- <-.
    split. { intros k Hk. cbn. apply nth_error_upd_neq. auto. }
    destruct (soc_prepared _ _ _ _ _ _ _ _ _ Es Ep) as (w' & x & Em & Hw & [= -> ->]).
    destruct (norm_bounds m x) as (B1 & B2 & B3). split; [lra|]. exists (list_of m x). split.
    { rewrite vdot_total, list_of_length. f_equal. rewrite inner_entries. apply total_ext. intros k Hk. apply in_seq in Hk.
      rewrite list_of_entry by lia. reflexivity. }
    exists c, (SSoc w), (SSoc w'), clique, z. cbn [set_con ct_cons]. rewrite Em.
    rewrite nth_error_upd_eq by auto. repeat split; auto. rewrite Ed. exists x. auto.
  - apply bind_ok in H as (s & Es & H).
    destruct (HermLinks.herm_prepared _ _ _ _ _ _ _ (herm_options o) Es (interior_herm _ _ _ HI E2) Ho) as (w' & x & q' & Ep & Em & _ & _ & Hs & _).
    rewrite Ep, Em in H. injection H as <- <- <-.
    split. { intros k Hk. cbn. apply nth_error_upd_neq. auto. }
    split. { destruct (env_estimate _ _ _ _ _ _) as [[lo hi]|]; [|lra]. pose proof (norm_from_nonneg (op_e_weight o) lo hi). lra. }
    exists (HermBound.entries hdim rank x). split; [rewrite vdot_total; symmetry; apply HermLinks.entries_square|].
    exists c, (SHerm w), (SHerm w'), clique, z. cbn [draw set_con ct_cons].
    rewrite nth_error_upd_eq by auto. repeat split; auto. rewrite Ed. exists x. auto.
  - injection H as <- <- <-. split; auto. split; [lra|]. exists []. split; auto.
    exists c, SQuad, SQuad, clique, z. rewrite Ed. repeat split; auto.
  - apply bind_ok in H as (l' & E & H). injection H as <- <- <-. split. { intros k Hk. cbn. apply nth_error_upd_neq. auto. }
    split; [lra|]. exists []. split; auto. exists c, (SEq l), (SEq l'), clique, z. cbn [set_con ct_cons].
    rewrite nth_error_upd_eq by auto. rewrite Ed. unfold equality_prepare in E.
    destruct (Nat.ltb_spec (length z) (length b)); [discriminate|]. injection E as <-. repeat split; auto.
Qed.

Lemma total_snoc {A} (f : A -> R) l a : total f (l ++ [a]) = total f l + f a.
Proof. rewrite total_app. unfold total at 2. cbn. lra. Qed.

Lemma prepare_each iters nf p st o y st' n q : op_affine o = false -> interior st ->
  PrepareStep (conex iters nf) p st o y = Ok (st', (n, q)) ->
  exists D, length D = NumberOfConstraints p /\
    q = total (fun i => dsq (nth_error (p_eqs p) i) (nth i D [])) (seq 0 (NumberOfConstraints p)) /\ -1 <= n /\
    same_solver st st' /\ forall i, (i < NumberOfConstraints p)%nat -> con_step p st st' o y n i (nth i D []).
Proof.
  intros Ho HI H. unfold PrepareStep in H.
  assert (forall N st' n q,
    foldM (fun (acc : bk_state (conex iters nf) * (R * R)) i =>
             let '(st, (norminfd, normsqrd)) := acc in
             clique <- at_ (p_cliques p) i ;;
             z <- Vars y clique ;;
             '(st', (ni, ns)) <- bk_prepare (conex iters nf) p st i o z ;;
             Ok (st', ((if Rltb norminfd ni then ni else norminfd), normsqrd + ns)))
          (st, (-1, 0)) (seq 0 N) = Ok (st', (n, q)) ->
    exists D, length D = N /\ q = total (fun i => dsq (nth_error (p_eqs p) i) (nth i D [])) (seq 0 N) /\ -1 <= n /\ same_solver st st' /\ interior st' /\
      (forall k, (N <= k)%nat -> nth_error (ct_cons st') k = nth_error (ct_cons st) k) /\
      forall i, (i < N)%nat -> con_step p st st' o y n i (nth i D [])) as G.
  { clear H st' n q. intros N. induction N as [|N IH]; intros st' n q H.
    - cbn in H. injection H as <- <- <-. exists []. cbn. split; [auto|]. split; [auto|]. split; [lra|]. split; [apply same_solver_refl|].
      split; [exact HI|]. split; auto. intros i Hi. lia.
    - rewrite seq_S, foldM_app in H. cbn [Nat.add] in H. apply bind_ok in H as ([st1 [n1 q1]] & E & H).
      destruct (IH _ _ _ E) as (D & D1 & D2 & D3 & D4 & DI & D5 & D6). cbn [foldM] in H.
      apply bind_ok in H as (x & H & Hx). injection Hx as ->.
      apply bind_ok in H as (cl & Ecl & H). apply at_ok in Ecl. apply bind_ok in H as (z & Ez & H).
      apply bind_ok in H as ([st2 [ni ns]] & Ep & H). injection H as <- <- <-.
      cbn [bk_prepare conex] in Ep.
      destruct (con_prepare_step _ _ _ _ _ _ _ _ _ _ _ Ho DI Ecl Ez Ep) as (F1 & F2 & d & Fq & Fs).
      exists (D ++ [d]). rewrite app_length, D1. cbn [length].
      assert (n1 <= (if Rltb n1 ni then ni else n1)) as Hn1 by (destruct (Rltb_spec n1 ni); lra).
      assert (ni <= (if Rltb n1 ni then ni else n1)) as Hni by (destruct (Rltb_spec n1 ni); lra).
      split; [lia|].
      split. { rewrite seq_S, total_snoc. cbn [Nat.add]. f_equal; [rewrite D2; apply total_ext; intros i Hi; apply in_seq in Hi; rewrite app_nth1 by lia; reflexivity|].
        rewrite app_nth2 by lia. rewrite D1, Nat.sub_diag. exact Fq. }
      split; [lra|].
      split. { eapply same_solver_trans; [exact D4|]. eapply con_prepare_solver; eauto. }
      split. { exact (k_prepare _ _ _ (interior_keeps iters nf p) st1 N o z st2 _ Ho DI Ep). }
      split. { intros k Hk. rewrite F1 by lia. apply D5. lia. }
      intros i Hi. destruct (Nat.eq_dec i N) as [->|Hn].
      + rewrite app_nth2 by lia. rewrite D1, Nat.sub_diag. cbn [nth].
        destruct (con_step_weaken p st1 st2 st2 o y ni _ N d Fs Hni eq_refl) as (c & s & s' & cl' & z' & C1 & C2 & C3).
        exists c, s, s', cl', z'. rewrite <- D5 by lia. auto.
      + rewrite app_nth1 by lia. apply (con_step_weaken p st st1 st2 o y n1); [apply D6; lia|exact Hn1|apply F1; auto]. }
  destruct (G _ _ _ _ H) as (D & D1 & D2 & D3 & D4 & _ & _ & D6). exists D. auto.
Qed.

(** The estimates of Hermitian constraints that entered the norm [n]. *)
Definition estimated (nf : environment) (e_weight : R) (p : program) (st : cst) (n : R) : Prop :=
  forall i co h m As C w W WS, nth_error (p_eqs p) i = Some co -> ct_data co = CHerm h m As C ->
    nth_error (ct_cons st) i = Some (SHerm w) -> hw_W w = Some W -> hw_WS w = Some WS ->
    exists draws, match env_estimate nf draws h m WS W with Some (lo, hi) => LanczosModel.norm_from e_weight lo hi <= n | None => True end.

Lemma con_prepare_others nf p st i o z st' r : con_prepare nf p st i o z = Ok (st', r) ->
  forall k, k <> i -> nth_error (ct_cons st') k = nth_error (ct_cons st) k.
Proof.
  intros H k Hk. unfold con_prepare in H. apply bind_ok in H as ([c s] & E & H).
  destruct (ct_data c) as [cols A b|m A b|hdim rank As C| | | |A b]; destruct s as [w|l| |w|w|]; try discriminate.
  - apply bind_ok in H as ([w' n'] & _ & H). injection H as <- _. cbn. apply nth_error_upd_neq. auto.
  - apply bind_ok in H as (s & _ & H). apply bind_ok in H as ([s' n'] & _ & H). injection H as <- _. cbn. apply nth_error_upd_neq. auto.
  - apply bind_ok in H as (s & _ & H). destruct (JordanModel.HPrepareStep _ _ _ _) as [q' [nsq|]]; injection H as <- _; cbn; apply nth_error_upd_neq; auto.
  - injection H as <- _. auto.
  - apply bind_ok in H as (l' & _ & H). injection H as <- _. cbn. apply nth_error_upd_neq. auto.
Qed.

Lemma con_prepare_estimated nf p st i o z st' n q co h m As C w W WS : op_affine o = false ->
  con_prepare nf p st i o z = Ok (st', (n, q)) -> nth_error (p_eqs p) i = Some co -> ct_data co = CHerm h m As C ->
  nth_error (ct_cons st') i = Some (SHerm w) -> hw_W w = Some W -> hw_WS w = Some WS ->
  exists draws, match env_estimate nf draws h m WS W with Some (lo, hi) => LanczosModel.norm_from (op_e_weight o) lo hi <= n | None => True end.
Proof.
  intros Ho H Hi Hd Hs HW HWS. unfold con_prepare in H. apply bind_ok in H as ([co' s] & E & H).
  unfold get_con in E. rewrite Hi in E. destruct (nth_error (ct_cons st) i) as [s0|] eqn:Es; [|discriminate]. injection E as <- <-.
  rewrite Hd in H. destruct s0 as [| | | |w0|]; try discriminate. apply bind_ok in H as (qq & Eq & H).
  destruct (JordanModel.HPrepareStep h qq (herm_options o) (fun j => nth j z 0)) as [q' r] eqn:EP.
  destruct r as [nsq|].
  - injection H as <- <- <-. cbn [draw ct_cons] in Hs. unfold set_con in Hs. cbn [ct_cons] in Hs.
    rewrite nth_error_upd_eq in Hs by (eapply nth_error_lt; eauto). unfold herm_memory in Hs. injection Hs as <-. cbn [hw_W hw_WS] in HW, HWS. injection HW as <-. injection HWS as <-.
    exists (ct_draws st). destruct (env_estimate _ _ _ _ _ _) as [[lo hi]|]; [apply Rle_refl|exact I].
  - unfold JordanModel.HPrepareStep in EP. unfold herm_options in EP. cbn [JordanModel.so_affine] in EP. rewrite Ho in EP. discriminate.
Qed.

Lemma prepare_estimated iters nf p st o y st' n q : op_affine o = false ->
  PrepareStep (conex iters nf) p st o y = Ok (st', (n, q)) -> estimated nf (op_e_weight o) p st' n.
Proof.
  intros Ho H. unfold PrepareStep in H.
  assert (forall N st' n q,
    foldM (fun (acc : bk_state (conex iters nf) * (R * R)) i =>
             let '(st, (norminfd, normsqrd)) := acc in
             clique <- at_ (p_cliques p) i ;;
             z <- Vars y clique ;;
             '(st', (ni, ns)) <- bk_prepare (conex iters nf) p st i o z ;;
             Ok (st', ((if Rltb norminfd ni then ni else norminfd), normsqrd + ns)))
          (st, (-1, 0)) (seq 0 N) = Ok (st', (n, q)) ->
    forall i co h m As C w W WS, (i < N)%nat -> nth_error (p_eqs p) i = Some co -> ct_data co = CHerm h m As C ->
    nth_error (ct_cons st') i = Some (SHerm w) -> hw_W w = Some W -> hw_WS w = Some WS ->
    exists draws, match env_estimate nf draws h m WS W with Some (lo, hi) => LanczosModel.norm_from (op_e_weight o) lo hi <= n | None => True end) as G.
  { clear H st' n q. intros N. induction N as [|N IH]; intros st' n q H i co h m As C w W WS HN Hi Hd Hs HW HWS; [lia|].
    rewrite seq_S, foldM_app in H. cbn [Nat.add] in H. apply bind_ok in H as ([st1 [n1 q1]] & E & H).
    cbn [foldM] in H. apply bind_ok in H as (x & H & Hx). injection Hx as ->.
    apply bind_ok in H as (cl & Ecl & H). apply bind_ok in H as (z & Ez & H).
    apply bind_ok in H as ([st2 [ni ns]] & Ep & H). injection H as <- <- <-. cbn [bk_prepare conex] in Ep.
    assert (n1 <= (if Rltb n1 ni then ni else n1)) as Hn1 by (destruct (Rltb_spec n1 ni); lra).
    assert (ni <= (if Rltb n1 ni then ni else n1)) as Hni by (destruct (Rltb_spec n1 ni); lra).
    set (nn := if Rltb n1 ni then ni else n1) in *. clearbody nn.
    destruct (Nat.eq_dec i N) as [->|Hn].
    - destruct (con_prepare_estimated nf p st1 N o z st2 ni ns co h m As C w W WS Ho Ep Hi Hd Hs HW HWS) as (dr & Hdr). exists dr.
      destruct (env_estimate _ _ _ _ _ _) as [[lo hi]|]; auto. lra.
    - assert (nth_error (ct_cons st1) i = Some (SHerm w)) as Hs1.
      { rewrite <- (con_prepare_others _ _ _ _ _ _ _ _ Ep i Hn). exact Hs. }
      destruct (IH _ _ _ E i co h m As C w W WS ltac:(lia) Hi Hd Hs1 HW HWS) as (dr & Hdr). exists dr.
      destruct (env_estimate _ _ _ _ _ _) as [[lo hi]|]; auto. lra. }
  intros i co h m As C w W WS Hi. apply (G _ _ _ _ H); auto. unfold NumberOfConstraints. eapply nth_error_lt; eauto.
Qed.

(** ** C35 *)

Lemma total_scale {A} (f : A -> R) k l : total (fun a => k * f a) l = k * total f l.
Proof. unfold total. induction l as [|a l IH]; cbn; [lra|]. rewrite IH. lra. Qed.

(** Scaling and cutting the point. *)
Lemma row_value_scaled a vars y m k : (length a <= length vars)%nat ->
  (forall j, (j < length a)%nat -> (nth j vars 0%nat < m)%nat /\ (nth j vars 0%nat < length y)%nat) ->
  row_value a vars (map (fun x => k * x) (firstn m y)) = k * row_value a vars y.
Proof.
  intros Hl H. unfold row_value. rewrite <- total_scale. apply total_ext. intros j Hj. apply in_seq in Hj.
  destruct (H j ltac:(lia)) as [H1 H2]. rewrite (nth_map_lt _ _ _ 0 0) by (rewrite firstn_length; lia).
  rewrite nth_firstn_lt by auto. lra.
Qed.

(** The returned point and the last step.  [k] is the last iteration. *)
Record final_step (p : program) (c : config) (y' : list R) (e : entry) (p2 : program) (st st' : cst) (y : list R) (cs : R)
  (D : list (list R)) : Prop := {
  fs_ism : 0 < en_ism e;
  fs_cs : 0 < cs;
  fs_interior : interior st;
  fs_prog : p_eqs p2 = p_eqs p /\ p_cliques p2 = p_cliques p /\ p_cost p2 = p_cost p;
  fs_y : y' = map (fun x => x / en_ism e / cs) (firstn (length (p_cost p)) y);
  fs_len : length D = length (p_eqs p);
  fs_dinf : exists n, en_dinf e = Rabs n /\ -1 <= n /\
    forall i, (i < length (p_eqs p))%nat ->
      con_step p2 st st' (mkStep false (en_ism e) (en_ism e * cs) 1 0) y n i (nth i D [])
}.

Lemma con_step_options p st st' o o' y n i d : op_c_weight o' = op_c_weight o -> op_e_weight o' = op_e_weight o ->
  con_step p st st' o y n i d -> con_step p st st' o' y n i d.
Proof. unfold con_step. intros -> ->. auto. Qed.

Lemma last_step nf p n c r y' e t : starts p c -> sound_start p n c -> limit_fits p c ->
  ConexSolve nf p n c = Ok (Returned _ r) -> rt_y _ r = YVec y' -> rt_log _ r = e :: t ->
  1 / (en_ism e * en_ism e) <= infeasibility_threshold c ->
  exists p2 st st' y cs D, final_step p c y' e p2 st st' y cs D.
Proof.
  intros Hst Hso Hlim H Hy Hlog Hmu. unfold ConexSolve in H.
  set (iters := mode_of nf c) in *.
  assert (quadratic_precondition p c = true /\ (0 < NumberOfConstraints p)%nat) as [H1 H2] by (apply Prop_Solve.starts_iff; auto).
  assert (positive_area (initial_area (conex iters nf) p n c)) as HA.
  { apply initial_positive. destruct Hso as [|[_ ?]]; auto. }
  destruct (Solve_last (conex iters nf) interior p n c r y') as (p2 & ss & k & s0 & s1 & s2 & e' & t' & reached & Ei & Es & L); auto.
  { intros p2 Ei. split; [apply interior_keeps|]. apply initial_interior. destruct Hso as [|[? _]]; auto. }
  destruct (Initialize_fields _ _ _ _ Ei) as (_ & F2 & _ & F4 & F5 & _).
  pose proof (limit_enough _ _ _ _ Es Ei Hlim) as Hfit.
  destruct L as [Lk LI LA Ld Ls Ln LI2 LA2 Ll Lf]. rewrite Hlog in Ll. injection Ll as <- <-.
  inversion Ld as [st0 a0 ismax st1 st2 ism0 ini stps mn bs cs r1 r2 y st3 nn nsq st4
        Ea Er Ef Eb Ec Eu El ism sys E1 E2 Ey Ep ab Et Hl by_ cx sx kkt e0]; subst s1 e; clear Ld.
  cbn [e0 en_ism en_dinf] in *.
  assert (0 < ism) as Hism.
  { pose proof (lower_limit_pos c mn El). pose proof (ApplyLimits_ge ism0 mn ismax). unfold ism. lra. }
  assert (positive_area a0) as HA0 by exact (rescaled_positive _ _ _ _ _ _ _ _ _ LA Er).
  assert (0 < cs) as Hcs by (apply get_cell_ok in Ec; eapply HA0; eauto).
  assert (interior st2) as HI2.
  { pose proof (interior_keeps iters nf p2) as K.
    assert (interior st1) as HI1 by exact (k_factor _ _ _ K st0 st1 true (k_assemble _ _ _ K _ _ LI Ea) Ef).
    destruct Eu as [[Eu _]|(-> & _)]; auto. exact (keep_update_mu _ _ p2 c K st1 _ _ _ _ _ _ _ HI1 Eu). }
  pose proof (prepare_each iters nf p2 st2 (mkStep false ism (ism * cs) 1 (l_step s0)) y st3 nn nsq eq_refl HI2 Ep) as (D & D1 & D2 & D3 & D4 & D5).
  exists p2, st2, st3, y, cs, D. constructor; auto.
  - destruct Ls as (S1 & S2 & S3 & _). cbn [l_y l_ism l_num_iter] in S1, S2, S3.
    unfold finish in Lf. rewrite S1, S2, S3, Ln in Lf.
    assert (mu_exceeds ism (infeasibility_threshold c) = false) as Hm by (apply mu_exceeds_spec; split; [lra|auto]).
    rewrite Hm in Lf. cbn [andb l_num nm_area] in Lf. apply bind_ok in Lf as (st & _ & Lf). apply bind_ok in Lf as (cs' & Ec' & Lf).
    injection Lf as <-. cbn [rt_y] in Hy. injection Hy as <-.
    assert (cs' = cs) as ->.
    { apply get_cell_ok in Ec', Ec. rewrite nth_error_upd_neq in Ec' by (unfold c_cell; lia). congruence. }
    rewrite F2. reflexivity.
  - rewrite D1. unfold NumberOfConstraints. rewrite F4. auto.
  - exists nn. split; auto. split; auto. intros i Hi.
    eapply con_step_options; [| |apply D5]; auto. unfold NumberOfConstraints. rewrite F4. auto.
Qed.

Lemma feasible_step p c y' e p2 st st' y cs D i co cols A b : final_step p c y' e p2 st st' y cs D ->
  nth_error (p_eqs p) i = Some co -> ct_data co = CLinear cols A b -> has_cols cols A -> on_variables p i ->
  (en_dinf e <= 1 -> inequality_holds A b (nth i (p_cliques p) []) y') /\
  (en_dinf e < 1 -> forall k, (k < length A)%nat -> row_value (nth k A []) (nth i (p_cliques p) []) y' < nth k b 0).
Proof.
  intros F Hi Hd Hc Hv. destruct F as [P1 P2 P3 (G1 & G2 & G3) P4 P5 (n & P6 & P7 & P8)].
  pose proof (nth_error_lt _ _ _ Hi) as Hl.
  destruct (P8 i Hl) as (c0 & s & s' & cl & z & S1 & S2 & S3 & S4 & S5 & S6).
  rewrite G1, Hi in S1. injection S1 as <-. rewrite G2 in S4. rewrite (nth_error_nth_eq _ _ _ [] S4). rewrite Hd in S6.
  destruct s as [w| | | | |]; try tauto. destruct s' as [w'| | | | |]; try tauto.
  destruct S6 as (W & T1 & T2 & T3 & T4 & T5 & T6 & T7 & T8 & T9). cbn [op_c_weight op_e_weight] in T8.
  pose proof (interior_linear _ _ _ _ P3 S2 T1) as HW. rewrite Forall_forall in HW.
  pose proof (Vars_ok _ _ _ S5) as (V1 & V2). unfold on_variables in Hv. rewrite (nth_error_nth_eq _ _ _ [] S4) in Hv. rewrite Forall_forall in Hv.
  assert (n <= en_dinf e) as Hn by (rewrite P6; apply Rle_abs).
  assert (forall k, (k < length A)%nat -> length (nth k A []) = cols) as HC.
  { intros k Hk. unfold has_cols in Hc. rewrite Forall_forall in Hc. apply Hc. apply nth_In. auto. }
  assert (forall k, (k < length A)%nat -> row_value (nth k A []) cl y' = row_value (nth k A []) cl y / (en_ism e * cs)) as HR.
  { intros k Hk. rewrite P4.
    assert (map (fun x => x / en_ism e / cs) (firstn (length (p_cost p)) y) = map (fun x => / (en_ism e * cs) * x) (firstn (length (p_cost p)) y)) as ->.
    { apply map_ext. intros x. field. lra. }
    rewrite row_value_scaled; [lra| |].
    - rewrite HC by auto. lia.
    - intros j Hj. rewrite HC in Hj by auto. split; [apply Hv; apply nth_In; lia|apply V2; lia]. }
  assert (forall k, (k < length A)%nat -> nth k W 0 * (row_value (nth k A []) cl y - en_ism e * cs * nth k b 0) <= n - 1 /\ 0 < nth k W 0) as HK.
  { intros k Hk. specialize (T8 k Hk). specialize (T9 k Hk). rewrite (slack_row cols _ cl y z) in T8 by auto.
    pose proof (Rle_abs (nth k (nth i D []) 0)). split; [lra|]. apply HW. apply nth_In. lia. }
  assert (0 < en_ism e * cs) as Hpos by (apply Rmult_lt_0_compat; auto).
  assert (forall u v, 0 < v -> u / v * v = u) as Hdiv by (intros u v Hv'; field; lra).
  split.
  - intros He k Hk. destruct (HK k Hk) as [K1 K2]. rewrite HR by auto. apply (Rmult_le_reg_r (en_ism e * cs)); auto. rewrite Hdiv by auto. nra.
  - intros He k Hk. destruct (HK k Hk) as [K1 K2]. rewrite HR by auto. apply (Rmult_lt_reg_r (en_ism e * cs)); auto. rewrite Hdiv by auto. nra.
Qed.

(** The slack of a second-order cone at the scaled point. *)
Lemma soc_slack_entry A b t vars y z k : length A = length z -> Vars y vars = Ok z ->
  entry_of (soc_slack A b t z) k = t * nth k b 0 - column_value A vars y k.
Proof.
  intros Hl Hv. apply Vars_ok in Hv as (H1 & H2). unfold soc_slack, Spec_Soc.slack, soc_columns, column_value.
  assert (forall f : nat -> R, (forall j, f j = nth k (nth j A []) 0) ->
    rsum (length A) (fun j => nth j z 0 * f j) = total (fun j => nth k (nth j A []) 0 * nth (nth j vars 0%nat) y 0) (seq 0 (length A))) as HS.
  { intros f Hf. rewrite rsum_total. apply total_ext. intros j Hj. apply in_seq in Hj. rewrite Hf, (proj2 (H2 j ltac:(lia))). ring. }
  destruct k; cbn [entry_of fst snd spin_of]; rewrite HS; auto.
Qed.

Lemma column_value_scaled A vars y m t k : length A = length vars ->
  (forall j, (j < length A)%nat -> (nth j vars 0%nat < m)%nat /\ (nth j vars 0%nat < length y)%nat) ->
  column_value A vars (map (fun x => t * x) (firstn m y)) k = t * column_value A vars y k.
Proof.
  intros Hl H. unfold column_value. rewrite <- total_scale. apply total_ext. intros j Hj. apply in_seq in Hj.
  destruct (H j ltac:(lia)) as [H1 H2]. rewrite (nth_map_lt _ _ _ 0 0) by (rewrite firstn_length; lia).
  rewrite nth_firstn_lt by auto. lra.
Qed.

(** Membership in the cone by entries. *)
Lemma lorentz_entries n x : Spec_Soc.cone (Spec_Soc.euclid n) x <-> lorentz n (entry_of x).
Proof.
  unfold Spec_Soc.cone, lorentz, Spec_Soc.euclid. rewrite rsum_total, <- seq_shift, total_map. reflexivity.
Qed.
Lemma lorentz_entries_interior n x : Spec_Soc.interior (Spec_Soc.euclid n) x <-> lorentz_interior n (entry_of x).
Proof.
  unfold Spec_Soc.interior, lorentz_interior, Spec_Soc.euclid. rewrite rsum_total, <- seq_shift, total_map. reflexivity.
Qed.
Lemma lorentz_scale n s s' t : 0 < t -> (forall k, (k <= n)%nat -> s' k = t * s k) -> (lorentz n s <-> lorentz n s').
Proof.
  intros Ht H. unfold lorentz. rewrite (H 0%nat) by lia.
  assert (total (fun k => s' k * s' k) (seq 1 n) = t * t * total (fun k => s k * s k) (seq 1 n)) as ->.
  { rewrite <- total_scale. apply total_ext. intros k Hk. apply in_seq in Hk. rewrite H by lia. ring. }
  assert (0 < t * t) by nra. split; intros [H1 H2]; split; try nra.
Qed.
Lemma lorentz_interior_scale n s s' t : 0 < t -> (forall k, (k <= n)%nat -> s' k = t * s k) -> (lorentz_interior n s <-> lorentz_interior n s').
Proof.
  intros Ht H. unfold lorentz_interior. rewrite (H 0%nat) by lia.
  assert (total (fun k => s' k * s' k) (seq 1 n) = t * t * total (fun k => s k * s k) (seq 1 n)) as ->.
  { rewrite <- total_scale. apply total_ext. intros k Hk. apply in_seq in Hk. rewrite H by lia. ring. }
  assert (0 < t * t) by nra. split; intros [H1 H2]; split; try nra.
Qed.

Lemma feasible_cone_step p c y' e p2 st st' y cs D i co n A b : final_step p c y' e p2 st st' y cs D ->
  nth_error (p_eqs p) i = Some co -> ct_data co = CSoc n A b -> on_variables p i ->
  (en_dinf e <= 1 -> lorentz n (cone_slack A b (nth i (p_cliques p) []) y')) /\
  (en_dinf e < 1 -> lorentz_interior n (cone_slack A b (nth i (p_cliques p) []) y')).
Proof.
  intros F Hi Hd Hv. destruct F as [P1 P2 P3 (G1 & G2 & G3) P4 P5 (m & P6 & P7 & P8)].
  pose proof (nth_error_lt _ _ _ Hi) as Hl.
  destruct (P8 i Hl) as (c0 & s & s' & cl & z & S1 & S2 & S3 & S4 & S5 & S6).
  rewrite G1, Hi in S1. injection S1 as <-. rewrite G2 in S4. rewrite (nth_error_nth_eq _ _ _ [] S4). rewrite Hd in S6.
  destruct s as [| | |w| |]; try tauto. destruct s' as [| | |w'| |]; try tauto.
  destruct S6 as (x & (W & sq & T1 & T2 & T3 & T4 & T5 & T6 & T7 & T8 & T9) & Tx & N1 & N2). cbn [op_c_weight] in T8.
  pose proof (interior_soc _ _ _ _ P3 S2 T1) as HW. rewrite T3 in HW.
  pose proof (Vars_ok _ _ _ S5) as (V1 & V2). unfold on_variables in Hv. rewrite (nth_error_nth_eq _ _ _ [] S4) in Hv. rewrite Forall_forall in Hv.
  assert (m <= en_dinf e) as Hn by (rewrite P6; apply Rle_abs).
  assert (0 < en_ism e * cs) as Hpos by (apply Rmult_lt_0_compat; auto).
  pose proof (SocAlgebra.euclid_form n) as F.
  pose proof (SocProofs.sqrt_interior n _ F _ _ HW T7) as HS.
  assert (forall k, cone_slack A b cl y' k = / (en_ism e * cs) * entry_of (soc_slack A b (en_ism e * cs) z) k) as HE.
  { intros k. rewrite (soc_slack_entry A b _ cl y z k) by auto. unfold cone_slack. rewrite P4.
    assert (map (fun x => x / en_ism e / cs) (firstn (length (p_cost p)) y) = map (fun x => / (en_ism e * cs) * x) (firstn (length (p_cost p)) y)) as ->.
    { apply map_ext. intros u. field. lra. }
    rewrite column_value_scaled; [field; lra|lia|]. intros j Hj. split; [apply Hv; apply nth_In; lia|apply V2; lia]. }
  assert (0 < / (en_ism e * cs)) as Hinv by (apply Rinv_0_lt_compat; auto).
  set (sl := soc_slack A b (en_ism e * cs) z) in *.
  split; intros He.
  - apply (lorentz_scale n (entry_of sl) _ (/ (en_ism e * cs))); auto. apply lorentz_entries.
    apply (near_cone n _ F sq sl); auto; rewrite <- T8; lra.
  - apply (lorentz_interior_scale n (entry_of sl) _ (/ (en_ism e * cs))); auto. apply lorentz_entries_interior.
    apply (SocNewton.near_interior n _ F sq sl (Rmax m 0)); auto; rewrite <- ?T8.
    + unfold Rmax. destruct (Rle_dec m 0); lra.
    + pose proof (Rmax_l m 0). lra.
    + pose proof (Rmax_l m 0). lra.
Qed.

(** ** C37 for linear constraints *)

Lemma session_interior nf p n : conex_session nf p n -> p_init p = true -> interior (nm_bk n) /\ stats_positive n.
Proof.
  induction 1 as [m n|p n k p' r Hs IH Hk E|p n c r Hs IH Hd E]; intros Hi.
  - discriminate.
  - apply IH. destruct (step_rest _ _ _ _ E) as [HR _]. specialize (HR Hk). unfold rest in HR.
    repeat match type of HR with (_, _) = (_, _) => apply pair_equal_spec in HR as [HR ?] end. congruence.
  - unfold ConexSolve in E. set (iters := mode_of nf c) in *.
    pose proof E as E0. unfold Solve in E0. destruct (quadratic_precondition p c) eqn:Hq; cbn [negb] in E0.
    2:{ injection E0 as <-. cbn [rt_num rt_prog] in *. auto. }
    destruct (Nat.eqb_spec (NumberOfConstraints p) 0) as [|Hn]. { injection E0 as <-. cbn [rt_num rt_prog] in *. apply IH. exact Hi. }
    clear E0. assert (sound_start p n c) as Hso.
    { unfold sound_start, reinitialises. destruct (p_init p) eqn:Ep; auto. }
    apply (Solve_keeps (conex iters nf) interior p n c r); auto; [lia| |].
    + intros p2 Ei. split; [apply interior_keeps|]. apply initial_interior. destruct Hso as [|[? _]]; auto.
    + apply initial_positive. destruct Hso as [|[_ ?]]; auto.
Qed.
