(** Property C72: a client of the C interface that builds a conic program entry by
    entry and maximises. *)
From Coq Require Import List Arith ZArith Reals Bool Lia Lra.
From Verif Require Import Base BaseFacts ProgramModel ApiModel SolveModel LinearModel ConcreteBackend ClientModel Spec_Linear Spec_Assembly Spec_Program Spec_Solve
  Spec_Preprocess Spec_Conex Spec_Semidefinite Spec_Client Spec_Conic ProgramProofs ProgramRun ConexRun ConeRun HermRun HermEstimate ClientFacts ClientProofs ClientRun
  ConicWrites ConicProofs ConicRun SolveProofs SolveFacts Prop_Solve Prop_Program Prop_Conex Prop_Client.
From Verif Require Spec_Hyper Prop_Semidefinite.
Import ListNotations.
Open Scope R_scope.

(** The calls succeed, and the points that satisfy the constraints of the program
    are those that satisfy the rows, cones and matrix inequalities with the last
    coefficients that were written. *)
Theorem C72_same_points : forall n gs, (0 < n)%nat -> Forall (cgroup_ok n) gs -> exists p, conic_client n gs = Ok p /\
  forall b y, feasible (set_objective p b) y <-> forall g, In g gs -> cgroup_holds n g y.
Proof.
  intros n gs Hn F. destruct (conic_run n gs Hn F) as (p & ks & dss & E & _). exists p. split; auto.
  intros b y. destruct (conic_program n gs p b Hn F E) as (ds & C). exact (conic_feasible n gs ds b _ F C y).
Qed.

(** The solve returns a point.  If the last reported norm is at most one, by the
    error of the eigenvalue estimates if there are matrix inequalities, the point
    satisfies everything, and no other such point is better by more than the degree
    of the barrier times [mu] over the scalings.  C76 is about clients with costs. *)
Theorem C72_maximize : forall env n gs b p st c, (0 < n)%nat -> Forall (cgroup_ok n) gs -> (forall l, ~ In (Cost l) gs) -> Exists crestricts gs -> conic_client n gs = Ok p ->
  plain_options (APIConvertSolverConfiguration c) -> Exists cequates gs \/ cspanning n gs ->
  exists r y e t bs cs, CONEX_Maximize env p st b c = Ok (Returned _ r) /\ rt_y _ r = YVec y /\ length y = n /\ rt_log _ r = e :: t /\
    scalings (rt_prog _ r) (rt_num _ r) bs cs /\ 0 < bs /\ 0 < cs /\ (a_enable_rescaling c = 0%Z -> bs = 1 /\ cs = 1) /\ 0 < en_ism e /\
    (certified env gs (en_dinf e) -> (forall g, In g gs -> ~ cequates g) \/ exact_pivots (set_objective p b) (nm_bk (rt_num _ r)) ->
     (forall g, In g gs -> cgroup_holds n g y) /\
     (length b = n -> forall z, (forall g, In g gs -> cgroup_holds n g z) ->
      product b z <= product b y + INR (list_sum (map cgroup_count gs)) * (1 / (en_ism e * en_ism e)) / (bs * cs))).
Proof.
  intros env n gs b p st c Hn F HN HX E PO HS.
  destruct (conic_solves env n gs b p st c Hn F HX E) as (r & y & e & t & bs & cs & H); auto.
  { intros l z Hl. destruct (HN l Hl). }
  { intros (l & Hl). destruct (HN l Hl). }
  exists r, y, e, t, bs, cs. destruct H as (H1 & H2 & H3 & H4 & H5 & H6 & H7 & H8 & H9 & H). repeat (split; [assumption|]).
  intros HC HP. destruct (H HC HP) as [K1 K2]. split; [exact K1|]. intros Hb z Hz. specialize (K2 Hb z Hz). unfold value in K2.
  assert (forall w, total (fun g => match g with Cost l => cost_at n l w | _ => 0 end) gs = 0) as HZ; [|rewrite !HZ in K2; lra].
  intros w. clear - HN. induction gs as [|g l IH]; [reflexivity|]. unfold total in *. cbn [fold_right]. rewrite IH by (intros l0 H0; apply (HN l0); right; auto).
  destruct g as [|? ?|? ? ?|l0]; try lra. destruct (HN l0 (or_introl eq_refl)).
Qed.

(** A constraint whose block cannot be computed stops every solve. *)
Lemma unusable_stops env p n c i co : starts p c -> plain_options c ->
  nth_error (p_eqs p) i = Some co -> (forall s q, con_schur co s <> Ok q) -> forall r, ConexSolve env p n c <> Ok r.
Proof.
  intros H P Ei Hu r E. pose proof (po_limit _ P) as Hit. pose proof (po_steps _ P) as Hf. apply starts_iff in H as [H1 H2]. unfold ConexSolve, Solve in E. rewrite H1 in E. cbn [negb] in E.
  destruct (Nat.eqb_spec (NumberOfConstraints p) 0); [lia|]. apply bind_ok in E as (p2 & E2 & E).
  destruct (p_stats p2) as [ss|]; [|discriminate]. apply bind_ok in E as (v & Ev & _).
  set (m := Z.to_nat (max_iterations c)) in Ev at 1. assert (exists m', m = S m') as (m' & Em) by (exists (pred m); unfold m; lia).
  rewrite Em in Ev. cbn [loop] in Ev.
  apply bind_ok in Ev as (v1 & Ev & _). unfold iteration in Ev. cbn [l_centering_steps l_max l_ism l_kkt_error] in Ev.
  match type of Ev with (if ?f then _ else _) = _ => assert (f = false) as Ef end.
  { destruct (Z.leb_spec (final_centering_steps c) 0); [|apply andb_false_r]. destruct Hf as [Hf|(Hf1 & Hf2 & Hf3)]; [lia|]. rewrite andb_true_r.
    destruct (Rleb_spec (inv_sqrt_mu_max c) 0); [lra|]. cbn [xgt orb]. destruct (Rltb_spec (kkt_error_tolerance c) 0); [lra|]. apply Z.leb_gt. cbn. lia. }
  rewrite Ef in Ev.
  apply bind_ok in Ev as (st0 & Ea & _). cbn [bk_assemble conex] in Ea. unfold con_assemble, with_solver in Ea.
  destruct (p_solver p2) as [[cl du]|]; [|discriminate]. apply bind_ok in Ea as (((d, o), bs) & _ & Ea). apply bind_ok in Ea as (q & Eq & _).
  destruct (Initialize_fields _ _ _ _ E2) as (_ & _ & _ & Fe & _).
  assert (p_eqs p2 = p_eqs p) as Fe' by (rewrite ?Fe; reflexivity).
  assert (In i (seq 0 (length (p_eqs p2)))) as Hi.
  { apply in_seq. rewrite Fe'. split; [lia|]. apply nth_error_Some. congruence. }
  clear - Eq Hi Fe' Ei Hu. revert q Eq Hi. generalize (seq 0 (length (p_eqs p2))). induction l as [|a l IH]; intros q Eq Hi; [destruct Hi|].
  cbn [mapM] in Eq. apply bind_ok in Eq as (x & Ex & Eq). apply bind_ok in Eq as (xs & Exs & _).
  destruct Hi as [->|Hi]; [|eapply IH; eauto]. apply bind_ok in Ex as ((co', s) & Eg & Ex). unfold get_con in Eg. rewrite Fe', Ei in Eg.
  destruct (nth_error _ i) in Eg; [|discriminate]. injection Eg as <- <-. exact (Hu _ _ Ex).
Qed.

Lemma objective_kept p b : p_eqs (set_objective p b) = p_eqs p /\ p_quadratic (set_objective p b) = p_quadratic p.
Proof. unfold set_objective, AddLinearCost. destruct (negb _); auto. Qed.

(** A client that never writes a coefficient of the last variable, because all of
    them are zero, gets no result from any solve. *)
Definition short_cone : list cgroup :=
  [Rows (Upper [[0; 1]] [1]); Cone 1 [mkWrite (Some 0%Z) 1 1 0 0; mkWrite None 1 0 0 0]].
Theorem C72_last_column_refuted : exists p, conic_client 2 short_cone = Ok p /\ cspanning 2 short_cone /\
  forall env st b c, plain_options (APIConvertSolverConfiguration c) -> forall r, CONEX_Maximize env p st b c <> Ok r.
Proof.
  eexists. split; [reflexivity|]. split.
  - intros z H. pose proof (H _ (or_introl eq_refl)) as H1. pose proof (H _ (or_intror (or_introl eq_refl))) as H2. cbn in H1.
    specialize (H1 _ (or_introl eq_refl)). specialize (H2 1%nat ltac:(lia)).
    cbv -[Rplus Rmult Rminus Ropp IZR nth] in H1. cbv -[Rplus Rmult Rminus Ropp IZR nth] in H2. cbn [nth] in H1, H2.
    destruct z as [|a [|a' z]]; cbn [nth] in H1, H2; intros [|[|v]] Hv; cbn [nth]; try lra; lia.
  - intros env st b c P r. unfold CONEX_Maximize.
    eapply (unusable_stops env _ st _ 1%nat); [|exact P| |].
    + split.
      * rewrite (proj2 (objective_kept _ b)). discriminate.
      * rewrite (proj1 (objective_kept _ b)). discriminate.
    + rewrite (proj1 (objective_kept _ b)). reflexivity.
    + intros s q. unfold con_schur. cbn [ct_data]. destruct s as [| | |w| |]; try discriminate. unfold soc_ready. destruct (sw_W w); [|discriminate].
      cbn. rewrite orb_true_r. discriminate.
Qed.

(** A cone with a coefficient that is written twice and a real matrix inequality:
    [(2 - y0, -y1)] in the cone of order one and [[1 - y1, -y0; -y0, 1] >= 0]. *)
Definition pair_groups : list cgroup :=
  [Cone 1 [mkWrite (Some 1%Z) 5 1 0 0; mkWrite (Some 0%Z) 1 0 0 0; mkWrite None 2 0 0 0; mkWrite (Some 1%Z) 1 1 0 0];
   Matrix 1 2 [mkWrite None 1 0 0 0; mkWrite None 1 1 1 0; mkWrite (Some 0%Z) 1 0 1 0; mkWrite (Some 1%Z) 1 0 0 0]].
Ltac writes_tac := repeat match goal with
  | |- Forall _ (_ :: _) => apply Forall_cons
  | |- Forall _ [] => apply Forall_nil
  | |- _ /\ _ => split
  | |- in_range _ _ => unfold in_range; cbn [w_r w_c w_dim w_var]
  | |- acceptable _ _ => unfold acceptable, has_place; cbn
  | |- forall v, Some _ = Some v -> _ => let v := fresh in let H := fresh in intros v H; injection H as <-
  | |- forall v, None = Some v -> _ => discriminate
  | |- Exists _ _ => solve [repeat (left; reflexivity) || right]
  | |- True => exact I
  end; try lia; auto.
Example C72_example : Forall (cgroup_ok 2) pair_groups /\ Exists crestricts pair_groups /\ cspanning 2 pair_groups /\
  (exists p, conic_client 2 pair_groups = Ok p /\ feasible (set_objective p [1; 1]) [0; 1] /\ ~ feasible (set_objective p [1; 1]) [0; 3]).
Proof.
  assert (Forall (cgroup_ok 2) pair_groups) as F.
  { unfold pair_groups, cgroup_ok, writes_ok. writes_tac. all: cbn; intros v Hv; try discriminate Hv; injection Hv as <-; lia. }
  split; [exact F|]. split; [left; exact I|]. split.
  { intros z H. pose proof (H _ (or_introl eq_refl)) as H1. cbn [cgroup_flat] in H1. pose proof (H1 0%nat ltac:(lia)) as H2. pose proof (H1 1%nat ltac:(lia)) as H3.
    cbv -[Rplus Rmult Rminus Ropp IZR nth] in H2, H3. cbn [nth] in H2, H3. intros [|[|v]] Hv; [lra|lra|lia]. }
  destruct (C72_same_points 2 pair_groups ltac:(lia) F) as (p & E & H). exists p. split; [exact E|]. rewrite !H. split.
  - intros g [<-|[<-|[]]].
    + split; cbv -[Rplus Rmult Rminus Ropp IZR Rle Rge]; lra.
    + exists 0%nat. split; [lia|]. split; [reflexivity|]. split.
      * intros [|[|r]] [|[|c]] Hr Hc; try lia; cbv -[Rplus Rmult Rminus Ropp IZR]; lra.
      * intros z. cbv -[Rplus Rmult Rminus Ropp IZR Rle Rge].
        match goal with |- ?a <= ?b => replace b with (z 1%nat * z 1%nat) by ring end. apply Rle_0_sqr.
  - intros G. destruct (G _ (or_introl eq_refl)) as [_ G2]. cbv -[Rplus Rmult Rminus Ropp IZR Rle Rge] in G2. lra.
Qed.

(** Maximise [y / 10] over [(1/10, -y, 1/20)] in the cone of order two. *)
Definition disk_groups : list cgroup := [Cone 2 [mkWrite None (/ 10) 0 0 0; mkWrite (Some 0%Z) 1 1 0 0; mkWrite None (/ 20) 2 0 0]].
Example C72_cone_example : forall env st, exists p r e t, let gs := disk_groups in
  conic_client 1 gs = Ok p /\ Forall (cgroup_ok 1) gs /\ Exists crestricts gs /\ cspanning 1 gs /\ plain_options (APIConvertSolverConfiguration line_api) /\
  CONEX_Maximize env p st [/ 10] line_api = Ok (Returned _ r) /\ rt_log _ r = e :: t /\ certified env gs (en_dinf e) /\ (forall g, In g gs -> ~ cequates g) /\
  INR (list_sum (map cgroup_count gs)) * (1 / (en_ism e * en_ism e)) = 2 / 100.
Proof.
  intros env st. destruct (disk_handed env (/ 10) st 4 5) as (r & y & e & H & Hy & He & Hm); [lia|rewrite Rabs_pos_eq; lra|].
  destruct (hb_entry _ _ _ _ _ _ _ H) as (t & Et). pose proof (hb_solve _ _ _ _ _ _ _ H) as E.
  eexists _, r, e, t. cbv zeta. split; [reflexivity|]. split.
  { unfold disk_groups, cgroup_ok, writes_ok. writes_tac. all: cbn; intros v Hv; try discriminate Hv; injection Hv as <-; lia. }
  split; [left; exact I|]. split.
  { intros z F. pose proof (F _ (or_introl eq_refl) 1%nat ltac:(lia)) as F1. cbv -[Rplus Rmult Rminus Ropp IZR nth] in F1. cbn [nth] in F1. intros [|v] Hv; [lra|lia]. }
  split. { split; cbn; try lia; try lra; auto; discriminate. }
  match goal with |- CONEX_Maximize _ ?p _ _ _ = _ /\ _ => assert (set_objective p [/ 10] = disk_program (/ 10)) as EP by reflexivity end.
  split. { unfold CONEX_Maximize. rewrite EP. exact E. }
  split; [exact Et|]. split. { right; left. split; [exact He|]. intros g [<-|[]] []. } split. { intros g [<-|[]] []. } rewrite Hm. cbn. lra.
Qed.

(** Maximise [y / 10] subject to [[1/10, -iy; iy, 1/10] >= 0], with estimates from
    traces. *)
Definition lmi_groups : list cgroup := [Matrix 2 2 [mkWrite None (/ 10) 0 0 0; mkWrite None (/ 10) 1 1 0; mkWrite (Some 0%Z) 1 0 1 1]].
Example C72_matrix_example : forall f g st, exists p r e t, let gs := lmi_groups in let env := mkEnv f trace_estimate g in
  conic_client 1 gs = Ok p /\ Forall (cgroup_ok 1) gs /\ Exists crestricts gs /\ cspanning 1 gs /\ plain_options (APIConvertSolverConfiguration line_api) /\
  CONEX_Maximize env p st [/ 10] line_api = Ok (Returned _ r) /\ rt_log _ r = e :: t /\ certified env gs (en_dinf e) /\ (forall g, In g gs -> ~ cequates g) /\
  INR (list_sum (map cgroup_count gs)) * (1 / (en_ism e * en_ism e)) = 2 / 100.
Proof.
  intros f g st. set (env := mkEnv f trace_estimate g).
  destruct (lmi_handed env (/ 10) st 4 5) as (r & y & e & H & Hy & He & Hm & Hs); [lia|apply Prop_Semidefinite.lmi_tame_trace; lra|].
  destruct (hb_entry _ _ _ _ _ _ _ H) as (t & Et). pose proof (hb_solve _ _ _ _ _ _ _ H) as E.
  assert (exists p, conic_client 1 lmi_groups = Ok p /\ set_objective p [/ 10] = lmi_program (/ 10)) as (p & E1 & E2).
  { eexists. split; [|].
    - cbv -[Rplus Rmult IZR Ropp Rinv Req_EM_T]. repeat match goal with |- context [Req_EM_T ?a ?b] => destruct (Req_EM_T a b) end; reflexivity.
    - reflexivity. }
  exists p, r, e, t. cbv zeta. split; [exact E1|]. split.
  { unfold lmi_groups, cgroup_ok, writes_ok. writes_tac. all: cbn; intros v Hv; try discriminate Hv; injection Hv as <-; lia. }
  split; [left; exact I|]. split.
  { intros z F. pose proof (F _ (or_introl eq_refl) 1%nat 0%nat 1%nat ltac:(lia) ltac:(lia) ltac:(lia)) as F1.
    cbv -[Rplus Rmult Rminus Ropp IZR nth] in F1. cbn [nth] in F1. intros [|v] Hv; [lra|lia]. }
  split. { split; cbn; try lia; try lra; auto; discriminate. }
  split. { unfold CONEX_Maximize. rewrite E2. exact E. }
  split; [exact Et|]. split. { right; right. exists 0. split; [lra|]. split; [apply trace_accurate|lra]. } split. { intros x [<-|[]] []. } rewrite Hm. cbn. lra.
Qed.
Print Assumptions C72_same_points.
Print Assumptions C72_maximize.
Print Assumptions C72_last_column_refuted.
