(** Property C76: a client of the C interface that enters a convex quadratic program
    entry by entry and maximises. *)
From Coq Require Import List Arith ZArith Reals Bool Lia Lra.
From Verif Require Import Base BaseFacts ProgramModel ApiModel SolveModel LinearModel ConcreteBackend ClientModel Spec_Linear Spec_Assembly Spec_Program Spec_Solve
  Spec_Preprocess Spec_Conex Spec_Semidefinite Spec_Client Spec_Conic ProgramProofs ProgramRun ConexRun ClientFacts ClientProofs ClientRun
  ConicWrites ConicProofs ConicRun SolveProofs SolveFacts Prop_Solve Prop_Program Prop_Conex Prop_Client.
From Verif Require Prop_Conic.
Import ListNotations.
Open Scope R_scope.

(** The calls succeed, and the program minimises [-value]: the last coefficient that
    was written to each entry of the matrices counts, and the linear part is the one
    of the call that maximises. *)
Theorem C76_objective : forall n gs b, (0 < n)%nat -> Forall (cgroup_ok n) gs -> length b = n -> exists p, conic_client n gs = Ok p /\
  forall y, objective (set_objective p b) 1 y = - value n gs b y.
Proof.
  intros n gs b Hn F Hb. destruct (conic_run n gs Hn F) as (p & ks & dss & E & _). exists p. split; auto.
  intros y. destruct (conic_program n gs p b Hn F E) as (ds & C). rewrite (conic_objective n gs ds b _ F C 1 y); auto.
  unfold value. unfold gvalue. lra.
Qed.

(** With the line search on and rescaling off, the solve of a convex program returns
    a point; if the last norm certifies the inequalities, the point satisfies
    everything and is nearly the best. *)
Theorem C76_maximize : forall env n gs b p st c, (0 < n)%nat -> Forall (cgroup_ok n) gs -> Exists crestricts gs -> conic_client n gs = Ok p ->
  cconvex n gs -> cost_options gs (APIConvertSolverConfiguration c) -> plain_options (APIConvertSolverConfiguration c) -> Exists cequates gs \/ cspanning n gs ->
  exists r y e t bs cs, CONEX_Maximize env p st b c = Ok (Returned _ r) /\ rt_y _ r = YVec y /\ length y = n /\ rt_log _ r = e :: t /\
    scalings (rt_prog _ r) (rt_num _ r) bs cs /\ 0 < bs /\ 0 < cs /\ (a_enable_rescaling c = 0%Z -> bs = 1 /\ cs = 1) /\ 0 < en_ism e /\
    (certified env gs (en_dinf e) -> (forall g, In g gs -> ~ cequates g) \/ exact_pivots (set_objective p b) (nm_bk (rt_num _ r)) ->
     (forall g, In g gs -> cgroup_holds n g y) /\
     (length b = n -> forall z, (forall g, In g gs -> cgroup_holds n g z) ->
      value n gs b z <= value n gs b y + INR (list_sum (map cgroup_count gs)) * (1 / (en_ism e * en_ism e)) / (bs * cs))).
Proof. exact conic_solves. Qed.

(** Without inequalities the point is a maximiser, whatever the options that limit
    the steps and whatever norm is reported. *)
Theorem C76_exact : forall env n gs b p st c, (0 < n)%nat -> Forall (cgroup_ok n) gs -> Exists crestricts gs -> conic_client n gs = Ok p ->
  cconvex n gs -> cost_options gs (APIConvertSolverConfiguration c) -> plain_options (APIConvertSolverConfiguration c) -> Exists cequates gs \/ cspanning n gs ->
  list_sum (map cgroup_count gs) = 0%nat -> length b = n ->
  exists r y, CONEX_Maximize env p st b c = Ok (Returned _ r) /\ rt_y _ r = YVec y /\ length y = n /\
    ((forall g, In g gs -> ~ cequates g) \/ exact_pivots (set_objective p b) (nm_bk (rt_num _ r)) ->
     (forall g, In g gs -> cgroup_holds n g y) /\
     forall z, (forall g, In g gs -> cgroup_holds n g z) -> value n gs b z <= value n gs b y).
Proof.
  intros env n gs b p st c Hn F HX E HC HO PO HS H0 Hb.
  destruct (conic_solves env n gs b p st c Hn F HX E HC HO PO HS) as (r & y & e & t & bs & cs & H1 & H2 & H3 & H4 & H5 & H6 & H7 & H8 & H9 & H).
  exists r, y. repeat (split; [assumption|]). intros HP. destruct (H (or_introl H0) HP) as [K1 K2]. split; [exact K1|].
  intros z Hz. specialize (K2 Hb z Hz). rewrite H0 in K2. cbn [INR] in K2. unfold Rdiv in K2. rewrite !Rmult_0_l in K2. lra.
Qed.

(** With the default options the value 1 (solved) comes back and no point. *)
Theorem C76_default_options_refuted : forall env n gs b p st c, (0 < n)%nat -> Forall (cgroup_ok n) gs -> conic_client n gs = Ok p ->
  (exists l, In (Cost l) gs) -> exists r, CONEX_Maximize env p st b (CONEX_SetDefaultOptions c) = Ok (Returned _ r) /\
  rt_value _ r = 1%Z /\ rt_y _ r = YUntouched /\ rt_log _ r = [].
Proof.
  intros env n gs b p st c Hn F E (l & Hl). destruct (conic_program n gs p b Hn F E) as (ds & C).
  eexists. split; [unfold CONEX_Maximize, ConexSolve; apply C30_violated_precondition|].
  - rewrite (cc_quadratic _ _ _ _ _ C). apply existsb_exists. exists (Cost l). auto.
  - left. reflexivity.
  - repeat split.
Qed.

(** A client that writes only the entries above the diagonal gets another objective:
    [y0 y1 / 2] is written and zero is minimised. *)
Theorem C76_upper_triangle_refuted : exists p, conic_client 2 [Cost [(1, 0%nat, 1%nat)]] = Ok p /\
  objective (set_objective p [0; 0]) 1 [1; 1] = 0 /\ value 2 [Cost [(1, 0%nat, 1%nat)]] [0; 0] [1; 1] = - / 2.
Proof.
  eexists. split; [reflexivity|]. split; cbv -[Rplus Rmult Rminus Ropp IZR Rinv]; lra.
Qed.

(** [3 y0 + 3 y1 - y0^2 - y0 y1 - y1^2], with a diagonal entry that is written twice:
    the client gets the maximiser. *)
Definition bowl : list cgroup := [Cost [(5, 0%nat, 0%nat); (1, 0%nat, 1%nat); (2, 0%nat, 0%nat); (1, 1%nat, 0%nat); (2, 1%nat, 1%nat)]].
Definition quad_api : api_config := mkApi 0 0 1000 0 10000 1 1 1 4 1 0 0 2 5 0 100000 10000000000 0 0.
Lemma bowl_ok : Forall (cgroup_ok 2) bowl.
Proof.
  constructor; [|constructor]. split; [repeat constructor|]. intros [|[|r]] [|[|c]]; reflexivity.
Qed.
Lemma bowl_at l y : In (Cost l) bowl -> cost_at 2 l y = (nth 0 y 0 + nth 1 y 0) * (nth 0 y 0 + nth 1 y 0) + nth 0 y 0 * nth 0 y 0 + nth 1 y 0 * nth 1 y 0.
Proof. intros [H|[]]. injection H as <-. unfold cost_at, total. cbn [seq fold_right cost_entry fold_left Nat.eqb andb]. ring. Qed.
Lemma bowl_convex : cconvex 2 bowl.
Proof.
  intros l z H. rewrite (bowl_at _ _ H). pose proof (Rle_0_sqr (nth 0 z 0 + nth 1 z 0)). pose proof (Rle_0_sqr (nth 0 z 0)). pose proof (Rle_0_sqr (nth 1 z 0)).
  unfold Rsqr in *. lra.
Qed.
Lemma bowl_spans : cspanning 2 bowl.
Proof.
  intros z H. specialize (H _ (or_introl eq_refl)). cbn [cgroup_flat] in H. rewrite (bowl_at _ _ (or_introl eq_refl)) in H.
  pose proof (Rle_0_sqr (nth 0 z 0 + nth 1 z 0)). pose proof (Rle_0_sqr (nth 0 z 0)). pose proof (Rle_0_sqr (nth 1 z 0)). unfold Rsqr in *.
  intros [|[|v]] Hv; [| |lia]; apply Rsqr_eq_0; unfold Rsqr; lra.
Qed.
Example C76_example : forall env st, exists p, conic_client 2 bowl = Ok p /\ Forall (cgroup_ok 2) bowl /\ Exists crestricts bowl /\ cconvex 2 bowl /\ cspanning 2 bowl /\
  cost_options bowl (APIConvertSolverConfiguration quad_api) /\ plain_options (APIConvertSolverConfiguration quad_api) /\ list_sum (map cgroup_count bowl) = 0%nat /\
  exists r, CONEX_Maximize env p st [3; 3] quad_api = Ok (Returned _ r) /\ rt_y _ r = YVec [1; 1].
Proof.
  intros env st. destruct (conic_run 2 bowl ltac:(lia) bowl_ok) as (p & ks & dss & E & _). exists p. split; [exact E|]. split; [exact bowl_ok|].
  assert (Exists crestricts bowl) as HX by (left; exact I). split; [exact HX|]. split; [exact bowl_convex|]. split; [exact bowl_spans|].
  assert (cost_options bowl (APIConvertSolverConfiguration quad_api)) as HO by (intros _; split; [discriminate|reflexivity]). split; [exact HO|].
  assert (plain_options (APIConvertSolverConfiguration quad_api)) as PO by (split; cbn; try lia; try lra; auto; discriminate). split; [exact PO|]. split; [reflexivity|].
  destruct (C76_exact env 2 bowl [3; 3] p st quad_api ltac:(lia) bowl_ok HX E bowl_convex HO PO (or_intror bowl_spans) eq_refl eq_refl) as (r & y & H1 & H2 & H3 & H4).
  exists r. split; [exact H1|]. rewrite H2. f_equal. destruct H4 as [_ H4]. { left. intros g [<-|[]] []. }
  specialize (H4 [1; 1]). destruct y as [|y0 [|y1 [|]]]; try discriminate H3.
  assert (forall g, In g bowl -> cgroup_holds 2 g [1; 1]) as HH by (intros g [<-|[]]; exact I). specialize (H4 HH).
  unfold value, bowl, total in H4. cbn [fold_right] in H4. rewrite !(bowl_at _ _ (or_introl eq_refl)) in H4. cbn in H4.
  pose proof (Rle_0_sqr (y0 - 1 + (y1 - 1))). pose proof (Rle_0_sqr (y0 - 1)). pose proof (Rle_0_sqr (y1 - 1)). unfold Rsqr in *.
  assert (y0 - 1 = 0) by (apply Rsqr_eq_0; unfold Rsqr; nra). assert (y1 - 1 = 0) by (apply Rsqr_eq_0; unfold Rsqr; nra).
  f_equal; [lra|]. f_equal. lra.
Qed.

(** The same with the row [y0 <= 1] and the cone [|y1| <= 2 - y0]. *)
Definition bowl_in : list cgroup := bowl ++ [Rows (Upper [[1; 0]] [1]); Cone 1 [mkWrite (Some 1%Z) 1 1 0 0; mkWrite (Some 0%Z) 1 0 0 0; mkWrite None 2 0 0 0]].
Example C76_conic_example : Forall (cgroup_ok 2) bowl_in /\ Exists crestricts bowl_in /\ cconvex 2 bowl_in /\ cspanning 2 bowl_in /\
  cost_options bowl_in (APIConvertSolverConfiguration quad_api) /\ (forall g, In g bowl_in -> ~ cequates g /\ ~ is_matrix g) /\
  (exists p, conic_client 2 bowl_in = Ok p /\ objective (set_objective p [3; 3]) 1 [1; 1] = -3) /\ forall g, In g bowl_in -> cgroup_holds 2 g [1; 1].
Proof.
  assert (Forall (cgroup_ok 2) bowl_in) as F.
  { apply Forall_app. split; [exact bowl_ok|]. constructor; [|constructor; [|constructor]].
    - split; [discriminate|]. split; [reflexivity|]. repeat constructor.
    - unfold cgroup_ok, writes_ok. Prop_Conic.writes_tac. all: cbn; intros v Hv; try discriminate Hv; injection Hv as <-; lia. }
  split; [exact F|]. split; [left; exact I|]. split.
  { intros l z [H|[H|[H|[]]]]; try discriminate. apply bowl_convex. left. exact H. }
  split. { intros z H. apply bowl_spans. intros g Hg. apply H. unfold bowl_in. apply in_or_app. auto. }
  split. { intros _. split; [discriminate|reflexivity]. }
  split. { intros g [<-|[<-|[<-|[]]]]; split; intros []. }
  split.
  { destruct (C76_objective 2 bowl_in [3; 3] ltac:(lia) F eq_refl) as (p & E & H). exists p. split; [exact E|]. rewrite H.
    unfold value, bowl_in, bowl, total. cbn [app fold_right]. rewrite (bowl_at _ _ (or_introl eq_refl)). cbn. lra. }
  intros g [<-|[<-|[<-|[]]]].
  - exact I.
  - intros [|k] Hk; [|cbn in Hk; lia]. cbv -[Rplus Rmult Rminus Ropp IZR Rle Rge]; lra.
  - split; cbv -[Rplus Rmult Rminus Ropp IZR Rle Rge]; lra.
Qed.
Print Assumptions C76_objective.
Print Assumptions C76_maximize.
Print Assumptions C76_exact.
Print Assumptions C76_default_options_refuted.
Print Assumptions C76_upper_triangle_refuted.
