(** Quadratic cone constraints, constraint blocks, reported numbers. *)
From Coq Require Import List Arith Reals Lra Lia Psatz FunctionalExtensionality Bool.
From Verif Require Import Base BaseFacts DenseModel JordanModel SocModel RSum Spec_Soc Spec_SocSteps SocAlgebra SocProofs.
Import ListNotations.
Open Scope R_scope.

(** ** Steps of quadratic cone constraints *)

Definition same_data (o o' : qcone) : Prop :=
  qc_n o' = qc_n o /\ qc_m o' = qc_m o /\ qc_Q o' = qc_Q o /\ qc_A o' = qc_A o /\ qc_c o' = qc_c o.
Lemma same_data_trans o1 o2 o3 : same_data o1 o2 -> same_data o2 o3 -> same_data o1 o3.
Proof. unfold same_data. intuition congruence. Qed.

Lemma qc_ask_ok o q : same_data o (qc_ask o q) /\ qc_W (qc_ask o q) = qc_W o.
Proof. destruct q; cbn; unfold same_data; cbn; auto 10. Qed.
Lemma qc_asks_ok l : forall o, same_data o (fold_left qc_ask l o) /\ qc_W (fold_left qc_ask l o) = qc_W o.
Proof.
  induction l as [|q l IH]; intros o; cbn [fold_left]; [unfold same_data; auto 10|].
  destruct (qc_ask_ok o q) as [D1 W1]. destruct (IH (qc_ask o q)) as [D2 W2]. split; [eapply same_data_trans; eauto|congruence].
Qed.

Lemma qc_slack_ok o k y : QNegativeSlack o k y = jscale (-1) (slack (qc_m o) (qc_A o) (qc_c o) k y).
Proof. apply negative_slack. Qed.

Definition ev_max (e0 e1 : R) : R := if Rlt_dec (Rabs e0) (Rabs e1) then Rabs e1 else Rabs e0.

(** A prepared and taken step. *)
Lemma qc_prepare_ok o k y : metric (qc_n o) (qc_Q o) -> 
  let B := form_of (qc_n o) (qc_Q o) in
  let s := QSqrt (QNorm (qc_n o) (qc_Q o) (snd (qc_W o))) (qc_W o) in
  let d := direction B s (slack (qc_m o) (qc_A o) (qc_c o) k y) in
  QPrepareStep o k y =
    (qc_state o (fst s, snd (qc_W o)) (fst d) (snd d) (snd s) (B (snd s) (snd s)),
     (ev_max (fst d + enorm B d) (fst d - enorm B d), 2 * inner B d d)).
Proof.
  intros M B s d. pose proof (metric_form _ _ M) as F. unfold QPrepareStep. fold s.
  rewrite qc_slack_ok, QQuadRep_qr, (direction_eq (qc_n o)) by auto. fold B d.
  rewrite (QNorm_ok (qc_n o) (qc_Q o) d M). fold B. unfold QSquaredNorm. rewrite QInner_form. fold B. f_equal. f_equal. pose proof (enorm_sq _ _ F d) as E. fold B in E. unfold inner. rewrite <- E. ring.
Qed.

Lemma qc_round_ok o k y step : metric (qc_n o) (qc_Q o) -> interior (form_of (qc_n o) (qc_Q o)) (qc_W o) ->
  exists s z, let B := form_of (qc_n o) (qc_Q o) in
    interior B s /\ root_of B (qc_W o) s /\
    is_exp_equiv B (jscale step (direction B s (slack (qc_m o) (qc_A o) (qc_c o) k y))) z /\ interior B z /\
    qc_W (QTakeStep (fst (QPrepareStep o k y)) step) = quadrep B s z.
Proof.
  intros M HI. pose proof (metric_form _ _ M) as F.
  set (s := QSqrt (QNorm (qc_n o) (qc_Q o) (snd (qc_W o))) (qc_W o)).
  set (d := direction (form_of (qc_n o) (qc_Q o)) s (slack (qc_m o) (qc_A o) (qc_c o) k y)).
  pose proof (interior_cone _ _ HI) as HC. pose proof (QSqrt_ok _ _ _ M HC) as Hs. fold s in Hs.
  pose proof (QExp_ok (qc_n o) (qc_Q o) (jscale step d) M) as He.
  set (z := QExp (QNorm (qc_n o) (qc_Q o) (snd (jscale step d))) (jscale step d)) in *.
  exists s, z. cbv zeta. split; [eapply sqrt_interior; eauto|]. split; [eapply sqrt_root; eauto|].
  split; [eapply is_exp_equiv_ok; eauto|]. split; [eapply exp_interior; eauto|].
  rewrite (quadrep_eq (qc_n o)) by auto.
  rewrite qc_prepare_ok by auto. cbn [fst]. fold s d. unfold QTakeStep. cbn [qc_state qc_W qc_n qc_Q qc_d0 qc_temp2 qc_temp3 qc_wnorm fst snd].
  rewrite <- QInner_form. rewrite <- (surjective_pairing s).
  assert ((if Req_EM_T step 1 then (fst d, snd d) else (step * fst d, vscal step (snd d))) = jscale step d) as ->.
  { destruct (Req_EM_T step 1) as [->|]; auto. apply pair_ext; cbn; intros; ring. }
  fold z. apply (QQuadRep_qr (qc_n o) (qc_Q o) s z).
Qed.

Lemma qc_iterate_ok o r : metric (qc_n o) (qc_Q o) -> interior (form_of (qc_n o) (qc_Q o)) (qc_W o) ->
  same_data o (qc_iterate o r) /\ interior (form_of (qc_n o) (qc_Q o)) (qc_W (qc_iterate o r)).
Proof.
  intros M HI. unfold qc_iterate. destruct (qc_asks_ok (qr_ask r) o) as [D W].
  set (o1 := fold_left qc_ask (qr_ask r) o) in *. pose proof D as (D1 & D2 & D3 & D4 & D5).
  destruct (qr_step r) as [s|].
  - split; [eapply same_data_trans; [apply D|]; unfold same_data; cbn; auto 10|].
    rewrite <- D1, <- D3, <- W in HI. rewrite <- D1, <- D3 in M.
    destruct (qc_round_ok o1 (qr_k r) (qr_y r) s M HI) as (q & z & H1 & H2 & H3 & H4 & ->).
    pose proof (metric_form _ _ M) as F. rewrite (quadrep_eq (qc_n o1)), <- D1, <- D3 by auto.
    apply (qr_interior _ _ F); auto. apply interior_det_ne. auto.
  - split; [eapply same_data_trans; [apply D|]; unfold same_data; cbn; auto 10|].
    cbn. apply (one_interior (qc_n o)). apply metric_form. auto.
Qed.

Lemma qc_run_ok rs : forall o, metric (qc_n o) (qc_Q o) -> interior (form_of (qc_n o) (qc_Q o)) (qc_W o) ->
  interior (form_of (qc_n o) (qc_Q o)) (qc_W (fold_left qc_iterate rs o)).
Proof.
  induction rs as [|r rs IH]; intros o M HI; cbn [fold_left]; auto.
  destruct (qc_iterate_ok o r M HI) as [(D1 & D2 & D3 & D4 & D5) H]. rewrite <- D1, <- D3 in *. apply IH; auto.
Qed.

(** ** Reported numbers *)

Lemma SNormInf_ok n x : is_max_abs (SNormInf n x) (fst x + enorm (euclid n) x) (fst x - enorm (euclid n) x).
Proof. unfold SNormInf, spec_ev, is_max_abs. change (spec_norm n x) with (enorm (euclid n) x). destruct (Rlt_dec _ _); repeat split; auto; lra. Qed.
Lemma ev_max_ok a b : is_max_abs (ev_max a b) a b.
Proof. unfold ev_max, is_max_abs. destruct (Rlt_dec _ _); repeat split; auto; lra. Qed.

Lemma report_ok e0 e1 : e1 <= e0 -> report_slack e0 e1 = (- e0, - e1, e0 * e0 + e1 * e1, - e0 - e1).
Proof. intros H. unfold report_slack. rewrite Rmin_right, Rmax_left by auto. apply f_equal2; [apply f_equal2; [reflexivity|ring]|ring]. Qed.

Lemma enorm_neg n B x : form n B -> enorm B (jscale (-1) x) = enorm B x.
Proof. intros F. unfold enorm, jscale. cbn [snd]. rewrite (B_scal n B F), (B_scal_r n B F). f_equal. ring. Qed.
Lemma qr_neg_eq n B x y : form n B -> qr B x (jscale (-1) y) = jscale (-1) (qr B x y).
Proof. intros F. apply pair_ext; [|intros i]; destruct (qr_neg n B F x y 0%nat) as [E _]; [rewrite E; cbn; ring|]. rewrite (proj2 (qr_neg n B F x y i)). cbn. ring. Qed.

Lemma report_spec n B v : form n B -> slack_report B v (report_slack (fst (jscale (-1) v) + enorm B (jscale (-1) v)) (fst (jscale (-1) v) - enorm B (jscale (-1) v))).
Proof.
  intros F. pose proof (enorm_pos B v). pose proof (enorm_sq n B F v) as E. rewrite (enorm_neg n) by auto. cbn [fst jscale].
  rewrite report_ok by lra. unfold slack_report. split; [lra|]. split; [|unfold inner; rewrite <- E; repeat split; ring].
  intros a. rewrite (eigenvalues n B F). split; intros [->| ->]; [right|left|right|left]; ring.
Qed.

Lemma soc_weighted_slack o y k c : so_c o = Some c -> interior (euclid (so_n o)) (so_W o) ->
  exists s r, let B := euclid (so_n o) in let sl := slack (so_m o) (so_A o) c k y in
    root_of B (so_W o) s /\ SWeightedSlack o y k = Ok r /\ slack_report B (quadrep B s sl) r /\
    (interior B sl <-> 0 < fst (fst (fst r))).
Proof.
  intros Hc HI. pose proof (euclid_form (so_n o)) as F. pose proof (interior_cone _ _ HI) as HC.
  destruct (SSqrt_ok _ _ HC) as (s & E & Hs). set (sl := slack (so_m o) (so_A o) c k y).
  unfold SWeightedSlack. rewrite (soc_slack_ok o k y c), E by auto. fold sl. cbn [bind finite].
  rewrite SQuadRep_qr, (qr_neg_eq (so_n o)) by auto. unfold spec_ev.
  change (spec_norm (so_n o)) with (enorm (euclid (so_n o))).
  pose proof (report_spec (so_n o) (euclid (so_n o)) (qr (euclid (so_n o)) s sl) F) as R.
  set (r := report_slack _ _) in *. exists s, r. cbv zeta. rewrite (quadrep_eq (so_n o)) by auto.
  split; [eapply sqrt_root; eauto|]. split; auto. split; auto.
  assert (det (euclid (so_n o)) s <> 0) as HD by (apply interior_det_ne; eapply sqrt_interior; eauto).
  assert (interior (euclid (so_n o)) sl <-> interior (euclid (so_n o)) (qr (euclid (so_n o)) s sl)) as ->.
  { split; [apply (qr_interior _ _ F); auto|apply (qr_interior_inv _ _ F); auto]. }
  rewrite (interior_evs _ _ F). unfold r. rewrite (enorm_neg (so_n o)) by auto. cbn [fst jscale].
  pose proof (enorm_pos (euclid (so_n o)) (qr (euclid (so_n o)) s sl)). rewrite report_ok by lra. cbn [fst]. lra.
Qed.

Lemma qc_weighted_slack o y k : metric (qc_n o) (qc_Q o) -> interior (form_of (qc_n o) (qc_Q o)) (qc_W o) ->
  exists s, let B := form_of (qc_n o) (qc_Q o) in let sl := slack (qc_m o) (qc_A o) (qc_c o) k y in
    let r := snd (QWeightedSlack o y k) in
    root_of B (qc_W o) s /\ slack_report B (quadrep B s sl) r /\ (interior B sl <-> 0 < fst (fst (fst r))).
Proof.
  intros M HI. pose proof (metric_form _ _ M) as F. pose proof (interior_cone _ _ HI) as HC.
  pose proof (QSqrt_ok _ _ _ M HC) as Hs. set (s := QSqrt (QNorm (qc_n o) (qc_Q o) (snd (qc_W o))) (qc_W o)) in *.
  set (sl := slack (qc_m o) (qc_A o) (qc_c o) k y).
  unfold QWeightedSlack. rewrite qc_slack_ok. fold sl s. cbn [snd]. rewrite QQuadRep_qr, QNorm_ok by auto.
  rewrite (qr_neg_eq (qc_n o)) by auto.
  pose proof (report_spec (qc_n o) _ (qr (form_of (qc_n o) (qc_Q o)) s sl) F) as R.
  set (r := report_slack _ _) in *. exists s. cbv zeta. rewrite (quadrep_eq (qc_n o)) by auto.
  split; [eapply sqrt_root; eauto|]. split; auto.
  assert (det (form_of (qc_n o) (qc_Q o)) s <> 0) as HD by (apply interior_det_ne; eapply sqrt_interior; eauto).
  assert (interior (form_of (qc_n o) (qc_Q o)) sl <-> interior (form_of (qc_n o) (qc_Q o)) (qr (form_of (qc_n o) (qc_Q o)) s sl)) as ->.
  { split; [apply (qr_interior _ _ F); auto|apply (qr_interior_inv _ _ F); auto]. }
  rewrite (interior_evs _ _ F). unfold r. rewrite (enorm_neg (qc_n o)) by auto. cbn [fst jscale].
  pose proof (enorm_pos (form_of (qc_n o) (qc_Q o)) (qr (form_of (qc_n o) (qc_Q o)) s sl)). rewrite report_ok by lra. cbn [fst]. lra.
Qed.

(** ** Constraint blocks *)

Lemma put_eq b old new : put b old new = (if b then 0 else 1) * old + new.
Proof. unfold put. destruct b; ring. Qed.

Lemma soc_schur_ok o initialize old c m : so_c o = Some c -> cone (euclid (so_n o)) (so_W o) ->
  exists sys, SSchur o initialize old = Ok sys /\
    cone_block (euclid (so_n o)) (so_A o) c (so_W o) sys (if initialize then 0 else 1) old m.
Proof.
  intros Hc HC. pose proof (euclid_form (so_n o)) as F. destruct (SSqrt_ok _ _ HC) as (s & E & Hs).
  pose proof (sqrt_root _ _ F _ _ HC Hs) as Hr.
  unfold SSchur. rewrite E, Hc. cbn [bind finite filled]. eexists. split; [reflexivity|].
  unfold cone_block. cbn [sc_G sc_AW sc_AQc sc_wc sc_cQc].
  assert (forall a b, sdotp (so_n o) (SQuadRep (so_n o) s a) (SQuadRep (so_n o) s b) = inner (euclid (so_n o)) a (quadrep (euclid (so_n o)) (so_W o) b)) as K.
  { intros. rewrite !SQuadRep_qr, (quadrep_eq (so_n o)) by auto. apply (root_qr_qr _ _ F). auto. }
  rewrite !put_eq, !K. split; [intros; rewrite put_eq, K; auto|]. split; [intros; rewrite put_eq; auto|].
  split; [intros; rewrite put_eq, K; auto|]. split; auto. f_equal. f_equal.
  rewrite SQuadRep_qr. rewrite <- (root_qr_one _ _ F (so_W o) s c Hr), (inner_qr_sym _ _ F).
  unfold inner at 1, jone. cbn [fst snd]. rewrite (B_zero _ _ F). ring.
Qed.

Lemma qc_schur_base n m Q A c W d0 t2 t3 wn initialize old : metric n Q ->
  cone_block (form_of n Q) A c W (snd (QSchur (QConstruct n m Q A c false W d0 t2 t3 wn) initialize old)) (if initialize then 0 else 2) old m.
Proof.
  intros M. pose proof (metric_form _ _ M) as F. unfold QSchur, QConstruct, eval_AtQX.
  cbn [qc_n qc_Q qc_W qc_A qc_c qc_gram qc_epi snd].
  assert (match Q with Some Q0 => vdotp n (mvec n Q0 (snd W)) (snd c) | None => vdotp n (snd W) (snd c) end = form_of n Q (snd c) (snd W)) as ->.
  { rewrite <- QInner_form. destruct Q; cbn; apply rsum_ext; intros; ring. }
  unfold QEvalAtQX, QSquaredNorm, cone_block. rewrite !QInner_form. cbn [sc_G sc_AW sc_AQc sc_wc sc_cQc].
  rewrite !(quadrep_eq n) by auto.
  assert (forall a b, inner (form_of n Q) a (qr (form_of n Q) W b) =
    2 * (form_of n Q (snd a) (snd W) + fst a * fst W) * (form_of n Q (snd b) (snd W) + fst b * fst W)
    + (fst W * fst W - form_of n Q (snd W) (snd W)) * (form_of n Q (snd a) (snd b) - fst a * fst b)) as K.
  { intros. rewrite (inner_sym n _ F), (inner_qr n _ F). unfold inner, det.
    rewrite (f_sym _ _ F (snd W) (snd a)), (f_sym _ _ F (snd W) (snd b)), (f_sym _ _ F (snd b) (snd a)). ring. }
  rewrite !K. split; [|split; [|split; [|split]]].
  - intros i j _ _. rewrite !QInner_form, (quadrep_eq n), K by auto. destruct initialize; ring.
  - intros i _. rewrite put_eq, QInner_form. unfold inner. destruct initialize; ring.
  - intros i _. rewrite put_eq, !QInner_form, K. destruct initialize; ring.
  - rewrite put_eq. unfold inner. rewrite (f_sym _ _ F (snd W)). destruct initialize; ring.
  - rewrite put_eq. destruct initialize; ring.
Qed.
