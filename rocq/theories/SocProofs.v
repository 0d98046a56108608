(** The model of second-order and quadratic cones computes in the spin algebra. *)
From Coq Require Import List Arith Reals Lra Lia Psatz FunctionalExtensionality.
From Verif Require Import Base BaseFacts DenseModel JordanModel SocModel RSum Spec_Soc Spec_SocSteps SocAlgebra.
Import ListNotations.
Open Scope R_scope.

Lemma pair_ext (x y : elem) : fst x = fst y -> (forall i, snd x i = snd y i) -> x = y.
Proof. destruct x, y. cbn. intros -> H. f_equal. apply functional_extensionality. auto. Qed.

Lemma QInner_form n Q x y : QInner n Q x y = form_of n Q x y.
Proof.
  destruct Q; auto. cbn. unfold vdotp, mvec, weighted. apply rsum_ext. intros i Hi. rewrite <- rsum_scal.
  apply rsum_ext. intros. ring.
Qed.

Lemma SQuadRep_qr n x y : SQuadRep n x y = qr (euclid n) x y.
Proof. apply pair_ext; cbn; [|intros i]; unfold vadd, vscal, inner, det, sdotp; change (vdotp n) with (euclid n); ring. Qed.
Lemma QQuadRep_qr n Q x y : QQuadRep (QSquaredNorm n Q (snd x)) (QInner n Q (snd x) (snd y)) x y = qr (form_of n Q) x y.
Proof. unfold QSquaredNorm. rewrite !QInner_form. apply pair_ext; cbn; [|intros i]; unfold inner, det; ring. Qed.
Lemma quadrep_eq n B x y : form n B -> quadrep B x y = qr B x y.
Proof. intros F. destruct (quadrep_qr n B F x y). apply pair_ext; auto. Qed.

(** ** Functions of an element *)

Lemma spec_applied n f x : 
  applied n (euclid n) f x
    (sadd (sscal (f (fst (spec_ev n x))) (fst (spec_idem n x))) (sscal (f (snd (spec_ev n x))) (snd (spec_idem n x)))).
Proof.
  unfold spec_idem, spec_ev, applied, spec_q. change (enorm (euclid n) x) with (spec_norm n x).
  pose proof (sqrt_pos (vdotp n (snd x) (snd x))) as HP. change (sqrt _) with (spec_norm n x) in HP.
  destruct (Rlt_dec 0 (spec_norm n x)) as [H|H]; cbn [fst snd sadd sscal].
  - split; [field|]. exists ((f (fst x + spec_norm n x) - f (fst x - spec_norm n x)) / 2 / spec_norm n x).
    unfold vadd, vscal. split; [intros; field; lra|field; lra].
  - assert (spec_norm n x = 0) as E by lra. split; [field|]. exists 0. unfold vadd, vscal. split; [intros; ring|].
    rewrite E, Rplus_0_r, Rminus_0_r. field.
Qed.

Lemma SSqrt_ok n x : cone (euclid n) x -> exists z, SSqrt n x = Some z /\ applied n (euclid n) sqrt x z.
Proof.
  intros H. pose proof (spec_applied n sqrt x) as A. apply (cone_evs n _ (euclid_form n)) in H. unfold SSqrt.
  pose proof (sqrt_pos (vdotp n (snd x) (snd x))) as HP.
  change (enorm (euclid n) x) with (spec_norm n x) in H. change (sqrt _) with (spec_norm n x) in HP.
  unfold spec_ev in *. destruct (spec_idem n x) as [c0 c1]. cbn [fst snd] in A.
  destruct (Rlt_dec _ 0) as [L|_]; [exfalso; revert L; unfold Rmin; destruct (Rle_dec _ _); lra|]. eauto.
Qed.
Lemma SSqrt_none n x : ~ cone (euclid n) x -> SSqrt n x = None.
Proof.
  intros H. rewrite (cone_evs n _ (euclid_form n)) in H. unfold SSqrt, spec_ev.
  pose proof (sqrt_pos (vdotp n (snd x) (snd x))) as HP.
  change (enorm (euclid n) x) with (spec_norm n x) in H. change (sqrt _) with (spec_norm n x) in HP.
  destruct (Rlt_dec _ 0) as [|L]; auto. exfalso. revert L. unfold Rmin. destruct (Rle_dec _ _); lra.
Qed.
Lemma SExp_ok n x : applied n (euclid n) exp x (SExp n x).
Proof. pose proof (spec_applied n exp x) as A. unfold SExp, spec_ev in *. destruct (spec_idem n x). exact A. Qed.

Lemma QNorm_ok n Q x : metric n Q -> QNorm n Q (snd x) = enorm (form_of n Q) x.
Proof.
  intros M. unfold QNorm, square_root, QSquaredNorm. rewrite QInner_form, Rabs_right; auto.
  apply Rle_ge, (f_psd n), metric_form. auto.
Qed.
Lemma QSqrt_ok n Q x : metric n Q -> cone (form_of n Q) x -> applied n (form_of n Q) sqrt x (QSqrt (QNorm n Q (snd x)) x).
Proof.
  intros M C. rewrite QNorm_ok by auto. apply (cone_evs n _ (metric_form n Q M)) in C.
  pose proof (enorm_pos (form_of n Q) x) as P. unfold QSqrt, square_root.
  rewrite !Rabs_right by lra. split; cbn [fst snd]; [field|].
  destruct (Rlt_dec 0 (enorm (form_of n Q) x)).
  - eexists. split; [intros; reflexivity|]. field. lra.
  - exists 1. split; [intros; ring|]. replace (enorm (form_of n Q) x) with 0 by lra. rewrite Rplus_0_r, Rminus_0_r. field.
Qed.
Lemma QExp_ok n Q x : metric n Q -> applied n (form_of n Q) exp x (QExp (QNorm n Q (snd x)) x).
Proof.
  intros M. rewrite QNorm_ok by auto.
  pose proof (enorm_pos (form_of n Q) x) as P. unfold QExp. split; cbn [fst snd]; [field|].
  destruct (Rlt_dec 0 (enorm (form_of n Q) x)).
  - eexists. split; [intros; reflexivity|]. field. lra.
  - exists 1. split; [intros; ring|]. replace (enorm (form_of n Q) x) with 0 by lra. rewrite Rplus_0_r, Rminus_0_r. field.
Qed.

Section Root.
  Variables (n : nat) (B : vec -> vec -> R).
  Hypothesis F : form n B.

  Lemma sqrt_root x z : cone B x -> applied n B sqrt x z -> root_of B x z.
  Proof.
    intros C H. destruct (sqrt_square n B F x z C H) as [E1 E2]. split.
    - apply (applied_cone n B F sqrt x); auto; apply sqrt_pos.
    - split; cbn [fst snd jmul]; [exact E1|]. intros v. rewrite (f_lin _ _ F), <- E2. ring.
  Qed.
  Lemma sqrt_interior x z : interior B x -> applied n B sqrt x z -> interior B z.
  Proof.
    intros C H. apply (applied_interior n B F sqrt x); auto; apply sqrt_lt_R0; apply (interior_evs n B F) in C;
    pose proof (enorm_pos B x); lra.
  Qed.
  Lemma exp_interior x z : applied n B exp x z -> interior B z.
  Proof. intros H. apply (applied_interior n B F exp x); auto; apply exp_pos. Qed.
  Lemma interior_cone x : interior B x -> cone B x.
  Proof. unfold interior, cone. lra. Qed.
  Lemma interior_det_ne x : interior B x -> det B x <> 0.
  Proof. intros H. pose proof (interior_det B x H). lra. Qed.

  Lemma root_qr_qr w s a b : root_of B w s -> inner B (qr B s a) (qr B s b) = inner B a (qr B w b).
  Proof.
    intros [_ [H0 H1]]. apply (inner_qr_qr n B F).
    - rewrite <- H0. reflexivity.
    - intros v. rewrite <- H1. cbn [jmul snd]. rewrite (f_lin _ _ F). ring.
  Qed.
  (** [Q(s) e = w]. *)
  Lemma root_qr_one w s v : root_of B w s -> inner B (qr B s jone) v = inner B w v.
  Proof.
    intros [_ [H0 H1]]. rewrite (inner_qr n B F). unfold inner, jone, jmul in *. cbn [fst snd] in *.
    rewrite (B_zero n B F), (B_zero_r n B F), <- H0, <- H1, (f_lin _ _ F). unfold det, inner. ring.
  Qed.
End Root.

(** ** Steps of second-order cone constraints *)

Lemma one_interior n B : form n B -> interior B (1, fun _ => 0).
Proof. intros F. split; cbn [fst snd]; [lra|]. rewrite (B_zero n B F). lra. Qed.

Lemma negative_slack m (A : nat -> elem) (c : elem) k (y : vec) :
  (fst (columns_times m A y) - fst c * k, fun i => snd (columns_times m A y) i - snd c i * k) = jscale (-1) (slack m A c k y).
Proof.
  apply pair_ext; unfold columns_times, slack, jscale; cbn [fst snd]; [|intros i].
  - rewrite (rsum_ext m (fun j => y j * fst (A j)) (fun j => fst (A j) * y j)) by (intros; ring).
    ring.
  - rewrite (rsum_ext m (fun j => y j * snd (A j) i) (fun j => snd (A j) i * y j)) by (intros; ring). ring.
Qed.

Lemma direction_eq n B s sl : form n B -> (fst (qr B s (jscale (-1) sl)) + 1, snd (qr B s (jscale (-1) sl))) = direction B s sl.
Proof.
  intros F. unfold direction. rewrite (quadrep_eq n B) by auto. apply pair_ext; cbn [fst snd jsub jone].
  - rewrite (proj1 (qr_neg n B F s sl 0%nat)). ring.
  - intros i. rewrite (proj2 (qr_neg n B F s sl i)). ring.
Qed.

Lemma soc_slack_ok o k y c : so_c o = Some c -> SNegativeSlack o k y = Ok (jscale (-1) (slack (so_m o) (so_A o) c k y)).
Proof. intros H. unfold SNegativeSlack. rewrite H. cbn [filled bind]. rewrite negative_slack. auto. Qed.

Lemma soc_prepare_ok o k y c : so_c o = Some c -> cone (euclid (so_n o)) (so_W o) ->
  exists s, applied (so_n o) (euclid (so_n o)) sqrt (so_W o) s /\
    let d := direction (euclid (so_n o)) s (slack (so_m o) (so_A o) c k y) in
    SPrepareStep o k y = Ok (soc_state o s d, (SNormInf (so_n o) d, 2 * sdotp (so_n o) d d)).
Proof.
  intros Hc HW. destruct (SSqrt_ok _ _ HW) as (s & E & Hs). exists s. split; auto. cbv zeta.
  unfold SPrepareStep. rewrite (soc_slack_ok o k y c), E by auto. cbn [finite bind].
  rewrite SQuadRep_qr, (direction_eq (so_n o)) by apply euclid_form. auto.
Qed.

Lemma soc_do_ok o op c : so_c o = Some c -> interior (euclid (so_n o)) (so_W o) ->
  exists o', soc_do o op = Ok o' /\ so_c o' = Some c /\ so_n o' = so_n o /\ interior (euclid (so_n o)) (so_W o').
Proof.
  intros Hc HI. pose proof (euclid_form (so_n o)) as F. pose proof (interior_cone _ _ HI) as HC.
  destruct op; cbn [soc_do].
  - destruct (soc_prepare_ok o k y c Hc HC) as (s & Hs & E). cbv zeta in E. rewrite E. cbn [bind fst].
    eexists. split; [reflexivity|]. cbn. repeat split; auto; eapply sqrt_interior; eauto.
  - eexists. split; [reflexivity|]. cbn [soc_state so_W so_n so_c STakeStep]. split; auto. split; auto.
    rewrite SQuadRep_qr. apply (qr_interior _ _ F); [apply interior_det_ne; auto|].
    eapply exp_interior; eauto. apply SExp_ok.
  - eexists. split; [reflexivity|]. cbn. split; auto. split; auto. apply (one_interior (so_n o)); auto.
  - unfold SWeightedSlack. rewrite (soc_slack_ok o k y c) by auto. destruct (SSqrt_ok _ _ HC) as (s & E & _). rewrite E.
    cbn [bind finite]. destruct (spec_ev _ _). cbn [bind]. eauto.
  - unfold SSchur. destruct (SSqrt_ok _ _ HC) as (s & E & _). rewrite E, Hc. cbn [bind finite filled]. eauto.
Qed.

Lemma soc_run_ok ops : forall o c, so_c o = Some c -> interior (euclid (so_n o)) (so_W o) ->
  exists o', foldM soc_do o ops = Ok o' /\ interior (euclid (so_n o)) (so_W o').
Proof.
  induction ops as [|op ops IH]; intros o c Hc HI; cbn [foldM]; [eauto|].
  destruct (soc_do_ok o op c Hc HI) as (o1 & E & E1 & E2 & E3). rewrite E. cbn [bind].
  rewrite <- E2 in E3. destruct (IH o1 c E1 E3) as (o' & H1 & H2). rewrite E2 in H2. eauto.
Qed.

Lemma sqrt_same n x z : cone (euclid n) x -> applied n (euclid n) sqrt x z -> same n (jmul (euclid n) z z) x.
Proof.
  pose proof (euclid_form n) as F. intros HC Hs.
  destruct (sqrt_square _ _ F _ _ HC Hs) as [E1 E2]. destruct Hs as [S0 (a & S1 & S2)]. split; cbn [fst snd jmul]; auto.
  intros i Hi. rewrite S1 by auto. destruct (Req_EM_T (enorm (euclid n) x) 0) as [Z|Z].
  - rewrite (euclid_zero n (snd x)) by (auto; rewrite <- (enorm_sq _ _ F), Z; ring). ring.
  - assert (2 * fst z * a = 1) as N; [|replace (fst z * (a * snd x i) + fst z * (a * snd x i)) with (2 * fst z * a * snd x i) by ring; rewrite N; ring].
    specialize (E2 (snd x)). rewrite (B_ext _ _ F (snd z) (fun i => a * snd x i) _ (snd x)) in E2 by auto.
    rewrite (B_scal _ _ F), <- (enorm_sq _ _ F) in E2.
    apply Rmult_eq_reg_r with (enorm (euclid n) x * enorm (euclid n) x); nra.
Qed.

(** One round. *)
Lemma soc_round o k y c step : so_c o = Some c -> interior (euclid (so_n o)) (so_W o) ->
  exists s z o1 r, let B := euclid (so_n o) in
    interior B s /\ same (so_n o) (jmul B s s) (so_W o) /\
    is_exp B (so_n o) (jscale step (direction B s (slack (so_m o) (so_A o) c k y))) z /\
    SPrepareStep o k y = Ok (o1, r) /\ so_W (STakeStep o1 step) = quadrep B s z.
Proof.
  intros Hc HI. pose proof (euclid_form (so_n o)) as F. pose proof (interior_cone _ _ HI) as HC.
  destruct (soc_prepare_ok o k y c Hc HC) as (s & Hs & E). cbv zeta in E.
  set (d := direction (euclid (so_n o)) s (slack (so_m o) (so_A o) c k y)) in *.
  exists s, (SExp (so_n o) (jscale step d)), (soc_state o s d), (SNormInf (so_n o) d, 2 * sdotp (so_n o) d d). cbv zeta.
  split; [eapply sqrt_interior; eauto|]. split; [|split; [|split; auto]].
  - apply sqrt_same; auto.
  - apply is_exp_ok; [apply euclid_form| |apply SExp_ok]. intros Z. apply euclid_zero. rewrite <- (enorm_sq _ _ F), Z. ring.
  - unfold STakeStep. cbn [soc_state so_W so_n so_d]. rewrite SQuadRep_qr, (quadrep_eq (so_n o)) by auto. f_equal.
    destruct (Req_EM_T step 1) as [->|]; auto. f_equal. apply pair_ext; cbn; intros; ring.
Qed.
