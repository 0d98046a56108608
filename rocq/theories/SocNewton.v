(** The Newton system of cone constraints, equivalent constraint types, epigraphs
    of quadratic costs and the reduction of cost matrices. *)
From Coq Require Import List Arith Reals Lra Lia Psatz FunctionalExtensionality Bool.
From Verif Require Import Base BaseFacts DenseModel JordanModel SocModel RSum Spec_Soc Spec_SocSteps SocAlgebra SocProofs SocCone.
Import ListNotations.
Open Scope R_scope.

(** ** The Newton system *)

Section Newton.
  Variables (n : nat) (B : vec -> vec -> R).
  Hypothesis F : form n B.

  Lemma B_rsum m (a : nat -> R) (v : nat -> vec) w : B (fun i => rsum m (fun j => a j * v j i)) w = rsum m (fun j => a j * B (v j) w).
  Proof.
    induction m; cbn [rsum]; [apply (B_zero n B F)|]. 
    rewrite (B_ext n B F _ (fun i => 1 * rsum m (fun j => a j * v j i) + a m * v m i) w w) by (auto; intros; ring).
    rewrite (f_lin _ _ F), IHm. ring.
  Qed.

  Lemma inner_slack m A c k y x : inner B x (slack m A c k y) = k * inner B x c - rsum m (fun j => y j * inner B x (A j)).
  Proof.
    unfold inner, slack. cbn [fst snd].
    rewrite (B_ext n B F (snd x) (snd x) _ (fun i => k * snd c i + -1 * rsum m (fun j => y j * snd (A j) i))) by (intros; ring).
    rewrite (B_lin_r n B F), (f_sym _ _ F (snd x) (fun i => rsum m _)), (B_rsum m y (fun j => snd (A j))).
    rewrite (rsum_ext m (fun j => y j * (fst x * fst (A j) + B (snd x) (snd (A j)))) (fun j => fst x * (y j * fst (A j)) + y j * B (snd (A j)) (snd x))).
    - rewrite rsum_plus, rsum_scal.
 ring.
    - intros. rewrite (f_sym _ _ F (snd x)). ring.
  Qed.

  Lemma inner_qr_slack m A c k y w x : inner B x (qr B w (slack m A c k y)) = k * inner B x (qr B w c) - rsum m (fun j => y j * inner B x (qr B w (A j))).
  Proof.
    rewrite <- (inner_qr_sym n B F), inner_slack, (inner_qr_sym n B F). f_equal. apply rsum_ext. intros. rewrite (inner_qr_sym n B F). auto.
  Qed.

  Lemma inner_dual x s d : inner B x (dual_point B s d) = inner B (qr B s x) jone + inner B (qr B s x) d.
  Proof.
    unfold dual_point. rewrite (quadrep_eq n), <- (inner_qr_sym n B F) by auto. set (z := qr B s x).
    unfold inner, jadd, jone. cbn [fst snd].
    rewrite (B_ext n B F (snd z) (snd z) _ (fun i => 1 * 0 + 1 * snd d i)) by (intros; ring).
    rewrite (B_lin_r n B F (1) 1 (fun _ => 0) (snd d)), (B_zero_r n B F). ring.
  Qed.
  Lemma inner_sub x y z : inner B x (jsub y z) = inner B x y - inner B x z.
  Proof.
    unfold inner, jsub. cbn [fst snd]. rewrite (B_ext n B F (snd x) (snd x) _ (fun i => 1 * snd y i + -1 * snd z i)) by (intros; ring).
    rewrite (B_lin_r n B F). ring.
  Qed.

  Lemma newton_row m A c k y w s i : root_of B w s ->
    2 * inner B (A i) (dual_point B s (direction B s (slack m A c k y))) =
    2 * (2 * inner B (A i) w) + rsum m (fun j => 2 * inner B (A i) (quadrep B w (A j)) * y j) - k * (2 * inner B (A i) (quadrep B w c)).
  Proof.
    intros Hr. rewrite inner_dual. unfold direction. rewrite inner_sub, !(quadrep_eq n) by auto.
    rewrite (root_qr_qr n B F w s) by auto. rewrite (inner_sym n B F (qr B s (A i)) jone), <- (inner_qr_sym n B F s jone), (root_qr_one n B F w s) by auto.
    rewrite inner_qr_slack, (inner_sym n B F w).
    rewrite (rsum_ext m (fun j => 2 * inner B (A i) (quadrep B w (A j)) * y j) (fun j => 2 * (y j * inner B (A i) (qr B w (A j))))).
    - rewrite rsum_scal. ring.
    - intros. rewrite (quadrep_eq n) by auto. ring.
  Qed.

  Lemma newton_gap s sl : 2 * inner B sl (dual_point B s (direction B s sl)) = 2 - 2 * inner B (direction B s sl) (direction B s sl).
  Proof.
    rewrite inner_dual. set (d := direction B s sl).
    assert (forall v, inner B (qr B s sl) v = inner B jone v - inner B d v) as E.
    { intros v. unfold d, direction. rewrite !(inner_sym n B F _ v), inner_sub, (quadrep_eq n) by auto. ring. }
    rewrite !E, (inner_sym n B F d jone). unfold inner at 1, jone at 1 2. cbn [fst snd]. rewrite (B_zero n B F). ring.
  Qed.

  Lemma near_interior s sl a : interior B s ->
    let d := direction B s sl in a < 1 -> Rabs (fst d + enorm B d) <= a -> Rabs (fst d - enorm B d) <= a ->
    interior B sl /\ interior B (dual_point B s d).
  Proof.
    intros Hs d Ha H0 H1. pose proof (enorm_pos B d) as HP.
    assert (-1 < fst d - enorm B d /\ fst d + enorm B d < 1) as [L U].
    { split; [pose proof (Rle_abs (- (fst d - enorm B d))) as E; rewrite Rabs_Ropp in E; lra|pose proof (Rle_abs (fst d + enorm B d)); lra]. }
    assert (det B s <> 0) as HD by (apply interior_det_ne; auto).
    split.
    - apply (qr_interior_inv n B F s); auto. apply (interior_evs n B F).
      assert (fst (qr B s sl) = 1 - fst d) as -> by (unfold d, direction; rewrite (quadrep_eq n) by auto; cbn [fst jsub jone]; ring).
      assert (enorm B (qr B s sl) = enorm B d) as ->; [|lra].
      unfold enorm. f_equal. unfold d, direction. rewrite (quadrep_eq n) by auto. cbn [snd jsub jone].
      rewrite (B_ext n B F (fun i => 0 - snd (qr B s sl) i) (fun i => -1 * snd (qr B s sl) i) _ (fun i => -1 * snd (qr B s sl) i)) by (intros; ring).
      rewrite (B_scal n B F), (B_scal_r n B F). ring.
    - unfold dual_point. rewrite (quadrep_eq n) by auto. apply (qr_interior n B F); auto. apply (interior_evs n B F).
      cbn [fst jadd jone]. assert (enorm B (jadd jone d) = enorm B d) as ->; [|lra].
      unfold enorm. f_equal. apply (B_ext n B F); intros; cbn; ring.
  Qed.
End Newton.

Lemma soc_newton o k y c : so_c o = Some c -> interior (euclid (so_n o)) (so_W o) ->
  exists s d ninf nsq o1,
    let B := euclid (so_n o) in let sl := slack (so_m o) (so_A o) c k y in let x := dual_point B s d in
    root_of B (so_W o) s /\ d = direction B s sl /\ SPrepareStep o k y = Ok (o1, (ninf, nsq)) /\
    (forall old, exists sys, SSchur o true old = Ok sys /\ forall i, (i < so_m o)%nat ->
       2 * inner B (so_A o i) x = 2 * sc_AW sys i + rsum (so_m o) (fun j => sc_G sys i j * y j) - k * sc_AQc sys i) /\
    2 * inner B sl x = 2 - nsq /\ (ninf < 1 -> interior B sl /\ interior B x).
Proof.
  intros Hc HI. pose proof (euclid_form (so_n o)) as F. pose proof (interior_cone _ _ HI) as HC.
  destruct (soc_prepare_ok o k y c Hc HC) as (s & Hs & E). cbv zeta in E.
  set (sl := slack (so_m o) (so_A o) c k y) in *. set (d := direction (euclid (so_n o)) s sl) in *.
  pose proof (sqrt_root _ _ F _ _ HC Hs) as Hr.
  exists s, d, (SNormInf (so_n o) d), (2 * sdotp (so_n o) d d), (soc_state o s d). cbv zeta.
  split; auto. split; auto. split; auto. split; [|split].
  - intros old. destruct (soc_schur_ok o true old c (so_m o) Hc HC) as (sys & ES & G & AW & AQc & _).
    exists sys. split; auto. intros i Hi. unfold d, sl. rewrite (newton_row _ _ F _ _ _ _ _ (so_W o)) by auto. rewrite AW, AQc by auto.
    rewrite (rsum_ext (so_m o) (fun j => sc_G sys i j * y j) (fun j => 2 * inner (euclid (so_n o)) (so_A o i) (quadrep (euclid (so_n o)) (so_W o) (so_A o j)) * y j)).
    + ring.
    + intros j Hj. rewrite G by auto. ring.
  - unfold d. rewrite (newton_gap _ _ F). auto.
  - intros Hn. destruct (SNormInf_ok (so_n o) d) as (N0 & N1 & _). unfold d in *.
    apply (near_interior _ _ F s sl (SNormInf (so_n o) (direction (euclid (so_n o)) s sl))); auto. eapply sqrt_interior; eauto.
Qed.

Lemma qc_newton n m Q A c W d0 t2 t3 wn k y : metric n Q -> interior (form_of n Q) W ->
  let o := QConstruct n m Q A c false W d0 t2 t3 wn in
  exists s d, let B := form_of n Q in let sl := slack m A c k y in let x := dual_point B s d in
    let '(ninf, nsq) := snd (QPrepareStep o k y) in
    root_of B W s /\ d = direction B s sl /\
    (forall sys i, (i < m)%nat -> let sys := snd (QSchur o true sys) in
       2 * inner B (A i) x = 2 * sc_AW sys i + rsum m (fun j => sc_G sys i j * y j) - k * sc_AQc sys i) /\
    2 * inner B sl x = 2 - nsq /\ (ninf < 1 -> interior B sl /\ interior B x).
Proof.
  intros M HI o. pose proof (metric_form _ _ M) as F. pose proof (interior_cone _ _ HI) as HC.
  pose proof (QSqrt_ok _ _ _ M HC) as Hs. set (s := QSqrt (QNorm n Q (snd W)) W) in *.
  pose proof (sqrt_root _ _ F _ _ HC Hs) as Hr. set (sl := slack m A c k y). set (d := direction (form_of n Q) s sl).
  exists s, d. cbv zeta. pose proof (qc_prepare_ok o k y M) as E. cbv zeta in E. rewrite E. clear E. cbn [snd].
  change (qc_n o) with n. change (qc_Q o) with Q. change (qc_W o) with W. change (qc_m o) with m. change (qc_A o) with A. change (qc_c o) with c.
  fold s sl d. split; auto. split; auto. split; [|split].
  - intros old i Hi. destruct (qc_schur_base n m Q A c W d0 t2 t3 wn true old M) as (G & AW & AQc & _). fold o in G, AW, AQc.
    unfold d, sl. rewrite (newton_row _ _ F _ _ _ _ _ W) by auto. rewrite AW, AQc by auto.
    rewrite (rsum_ext m (fun j => sc_G (snd (QSchur o true old)) i j * y j) (fun j => 2 * inner (form_of n Q) (A i) (quadrep (form_of n Q) W (A j)) * y j)).
    + ring.
    + intros j Hj. rewrite G by auto. ring.
  - unfold d. rewrite (newton_gap _ _ F). auto.
  - intros Hn. destruct (ev_max_ok (fst d + enorm (form_of n Q) d) (fst d - enorm (form_of n Q) d)) as (N0 & N1 & _).
    eapply (near_interior _ _ F s sl); eauto. eapply sqrt_interior; eauto.
Qed.

(** ** Equivalent constraint types *)

Lemma applied_unique n f x z z' : applied n (euclid n) f x z -> applied n (euclid n) f x z' -> same n z z'.
Proof.
  pose proof (euclid_form n) as F. intros [H0 (a & H1 & H2)] [K0 (b & K1 & K2)]. split; [congruence|].
  intros i Hi. rewrite H1, K1 by auto. destruct (Req_EM_T (enorm (euclid n) x) 0) as [Z|Z].
  - rewrite (euclid_zero n (snd x)) by (auto; rewrite <- (enorm_sq _ _ F), Z; ring). ring.
  - f_equal. apply Rmult_eq_reg_r with (enorm (euclid n) x); congruence.
Qed.
Lemma same_qr n x x' y y' : same n x x' -> same n y y' -> same n (qr (euclid n) x y) (qr (euclid n) x' y').
Proof.
  pose proof (euclid_form n) as F. intros [X0 X1] [Y0 Y1].
  assert (inner (euclid n) x y = inner (euclid n) x' y') as E by (unfold inner; rewrite X0, Y0; f_equal; apply (B_ext n _ F); auto).
  assert (det (euclid n) x = det (euclid n) x') as D by (unfold det; rewrite X0; f_equal; apply (B_ext n _ F); auto).
  unfold qr. split; cbn [fst snd]; [rewrite E, D, X0, Y0; auto|]. intros i Hi. rewrite E, D, X1, Y1 by auto. auto.
Qed.
Lemma same_enorm n x x' : same n x x' -> enorm (euclid n) x = enorm (euclid n) x'.
Proof. intros [_ H]. unfold enorm. f_equal. apply (B_ext n _ (euclid_form n)); auto. Qed.
Lemma same_applied n f x x' z : same n x x' -> applied n (euclid n) f x z -> applied n (euclid n) f x' z.
Proof.
  intros H [H0 (a & H1 & H2)]. pose proof (same_enorm _ _ _ H) as E. destruct H as [X0 X1].
  unfold applied. rewrite <- E, <- X0. split; auto. exists a. split; auto. intros. rewrite H1, X1 by auto. auto.
Qed.
Lemma same_sym n x y : same n x y -> same n y x.
Proof. intros [H K]. split; intros; [auto|]. rewrite K; auto. Qed.
Lemma same_direction n s s' sl : same n s s' -> same n (direction (euclid n) s sl) (direction (euclid n) s' sl).
Proof.
  intros H. unfold direction. rewrite !(quadrep_eq n) by apply euclid_form.
  destruct (same_qr n s s' sl sl H (conj eq_refl (fun i _ => eq_refl))) as [E0 E1].
  split; cbn [fst snd jsub jone]; [rewrite E0; auto|]. intros i Hi. rewrite E1 by auto. auto.
Qed.
Lemma same_scale n a x y : same n x y -> same n (jscale a x) (jscale a y).
Proof. intros [H K]. split; cbn; [rewrite H; auto|]. intros. rewrite K by auto. auto. Qed.

Lemma max_abs_unique m m' a b : is_max_abs m a b -> is_max_abs m' a b -> m = m'.
Proof. intros (A & B & C) (A' & B' & C'). destruct C as [->| ->], C' as [->| ->]; lra. Qed.

Lemma same_step n m A c W d e0 t2 t3 wn epi k y step : interior (euclid n) W ->
  exists o1 r, SPrepareStep (mkSoc n m A (Some c) W d) k y = Ok (o1, r) /\
    let p := QPrepareStep (QConstruct n m None A c epi W e0 t2 t3 wn) k y in
    snd p = r /\ same n (so_W (STakeStep o1 step)) (qc_W (QTakeStep (fst p) step)).
Proof.
  intros HI. pose proof (euclid_form n) as F. pose proof (interior_cone _ _ HI) as HC.
  set (o := mkSoc n m A (Some c) W d). set (q := QConstruct n m None A c epi W e0 t2 t3 wn).
  destruct (soc_prepare_ok o k y c eq_refl HC) as (s & Hs & E). cbv zeta in E.
  change (so_n o) with n in *. change (so_m o) with m in *. change (so_A o) with A in *. change (so_W o) with W in *.
  pose proof (QSqrt_ok n None W I HC) as Ht. set (t := QSqrt (QNorm n None (snd W)) W) in *. cbn [form_of] in Ht.
  set (sl := slack m A c k y) in *. set (ds := direction (euclid n) s sl) in *. set (dt := direction (euclid n) t sl).
  pose proof (applied_unique _ _ _ _ _ Hs Ht) as Hst. assert (same n ds dt) as Hd by (apply same_direction; auto).
  eexists _, _. split; [exact E|]. cbv zeta.
  pose proof (qc_prepare_ok q k y I) as EQ. cbv zeta in EQ. change (qc_n q) with n in *. change (qc_Q q) with (@None mat) in *.
  change (qc_W q) with W in *. change (qc_m q) with m in *. change (qc_A q) with A in *. change (qc_c q) with c in *.
  cbn [form_of] in EQ. fold t sl in EQ. fold dt in EQ.
  split.
  - rewrite EQ. cbn [snd]. pose proof (same_enorm _ _ _ Hd) as N. destruct Hd as [D0 D1]. f_equal.
    + eapply max_abs_unique; [apply ev_max_ok|]. rewrite <- N, <- D0. apply SNormInf_ok.
    + f_equal. change (sdotp n ds ds) with (inner (euclid n) ds ds). unfold inner. rewrite D0. f_equal.
      apply (B_ext n _ F); intros; rewrite D1; auto.
  - set (zs := SExp n (jscale step ds)). set (zt := QExp (QNorm n None (snd (jscale step dt))) (jscale step dt)).
    assert (so_W (STakeStep (soc_state o s ds) step) = qr (euclid n) s zs) as ->.
    { unfold STakeStep. cbn [soc_state so_W so_n so_d]. rewrite SQuadRep_qr. f_equal.
      destruct (Req_EM_T step 1) as [->|]; auto. unfold zs. f_equal. apply pair_ext; cbn; intros; ring. }
    assert (qc_W (QTakeStep (fst (QPrepareStep q k y)) step) = qr (euclid n) t zt) as ->.
    { rewrite EQ. cbn [fst]. unfold QTakeStep. cbn [qc_state qc_W qc_n qc_Q qc_d0 qc_temp2 qc_temp3 qc_wnorm fst snd].
      rewrite <- (surjective_pairing t).
      assert ((if Req_EM_T step 1 then (fst dt, snd dt) else (step * fst dt, vscal step (snd dt))) = jscale step dt) as ->.
      { destruct (Req_EM_T step 1) as [->|]; auto. apply pair_ext; cbn; intros; ring. }
      change (qc_n q) with n. change (qc_Q q) with (@None mat). fold zt. apply (QQuadRep_qr n None t zt). }
    apply same_qr; auto. eapply applied_unique; [apply SExp_ok|]. apply (same_applied n exp (jscale step dt)); [apply same_sym, same_scale; auto|].
    apply (QExp_ok n None (jscale step dt) I).
Qed.

(** The identity matrix in place of no matrix. *)
Lemma weighted_identity n : weighted n ridentity = euclid n.
Proof.
  apply functional_extensionality. intros u. apply functional_extensionality. intros v. unfold weighted, euclid, ridentity.
  apply rsum_ext. intros i Hi. rewrite (rsum_single n i); auto.
  - rewrite Nat.eqb_refl. ring.
  - intros j _ Hj. destruct (Nat.eqb_spec i j); [congruence|ring].
Qed.
Lemma identity_semidefinite n : semidefinite n ridentity.
Proof.
  split.
  - intros. unfold ridentity. destruct (Nat.eqb_spec i j), (Nat.eqb_spec j i); congruence.
  - intros v. rewrite weighted_identity. apply (f_psd _ _ (euclid_form n)).
Qed.
