(** Final forms of the results on cone constraints and concrete cases. *)
From Coq Require Import List Arith Reals Lra Lia Psatz FunctionalExtensionality Bool.
From Verif Require Import Base BaseFacts DenseModel JordanModel SocModel RSum Spec_Soc Spec_SocSteps SocAlgebra SocProofs SocCone SocNewton SocEpi.
Import ListNotations.
Open Scope R_scope.

(** ** Algebra *)

Lemma root_result n x : cone (euclid n) x ->
  exists z, SSqrt n x = Some z /\ cone (euclid n) z /\ same n (jmul (euclid n) z z) x /\ (interior (euclid n) x -> interior (euclid n) z).
Proof.
  intros H. destruct (SSqrt_ok n x H) as (z & E & A). exists z. split; auto. pose proof (euclid_form n) as F.
  split; [apply (sqrt_root n _ F x z); auto|]. split; [apply sqrt_same; auto|]. intros. eapply sqrt_interior; eauto.
Qed.
Lemma exp_result n x : interior (euclid n) (SExp n x) /\ is_exp (euclid n) n x (SExp n x).
Proof.
  pose proof (euclid_form n) as F. pose proof (SExp_ok n x) as A. split; [eapply exp_interior; eauto|].
  apply is_exp_ok; auto. intros Z. apply euclid_zero. rewrite <- (enorm_sq _ _ F), Z. ring.
Qed.
Lemma quadrep_result n x y : SQuadRep n x y = quadrep (euclid n) x y.
Proof. rewrite SQuadRep_qr, (quadrep_eq n); auto. apply euclid_form. Qed.
Lemma det_result n Q x y : metric n Q -> det (form_of n Q) (quadrep (form_of n Q) x y) = det (form_of n Q) x * det (form_of n Q) x * det (form_of n Q) y.
Proof. intros M. rewrite (quadrep_eq n) by (apply metric_form; auto). apply (det_qr n). apply metric_form; auto. Qed.
Lemma quadrep_interior n Q x y : metric n Q -> det (form_of n Q) x <> 0 -> interior (form_of n Q) y -> interior (form_of n Q) (quadrep (form_of n Q) x y).
Proof. intros M D H. rewrite (quadrep_eq n) by (apply metric_form; auto). apply (qr_interior n); auto. apply metric_form; auto. Qed.

Lemma qroot_result n Q x : metric n Q -> cone (form_of n Q) x ->
  let z := QSqrt (QNorm n Q (snd x)) x in
  root_of (form_of n Q) x z /\ (interior (form_of n Q) x -> interior (form_of n Q) z).
Proof.
  intros M H z. pose proof (metric_form n Q M) as F. pose proof (QSqrt_ok n Q x M H) as A. split.
  - apply (sqrt_root n _ F); auto.
  - intros. eapply sqrt_interior; eauto.
Qed.
Lemma qexp_result n Q x : metric n Q -> let z := QExp (QNorm n Q (snd x)) x in interior (form_of n Q) z /\ is_exp_equiv (form_of n Q) x z.
Proof.
  intros M z. pose proof (metric_form n Q M) as F. pose proof (QExp_ok n Q x M) as A. split; [eapply exp_interior; eauto|].
  eapply is_exp_equiv_ok; eauto.
Qed.
Lemma qquadrep_result n Q x y : metric n Q ->
  QQuadRep (QSquaredNorm n Q (snd x)) (QInner n Q (snd x) (snd y)) x y = quadrep (form_of n Q) x y.
Proof. intros M. rewrite QQuadRep_qr, (quadrep_eq n); auto. apply metric_form; auto. Qed.

(** The spectral decomposition. *)
Lemma spectral_result n x : let '(a, b) := spec_ev n x in let '(p, q) := spec_idem n x in let B := euclid n in
  (forall t, eigenvalue B x t <-> t = a \/ t = b) /\ jadd p q = jone /\ same n (jadd (jscale a p) (jscale b q)) x /\
  (a <> b -> same n (jmul B p p) p /\ same n (jmul B q q) q /\ same n (jmul B p q) (0, fun _ => 0)).
Proof.
  pose proof (euclid_form n) as F.
  pose proof (eigenvalues n _ F x) as EV. unfold spec_ev. change (enorm (euclid n) x) with (spec_norm n x) in EV.
  pose proof (enorm_sq n _ F x) as SQ. change (enorm (euclid n) x) with (spec_norm n x) in SQ.
  pose proof (enorm_pos (euclid n) x) as PO. change (enorm (euclid n) x) with (spec_norm n x) in PO.
  unfold spec_idem, spec_q. destruct (Rlt_dec 0 (spec_norm n x)) as [H|H].
  - split; [auto|]. split; [apply pair_ext; cbn; [field|intros; unfold vscal; ring]|]. split.
    + split; cbn; [field|]. intros. unfold vscal. field. lra.
    + intros _. set (u := fun i => snd x i / spec_norm n x).
      assert (euclid n u u = 1) as U.
      { rewrite (B_ext n _ F u (fun i => / spec_norm n x * snd x i) u (fun i => / spec_norm n x * snd x i)) by (intros; unfold u, Rdiv; ring).
        rewrite (B_scal n _ F), (B_scal_r n _ F), <- SQ. field. lra. }
      unfold jmul, inner, vscal, same. cbn [fst snd]. rewrite !(B_scal n _ F), !(B_scal_r n _ F), U.
      repeat split; intros; field.
  - assert (spec_norm n x = 0) as E by lra. rewrite E in *. split; auto. split; [apply pair_ext; cbn; [field|intros; ring]|]. split.
    + split; cbn; [field|]. intros i Hi. rewrite (euclid_zero n (snd x)) by (auto; lra). ring.
    + intros HN. exfalso. apply HN. ring.
Qed.

(** For a multiple of the identity the two returned vectors are not idempotent. *)
Lemma idempotents_zero : exists n x, let p := fst (spec_idem n x) in ~ same n (jmul (euclid n) p p) p.
Proof.
  exists 1%nat, (1, fun _ => 0). unfold spec_idem, spec_norm, vdotp. cbn [snd rsum].
  replace (0 + 0 * 0) with 0 by ring. rewrite sqrt_0. destruct (Rlt_dec 0 0) as [L|_]; [exfalso; lra|]. intros [H _]. revert H. unfold jmul, inner, euclid. cbn. lra.
Qed.

(** ** Norms of a prepared direction *)

Lemma soc_norms o k y c : so_c o = Some c -> interior (euclid (so_n o)) (so_W o) ->
  exists s o1 ninf nsq a b, let B := euclid (so_n o) in let d := direction B s (slack (so_m o) (so_A o) c k y) in
    root_of B (so_W o) s /\ SPrepareStep o k y = Ok (o1, (ninf, nsq)) /\ (forall t, eigenvalue B d t <-> t = a \/ t = b) /\
    is_max_abs ninf a b /\ nsq = a * a + b * b.
Proof.
  intros Hc HI. pose proof (euclid_form (so_n o)) as F. pose proof (interior_cone _ _ HI) as HC.
  destruct (soc_prepare_ok o k y c Hc HC) as (s & Hs & E). cbv zeta in E.
  set (d := direction (euclid (so_n o)) s (slack (so_m o) (so_A o) c k y)) in *.
  exists s. eexists _, _, _, (fst d + enorm (euclid (so_n o)) d), (fst d - enorm (euclid (so_n o)) d). cbv zeta. fold d.
  split; [eapply sqrt_root; eauto|]. split; [exact E|]. split; [apply (eigenvalues _ _ F)|]. split; [apply SNormInf_ok|].
  change (sdotp (so_n o) d d) with (inner (euclid (so_n o)) d d). unfold inner. rewrite <- (enorm_sq _ _ F d). ring.
Qed.
Lemma qc_norms o k y : metric (qc_n o) (qc_Q o) -> interior (form_of (qc_n o) (qc_Q o)) (qc_W o) ->
  exists s a b, let B := form_of (qc_n o) (qc_Q o) in let d := direction B s (slack (qc_m o) (qc_A o) (qc_c o) k y) in
    let '(ninf, nsq) := snd (QPrepareStep o k y) in
    root_of B (qc_W o) s /\ (forall t, eigenvalue B d t <-> t = a \/ t = b) /\ is_max_abs ninf a b /\ nsq = a * a + b * b.
Proof.
  intros M HI. pose proof (metric_form _ _ M) as F. pose proof (interior_cone _ _ HI) as HC.
  pose proof (qc_prepare_ok o k y M) as E. cbv zeta in E. set (s := QSqrt _ _) in *.
  set (d := direction (form_of (qc_n o) (qc_Q o)) s (slack (qc_m o) (qc_A o) (qc_c o) k y)) in *.
  exists s, (fst d + enorm (form_of (qc_n o) (qc_Q o)) d), (fst d - enorm (form_of (qc_n o) (qc_Q o)) d). cbv zeta. rewrite E. cbn [snd]. fold d.
  split; [apply (sqrt_root _ _ F); auto; apply QSqrt_ok; auto|]. split; [apply (eigenvalues _ _ F)|]. split; [apply ev_max_ok|].
  unfold inner. rewrite <- (enorm_sq _ _ F d). ring.
Qed.

(** ** A quadratic cone constraint that is prepared but not stepped *)

Definition line_qc : qcone := QConstruct 1 1 None (fun _ => (1, fun _ => 1)) (1, fun _ => 0) false (0, fun _ => 0) 0 (fun _ => 0) (fun _ => 0) 0.
Definition line_round : qc_round := mkRound [] 1 (fun _ => ln 3) (Some 1).

Lemma norm1 v : QNorm 1 None v = Rabs (v 0%nat).
Proof.
  unfold QNorm, square_root, QSquaredNorm, QInner, vdotp. cbn [rsum]. rewrite Rplus_0_l.
  rewrite Rabs_right by (apply Rle_ge, Rle_0_sqr). change (v 0%nat * v 0%nat) with (Rsqr (v 0%nat)). apply sqrt_Rsqr_abs.
Qed.

Lemma exp_ln3 : exp (ln 3) = 3.
Proof. apply exp_ln. lra. Qed.
Lemma ln3_pos : 0 < ln 3.
Proof. rewrite <- ln_1. apply ln_increasing; lra. Qed.

Lemma sqrt_one : QSqrt 0 (1, fun _ => 0) = (1, fun _ => 0).
Proof.
  unfold QSqrt. cbn [fst snd]. destruct (Rlt_dec 0 0) as [L|_]; [exfalso; lra|]. rewrite Rplus_0_r, Rminus_0_r.
  unfold square_root. rewrite Rabs_R1, sqrt_1. apply pair_ext; cbn; [field|auto].
Qed.
Lemma quadrep_one x : QQuadRep 0 0 (1, fun _ => 0) x = x.
Proof. unfold QQuadRep. apply pair_ext; cbn; [field|intros; unfold vadd, vscal; field]. Qed.
Lemma exp_line : QExp (ln 3) (ln 3, fun _ => ln 3) = (5, fun _ => 4).
Proof.
  unfold QExp. cbn [fst snd]. pose proof ln3_pos. destruct (Rlt_dec 0 (ln 3)) as [_|N]; [|contradiction].
  rewrite exp_plus, exp_ln3, Rminus_diag_eq, exp_0 by auto. apply pair_ext; cbn; [field|intros; unfold vscal; field; lra].
Qed.
Lemma inner_one v : QInner 1 None (fun _ => 0) v = 0.
Proof. unfold QInner, vdotp. cbn [rsum]. ring. Qed.

Lemma line_W : fst (qc_W (qc_iterate (QSetIdentity line_qc) line_round)) = 5 /\ snd (qc_W (qc_iterate (QSetIdentity line_qc) line_round)) 0%nat = 4.
Proof.
  enough (qc_W (qc_iterate (QSetIdentity line_qc) line_round) = (5, fun _ => 4)) as E by (rewrite E; auto).
  unfold qc_iterate, line_round. cbn [qr_ask qr_k qr_y qr_step fold_left]. unfold QPrepareStep, QTakeStep.
  assert (QNegativeSlack (QSetIdentity line_qc) 1 (fun _ => ln 3) = (ln 3 - 1, fun _ => ln 3)) as S.
  { unfold QNegativeSlack, columns_times. apply pair_ext; cbn; [ring|intros; ring]. }
  rewrite S. change (qc_n (QSetIdentity line_qc)) with 1%nat. change (qc_Q (QSetIdentity line_qc)) with (@None mat).
  change (qc_W (QSetIdentity line_qc)) with (1, fun _ : nat => 0). cbn [fst snd].
  rewrite norm1, Rabs_R0, sqrt_one. unfold QSquaredNorm. cbn [fst snd]. rewrite !inner_one, quadrep_one.
  cbn [fst snd qc_state qc_W qc_d0 qc_temp2 qc_temp3 qc_wnorm]. change (qc_n (qc_state _ _ _ _ _ _)) with 1%nat. change (qc_Q (qc_state _ _ _ _ _ _)) with (@None mat).
  destruct (Req_EM_T 1 1) as [_|N]; [|congruence]. cbn [fst snd]. replace (ln 3 - 1 + 1) with (ln 3) by ring.
  rewrite quadrep_one, norm1. rewrite (Rabs_right (ln 3)) by (pose proof ln3_pos; lra). apply exp_line.
Qed.

Lemma line_prepared : let o := qc_iterate (QSetIdentity line_qc) line_round in
  interior (euclid 1) (qc_W o) /\ forall k y, ~ cone (euclid 1) (qc_W (fst (QPrepareStep o k y))).
Proof.
  cbv zeta. destruct line_W as [W0 W1]. set (o := qc_iterate _ _) in *. assert (qc_n o = 1%nat) as En by reflexivity. assert (qc_Q o = None) as EQ by reflexivity. split.
  - unfold interior, euclid. cbn [rsum]. rewrite W0, W1. lra.
  - intros k y. unfold QPrepareStep. rewrite En, EQ. cbn [fst qc_state qc_W]. rewrite norm1, W1. unfold QSqrt. cbn [fst snd]. rewrite W0.
    rewrite (Rabs_right 4) by lra. unfold square_root. rewrite (Rabs_right (5 + 4)), (Rabs_right (5 - 4)) by lra.
    replace (5 + 4) with (3 * 3) by ring. replace (5 - 4) with (1 * 1) by ring. rewrite !R_sqrt.sqrt_square by lra.
    unfold cone, euclid. cbn [fst snd rsum]. rewrite W1. lra.
Qed.

(** ** Other concrete cases *)

(** Preparing a step replaces the scaling point of a second-order cone constraint
    by its square root. *)
Definition half_line (w : R) : soc := mkSoc 0 1 (fun _ => (1, fun _ => 0)) (Some (1, fun _ => 0)) (w, fun _ => 0) (0, fun _ => 0).
Lemma prepare_changes : exists o k y o1 r, interior (euclid (so_n o)) (so_W o) /\ SPrepareStep o k y = Ok (o1, r) /\ fst (so_W o) = 4 /\ fst (so_W o1) = 2.
Proof.
  set (o := half_line 4). assert (interior (euclid (so_n o)) (so_W o)) as HI by (unfold interior, euclid; cbn; lra).
  destruct (soc_prepare_ok o 0 (fun _ => 0) _ eq_refl (interior_cone _ _ HI)) as (s & Hs & E). cbv zeta in E.
  exists o, 0, (fun _ => 0). eexists _, _. split; auto. split; [exact E|]. split; [reflexivity|]. cbn [so_W soc_state].
  destruct (SSqrt_ok _ _ (interior_cone _ _ HI)) as (z & Ez & Az).
  destruct (sqrt_root _ _ (euclid_form 0) _ _ (interior_cone _ _ HI) Hs) as [[P _] [Q _]].
  unfold jmul, inner, euclid in Q. cbn in Q. nra.
Qed.

Lemma unset_affine n m A W d k y : SPrepareStep (mkSoc n m A None W d) k y = UB.
Proof. reflexivity. Qed.

Lemma accumulate_doubles : exists o old, sc_wc (snd (QSchur o false old)) <> sc_wc old + sc_wc (snd (QSchur o true old)) /\
  metric (qc_n o) (qc_Q o) /\ interior (form_of (qc_n o) (qc_Q o)) (qc_W o).
Proof.
  exists (QSetIdentity line_qc), (mkSchur (fun _ _ => 0) (fun _ => 0) (fun _ => 0) 1 0). cbn. unfold vdotp, interior, euclid. cbn. repeat split; lra.
Qed.
Lemma larger_system : exists r m size A c W old, (m <= size)%nat /\ sc_wc (LSchur r m size A c W true old) <> rsum r (fun k => W k * c k).
Proof.
  exists 1%nat, 1%nat, 2%nat, (fun _ _ => 1), (fun _ => 1), (fun _ => 1), (mkSchur (fun _ _ => 0) (fun _ => 0) (fun _ => 0) 0 0). cbn. split; [lia|lra].
Qed.

Lemma indefinite_lost : exists n M Y x, (forall i j, M i j = M j i) /\ let '(vars, Q) := NonZeroSubMat n M Y in
  weighted (length vars) Q (fun a => x (nth a vars 0%nat)) (fun a => x (nth a vars 0%nat)) <> weighted n M x x.
Proof.
  exists 2%nat, (fun i j => if (i =? j)%nat then 0 else 1), (fun _ _ => 0), (fun _ => 1). split; [intros i j; rewrite Nat.eqb_sym; reflexivity|].
  assert (nz_vars 2 (fun i j => if (i =? j)%nat then 0 else 1) = []) as E.
  { unfold nz_vars. cbn. destruct (Rlt_dec 0 0); [exfalso; lra|reflexivity]. }
  unfold NonZeroSubMat. rewrite E. unfold weighted. cbn. lra.
Qed.

(** The same constraint in its two encodings gives the same block. *)
Lemma same_blocks n m A c W d Q d0 t2 t3 wn old : cone (euclid n) W -> Q = None \/ Q = Some ridentity ->
  exists sys, SSchur (mkSoc n m A (Some c) W d) true old = Ok sys /\
    let sys' := snd (QSchur (QConstruct n m Q A c false W d0 t2 t3 wn) true old) in
    (forall i j, (i < m)%nat -> (j < m)%nat -> sc_G sys i j = sc_G sys' i j) /\ (forall i, (i < m)%nat -> sc_AW sys i = sc_AW sys' i) /\
    (forall i, (i < m)%nat -> sc_AQc sys i = sc_AQc sys' i) /\ sc_wc sys = sc_wc sys' /\ sc_cQc sys = sc_cQc sys'.
Proof.
  intros HC HQ. destruct (soc_schur_ok (mkSoc n m A (Some c) W d) true old c m eq_refl HC) as (sys & E & G & AW & AQc & wc & cQc).
  cbn [so_n so_A so_W] in *. exists sys. split; auto. cbv zeta.
  assert (metric n Q) as M by (destruct HQ; subst; cbn; auto; apply identity_semidefinite).
  assert (form_of n Q = euclid n) as EB by (destruct HQ; subst; cbn; auto; apply weighted_identity).
  destruct (qc_schur_base n m Q A c W d0 t2 t3 wn true old M) as (G' & AW' & AQc' & wc' & cQc'). rewrite EB in *.
  split; [intros; rewrite G, G' by auto; ring|]. split; [intros; rewrite AW, AW' by auto; ring|].
  split; [intros; rewrite AQc, AQc' by auto; ring|]. rewrite wc, wc', cQc, cQc'. split; ring.
Qed.

(** ** Newton steps *)

(** If [y] solves the constraint's part of the Newton equations then the dual point
    reproduces the scaled cost. *)
Lemma soc_newton_cost o k y c b : so_c o = Some c -> interior (euclid (so_n o)) (so_W o) ->
  exists s d ninf nsq o1,
    let B := euclid (so_n o) in let sl := slack (so_m o) (so_A o) c k y in let x := dual_point B s d in
    root_of B (so_W o) s /\ d = direction B s sl /\ SPrepareStep o k y = Ok (o1, (ninf, nsq)) /\
    (forall old sys, SSchur o true old = Ok sys ->
       (forall i, (i < so_m o)%nat -> rsum (so_m o) (fun j => sc_G sys i j * y j) = k * (b i + sc_AQc sys i) - 2 * sc_AW sys i) ->
       forall i, (i < so_m o)%nat -> 2 * inner B (so_A o i) x = k * b i) /\
    2 * inner B sl x = 2 - nsq /\ (ninf < 1 -> interior B sl /\ interior B x).
Proof.
  intros Hc HI. destruct (soc_newton o k y c Hc HI) as (s & d & ninf & nsq & o1 & R & D & P & N & G).
  exists s, d, ninf, nsq, o1. cbv zeta. split; auto. split; auto. split; auto. split; auto.
  intros old sys ES Hy i Hi. destruct (N old) as (sys' & ES' & N'). rewrite ES in ES'. injection ES' as <-. rewrite N', Hy by auto. ring.
Qed.
Lemma qc_newton_cost n m Q A c W d0 t2 t3 wn k y b : metric n Q -> interior (form_of n Q) W ->
  let o := QConstruct n m Q A c false W d0 t2 t3 wn in
  exists s d, let B := form_of n Q in let sl := slack m A c k y in let x := dual_point B s d in
    let '(ninf, nsq) := snd (QPrepareStep o k y) in
    root_of B W s /\ d = direction B s sl /\
    (forall old, let sys := snd (QSchur o true old) in
       (forall i, (i < m)%nat -> rsum m (fun j => sc_G sys i j * y j) = k * (b i + sc_AQc sys i) - 2 * sc_AW sys i) ->
       forall i, (i < m)%nat -> 2 * inner B (A i) x = k * b i) /\
    2 * inner B sl x = 2 - nsq /\ (ninf < 1 -> interior B sl /\ interior B x).
Proof.
  intros M HI o. destruct (qc_newton n m Q A c W d0 t2 t3 wn k y M HI) as (s & d & H). cbv zeta in H. fold o in H.
  exists s, d. cbv zeta. destruct (snd (QPrepareStep o k y)) as [ninf nsq]. destruct H as (R & D & N & G).
  split; auto. split; auto. split; auto. intros old Hy i Hi. rewrite (N old i Hi), Hy by auto. ring.
Qed.
