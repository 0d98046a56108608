(** Properties C37 (second-order cones), C41, C42, C44, C45, C57, C58. *)
From Coq Require Import List Arith Reals Lra Lia Bool.
From Verif Require Import Base BaseFacts DenseModel RSum JordanModel SocModel Spec_Soc Spec_SocSteps SocAlgebra SocProofs SocCone SocNewton
  SocEpi SocExamples.
Import ListNotations.
Open Scope R_scope.

(** ** C44: the algebra of second-order cones *)

Theorem C44_square_root : forall n x, cone (euclid n) x ->
  exists z, SSqrt n x = Some z /\ cone (euclid n) z /\ same n (jmul (euclid n) z z) x /\ (interior (euclid n) x -> interior (euclid n) z).
Proof. exact root_result. Qed.

(** Outside the cone the square root of a negative number is taken. *)
Theorem C44_square_root_outside : forall n x, ~ cone (euclid n) x -> SSqrt n x = None.
Proof. exact SSqrt_none. Qed.

Theorem C44_quadratic_representation : forall n x y, SQuadRep n x y = quadrep (euclid n) x y.
Proof. exact quadrep_result. Qed.

Theorem C44_determinant : forall n x y, let B := euclid n in det B (SQuadRep n x y) = det B x * det B x * det B y.
Proof. intros. rewrite C44_quadratic_representation. exact (det_result n None x y I). Qed.

Theorem C44_interior : forall n x y, let B := euclid n in det B x <> 0 -> interior B y -> interior B (SQuadRep n x y).
Proof. intros n x y B. rewrite C44_quadratic_representation. exact (quadrep_interior n None x y I). Qed.

Theorem C44_exponential : forall n x, interior (euclid n) (SExp n x) /\ is_exp (euclid n) n x (SExp n x).
Proof. exact exp_result. Qed.

(** Eigenvalues and idempotents: the sum is the identity, the combination with the
    eigenvalues is the element, and for distinct eigenvalues the two are orthogonal
    idempotents. *)
Theorem C44_spectral : forall n x, let '(a, b) := spec_ev n x in let '(p, q) := spec_idem n x in let B := euclid n in
  (forall t, eigenvalue B x t <-> t = a \/ t = b) /\ jadd p q = jone /\ same n (jadd (jscale a p) (jscale b q)) x /\
  (a <> b -> same n (jmul B p p) p /\ same n (jmul B q q) q /\ same n (jmul B p q) (0, fun _ => 0)).
Proof. exact spectral_result. Qed.

Theorem C44_idempotents_refuted : exists n x, let p := fst (spec_idem n x) in ~ same n (jmul (euclid n) p p) p.
Proof. exact idempotents_zero. Qed.

(** The quadratic cone: the same for a semidefinite form, up to its kernel. *)
Theorem C44_quadratic_root : forall n Q x, metric n Q -> cone (form_of n Q) x ->
  let z := QSqrt (QNorm n Q (snd x)) x in
  root_of (form_of n Q) x z /\ (interior (form_of n Q) x -> interior (form_of n Q) z).
Proof. exact qroot_result. Qed.

Theorem C44_quadratic_exponential : forall n Q x, metric n Q ->
  let z := QExp (QNorm n Q (snd x)) x in interior (form_of n Q) z /\ is_exp_equiv (form_of n Q) x z.
Proof. exact qexp_result. Qed.

Theorem C44_quadratic_map : forall n Q x y, metric n Q -> let B := form_of n Q in
  let z := QQuadRep (QSquaredNorm n Q (snd x)) (QInner n Q (snd x) (snd y)) x y in
  z = quadrep B x y /\ det B z = det B x * det B x * det B y /\ (det B x <> 0 -> interior B y -> interior B z).
Proof.
  intros n Q x y M B z. assert (z = quadrep B x y) as E by exact (qquadrep_result n Q x y M). rewrite E. split; auto.
  split; [apply det_result; auto|apply quadrep_interior; auto].
Qed.

Example C44_example : let x := (5, fun _ => 4) : elem in interior (euclid 1) x /\ det (euclid 1) x = 9 /\
  same 1 (jmul (euclid 1) (2, fun _ => 1) (2, fun _ => 1)) x /\ ~ cone (euclid 1) (2, fun _ => 4) /\
  semidefinite 1 ridentity /\ spec_ev 1 x = (9, 1).
Proof.
  cbv zeta. split; [unfold interior, euclid; cbn; lra|]. split; [unfold det, euclid; cbn; lra|].
  split; [split; [unfold jmul, inner, euclid; cbn; lra|intros; cbn; lra]|]. split; [unfold cone, euclid; cbn; lra|].
  split; [apply identity_semidefinite|]. unfold spec_ev, spec_norm, vdotp. cbn [fst snd rsum].
  replace (0 + 4 * 4) with (4 * 4) by ring. rewrite R_sqrt.sqrt_square by lra. f_equal; ring.
Qed.

(** ** C37: scaling points of second-order cones stay in the interior *)

(** Any sequence of prepared steps, steps, resets and queries: nothing fails and the
    scaling point stays in the interior. *)
Theorem C37_soc_interior : forall o c ops, so_c o = Some c ->
  exists o', foldM soc_do (SSetIdentity o) ops = Ok o' /\ interior (euclid (so_n o)) (so_W o').
Proof.
  intros o c ops Hc. apply (soc_run_ok ops (SSetIdentity o) c); auto. exact (one_interior (so_n o) (euclid (so_n o)) (euclid_form (so_n o))).
Qed.

(** The scaling point after a round is [Q(sqrt w) exp(step d)]. *)
Theorem C37_soc_step : forall o k y c step, so_c o = Some c -> interior (euclid (so_n o)) (so_W o) ->
  exists s z o1 r, let B := euclid (so_n o) in
    interior B s /\ same (so_n o) (jmul B s s) (so_W o) /\
    is_exp B (so_n o) (jscale step (direction B s (slack (so_m o) (so_A o) c k y))) z /\
    SPrepareStep o k y = Ok (o1, r) /\ so_W (STakeStep o1 step) = quadrep B s z.
Proof. exact soc_round. Qed.

(** Quadratic cones: any sequence of iterations, each a prepared step that is taken
    or given up. *)
Theorem C37_quadratic_interior : forall o rs, metric (qc_n o) (qc_Q o) ->
  interior (form_of (qc_n o) (qc_Q o)) (qc_W (fold_left qc_iterate rs (QSetIdentity o))).
Proof.
  intros o rs M. apply (qc_run_ok rs (QSetIdentity o)); auto.
  exact (one_interior (qc_n o) (form_of (qc_n o) (qc_Q o)) (metric_form _ _ M)).
Qed.

Theorem C37_quadratic_step : forall o k y step, metric (qc_n o) (qc_Q o) -> interior (form_of (qc_n o) (qc_Q o)) (qc_W o) ->
  exists s z, let B := form_of (qc_n o) (qc_Q o) in
    interior B s /\ root_of B (qc_W o) s /\
    is_exp_equiv B (jscale step (direction B s (slack (qc_m o) (qc_A o) (qc_c o) k y))) z /\ interior B z /\
    qc_W (QTakeStep (fst (QPrepareStep o k y)) step) = quadrep B s z.
Proof. exact qc_round_ok. Qed.

(** A prepared step that is never taken (as when dual variables are prepared) leaves
    another scaling point behind: the square root, or a point outside the cone. *)
Theorem C37_soc_prepare_refuted : exists o k y o1 r,
  interior (euclid (so_n o)) (so_W o) /\ SPrepareStep o k y = Ok (o1, r) /\ fst (so_W o) = 4 /\ fst (so_W o1) = 2.
Proof. exact prepare_changes. Qed.

Theorem C37_quadratic_prepare_refuted : exists o rs, metric (qc_n o) (qc_Q o) /\
  let o1 := fold_left qc_iterate rs (QSetIdentity o) in
  interior (form_of (qc_n o) (qc_Q o)) (qc_W o1) /\ forall k y, ~ cone (form_of (qc_n o) (qc_Q o)) (qc_W (fst (QPrepareStep o1 k y))).
Proof. exists line_qc, [line_round]. split; [exact I|]. exact line_prepared. Qed.

(** Without an affine term the first prepared step reads an empty vector. *)
Theorem C37_soc_unset_affine_refuted : exists o k y, interior (euclid (so_n o)) (so_W o) /\ SPrepareStep o k y = UB.
Proof.
  exists (mkSoc 1 1 (fun _ => (1, fun _ => 0)) None (1, fun _ => 0) (0, fun _ => 0)), 1, (fun _ => 0).
  split; [unfold interior, euclid; cbn; lra|apply unset_affine].
Qed.

Example C37_soc_example : so_c (half_line 4) = Some (1, fun _ => 0) /\ metric (qc_n line_qc) (qc_Q line_qc) /\
  let o := QSetIdentity line_qc in interior (form_of (qc_n o) (qc_Q o)) (qc_W o) /\
  fst (qc_W (qc_iterate o line_round)) = 5 /\ snd (qc_W (qc_iterate o line_round)) 0%nat = 4.
Proof. split; [reflexivity|]. split; [exact I|]. split; [cbn; unfold interior, euclid; cbn; lra|exact line_W]. Qed.

(** ** C45: constraint blocks *)

Theorem C45_soc : forall o initialize old c m, so_c o = Some c -> cone (euclid (so_n o)) (so_W o) ->
  exists sys, SSchur o initialize old = Ok sys /\
    cone_block (euclid (so_n o)) (so_A o) c (so_W o) sys (if initialize then 0 else 1) old m.
Proof. exact soc_schur_ok. Qed.

(** Quadratic cones: adding to previous content doubles that content. *)
Theorem C45_quadratic : forall n m Q A c W d0 t2 t3 wn initialize old, metric n Q ->
  cone_block (form_of n Q) A c W (snd (QSchur (QConstruct n m Q A c false W d0 t2 t3 wn) initialize old)) (if initialize then 0 else 2) old m.
Proof. exact qc_schur_base. Qed.

Theorem C45_epigraph : forall k Qi W d0 t2 t3 wn initialize old epi, semidefinite k Qi ->
  cone_block (form_of (k + 1) (Some (epi_Q k Qi))) (epi_A k) epi_b W
    (snd (QSchur (Epigraph k Qi epi W d0 t2 t3 wn) initialize old)) (if initialize then 0 else 2) old (k + 1).
Proof. exact epi_schur. Qed.

Theorem C45_quadratic_accumulate_refuted : exists o old,
  sc_wc (snd (QSchur o false old)) <> sc_wc old + sc_wc (snd (QSchur o true old)) /\
  metric (qc_n o) (qc_Q o) /\ interior (form_of (qc_n o) (qc_Q o)) (qc_W o).
Proof. exact accumulate_doubles. Qed.

Theorem C45_linear : forall r m size A c w initialize old, initialize = false \/ size = m ->
  linear_block r A c w (LSchur r m size A c w initialize old) (if initialize then 0 else 1) old m.
Proof. exact linear_block_ok. Qed.

(** In a system with more variables than the constraint the inner products are lost. *)
Theorem C45_linear_size_refuted : exists r m size A c W old, (m <= size)%nat /\
  sc_wc (LSchur r m size A c W true old) <> rsum r (fun k => W k * c k).
Proof. exact larger_system. Qed.

(** A second-order cone constraint and the quadratic cone constraint with the
    identity matrix, or with none, give the same system... *)
Theorem C45_same_system : forall n m A c W d Q d0 t2 t3 wn old, cone (euclid n) W -> Q = None \/ Q = Some ridentity ->
  exists sys, SSchur (mkSoc n m A (Some c) W d) true old = Ok sys /\
    let sys' := snd (QSchur (QConstruct n m Q A c false W d0 t2 t3 wn) true old) in
    (forall i j, (i < m)%nat -> (j < m)%nat -> sc_G sys i j = sc_G sys' i j) /\ (forall i, (i < m)%nat -> sc_AW sys i = sc_AW sys' i) /\
    (forall i, (i < m)%nat -> sc_AQc sys i = sc_AQc sys' i) /\ sc_wc sys = sc_wc sys' /\ sc_cQc sys = sc_cQc sys'.
Proof. exact same_blocks. Qed.

(** ... and the same step. *)
Theorem C45_same_step : forall n m A c W d e0 t2 t3 wn epi k y step, interior (euclid n) W ->
  exists o1 r, SPrepareStep (mkSoc n m A (Some c) W d) k y = Ok (o1, r) /\
    let p := QPrepareStep (QConstruct n m None A c epi W e0 t2 t3 wn) k y in
    snd p = r /\ same n (so_W (STakeStep o1 step)) (qc_W (QTakeStep (fst p) step)).
Proof. exact same_step. Qed.

Definition sample_soc : soc := mkSoc 1 1 (fun _ => (1, fun _ => 0)) (Some (1, fun _ => 1)) (5, fun _ => 4) (0, fun _ => 0).
Definition zero_system : schur := mkSchur (fun _ _ => 0) (fun _ => 0) (fun _ => 0) 0 0.
Example C45_example : interior (euclid 1) (so_W sample_soc) /\ cone (euclid 1) (so_W sample_soc) /\
  exists sys, SSchur sample_soc true zero_system = Ok sys /\ sc_G sys 0%nat 0%nat = 82 /\ sc_AQc sys 0%nat = 162 /\ sc_wc sys = 18.
Proof.
  split; [unfold interior, euclid; cbn; lra|]. assert (cone (euclid 1) (so_W sample_soc)) as H by (unfold cone, euclid; cbn; lra). split; auto.
  destruct (C45_soc sample_soc true zero_system _ 1 eq_refl H) as (sys & E & G & _ & AQc & wc & _). exists sys. split; auto.
  rewrite G, AQc, wc by lia. unfold inner, quadrep, jsub, jscale, jmul, inner, euclid. cbn. repeat split; lra.
Qed.

(** ** C41: quadratic costs in epigraph form *)

Theorem C41_epigraph : forall k Qi z, semidefinite k Qi ->
  cone (form_of (k + 1) (Some (epi_Q k Qi))) (slack (k + 1) (epi_A k) epi_b 1 z) <-> weighted k Qi z z / 2 <= z k.
Proof. exact epi_cone. Qed.

Theorem C41_epigraph_interior : forall k Qi z, semidefinite k Qi ->
  interior (form_of (k + 1) (Some (epi_Q k Qi))) (slack (k + 1) (epi_A k) epi_b 1 z) <-> weighted k Qi z z / 2 < z k.
Proof. exact epi_interior. Qed.

(** The matrix of the constraint is semidefinite, as C37 and C45 ask for. *)
Theorem C41_semidefinite : forall k Qi, semidefinite k Qi -> metric (k + 1) (Some (epi_Q k Qi)).
Proof. exact epi_semidefinite. Qed.

(** The shortcut of the epigraph class computes the product of the base class. *)
Theorem C41_shortcut : forall k Qi X j, (j < k + 1)%nat ->
  EEvalAtQX (k + 1) (Some (epi_Q k Qi)) X j = QEvalAtQX (k + 1) (Some (epi_Q k Qi)) (epi_A k) X j.
Proof. exact epi_eval. Qed.

Example C41_example : semidefinite 1 ridentity /\ let z := fun _ => 2 in
  cone (form_of (1 + 1) (Some (epi_Q 1 ridentity))) (slack (1 + 1) (epi_A 1) epi_b 1 z) /\
  let z := fun i => if (i =? 0)%nat then 2 else 1 in
  ~ cone (form_of (1 + 1) (Some (epi_Q 1 ridentity))) (slack (1 + 1) (epi_A 1) epi_b 1 z).
Proof.
  split; [apply identity_semidefinite|]. pose proof (fun z => C41_epigraph 1 ridentity z (identity_semidefinite 1)) as H. cbv zeta.
  split; [apply H|intros E; apply H in E; revert E]; rewrite weighted_identity; unfold euclid; cbn; lra.
Qed.

(** ** C42: dropping variables with a zero diagonal *)

Theorem C42_lossless : forall n M Y x, (forall v, 0 <= weighted n M v v) ->
  let '(vars, Q) := NonZeroSubMat n M Y in
  weighted (length vars) Q (fun a => x (nth a vars 0%nat)) (fun a => x (nth a vars 0%nat)) = weighted n M x x.
Proof. exact reduced_cost. Qed.

Theorem C42_indefinite_refuted : exists n M Y x, (forall i j, M i j = M j i) /\ let '(vars, Q) := NonZeroSubMat n M Y in
  weighted (length vars) Q (fun a => x (nth a vars 0%nat)) (fun a => x (nth a vars 0%nat)) <> weighted n M x x.
Proof. exact indefinite_lost. Qed.

(** A semidefinite matrix with a zero row, of which one variable is kept. *)
Example C42_example : let M := fun i j => if ((i =? 1) && (j =? 1))%nat%bool then 2 else 0 in
  (forall v, 0 <= weighted 2 M v v) /\ nz_vars 2 M = [1%nat].
Proof.
  cbv zeta. split.
  - intros v. unfold weighted. cbn. pose proof (Rle_0_sqr (v 1%nat)) as H. unfold Rsqr in H. lra.
  - unfold nz_vars. cbn. destruct (Rlt_dec 0 0) as [L|_]; [exfalso; lra|]. destruct (Rlt_dec 0 2) as [_|N]; [reflexivity|exfalso; lra].
Qed.

(** ** C57: the reported numbers *)

(** [norminfd] is the largest modulus and [normsqrd] the sum of squares of the
    eigenvalues of the search direction. *)
Theorem C57_soc_norms : forall o k y c, so_c o = Some c -> interior (euclid (so_n o)) (so_W o) ->
  exists s o1 ninf nsq a b, let B := euclid (so_n o) in let d := direction B s (slack (so_m o) (so_A o) c k y) in
    root_of B (so_W o) s /\ SPrepareStep o k y = Ok (o1, (ninf, nsq)) /\ (forall t, eigenvalue B d t <-> t = a \/ t = b) /\
    is_max_abs ninf a b /\ nsq = a * a + b * b.
Proof. exact soc_norms. Qed.

Theorem C57_quadratic_norms : forall o k y, metric (qc_n o) (qc_Q o) -> interior (form_of (qc_n o) (qc_Q o)) (qc_W o) ->
  exists s a b, let B := form_of (qc_n o) (qc_Q o) in let d := direction B s (slack (qc_m o) (qc_A o) (qc_c o) k y) in
    let '(ninf, nsq) := snd (QPrepareStep o k y) in
    root_of B (qc_W o) s /\ (forall t, eigenvalue B d t <-> t = a \/ t = b) /\ is_max_abs ninf a b /\ nsq = a * a + b * b.
Proof. exact qc_norms. Qed.

(** The reported extreme eigenvalues, squared norm and trace are those of the
    weighted slack; the smallest is positive exactly for slacks in the interior. *)
Theorem C57_soc_slack : forall o y k c, so_c o = Some c -> interior (euclid (so_n o)) (so_W o) ->
  exists s r, let B := euclid (so_n o) in let sl := slack (so_m o) (so_A o) c k y in
    root_of B (so_W o) s /\ SWeightedSlack o y k = Ok r /\ slack_report B (quadrep B s sl) r /\
    (interior B sl <-> 0 < fst (fst (fst r))).
Proof. exact soc_weighted_slack. Qed.

Theorem C57_quadratic_slack : forall o y k, metric (qc_n o) (qc_Q o) -> interior (form_of (qc_n o) (qc_Q o)) (qc_W o) ->
  exists s, let B := form_of (qc_n o) (qc_Q o) in let sl := slack (qc_m o) (qc_A o) (qc_c o) k y in
    let r := snd (QWeightedSlack o y k) in
    root_of B (qc_W o) s /\ slack_report B (quadrep B s sl) r /\ (interior B sl <-> 0 < fst (fst (fst r))).
Proof. exact qc_weighted_slack. Qed.

Example C57_example : so_c sample_soc = Some (1, fun _ => 1) /\ interior (euclid (so_n sample_soc)) (so_W sample_soc) /\
  let sl := slack 1 (so_A sample_soc) (1, fun _ => 1) 1 (fun _ => -1) in
  interior (euclid 1) sl /\ root_of (euclid 1) (so_W sample_soc) (2, fun _ => 1) /\
  slack_report (euclid 1) (quadrep (euclid 1) (2, fun _ => 1) sl) (1, 27, 730, 28).
Proof.
  split; [reflexivity|]. split; [unfold interior, euclid; cbn; lra|]. cbv zeta. split; [unfold interior, euclid; cbn; lra|]. split.
  - split; [unfold cone, euclid; cbn; lra|]. split; [unfold jmul, inner, euclid; cbn; lra|]. intros v. unfold euclid. cbn. lra.
  - unfold slack_report, eigenvalue, det, inner, quadrep, jsub, jscale, jmul, inner, euclid. cbn. repeat split; try lra.
    + intros H. assert ((a - 1) * (a - 27) = 0) as E by lra. apply Rmult_integral in E. destruct E; [left|right]; lra.
    + intros [-> | ->]; lra.
Qed.

(** ** C58: what a Newton step achieves *)

(** If [y] solves the Newton equations of one constraint then the dual point
    [Q(sqrt w) (e + d)] satisfies [A^T x = k b] with the Jordan inner product, its
    product with the slack is [2 - normsqrd], and for [norminfd < 1] slack and dual
    point are in the interior. *)
Theorem C58_soc_newton : forall o k y c b, so_c o = Some c -> interior (euclid (so_n o)) (so_W o) ->
  exists s d ninf nsq o1,
    let B := euclid (so_n o) in let sl := slack (so_m o) (so_A o) c k y in let x := dual_point B s d in
    root_of B (so_W o) s /\ d = direction B s sl /\ SPrepareStep o k y = Ok (o1, (ninf, nsq)) /\
    (forall old sys, SSchur o true old = Ok sys ->
       (forall i, (i < so_m o)%nat -> rsum (so_m o) (fun j => sc_G sys i j * y j) = k * (b i + sc_AQc sys i) - 2 * sc_AW sys i) ->
       forall i, (i < so_m o)%nat -> 2 * inner B (so_A o i) x = k * b i) /\
    2 * inner B sl x = 2 - nsq /\ (ninf < 1 -> interior B sl /\ interior B x).
Proof. exact soc_newton_cost. Qed.

Theorem C58_quadratic_newton : forall n m Q A c W d0 t2 t3 wn k y b, metric n Q -> interior (form_of n Q) W ->
  let o := QConstruct n m Q A c false W d0 t2 t3 wn in
  exists s d, let B := form_of n Q in let sl := slack m A c k y in let x := dual_point B s d in
    let '(ninf, nsq) := snd (QPrepareStep o k y) in
    root_of B W s /\ d = direction B s sl /\
    (forall old, let sys := snd (QSchur o true old) in
       (forall i, (i < m)%nat -> rsum m (fun j => sc_G sys i j * y j) = k * (b i + sc_AQc sys i) - 2 * sc_AW sys i) ->
       forall i, (i < m)%nat -> 2 * inner B (A i) x = k * b i) /\
    2 * inner B sl x = 2 - nsq /\ (ninf < 1 -> interior B sl /\ interior B x).
Proof. exact qc_newton_cost. Qed.

(** A constraint, a cost and a solution of its Newton equations. *)
Example C58_example : exists sys, SSchur sample_soc true zero_system = Ok sys /\
  rsum 1 (fun j => sc_G sys 0%nat j * 2) = 1 * (22 + sc_AQc sys 0%nat) - 2 * sc_AW sys 0%nat.
Proof.
  assert (cone (euclid 1) (so_W sample_soc)) as H by (unfold cone, euclid; cbn; lra).
  destruct (C45_soc sample_soc true zero_system _ 1 eq_refl H) as (sys & E & G & AW & AQc & _). exists sys. split; auto.
  cbn [rsum]. rewrite G, AW, AQc by lia. unfold inner, quadrep, jsub, jscale, jmul, inner, euclid. cbn. lra.
Qed.

Print Assumptions C44_square_root.
Print Assumptions C44_square_root_outside.
Print Assumptions C44_quadratic_representation.
Print Assumptions C44_determinant.
Print Assumptions C44_interior.
Print Assumptions C44_exponential.
Print Assumptions C44_spectral.
Print Assumptions C44_idempotents_refuted.
Print Assumptions C44_quadratic_root.
Print Assumptions C44_quadratic_exponential.
Print Assumptions C44_quadratic_map.
Print Assumptions C37_soc_interior.
Print Assumptions C37_soc_step.
Print Assumptions C37_quadratic_interior.
Print Assumptions C37_quadratic_step.
Print Assumptions C37_soc_prepare_refuted.
Print Assumptions C37_quadratic_prepare_refuted.
Print Assumptions C37_soc_unset_affine_refuted.
Print Assumptions C45_soc.
Print Assumptions C45_quadratic.
Print Assumptions C45_epigraph.
Print Assumptions C45_quadratic_accumulate_refuted.
Print Assumptions C45_linear.
Print Assumptions C45_linear_size_refuted.
Print Assumptions C45_same_system.
Print Assumptions C45_same_step.
Print Assumptions C41_epigraph.
Print Assumptions C41_epigraph_interior.
Print Assumptions C41_semidefinite.
Print Assumptions C41_shortcut.
Print Assumptions C42_lossless.
Print Assumptions C42_indefinite_refuted.
Print Assumptions C57_soc_norms.
Print Assumptions C57_quadratic_norms.
Print Assumptions C57_soc_slack.
Print Assumptions C57_quadratic_slack.
Print Assumptions C58_soc_newton.
Print Assumptions C58_quadratic_newton.
