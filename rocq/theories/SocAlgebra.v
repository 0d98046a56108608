(** The spin algebra of a semidefinite form. *)
From Coq Require Import List Arith Reals Lra Lia Psatz.
From Verif Require Import DenseModel RSum Spec_Soc.
Import ListNotations.
Open Scope R_scope.

Record form (n : nat) (B : vec -> vec -> R) : Prop := {
  f_sym : forall u v, B u v = B v u;
  f_lin : forall a b u v w, B (fun i => a * u i + b * v i) w = a * B u w + b * B v w;
  f_ext : forall u u' w, (forall i, (i < n)%nat -> u i = u' i) -> B u w = B u' w;
  f_psd : forall u, 0 <= B u u }.

Lemma euclid_form n : form n (euclid n).
Proof.
  unfold euclid. split.
  - intros. apply rsum_ext. intros. ring.
  - intros. rewrite <- !rsum_scal, <- rsum_plus. apply rsum_ext. intros. ring.
  - intros. apply rsum_ext. intros i Hi. rewrite H by auto. auto.
  - intros. apply rsum_nonneg. intros. nra.
Qed.

Lemma weighted_form n Q : semidefinite n Q -> form n (weighted n Q).
Proof.
  intros [HS HP]. unfold weighted in *. split; auto.
  - intros. rewrite rsum_swap. apply rsum_ext. intros i Hi. apply rsum_ext. intros j Hj. rewrite HS by auto. ring.
  - intros. rewrite <- !rsum_scal, <- rsum_plus. apply rsum_ext. intros i Hi.
    rewrite <- !rsum_scal, <- rsum_plus. apply rsum_ext. intros. ring.
  - intros. apply rsum_ext. intros i Hi. rewrite H by auto. auto.
Qed.

Lemma metric_form n Q : metric n Q -> form n (form_of n Q).
Proof. destruct Q; cbn; intros; [apply weighted_form|apply euclid_form]; auto. Qed.

Lemma euclid_zero n u : euclid n u u = 0 -> forall i, (i < n)%nat -> u i = 0.
Proof.
  unfold euclid. induction n; intros H i Hi; [lia|]. cbn in H.
  assert (0 <= rsum n (fun i => u i * u i)) by (apply rsum_nonneg; intros; nra).
  assert (rsum n (fun i => u i * u i) = 0) by nra. destruct (Nat.eq_dec i n) as [->|]; [nra|].
  apply IHn; auto; lia.
Qed.

Section Algebra.
  Variable n : nat.
  Variable B : vec -> vec -> R.
  Hypothesis F : form n B.

  Lemma B_ext u u' v v' : (forall i, (i < n)%nat -> u i = u' i) -> (forall i, (i < n)%nat -> v i = v' i) -> B u v = B u' v'.
  Proof. intros. rewrite (f_ext _ _ F u u') by auto. rewrite (f_sym _ _ F u' v), (f_ext _ _ F v v') by auto. apply (f_sym _ _ F). Qed.
  Lemma B_lin_r a b u v w : B w (fun i => a * u i + b * v i) = a * B w u + b * B w v.
  Proof. rewrite (f_sym _ _ F), (f_lin _ _ F), !(f_sym _ _ F w). auto. Qed.
  Lemma B_scal a u w : B (fun i => a * u i) w = a * B u w.
  Proof. rewrite (B_ext _ (fun i => a * u i + 0 * u i) w w) by (intros; ring). rewrite (f_lin _ _ F). ring. Qed.
  Lemma B_scal_r a u w : B w (fun i => a * u i) = a * B w u.
  Proof. rewrite (f_sym _ _ F), B_scal, (f_sym _ _ F). auto. Qed.
  Lemma B_zero w : B (fun _ => 0) w = 0.
  Proof. rewrite (B_ext _ (fun i => 0 * w i) w w) by (intros; ring). rewrite B_scal. ring. Qed.
  Lemma B_zero_r w : B w (fun _ => 0) = 0.
  Proof. rewrite (f_sym _ _ F). apply B_zero. Qed.

  Lemma cauchy u v : B u v * B u v <= B u u * B v v.
  Proof.
    assert (H : forall t, 0 <= B u u + 2 * t * B u v + t * t * B v v).
    { intros t. pose proof (f_psd _ _ F (fun i => 1 * u i + t * v i)) as H.
      rewrite (f_lin _ _ F), !B_lin_r, (f_sym _ _ F v u) in H. nra. }
    pose proof (f_psd _ _ F v) as Hv. pose proof (f_psd _ _ F u) as Hu.
    destruct (Req_EM_T (B v v) 0) as [E|E].
    - destruct (Req_EM_T (B u v) 0) as [->|N]; [nra|]. exfalso. rewrite E in H.
      specialize (H (- (B u u + 1) / (2 * B u v))).
      replace (B u u + 2 * (- (B u u + 1) / (2 * B u v)) * B u v + - (B u u + 1) / (2 * B u v) * (- (B u u + 1) / (2 * B u v)) * 0) with (-1) in H by (field; auto). lra.
    - specialize (H (- B u v / B v v)).
      replace (B u u + 2 * (- B u v / B v v) * B u v + - B u v / B v v * (- B u v / B v v) * B v v) with ((B u u * B v v - B u v * B u v) / B v v) in H by (field; auto).
      assert (0 < B v v) by lra. apply Rmult_le_compat_r with (r := B v v) in H; [|lra].
      unfold Rdiv in H. rewrite Rmult_assoc, Rinv_l, Rmult_0_l in H by auto. lra.
  Qed.

  (** ** The quadratic representation *)

  Definition qr (x y : elem) : elem :=
    (2 * inner B x y * fst x - det B x * fst y, fun i => 2 * inner B x y * snd x i + det B x * snd y i).

  Lemma quadrep_qr x y : fst (quadrep B x y) = fst (qr x y) /\ forall i, snd (quadrep B x y) i = snd (qr x y) i.
  Proof.
    unfold quadrep, qr, jsub, jscale, jmul, inner, det. cbn [fst snd].
    rewrite (B_lin_r (fst x) (fst y) (snd y) (snd x) (snd x)), (f_lin _ _ F (fst x) (fst x)).
    split; [ring|]. intros i. rewrite (f_sym _ _ F (snd y)) || idtac. ring.
  Qed.

  Lemma inner_sym x y : inner B x y = inner B y x.
  Proof. unfold inner. rewrite (f_sym _ _ F). ring. Qed.
  Lemma inner_qr x y z : inner B (qr x y) z = 2 * inner B x y * inner B x z - det B x * (fst y * fst z - B (snd y) (snd z)).
  Proof. unfold qr, inner. cbn [fst snd]. rewrite (f_lin _ _ F). ring. Qed.
  Lemma inner_qr_sym x y z : inner B (qr x y) z = inner B y (qr x z).
  Proof. rewrite (inner_sym y), !inner_qr, (f_sym _ _ F (snd z)). ring. Qed.

  Lemma det_qr x y : det B (qr x y) = det B x * det B x * det B y.
  Proof.
    unfold qr, det, inner. cbn [fst snd]. rewrite (f_lin _ _ F), !B_lin_r, (f_sym _ _ F (snd y) (snd x)). ring.
  Qed.

  Lemma interior_det x : interior B x -> 0 < det B x.
  Proof. unfold interior, det. lra. Qed.

  Lemma qr_interior x y : det B x <> 0 -> interior B y -> interior B (qr x y).
  Proof.
    intros Hx Hy. pose proof (interior_det y Hy) as Dy. destruct Hy as [Y0 Y1].
    assert (0 < det B x * det B x) by nra.
    assert (0 < det B (qr x y)) as D by (rewrite det_qr; nra).
    split; [|unfold det in D; lra].
    unfold qr. cbn [fst]. unfold det, inner in *.
    pose proof (cauchy (snd x) (snd y)) as C. pose proof (f_psd _ _ F (snd x)) as P. pose proof (f_psd _ _ F (snd y)) as Q.
    set (p := B (snd x) (snd x)) in *. set (q := B (snd y) (snd y)) in *. set (r := B (snd x) (snd y)) in *.
    set (a := fst x) in *. set (b := fst y) in *.
    replace (2 * (a * b + r) * a - (a * a - p) * b) with ((a * a + p) * b + 2 * a * r) by ring.
    assert (0 < a * a + p) as AP by nra.
    destruct (Rlt_dec 0 ((a * a + p) * b + 2 * a * r)) as [|N]; auto. exfalso.
    assert ((a * a + p) * b <= - (2 * a * r)) as L by lra.
    assert (0 < (a * a + p) * b) by nra.
    assert (((a * a + p) * b) * ((a * a + p) * b) <= (2 * a * r) * (2 * a * r)) as S1 by nra.
    assert ((2 * a * r) * (2 * a * r) <= 4 * (a * a) * p * q) as S2.
    { replace ((2 * a * r) * (2 * a * r)) with (4 * (a * a) * (r * r)) by ring. replace (4 * (a * a) * p * q) with (4 * (a * a) * (p * q)) by ring. apply Rmult_le_compat_l; auto. pose proof (Rle_0_sqr a) as E. unfold Rsqr in E. lra. }
    assert (4 * (a * a) * p * q <= (a * a + p) * (a * a + p) * q) as S3.
    { apply Rmult_le_compat_r; auto. pose proof (Rle_0_sqr (a * a - p)) as E. unfold Rsqr in E. lra. }
    assert ((a * a + p) * (a * a + p) * q < (a * a + p) * (a * a + p) * (b * b)) as S4.
    { apply Rmult_lt_compat_l; [nra|auto]. }
    lra.
  Qed.

  Lemma qr_neg x y : forall i, fst (qr x (jscale (-1) y)) = - fst (qr x y) /\ snd (qr x (jscale (-1) y)) i = - snd (qr x y) i.
  Proof. intros i. unfold qr, jscale, inner. cbn [fst snd]. rewrite B_scal_r. split; ring. Qed.

  Lemma qr_interior_inv x y : det B x <> 0 -> interior B (qr x y) -> interior B y.
  Proof.
    intros Hx H. pose proof (interior_det _ H) as D. rewrite det_qr in D.
    assert (0 < det B x * det B x) by nra. assert (0 < det B y) as Dy by nra.
    unfold det in Dy. pose proof (f_psd _ _ F (snd y)).
    destruct (Rlt_dec 0 (fst y)) as [|N]; [split; lra|]. exfalso.
    assert (interior B (jscale (-1) y)) as I.
    { unfold interior, jscale. cbn [fst snd]. rewrite B_scal, B_scal_r. split; nra. }
    apply (qr_interior x) in I; auto. destruct I as [I _], H as [H' _]. rewrite (proj1 (qr_neg x y 0%nat)) in I. lra.
  Qed.

  (** Cone version. *)
  Lemma qr_cone x y : cone B y -> cone B (qr x y).
  Proof.
    intros [Y0 Y1].
    assert (0 <= det B y) as Dy by (unfold det; lra).
    assert (0 <= det B (qr x y)) as D by (rewrite det_qr; apply Rmult_le_pos; [apply Rle_0_sqr|auto]).
    split; [|unfold det in D; lra].
    unfold qr. cbn [fst]. unfold det, inner in *.
    pose proof (cauchy (snd x) (snd y)) as C. pose proof (f_psd _ _ F (snd x)) as P. pose proof (f_psd _ _ F (snd y)) as Q.
    set (p := B (snd x) (snd x)) in *. set (q := B (snd y) (snd y)) in *. set (r := B (snd x) (snd y)) in *.
    set (a := fst x) in *. set (b := fst y) in *.
    replace (2 * (a * b + r) * a - (a * a - p) * b) with ((a * a + p) * b + 2 * a * r) by ring.
    destruct (Rle_dec 0 ((a * a + p) * b + 2 * a * r)) as [|N]; auto. exfalso.
    assert (0 <= a * a + p) as AP by nra.
    assert ((a * a + p) * b < - (2 * a * r)) as L by lra.
    assert (0 <= (a * a + p) * b) by nra.
    assert (((a * a + p) * b) * ((a * a + p) * b) < (2 * a * r) * (2 * a * r)) as S1 by nra.
    assert ((2 * a * r) * (2 * a * r) <= 4 * (a * a) * p * q) as S2.
    { replace ((2 * a * r) * (2 * a * r)) with (4 * (a * a) * (r * r)) by ring. replace (4 * (a * a) * p * q) with (4 * (a * a) * (p * q)) by ring. apply Rmult_le_compat_l; auto. pose proof (Rle_0_sqr a) as E. unfold Rsqr in E. lra. }
    assert (4 * (a * a) * p * q <= (a * a + p) * (a * a + p) * q) as S3.
    { apply Rmult_le_compat_r; auto. pose proof (Rle_0_sqr (a * a - p)) as E. unfold Rsqr in E. lra. }
    assert ((a * a + p) * (a * a + p) * q <= (a * a + p) * (a * a + p) * (b * b)) as S4.
    { apply Rmult_le_compat_l; [apply Rle_0_sqr|auto]. }
    lra.
  Qed.

  (** [Q(s)^2 = Q(s^2)]. *)
  Lemma inner_qr_qr s w a b : fst w = fst s * fst s + B (snd s) (snd s) -> (forall v, B (snd w) v = 2 * fst s * B (snd s) v) ->
    inner B (qr s a) (qr s b) = inner B a (qr w b).
  Proof.
    intros W0 W1.
    rewrite (inner_sym a), !inner_qr. rewrite (inner_sym s (qr s b)), inner_qr.
    unfold qr, inner, det. cbn [fst snd].
    rewrite !B_lin_r, !W1, W0, (f_sym _ _ F (snd s) (snd w)), W1, (f_sym _ _ F (snd a) (snd s)), (f_sym _ _ F (snd b) (snd a)).
    rewrite (f_sym _ _ F (snd b) (snd s)). ring.
  Qed.

  (** ** Functions of an element *)

  Definition enorm (x : elem) : R := sqrt (B (snd x) (snd x)).
  Lemma enorm_sq x : enorm x * enorm x = B (snd x) (snd x).
  Proof. apply sqrt_sqrt. apply (f_psd _ _ F). Qed.
  Lemma enorm_pos x : 0 <= enorm x.
  Proof. apply sqrt_pos. Qed.

  (** [z = f(x)]. *)
  Definition applied (f : R -> R) (x z : elem) : Prop :=
    fst z = (f (fst x + enorm x) + f (fst x - enorm x)) / 2 /\
    exists c, (forall i, (i < n)%nat -> snd z i = c * snd x i) /\ c * enorm x = (f (fst x + enorm x) - f (fst x - enorm x)) / 2.

  Lemma applied_tail f x z : applied f x z -> forall v, exists c, B (snd z) v = c * B (snd x) v /\ c * enorm x = (f (fst x + enorm x) - f (fst x - enorm x)) / 2.
  Proof. intros [_ (c & H1 & H2)] v. exists c. split; auto. rewrite (B_ext _ (fun i => c * snd x i) v v) by auto. apply B_scal. Qed.

  Lemma applied_sq f x z : applied f x z -> B (snd z) (snd z) = ((f (fst x + enorm x) - f (fst x - enorm x)) / 2) * ((f (fst x + enorm x) - f (fst x - enorm x)) / 2).
  Proof.
    intros [_ (c & H1 & H2)]. rewrite (B_ext _ (fun i => c * snd x i) _ (fun i => c * snd x i)) by auto.
    rewrite B_scal, B_scal_r, <- enorm_sq, <- H2. ring.
  Qed.
  Lemma applied_det f x z : applied f x z -> det B z = f (fst x + enorm x) * f (fst x - enorm x).
  Proof. intros H. unfold det. rewrite (applied_sq _ _ _ H). destruct H as [-> _]. field. Qed.

  Lemma applied_interior f x z : applied f x z -> 0 < f (fst x + enorm x) -> 0 < f (fst x - enorm x) -> interior B z.
  Proof.
    intros H P1 P2. pose proof (applied_det _ _ _ H) as D. split; [destruct H as [-> _]; lra|].
    unfold det in D. nra.
  Qed.
  Lemma applied_cone f x z : applied f x z -> 0 <= f (fst x + enorm x) -> 0 <= f (fst x - enorm x) -> cone B z.
  Proof.
    intros H P1 P2. pose proof (applied_det _ _ _ H) as D. split; [destruct H as [-> _]; lra|].
    unfold det in D. nra.
  Qed.

  Lemma interior_evs x : interior B x <-> 0 < fst x - enorm x.
  Proof.
    unfold interior. pose proof (enorm_sq x). pose proof (enorm_pos x). split.
    - intros [H1 H2]. destruct (Rlt_dec 0 (fst x - enorm x)); auto. exfalso. nra.
    - intros. split; nra.
  Qed.
  Lemma cone_evs x : cone B x <-> 0 <= fst x - enorm x.
  Proof.
    unfold cone. pose proof (enorm_sq x). pose proof (enorm_pos x). split.
    - intros [H1 H2]. destruct (Rle_dec 0 (fst x - enorm x)); auto. exfalso. nra.
    - intros. split; nra.
  Qed.

  (** The square root squares to its argument as far as the form can see. *)
  Lemma sqrt_square x z : cone B x -> applied sqrt x z ->
    fst z * fst z + B (snd z) (snd z) = fst x /\ forall v, 2 * fst z * B (snd z) v = B (snd x) v.
  Proof.
    intros Hx H. apply cone_evs in Hx. pose proof (enorm_pos x) as Hk.
    assert (sqrt (fst x + enorm x) * sqrt (fst x + enorm x) = fst x + enorm x) as E0 by (apply sqrt_sqrt; lra).
    assert (sqrt (fst x - enorm x) * sqrt (fst x - enorm x) = fst x - enorm x) as E1 by (apply sqrt_sqrt; lra).
    split.
    - rewrite (applied_sq _ _ _ H). destruct H as [-> _]. 
      set (a := sqrt (fst x + enorm x)) in *. set (b := sqrt (fst x - enorm x)) in *. nra.
    - intros v. destruct (applied_tail _ _ _ H v) as (c & E & Hc). rewrite E. destruct H as [-> _].
      set (a := sqrt (fst x + enorm x)) in *. set (b := sqrt (fst x - enorm x)) in *.
      destruct (Req_EM_T (enorm x) 0) as [Z|Z].
      + assert (B (snd x) v = 0) as ->; [|ring].
        pose proof (cauchy (snd x) v) as C. rewrite <- enorm_sq, Z in C. nra.
      + assert ((a + b) * c * enorm x = enorm x) as M.
        { rewrite Rmult_assoc, Hc. lra. }
        assert ((a + b) * c = 1) as N by (apply Rmult_eq_reg_r with (enorm x); lra).
        replace (2 * ((a + b) / 2) * (c * B (snd x) v)) with ((a + b) * c * B (snd x) v) by field. rewrite N. ring.
  Qed.

  (** Eigenvalues. *)
  Lemma eigenvalues x a : eigenvalue B x a <-> a = fst x + enorm x \/ a = fst x - enorm x.
  Proof.
    unfold eigenvalue, det, jsub, jscale, jone. cbn [fst snd].
    rewrite (B_ext (fun i => snd x i - a * 0) (snd x) _ (snd x)) by (intros; ring). rewrite <- enorm_sq.
    split.
    - intros H. assert ((a - (fst x + enorm x)) * (a - (fst x - enorm x)) = 0) as E by lra.
      apply Rmult_integral in E. destruct E; [left|right]; lra.
    - intros [->| ->]; ring.
  Qed.
  (** ** The exponential series *)

  Lemma applied_one x : applied (fun _ => 1) x jone.
  Proof. split; [cbn; lra|]. exists 0. cbn. split; intros; lra. Qed.
  Lemma applied_mul f x z : applied f x z -> applied (fun t => t * f t) x (jmul B x z).
  Proof.
    intros [H0 (c & H1 & H2)]. unfold jmul, inner. split; cbn [fst snd].
    - rewrite (B_ext (snd x) (snd x) (snd z) (fun i => c * snd x i)) by auto. rewrite B_scal_r, <- enorm_sq, <- Rmult_assoc, H2, H0. field.
    - exists (fst x * c + fst z). split; [intros i Hi; rewrite H1 by auto; ring|].
      rewrite Rmult_plus_distr_r, Rmult_assoc, H2, H0. field.
  Qed.
  Lemma applied_add f g x y z : applied f x y -> applied g x z -> applied (fun t => f t + g t) x (jadd y z).
  Proof.
    intros [H0 (c & H1 & H2)] [K0 (c' & K1 & K2)]. unfold jadd. split; cbn [fst snd]; [rewrite H0, K0; field|].
    exists (c + c'). split; [intros; rewrite H1, K1 by auto; ring|]. rewrite Rmult_plus_distr_r, H2, K2. field.
  Qed.
  Lemma applied_scale f x a z : applied f x z -> applied (fun t => a * f t) x (jscale a z).
  Proof.
    intros [H0 (c & H1 & H2)]. unfold jscale. split; cbn [fst snd]; [rewrite H0; field|].
    exists (a * c). split; [intros; rewrite H1 by auto; ring|]. rewrite Rmult_assoc, H2. field.
  Qed.
  Lemma applied_power x k : applied (fun t => t ^ k) x (power B x k).
  Proof. induction k; [apply applied_one|]. cbn [power pow]. apply applied_mul. auto. Qed.

  Definition es (t : R) (k : nat) : R := sum_f_R0 (fun i => / INR (fact i) * t ^ i) k.
  Lemma applied_exp_sum x k : applied (fun t => es t k) x (exp_sum B x k).
  Proof.
    induction k; cbn [exp_sum].
    - unfold es. cbn [sum_f_R0 fact pow]. replace (fun _ : R => / INR 1 * 1) with (fun _ : R => 1).
      + apply applied_one.
      + apply FunctionalExtensionality.functional_extensionality. intros. cbn. field.
    - apply (applied_add (fun t => es t k) (fun t => / INR (fact (S k)) * t ^ S k)); auto.
      apply (applied_scale (fun t => t ^ S k)). apply applied_power.
  Qed.
  Lemma es_cv t : Un_cv (es t) (exp t).
  Proof. unfold exp. destruct (exist_exp t) as [l H]. exact H. Qed.

  Lemma cv_scal (u : nat -> R) l c : Un_cv u l -> Un_cv (fun k => c * u k) (c * l).
  Proof.
    intros H. destruct (Req_dec c 0) as [->|Hc].
    - intros e He. exists 0%nat. intros. rewrite !Rmult_0_l. unfold R_dist. rewrite Rminus_0_r, Rabs_R0. auto.
    - apply (CV_mult (fun _ => c) u c l); auto. intros e He. exists 0%nat. intros. unfold R_dist. rewrite Rminus_diag_eq, Rabs_R0; auto.
  Qed.
  Lemma cv_ext (u v : nat -> R) l : (forall k, u k = v k) -> Un_cv u l -> Un_cv v l.
  Proof. intros E H e He. destruct (H e He) as [N HN]. exists N. intros. rewrite <- E. auto. Qed.
  Lemma cv_const (l : R) : Un_cv (fun _ => l) l.
  Proof. intros e He. exists 0%nat. intros. unfold R_dist. rewrite Rminus_diag_eq, Rabs_R0; auto. Qed.

  Lemma exp_fst x z : applied exp x z -> Un_cv (fun k => fst (exp_sum B x k)) (fst z).
  Proof.
    intros [-> _]. apply (cv_ext (fun k => / 2 * (es (fst x + enorm x) k + es (fst x - enorm x) k))).
    - intros k. destruct (applied_exp_sum x k) as [-> _]. field.
    - unfold Rdiv. rewrite Rmult_comm. apply cv_scal. apply CV_plus; apply es_cv.
  Qed.

  Lemma exp_tail x c : c * enorm x = (exp (fst x + enorm x) - exp (fst x - enorm x)) / 2 -> enorm x <> 0 ->
    exists u, (forall k, forall i, (i < n)%nat -> snd (exp_sum B x k) i = u k * snd x i) /\ Un_cv u c.
  Proof.
    intros Hc Hn. exists (fun k => / enorm x * / 2 * (es (fst x + enorm x) k - es (fst x - enorm x) k)). split.
    - intros k i Hi. destruct (applied_exp_sum x k) as [_ (a & H1 & H2)]. rewrite H1 by auto. f_equal.
      apply Rmult_eq_reg_r with (enorm x); auto. rewrite H2. field. auto.
    - assert (c = / enorm x * / 2 * (exp (fst x + enorm x) - exp (fst x - enorm x))) as ->.
      { apply Rmult_eq_reg_r with (enorm x); auto. rewrite Hc. field. auto. }
      apply cv_scal. apply CV_minus; apply es_cv.
  Qed.

  Lemma is_exp_equiv_ok x z : applied exp x z -> is_exp_equiv B x z.
  Proof.
    intros H. split; [apply exp_fst; auto|]. intros v. destruct H as [_ (c & H1 & H2)].
    rewrite (B_ext (snd z) (fun i => c * snd x i) v v), B_scal by auto.
    destruct (Req_EM_T (enorm x) 0) as [Z|Z].
    - assert (B (snd x) v = 0) as E.
      { pose proof (cauchy (snd x) v) as C. rewrite <- enorm_sq, Z in C. nra. }
      rewrite E, Rmult_0_r. apply (cv_ext (fun _ => 0)); [|apply cv_const]. intros k.
      destruct (applied_exp_sum x k) as [_ (a & K1 & _)]. rewrite (B_ext _ (fun i => a * snd x i) v v), B_scal, E by auto. ring.
    - destruct (exp_tail x c H2 Z) as (u & U1 & U2). apply (cv_ext (fun k => B (snd x) v * u k)).
      + intros k. rewrite (B_ext (snd (exp_sum B x k)) (fun i => u k * snd x i) v v), B_scal by auto. ring.
      + rewrite Rmult_comm. apply cv_scal. auto.
  Qed.

  Lemma is_exp_ok x z : (enorm x = 0 -> forall i, (i < n)%nat -> snd x i = 0) -> applied exp x z -> is_exp B n x z.
  Proof.
    intros HD H. split; [apply exp_fst; auto|]. intros i Hi. destruct H as [_ (c & H1 & H2)]. rewrite H1 by auto.
    destruct (Req_EM_T (enorm x) 0) as [Z|Z].
    - rewrite (HD Z i Hi), Rmult_0_r. apply (cv_ext (fun _ => 0)); [|apply cv_const]. intros k.
      destruct (applied_exp_sum x k) as [_ (a & K1 & _)]. rewrite K1, (HD Z i Hi) by auto. ring.
    - destruct (exp_tail x c H2 Z) as (u & U1 & U2). apply (cv_ext (fun k => snd x i * u k)).
      + intros k. rewrite U1 by auto. ring.
      + rewrite Rmult_comm. apply cv_scal. auto.
  Qed.
End Algebra.
