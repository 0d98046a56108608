(** Consequences of the recurrence for the reported values. *)
From Coq Require Import List Arith Reals Lra Lia FunctionalExtensionality.
From Verif Require Import Base DenseModel RSum JordanModel LanczosModel Spec_Hyper Spec_Lanczos HyperFacts JordanProofs LanczosProofs LanczosLinks.
Import ListNotations.
Open Scope R_scope.

(** A tridiagonal matrix whose eigenvalues are Rayleigh quotients. *)
Definition rayleigh {A : star} (d : nat) (W S : amat A) (T : option (list R * list R)) : Prop :=
  forall al be lam, T = Some (al, be) -> is_eigenvalue al be lam ->
    exists z, 0 < form d W z /\ weighted d W S z = lam * form d W z.

Section Reports.
  Context {A : star}.
  Variables (d : nat) (W S : amat A) (T : option (list R * list R)).
  Hypothesis HT : rayleigh d W S T.
  Lemma rayleigh_range al be lam lo hi : T = Some (al, be) -> is_eigenvalue al be lam -> spectrum_between d W S lo hi -> lo <= lam <= hi.
  Proof.
    intros E HE HB. destruct (HT al be lam E HE) as (z & Hz & Hw). destruct (HB z) as [H1 H2]. rewrite Hw in H1, H2.
    split; apply Rmult_le_reg_r with (form d W z); auto.
  Qed.
  Lemma rayleigh_norm e t t' : norm_estimate e T t -> norm_at_most d W S e t' -> t <= t'.
  Proof.
    intros (al & be & lo & hi & E & [H1 _] & [H2 _] & ->) HN.
    assert (forall lam, is_eigenvalue al be lam -> Rabs (e + lam) <= t') as H.
    { intros lam HE. destruct (HT al be lam E HE) as (z & Hz & Hw). specialize (HN z). rewrite Hw in HN.
      replace (e * form d W z + lam * form d W z) with ((e + lam) * form d W z) in HN by ring.
      rewrite Rabs_mult, (Rabs_right (form d W z)) in HN by lra. apply Rmult_le_reg_r with (form d W z); auto. }
    unfold norm_from. destruct (Rlt_dec (Rabs (e + lo)) (Rabs (e + hi))); apply H; auto.
  Qed.
  Lemma rayleigh_slack lmin lmax lo hi : slack_estimate T lmin lmax -> spectrum_between d W S lo hi -> - hi <= lmin /\ lmin <= lmax /\ lmax <= - lo.
  Proof.
    intros (al & be & l & h & E & [H1 H1'] & [H2 H2'] & -> & ->) HB.
    pose proof (rayleigh_range _ _ _ _ _ E H1 HB). pose proof (rayleigh_range _ _ _ _ _ E H2 HB). pose proof (H1' _ H2). lra.
  Qed.
End Reports.

Lemma real_rayleigh d W S r num : possemidef (A := reals) d W -> hermitian_matrix (A := reals) d S ->
  rayleigh (A := reals) d W S (AsymmetricLanczos d (rprod d W S) W r num).
Proof. intros HW HS al be lam E HE. destruct (real_estimate d W S HW HS r num al be lam E HE) as (z & H1 & H2 & _). exists z. auto. Qed.
Lemma posdef_psd {A : star} co (L : laws A co) d (W : amat A) : posdef d W -> possemidef d W.
Proof.
  intros [H1 H2]. split; auto. intros z. destruct (Classical_Prop.classic (exists r, (r < d)%nat /\ z r <> s0)) as [H|H]; [left; auto|].
  right. symmetry. unfold form. assert (forall r, (r < d)%nat -> z r = s0) as Hz by (intros r Hr; apply Classical_Prop.NNPP; intros Hn; apply H; exists r; auto).
  rewrite (ssum_0 A co L); [apply (re_0 A co L)|]. intros r Hr. apply (ssum_0 A co L). intros c Hc. rewrite (Hz c), !(mul_0_r A co L) by auto. auto.
Qed.
Lemma scalar_eigenvalue a lam : is_eigenvalue [a] [] lam <-> lam = a.
Proof.
  unfold is_eigenvalue. cbn. split.
  - intros (z & (i & Hi & Hz) & H). assert (i = 0%nat) as -> by lia. specialize (H 0%nat ltac:(lia)). cbn in H.
    assert ((lam - a) * z 0%nat = 0) as H0 by lra. apply Rmult_integral in H0. destruct H0; [lra|contradiction].
  - intros ->. exists (fun _ => 1). split; [exists 0%nat; split; [lia|lra]|]. intros i Hi. assert (i = 0%nat) as -> by lia. cbn. ring.
Qed.
Lemma approximate_rayleigh d W S r num : posdef (A := reals) d W -> hermitian_matrix (A := reals) d S ->
  rayleigh (A := reals) d W S (ApproximateEigenvalues d (rprod d W S) W r num).
Proof.
  intros HW HS. unfold ApproximateEigenvalues. destruct (Nat.eqb_spec d 1) as [->|_]; [|apply real_rayleigh; auto; apply (posdef_psd _ laws_reals); auto].
  intros al be lam E HE. injection E as <- <-. apply scalar_eigenvalue in HE. subst lam. exists (fun _ => 1).
  assert (0 < form (A := reals) 1 W (fun _ => 1)) as Hp by (apply HW; exists 0%nat; split; [lia|cbn; lra]).
  split; auto. unfold weighted, form, mmul, rprod in *. cbn in *. ring.
Qed.
Lemma hyper_rayleigh k d W S r num : (k <= 2)%nat -> possemidef d (matrix_of k W) -> hermitian_matrix d (matrix_of k S) ->
  rayleigh d (matrix_of k W) (matrix_of k S) (HApproximateEigenvalues (2 ^ k) d (Multiply (2 ^ k) d W S) W r num).
Proof. intros Hk HW HS al be lam E HE. destruct (hyper_estimate k d W S Hk HW HS r num al be lam E HE) as (z & H1 & H2 & _). exists z. auto. Qed.

(** ** When the recurrence is defined *)
Lemma loop_defined E add scale ip op th todo : 0 < th -> forall V U, exists r, lanczos_loop E add scale ip op th todo V U = Some r.
Proof.
  intros Hth. induction todo; intros V U; cbn [lanczos_loop]; [eauto|].
  destruct (Rlt_dec (ip U U) th); [eauto|]. destruct (Rle_dec (ip U U) 0); [lra|].
  set (V1 := scale U (1 / sqrt (ip U U))). set (U1 := add _ _). destruct (IHtodo V1 U1) as [[a b] ->]. eauto.
Qed.
Lemma lanczos_defined E add scale ip op th num V : (forall x, 0 < th x) ->
  ((exists r, lanczos E add scale ip op th num V = Some r) <-> (0 < num)%nat /\ 0 < ip V V).
Proof.
  intros Hth. unfold lanczos. destruct num as [|todo]; [split; [intros [r H]; discriminate|lia]|].
  destruct (Rle_dec (ip V V) 0); [split; [intros [r0 H]; discriminate|intros [_ H]; lra]|].
  split; [intros _; split; [lia|lra]|]. intros _.
  set (V1 := scale V (1 / sqrt (ip V V))). set (U1 := add (op V1) _).
  destruct (loop_defined E add scale ip op (th (ip (op V1) (op V1))) todo (Hth _) V1 U1) as [[a b] ->]. eauto.
Qed.

(** ** The largest eigenvalue against the Frobenius norm *)
Lemma norm_conj_product : forall k, (k <= 2)%nat -> forall x y : el (cd k),
  sre (smul (sconj (smul x (sconj y))) (smul x (sconj y))) = sre (smul (sconj x) x) * sre (smul (sconj y) y).
Proof.
  intros k Hk. destruct k as [|[|[|]]]; [| | |lia]; cbn [cd double reals el smul sconj sre sadd sscal fst snd].
  - intros x y. ring.
  - intros [x1 x2] [y1 y2]. cbn. ring.
  - intros [[x1 x2] [x3 x4]] [[y1 y2] [y3 y4]]. cbn. ring.
Qed.
Section Frobenius.
  Variable k : nat.
  Hypothesis Hk : (k <= 2)%nat.
  Notation A := (cd k).
  Notation L := (laws_cd k).
  Notation HA := (assoc_cd k Hk).
  Lemma rank_one_bound d (N : amat A) (u : nat -> el A) :
    ip A d u (mv A d N u) * ip A d u (mv A d N u) <= ip A d u u * ip A d u u * minner d d N N.
  Proof.
    set (q := ip A d u u). set (b := ip A d u (mv A d N u)).
    assert (0 <= q) as Hq.
    { unfold q, ip. rewrite (ssum_re _ _ L). apply rsum_nonneg. intros. apply (re_nonneg _ _ L). }
    assert (forall s, 0 <= minner d d N N - 2 * s * b + s * s * (q * q)) as HS.
    { intros s. set (Q := fun r c => smul (u r) (sconj (u c))).
      assert (minner d d (madd N (mscal (- s) Q)) (madd N (mscal (- s) Q)) = minner d d N N - 2 * s * b + s * s * (q * q)) as <-.
      { assert (minner d d Q Q = q * q) as EQ.
        { unfold minner, q, ip. rewrite (ssum_re _ _ L). rewrite <- rsum_scal_r. apply rsum_ext. intros r Hr. rewrite <- rsum_scal. apply rsum_ext. intros c Hc.
          unfold Q. apply norm_conj_product. auto. }
        assert (minner d d Q N = b) as EB.
        { unfold minner, b, ip, mv. rewrite (ssum_re _ _ L). apply rsum_ext. intros r Hr. rewrite (ssum_mul_l _ _ L), (ssum_re _ _ L). apply rsum_ext. intros c Hc.
          unfold Q. rewrite (conj_mul _ _ L), (conj_conj _ _ L), (re_assoc _ _ L), (re_comm _ _ L), (re_assoc _ _ L). auto. }
        assert (minner d d N Q = b) as EB'.
        { rewrite <- EB. unfold minner. apply rsum_ext. intros r _. apply rsum_ext. intros c _. rewrite <- (re_conj _ _ L), (conj_mul _ _ L), (conj_conj _ _ L). auto. }
        transitivity (minner d d N N + - s * minner d d N Q + (- s * minner d d Q N + s * s * minner d d Q Q)); [|rewrite EQ, EB, EB'; ring].
        unfold minner. rewrite <- !rsum_scal, <- !rsum_plus. apply rsum_ext. intros r _. rewrite <- !rsum_scal, <- !rsum_plus. apply rsum_ext. intros c _.
        unfold madd, mscal. rewrite (conj_add _ _ L), (conj_scal _ _ L), (mul_add_l _ _ L), !(mul_add_r _ _ L), !(mul_scal_l _ _ L), !(mul_scal_r _ _ L), !(re_add _ _ L), !(re_scal _ _ L). ring. }
      unfold minner. apply rsum_nonneg. intros r _. apply rsum_nonneg. intros c _. apply (re_nonneg _ _ L). }
    destruct Hq as [Hq|Hq].
    - specialize (HS (b / (q * q))). replace (minner d d N N - 2 * (b / (q * q)) * b + b / (q * q) * (b / (q * q)) * (q * q)) with (minner d d N N - b * b / (q * q)) in HS by (field; lra).
      assert (0 < q * q) as Hqq by nra. apply Rmult_le_reg_r with (/ (q * q)); [apply Rinv_0_lt_compat; auto|].
      replace (q * q * minner d d N N * / (q * q)) with (minner d d N N) by (field; lra). unfold Rdiv in HS. lra.
    - rewrite <- Hq in *. destruct (Req_dec b 0) as [E0|E0]; [rewrite E0; lra|]. exfalso.
      specialize (HS ((minner d d N N + 1) / (2 * b))). replace (minner d d N N - 2 * ((minner d d N N + 1) / (2 * b)) * b + (minner d d N N + 1) / (2 * b) * ((minner d d N N + 1) / (2 * b)) * (0 * 0)) with (-1) in HS by (field; auto). lra.
  Qed.

  (** With [W = F F^*] the quadratic form of [e + W^{1/2} S W^{1/2}] is that of
      [e + F^* S F]. *)
  Lemma factored_norm d (W S F : amat A) e : same_matrix d W (mmul d F (mconj F)) -> hermitian_matrix d W -> 
    norm_at_most d W S e (sqrt (minner d d (madd (mscal e mid) (mmul d (mconj F) (mmul d S F))) (madd (mscal e mid) (mmul d (mconj F) (mmul d S F))))).
  Proof.
    intros HF HW z. set (N := madd _ _). set (u := mv A d (mconj F) z).
    assert (form d W z = ip A d u u) as E1.
    { rewrite (form_same _ d W (mmul d F (mconj F))) by auto. rewrite (form_ip _ _ L), (mv_mul _ _ L HA), (ip_adj _ _ L HA). reflexivity. }
    assert (weighted d W S z = ip A d u (mv A d (mmul d (mconj F) (mmul d S F)) u)) as E2.
    { unfold weighted. set (FF := mmul d F (mconj F)).
      assert (same_matrix d (mmul d W (mmul d S W)) (mmul d FF (mmul d S FF))) as HS.
      { intros r c Hr Hc. unfold mmul at 1 3. apply (ssum_ext A). intros t Ht. rewrite (HF r t) by auto. f_equal. unfold mmul at 1 2. apply (ssum_ext A).
        intros t' Ht'. rewrite (HF t' c) by auto. auto. }
      rewrite (form_same _ d _ _ z HS). unfold FF. rewrite (form_ip _ _ L), !(mv_mul _ _ L HA), (ip_adj _ _ L HA). reflexivity. }
    assert (e * form d W z + weighted d W S z = ip A d u (mv A d N u)) as E3.
    { rewrite E1, E2. unfold N.
      assert (forall X Y, mv A d (madd X Y) u = fun r => sadd (mv A d X u r) (mv A d Y u r)) as EA.
      { intros X Y. apply functional_extensionality. intros r. unfold mv, madd. rewrite <- (ssum_add _ _ L). apply (ssum_ext A). intros. apply (mul_add_l _ _ L). }
      rewrite EA, (ip_plus _ _ L). f_equal. rewrite <- (ip_times _ _ L). apply (ip_ext A); auto. intros r Hr. unfold mv, mscal.
      rewrite (ssum_ext A d _ (fun c => sscal e (if (r =? c)%nat then u c else s0))).
      - rewrite (ssum_scal _ _ L). f_equal. rewrite (ssum_single _ _ L d r) by (auto; intros t Ht Hn; assert ((r =? t)%nat = false) as -> by (apply Nat.eqb_neq; lia); auto).
        rewrite Nat.eqb_refl. auto.
      - intros c Hc. rewrite (mul_scal_l _ _ L). f_equal. unfold mid. destruct (r =? c)%nat; [apply (mul_1_l _ _ L)|apply (mul_0_l _ _ L)]. }
    rewrite E3, E1. pose proof (rank_one_bound d N u) as HB. set (q := ip A d u u) in *.
    assert (0 <= q) as Hq.
    { unfold q, ip. rewrite (ssum_re _ _ L). apply rsum_nonneg. intros. apply (re_nonneg _ _ L). }
    assert (0 <= minner d d N N) as Hn by (unfold minner; apply rsum_nonneg; intros; apply rsum_nonneg; intros; apply (re_nonneg _ _ L)).
    apply Rsqr_incr_0_var; [|apply Rmult_le_pos; [apply sqrt_pos|auto]]. rewrite <- Rsqr_abs. unfold Rsqr.
    replace (sqrt (minner d d N N) * q * (sqrt (minner d d N N) * q)) with ((sqrt (minner d d N N) * sqrt (minner d d N N)) * (q * q)) by ring.
    rewrite R_sqrt.sqrt_def by auto. lra.
  Qed.
End Frobenius.
