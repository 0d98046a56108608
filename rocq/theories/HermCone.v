(** The dual matrix and the slack of a Hermitian constraint at a scaling
    [W = F F^*], in terms of the direction [D = I + F^* S F]. *)
From Coq Require Import List Arith Reals Bool Lia Lra FunctionalExtensionality.
From Verif Require Import RSum JordanModel Spec_Hyper HyperFacts JordanProofs JordanInterior JordanSteps JordanSchur HermFactor HermBound.
Import ListNotations.
Open Scope R_scope.

Section Scaled.
  Variable k : nat.
  Hypothesis Hk : (k <= 2)%nat.
  Notation A := (cd k).
  Let L : laws A (coords_of k) := laws_cd k.
  Let HA : associative A := assoc_cd k Hk.
  Variable d : nat.
  Notation "X ** Y" := (mmul d X Y) (at level 40, left associativity).
  Notation "X +m Y" := (madd X Y) (at level 50, left associativity).
  Notation I := (one A d).
  Ltac fext := let r := fresh "r" in let c := fresh "c" in apply functional_extensionality; intros r; apply functional_extensionality; intros c.
  Ltac mlin := fext; unfold madd, mscal; apply (co_sep _ _ L); let i := fresh "i" in intros i; coords L; field.
  Ltac mpush := repeat (rewrite (mmul_add_l _ _ L) || rewrite (mmul_add_r _ _ L) || rewrite (mmul_scal_l _ _ L)
    || rewrite (mmul_scal_r _ _ L) || rewrite (mconj_add _ _ L) || rewrite (mconj_scal _ _ L)
    || rewrite (mconj_mul _ _ L) || rewrite (mconj_mconj _ _ L) || rewrite (mconj_one _ _ L)).

  Variables F S : amat A.
  Hypothesis HF : clipped A d F.
  Hypothesis HSc : clipped A d S.
  Hypothesis HS : mconj S = S.
  Let W := F ** mconj F.
  Hypothesis HW : posdef d W.
  Let N := mconj F ** (S ** F).
  Let D := I +m N.
  Let X := mscal 2 W +m (W ** S) ** W.

  Lemma scaled_clip_N : clipped A d N.
  Proof. apply (clipped_mul A _ L); [apply (clipped_conj A _ L); auto|]. apply (clipped_mul A _ L); auto. Qed.
  Lemma scaled_herm_N : mconj N = N.
  Proof. unfold N. mpush. rewrite HS. apply (mmul_assoc _ _ L HA). Qed.
  Lemma scaled_herm_D : mconj D = D.
  Proof. unfold D. mpush. rewrite scaled_herm_N. auto. Qed.
  Lemma scaled_clip_F : clipped A d (mconj F).
  Proof. apply (clipped_conj A _ L). auto. Qed.
  Lemma scaled_dual : X = F ** ((I +m mscal 1 D) ** mconj F).
  Proof.
    unfold X, D. mpush. rewrite (one_l _ _ L) by apply scaled_clip_F. fold W.
    assert (W ** S ** W = F ** (N ** mconj F)) as ->. { unfold W, N. rewrite !(mmul_assoc _ _ L HA). auto. }
    mlin.
  Qed.
  Lemma scaled_slack : W ** (mscal (-1) S ** W) = F ** ((I +m mscal (-1) D) ** mconj F).
  Proof.
    unfold D. mpush. rewrite (one_l _ _ L) by apply scaled_clip_F. fold W.
    assert (W ** (S ** W) = F ** (N ** mconj F)) as ->. { unfold W, N. rewrite !(mmul_assoc _ _ L HA). auto. }
    mlin.
  Qed.
  Lemma scaled_injective : injective A d (mconj F).
  Proof.
    intros v Hv. apply nz_of. intros Hz. destruct HW as [_ HP]. specialize (HP v Hz).
    assert (form d W v = 0); [|lra]. apply (form_zero A _ L). intros r Hr. unfold W. rewrite (mv_mul _ _ L HA). apply (mv_zero A _ L). auto.
  Qed.

  Lemma scaled_gap : minner d d S X = minner d d D D - INR d.
  Proof.
    unfold X. rewrite (minner_add_r k d), (minner_scal_r k d). rewrite (mmul_assoc _ _ L HA).
    unfold W at 2 3. rewrite (sandwich k Hk d F S S HS). fold N.
    assert (minner d d S W = minner d d I N) as ->.
    { rewrite (minner_sym k d S W). rewrite (minner_retr A _ L). assert (mconj W = W) as -> by (unfold W; mpush; auto).
      unfold W. rewrite (retr_lin A _ L HA) by auto. reflexivity. }
    unfold D. rewrite (minner_add_r k d). rewrite !(minner_sym k d (I +m N)). rewrite !(minner_add_r k d).
    rewrite (minner_sym k d N I). rewrite (minner_retr A _ L d I I). mpush. rewrite (one_l _ _ L) by apply clipped_one. rewrite (retr_one A _ L). ring.
  Qed.

  Lemma scaled_cone : (minner d d D D <= 1 -> possemidef d X /\ possemidef d (mscal (-1) S)) /\
    (minner d d D D < 1 -> posdef d X /\ posdef d (mscal (-1) S)).
  Proof.
    assert (hermitian_matrix d X) as HX.
    { apply (herm_clip A _ L). assert (mconj (clip A d X) = clip A d (mconj X)) as -> by (symmetry; apply (clip_conj _ _ L)). f_equal.
      rewrite scaled_dual. mpush. rewrite scaled_herm_D. rewrite !(mmul_assoc _ _ L HA). auto. }
    assert (hermitian_matrix d (mscal (-1) S)) as HM.
    { intros r c _ _. rewrite (mconj_scal _ _ L), HS. auto. }
    assert (forall z, form d X z = form d (I +m mscal 1 D) (mv A d (mconj F) z)) as FX.
    { intros z. rewrite scaled_dual. apply (form_congruence _ _ L HA). }
    assert (mconj W = W) as HWc by (unfold W; mpush; auto).
    assert (forall v, exists z, (nz A d v -> nz A d z) /\ form d (mscal (-1) S) v = form d (I +m mscal (-1) D) (mv A d (mconj F) z)) as FS.
    { intros v. destruct (posdef_solve k Hk d W HW v) as (z & Hz). exists z. split.
      - intros (r & Hr & Hv). apply Classical_Prop.NNPP. intros Hn. apply Hv. rewrite <- Hz by auto. apply (mv_zero A _ L). intros t Ht. apply (nz_of A d z Hn t Ht).
      - rewrite <- (form_congruence _ _ L HA). rewrite <- scaled_slack.
        assert (W ** (mscal (-1) S ** W) = W ** (mscal (-1) S ** mconj W)) as -> by (rewrite HWc; auto).
        rewrite (form_congruence _ _ L HA). rewrite HWc. rewrite !(form_ip _ _ L).
        assert (mv A d (mscal (-1) S) v = mv A d (mscal (-1) S) (mv A d W z)) as ->.
        { apply functional_extensionality. intros r. unfold mv. apply ssum_ext. intros t Ht. rewrite <- Hz by auto. reflexivity. }
        unfold ip. f_equal. apply ssum_ext. intros t Ht. rewrite Hz; auto. }
    pose proof scaled_herm_D as HD.
    destruct (near_one k Hk d D 1 HD (or_introl eq_refl)) as [P1 P2]. destruct (near_one k Hk d D (-1) HD (or_intror eq_refl)) as [Q1 Q2].
    split; intros H.
    - destruct (P1 H) as [_ P]. destruct (Q1 H) as [_ Q]. split; split; auto.
      + intros z. rewrite FX. apply P.
      + intros v. destruct (FS v) as (z & _ & ->). apply Q.
    - destruct (P2 H) as [_ P]. destruct (Q2 H) as [_ Q]. split; split; auto.
      + intros z Hz. rewrite FX. apply P. apply (inj_nz A d); auto. apply scaled_injective.
      + intros v Hv. destruct (FS v) as (z & Hz & ->). apply Q. apply (inj_nz A d); [apply scaled_injective|]. apply Hz. auto.
  Qed.

  (** The same from bounds on the pencil. *)
  Lemma scaled_pencil :
    ((forall z, - 2 * form d W z <= form d (W ** (S ** W)) z <= 0) -> possemidef d X /\ possemidef d (mscal (-1) S)) /\
    ((forall z, nz A d z -> - 2 * form d W z < form d (W ** (S ** W)) z < 0) -> posdef d X /\ posdef d (mscal (-1) S)).
  Proof.
    assert (hermitian_matrix d X) as HX.
    { apply (herm_clip A _ L). assert (mconj (clip A d X) = clip A d (mconj X)) as -> by (symmetry; apply (clip_conj _ _ L)). f_equal.
      rewrite scaled_dual. mpush. rewrite scaled_herm_D. rewrite !(mmul_assoc _ _ L HA). auto. }
    assert (hermitian_matrix d (mscal (-1) S)) as HM.
    { intros r c _ _. rewrite (mconj_scal _ _ L), HS. auto. }
    assert (forall z, form d X z = 2 * form d W z + form d (W ** (S ** W)) z) as FX.
    { intros z. unfold X. rewrite (form_add _ _ L), (form_scal _ _ L), (mmul_assoc _ _ L HA). auto. }
    assert (mconj W = W) as HWc by (unfold W; mpush; auto).
    assert (forall v, exists z, (nz A d v -> nz A d z) /\ form d (mscal (-1) S) v = - form d (W ** (S ** W)) z) as FS.
    { intros v. destruct (posdef_solve k Hk d W HW v) as (z & Hz). exists z. split.
      - intros (r & Hr & Hv). apply Classical_Prop.NNPP. intros Hn. apply Hv. rewrite <- Hz by auto. apply (mv_zero A _ L). intros t Ht. apply (nz_of A d z Hn t Ht).
      - assert (W ** (S ** W) = W ** (S ** mconj W)) as -> by (rewrite HWc; auto).
        rewrite (form_congruence _ _ L HA). rewrite HWc. rewrite (form_scal _ _ L). rewrite !(form_ip _ _ L).
        assert (mv A d S v = mv A d S (mv A d W z)) as ->.
        { apply functional_extensionality. intros r. unfold mv. apply ssum_ext. intros t Ht. rewrite <- Hz by auto. reflexivity. }
        assert (ip A d v (mv A d S (mv A d W z)) = ip A d (mv A d W z) (mv A d S (mv A d W z))) as ->; [|ring].
        unfold ip. f_equal. apply ssum_ext. intros t Ht. rewrite Hz; auto. }
    split; intros H.
    - split; split; auto.
      + intros z. rewrite FX. specialize (H z). lra.
      + intros v. destruct (FS v) as (z & _ & ->). specialize (H z). lra.
    - split; split; auto.
      + intros z Hz. rewrite FX. specialize (H z Hz). lra.
      + intros v Hv. destruct (FS v) as (z & Hz & ->). specialize (H z (Hz Hv)). lra.
  Qed.
End Scaled.
