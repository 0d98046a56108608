(** Scaling updates of Hermitian constraints: congruences, positivity and norms. *)
From Coq Require Import List Arith Reals Lra Lia Bool FunctionalExtensionality Classical.
From Verif Require Import Base BaseFacts DenseModel RSum JordanModel Spec_Hyper HyperFacts JordanProofs.
Import ListNotations.
Open Scope R_scope.

Section Interior.
  Variable A : star.
  Variable co : nat -> el A -> R.
  Hypothesis L : laws A co.
  Hypothesis HA : associative A.
  Variable d : nat.
  Notation M := (nat -> nat -> el A).
  Notation "X ** Y" := (mmul d X Y) (at level 40, left associativity).
  Notation "X +m Y" := (madd X Y) (at level 50, left associativity).
  Notation I := (one A d).

  Ltac mlin := fext; unfold madd, mscal; apply (co_sep _ _ L); let i := fresh "i" in intros i; coords L; field.
  Ltac mpush := repeat (rewrite (mmul_add_l _ _ L) || rewrite (mmul_add_r _ _ L) || rewrite (mmul_scal_l _ _ L)
    || rewrite (mmul_scal_r _ _ L) || rewrite (mconj_add _ _ L) || rewrite (mconj_scal _ _ L)
    || rewrite (mconj_mul _ _ L) || rewrite (mconj_mconj _ _ L) || rewrite (mconj_one _ _ L)).

  Lemma clipped_one : clipped A d I.
  Proof. apply clip_clip. Qed.
  Lemma clipped_mul : forall X Y : M, clipped A d X -> clipped A d Y -> clipped A d (X ** Y).
  Proof. intros X Y HX HY. unfold clipped in *. rewrite (clip_mul _ _ L), HX, HY. auto. Qed.
  Lemma clipped_add : forall X Y : M, clipped A d X -> clipped A d Y -> clipped A d (X +m Y).
  Proof. intros X Y HX HY. unfold clipped in *. rewrite (clip_add _ _ L), HX, HY. auto. Qed.
  Lemma clipped_scal : forall s (X : M), clipped A d X -> clipped A d (mscal s X).
  Proof. intros s X HX. unfold clipped in *. rewrite (clip_scal _ _ L), HX. auto. Qed.
  Lemma clipped_conj : forall X : M, clipped A d X -> clipped A d (mconj X).
  Proof. intros X HX. unfold clipped in *. rewrite (clip_conj _ _ L), HX. auto. Qed.

  Definition nz (z : nat -> el A) : Prop := exists r, (r < d)%nat /\ z r <> s0.
  Definition injective (X : M) : Prop := forall v, (forall r, (r < d)%nat -> mv A d X v r = s0) -> forall r, (r < d)%nat -> v r = s0.
  Lemma inj_nz : forall X v, injective X -> nz v -> nz (mv A d X v).
  Proof.
    intros X v H (r & Hr & Hn). destruct (classic (nz (mv A d X v))) as [E|E]; auto. exfalso. apply Hn. apply H; auto.
    intros q Hq. destruct (classic (mv A d X v q = s0)); auto. exfalso. apply E. exists q. auto.
  Qed.
  Lemma nz_of : forall v, ~ nz v -> forall r, (r < d)%nat -> v r = s0.
  Proof. intros v H r Hr. destruct (classic (v r = s0)); auto. exfalso. apply H. exists r. auto. Qed.
  Lemma mv_zero : forall X v, (forall r, (r < d)%nat -> v r = s0) -> forall r, mv A d X v r = s0.
  Proof.
    intros X v H r. unfold mv. apply (ssum_0 _ _ L). intros t Ht. rewrite H by auto. apply (co_sep _ _ L). intros i. rewrite (co_0 _ _ L).
    assert (smul (X r t) s0 = sscal 0 (smul (X r t) s0)) as ->.
    { rewrite <- (mul_scal_r _ _ L). f_equal. apply (co_sep _ _ L). intros j. rewrite (co_scal _ _ L), (co_0 _ _ L). ring. }
    rewrite (co_scal _ _ L). ring.
  Qed.
  Lemma inj_mul : forall X Y, injective X -> injective Y -> injective (X ** Y).
  Proof.
    intros X Y HX HY v Hv. apply HY. apply HX. intros r Hr. rewrite <- (mv_mul _ _ L HA). auto.
  Qed.
  Lemma form_zero : forall X z, (forall r, (r < d)%nat -> mv A d X z r = s0) -> form d X z = 0.
  Proof.
    intros X z H. rewrite (form_ip _ _ L). unfold ip. rewrite (ssum_re _ _ L). apply rsum_zero. intros t Ht. rewrite H by auto.
    assert (smul (sconj (z t)) s0 = sscal 0 (smul (sconj (z t)) s0)) as ->.
    { rewrite <- (mul_scal_r _ _ L). f_equal. apply (co_sep _ _ L). intros j. rewrite (co_scal _ _ L), (co_0 _ _ L). ring. }
    rewrite (re_scal _ _ L). ring.
  Qed.

  (** Hermitian matrices, as equalities of clipped matrices. *)
  Lemma herm_clip : forall X : M, hermitian_matrix d X <-> mconj (clip A d X) = clip A d X.
  Proof. intros X. unfold hermitian_matrix. rewrite clip_same, (clip_conj _ _ L). tauto. Qed.
  Lemma posdef_same : forall X Y : M, same_matrix d X Y -> posdef d X -> posdef d Y.
  Proof.
    intros X Y H [H1 H2]. split.
    - apply herm_clip. apply herm_clip in H1. apply clip_same in H. rewrite <- H. auto.
    - intros z Hz. rewrite <- (form_same _ d X Y z H). auto.
  Qed.
  Lemma posdef_congruence : forall X W : M, posdef d W -> injective (mconj X) -> posdef d (X ** (W ** mconj X)).
  Proof.
    intros X W [H1 H2] HI. split.
    - apply herm_clip. apply herm_clip in H1. rewrite !(clip_mul _ _ L). rewrite (clip_conj _ _ L). mpush. rewrite H1. apply (mmul_assoc _ _ L HA).
    - intros z Hz. rewrite (form_congruence _ _ L HA). apply H2. apply inj_nz; auto.
  Qed.

  (** [X W] Hermitian. *)
  Definition compatible (X W : M) : Prop := X ** W = W ** mconj X.
  Lemma comp_one : forall W, clipped A d W -> compatible I W.
  Proof. intros W H. unfold compatible. rewrite (mconj_one _ _ L), (one_l _ _ L), (one_r _ _ L); auto. Qed.
  Lemma comp_add : forall X Y W, compatible X W -> compatible Y W -> compatible (X +m Y) W.
  Proof. intros X Y W HX HY. unfold compatible in *. mpush. rewrite HX, HY. auto. Qed.
  Lemma comp_scal : forall s X W, compatible X W -> compatible (mscal s X) W.
  Proof. intros s X W HX. unfold compatible in *. mpush. rewrite HX. auto. Qed.
  Lemma comp_mul : forall X Y W, compatible X W -> compatible Y W -> X ** Y = Y ** X -> compatible (X ** Y) W.
  Proof.
    intros X Y W HX HY HC. unfold compatible in *. rewrite HC at 2. mpush. rewrite (mmul_assoc _ _ L HA), HY, <- (mmul_assoc _ _ L HA), HX.
    apply (mmul_assoc _ _ L HA).
  Qed.
  Lemma comp_slack : forall W S : M, mconj W = W -> mconj S = S -> compatible (W ** S) W.
  Proof. intros W S0 HW HS. unfold compatible. mpush. rewrite HW, HS. apply (mmul_assoc _ _ L HA). Qed.

  (** The second order Taylor polynomial at [X/4]. *)
  Definition taylor (X : M) : M := I +m mscal (1 / 4) X +m mscal (1 / 32) (X ** X).
  Lemma comp_taylor : forall X W, clipped A d W -> compatible X W -> compatible (taylor X) W.
  Proof.
    intros X W HW HX. unfold taylor. repeat apply comp_add; auto using comp_one, comp_scal. apply comp_scal, comp_mul; auto.
  Qed.
  Lemma clipped_taylor : forall X, clipped A d X -> clipped A d (taylor X).
  Proof. intros X HX. unfold taylor. repeat apply clipped_add; auto using clipped_one, clipped_scal. apply clipped_scal, clipped_mul; auto. Qed.

  Lemma taylor_injective : forall X W : M, clipped A d W -> clipped A d X -> posdef d W -> compatible X W -> injective (mconj (taylor X)).
  Proof.
    intros X W HW HX [H1 H2] HC v Hv. apply nz_of. intros Hz.
    set (N := X +m mscal 4 I).
    assert (W ** mconj (taylor X) = mscal (1 / 32) (N ** (W ** mconj N) +m mscal 16 W)) as E.
    { unfold N, taylor. mpush. unfold compatible in HC. repeat (rewrite (one_r _ _ L) || rewrite (one_l _ _ L)); auto using clipped_mul, clipped_conj.
      rewrite <- !(mmul_assoc _ _ L HA), !HC. rewrite ?(mmul_assoc _ _ L HA). mlin. }
    assert (form d (W ** mconj (taylor X)) v = 0) as F.
    { apply form_zero. intros r Hr. rewrite (mv_mul _ _ L HA). apply mv_zero; auto. }
    rewrite E, (form_scal _ _ L), (form_add _ _ L), (form_scal _ _ L), (form_congruence _ _ L HA) in F.
    specialize (H2 v Hz) as HP. destruct (classic (nz (mv A d (mconj N) v))) as [Hn|Hn].
    - specialize (H2 _ Hn). lra.
    - rewrite form_zero in F; [lra|]. intros r Hr. apply mv_zero. apply nz_of; auto.
  Qed.

  Definition expmap (X : M) : M := (taylor X ** taylor X) ** (taylor X ** taylor X).
  Lemma expmap_step : forall X W : M, clipped A d W -> clipped A d X -> posdef d W -> compatible X W ->
    expmap X ** W = (taylor X ** taylor X) ** (W ** mconj (taylor X ** taylor X)) /\ posdef d (expmap X ** W).
  Proof.
    intros X W HW HX HP HC. pose proof (comp_taylor X W HW HC) as HT.
    assert (expmap X ** W = (taylor X ** taylor X) ** (W ** mconj (taylor X ** taylor X))) as E.
    { unfold expmap. rewrite (mmul_assoc _ _ L HA). f_equal. apply comp_mul; auto. }
    split; auto. rewrite E. apply posdef_congruence; auto. mpush. apply inj_mul; apply (taylor_injective X W); auto.
  Qed.

  (** Traces and the Frobenius inner product. *)
  Definition retr (X : M) : R := rsum d (fun r => sre (X r r)).
  Lemma retr_mul : forall X Y : M, retr (X ** Y) = rsum d (fun r => rsum d (fun t => sre (smul (X r t) (Y t r)))).
  Proof. intros. unfold retr, mmul. apply rsum_ext. intros. apply (ssum_re _ _ L). Qed.
  Lemma retr_comm : forall X Y : M, retr (X ** Y) = retr (Y ** X).
  Proof.
    intros. rewrite !retr_mul, rsum_swap. apply rsum_ext. intros. apply rsum_ext. intros. apply (re_comm _ _ L).
  Qed.
  Lemma retr_add : forall X Y : M, retr (X +m Y) = retr X + retr Y.
  Proof. intros. unfold retr, madd. rewrite <- rsum_plus. apply rsum_ext. intros. apply (re_add _ _ L). Qed.
  Lemma retr_scal : forall s (X : M), retr (mscal s X) = s * retr X.
  Proof. intros. unfold retr, mscal. rewrite <- rsum_scal. apply rsum_ext. intros. apply (re_scal _ _ L). Qed.
  Lemma retr_clip : forall X : M, retr (clip A d X) = retr X.
  Proof. intros. unfold retr. apply rsum_ext. intros r Hr. unfold clip. apply Nat.ltb_lt in Hr. rewrite Hr. auto. Qed.
  Lemma retr_one : retr I = INR d.
  Proof.
    unfold retr. transitivity (rsum d (fun _ => 1)).
    - apply rsum_ext. intros r Hr. unfold one, clip, mid. apply Nat.ltb_lt in Hr. rewrite Hr, Nat.eqb_refl. apply (re_1 _ _ L).
    - clear. induction d; [reflexivity|]. rewrite S_INR. cbn [rsum]. rewrite IHn. ring.
  Qed.
  Lemma minner_retr : forall X Y : M, minner d d X Y = retr (mconj X ** Y).
  Proof. intros. rewrite retr_mul. unfold minner. rewrite rsum_swap. reflexivity. Qed.
  Lemma minner_nonneg : forall X : M, 0 <= minner d d X X.
  Proof.
    intros X. unfold minner. apply rsum_nonneg. intros r _. apply rsum_nonneg. intros c _.
    destruct (classic (X r c = s0)) as [->|Hn].
    - rewrite (conj_0 _ _ L). assert (smul s0 s0 = sscal 0 (smul s0 s0 : el A)) as ->.
      { rewrite <- (mul_scal_r _ _ L). f_equal. apply (co_sep _ _ L). intros j. rewrite (co_scal _ _ L), (co_0 _ _ L). ring. }
      rewrite (re_scal _ _ L). lra.
    - apply Rlt_le, (re_pos _ _ L); auto.
  Qed.
  (** With [W = F F^*] the trace forms of [W S] are Frobenius forms of [F^* S F]. *)
  Lemma retr_quad : forall F S T : M, mconj S = S -> retr (((F ** mconj F) ** S) ** ((F ** mconj F) ** T)) =
    minner d d (mconj F ** (S ** F)) (mconj F ** (T ** F)).
  Proof.
    intros F S0 T HS. rewrite minner_retr. mpush. rewrite HS. rewrite !(mmul_assoc _ _ L HA). rewrite retr_comm. rewrite !(mmul_assoc _ _ L HA). reflexivity.
  Qed.
  Lemma retr_lin : forall F S : M, clipped A d F -> retr ((F ** mconj F) ** S) = minner d d I (mconj F ** (S ** F)).
  Proof.
    intros F S0 HF. rewrite minner_retr, (mconj_one _ _ L).
    assert (I ** (mconj F ** (S0 ** F)) = mconj F ** (S0 ** F)) as ->.
    { rewrite <- (mmul_assoc _ _ L HA), (one_l _ _ L); auto using clipped_conj. }
    rewrite !(mmul_assoc _ _ L HA). rewrite retr_comm. rewrite !(mmul_assoc _ _ L HA). reflexivity.
  Qed.
End Interior.
