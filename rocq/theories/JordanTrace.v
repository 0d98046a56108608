(** Hermitian products and the trace form, for all four algebras. *)
From Coq Require Import List Arith Reals Lra Lia Bool FunctionalExtensionality Classical.
From Verif Require Import Base BaseFacts DenseModel RSum JordanModel Spec_Hyper HyperFacts JordanProofs JordanInterior JordanSteps JordanSchur.
Import ListNotations.
Open Scope R_scope.

Section Trace.
  Variable k : nat.
  Hypothesis Hk : (k <= 3)%nat.
  Notation A := (cd k).
  Let L : laws A (coords_of k) := laws_cd k.
  Variable d : nat.
  Notation "X ** Y" := (mmul d X Y) (at level 40, left associativity).
  Notation "X +m Y" := (madd X Y) (at level 50, left associativity).
  Notation cl := (cl k d).
  Notation n := (2 ^ k)%nat.
  Ltac mlin := fext; unfold madd, mscal; apply (co_sep _ _ L); let i := fresh "i" in intros i; coords L; field.
  Ltac mpush := repeat (rewrite (mmul_add_l _ _ L) || rewrite (mmul_add_r _ _ L) || rewrite (mmul_scal_l _ _ L)
    || rewrite (mmul_scal_r _ _ L) || rewrite (mconj_add _ _ L) || rewrite (mconj_scal _ _ L)
    || rewrite (mconj_mul _ _ L) || rewrite (mconj_mconj _ _ L)).

  Lemma cl3_mul : forall X Y, cl (Multiply n d X Y) = cl X ** cl Y.
  Proof. intros. unfold JordanSteps.cl. rewrite of_multiply by lia. apply (clip_mul _ _ L). Qed.
  Lemma cl_jordan : forall X Y, cl (JordanMultiply n d X Y) = mscal (1 / 2) (cl X ** cl Y +m cl Y ** cl X).
  Proof. intros. unfold JordanMultiply. rewrite cl_scal, cl_add, !cl3_mul. auto. Qed.
  Lemma herm_jordan : forall X Y, mconj (cl X) = cl X -> mconj (cl Y) = cl Y -> mconj (cl (JordanMultiply n d X Y)) = cl (JordanMultiply n d X Y).
  Proof. intros X Y HX HY. rewrite cl_jordan. mpush. rewrite HX, HY. mlin. Qed.
  Lemma jordan_hermitian : forall X Y, hermitian_matrix d (matrix_of k X) -> hermitian_matrix d (matrix_of k Y) ->
    hermitian_matrix d (matrix_of k (JordanMultiply n d X Y)).
  Proof. intros X Y HX HY. apply cl_herm. apply cl_herm in HX, HY. apply herm_jordan; auto. Qed.

  Lemma retr_assoc : forall X Y Z : amat A, retr A d ((X ** Y) ** Z) = retr A d (X ** (Y ** Z)).
  Proof.
    intros. rewrite !(retr_mul A _ L). apply rsum_ext. intros r _. unfold mmul.
    erewrite rsum_ext by (intros t _; rewrite (ssum_mul_r _ _ L), (ssum_re _ _ L); reflexivity).
    rewrite rsum_swap. apply rsum_ext. intros s _. rewrite (ssum_mul_l _ _ L), (ssum_re _ _ L). apply rsum_ext. intros t _. apply (re_assoc _ _ L).
  Qed.
  Lemma tip_retr : forall X Y, mconj (cl X) = cl X -> TraceInnerProduct n d d X Y = retr A d (cl X ** cl Y).
  Proof. intros X Y H. rewrite (cl_inner k d), (minner_retr A _ L), H. auto. Qed.
  Lemma jordan_trace : forall X Y Z, mconj (cl X) = cl X -> mconj (cl Y) = cl Y -> mconj (cl Z) = cl Z ->
    TraceInnerProduct n d d (JordanMultiply n d X Y) Z = TraceInnerProduct n d d X (JordanMultiply n d Y Z).
  Proof.
    intros X Y Z HX HY HZ. rewrite !tip_retr by (auto; apply herm_jordan; auto). rewrite !cl_jordan. mpush.
    rewrite !(retr_scal A _ L), !(retr_add A _ L). rewrite !retr_assoc. f_equal. f_equal.
    rewrite <- retr_assoc, (retr_comm A _ L). rewrite <- retr_assoc. 
    rewrite (retr_comm A _ L). rewrite <- !retr_assoc. rewrite (retr_comm A _ L). rewrite <- retr_assoc. auto.
  Qed.
  Lemma herm_quad : forall X Y, mconj (cl X) = cl X -> mconj (cl Y) = cl Y -> mconj (cl (QuadraticRepresentation n d X Y)) = cl (QuadraticRepresentation n d X Y).
  Proof.
    intros X Y HX HY. unfold QuadraticRepresentation. apply herm_add; apply herm_scal; repeat apply herm_jordan; auto.
  Qed.
  Lemma tip_add_r : forall X Y Z, TraceInnerProduct n d d X (Add Y Z) = TraceInnerProduct n d d X Y + TraceInnerProduct n d d X Z.
  Proof.
    intros. unfold TraceInnerProduct. rewrite !for_up_sum, !Rplus_0_l, <- rsum_plus. apply rsum_ext. intros. rewrite <- rsum_plus. apply rsum_ext. intros.
    rewrite <- rsum_plus. apply rsum_ext. intros. unfold Add. ring.
  Qed.
  Lemma tip_scal_r : forall X Y s, TraceInnerProduct n d d X (ScalarMultiply Y s) = s * TraceInnerProduct n d d X Y.
  Proof.
    intros. unfold TraceInnerProduct. rewrite !for_up_sum, !Rplus_0_l, <- rsum_scal. apply rsum_ext. intros. rewrite <- rsum_scal. apply rsum_ext. intros.
    rewrite <- rsum_scal. apply rsum_ext. intros. unfold ScalarMultiply. ring.
  Qed.
  Lemma jordan_comm : forall X Y, JordanMultiply n d X Y = JordanMultiply n d Y X.
  Proof. intros. unfold JordanMultiply, ScalarMultiply, Add. apply functional_extensionality. intros i. fext. ring. Qed.
  Lemma quad_symmetric : forall W X Y, mconj (cl W) = cl W -> mconj (cl X) = cl X -> mconj (cl Y) = cl Y ->
    TraceInnerProduct n d d X (QuadraticRepresentation n d W Y) = TraceInnerProduct n d d Y (QuadraticRepresentation n d W X).
  Proof.
    intros W X Y HW HX HY. unfold QuadraticRepresentation. rewrite !tip_add_r, !tip_scal_r. f_equal; f_equal.
    - rewrite <- (jordan_trace X W), <- (jordan_trace Y W) by (auto; apply herm_jordan; auto).
      rewrite trace_symmetric. rewrite (jordan_comm W Y), (jordan_comm X W). auto.
    - rewrite <- (jordan_trace X) by (auto; apply herm_jordan; auto). rewrite trace_symmetric, (jordan_comm X). auto.
  Qed.
  Lemma geodesic_hermitian : forall w s, hermitian_matrix d (matrix_of k (DoGeodesicUpdateScaled n d w s)).
  Proof.
    intros. apply cl_herm. unfold DoGeodesicUpdateScaled, MakeHermitian. rewrite cl_scal, cl_add, cl_conj. mpush. mlin.
  Qed.
End Trace.

(** ** The step of a Hermitian constraint *)
Lemma take_formula k (Hk : (k <= 2)%nat) d o0 o opt : good k d true o0 o ->
  let X := mscal (so_step_size opt) (madd (matrix_of k (h_WS o)) (mscal (so_e_weight opt) mid)) in
  let T := madd (madd mid (mscal (1 / 4) X)) (mscal (1 / 32) (mmul d X X)) in
  let Y := mmul d T T in
  exists o', HTakeStep (2 ^ k) o opt = Ok o' /\
    same_matrix d (matrix_of k (h_W o')) (mmul d Y (mmul d (matrix_of k (h_W o)) (mconj Y))).
Proof.
  intros (H1 & H2 & H3 & H4 & _ & HC) X T Y. specialize (HC eq_refl). pose proof (laws_cd k) as L. pose proof (assoc_cd k Hk) as HA.
  unfold HTakeStep. rewrite H1, exp_dispatch by auto. cbn [bind].
  set (Xh := if Req_EM_T (so_step_size opt) 1 then _ else _).
  assert (cl k d Xh = clip (cd k) d X) as EX.
  { unfold Xh, X. rewrite (clip_scal _ _ L), (clip_add _ _ L), (clip_scal _ _ L).
    destruct (Req_EM_T (so_step_size opt) 1) as [->|_]; [|rewrite cl_scal]; rewrite cl_diag; auto.
    change (clip (cd k) d (matrix_of k (h_WS o))) with (cl k d (h_WS o)). change (clip (cd k) d mid) with (one (cd k) d).
    set (Z := madd _ _). fext. unfold mscal. apply (co_sep _ _ L). intros i. rewrite (co_scal _ _ L). symmetry. apply Rmult_1_l. }
  assert (compatible (cd k) d (cl k d Xh) (cl k d (h_W o))) as HX.
  { rewrite EX. unfold X. rewrite (clip_scal _ _ L), (clip_add _ _ L), (clip_scal _ _ L). apply (comp_scal _ _ L), (comp_add _ _ L); auto.
    apply (comp_scal _ _ L), (comp_one _ _ L), cl_clipped. }
  pose proof (proj1 (cl_posdef k d (h_W o)) H4) as HP.
  destruct (expmap_step _ _ L HA d (cl k d Xh) (cl k d (h_W o)) (cl_clipped _ _ _) (cl_clipped _ _ _) HP HX) as [E1 E2].
  eexists. split; [reflexivity|]. cbn [h_W]. apply clip_same. rewrite !(clip_mul _ _ L), (clip_conj _ _ L).
  match goal with |- clip _ _ (matrix_of k ?W') = _ => change (clip (cd k) d (matrix_of k W')) with (cl k d W') end.
  rewrite cl_scal, cl_add, cl_conj, (cl_mul k Hk), (cl_exp k Hk). destruct E2 as [E2 _]. apply (herm_clip _ _ L) in E2.
  assert (clip (cd k) d (mmul d (expmap (cd k) d (cl k d Xh)) (cl k d (h_W o))) = mmul d (expmap (cd k) d (cl k d Xh)) (cl k d (h_W o))) as EC.
  { rewrite <- (cl_exp k Hk), <- (cl_mul k Hk). apply cl_clipped. }
  rewrite EC in E2. rewrite E2.
  assert (clip (cd k) d Y = mmul d (taylor (cd k) d (cl k d Xh)) (taylor (cd k) d (cl k d Xh))) as EY.
  { unfold Y. rewrite (clip_mul _ _ L). assert (clip (cd k) d T = taylor (cd k) d (cl k d Xh)) as ->; auto.
    unfold T, taylor. rewrite !(clip_add _ _ L), !(clip_scal _ _ L), (clip_mul _ _ L), <- EX. reflexivity. }
  rewrite EY. change (clip (cd k) d (matrix_of k (h_W o))) with (cl k d (h_W o)). rewrite <- E1.
  set (P := mmul d (expmap _ _ _) _). fext. unfold mscal, madd. apply (co_sep _ _ L). intros i. coords L. field.
Qed.
