(** Steps of Hermitian constraints over the reals, complex numbers and quaternions. *)
From Coq Require Import List Arith Reals Lra Lia Bool FunctionalExtensionality Classical.
From Verif Require Import Base BaseFacts DenseModel RSum JordanModel Spec_Hyper HyperFacts JordanProofs JordanInterior.
Import ListNotations.
Open Scope R_scope.

(** States reached from [SetIdentity] by preparing (not in the affine mode) and
    taking steps in any order with any options and directions; a first step is only
    taken after a preparation. *)
Inductive reached (n : nat) (o0 : hermitian) : bool -> hermitian -> Prop :=
  | RIdentity : reached n o0 false (HSetIdentity o0)
  | RAgain : forall b o, reached n o0 b o -> reached n o0 false (HSetIdentity o)
  | RPrepare : forall b o opt y, reached n o0 b o -> so_affine opt = false -> reached n o0 true (fst (HPrepareStep n o opt y))
  | RTake : forall o opt o', reached n o0 true o -> HTakeStep n o opt = Ok o' -> reached n o0 true o'.

Section Steps.
  Variable k : nat.
  Hypothesis Hk : (k <= 2)%nat.
  Notation n := (2 ^ k)%nat.
  Notation A := (cd k).
  Let L : laws A (coords_of k) := laws_cd k.
  Let HA : associative A := assoc_cd k Hk.
  Variable d : nat.
  Notation "X ** Y" := (mmul d X Y) (at level 40, left associativity).
  Notation "X +m Y" := (madd X Y) (at level 50, left associativity).
  Notation I := (one A d).
  Definition cl (X : hyper) : amat A := clip A d (matrix_of k X).

  Ltac mlin := fext; unfold madd, mscal; apply (co_sep _ _ L); let i := fresh "i" in intros i; coords L; field.
  Ltac mpush := repeat (rewrite (mmul_add_l _ _ L) || rewrite (mmul_add_r _ _ L) || rewrite (mmul_scal_l _ _ L)
    || rewrite (mmul_scal_r _ _ L) || rewrite (mconj_add _ _ L) || rewrite (mconj_scal _ _ L)
    || rewrite (mconj_mul _ _ L) || rewrite (mconj_mconj _ _ L) || rewrite (mconj_one _ _ L)).

  Lemma cl_clipped : forall X, clipped A d (cl X).
  Proof. intros. apply clip_clip. Qed.
  Lemma cl_mul : forall X Y, cl (Multiply n d X Y) = cl X ** cl Y.
  Proof. intros. unfold cl. rewrite of_multiply by lia. apply (clip_mul _ _ L). Qed.
  Lemma cl_add : forall X Y, cl (Add X Y) = cl X +m cl Y.
  Proof. intros. unfold cl. rewrite of_add. apply (clip_add _ _ L). Qed.
  Lemma cl_scal : forall X s, cl (ScalarMultiply X s) = mscal s (cl X).
  Proof. intros. unfold cl. rewrite of_scal. apply (clip_scal _ _ L). Qed.
  Lemma cl_conj : forall X, cl (ConjugateTranspose X) = mconj (cl X).
  Proof. intros. unfold cl. rewrite of_conj. apply (clip_conj _ _ L). Qed.
  Lemma cl_identity : cl Identity = I.
  Proof. unfold cl. rewrite of_identity. reflexivity. Qed.
  Lemma cl_diag : forall X e, cl (add_diagonal X e) = cl X +m mscal e I.
  Proof. intros. unfold cl. rewrite of_diagonal, (clip_add _ _ L), (clip_scal _ _ L). reflexivity. Qed.
  Lemma cl_quad : forall X Y, cl (QuadraticRepresentation n d X Y) = cl X ** (cl Y ** cl X).
  Proof. intros. unfold cl. rewrite of_quadratic by auto. rewrite !(clip_mul _ _ L). auto. Qed.
  Lemma cl_herm : forall X, hermitian_matrix d (matrix_of k X) <-> mconj (cl X) = cl X.
  Proof. intros. apply (herm_clip A _ L). Qed.
  Lemma cl_posdef : forall X, posdef d (matrix_of k X) <-> posdef d (cl X).
  Proof.
    intros X. split; apply (posdef_same A _ L); apply clip_same; unfold cl; rewrite clip_clip; auto.
  Qed.
  Lemma posdef_one : posdef d I.
  Proof.
    split.
    - apply (herm_clip A _ L). rewrite (clipped_one A d). apply (mconj_one _ _ L).
    - intros z Hz. unfold one. rewrite form_clip, (form_ip _ _ L).
      assert (ip A d z (mv A d mid z) = ip A d z z) as ->; [|apply (ip_pos _ _ L); auto].
      unfold ip. f_equal. apply ssum_ext. intros r Hr. f_equal. unfold mv. rewrite (ssum_single _ _ L d r); auto.
      + unfold mid. rewrite Nat.eqb_refl. apply (mul_1_l _ _ L).
      + intros t Ht Hn. unfold mid. assert ((r =? t)%nat = false) as -> by (apply Nat.eqb_neq; auto).
        assert (smul s0 (z t) = sscal 0 (smul s0 (z t))) as ->.
        { rewrite <- (mul_scal_l _ _ L). f_equal. apply (co_sep _ _ L). intros j. rewrite (co_scal _ _ L), (co_0 _ _ L). ring. }
        apply (co_sep _ _ L). intros j. rewrite (co_scal _ _ L), (co_0 _ _ L). ring.
  Qed.

  Lemma cl_exp : forall X, cl (DoExponentialMap n d X) = expmap A d (cl X).
  Proof.
    intros X. unfold DoExponentialMap. rewrite !cl_mul, cl_add, cl_diag, !cl_scal, cl_mul, cl_scal.
    unfold expmap. f_equal; f_equal; unfold taylor; mpush; mlin.
  Qed.
  (** C33 *)
  Lemma exp_posdef : forall X, hermitian_matrix d (matrix_of k X) -> posdef d (matrix_of k (DoExponentialMap n d X)).
  Proof.
    intros X HX. apply cl_posdef. rewrite cl_exp. apply cl_herm in HX.
    assert (compatible A d (cl X) I) as HC.
    { unfold compatible. rewrite HX, (one_l _ _ L), (one_r _ _ L); auto using cl_clipped. }
    destruct (expmap_step A _ L HA d (cl X) I (clipped_one A d) (cl_clipped X) posdef_one HC) as [_ HP].
    rewrite (one_r _ _ L) in HP; auto. unfold expmap. repeat apply (clipped_mul A _ L); apply (clipped_taylor A _ L), cl_clipped.
  Qed.

  (** C47 *)
  Lemma geodesic_congruence : forall w s, hermitian_matrix d (matrix_of k w) -> hermitian_matrix d (matrix_of k s) ->
    let W := matrix_of k w in let X := mscal (3 / 2) mid +m mscal (1 / 2) (W ** matrix_of k s) in
    same_matrix d (matrix_of k (DoGeodesicUpdateScaled n d w s)) (X ** (W ** mconj X)).
  Proof.
    intros w s Hw Hs W X. apply clip_same. apply cl_herm in Hw, Hs. change (cl (DoGeodesicUpdateScaled n d w s) = clip A d (X ** (W ** mconj X))).
    rewrite !(clip_mul _ _ L), (clip_conj _ _ L). unfold X. rewrite (clip_add _ _ L), !(clip_scal _ _ L), (clip_mul _ _ L).
    change (clip A d mid) with (one A d). change (clip A d W) with (cl w). change (clip A d (matrix_of k s)) with (cl s).
    unfold DoGeodesicUpdateScaled, MakeHermitian. rewrite cl_scal, cl_add, cl_conj, !cl_add, !cl_scal, !cl_quad.
    mpush. rewrite Hw, Hs. rewrite !(mmul_assoc _ _ L HA).
    repeat (rewrite (one_l _ _ L) || rewrite (one_r _ _ L)); auto 8 using cl_clipped, (clipped_mul A _ L). mlin.
  Qed.
  Lemma geodesic_semidefinite : forall w s, possemidef d (matrix_of k w) -> hermitian_matrix d (matrix_of k s) ->
    possemidef d (matrix_of k (DoGeodesicUpdateScaled n d w s)).
  Proof.
    intros w s [Hw1 Hw2] Hs. pose proof (geodesic_congruence w s Hw1 Hs) as H. cbv zeta in H.
    set (X := mscal (3 / 2) mid +m mscal (1 / 2) (matrix_of k w ** matrix_of k s)) in *. split.
    - apply (herm_clip A _ L). apply clip_same in H. rewrite H. apply (herm_clip A _ L) in Hw1. rewrite !(clip_mul _ _ L), (clip_conj _ _ L).
      mpush. rewrite Hw1. apply (mmul_assoc _ _ L HA).
    - intros z. rewrite (form_same _ d _ _ z H). rewrite (form_congruence _ _ L HA). apply Hw2.
  Qed.

  (** Slacks of Hermitian data are Hermitian. *)
  Lemma herm_add : forall X Y, mconj (cl X) = cl X -> mconj (cl Y) = cl Y -> mconj (cl (Add X Y)) = cl (Add X Y).
  Proof. intros X Y HX HY. rewrite cl_add. mpush. rewrite HX, HY. auto. Qed.
  Lemma herm_scal : forall X s, mconj (cl X) = cl X -> mconj (cl (ScalarMultiply X s)) = cl (ScalarMultiply X s).
  Proof. intros X s HX. rewrite cl_scal. mpush. rewrite HX. auto. Qed.
  Definition herm_data (o : hermitian) : Prop :=
    (forall X, In X (h_mats o) -> hermitian_matrix d (matrix_of k X)) /\ hermitian_matrix d (matrix_of k (h_affine o)).
  Lemma slack_hermitian : forall o c y, herm_data o -> mconj (cl (HNegativeSlack o c y)) = cl (HNegativeSlack o c y).
  Proof.
    intros o c y [H1 H2]. unfold HNegativeSlack. apply cl_herm in H2. apply (herm_scal _ (- c)) in H2.
    set (step := fun (acc : hyper * nat) (X : hyper) => _).
    assert (forall l s i, (forall X, In X l -> hermitian_matrix d (matrix_of k X)) -> mconj (cl s) = cl s ->
            mconj (cl (fst (fold_left step l (s, i)))) = cl (fst (fold_left step l (s, i)))) as G; [|apply G; auto].
    induction l as [|X l IH]; intros s i HI Hs; cbn [fold_left fst]; auto. unfold step at 2 4.
    apply IH; [intros Y HY; apply HI; right; auto|]. apply herm_add; auto. apply herm_scal. apply cl_herm. apply HI. left. auto.
  Qed.

  (** One state. *)
  Definition good (b : bool) (o0 o : hermitian) : Prop :=
    h_rank o = d /\ h_mats o = h_mats o0 /\ h_affine o = h_affine o0 /\ posdef d (matrix_of k (h_W o)) /\
    (exists F, clipped A d F /\ cl (h_W o) = F ** mconj F) /\ (b = true -> compatible A d (cl (h_WS o)) (cl (h_W o))).

  Lemma good_data : forall b o0 o, good b o0 o -> herm_data o0 -> herm_data o.
  Proof. intros b o0 o (_ & E1 & E2 & _) H. unfold herm_data in *. rewrite E1, E2. exact H. Qed.
  Lemma good_identity : forall b o0 o, good b o0 o -> good false o0 (HSetIdentity o).
  Proof.
    intros b o0 o (H1 & H2 & H3 & _). repeat (split; auto).
    - apply cl_posdef. cbn. rewrite cl_identity. apply posdef_one.
    - apply cl_posdef. cbn. rewrite cl_identity. apply posdef_one.
    - exists I. split; [apply clipped_one|]. cbn. rewrite cl_identity, (mconj_one _ _ L), (one_l _ _ L); auto. apply clipped_one.
    - discriminate.
  Qed.
  Lemma good_prepare : forall b o0 o opt y, herm_data o0 -> good b o0 o -> so_affine opt = false ->
    good true o0 (fst (HPrepareStep n o opt y)).
  Proof.
    intros b o0 o opt y HD HG Ha. pose proof (good_data _ _ _ HG HD) as HO. destruct HG as (H1 & H2 & H3 & H4 & H5 & _).
    unfold HPrepareStep. rewrite Ha. cbn [fst]. unfold good. cbn [h_rank h_mats h_affine h_W h_WS]. repeat (split; [assumption|]).
    intros _. rewrite H1, cl_mul. apply (comp_slack A _ L HA).
    - apply cl_herm. apply H4.
    - apply slack_hermitian; auto.
  Qed.
  Lemma exp_dispatch : forall X, ExponentialMap n d X = Ok (DoExponentialMap n d X).
  Proof. intros. destruct k as [|[|[|]]]; [reflexivity..|lia]. Qed.
  Lemma good_take : forall o0 o opt, good true o0 o -> exists o', HTakeStep n o opt = Ok o' /\ good true o0 o' /\
    exists Y, cl (h_W o') = Y ** (cl (h_W o) ** mconj Y).
  Proof.
    intros o0 o opt (H1 & H2 & H3 & H4 & (F & HF1 & HF2) & HC). specialize (HC eq_refl). unfold HTakeStep. rewrite H1, exp_dispatch. cbn [bind].
    set (Xh := if Req_EM_T (so_step_size opt) 1 then _ else _).
    assert (compatible A d (cl Xh) (cl (h_W o))) as HX.
    { unfold Xh. assert (compatible A d (cl (add_diagonal (h_WS o) (so_e_weight opt))) (cl (h_W o))) as H.
      { rewrite cl_diag. apply (comp_add A _ L); auto. apply (comp_scal A _ L). apply (comp_one A _ L), cl_clipped. }
      destruct (Req_EM_T (so_step_size opt) 1); auto. rewrite cl_scal. apply (comp_scal A _ L); auto. }
    pose proof (proj1 (cl_posdef (h_W o)) H4) as HP.
    destruct (expmap_step A _ L HA d (cl Xh) (cl (h_W o)) (cl_clipped _) (cl_clipped _) HP HX) as [E1 E2].
    assert (forall W', W' = ScalarMultiply (Add (Multiply n d (DoExponentialMap n d Xh) (h_W o)) (ConjugateTranspose (Multiply n d (DoExponentialMap n d Xh) (h_W o)))) (1 / 2) ->
            cl W' = expmap A d (cl Xh) ** cl (h_W o)) as EW.
    { intros W' ->. rewrite cl_scal, cl_add, cl_conj, cl_mul, cl_exp. destruct E2 as [E2 _]. apply (herm_clip A _ L) in E2.
      assert (clip A d (expmap A d (cl Xh) ** cl (h_W o)) = expmap A d (cl Xh) ** cl (h_W o)) as EC.
      { rewrite <- cl_exp, <- cl_mul. apply cl_clipped. }
      rewrite EC in E2. rewrite E2. mlin. }
    eexists. split; [reflexivity|]. split.
    - unfold good. cbn [h_rank h_mats h_affine h_W h_WS]. split; [reflexivity|]. split; [assumption|]. split; [assumption|]. split; [|split].
      + apply cl_posdef. rewrite (EW _ eq_refl). exact E2.
      + set (T := taylor A d (cl Xh) ** taylor A d (cl Xh)) in *. exists (T ** F). split.
        * repeat apply (clipped_mul A _ L); auto; apply (clipped_taylor A _ L), cl_clipped.
        * rewrite (EW _ eq_refl), E1, HF2. mpush. rewrite !(mmul_assoc _ _ L HA). auto.
      + intros _. rewrite (EW _ eq_refl). unfold compatible.
        pose proof (comp_taylor A _ L HA d _ _ (cl_clipped _) HX) as HT.
        assert (cl Xh ** taylor A d (cl Xh) = taylor A d (cl Xh) ** cl Xh) as C1.
        { unfold taylor. mpush. rewrite (one_l _ _ L), (one_r _ _ L) by apply cl_clipped. rewrite (mmul_assoc _ _ L HA). auto. }
        assert (cl Xh ** expmap A d (cl Xh) = expmap A d (cl Xh) ** cl Xh) as C2.
        { unfold expmap. set (T := taylor A d (cl Xh)) in *. rewrite !(mmul_assoc _ _ L HA). rewrite <- C1.
          rewrite <- (mmul_assoc _ _ L HA d T (cl Xh) T), <- C1, (mmul_assoc _ _ L HA d (cl Xh) T T).
          rewrite <- (mmul_assoc _ _ L HA d T (cl Xh) (T ** T)), <- C1, (mmul_assoc _ _ L HA d (cl Xh) T (T ** T)).
          rewrite <- (mmul_assoc _ _ L HA d T (cl Xh) (T ** (T ** T))), <- C1. rewrite !(mmul_assoc _ _ L HA). auto. }
        rewrite <- (mmul_assoc _ _ L HA), C2, (mmul_assoc _ _ L HA), HX. rewrite !(mmul_assoc _ _ L HA). auto.
    - exists (taylor A d (cl Xh) ** taylor A d (cl Xh)). cbn [h_W]. rewrite (EW _ eq_refl). exact E1.
  Qed.

  Lemma reached_good : forall o0 b o, h_rank o0 = d -> herm_data o0 -> reached n o0 b o -> good b o0 o.
  Proof.
    intros o0 b o HR HD H. induction H.
    - repeat (split; auto).
      + apply cl_posdef. cbn. rewrite cl_identity. apply posdef_one.
      + apply cl_posdef. cbn. rewrite cl_identity. apply posdef_one.
      + exists I. split; [apply clipped_one|]. cbn. rewrite cl_identity, (mconj_one _ _ L), (one_l _ _ L); auto. apply clipped_one.
      + discriminate.
    - eapply good_identity; eauto.
    - eapply good_prepare; eauto.
    - destruct (good_take _ _ opt IHreached) as (o1 & E & G & _). rewrite H0 in E. injection E as <-. exact G.
  Qed.

  (** Traces of the model. *)
  Lemma sre_read : forall j f, sre (read j f) = f 0%nat.
  Proof. induction j; intros; cbn [read cd double sre]; auto. cbn [fst]. apply IHj. Qed.
  Lemma cl_trace : forall X, trace0 d X = retr A d (cl X).
  Proof. intros. unfold cl. rewrite (retr_clip A). unfold retr, trace0, matrix_of. apply rsum_ext. intros. symmetry. apply (sre_read k (fun i0 => X i0 i i)). Qed.
  Lemma minner_clip : forall (X Y : amat A), minner d d X Y = minner d d (clip A d X) (clip A d Y).
  Proof.
    intros. unfold minner. apply rsum_ext. intros r Hr. apply rsum_ext. intros c Hc. unfold clip. apply Nat.ltb_lt in Hr, Hc. rewrite Hr, Hc. auto.
  Qed.
  Lemma cl_inner : forall X Y, TraceInnerProduct n d d X Y = minner d d (cl X) (cl Y).
  Proof. intros. rewrite of_trace. apply minner_clip. Qed.

  (** The reported squared norm is that of [I + F^* S F] for [W = F F^*]. *)
  Lemma prepare_norm : forall b o0 o opt y, herm_data o0 -> good b o0 o -> so_affine opt = false ->
    forall F, clipped A d F -> cl (h_W o) = F ** mconj F ->
    let N := I +m mconj F ** (cl (HNegativeSlack o (so_c_weight opt) y) ** F) in
    snd (HPrepareStep n o opt y) = Some (minner d d N N).
  Proof.
    intros b o0 o opt y HD HG Ha F HF HW N. pose proof (good_data _ _ _ HG HD) as HO. destruct HG as (H1 & _).
    unfold HPrepareStep. rewrite Ha, H1. cbn [snd]. f_equal. rewrite !cl_trace, !cl_mul, HW.
    set (S0 := cl (HNegativeSlack o (so_c_weight opt) y)) in *.
    assert (mconj S0 = S0) as HS by (apply slack_hermitian; auto).
    rewrite (retr_quad A _ L HA) by auto. rewrite (retr_lin A _ L HA) by auto.
    unfold N. rewrite !(minner_retr A _ L). mpush. rewrite HS. rewrite !(retr_add A _ L).
    set (B := mconj F ** (S0 ** F)). assert (mconj F ** S0 ** F = B) as EB by apply (mmul_assoc _ _ L HA).
    rewrite !EB. assert (clipped A d B) as HB.
    { unfold B. apply (clipped_mul A _ L); [apply (clipped_conj A _ L); auto|]. apply (clipped_mul A _ L); auto. apply cl_clipped. }
    rewrite !(one_l _ _ L), !(one_r _ _ L) by (auto; apply clipped_one). rewrite (retr_one A _ L). ring.
  Qed.
End Steps.
