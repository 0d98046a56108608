(** Slacks and reports of Hermitian constraints, and the series of the geodesic
    update (C65). *)
From Coq Require Import List Arith Reals Lra Lia Bool FunctionalExtensionality.
From Verif Require Import Base BaseFacts DenseModel RSum JordanModel Spec_Hyper HyperFacts JordanProofs JordanInterior JordanSteps LanczosReports Spec_Reports.
Import ListNotations.
Open Scope R_scope.

Lemma rsum_shift f n : rsum (S n) f = f 0%nat + rsum n (fun i => f (S i)).
Proof. induction n as [|n IH]; [unfold rsum; cbn; ring|]. rewrite rsum_S, IH, (rsum_S n). ring. Qed.

(** ** Slack *)
Lemma slack_entries o c y t r s : HNegativeSlack o c y t r s = rsum (length (h_mats o)) (fun j => y j * nth j (h_mats o) Zero t r s) - c * h_affine o t r s.
Proof.
  unfold HNegativeSlack. set (step := fun (acc : hyper * nat) (X : hyper) => _).
  assert (forall l x i, fst (fold_left step l (x, i)) t r s = x t r s + rsum (length l) (fun j => y (i + j)%nat * nth j l Zero t r s)) as G.
  { induction l as [|X l IH]; intros x i; cbn [fold_left fst length]; [unfold rsum; cbn; ring|]. rewrite rsum_shift. unfold step at 2.
    rewrite IH. unfold Add, ScalarMultiply. cbn [nth]. rewrite Nat.add_0_r.
    rewrite (rsum_ext (length l) (fun j => y (i + 1 + j)%nat * nth j l Zero t r s) (fun j => y (i + S j)%nat * nth j l Zero t r s)); [ring|].
    intros j _. replace (i + 1 + j)%nat with (i + S j)%nat by lia. auto. }
  rewrite G. unfold ScalarMultiply. cbn [Nat.add]. ring.
Qed.

(** ** Sums of the spectrum *)
Lemma inner_minner k d (X Y : amat (cd k)) : inner d X Y = minner d d X Y.
Proof. unfold minner, inner. rewrite (ssum_re _ _ (laws_cd k)). apply rsum_ext. intros. rewrite (ssum_re _ _ (laws_cd k)). auto. Qed.

Lemma weighted_slack k (Hk : (k <= 2)%nat) d b o0 o y c : herm_data k d o0 -> good k d b o0 o ->
  forall F, clipped (cd k) d F -> cl k d (h_W o) = mmul d F (mconj F) ->
  let N := mmul d (mconj F) (mmul d (mscal (-1) (matrix_of k (HNegativeSlack o c y))) F) in
  HWeightedSlack (2 ^ k) o y c = (inner d mid N, inner d N N).
Proof.
  intros HD HG F HF HW N. pose proof (good_data k d _ _ _ HG HD) as HO. destruct HG as (H1 & _).
  pose proof (laws_cd k) as L. pose proof (assoc_cd k Hk) as HA.
  unfold HWeightedSlack. rewrite H1. rewrite !(cl_trace k d), !(cl_mul k Hk d), HW.
  set (S0 := cl k d (HNegativeSlack o c y)).
  assert (mconj S0 = S0) as HS by (apply slack_hermitian; auto).
  rewrite (retr_quad (cd k) _ L HA d F S0 S0 HS). rewrite (retr_lin (cd k) _ L HA d F S0 HF).
  rewrite !inner_minner, (minner_clip k d mid N), (minner_clip k d N N).
  assert (clip (cd k) d N = mscal (-1) (mmul d (mconj F) (mmul d S0 F))) as EN.
  { unfold N. rewrite !(clip_mul _ _ L), (clip_conj _ _ L), (clip_scal _ _ L), HF. fold (cl k d (HNegativeSlack o c y)). fold S0.
    rewrite (mmul_scal_l _ _ L), (mmul_scal_r _ _ L). auto. }
  rewrite EN. change (clip (cd k) d mid) with (one (cd k) d). set (B := mmul d (mconj F) (mmul d S0 F)).
  rewrite !(minner_retr (cd k) _ L). rewrite (mconj_scal _ _ L), !(mmul_scal_l _ _ L), !(mmul_scal_r _ _ L), !(retr_scal (cd k) _ L).
  f_equal; ring.
Qed.

(** ** Octonion norm at the identity *)
Lemma octonion_norm o opt y : h_W o = Identity ->
  let N := madd mid (matrix_of 3 (HNegativeSlack o (so_c_weight opt) y)) in
  snd (OPrepareStep o opt y) = inner (h_rank o) N N.
Proof.
  intros HW N. unfold OPrepareStep. cbn [snd]. rewrite HW. change 8%nat with (2 ^ 3)%nat. rewrite quadratic_identity_trace by lia.
  set (d := h_rank o). set (X := HNegativeSlack o (so_c_weight opt) y) in *. pose proof (laws_cd 3) as L.
  rewrite !of_trace, of_identity. rewrite inner_minner. unfold N. fold X. set (M := matrix_of 3 X).
  assert (forall P Q U V : amat (cd 3), minner d d (madd P Q) (madd U V) = minner d d P U + minner d d P V + (minner d d Q U + minner d d Q V)) as EB.
  { intros. unfold minner. rewrite <- !rsum_plus. apply rsum_ext. intros r _. rewrite <- !rsum_plus. apply rsum_ext. intros c _. unfold madd.
    rewrite (conj_add _ _ L), (mul_add_l _ _ L), !(mul_add_r _ _ L), !(re_add _ _ L). ring. }
  rewrite EB. assert (minner d d (mid : amat (cd 3)) mid = INR d) as E1.
  { rewrite (minner_clip 3 d). change (clip (cd 3) d mid) with (one (cd 3) d). rewrite (minner_retr (cd 3) _ L).
    rewrite (mconj_one _ _ L), (one_l _ _ L) by apply clip_clip. apply (retr_one (cd 3) _ L). }
  assert (minner d d M mid = minner d d mid M) as E2.
  { unfold minner. apply rsum_ext. intros r _. apply rsum_ext. intros c _.
    rewrite <- (re_conj _ _ L (smul (sconj (M r c)) (mid r c))). rewrite (conj_mul _ _ L), (conj_conj _ _ L). auto. }
  rewrite E1, E2. ring.
Qed.

(** ** The series of [DoGeodesicUpdate] *)
Lemma factorial_fact m : factorial m = INR (fact m).
Proof.
  destruct m as [|m]; [reflexivity|]. unfold factorial. replace (S m - 1)%nat with m by lia.
  apply (for_up_inv (fun j y => y = INR (fact (S j)))); [reflexivity|]. intros j y _ ->. rewrite <- mult_INR. f_equal.
  change (fact (S (S j))) with (S (S j) * fact (S j))%nat. rewrite (Nat.mul_comm (S (S j))). f_equal. lia.
Qed.

Section Series.
  Variable k : nat.
  Hypothesis Hk : (k <= 2)%nat.
  Notation n := (2 ^ k)%nat.
  Notation A := (cd k).
  Let L : laws A (coords_of k) := laws_cd k.
  Let HA : associative A := assoc_cd k Hk.
  Variable d : nat.
  Notation "X ** Y" := (mmul d X Y) (at level 40, left associativity).
  Variables W S : amat A.
  Hypothesis HW : mconj W = W.
  Hypothesis HS : mconj S = S.
  Notation term := (geodesic_term d W S).

  Lemma term_shift i : term i ** (S ** W) = W ** (S ** term i).
  Proof.
    induction i as [|i IH]; cbn [geodesic_term]; auto.
    rewrite !(mmul_assoc _ _ L HA). rewrite IH. auto.
  Qed.
  Lemma term_hermitian i : mconj (term i) = term i.
  Proof.
    induction i as [|i IH]; cbn [geodesic_term]; auto.
    rewrite !(mconj_mul _ _ L), HW, HS, IH. rewrite (mmul_assoc _ _ L HA). apply term_shift.
  Qed.
  Lemma term_double i : W ** ((S ** (term i ** S)) ** W) = term (Datatypes.S (Datatypes.S i)).
  Proof.
    cbn [geodesic_term]. rewrite <- term_shift. rewrite !(mmul_assoc _ _ L HA). auto.
  Qed.
  Fixpoint series (i : nat) : amat A :=
    match i with O => mscal 0 W | Datatypes.S j => madd (series j) (mscal (/ INR (fact j)) (term j)) end.
  Lemma series_hermitian i : mconj (series i) = series i.
  Proof.
    induction i as [|i IH]; cbn [series].
    - rewrite (mconj_scal _ _ L), HW. auto.
    - rewrite (mconj_add _ _ L), (mconj_scal _ _ L), IH, term_hermitian. auto.
  Qed.
  Lemma series_entries i r c : series i r c = ssum i (fun j => sscal (/ INR (fact j)) (term j r c)).
  Proof.
    induction i as [|i IH]; cbn [series ssum].
    - unfold mscal. apply (co_sep _ _ L). intros j. rewrite (co_scal _ _ L), (co_0 _ _ L). ring.
    - unfold madd. rewrite IH. auto.
  Qed.
End Series.

Lemma geodesic_series k (Hk : (k <= 2)%nat) d w s : hermitian_matrix d (matrix_of k w) -> hermitian_matrix d (matrix_of k s) ->
  same_matrix d (matrix_of k (DoGeodesicUpdate (2 ^ k) d w s))
    (fun r c => ssum 12 (fun i => sscal (/ INR (fact i)) (geodesic_term d (matrix_of k w) (matrix_of k s) i r c))).
Proof.
  intros Hw Hs. pose proof (laws_cd k) as L. pose proof (assoc_cd k Hk) as HA. apply (cl_herm k d) in Hw, Hs.
  set (W := cl k d w) in *. set (T := cl k d s) in *.
  assert (forall X, mconj X = X -> mscal (1 / 2) (madd X (mconj X)) = X :> amat (cd k)) as HM.
  { intros X ->. fext. unfold madd, mscal. apply (co_sep _ _ L). intros i. coords L. field. }
  assert (forall m y1 y2 y i, cl k d y1 = geodesic_term d W T (2 * i - 2) -> cl k d y2 = geodesic_term d W T (2 * i - 1) -> cl k d y = series k d W T (2 * i) -> (1 <= i)%nat ->
     cl k d (snd (fold_left (geodesic_step (2 ^ k) d w s) (seq i m) (y1, y2, y))) = series k d W T (2 * (i + m))) as G.
  { induction m as [|m IH]; intros y1 y2 y i E1 E2 E Hi; cbn [seq fold_left snd]; [rewrite Nat.add_0_r; auto|].
    cbn [geodesic_step]. replace (i + S m)%nat with (S i + m)%nat by lia.
    assert (forall z j, cl k d z = geodesic_term d W T j -> cl k d (QuadraticRepresentation (2 ^ k) d w (QuadraticRepresentation (2 ^ k) d s z)) = geodesic_term d W T (S (S j))) as EQ.
    { intros z j Ez. rewrite !(cl_quad k Hk d), Ez. fold W T. apply (term_double k Hk d W T). }
    pose proof (EQ _ _ E1) as F1. pose proof (EQ _ _ E2) as F2.
    replace (S (S (2 * i - 2))) with (2 * i)%nat in F1 by lia. replace (S (S (2 * i - 1))) with (2 * i + 1)%nat in F2 by lia.
    apply IH; [| | |lia].
    - unfold MakeHermitian. rewrite cl_scal, cl_add, cl_conj, F1. rewrite HM by (apply term_hermitian; auto). f_equal. lia.
    - unfold MakeHermitian. rewrite cl_scal, cl_add, cl_conj, F2. rewrite HM by (apply term_hermitian; auto). f_equal. lia.
    - unfold MakeHermitian. rewrite cl_scal, cl_add, cl_conj, !cl_add, !cl_scal, F1, F2, E, !factorial_fact.
      assert (madd (series k d W T (2 * i)) (madd (mscal (1 / INR (fact (2 * i))) (geodesic_term d W T (2 * i))) (mscal (1 / INR (fact (2 * i + 1))) (geodesic_term d W T (2 * i + 1)))) = series k d W T (2 * S i)) as ->.
      { replace (2 * S i)%nat with (S (2 * i + 1)) by lia. cbn [series]. replace (2 * i + 1)%nat with (S (2 * i)) by lia. cbn [series].
        fext. unfold madd, mscal. apply (co_sep _ _ L). intros j. coords L. unfold Rdiv. ring. }
      apply HM. apply series_hermitian; auto. }
  specialize (G 5%nat w (QuadraticRepresentation (2 ^ k) d w s) (Add w (QuadraticRepresentation (2 ^ k) d w s)) 1%nat).
  apply clip_same. change (cl k d (DoGeodesicUpdate (2 ^ k) d w s) = clip (cd k) d (fun r c => ssum 12 (fun i => sscal (/ INR (fact i)) (geodesic_term d (matrix_of k w) (matrix_of k s) i r c)))).
  unfold DoGeodesicUpdate. rewrite G; [|reflexivity|rewrite (cl_quad k Hk); reflexivity| |lia].
  - assert (forall i, clip (cd k) d (geodesic_term d (matrix_of k w) (matrix_of k s) i) = geodesic_term d W T i) as EC.
    { induction i as [|i IH]; cbn [geodesic_term]; [reflexivity|]. rewrite !(clip_mul _ _ L), IH. reflexivity. }
    assert (forall i, series k d W T i = clip (cd k) d (series k d (matrix_of k w) (matrix_of k s) i)) as ES.
    { induction i as [|i IH]; cbn [series]; [rewrite (clip_scal _ _ L); reflexivity|]. rewrite (clip_add _ _ L), (clip_scal _ _ L), <- IH, EC. auto. }
    rewrite ES. f_equal. fext. apply series_entries.
  - rewrite cl_add, (cl_quad k Hk). fold W T. cbn [series Nat.mul Nat.add fact]. cbn [geodesic_term]. fext. unfold madd, mscal. apply (co_sep _ _ L). intros j. coords L.
    cbn [INR Nat.mul Nat.add]. field.
Qed.
