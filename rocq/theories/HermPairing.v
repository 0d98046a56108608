(** Positive semidefinite matrices have nonnegative products. *)
From Coq Require Import List Arith Reals Bool Lia Lra FunctionalExtensionality.
From Verif Require Import JordanModel Spec_Hyper HyperFacts JordanProofs JordanInterior JordanSteps JordanSchur HermFactor HermBound HermCone.
From Verif Require Import Base BaseFacts DenseModel RSum KktModel ProgramModel LinearModel SolveModel ConcreteBackend Spec_Linear Spec_Conex Spec_Semidefinite RhsProofs SocLinks HermLinks.
Import ListNotations.
Open Scope R_scope.

Section Pairing.
  Variable k : nat.
  Hypothesis Hk : (k <= 2)%nat.
  Variable d : nat.
  Notation A := (cd k).
  Let L : laws A (coords_of k) := laws_cd k.

  Lemma minner_sum (X : amat A) (G : nat -> amat A) m : minner d d X (fun r c => ssum m (fun t => G t r c)) = rsum m (fun t => minner d d X (G t)).
  Proof.
    induction m as [|m IH].
    - cbn [ssum]. change (rsum 0 (fun t => minner d d X (G t))) with 0.
      assert (minner d d X (mscal 0 X) = 0) as E by (rewrite (minner_scal_r k d); ring). rewrite <- E. f_equal.
      apply functional_extensionality. intros r. apply functional_extensionality. intros c. unfold mscal. apply (co_sep _ _ L). intros i. rewrite (co_0 _ _ L), (co_scal _ _ L). ring.
    - rewrite rsum_S, <- IH, <- (minner_add_r k d). reflexivity.
  Qed.
  Lemma pairing_factor (X F : amat A) : possemidef d X -> 0 <= minner d d X (mmul d F (mconj F)).
  Proof.
    intros [_ HX]. assert (mmul d F (mconj F) = fun r c => ssum d (fun t => outer k (fun r => F r t) r c)) as -> by reflexivity.
    rewrite minner_sum. apply rsum_nonneg. intros t _. rewrite (minner_sym k d), <- (form_outer k Hk d). apply HX.
  Qed.

  Lemma near_posdef (Y : amat A) t : possemidef d Y -> 0 < t -> posdef d (madd Y (mscal t (one A d))).
  Proof.
    intros [HY P] Ht. split.
    - intros r c Hr Hc. specialize (HY r c Hr Hc). unfold mconj, madd, mscal in *. rewrite (conj_add _ _ L), (conj_scal _ _ L), HY. do 2 f_equal.
      pose proof (mconj_one _ _ L d) as E. apply (f_equal (fun M => M r c)) in E. exact E.
    - intros z Hz. assert (form d (madd Y (mscal t (one A d))) z = form d Y z + t * form d (one A d) z) as ->.
      { rewrite !(form_outer k Hk d), (minner_add_r k d), (minner_scal_r k d). auto. }
      pose proof (P z). rewrite (form_one k d). pose proof (ip_pos A _ L d z Hz). nra.
  Qed.
  Lemma pairing (X Y : amat A) : possemidef d X -> possemidef d Y -> 0 <= minner d d X Y.
  Proof.
    intros HX HY. set (b := minner d d X (one A d)).
    assert (forall t, 0 < t -> 0 <= minner d d X Y + t * b) as H.
    { intros t Ht. destruct (posdef_factor k Hk d _ (near_posdef Y t HY Ht)) as (F & HF & HE).
      pose proof (pairing_factor X F HX) as HP. unfold b. rewrite <- (minner_scal_r k d), <- (minner_add_r k d). rewrite (minner_clip k d) in HP |- *.
      apply clip_same in HE. rewrite HE. exact HP. }
    destruct (Rle_dec 0 (minner d d X Y)) as [|Hn]; auto. exfalso. apply Rnot_le_lt in Hn. set (a := minner d d X Y) in *.
    pose proof (Rabs_pos b) as Pb. pose proof (Rle_abs b) as Qb.
    assert (0 < - a / (2 * (Rabs b + 1))) as Ht by (apply Rdiv_lt_0_compat; lra).
    specialize (H _ Ht). set (t := - a / (2 * (Rabs b + 1))) in *.
    assert (t * (2 * (Rabs b + 1)) = - a) as Et by (unfold t; field; lra). nra.
  Qed.
End Pairing.

Lemma herm_pairing h n X Y : herm_psd h n X -> herm_psd h n Y -> 0 <= herm_inner h n X Y.
Proof.
  intros (k & Hk & -> & HX) (k' & Hk' & E & HY). apply pow_inj in E as <-. rewrite inner_trace, (of_trace k). apply pairing; auto.
Qed.


(** Multiples. *)
Lemma matrix_of_multiple k n X Y t : (forall i r c, (i < 2 ^ k)%nat -> (r < n)%nat -> (c < n)%nat -> Y i r c = t * X i r c) ->
  same_matrix n (matrix_of k Y) (mscal t (matrix_of k X)).
Proof.
  intros H r c Hr Hc. rewrite <- (of_scal k X t). unfold matrix_of. apply read_ext. intros i Hi. unfold ScalarMultiply. rewrite H by auto. ring.
Qed.
Lemma possemidef_multiple k n (M N : amat (cd k)) t : 0 < t -> same_matrix n N (mscal t M) ->
  (possemidef n M -> possemidef n N) /\ (posdef n M -> posdef n N).
Proof.
  intros Ht H. pose proof (laws_cd k) as L. assert (forall z, form n N z = t * form n M z) as HF.
  { intros z. rewrite <- (form_scal _ _ L n t M z), <- (form_clip _ n N z), <- (form_clip _ n (mscal t M) z). apply clip_same in H. rewrite H. auto. }
  assert (hermitian_matrix n M -> hermitian_matrix n N) as HH.
  { intros HM r c Hr Hc. unfold mconj. rewrite !H by auto. unfold mscal. rewrite (conj_scal _ _ L). f_equal. apply (HM r c); auto. }
  split; intros [H1 H2]; split; auto; intros z; rewrite HF.
  - apply Rmult_le_pos; [lra|auto].
  - intros Hz. apply Rmult_lt_0_compat; auto.
Qed.
Lemma herm_multiple h n X Y t : 0 < t -> (forall i r c, (i < h)%nat -> (r < n)%nat -> (c < n)%nat -> Y i r c = t * X i r c) ->
  (herm_psd h n X -> herm_psd h n Y) /\ (herm_pd h n X -> herm_pd h n Y).
Proof.
  intros Ht H. split; intros (k & Hk & -> & HX); exists k; do 2 (split; [auto|]);
    apply (possemidef_multiple k n _ _ t Ht (matrix_of_multiple k n X Y t H)); auto.
Qed.
Lemma herm_dual_formula k n W S0 Y t : (k <= 2)%nat -> (forall i r c, (i < 2 ^ k)%nat -> (r < n)%nat -> (c < n)%nat -> S0 i r c = t * Y i r c) ->
  same_matrix n (matrix_of k (herm_dual (2 ^ k) n W (Multiply (2 ^ k) n W S0)))
    (madd (mscal 2 (matrix_of k W)) (mscal t (mmul n (mmul n (matrix_of k W) (matrix_of k Y)) (matrix_of k W)))).
Proof.
  intros Hk H. pose proof (laws_cd k) as L. pose proof (matrix_of_multiple k n Y S0 t H) as HS. apply clip_same in HS. apply clip_same.
  change (clip (cd k) n (matrix_of k (herm_dual (2 ^ k) n W (Multiply (2 ^ k) n W S0)))) with (cl k n (herm_dual (2 ^ k) n W (Multiply (2 ^ k) n W S0))).
  unfold herm_dual. rewrite cl_add, cl_scal, !cl_mul by auto. rewrite (clip_add _ _ L), !(clip_scal _ _ L), !(clip_mul _ _ L).
  change (clip (cd k) n (matrix_of k W)) with (cl k n W). change (cl k n S0) with (clip (cd k) n (matrix_of k S0)). rewrite HS, (clip_scal _ _ L).
  f_equal. rewrite (mmul_scal_r _ _ L), (mmul_scal_l _ _ L). reflexivity.
Qed.

Lemma scaled_pair_multiple h n t t' S X Y s : 0 < s -> (forall i r c, (i < h)%nat -> (r < n)%nat -> (c < n)%nat -> Y i r c = s * X i r c) ->
  scaled_pair h n t S X -> t' * s = t -> scaled_pair h n t' S Y.
Proof.
  intros Hs H (k & V & Hk & -> & HP & HE) <-. exists k, (ScalarMultiply V s). do 2 (split; [auto|]). cbv zeta in *. pose proof (laws_cd k) as L.
  rewrite of_scal. split. { apply (possemidef_multiple k n (matrix_of k V) _ s Hs); auto. intros r c _ _. auto. }
  intros r c Hr Hc. rewrite (matrix_of_multiple k n X Y s H r c) by auto. unfold mscal at 1. rewrite (HE r c) by auto.
  rewrite !(mmul_scal_l _ _ L), (mmul_scal_r _ _ L). unfold madd, mscal. apply (co_sep _ _ L). intros i.
  rewrite ?(co_scal _ _ L), ?(co_add _ _ L), ?(co_scal _ _ L). ring.
Qed.

(** The quadratic form of the block of a Hermitian constraint. *)
Lemma herm_form h n As C w m o (y : nat -> R) : herm_ready h n As C w m = Ok o -> herm_inside w ->
  let q := schur_of (HSchur h o true blank) m in
  let B := total (fun a => total (fun b => LinearModel.sc_G q (Nat.max a b) (Nat.min a b) * y b) (seq 0 m) * y a) (seq 0 m) in
  0 <= B /\
  (B = 0 -> forall t r c, (t < h)%nat -> (r < n)%nat -> (c < n)%nat -> total (fun j => component (nth j As []) t r c * y j) (seq 0 (length As)) = 0).
Proof.
  intros Ho HI. apply herm_ready_ok in Ho as (k & W & Hk & -> & EW & Hn & Hh & Hw & Hl & HC & HD & ->). cbv zeta.
  pose proof (inside_good k n As C w W Hk HI EW Hh Hw) as HG. pose proof (herm_data_of k n As C W (old_WS w) HD) as HO.
  set (o := herm_of n As C W (old_WS w)) in *. pose proof (gram_quad k Hk n true o o blank y HO HG) as HQ. cbv zeta in HQ.
  assert (length (h_mats o) = m) as Hm by (cbn [o herm_of h_mats]; rewrite map_length; auto). rewrite Hm in *.
  match goal with |- 0 <= ?b /\ _ => assert (b = rsum m (fun i => rsum m (fun j => y i * y j * lower (JordanModel.sc_G (HSchur (2 ^ k) o true blank)) i j))) as -> end.
  { rewrite rsum_total. apply total_ext. intros a _. rewrite rsum_total.
    assert (forall (f : nat -> R) l, total f l * y a = total (fun b => f b * y a) l) as E.
    { intros f l. unfold total. induction l as [|x l IH]; cbn; [ring|]. rewrite <- IH. ring. }
    rewrite E. apply total_ext. intros b _. cbn [schur_of LinearModel.sc_G]. unfold lower. destruct (Nat.leb_spec b a).
    - rewrite Nat.max_l, Nat.min_r by lia. ring.
    - rewrite Nat.max_r, Nat.min_l by lia. ring. }
  destruct HQ as [H1 H2]. split; auto. intros E t r c Ht Hr Hc. rewrite <- (H2 E t r c Ht Hr Hc), rsum_total, Hl. apply total_ext. intros j Hj. apply in_seq in Hj.
  cbn [o herm_of h_mats]. rewrite (nth_map_lt _ As j Zero []) by lia. unfold component, hyper_of. ring.
Qed.

(** A product with a zero factor. *)
Lemma form_zero_middle k n (W : hyper) (S : hyper) z : (forall t r c, (t < 2 ^ k)%nat -> (r < n)%nat -> (c < n)%nat -> S t r c = 0) ->
  form n (mmul n (mmul n (matrix_of k W) (matrix_of k S)) (matrix_of k W)) z = 0.
Proof.
  intros H. pose proof (laws_cd k) as L.
  assert (clip (cd k) n (matrix_of k S) = mscal 0 (clip (cd k) n (matrix_of k S))) as E.
  { assert (cl k n S = cl k n (ScalarMultiply S 0)) as E by (apply clip_same, matrix_of_same; intros; unfold ScalarMultiply; rewrite H by auto; ring).
    change (cl k n S = mscal 0 (cl k n S)). rewrite E at 1. apply cl_scal. }
  rewrite <- (form_clip (cd k) n), !(clip_mul _ _ L), E, (mmul_scal_r _ _ L), (mmul_scal_l _ _ L), (form_scal _ _ L). ring.
Qed.
Lemma posdef_nonneg k n (X : amat (cd k)) : posdef n X -> forall z, 0 <= form n X z.
Proof.
  intros [_ H] z. destruct (Classical_Prop.classic (nz (cd k) n z)) as [Hz|Hz]; [apply Rlt_le; auto|].
  rewrite (form_ip _ _ (laws_cd k)). unfold ip. rewrite (ssum_re _ _ (laws_cd k)). apply rsum_nonneg. intros r Hr.
  rewrite (nz_of (cd k) n z Hz r Hr), (conj_0 _ _ (laws_cd k)), (mul_0_l _ _ (laws_cd k)), (re_0 _ _ (laws_cd k)). lra.
Qed.
