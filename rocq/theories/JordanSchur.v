(** The Schur complement block of a Hermitian constraint. *)
From Coq Require Import List Arith Reals Lra Lia Bool FunctionalExtensionality Classical.
From Verif Require Import Base BaseFacts DenseModel RSum JordanModel Spec_Hyper HyperFacts JordanProofs JordanInterior JordanSteps.
Import ListNotations.
Open Scope R_scope.

Lemma column_fold : forall (f : mat -> nat -> R) i (h : nat -> R -> R) m s G,
  (forall G j, f G j = h j (G j i)) ->
  forall r c, fold_left (fun G j => mset G j i (f G j)) (seq s m) G r c =
    if ((c =? i) && (s <=? r) && (r <? s + m))%nat%bool then h r (G r c) else G r c.
Proof.
  intros f i h. induction m; intros s G Hf r c; cbn [seq fold_left].
  - destruct (c =? i)%nat; cbn [andb]; auto. destruct (Nat.leb_spec s r); cbn [andb]; auto. destruct (Nat.ltb_spec r (s + 0)); auto; lia.
  - rewrite IHm by auto. unfold mset. destruct (Nat.eqb_spec c i) as [->|Hc]; cbn [andb]; [|rewrite andb_false_r; auto].
    destruct (Nat.leb_spec (S s) r); cbn [andb].
    + destruct (Nat.ltb_spec r (S s + m)); destruct (Nat.leb_spec s r); destruct (Nat.ltb_spec r (s + S m)); try lia; cbn [andb];
        destruct (Nat.eqb_spec r s); try lia; cbn [andb]; auto.
    + destruct (Nat.eqb_spec r s) as [->|Hr]; cbn [andb].
      * rewrite Nat.leb_refl. cbn [andb]. destruct (Nat.ltb_spec s (s + S m)); try lia. rewrite Hf. auto.
      * destruct (Nat.leb_spec s r); cbn [andb]; auto; lia.
Qed.

Section Rows.
  Variables (n : nat) (o : hermitian) (initialize : bool).
  Let d := h_rank o.
  Let m := length (h_mats o).
  Let mt := fun i => nth i (h_mats o) Zero.
  Definition waw (i : nat) : hyper := snd (HWAW n o (nth i (h_mats o) Zero)).
  Definition awi (i : nat) : R :=
    if (n =? 8)%nat then TraceInnerProduct n (h_rank o) (h_rank o) (nth i (h_mats o) Zero) (h_W o)
    else trace0 (h_rank o) (fst (HWAW n o (nth i (h_mats o) Zero))).

  Lemma row_spec : forall sys i, (i < m)%nat -> let s := HSchurRow n o initialize sys i in
    (forall r c, sc_G s r c = if ((c =? i) && (i <=? r) && (r <? m))%nat%bool
       then put initialize (sc_G sys r c) (TraceInnerProduct n d d (mt r) (waw c)) else sc_G sys r c) /\
    (forall c, sc_AW s c = if (c =? i)%nat then put initialize (sc_AW sys c) (awi c) else sc_AW sys c) /\
    (forall c, sc_AQc s c = if (c =? i)%nat then put initialize (sc_AQc sys c) (TraceInnerProduct n d d (h_affine o) (waw c)) else sc_AQc sys c) /\
    sc_wc s = sc_wc sys /\ sc_cQc s = sc_cQc sys.
  Proof.
    intros sys i Hi. cbv zeta. unfold HSchurRow. destruct (HWAW n o (nth i (h_mats o) Zero)) as [AW WAW] eqn:E. cbn [sc_G sc_AW sc_AQc sc_wc sc_cQc].
    assert (WAW = waw i) as EW by (unfold waw; rewrite E; auto).
    split; [|split; [|split]]; auto.
    - intros r c. rewrite (column_fold _ i (fun j g => put initialize g (TraceInnerProduct n d d (mt j) WAW))) by auto.
      fold m. replace (i + (m - i))%nat with m by lia.
      destruct (Nat.eqb_spec c i) as [->|]; cbn [andb]; auto. rewrite <- EW. auto.
    - intros c. unfold vset, awi. destruct (Nat.eqb_spec c i) as [->|]; auto. rewrite E. reflexivity.
    - intros c. unfold vset. destruct (Nat.eqb_spec c i) as [->|]; auto. rewrite EW. reflexivity.
  Qed.

  Lemma rows_spec : forall q sys, (q <= m)%nat -> let s := for_up q (HSchurRow n o initialize) sys in
    (forall r c, sc_G s r c = if ((c <? q) && (c <=? r) && (r <? m))%nat%bool
       then put initialize (sc_G sys r c) (TraceInnerProduct n d d (mt r) (waw c)) else sc_G sys r c) /\
    (forall c, sc_AW s c = if (c <? q)%nat then put initialize (sc_AW sys c) (awi c) else sc_AW sys c) /\
    (forall c, sc_AQc s c = if (c <? q)%nat then put initialize (sc_AQc sys c) (TraceInnerProduct n d d (h_affine o) (waw c)) else sc_AQc sys c) /\
    sc_wc s = sc_wc sys /\ sc_cQc s = sc_cQc sys.
  Proof.
    unfold for_up. induction q; intros sys Hq; cbv zeta.
    - cbn [seq fold_left]. repeat split; auto.
    - rewrite seq_S, fold_left_app. cbn [fold_left Nat.add].
      specialize (IHq sys ltac:(lia)). cbv zeta in IHq. set (s := fold_left (HSchurRow n o initialize) (seq 0 q) sys) in *.
      destruct IHq as (I1 & I2 & I3 & I4 & I5). destruct (row_spec s q ltac:(lia)) as (R1 & R2 & R3 & R4 & R5).
      split; [|split; [|split; [|split]]]; try congruence.
      + intros r c. rewrite R1, I1. destruct (Nat.eqb_spec c q) as [->|Hc]; cbn [andb].
        * destruct (Nat.ltb_spec q q); try lia. destruct (Nat.ltb_spec q (S q)); try lia. cbn [andb]. auto.
        * destruct (Nat.ltb_spec c q); destruct (Nat.ltb_spec c (S q)); try lia; auto.
      + intros c. rewrite R2, I2. destruct (Nat.eqb_spec c q) as [->|Hc].
        * destruct (Nat.ltb_spec q q); try lia. destruct (Nat.ltb_spec q (S q)); try lia. auto.
        * destruct (Nat.ltb_spec c q); destruct (Nat.ltb_spec c (S q)); try lia; auto.
      + intros c. rewrite R3, I3. destruct (Nat.eqb_spec c q) as [->|Hc].
        * destruct (Nat.ltb_spec q q); try lia. destruct (Nat.ltb_spec q (S q)); try lia. auto.
        * destruct (Nat.ltb_spec c q); destruct (Nat.ltb_spec c (S q)); try lia; auto.
  Qed.

  Lemma schur_spec : forall sys, let s := HSchur n o initialize sys in
    (forall r c, (c <= r < m)%nat -> sc_G s r c = put initialize (sc_G sys r c) (TraceInnerProduct n d d (mt r) (waw c))) /\
    (forall r c, (r < c \/ m <= r)%nat -> sc_G s r c = sc_G sys r c) /\
    (forall c, (c < m)%nat -> sc_AW s c = put initialize (sc_AW sys c) (awi c) /\
       sc_AQc s c = put initialize (sc_AQc sys c) (TraceInnerProduct n d d (h_affine o) (waw c))) /\
    sc_wc s = put initialize (sc_wc sys) (TraceInnerProduct n d d (h_affine o) (h_W o)) /\
    sc_cQc s = put initialize (sc_cQc sys) (TraceInnerProduct n d d (h_affine o) (QuadraticRepresentation n d (h_W o) (h_affine o))).
  Proof.
    intros sys. cbv zeta. unfold HSchur. cbn [sc_G sc_AW sc_AQc sc_wc sc_cQc].
    destruct (rows_spec m sys (le_n _)) as (R1 & R2 & R3 & R4 & R5). fold m. split; [|split; [|split; [|split]]].
    - intros r c H. rewrite R1. destruct (Nat.ltb_spec c m); try lia. destruct (Nat.leb_spec c r); try lia. destruct (Nat.ltb_spec r m); try lia. auto.
    - intros r c H. rewrite R1. destruct (Nat.ltb_spec c m); cbn [andb]; auto. destruct (Nat.leb_spec c r); cbn [andb]; auto. destruct (Nat.ltb_spec r m); auto. lia.
    - intros c H. rewrite R2, R3. destruct (Nat.ltb_spec c m); try lia. auto.
    - rewrite R4. unfold put. destruct initialize; fold d; ring.
    - rewrite R5. auto.
  Qed.
End Rows.

Section Gram.
  Variable k : nat.
  Hypothesis Hk : (k <= 2)%nat.
  Notation A := (cd k).
  Let L : laws A (coords_of k) := laws_cd k.
  Let HA : associative A := assoc_cd k Hk.
  Variable d : nat.
  Notation "X ** Y" := (mmul d X Y) (at level 40, left associativity).
  Notation cl := (cl k d).

  Lemma cl_waw : forall o i, h_rank o = d -> cl (waw (2 ^ k) o i) = cl (h_W o) ** (cl (nth i (h_mats o) Zero) ** cl (h_W o)).
  Proof.
    intros o i H. unfold waw, HWAW. assert ((2 ^ k =? 8)%nat = false) as -> by (destruct k as [|[|[|]]]; auto; lia).
    cbn [snd]. rewrite H, !cl_mul by auto. auto.
  Qed.
  Lemma sandwich : forall F S T : amat A, mconj S = S ->
    minner d d S ((F ** mconj F) ** (T ** (F ** mconj F))) = minner d d (mconj F ** (S ** F)) (mconj F ** (T ** F)).
  Proof.
    intros F S0 T HS. rewrite <- (retr_quad A _ L HA d F S0 T HS). rewrite (minner_retr A _ L), HS.
    set (P := F ** mconj F). rewrite (mmul_assoc _ _ L HA d P S0 (P ** T)), (retr_comm A _ L d P).
    rewrite !(mmul_assoc _ _ L HA). reflexivity.
  Qed.

  Lemma minner_sym : forall X Y : amat A, minner d d X Y = minner d d Y X.
  Proof.
    intros. unfold minner. apply rsum_ext. intros r _. apply rsum_ext. intros c _.
    rewrite <- (re_conj _ _ L), (conj_mul _ _ L), (conj_conj _ _ L). auto.
  Qed.
  Lemma minner_zero : forall X : amat A, minner d d X X = 0 -> same_matrix d X (fun _ _ => s0).
  Proof.
    intros X H r c Hr Hc. destruct (classic (X r c = s0)) as [E|E]; auto. exfalso.
    assert (forall t u, 0 <= sre (smul (sconj (X t u)) (X t u))) as HP.
    { intros t u. destruct (classic (X t u = s0)) as [->|Hn].
      - rewrite (conj_0 _ _ L). assert (smul s0 s0 = sscal 0 (smul s0 s0 : el A)) as ->.
        { rewrite <- (mul_scal_r _ _ L). f_equal. apply (co_sep _ _ L). intros j. rewrite (co_scal _ _ L), (co_0 _ _ L). ring. }
        rewrite (re_scal _ _ L). lra.
      - apply Rlt_le, (re_pos _ _ L); auto. }
    assert (0 < minner d d X X); [|lra]. unfold minner.
    assert (forall q (f : nat -> R) t, (t < q)%nat -> (forall u, 0 <= f u) -> 0 < f t -> 0 < rsum q f) as HS.
    { induction q; intros f t Ht Hf Hp; [lia|]. cbn [rsum]. destruct (Nat.eq_dec t q) as [->|].
      - pose proof (rsum_nonneg q f (fun u _ => Hf u)). lra.
      - pose proof (IHq f t ltac:(lia) Hf Hp). specialize (Hf q). lra. }
    apply (HS d _ r); auto; [intros u; apply rsum_nonneg; auto|]. apply (HS d _ c); auto. apply (re_pos _ _ L); auto.
  Qed.
  (** A congruence by a positive definite matrix loses nothing. *)
  Lemma sandwich_zero : forall W S : amat A, clipped A d W -> clipped A d S -> posdef d W -> mconj S = S -> W ** (S ** W) = clip A d (fun _ _ => s0) ->
    forall r c, (r < d)%nat -> (c < d)%nat -> S r c = s0.
  Proof.
    intros W S0 HW HS [HP1 HP2] HH H.
    assert (forall v, (forall r, (r < d)%nat -> mv A d W v r = s0) -> forall r, (r < d)%nat -> v r = s0) as HI.
    { intros v Hv. apply (nz_of A d). intros Hn. specialize (HP2 v Hn). rewrite (form_zero A _ L) in HP2; auto. lra. }
    assert (mconj W = W) as HWh by (apply (herm_clip A _ L) in HP1; rewrite HW in HP1; auto).
    assert (forall X, clipped A d X -> (forall v r, (r < d)%nat -> mv A d X v r = s0) -> X = clip A d (fun _ _ => s0)) as HZ.
    { intros X HX HX0. rewrite <- HX. apply clip_same. intros r c Hr Hc.
      specialize (HX0 (fun t => if (t =? c)%nat then s1 else s0) r Hr). unfold mv in HX0. rewrite (ssum_single _ _ L d c) in HX0; auto.
      - rewrite Nat.eqb_refl, (mul_1_r _ _ L) in HX0. auto.
      - intros t Ht Hn. assert ((t =? c)%nat = false) as -> by (apply Nat.eqb_neq; auto).
        assert (smul (X r t) s0 = sscal 0 (smul (X r t) s0)) as ->.
        { rewrite <- (mul_scal_r _ _ L). f_equal. apply (co_sep _ _ L). intros j. rewrite (co_scal _ _ L), (co_0 _ _ L). ring. }
        apply (co_sep _ _ L). intros j. rewrite (co_scal _ _ L), (co_0 _ _ L). ring. }
    assert (forall v r, mv A d (clip A d (fun _ _ => s0)) v r = s0) as HM.
    { intros v r. unfold mv. apply (ssum_0 _ _ L). intros t Ht. unfold clip.
      assert (forall x : el A, smul s0 x = s0) as H0.
      { intros x. assert (smul s0 x = sscal 0 (smul s0 x)) as ->.
        { rewrite <- (mul_scal_l _ _ L). f_equal. apply (co_sep _ _ L). intros j. rewrite (co_scal _ _ L), (co_0 _ _ L). ring. }
        apply (co_sep _ _ L). intros j. rewrite (co_scal _ _ L), (co_0 _ _ L). ring. }
      destruct (r <? d)%nat; [destruct (t <? d)%nat|]; apply H0. }
    assert (mconj (clip A d (fun _ _ => s0)) = clip A d (fun _ _ => s0) :> amat A) as HC0.
    { rewrite <- (clip_conj _ _ L). f_equal. fext. unfold mconj. apply (conj_0 _ _ L). }
    assert (S0 ** W = clip A d (fun _ _ => s0)) as H1.
    { apply HZ; [apply (clipped_mul A _ L); auto|]. intros v. apply HI. intros r Hr. rewrite <- (mv_mul _ _ L HA), H. apply HM. }
    assert (W ** S0 = clip A d (fun _ _ => s0)) as H2.
    { rewrite <- HC0, <- H1, (mconj_mul _ _ L), HWh, HH. auto. }
    assert (S0 = clip A d (fun _ _ => s0)) as ->.
    { apply HZ; auto. intros v. apply HI. intros r Hr. rewrite <- (mv_mul _ _ L HA), H2. apply HM. }
    intros r c Hr Hc. unfold clip. apply Nat.ltb_lt in Hr, Hc. rewrite Hr, Hc. auto.
  Qed.

  Lemma slack_formula : forall o c y i r s, HNegativeSlack o c y i r s =
    - c * h_affine o i r s + rsum (length (h_mats o)) (fun j => y j * nth j (h_mats o) Zero i r s).
  Proof.
    intros o c y i r s. unfold HNegativeSlack. set (step := fun (acc : hyper * nat) (X : hyper) => _).
    assert (forall l S0 q, fst (fold_left step l (S0, q)) i r s = S0 i r s + rsum (length l) (fun j => y (q + j)%nat * nth j l Zero i r s)) as G.
    { induction l as [|X l IH]; intros S0 q; cbn [fold_left length]; [cbn; ring|]. unfold step at 2. rewrite IH. unfold Add, ScalarMultiply.
      replace (S (length l)) with (1 + length l)%nat by lia. rewrite rsum_split. cbn [rsum nth]. rewrite Nat.add_0_r.
      assert (rsum (length l) (fun j => y (q + 1 + j)%nat * nth j l Zero i r s) = rsum (length l) (fun i0 => y (q + (1 + i0))%nat * nth (1 + i0) (X :: l) Zero i r s)) as ->.
      2: cbn [nth Nat.add]; ring.
      apply rsum_ext. intros j _. rewrite Nat.add_assoc. auto. }
    rewrite G. unfold ScalarMultiply. cbn [Nat.add]. ring.
  Qed.
  Lemma tip_slack : forall n o y Z, TraceInnerProduct n d d (HNegativeSlack o 0 y) Z =
    rsum (length (h_mats o)) (fun j => y j * TraceInnerProduct n d d (nth j (h_mats o) Zero) Z).
  Proof.
    intros n o y Z. unfold TraceInnerProduct.
    erewrite (rsum_ext (length (h_mats o))) by (intros j _; rewrite for_up_sum, Rplus_0_l, <- rsum_scal; reflexivity).
    rewrite for_up_sum, Rplus_0_l, (rsum_swap (length (h_mats o))). apply rsum_ext. intros i _.
    erewrite (rsum_ext (length (h_mats o))) by (intros j _; rewrite <- rsum_scal; reflexivity).
    rewrite (rsum_swap (length (h_mats o))). apply rsum_ext. intros c _.
    erewrite (rsum_ext (length (h_mats o))) by (intros j _; rewrite <- rsum_scal; reflexivity).
    rewrite (rsum_swap (length (h_mats o))). apply rsum_ext. intros r _. rewrite slack_formula.
    replace (- 0 * h_affine o i r c) with 0 by ring. rewrite Rplus_0_l, Rmult_comm, <- rsum_scal. apply rsum_ext. intros. ring.
  Qed.

  (** The symmetric matrix stored in a lower triangle. *)
  Definition lower (G : mat) : mat := fun r c => if (c <=? r)%nat then G r c else G c r.

  Lemma nth_herm : forall o j, herm_data k d o -> mconj (cl (nth j (h_mats o) Zero)) = cl (nth j (h_mats o) Zero).
  Proof.
    intros o j [H _]. destruct (lt_dec j (length (h_mats o))) as [Hj|Hj].
    - apply cl_herm. apply H. apply nth_In; auto.
    - rewrite nth_overflow by lia. unfold JordanSteps.cl. rewrite of_zero, <- (clip_conj _ _ L). f_equal. fext. unfold mconj. apply (conj_0 _ _ L).
  Qed.
  Lemma gram_entry : forall b o0 o F i j, herm_data k d o0 -> good k d b o0 o -> cl (h_W o) = F ** mconj F ->
    TraceInnerProduct (2 ^ k) d d (nth j (h_mats o) Zero) (waw (2 ^ k) o i) =
    minner d d (mconj F ** (cl (nth j (h_mats o) Zero) ** F)) (mconj F ** (cl (nth i (h_mats o) Zero) ** F)).
  Proof.
    intros b o0 o F i j HD HG HF. pose proof (good_data k d _ _ _ HG HD) as HO. rewrite (cl_inner k d), cl_waw by apply HG.
    rewrite HF. apply sandwich. apply nth_herm; auto.
  Qed.
  Lemma gram_quad : forall b o0 o sys y, herm_data k d o0 -> good k d b o0 o ->
    let m := length (h_mats o) in let G := lower (sc_G (HSchur (2 ^ k) o true sys)) in
    0 <= rsum m (fun i => rsum m (fun j => y i * y j * G i j)) /\
    (rsum m (fun i => rsum m (fun j => y i * y j * G i j)) = 0 ->
     forall t r c, (t < 2 ^ k)%nat -> (r < d)%nat -> (c < d)%nat -> rsum m (fun j => y j * nth j (h_mats o) Zero t r c) = 0).
  Proof.
    intros b o0 o sys y HD HG m G. pose proof (good_data k d _ _ _ HG HD) as HO.
    pose proof HG as (H1 & _ & _ & HP & (F & HF1 & HF2) & _).
    destruct (schur_spec (2 ^ k) o true sys) as (S1 & _). fold m in S1.
    set (S0 := HNegativeSlack o 0 y). set (N := mconj F ** (cl S0 ** F)).
    assert (mconj (cl S0) = cl S0) as HS by (apply slack_hermitian; auto).
    assert (forall i j, (i < m)%nat -> (j < m)%nat -> G i j = TraceInnerProduct (2 ^ k) d d (nth j (h_mats o) Zero) (waw (2 ^ k) o i)) as EG.
    { intros i j Hi Hj. unfold G, lower. destruct (Nat.leb_spec j i).
      - rewrite S1 by lia. cbn [put]. rewrite H1. rewrite !(gram_entry b o0 o F _ _ HD HG HF2). apply minner_sym.
      - rewrite S1 by lia. cbn [put]. rewrite H1. auto. }
    assert (rsum m (fun i => rsum m (fun j => y i * y j * G i j)) = minner d d N N) as EQ.
    { transitivity (rsum m (fun i => y i * TraceInnerProduct (2 ^ k) d d S0 (waw (2 ^ k) o i))).
      - apply rsum_ext. intros i Hi. unfold S0. rewrite tip_slack. fold m. rewrite <- rsum_scal. apply rsum_ext. intros j Hj. rewrite EG by auto. ring.
      - transitivity (rsum m (fun i => y i * TraceInnerProduct (2 ^ k) d d (nth i (h_mats o) Zero) (Multiply (2 ^ k) d (h_W o) (Multiply (2 ^ k) d S0 (h_W o))))).
        + apply rsum_ext. intros i Hi. f_equal. rewrite !(cl_inner k d), cl_waw, !cl_mul by auto. rewrite HF2.
          rewrite !sandwich by (auto; apply nth_herm; auto). apply minner_sym.
        + unfold m. rewrite <- tip_slack. fold S0. rewrite (cl_inner k d), !cl_mul by auto. rewrite HF2, sandwich by auto. reflexivity. }
    rewrite EQ. split; [apply (minner_nonneg A _ L)|]. intros E0 t r c Ht Hr Hc.
    apply minner_zero in E0. apply clip_same in E0.
    assert (cl (h_W o) ** (cl S0 ** cl (h_W o)) = clip A d (fun _ _ => s0)) as EW.
    { rewrite HF2. replace ((F ** mconj F) ** (cl S0 ** (F ** mconj F))) with (F ** (N ** mconj F)).
      - assert (clipped A d N) as HN. { unfold N. apply (clipped_mul A _ L); [apply (clipped_conj A _ L); auto|]. apply (clipped_mul A _ L); auto. apply cl_clipped. }
        rewrite HN in E0. rewrite E0.
        assert (forall x : el A, smul s0 x = s0) as M0.
        { intros x. assert (smul s0 x = sscal 0 (smul s0 x)) as ->.
          { rewrite <- (mul_scal_l _ _ L). f_equal. apply (co_sep _ _ L). intros j. rewrite (co_scal _ _ L), (co_0 _ _ L). ring. }
          apply (co_sep _ _ L). intros j. rewrite (co_scal _ _ L), (co_0 _ _ L). ring. }
        assert (forall x : el A, smul x s0 = s0) as M1.
        { intros x. assert (smul x s0 = sscal 0 (smul x s0)) as ->.
          { rewrite <- (mul_scal_r _ _ L). f_equal. apply (co_sep _ _ L). intros j. rewrite (co_scal _ _ L), (co_0 _ _ L). ring. }
          apply (co_sep _ _ L). intros j. rewrite (co_scal _ _ L), (co_0 _ _ L). ring. }
        assert (forall X : amat A, clip A d (fun _ _ => s0) ** X = fun _ _ => s0) as Z1.
        { intros X. fext. unfold mmul. apply (ssum_0 _ _ L). intros u _. unfold clip. destruct (r0 <? d)%nat; [destruct (u <? d)%nat|]; apply M0. }
        rewrite Z1. fext. unfold mmul. unfold clip. replace (if (r0 <? d)%nat then if (c0 <? d)%nat then s0 else s0 else s0) with (s0 : el A) by (destruct (r0 <? d)%nat; auto; destruct (c0 <? d)%nat; auto).
        apply (ssum_0 _ _ L). intros u _. apply M1.
      - unfold N. rewrite !(mmul_assoc _ _ L HA). auto. }
    pose proof (sandwich_zero _ _ (cl_clipped k d (h_W o)) (cl_clipped k d S0) (proj1 (cl_posdef k d _) HP) HS EW r c Hr Hc) as E.
    unfold JordanSteps.cl, clip in E. apply Nat.ltb_lt in Hr, Hc. rewrite Hr, Hc in E.
    assert (matrix_of k S0 r c = read k (fun i => S0 i r c)) as E2 by reflexivity. rewrite E2, <- (read_zero k) in E.
    pose proof (read_inj k _ _ E t Ht) as E3. cbn beta in E3. unfold S0 in E3. rewrite slack_formula in E3. fold m in E3.
    replace (- 0 * h_affine o t r c) with 0 in E3 by ring. lra.
  Qed.
End Gram.
