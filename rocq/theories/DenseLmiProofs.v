(** Proofs about real linear matrix inequalities (property C68). *)
From Coq Require Import List Arith Reals Lra Lia Bool FunctionalExtensionality Classical.
From Verif Require Import Base BaseFacts DenseModel RSum JordanModel Spec_Hyper Spec_Lanczos HyperFacts JordanProofs JordanInterior JordanSteps
  JordanSchur JordanReports HermFactor RealFactor PadeProofs LanczosModel LanczosFacts LanczosReports DenseLmiModel Spec_DenseLmi.
Import ListNotations.
Open Scope R_scope.

(** ** Sums *)
Lemma ssum_rsum : forall d f, ssum (A := reals) d f = rsum d f.
Proof. reflexivity. Qed.
Lemma inner_rsum : forall d (X Y : mat), inner (A := reals) d X Y = rsum d (fun r => rsum d (fun c => X r c * Y r c)).
Proof. reflexivity. Qed.
Lemma mmul_rprod : forall d (X Y : mat), mmul (A := reals) d X Y = rprod d X Y.
Proof. reflexivity. Qed.
Lemma rsum_grid : forall n m (f : nat -> nat -> R), rsum (n * m) (fun p => f (p mod n)%nat (p / n)%nat) = rsum m (fun c => rsum n (fun r => f r c)).
Proof.
  intros n m f. induction m; [rewrite Nat.mul_0_r; reflexivity|].
  replace (n * S m)%nat with (n * m + n)%nat by lia. rewrite rsum_split, IHm. cbn [rsum]. f_equal. apply rsum_ext. intros r Hr.
  rewrite (Nat.mul_comm n m), Nat.add_comm, Nat.mod_add, Nat.div_add, Nat.mod_small, Nat.div_small by lia. reflexivity.
Qed.
Lemma vect_inner : forall n (X Y : mat), rsum (n * n) (fun p => as_vector n X p * Y (p mod n)%nat (p / n)%nat) = inner (A := reals) n Y X.
Proof.
  intros n X Y. unfold as_vector. rewrite (rsum_grid n n (fun r c => X r c * Y r c)), rsum_swap, inner_rsum.
  apply rsum_ext. intros. apply rsum_ext. intros. ring.
Qed.
Lemma dtrace_inner : forall n (X Y : mat), DTraceInner n X Y = inner (A := reals) n X Y.
Proof. intros. unfold DTraceInner. rewrite rsum_swap, inner_rsum. reflexivity. Qed.
Lemma dtrace_sym : forall n (X W : mat), hermitian_matrix (A := reals) n W -> dtrace n (rprod n X W) = inner (A := reals) n X W.
Proof.
  intros n X W HW. unfold dtrace, rprod. rewrite inner_rsum. apply rsum_ext. intros r Hr. apply rsum_ext. intros c Hc.
  specialize (HW r c Hr Hc). unfold mconj in HW. cbn in HW. rewrite HW. reflexivity.
Qed.

(** ** The slack *)
Lemma mult_by_A : forall y l r c, MultByA y l r c = rsum (length l) (fun i => y i * nth i l (fun _ _ => 0) r c).
Proof.
  intros y l r c. unfold MultByA. match goal with |- fst (fold_left ?f _ _) _ _ = _ => set (step := f) end.
  assert (forall l S0 q, fst (fold_left step l (S0, q)) r c = S0 r c + rsum (length l) (fun j => y (q + j)%nat * nth j l (fun _ _ => 0) r c)) as G.
  { clear l. induction l as [|X l IH]; intros S0 q; cbn [fold_left length]; [cbn; ring|]. unfold step at 2. rewrite IH.
    replace (S (length l)) with (1 + length l)%nat by lia. rewrite rsum_split. cbn [rsum nth]. rewrite Nat.add_0_r.
    assert (rsum (length l) (fun j => y (q + 1 + j)%nat * nth j l (fun _ _ => 0) r c) = rsum (length l) (fun i0 => y (q + (1 + i0))%nat * nth (1 + i0) (X :: l) (fun _ _ => 0) r c)) as ->.
    2: cbn [nth Nat.add]; ring.
    apply rsum_ext. intros j _. rewrite Nat.add_assoc. auto. }
  rewrite G. cbn [Nat.add]. apply Rplus_0_l.
Qed.
Lemma slack_combination : forall o k y, DNegativeSlack o k y = combination (length (dl_mats o)) (dl_mat o) (dl_affine o) k y.
Proof. intros. fext. unfold DNegativeSlack, combination. rewrite mult_by_A. reflexivity. Qed.
Lemma mat_symmetric : forall o i, lmi_data o -> hermitian_matrix (A := reals) (dl_n o) (dl_mat o i).
Proof.
  intros o i [H _]. unfold dl_mat. destruct (lt_dec i (length (dl_mats o))) as [Hi|Hi].
  - apply H, nth_In; auto.
  - rewrite nth_overflow by lia. intros r c _ _. reflexivity.
Qed.
Lemma slack_symmetric : forall o k y, lmi_data o -> hermitian_matrix (A := reals) (dl_n o) (DNegativeSlack o k y).
Proof.
  intros o k y HD r c Hr Hc. unfold mconj. rewrite slack_combination. unfold combination. cbn [sconj reals].
  f_equal; [|f_equal; apply (proj2 HD); auto]. apply rsum_ext. intros i Hi. f_equal. apply (mat_symmetric o i HD r c); auto.
Qed.

(** ** The Newton block *)
Lemma row_fold : forall (f : mat -> nat -> R) i (h : nat -> R -> R) m s G,
  (forall G j, f G j = h j (G i j)) ->
  forall r c, fold_left (fun G j => mset G i j (f G j)) (seq s m) G r c =
    if ((r =? i) && (s <=? c) && (c <? s + m))%nat%bool then h c (G r c) else G r c.
Proof.
  intros f i h. induction m; intros s G Hf r c; cbn [seq fold_left].
  - destruct (r =? i)%nat; cbn [andb]; auto. destruct (Nat.leb_spec s c); cbn [andb]; auto. destruct (Nat.ltb_spec c (s + 0)); auto; lia.
  - rewrite IHm by auto. unfold mset. destruct (Nat.eqb_spec r i) as [->|Hc]; cbn [andb]; auto.
    destruct (Nat.leb_spec (S s) c); cbn [andb].
    + destruct (Nat.ltb_spec c (S s + m)); destruct (Nat.leb_spec s c); destruct (Nat.ltb_spec c (s + S m)); try lia; cbn [andb];
        destruct (Nat.eqb_spec c s); try lia; cbn [andb]; auto.
    + destruct (Nat.eqb_spec c s) as [->|Hr]; cbn [andb].
      * rewrite Nat.leb_refl. cbn [andb]. destruct (Nat.ltb_spec s (s + S m)); try lia. rewrite Hf. auto.
      * destruct (Nat.leb_spec s c); cbn [andb]; auto; lia.
Qed.

(** The same object up to the temporaries. *)
Definition same_data (o o' : dense_lmi) : Prop :=
  dl_n o' = dl_n o /\ dl_mats o' = dl_mats o /\ dl_affine o' = dl_affine o.
Section Rows.
  Variables (o : dense_lmi) (initialize : bool).
  Let n := dl_n o.
  Let m := length (dl_mats o).
  Let Q (X : mat) : mat := rprod n (dl_W o) (rprod n X (dl_W o)).
  Definition like (o' : dense_lmi) : Prop := same_data o o' /\ dl_W o' = dl_W o.

  Lemma drow_spec : forall sys o1 i, like o1 -> let s := DSchurRow o initialize (sys, o1) i in
    (forall r c, sc_G (fst s) r c = if ((r =? i) && (c <=? r))%nat%bool
       then put initialize (sc_G sys r c) (inner (A := reals) n (dl_mat o c) (Q (dl_mat o r))) else sc_G sys r c) /\
    (forall c, sc_AW (fst s) c = if (c =? i)%nat then put initialize (sc_AW sys c) (dtrace n (rprod n (dl_mat o c) (dl_W o))) else sc_AW sys c) /\
    (forall c, sc_AQc (fst s) c = if (c =? i)%nat then put initialize (sc_AQc sys c) (inner (A := reals) n (dl_affine o) (Q (dl_mat o c))) else sc_AQc sys c) /\
    sc_wc (fst s) = sc_wc sys /\ sc_cQc (fst s) = sc_cQc sys /\ like (snd s).
  Proof.
    intros sys o1 i ((L1 & L2 & L3) & L4). cbv zeta. unfold DSchurRow. cbn [fst snd sc_G sc_AW sc_AQc sc_wc sc_cQc].
    assert (dl_mat o1 = dl_mat o) as EM by (unfold dl_mat; rewrite L2; auto).
    rewrite L1, L3, L4, EM. fold n. fold (Q (dl_mat o i)).
    split; [|split; [|split; [|split; [|split]]]]; auto.
    - intros r c. rewrite (row_fold _ i (fun j g => put initialize g (rsum (n * n) (fun p => as_vector n (Q (dl_mat o i)) p * dl_vect o1 p j)))) by auto.
      assert (forall j, rsum (n * n) (fun p => as_vector n (Q (dl_mat o i)) p * dl_vect o1 p j) = inner (A := reals) n (dl_mat o j) (Q (dl_mat o i))) as EV.
      { intros j. rewrite <- vect_inner. apply rsum_ext. intros p _. unfold dl_vect. rewrite EM, L1. reflexivity. }
      rewrite EV. destruct (Nat.eqb_spec r i) as [->|]; cbn [andb]; auto. cbn [Nat.leb andb Nat.add].
      destruct (Nat.ltb_spec c (i + 1)); destruct (Nat.leb_spec c i); try lia; auto.
    - intros c. unfold vset. destruct (Nat.eqb_spec c i) as [->|]; auto.
    - intros c. unfold vset. destruct (Nat.eqb_spec c i) as [->|]; auto. rewrite dtrace_inner. auto.
    - unfold like, same_data, with_temps. cbn. auto.
  Qed.
  Lemma drows_spec : forall q sys, let s := for_up q (DSchurRow o initialize) (sys, o) in
    (forall r c, sc_G (fst s) r c = if ((r <? q) && (c <=? r))%nat%bool
       then put initialize (sc_G sys r c) (inner (A := reals) n (dl_mat o c) (Q (dl_mat o r))) else sc_G sys r c) /\
    (forall c, sc_AW (fst s) c = if (c <? q)%nat then put initialize (sc_AW sys c) (dtrace n (rprod n (dl_mat o c) (dl_W o))) else sc_AW sys c) /\
    (forall c, sc_AQc (fst s) c = if (c <? q)%nat then put initialize (sc_AQc sys c) (inner (A := reals) n (dl_affine o) (Q (dl_mat o c))) else sc_AQc sys c) /\
    sc_wc (fst s) = sc_wc sys /\ sc_cQc (fst s) = sc_cQc sys /\ like (snd s).
  Proof.
    unfold for_up. induction q; intros sys; cbv zeta.
    - cbn [seq fold_left fst snd]. unfold like, same_data. repeat split; auto.
    - rewrite seq_S, fold_left_app. cbn [fold_left Nat.add].
      specialize (IHq sys). cbv zeta in IHq. destruct (fold_left (DSchurRow o initialize) (seq 0 q) (sys, o)) as [s o1] eqn:E. cbn [fst snd] in IHq.
      destruct IHq as (I1 & I2 & I3 & I4 & I5 & I6). destruct (drow_spec s o1 q I6) as (R1 & R2 & R3 & R4 & R5 & R6).
      split; [|split; [|split; [|split; [|split]]]]; try congruence; auto.
      + intros r c. rewrite R1, I1. destruct (Nat.eqb_spec r q) as [->|Hc]; cbn [andb].
        * destruct (Nat.ltb_spec q q); try lia. destruct (Nat.ltb_spec q (S q)); try lia. cbn [andb]. auto.
        * destruct (Nat.ltb_spec r q); destruct (Nat.ltb_spec r (S q)); try lia; auto.
      + intros c. rewrite R2, I2. destruct (Nat.eqb_spec c q) as [->|Hc].
        * destruct (Nat.ltb_spec q q); try lia. destruct (Nat.ltb_spec q (S q)); try lia. auto.
        * destruct (Nat.ltb_spec c q); destruct (Nat.ltb_spec c (S q)); try lia; auto.
      + intros c. rewrite R3, I3. destruct (Nat.eqb_spec c q) as [->|Hc].
        * destruct (Nat.ltb_spec q q); try lia. destruct (Nat.ltb_spec q (S q)); try lia. auto.
        * destruct (Nat.ltb_spec c q); destruct (Nat.ltb_spec c (S q)); try lia; auto.
  Qed.
  Lemma dschur_spec : forall sys, let s := fst (DSchur o initialize sys) in
    (forall r c, (c <= r < m)%nat -> sc_G s r c = put initialize (sc_G sys r c) (inner (A := reals) n (dl_mat o c) (Q (dl_mat o r)))) /\
    (forall r c, (r < c \/ m <= r)%nat -> sc_G s r c = sc_G sys r c) /\
    (forall c, (c < m)%nat -> sc_AW s c = put initialize (sc_AW sys c) (dtrace n (rprod n (dl_mat o c) (dl_W o))) /\
       sc_AQc s c = put initialize (sc_AQc sys c) (inner (A := reals) n (dl_affine o) (Q (dl_mat o c)))) /\
    (forall c, (m <= c)%nat -> sc_AW s c = sc_AW sys c /\ sc_AQc s c = sc_AQc sys c) /\
    sc_wc s = put initialize (sc_wc sys) (inner (A := reals) n (dl_affine o) (dl_W o)) /\
    sc_cQc s = put initialize (sc_cQc sys) (inner (A := reals) n (dl_affine o) (Q (dl_affine o))) /\
    like (snd (DSchur o initialize sys)).
  Proof.
    intros sys. cbv zeta. unfold DSchur. destruct (drows_spec m sys) as (R1 & R2 & R3 & R4 & R5 & R6). fold m.
    destruct (for_up m (DSchurRow o initialize) (sys, o)) as [s o1] eqn:E. cbn [fst snd sc_G sc_AW sc_AQc sc_wc sc_cQc] in *.
    destruct R6 as ((L1 & L2 & L3) & L4). rewrite L1, L3, L4. fold n.
    split; [|split; [|split; [|split; [|split; [|split]]]]].
    - intros r c H. rewrite R1. destruct (Nat.ltb_spec r m); try lia. destruct (Nat.leb_spec c r); try lia. auto.
    - intros r c H. rewrite R1. destruct (Nat.ltb_spec r m); cbn [andb]; auto. destruct (Nat.leb_spec c r); auto. lia.
    - intros c H. rewrite R2, R3. destruct (Nat.ltb_spec c m); try lia. auto.
    - intros c H. rewrite R2, R3. destruct (Nat.ltb_spec c m); try lia. auto.
    - rewrite R4, dtrace_inner. auto.
    - rewrite R5, dtrace_inner. auto.
    - unfold like, same_data, with_temps. cbn. auto.
  Qed.
End Rows.

(** ** Positive semidefiniteness of the block *)
Definition as_herm (o : dense_lmi) : hermitian :=
  mkHermitian (dl_n o) (map lift (dl_mats o)) (lift (dl_affine o)) (lift (dl_W o)) Zero Zero.
Lemma as_herm_data : forall o, lmi_data o -> herm_data 0 (dl_n o) (as_herm o).
Proof.
  intros o [H1 H2]. split; [|exact H2]. intros X HX. cbn [as_herm h_mats] in HX. apply in_map_iff in HX. destruct HX as (Y & <- & HY).
  exact (H1 Y HY).
Qed.
Lemma as_herm_good : forall o, posdef (A := reals) (dl_n o) (dl_W o) -> good 0 (dl_n o) false (as_herm o) (as_herm o).
Proof.
  intros o HW. split; [reflexivity|]. split; [reflexivity|]. split; [reflexivity|]. split; [exact HW|]. split; [|discriminate].
  destruct (posdef_factor 0 ltac:(lia) (dl_n o) (dl_W o) HW) as (F & HF & HE). exists F. split; auto.
  apply clip_same in HE. unfold cl. cbn [as_herm h_W]. rewrite lift_matrix, HE, (clip_mul _ _ (laws_cd 0)), (clip_conj _ _ (laws_cd 0)), HF. reflexivity.
Qed.
Lemma as_herm_mat : forall o j, nth j (h_mats (as_herm o)) Zero = lift (dl_mat o j).
Proof.
  intros o j. cbn [as_herm h_mats]. replace Zero with (lift (fun _ _ => 0)) by (fext; unfold lift, Zero; destruct (_ =? 0)%nat; auto).
  rewrite map_nth. reflexivity.
Qed.
Lemma as_herm_entry : forall o i j,
  TraceInnerProduct 1 (dl_n o) (dl_n o) (nth j (h_mats (as_herm o)) Zero) (waw 1 (as_herm o) i) =
  inner (A := reals) (dl_n o) (dl_mat o j) (rprod (dl_n o) (dl_W o) (rprod (dl_n o) (dl_mat o i) (dl_W o))).
Proof.
  intros o i j. rewrite (cl_inner 0 (dl_n o)), (cl_waw 0 ltac:(lia) (dl_n o)) by reflexivity. rewrite !as_herm_mat.
  unfold cl. rewrite !lift_matrix. cbn [as_herm h_W]. rewrite lift_matrix, <- !(clip_mul _ _ (laws_cd 0)).
  rewrite <- (minner_clip 0 (dl_n o)). rewrite !mmul_rprod. unfold minner. rewrite inner_rsum. reflexivity.
Qed.
Lemma dentry_sym : forall o i j, lmi_data o -> posdef (A := reals) (dl_n o) (dl_W o) ->
  let Q := fun X : mat => rprod (dl_n o) (dl_W o) (rprod (dl_n o) X (dl_W o)) in
  inner (A := reals) (dl_n o) (dl_mat o j) (Q (dl_mat o i)) = inner (A := reals) (dl_n o) (dl_mat o i) (Q (dl_mat o j)).
Proof.
  intros o i j HD HW Q. unfold Q. rewrite <- !as_herm_entry. pose proof (as_herm_good o HW) as HG. pose proof HG as (_ & _ & _ & _ & (F & F1 & F2) & _).
  change 1%nat with (2 ^ 0)%nat.
  rewrite (gram_entry 0 ltac:(lia) (dl_n o) false (as_herm o) (as_herm o) F i j (as_herm_data o HD) HG F2).
  rewrite (gram_entry 0 ltac:(lia) (dl_n o) false (as_herm o) (as_herm o) F j i (as_herm_data o HD) HG F2).
  apply (minner_sym 0).
Qed.
Lemma dgram : forall o sys y, lmi_data o -> posdef (A := reals) (dl_n o) (dl_W o) ->
  let m := length (dl_mats o) in let G := lower (sc_G (fst (DSchur o true sys))) in
  0 <= rsum m (fun i => rsum m (fun j => y i * y j * G i j)) /\
  (rsum m (fun i => rsum m (fun j => y i * y j * G i j)) = 0 ->
   forall r c, (r < dl_n o)%nat -> (c < dl_n o)%nat -> rsum m (fun j => y j * dl_mat o j r c) = 0).
Proof.
  intros o sys y HD HW m G. destruct (gram_quad 0 ltac:(lia) (dl_n o) false (as_herm o) (as_herm o) sys y (as_herm_data o HD) (as_herm_good o HW)) as [H1 H2].
  cbv zeta in H1, H2. replace (length (h_mats (as_herm o))) with m in H1, H2 by (cbn; rewrite map_length; auto).
  assert (rsum m (fun i => rsum m (fun j => y i * y j * G i j)) =
    rsum m (fun i => rsum m (fun j => y i * y j * lower (sc_G (HSchur (2 ^ 0) (as_herm o) true sys)) i j))) as E.
  { apply rsum_ext. intros i Hi. apply rsum_ext. intros j Hj. f_equal.
    destruct (dschur_spec o true sys) as (D1 & _). destruct (schur_spec (2 ^ 0) (as_herm o) true sys) as (S1 & _). fold m in D1.
    assert (length (h_mats (as_herm o)) = m) as El by (cbn; rewrite map_length; auto). rewrite El in S1.
    unfold G, lower. change (h_rank (as_herm o)) with (dl_n o) in S1. destruct (Nat.leb_spec j i).
    - rewrite D1, S1 by lia. cbn [put]. change (2 ^ 0)%nat with 1%nat. rewrite as_herm_entry. apply (dentry_sym o i j HD HW).
    - rewrite D1, S1 by lia. cbn [put]. change (2 ^ 0)%nat with 1%nat. rewrite as_herm_entry. apply (dentry_sym o j i HD HW). }
  rewrite E. split; auto. intros H0 r c Hr Hc. rewrite <- (H2 H0 0%nat r c) by (cbn; auto). apply rsum_ext. intros j _. rewrite as_herm_mat. reflexivity.
Qed.

(** ** From the operator norm to the bound of the rational step *)
Definition bil (d : nat) (W : mat) (x z : vec) : R := rsum d (fun i => rsum d (fun j => x i * (W i j * z j))).
Lemma bil_plus_l d W x x' z : bil d W (fun i => x i + x' i) z = bil d W x z + bil d W x' z.
Proof. unfold bil. rewrite <- rsum_plus. apply rsum_ext. intros. rewrite <- rsum_plus. apply rsum_ext. intros. ring. Qed.
Lemma bil_scal_l d W a x z : bil d W (fun i => a * x i) z = a * bil d W x z.
Proof. unfold bil. rewrite <- rsum_scal. apply rsum_ext. intros. rewrite <- rsum_scal. apply rsum_ext. intros. ring. Qed.
Lemma bil_sym d W x z : (forall i j, (i < d)%nat -> (j < d)%nat -> W i j = W j i) -> bil d W x z = bil d W z x.
Proof. intros HW. unfold bil. rewrite rsum_swap. apply rsum_ext. intros i Hi. apply rsum_ext. intros j Hj. rewrite (HW i j) by auto. ring. Qed.
Lemma bil_form d W x : bil d W x x = form (A := reals) d W x.
Proof. rewrite rform_form. reflexivity. Qed.

(** Symmetric forms bounded by a definite one are bounded as operators. *)
Lemma radius_norm d (W B : mat) nu (M : vec -> vec) :
  (forall i j, (i < d)%nat -> (j < d)%nat -> W i j = W j i) -> (forall i j, (i < d)%nat -> (j < d)%nat -> B i j = B j i) ->
  (forall z, 0 <= bil d W z z) -> (forall z, Rabs (bil d B z z) <= nu * bil d W z z) -> 0 <= nu ->
  (forall x z, bil d B x z = bil d W x (M z)) ->
  forall v, bil d W (M v) (M v) <= nu * nu * bil d W v v.
Proof.
  intros HW HB HP HN Hnu HM v.
  assert (forall u z, 2 * bil d B u z <= nu * (bil d W u u + bil d W z z)) as HC.
  { intros u z.
    pose proof (HN (fun i => u i + z i)) as H1. pose proof (HN (fun i => u i + -1 * z i)) as H2.
    assert (forall X, (forall i j, (i < d)%nat -> (j < d)%nat -> X i j = X j i) ->
      forall a, bil d X (fun i => u i + a * z i) (fun i => u i + a * z i) = bil d X u u + 2 * a * bil d X u z + a * a * bil d X z z) as EX.
    { intros X HX a. rewrite bil_plus_l, (bil_scal_l d X a z), (bil_sym d X u) by auto. rewrite (bil_sym d X z) by auto.
      rewrite !bil_plus_l, !(bil_scal_l d X a z), (bil_sym d X z u) by auto. ring. }
    assert (forall X, (forall i j, (i < d)%nat -> (j < d)%nat -> X i j = X j i) ->
      bil d X (fun i => u i + z i) (fun i => u i + z i) = bil d X u u + 2 * bil d X u z + bil d X z z) as EX1.
    { intros X HX. pose proof (EX X HX 1) as E. assert ((fun i => u i + 1 * z i) = (fun i => u i + z i)) as E1 by (apply functional_extensionality; intros; ring). rewrite E1 in E. rewrite E. ring. }
    rewrite !EX1 in H1 by auto. rewrite !EX in H2 by auto.
    apply Rle_trans with (r2 := nu * (bil d W u u + bil d W z z)); [|lra].
    assert (- (nu * (bil d W u u + 2 * -1 * bil d W u z + -1 * -1 * bil d W z z)) <= bil d B u u + 2 * -1 * bil d B u z + -1 * -1 * bil d B z z).
    { match type of H2 with Rabs ?x <= _ => pose proof (Rle_abs (- x)) as H; rewrite Rabs_Ropp in H end. lra. }
    match type of H1 with Rabs ?x <= _ => pose proof (Rle_abs x) end. lra. }
  destruct (Rle_lt_or_eq_dec 0 nu Hnu) as [Hp|<-].
  - assert (bil d B (M v) v = bil d W (M v) (M v)) as E2 by apply HM.
    pose proof (HC (M v) (fun i => nu * v i)) as H3.
    rewrite (bil_sym d B (M v) (fun i => nu * v i)), bil_scal_l, (bil_sym d B v (M v)), E2 in H3 by auto.
    rewrite bil_scal_l, (bil_sym d W v (fun i => nu * v i)), bil_scal_l in H3 by auto.
    apply Rmult_le_reg_l with nu; [auto|]. nra.
  - pose proof (HC (M v) v) as H. rewrite (HM (M v) v) in H. nra.
Qed.

Section Norm.
  Variables (d : nat) (W S : mat).
  Hypothesis HW : posdef (A := reals) d W.
  Hypothesis HS : hermitian_matrix (A := reals) d S.
  Let Wsym : forall i j, (i < d)%nat -> (j < d)%nat -> W i j = W j i.
  Proof. intros i j Hi Hj. symmetry. apply (proj1 HW i j Hi Hj). Qed.
  Let Ssym : forall i j, (i < d)%nat -> (j < d)%nat -> S i j = S j i.
  Proof. intros i j Hi Hj. symmetry. apply (HS i j Hi Hj). Qed.
  Let WSW : mat := rprod d W (rprod d S W).
  Lemma wsw_sym : forall i j, (i < d)%nat -> (j < d)%nat -> WSW i j = WSW j i.
  Proof.
    intros i j Hi Hj. unfold WSW, rprod.
    erewrite (rsum_ext d) by (intros t Ht; rewrite <- rsum_scal; reflexivity). rewrite rsum_swap. apply rsum_ext. intros u Hu.
    rewrite <- rsum_scal. apply rsum_ext. intros t Ht. rewrite (Wsym i t), (Wsym u j), (Ssym t u) by auto. ring.
  Qed.
  (** Numerical radius to operator norm. *)
  Lemma norm_direction e nu WS : (forall r c, (r < d)%nat -> (c < d)%nat -> WS r c = rsum d (fun t => W r t * S t c)) ->
    0 <= nu -> norm_at_most (A := reals) d W S e nu ->
    forall v, form (A := reals) d W (direction d WS e v) <= nu * nu * form (A := reals) d W v.
  Proof.
    intros EW Hnu HN v. rewrite <- !bil_form.
    apply (radius_norm d W (fun i j => e * W i j + WSW i j) nu (direction d WS e)); auto.
    - intros i j Hi Hj. rewrite (Wsym i j), (wsw_sym i j) by auto. auto.
    - intros z. rewrite bil_form. apply (proj2 (posdef_psd _ (laws_cd 0) d W HW) z).
    - intros z. specialize (HN z). unfold weighted in HN. rewrite <- !bil_form in HN.
      replace (bil d (fun i j => e * W i j + WSW i j) z z) with (e * bil d W z z + bil d (mmul (A := reals) d W (mmul (A := reals) d S W)) z z); [exact HN|].
      unfold bil. rewrite <- rsum_scal, <- rsum_plus. apply rsum_ext. intros i Hi. rewrite <- rsum_scal, <- rsum_plus. apply rsum_ext. intros j Hj.
      change (mmul (A := reals) d W (mmul (A := reals) d S W) i j) with (WSW i j). ring.
    - intros x z. unfold bil. apply rsum_ext. intros i Hi.
      assert (rsum d (fun j => (e * W i j + WSW i j) * z j) = rsum d (fun j => W i j * direction d WS e z j)) as E.
      { unfold direction. erewrite (rsum_ext d (fun j => (e * W i j + WSW i j) * z j) (fun j => e * (W i j * z j) + WSW i j * z j)) by (intros; ring).
        erewrite (rsum_ext d (fun j => W i j * (rsum d (fun t => WS t j * z t) + e * z j)) (fun j => e * (W i j * z j) + W i j * rsum d (fun t => WS t j * z t))) by (intros; ring).
        rewrite !rsum_plus. f_equal. unfold WSW, rprod.
        erewrite (rsum_ext d) by (intros j Hj; rewrite <- rsum_scal_r; reflexivity). rewrite rsum_swap. apply rsum_ext. intros u Hu.
        rewrite <- rsum_scal. apply rsum_ext. intros t Ht. rewrite (EW t u) by auto.
        assert (rsum d (fun t0 => S u t0 * W t0 t) = rsum d (fun t0 => W t t0 * S t0 u)) as ->; [|ring].
        apply rsum_ext. intros q Hq. rewrite (Ssym u q), (Wsym q t) by auto. ring. }
      rewrite !rsum_scal, E. auto.
  Qed.
  (** The squared norm. *)
  Lemma nonneg_norm e nu : norm_at_most (A := reals) d W S e nu -> norm_at_most (A := reals) d W S e (Rmax 0 nu).
  Proof.
    intros H z. eapply Rle_trans; [apply H|]. apply Rmult_le_compat_r; [|apply Rmax_r]. apply (proj2 (posdef_psd _ (laws_cd 0) d W HW) z).
  Qed.
End Norm.

(** ** Histories *)
Lemma step_interior : forall o S opt nu o', lmi_data o -> posdef (A := reals) (dl_n o) (dl_W o) -> hermitian_matrix (A := reals) (dl_n o) S ->
  (forall r c, (r < dl_n o)%nat -> (c < dl_n o)%nat -> dl_temp1 o r c = rsum (dl_n o) (fun t => dl_W o r t * S t c)) ->
  norm_at_most (A := reals) (dl_n o) (dl_W o) S (so_e_weight opt) nu -> Rabs (so_step_size opt) * nu <= sqrt 2 ->
  (exists o'', DTakeStep o opt o'') /\ (DTakeStep o opt o' -> same_data o o' /\ posdef (A := reals) (dl_n o) (dl_W o')).
Proof.
  intros o S opt nu o' HD HW HS ET HN Hs.
  assert (Rabs (so_step_size opt) * Rmax 0 nu <= sqrt 2) as Hs'.
  { unfold Rmax. destruct (Rle_dec 0 nu); auto. rewrite Rmult_0_r. apply sqrt_pos. }
  apply nonneg_norm in HN; auto. pose proof (Rmax_l 0 nu) as Hp. set (nu' := Rmax 0 nu) in *. clearbody nu'.
  pose proof (norm_direction _ _ _ HW HS _ _ _ ET Hp HN) as HB. split.
  - destruct (pade_exists _ _ _ _ opt nu' HW HS ET Hp Hs' HB) as (W1 & E & HE & _). eexists. exists E. split; [exact HE|]. reflexivity.
  - intros (E & HE & ->). split; [unfold same_data; cbn; auto|]. cbn [dl_W].
    apply (pade_posdef _ _ _ _ _ opt nu' HW HS ET Hp Hs' HB). exists E. split; auto.
Qed.
Lemma identity_posdef : forall d, posdef (A := reals) d PSetIdentity.
Proof. intros d. change (posdef d (matrix_of 0 Identity)). apply cl_posdef. rewrite cl_identity. apply posdef_one. Qed.
Lemma history_inv : forall o0 b o, lmi_data o0 -> lmi_history o0 b o ->
  same_data o0 o /\ posdef (A := reals) (dl_n o0) (dl_W o) /\
  (forall S, b = Some S -> hermitian_matrix (A := reals) (dl_n o0) S /\
     forall r c, (r < dl_n o0)%nat -> (c < dl_n o0)%nat -> dl_temp1 o r c = rsum (dl_n o0) (fun t => dl_W o r t * S t c)).
Proof.
  intros o0 b o HD H. induction H.
  - split; [unfold same_data; cbn; auto|]. split; [apply identity_posdef|discriminate].
  - destruct IHlmi_history as ((E1 & E2 & E3) & _). split; [unfold same_data; cbn; auto|]. split; [apply identity_posdef|discriminate].
  - destruct IHlmi_history as ((E1 & E2 & E3) & HW & _). destruct (dschur_spec o initialize sys) as (_ & _ & _ & _ & _ & _ & ((L1 & L2 & L3) & L4)).
    split; [unfold same_data; rewrite L1, L2, L3; auto|]. split; [rewrite L4; auto|discriminate].
  - destruct IHlmi_history as ((E1 & E2 & E3) & HW & _). unfold same_data. cbn. split; auto. split; [auto|discriminate].
  - destruct IHlmi_history as ((E1 & E2 & E3) & HW & _). unfold DPrepareStep. rewrite H0. cbn [fst with_temps dl_n dl_mats dl_affine dl_W dl_temp1].
    split; [unfold same_data; auto|]. split; auto. intros S [= <-].
    assert (lmi_data o) as HO by (unfold lmi_data; rewrite E1, E2, E3; exact HD).
    split; [rewrite <- E1; apply slack_symmetric; auto|]. intros r c Hr Hc. rewrite <- E1. reflexivity.
  - destruct IHlmi_history as ((E1 & E2 & E3) & HW & HT). destruct (HT S eq_refl) as [HS ET].
    assert (lmi_data o) as HO by (unfold lmi_data; rewrite E1, E2, E3; exact HD). rewrite <- E1 in HW, HS, ET.
    destruct (step_interior o S opt nu o' HO HW HS ET H1 H2) as [_ HP]. destruct (HP H0) as [(F1 & F2 & F3) HP'].
    split; [unfold same_data; rewrite F1, F2, F3; auto|]. split; [rewrite <- E1; auto|discriminate].
Qed.

(** ** The affine step and the dual equation *)
Lemma inner_add d (X Y Z : mat) : inner (A := reals) d X (fun r c => Y r c + Z r c) = inner (A := reals) d X Y + inner (A := reals) d X Z.
Proof. rewrite !inner_rsum, <- rsum_plus. apply rsum_ext. intros. rewrite <- rsum_plus. apply rsum_ext. intros. ring. Qed.
Lemma inner_scal d a (X Y : mat) : inner (A := reals) d X (fun r c => a * Y r c) = a * inner (A := reals) d X Y.
Proof. rewrite !inner_rsum, <- rsum_scal. apply rsum_ext. intros. rewrite <- rsum_scal. apply rsum_ext. intros. ring. Qed.
Lemma inner_sum d m (X : mat) (Y : nat -> mat) : inner (A := reals) d X (fun r c => rsum m (fun j => Y j r c)) = rsum m (fun j => inner (A := reals) d X (Y j)).
Proof.
  induction m; cbn [rsum]; [|rewrite inner_add, IHm; auto].
  rewrite inner_rsum. apply rsum_zero. intros. apply rsum_zero. intros. ring.
Qed.
Lemma inner_ext d (X Y Z : mat) : (forall r c, (r < d)%nat -> (c < d)%nat -> Y r c = Z r c) -> inner (A := reals) d X Y = inner (A := reals) d X Z.
Proof. intros H. rewrite !inner_rsum. apply rsum_ext. intros r Hr. apply rsum_ext. intros c Hc. rewrite H; auto. Qed.

Lemma rprod_assoc d (X Y Z : mat) : rprod d X (rprod d Y Z) = rprod d (rprod d X Y) Z.
Proof.
  fext. unfold rprod. erewrite (rsum_ext d) by (intros t Ht; rewrite <- rsum_scal; reflexivity). rewrite rsum_swap. apply rsum_ext. intros u Hu.
  rewrite <- rsum_scal_r. apply rsum_ext. intros t Ht. ring.
Qed.
Lemma dual_equation : forall o opt y sys, lmi_data o -> posdef (A := reals) (dl_n o) (dl_W o) -> so_affine opt = true ->
  let s := fst (DSchur o true sys) in let W' := dl_W (fst (DPrepareStep o opt y)) in let m := length (dl_mats o) in
  let G := lower (sc_G s) in
  forall i, (i < m)%nat -> inner (A := reals) (dl_n o) (dl_mat o i) W' =
    (1 + so_e_weight opt) * sc_AW s i + rsum m (fun j => G i j * y j) - so_c_weight opt * sc_AQc s i.
Proof.
  intros o opt y sys HD HW Ha s W' m G i Hi. destruct (dschur_spec o true sys) as (D1 & _ & D3 & _). fold m s in D1, D3.
  destruct (D3 i Hi) as [-> ->]. cbn [put]. rewrite (dtrace_sym _ _ _ (proj1 HW)).
  set (n := dl_n o) in *. set (W := dl_W o) in *. set (Q := fun X : mat => rprod n W (rprod n X W)) in *.
  assert (forall j, (j < m)%nat -> G i j = inner (A := reals) n (dl_mat o i) (Q (dl_mat o j))) as EG.
  { intros j Hj. unfold G, lower. destruct (Nat.leb_spec j i); rewrite D1 by lia; cbn [put]; fold (Q (dl_mat o i)) (Q (dl_mat o j)); auto.
    apply (dentry_sym o i j HD HW). }
  set (M := DNegativeSlack o (so_c_weight opt) y).
  assert (inner (A := reals) n (dl_mat o i) W' = (1 + so_e_weight opt) * inner (A := reals) n (dl_mat o i) W + inner (A := reals) n (dl_mat o i) (Q M)) as ->.
  { rewrite <- inner_scal, <- inner_add. apply inner_ext. intros r c _ _. unfold W', DPrepareStep. rewrite Ha. cbn [fst dl_W].
    unfold PAffineUpdate, Q. fold n W M. rewrite rprod_assoc. destruct (Req_EM_T (so_e_weight opt) 0) as [->|]; ring. }
  assert (inner (A := reals) n (dl_mat o i) (Q M) = rsum m (fun j => y j * inner (A := reals) n (dl_mat o i) (Q (dl_mat o j))) - so_c_weight opt * inner (A := reals) n (dl_mat o i) (Q (dl_affine o))) as ->.
  { erewrite (rsum_ext m) by (intros j _; rewrite <- inner_scal; reflexivity). rewrite <- inner_sum.
    assert (forall a b c : R, a = b + - c * 1 -> a = b - c) as Hm by (intros; lra).
    replace (so_c_weight opt * inner (A := reals) n (dl_mat o i) (Q (dl_affine o))) with (- (- so_c_weight opt * inner (A := reals) n (dl_mat o i) (Q (dl_affine o)))) by ring.
    unfold Rminus. rewrite Ropp_involutive, <- inner_scal, <- inner_add. apply inner_ext. intros r c _ _. clear Hm.
    unfold Q, rprod. rewrite <- rsum_scal. 
    erewrite (rsum_ext m) by (intros j _; rewrite <- rsum_scal; reflexivity). rewrite rsum_swap, <- rsum_plus. apply rsum_ext. intros t _.
    erewrite (rsum_ext m) by (intros j _; rewrite <- Rmult_assoc, <- rsum_scal; reflexivity). rewrite rsum_swap.
    rewrite <- !rsum_scal, <- rsum_plus. apply rsum_ext. intros u _.
    unfold M. rewrite slack_combination. unfold combination. rewrite ssum_rsum. fold m.
    replace (W r t * ((rsum m (fun i0 => y i0 * dl_mat o i0 t u) - so_c_weight opt * dl_affine o t u) * W u c))
      with (rsum m (fun i0 => y i0 * dl_mat o i0 t u) * (W r t * W u c) + - so_c_weight opt * (W r t * (dl_affine o t u * W u c))) by ring.
    f_equal. rewrite <- rsum_scal_r. apply rsum_ext. intros j _. ring. }
  fold (Q (dl_mat o i)). assert (inner (A := reals) n (dl_affine o) (Q (dl_mat o i)) = inner (A := reals) n (dl_mat o i) (Q (dl_affine o))) as ->.
  { set (o2 := mkDenseLmi n [dl_mat o i; dl_affine o] (dl_affine o) W W W).
    assert (lmi_data o2) as HD2. { split; [|apply HD]. intros X [<-|[<-|[]]]; [apply (mat_symmetric o i HD)|apply HD]. }
    exact (dentry_sym o2 0 1 HD2 HW). }
  erewrite (rsum_ext m (fun j => G i j * y j)) by (intros j Hj; rewrite EG by auto; apply Rmult_comm). ring.
Qed.

(** ** Reported sums *)
Lemma as_herm_slack : forall o k y, matrix_of 0 (HNegativeSlack (as_herm o) k y) = DNegativeSlack o k y.
Proof.
  intros o k y. fext. unfold matrix_of. cbn [read]. rewrite slack_entries. rewrite slack_combination. unfold combination.
  change (h_affine (as_herm o) 0%nat) with (dl_affine o). f_equal. replace (length (h_mats (as_herm o))) with (length (dl_mats o)) by (cbn; rewrite map_length; auto).
  apply rsum_ext. intros j _. rewrite as_herm_mat. reflexivity.
Qed.
Lemma real_multiply : forall d X Y, Multiply 1 d X Y 0%nat = rprod d (X 0%nat) (Y 0%nat).
Proof.
  intros d X Y. transitivity (matrix_of 0 (Multiply (2 ^ 0) d X Y)); [reflexivity|]. rewrite of_multiply by lia. reflexivity.
Qed.
Lemma as_herm_weighted : forall o y c, HWeightedSlack 1 (as_herm o) y c = snd (DWeightedSlack o y c).
Proof.
  intros o y c. unfold HWeightedSlack, DWeightedSlack. cbn [snd as_herm h_rank]. unfold trace0. rewrite !real_multiply.
  fold (as_herm o). pose proof (as_herm_slack o c y) as E. change (HNegativeSlack (as_herm o) c y 0%nat = DNegativeSlack o c y) in E. rewrite E. reflexivity.
Qed.
Lemma as_herm_prepare : forall o opt y, so_affine opt = false -> snd (HPrepareStep 1 (as_herm o) opt y) = snd (DPrepareStep o opt y).
Proof.
  intros o opt y Ha. unfold HPrepareStep, DPrepareStep. rewrite Ha. cbn [snd]. f_equal. unfold PNormSquared, trace0. rewrite !real_multiply.
  pose proof (as_herm_slack o (so_c_weight opt) y) as E. change (HNegativeSlack (as_herm o) (so_c_weight opt) y 0%nat = DNegativeSlack o (so_c_weight opt) y) in E. rewrite E. reflexivity.
Qed.
