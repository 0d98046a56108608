(** Property C68: real linear matrix inequalities. *)
From Coq Require Import List Arith Reals Lra Lia Bool FunctionalExtensionality.
From Verif Require Import Base BaseFacts DenseModel RSum JordanModel LanczosModel Spec_Hyper Spec_Lanczos HyperFacts JordanProofs JordanInterior JordanSteps
  JordanSchur JordanReports HermFactor RealFactor DenseLmiModel Spec_DenseLmi DenseLmiProofs Prop_Lanczos.
Import ListNotations.
Open Scope R_scope.

(** The negative slack is [y_0 A_0 + ... + y_{m-1} A_{m-1} - k C]. *)
Theorem C68_slack : forall o k y r c,
  DNegativeSlack o k y r c = combination (length (dl_mats o)) (dl_mat o) (dl_affine o) k y r c.
Proof. intros. rewrite slack_combination. reflexivity. Qed.

(** The Newton block: with [Q X = W X W], the entry [(r, c)] of the lower triangle is
    [<A_c, Q A_r>], the linear terms are [<A_c, W>] and [<C, Q A_c>], the constants
    [<C, W>] and [<C, Q C>]; they are stored or added; nothing else is written.  The
    data and [W] are not changed. *)
Theorem C68_newton : forall o initialize sys, hermitian_matrix (A := reals) (dl_n o) (dl_W o) ->
  let d := dl_n o in let m := length (dl_mats o) in let Q := fun X => mmul (A := reals) d (dl_W o) (mmul (A := reals) d X (dl_W o)) in
  let s := fst (DSchur o initialize sys) in let o' := snd (DSchur o initialize sys) in
  (forall r c, (c <= r < m)%nat -> sc_G s r c = (if initialize then 0 else sc_G sys r c) + inner (A := reals) d (dl_mat o c) (Q (dl_mat o r))) /\
  (forall r c, (r < c \/ m <= r)%nat -> sc_G s r c = sc_G sys r c) /\
  (forall c, (c < m)%nat -> sc_AW s c = (if initialize then 0 else sc_AW sys c) + inner (A := reals) d (dl_mat o c) (dl_W o) /\
     sc_AQc s c = (if initialize then 0 else sc_AQc sys c) + inner (A := reals) d (dl_affine o) (Q (dl_mat o c))) /\
  (forall c, (m <= c)%nat -> sc_AW s c = sc_AW sys c /\ sc_AQc s c = sc_AQc sys c) /\
  sc_wc s = (if initialize then 0 else sc_wc sys) + inner (A := reals) d (dl_affine o) (dl_W o) /\
  sc_cQc s = (if initialize then 0 else sc_cQc sys) + inner (A := reals) d (dl_affine o) (Q (dl_affine o)) /\
  dl_n o' = dl_n o /\ dl_mats o' = dl_mats o /\ dl_affine o' = dl_affine o /\ dl_W o' = dl_W o.
Proof.
  intros o initialize sys HW d m Q s o'. destruct (dschur_spec o initialize sys) as (D1 & D2 & D3 & D4 & D5 & D6 & ((L1 & L2 & L3) & L4)).
  assert (forall old new, put initialize old new = (if initialize then 0 else old) + new) as EP by (intros; unfold put; destruct initialize; ring).
  fold d m s o' in D1, D2, D3, D4, D5, D6, L1, L2, L3, L4.
  split; [intros r c H; rewrite D1, EP by auto; reflexivity|]. split; [auto|].
  split; [intros c H; destruct (D3 c H) as [-> ->]; rewrite !EP, (dtrace_sym _ _ _ HW); split; reflexivity|]. split; [auto|].
  split; [rewrite D5, EP; reflexivity|]. split; [rewrite D6, EP; reflexivity|]. auto.
Qed.

(** In every history the scaling matrix is symmetric and positive definite, the data
    are unchanged, and after a preparation every step whose size times the operator
    norm of the direction is at most [sqrt 2] can be taken. *)
Theorem C68_interior : forall o0 b o, lmi_data o0 -> lmi_history o0 b o ->
  posdef (A := reals) (dl_n o0) (dl_W o) /\ dl_n o = dl_n o0 /\ dl_mats o = dl_mats o0 /\ dl_affine o = dl_affine o0 /\
  forall S opt nu, b = Some S -> norm_at_most (A := reals) (dl_n o) (dl_W o) S (so_e_weight opt) nu -> Rabs (so_step_size opt) * nu <= sqrt 2 ->
    exists o', DTakeStep o opt o'.
Proof.
  intros o0 b o HD HH. destruct (history_inv o0 b o HD HH) as ((E1 & E2 & E3) & HW & HT). split; [exact HW|]. split; [auto|]. split; [auto|]. split; [auto|].
  intros S opt nu Hb HN Hs. destruct (HT S Hb) as [HS ET].
  assert (lmi_data o) as HO by (unfold lmi_data; rewrite E1, E2, E3; exact HD). rewrite <- E1 in HW, HS, ET.
  apply (step_interior o S opt nu o HO HW HS ET HN Hs).
Qed.

(** The Newton block of a constraint with a definite scaling matrix is positive
    semidefinite, and positive on combinations of the constraint matrices that do not
    vanish. *)
Theorem C68_gram : forall o sys y, lmi_data o -> posdef (A := reals) (dl_n o) (dl_W o) ->
  let m := length (dl_mats o) in let g := sc_G (fst (DSchur o true sys)) in
  let G := fun r c => if (c <=? r)%nat then g r c else g c r in
  let q := rsum m (fun i => rsum m (fun j => y i * y j * G i j)) in
  0 <= q /\ ((exists r c, (r < dl_n o)%nat /\ (c < dl_n o)%nat /\ combination m (dl_mat o) (dl_affine o) 0 y r c <> 0) -> 0 < q).
Proof.
  intros o sys y HD HW m g G q. destruct (dgram o sys y HD HW) as [H1 H2]. split; [exact H1|].
  intros (r & c & Hr & Hc & Hn). destruct H1 as [H1|H1]; [exact H1|]. exfalso. apply Hn. unfold combination.
  rewrite Rmult_0_l, Rminus_0_r. apply (H2 (eq_sym H1) r c); auto.
Qed.

(** The reported sums: for every factor [W = F F^T] (there is one), with
    [N = F^T S F] for the slack [S = k C - A y], the trace and the squared Frobenius
    norm reported are those of [N], and the squared norm of a preparation is that of
    [I - N]. *)
Theorem C68_reports : forall o, lmi_data o -> posdef (A := reals) (dl_n o) (dl_W o) ->
  let d := dl_n o in
  (exists F, same_matrix (A := reals) d (dl_W o) (mmul d F (mconj F))) /\
  forall F, same_matrix (A := reals) d (dl_W o) (mmul d F (mconj F)) ->
  let N := fun k y => mmul (A := reals) d (mconj F) (mmul d (mscal (-1) (combination (length (dl_mats o)) (dl_mat o) (dl_affine o) k y)) F) in
  (forall y k, snd (DWeightedSlack o y k) = (inner d mid (N k y), inner d (N k y) (N k y))) /\
  (forall y opt, so_affine opt = false -> let M := madd mid (mscal (-1) (N (so_c_weight opt) y)) in snd (DPrepareStep o opt y) = Some (inner d M M)).
Proof.
  intros o HD HW d. pose proof (as_herm_data o HD) as HD'. pose proof (as_herm_good o HW) as HG. pose proof (laws_cd 0) as L. split.
  - destruct (posdef_factor 0 ltac:(lia) d (dl_W o) HW) as (F & _ & HE). exists F. exact HE.
  - intros F HF N. set (F0 := clip (cd 0) d F).
    assert (cl 0 d (h_W (as_herm o)) = mmul d F0 (mconj F0)) as EW.
    { unfold F0. rewrite <- (clip_conj _ _ L), <- (clip_mul _ _ L). apply clip_same. exact HF. }
    assert (forall k y, clip (cd 0) d (mmul d (mconj F0) (mmul d (mscal (-1) (matrix_of 0 (HNegativeSlack (as_herm o) k y))) F0)) = clip (cd 0) d (N k y)) as EN.
    { intros k y. unfold N, F0. rewrite as_herm_slack, slack_combination. change reals with (cd 0).
      rewrite !(clip_mul _ _ L), !(clip_conj _ _ L), !clip_clip. reflexivity. }
    split.
    + intros y k. rewrite <- as_herm_weighted. change 1%nat with (2 ^ 0)%nat.
      rewrite (weighted_slack 0 ltac:(lia) d false (as_herm o) (as_herm o) y k HD' HG F0 (clip_clip _ _ _) EW).
      change reals with (cd 0). rewrite !inner_minner.
      assert (forall X Y X' Y' : amat (cd 0), clip (cd 0) d X = clip (cd 0) d X' -> clip (cd 0) d Y = clip (cd 0) d Y' -> minner d d X Y = minner d d X' Y') as EI
        by (intros X Y X' Y' H1 H2; rewrite (minner_clip 0 d X Y), H1, H2, <- (minner_clip 0 d); reflexivity).
      f_equal; apply EI; auto.
    + intros y opt Ha M. rewrite <- as_herm_prepare by auto. change 1%nat with (2 ^ 0)%nat.
      rewrite (prepare_norm 0 ltac:(lia) d false (as_herm o) (as_herm o) opt y HD' HG Ha F0 (clip_clip _ _ _) EW). f_equal.
      change reals with (cd 0). rewrite inner_minner, (minner_clip 0 d M M).
      assert (madd (one (cd 0) d) (mmul d (mconj F0) (mmul d (cl 0 d (HNegativeSlack (as_herm o) (so_c_weight opt) y)) F0)) = clip (cd 0) d M) as EM; [|rewrite EM; reflexivity].
      unfold M. rewrite (clip_add _ _ L), (clip_scal _ _ L), <- EN. unfold one. f_equal.
      rewrite !(clip_mul _ _ L), !(clip_conj _ _ L), (clip_scal _ _ L). unfold F0. rewrite clip_clip, (mmul_scal_l _ _ L), (mmul_scal_r _ _ L).
      unfold cl. set (X := mmul d (mconj (clip (cd 0) d F)) _). apply functional_extensionality. intros r. apply functional_extensionality. intros c.
      unfold mscal. cbn [sscal cd reals]. set (x := X r c : R). change (x = -1 * (-1 * x)). ring.
Qed.

(** The affine step turns the multiplier [W] into one with
    [<A_i, W'> = (1 + e) <A_i, W> + (G y)_i - k <C, Q A_i>]: the Newton system solved
    is the system of dual equations. *)
Theorem C68_dual : forall o opt y sys, lmi_data o -> posdef (A := reals) (dl_n o) (dl_W o) -> so_affine opt = true ->
  let s := fst (DSchur o true sys) in let W' := dl_W (fst (DPrepareStep o opt y)) in let m := length (dl_mats o) in
  let G := fun r c => if (c <=? r)%nat then sc_G s r c else sc_G s c r in
  forall i, (i < m)%nat -> inner (A := reals) (dl_n o) (dl_mat o i) W' =
    (1 + so_e_weight opt) * sc_AW s i + rsum m (fun j => G i j * y j) - so_c_weight opt * sc_AQc s i.
Proof. exact dual_equation. Qed.

(** The norm [norminfd] is estimated with [n / 2] iterations, for order 2 with one.  A
    step whose size follows from the estimate may leave the cone, already the first
    one after the reset: here the direction has the eigenvalues 11/10 and -9, the
    estimate is 11/10, a full step is taken, and the new [W] is indefinite. *)
Definition blind_lmi : dense_lmi := mkDenseLmi 2 [two (11 / 10) 0 0] (two 1 0 10) (fun _ _ => 0) (fun _ _ => 0) (fun _ _ => 0).
Lemma blind_slack : forall i j, DNegativeSlack (DSetIdentity blind_lmi) 1 (fun _ => 1) i j = two (1 / 10) 0 (-10) i j.
Proof. intros i j. rewrite C68_slack. unfold combination, dl_mat. cbn. unfold two. destruct i as [|[|i]], j as [|[|j]]; lra. Qed.
Theorem C68_estimate_refuted : exists o0 opt y t o', let o := DSetIdentity o0 in
  lmi_data o0 /\ lmi_history o0 None o /\ so_affine opt = false /\ so_e_weight opt = 1 /\ so_c_weight opt = 1 /\
  PNormInf (dl_n o) (dl_W o) (DNegativeSlack o 1 y) opt t /\ so_step_size opt = Rmin 1 (2 / (t * t)) /\
  DTakeStep (fst (DPrepareStep o opt y)) opt o' /\ ~ posdef (A := reals) (dl_n o) (dl_W o').
Proof.
  set (opt := mkStepOptions false 1 1 1). set (y := fun _ : nat => 1).
  set (E := two (201851 / 67189) 0 (- (59 / 787))).
  exists blind_lmi, opt, y, (11 / 10). eexists. cbv zeta. split; [|split; [constructor|split; [reflexivity|split; [reflexivity|split; [reflexivity|split; [|split; [|split]]]]]]].
  - split; [intros X [<-|[]]|]; apply two_hermitian.
  - exists [1 / 10], [], (1 / 10), (1 / 10). destruct (scalar_extremes (1 / 10)) as [H1 H2]. split; [|split; [auto|split; [auto|]]].
    2: { rewrite norm_from_same. cbn [so_e_weight opt]. rewrite Rabs_pos_eq; lra. }
    assert (DNegativeSlack (DSetIdentity blind_lmi) 1 y = two (1 / 10) 0 (-10)) as -> by (apply functional_extensionality; intros i; apply functional_extensionality; intros j; apply blind_slack).
    cbn [DSetIdentity blind_lmi dl_n dl_W]. unfold PPrepareTridiagonal, PWeightedSlack.
    assert (forall i j, (i < 2)%nat -> (j < 2)%nat -> rprod 2 PSetIdentity (two (1 / 10) 0 (-10)) i j = two (1 / 10) 0 (-10) i j) as EP.
    { intros i j Hi Hj. unfold rprod, PSetIdentity, ridentity, two. cbn [rsum]. destruct i as [|[|]], j as [|[|]]; try lia; cbn; ring. }
    assert (max_index 2 (fun i => rprod 2 PSetIdentity (two (1 / 10) 0 (-10)) i i) = 0%nat) as ->.
    { unfold max_index, for_up. cbn [seq fold_left]. match goal with |- context [Rlt_dec ?a ?a] => destruct (Rlt_dec a a) as [Hr|_]; [exfalso; lra|] end. rewrite !EP by lia. cbn [two]. destruct (Rlt_dec (1 / 10) (-10)); [lra|auto]. }
    unfold ApproximateEigenvalues. change (2 =? 1)%nat with false. cbn iota. change (2 / 2)%nat with 1%nat.
    unfold AsymmetricLanczos, lanczos. cbn zeta. match goal with |- context [Rle_dec (inner_product 2 ?X ?X) 0] => set (V := X) end.
    assert (inner_product 2 V V = 1 / 100) as ->.
    { unfold V, inner_product. cbn [rsum fst snd]. rewrite !EP by lia. unfold PSetIdentity, ridentity, two. cbn [Nat.eqb]. field. }
    destruct (Rle_dec (1 / 100) 0); [lra|]. rewrite (sqrt_of (1 / 100) (1 / 10)) by lra. cbn [lanczos_loop]. do 3 f_equal.
    unfold V, columns_scale, apply_both, inner_product. cbn [rsum fst snd]. rewrite !EP by lia. unfold PSetIdentity, ridentity, two. cbn [Nat.eqb]. field.
  - cbn [so_step_size opt]. replace (2 / (11 / 10 * (11 / 10))) with (200 / 121) by field. rewrite Rmin_left; lra.
  - exists E. split; [|reflexivity]. intros _.
    assert (forall i j, (i < 2)%nat -> (j < 2)%nat -> GeodesicArgument (dl_temp1 (fst (DPrepareStep (DSetIdentity blind_lmi) opt y))) opt i j = two (11 / 10) 0 (-9) i j) as EG.
    { intros i j Hi Hj. cbn [DPrepareStep opt so_affine fst with_temps dl_temp1]. unfold GeodesicArgument. cbn [so_step_size so_e_weight opt]. destruct (Req_EM_T 1 1); [|lra].
      cbn [DSetIdentity blind_lmi dl_n dl_W so_c_weight]. unfold rprod. cbn [rsum]. fold blind_lmi. 
      change (mkDenseLmi 2 [two (11 / 10) 0 0] (two 1 0 10) PSetIdentity (fun _ _ => 0) (fun _ _ => 0)) with (DSetIdentity blind_lmi).
      fold y. rewrite !blind_slack. unfold PSetIdentity, ridentity, two. destruct i as [|[|]], j as [|[|]]; try lia; cbn; lra. }
    set (X := GeodesicArgument _ _) in *. clearbody X. cbn [DPrepareStep opt so_affine fst with_temps dl_n DSetIdentity blind_lmi].
    intros r c Hr Hc. unfold rprod, PadeDenominator, PadeNumerator, odd_powers, even_powers, rprod. cbn [rsum].
    destruct r as [|[|]]; [| |lia]; (destruct c as [|[|]]; [| |lia]); cbn [Nat.eqb]; unfold ridentity; cbn [Nat.eqb]; rewrite !EG by lia; unfold E, two; lra.
  - cbn [DPrepareStep opt so_affine fst with_temps dl_n dl_W DSetIdentity blind_lmi]. intros [_ H]. specialize (H (fun i => if (i =? 1)%nat then 1 else 0)).
    rewrite rform_form in H. unfold rform in H. cbn [rsum Nat.eqb] in H. unfold rprod in H. cbn [rsum] in H. unfold E, PSetIdentity, ridentity, two in H. cbn [Nat.eqb] in H.
    match type of H with _ -> ?P => assert P as H'; [apply H; exists 1%nat; split; [lia|cbn; lra]|] end. lra.
Qed.

(** The query of the slack eigenvalues overwrites the prepared direction: the step
    after it is another one, here it even leaves the cone although the prepared
    direction has norm 1. *)
Theorem C68_stale_refuted : exists o0 opt y o1 o2 o3,
  lmi_data o0 /\ so_affine opt = false /\ o1 = fst (DPrepareStep (DSetIdentity o0) opt y) /\
  norm_at_most (A := reals) (dl_n o0) (dl_W o1) (DNegativeSlack (DSetIdentity o0) (so_c_weight opt) y) (so_e_weight opt) 1 /\ so_step_size opt = 1 /\
  o2 = fst (DWeightedSlack o1 y (so_c_weight opt)) /\ DTakeStep o2 opt o3 /\ ~ posdef (A := reals) (dl_n o0) (dl_W o3).
Proof.
  set (o0 := mkDenseLmi 1 [] (fun _ _ => 2) (fun _ _ => 0) (fun _ _ => 0) (fun _ _ => 0)). set (opt := mkStepOptions false 1 1 1).
  exists o0, opt, (fun _ => 0). eexists. eexists. eexists. split; [|split; [reflexivity|split; [reflexivity|split; [|split; [reflexivity|split; [reflexivity|split]]]]]].
  - split; [intros X []|]. intros r c _ _. reflexivity.
  - intros z. unfold weighted. rewrite !rform_form. unfold rform, mmul. cbn. apply Rabs_le. pose proof (Rle_0_sqr (z 0%nat)). unfold Rsqr in *. unfold PSetIdentity, ridentity, DNegativeSlack, MultByA. cbn. lra.
  - exists (fun _ _ => -169). split; [|reflexivity]. intros _ r c Hr Hc. cbn [DWeightedSlack fst with_temps dl_n DPrepareStep opt so_affine DSetIdentity o0] in *.
    replace r with 0%nat by lia. replace c with 0%nat by lia.
    match goal with |- context [GeodesicArgument ?T opt] => assert (GeodesicArgument T opt 0%nat 0%nat = 5) as EG end.
    { unfold GeodesicArgument. cbn [so_step_size so_e_weight opt]. destruct (Req_EM_T 1 1); [|lra]. cbn [Nat.eqb]. unfold rprod. cbn [rsum dl_temp1 dl_W DNegativeSlack].
      unfold PSetIdentity, ridentity, DNegativeSlack, MultByA. cbn. lra. }
    set (X := GeodesicArgument _ _) in *. clearbody X. unfold rprod, PadeDenominator, PadeNumerator, odd_powers, even_powers, rprod. cbn [rsum Nat.eqb]. unfold ridentity. cbn [Nat.eqb]. rewrite EG. lra.
  - cbn [DWeightedSlack fst with_temps dl_n dl_W DPrepareStep opt so_affine DSetIdentity o0]. intros [_ H]. specialize (H (fun _ => 1)).
    rewrite rform_form in H. unfold rform, rprod, PSetIdentity, ridentity in H. cbn in H.
    match type of H with _ -> ?P => assert P as H'; [apply H; exists 0%nat; split; [lia|cbn; lra]|] end. lra.
Qed.

(** [A_0] exchanges the coordinates, [C] is the identity, [y_0 = 1/2]: the direction
    has norm 1/2. *)
Definition sample_lmi : dense_lmi := mkDenseLmi 2 [two 0 1 0] (two 1 0 1) (fun _ _ => 0) (fun _ _ => 0) (fun _ _ => 0).
Example C68_example : let o := fst (DPrepareStep (DSetIdentity sample_lmi) (mkStepOptions false 1 1 1) (fun _ => 1 / 2)) in
  let S := DNegativeSlack (DSetIdentity sample_lmi) 1 (fun _ => 1 / 2) in
  lmi_data sample_lmi /\ lmi_history sample_lmi (Some S) o /\ norm_at_most (A := reals) (dl_n o) (dl_W o) S 1 (1 / 2) /\ Rabs 1 * (1 / 2) <= sqrt 2 /\
  lmi_data o /\ posdef (A := reals) (dl_n o) (dl_W o) /\ combination 1 (dl_mat o) (dl_affine o) 0 (fun _ => 3) 0%nat 1%nat <> 0 /\
  (exists o', DTakeStep o (mkStepOptions false 1 1 1) o' /\ lmi_history sample_lmi None o') /\
  snd (DPrepareStep (DSetIdentity sample_lmi) (mkStepOptions false 1 1 1) (fun _ => 1 / 2)) = Some (1 / 2).
Proof.
  intros o S.
  assert (lmi_data sample_lmi) as HD by (split; [intros X [<-|[]]|]; apply two_hermitian).
  assert (lmi_history sample_lmi (Some S) o) as HH by (apply (LPrepare sample_lmi None _ (mkStepOptions false 1 1 1)); [constructor|reflexivity]).
  assert (forall i j, S i j = two (-1) (1 / 2) (-1) i j) as ES.
  { intros i j. unfold S. rewrite C68_slack. unfold combination, dl_mat. cbn. unfold two. destruct i as [|[|i]], j as [|[|j]]; lra. }
  assert (norm_at_most (A := reals) (dl_n o) (dl_W o) S 1 (1 / 2)) as HN.
  { intros z. unfold weighted. rewrite !rform_form. unfold rform, mmul. cbn [o DPrepareStep so_affine fst with_temps dl_n dl_W DSetIdentity sample_lmi].
    cbn. rewrite !ES. unfold two, PSetIdentity, ridentity. cbn. pose proof (Rle_0_sqr (z 0%nat - z 1%nat)). pose proof (Rle_0_sqr (z 0%nat + z 1%nat)). unfold Rsqr in *. apply Rabs_le. lra. }
  assert (Rabs 1 * (1 / 2) <= sqrt 2) as Hs.
  { rewrite Rabs_R1. assert (sqrt 1 <= sqrt 2) by (apply sqrt_le_1_alt; lra). rewrite sqrt_1 in *. lra. }
  destruct (C68_interior _ _ _ HD HH) as (HP & _ & _ & _ & HT).
  split; [exact HD|]. split; [exact HH|]. split; [exact HN|]. split; [exact Hs|]. split; [exact HD|]. split; [exact HP|].
  split; [unfold combination, dl_mat; cbn; lra|]. split.
  - destruct (HT S (mkStepOptions false 1 1 1) (1 / 2) eq_refl HN Hs) as (o' & Ho'). exists o'. split; auto.
    apply (LTake sample_lmi S o (mkStepOptions false 1 1 1) (1 / 2)); auto.
  - cbn [DPrepareStep so_affine snd so_c_weight]. fold S. f_equal. unfold PNormSquared. cbn [DSetIdentity sample_lmi dl_n dl_W]. unfold rprod. cbn [rsum]. rewrite !ES.
    unfold two, PSetIdentity, ridentity. cbn. lra.
Qed.
Example C68_dual_example : lmi_data sample_lmi /\ posdef (A := reals) 2 (dl_W (DSetIdentity sample_lmi)) /\ so_affine (mkStepOptions true 0 1 1) = true /\
  dl_W (fst (DPrepareStep (DSetIdentity sample_lmi) (mkStepOptions true 0 1 1) (fun _ => 1 / 2))) 0%nat 1%nat = 1 / 2.
Proof.
  split; [split; [intros X [<-|[]]|]; apply two_hermitian|]. split; [apply identity_posdef|]. split; [reflexivity|].
  unfold DPrepareStep. cbn [so_affine fst dl_W so_e_weight so_c_weight]. unfold PAffineUpdate. destruct (Req_EM_T 0 0); [|lra].
  cbn [DSetIdentity sample_lmi dl_n dl_W]. unfold rprod. cbn [rsum]. unfold DNegativeSlack, MultByA, PSetIdentity, ridentity, two. cbn. lra.
Qed.

Print Assumptions C68_slack.
Print Assumptions C68_newton.
Print Assumptions C68_interior.
Print Assumptions C68_gram.
Print Assumptions C68_reports.
Print Assumptions C68_dual.
Print Assumptions C68_estimate_refuted.
Print Assumptions C68_stale_refuted.
