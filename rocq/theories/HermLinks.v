(** The Hermitian constraints of JordanModel.v on the data of a program: matrices
    are lists of components. *)
From Coq Require Import List Arith Reals Bool Lia Lra FunctionalExtensionality.
From Verif Require Import JordanModel Spec_Hyper HyperFacts JordanProofs JordanInterior JordanSteps JordanSchur HermFactor HermBound HermCone.
From Verif Require Import Base BaseFacts DenseModel RSum KktModel ProgramModel LinearModel SolveModel ConcreteBackend Spec_Linear Spec_Conex RhsProofs SocLinks.
Import ListNotations.
Open Scope R_scope.

(** ** Data *)
Lemma algebra_ok h : associative_algebra h = true <-> exists k, (k <= 2)%nat /\ h = (2 ^ k)%nat.
Proof.
  unfold associative_algebra. rewrite !orb_true_iff, !Nat.eqb_eq. split.
  - intros [[->| ->]| ->]; [exists 0%nat|exists 1%nat|exists 2%nat]; split; auto.
  - intros ([|[|[|k]]] & Hk & ->); cbn; auto; lia.
Qed.
Lemma hermitian_data_ok h n M : hermitian_data h n M = true <-> hermitian_entries h n M.
Proof.
  unfold hermitian_data, hermitian_entries. rewrite !andb_true_iff, Nat.eqb_eq, !forallb_forall, Forall_forall. split.
  - intros [[H1 H2] H3]. split; auto. split.
    + intros X HX. specialize (H2 X HX). apply andb_true_iff in H2 as [H2 H4]. apply Nat.eqb_eq in H2. split; auto.
      apply Forall_forall. intros r Hr. rewrite forallb_forall in H4. apply Nat.eqb_eq. auto.
    + intros t r c Ht Hr Hc. specialize (H3 t ltac:(apply in_seq; lia)). rewrite forallb_forall in H3. specialize (H3 r ltac:(apply in_seq; lia)).
      rewrite forallb_forall in H3. specialize (H3 c ltac:(apply in_seq; lia)).
      destruct (Req_EM_T (ConjugateTranspose (hyper_of M) t r c) (hyper_of M t r c)) as [E|]; [|discriminate].
      unfold ConjugateTranspose, hyper_of in E. unfold component. symmetry. exact E.
  - intros (H1 & H2 & H3). split; [split; auto|].
    + intros X HX. destruct (H2 X HX) as [H4 H5]. apply andb_true_iff. split; [apply Nat.eqb_eq; auto|]. apply forallb_forall. intros r Hr.
      apply Nat.eqb_eq. unfold has_cols in H5. rewrite Forall_forall in H5. auto.
    + intros t Ht. apply in_seq in Ht. apply forallb_forall. intros r Hr. apply in_seq in Hr. apply forallb_forall. intros c Hc. apply in_seq in Hc.
      destruct (Req_EM_T (ConjugateTranspose (hyper_of M) t r c) (hyper_of M t r c)) as [|E]; auto. exfalso. apply E.
      unfold ConjugateTranspose, hyper_of. symmetry. apply (H3 t r c); lia.
Qed.
Lemma entries_hermitian k n M : hermitian_entries (2 ^ k) n M -> hermitian_matrix n (matrix_of k (hyper_of M)).
Proof.
  intros (_ & _ & H) r c Hr Hc. rewrite <- of_conj. unfold matrix_of. apply read_ext. intros t Ht. unfold ConjugateTranspose, hyper_of.
  symmetry. apply (H t r c); auto.
Qed.

Definition old_WS (w : herm_ws) : hyper := match hw_WS w with Some WS => WS | None => Zero end.

Lemma herm_ready_ok h n As C w m o : herm_ready h n As C w m = Ok o ->
  exists k W, (k <= 2)%nat /\ h = (2 ^ k)%nat /\ hw_W w = Some W /\ (0 < n)%nat /\ hw_h w = h /\ hw_n w = n /\ length As = m /\ C <> [] /\
    Forall (hermitian_entries h n) (C :: As) /\ o = herm_of n As C W (old_WS w).
Proof.
  unfold herm_ready. intros H. apply bind_ok in H as (W & EW & H). destruct (hw_W w) as [W'|] eqn:E; [|discriminate]. cbn [written] in EW. injection EW as ->.
  destruct C as [|C0 C]; [discriminate|]. set (CC := C0 :: C) in *.
  destruct (_ || negb _) eqn:Eb in H; [discriminate|]. injection H as <-.
  apply orb_false_iff in Eb as [Eb E5]. apply orb_false_iff in Eb as [Eb E4]. apply orb_false_iff in Eb as [Eb E3].
  apply orb_false_iff in Eb as [Eb E2]. apply orb_false_iff in Eb as [E0 E1].
  apply negb_false_iff in E0, E2, E3, E4, E5. apply Nat.eqb_eq in E2, E3, E4. apply Nat.eqb_neq in E1.
  apply algebra_ok in E0 as (k & Hk & ->). exists k, W. repeat (split; auto; try lia); try discriminate.
  apply Forall_forall. intros M HM. apply hermitian_data_ok. rewrite forallb_forall in E5. auto.
Qed.
Lemma herm_ready_total k n As C w m W : (k <= 2)%nat -> hw_W w = Some W -> (0 < n)%nat -> hw_h w = (2 ^ k)%nat -> hw_n w = n -> length As = m -> C <> [] ->
  Forall (hermitian_entries (2 ^ k) n) (C :: As) -> herm_ready (2 ^ k) n As C w m = Ok (herm_of n As C W (old_WS w)).
Proof.
  intros Hk EW Hn Hh Hw Hm HC HD. unfold herm_ready. rewrite EW. cbn [written bind]. destruct C as [|C0 C]; [congruence|]. set (CC := C0 :: C) in *.
  assert (associative_algebra (2 ^ k) = true) as -> by (apply algebra_ok; eauto). cbn [negb orb].
  destruct (Nat.eqb_spec n 0); [lia|]. rewrite Hh, Hw, Hm, !Nat.eqb_refl. cbn [negb orb].
  assert (forallb (hermitian_data (2 ^ k) n) (CC :: As) = true) as ->; auto.
  apply forallb_forall. intros M HM. apply hermitian_data_ok. rewrite Forall_forall in HD. auto.
Qed.

Lemma herm_data_of k n As C W WS : Forall (hermitian_entries (2 ^ k) n) (C :: As) -> herm_data k n (herm_of n As C W WS).
Proof.
  intros H. rewrite Forall_forall in H. split; cbn [herm_of h_mats h_affine].
  - intros X HX. apply in_map_iff in HX as (M & <- & HM). apply entries_hermitian. apply H. right. auto.
  - apply entries_hermitian. apply H. left. auto.
Qed.

(** The pairing by entries. *)
Lemma inner_trace h n X Y : herm_inner h n X Y = TraceInnerProduct h n n X Y.
Proof.
  unfold herm_inner, TraceInnerProduct. rewrite for_up_sum, Rplus_0_l, rsum_total. apply total_ext. intros t _. rewrite rsum_swap, rsum_total.
  apply total_ext. intros r _. rewrite rsum_total. reflexivity.
Qed.
Lemma inner_entries h n X Y : herm_inner h n X (listed_matrix n (entries h n Y)) = herm_inner h n X Y.
Proof.
  unfold herm_inner. apply total_ext. intros t Ht. apply total_ext. intros r Hr. apply total_ext. intros c Hc. apply in_seq in Ht, Hr, Hc.
  unfold listed_matrix. rewrite entries_nth by lia. auto.
Qed.
Lemma entries_square h n X : total (fun i => nth i (entries h n X) 0 * nth i (entries h n X) 0) (seq 0 (length (entries h n X))) = TraceInnerProduct h n n X X.
Proof.
  rewrite entries_length, entries_total, <- inner_trace. unfold herm_inner. apply total_ext. intros t Ht. apply total_ext. intros r Hr. apply total_ext. intros c Hc.
  apply in_seq in Ht, Hr, Hc. rewrite entries_nth by lia. auto.
Qed.
Lemma matrix_of_same k n X Y : (forall t r c, (t < 2 ^ k)%nat -> (r < n)%nat -> (c < n)%nat -> X t r c = Y t r c) -> same_matrix n (matrix_of k X) (matrix_of k Y).
Proof. intros H r c Hr Hc. unfold matrix_of. apply read_ext. intros t Ht. auto. Qed.

(** ** Scaling points *)
Definition herm_inside (w : herm_ws) : Prop :=
  forall W, hw_W w = Some W -> exists k, (k <= 2)%nat /\ hw_h w = (2 ^ k)%nat /\
    let d := hw_n w in let M := matrix_of k W in
    posdef d M /\ forall WS, hw_WS w = Some WS -> hermitian_matrix d (mmul d (matrix_of k WS) M).

Lemma compat_herm k n WS W : mconj (cl k n W) = cl k n W ->
  (compatible (cd k) n (cl k n WS) (cl k n W) <-> hermitian_matrix n (mmul n (matrix_of k WS) (matrix_of k W))).
Proof.
  intros HW. pose proof (laws_cd k) as L. rewrite (herm_clip (cd k) _ L), (clip_mul _ _ L), (mconj_mul _ _ L).
  change (clip (cd k) n (matrix_of k WS)) with (cl k n WS). change (clip (cd k) n (matrix_of k W)) with (cl k n W). rewrite HW.
  unfold compatible. split; intros E; symmetry; exact E.
Qed.
Lemma pow_inj a b : (2 ^ a = 2 ^ b)%nat -> a = b.
Proof. apply Nat.pow_inj_r. lia. Qed.

(** The states of JordanSteps.v. *)
Lemma inside_good k n As C w W : (k <= 2)%nat -> herm_inside w -> hw_W w = Some W -> hw_h w = (2 ^ k)%nat -> hw_n w = n ->
  good k n true (herm_of n As C W (old_WS w)) (herm_of n As C W (old_WS w)).
Proof.
  intros Hk HI EW Hh Hn. destruct (HI W EW) as (k' & Hk' & Hh' & HP & HS). rewrite Hh in Hh'. apply pow_inj in Hh' as <-. rewrite Hn in *.
  pose proof (laws_cd k) as L. split; [reflexivity|]. do 2 (split; [reflexivity|]). split; [exact HP|]. split.
  - destruct (posdef_factor k Hk n _ HP) as (F & HF & HE). exists F. split; auto. apply clip_same in HE. cbn [herm_of h_W]. unfold cl. rewrite HE.
    rewrite (clip_mul _ _ L), (clip_conj _ _ L), HF. auto.
  - intros _. cbn [herm_of h_WS h_W]. apply compat_herm; [apply cl_herm, HP|]. unfold old_WS. destruct (hw_WS w) as [WS|]; [apply HS; auto|].
    apply compat_herm; [apply cl_herm, HP|].
    assert (Zero = ScalarMultiply Identity 0) as -> by (unfold Zero, ScalarMultiply; apply functional_extensionality; intros t; fext; ring).
    rewrite cl_scal, cl_identity. apply (comp_scal (cd k) _ L), (comp_one (cd k) _ L), cl_clipped.
Qed.
Lemma good_inside k n o0 o b : (k <= 2)%nat -> good k n true o0 o -> herm_inside (mkHermWs (2 ^ k) (h_rank o) (Some (h_W o)) (Some (h_WS o)) b).
Proof.
  intros Hk (H1 & _ & _ & HP & _ & HC) W [= <-]. exists k. cbn [hw_h hw_n hw_WS]. rewrite H1. do 3 (split; [auto|]). intros WS [= <-].
  apply compat_herm; auto. apply cl_herm, HP.
Qed.
Lemma identity_inside k n b : (k <= 2)%nat -> herm_inside (mkHermWs (2 ^ k) n (Some Identity) None b).
Proof.
  intros Hk W [= <-]. exists k. cbn [hw_h hw_n hw_WS]. do 2 (split; [auto|]). split; [|discriminate].
  apply cl_posdef. rewrite cl_identity. apply posdef_one; auto.
Qed.

(** ** Operations *)
(** Sum of the matrices minus a multiple of the affine term. *)
Definition herm_neg (n : nat) (As : list (list matrix)) (C : list matrix) (t : R) (y : list R) : hyper :=
  HNegativeSlack (herm_of n As C Zero Zero) t (fun j => nth j y 0).
Lemma herm_neg_entry n As C t y i r c :
  herm_neg n As C t y i r c = total (fun j => component (nth j As []) i r c * nth j y 0) (seq 0 (length As)) - t * component C i r c.
Proof.
  unfold herm_neg. rewrite (slack_formula 0 (Nat.le_0_l 2) ). cbn [herm_of h_mats h_affine]. rewrite map_length, rsum_total.
  assert (total (fun j => nth j y 0 * nth j (map hyper_of As) Zero i r c) (seq 0 (length As)) = total (fun j => component (nth j As []) i r c * nth j y 0) (seq 0 (length As))) as ->.
  { apply total_ext. intros j Hj. apply in_seq in Hj. rewrite (nth_map_lt _ As j Zero []) by lia. unfold component, hyper_of. ring. }
  unfold component, hyper_of. ring.
Qed.

(** What preparing a step computes; [D] is the direction [I + F^* S F] for the
    scaling [W = F F^*]. *)
Definition herm_stepped (h n : nat) (As : list (list matrix)) (C : list matrix) (t : R) (y : list R) (w w' : herm_ws) (D : hyper) : Prop :=
  exists k W F, (k <= 2)%nat /\ h = (2 ^ k)%nat /\ hw_W w = Some W /\ (0 < n)%nat /\ hw_h w = h /\ hw_n w = n /\ length As = length y /\ C <> [] /\
    Forall (hermitian_entries h n) (C :: As) /\ posdef n (matrix_of k W) /\ clipped (cd k) n F /\ cl k n W = mmul n F (mconj F) /\
    cl k n D = madd (one (cd k) n) (mmul n (mconj F) (mmul n (cl k n (herm_neg n As C t y)) F)) /\
    w' = mkHermWs h n (Some W) (Some (Multiply h n W (herm_neg n As C t y))) (hw_map w).

Lemma herm_prepared h n As C w y o opt : herm_ready h n As C w (length y) = Ok o -> herm_inside w -> so_affine opt = false ->
  exists w' D q', HPrepareStep h o opt (fun j => nth j y 0) = (q', Some (TraceInnerProduct h n n D D)) /\
    herm_memory h q' (hw_map w) = SHerm w' /\ h_WS q' = Multiply h n (h_W o) (herm_neg n As C (so_c_weight opt) y) /\ h_W q' = h_W o /\
    herm_stepped h n As C (so_c_weight opt) y w w' D /\ herm_inside w'.
Proof.
  intros Ho HI Ha. apply herm_ready_ok in Ho as (k & W & Hk & -> & EW & Hn & Hh & Hw & Hl & HC & HD & ->).
  pose proof (inside_good k n As C w W Hk HI EW Hh Hw) as HG. pose proof (herm_data_of k n As C W (old_WS w) HD) as HO.
  set (o := herm_of n As C W (old_WS w)) in *. pose proof HG as (_ & _ & _ & HP & (F & HF1 & HF2) & _).
  pose proof (prepare_norm k Hk n _ _ _ opt (fun j => nth j y 0) HO HG Ha F HF1 HF2) as HN. cbv zeta in HN.
  pose proof (good_prepare k Hk n _ _ _ opt (fun j => nth j y 0) HO HG Ha) as HG'.
  set (D := components k (madd (one (cd k) n) (mmul n (mconj F) (mmul n (cl k n (HNegativeSlack o (so_c_weight opt) (fun j => nth j y 0))) F)))).
  destruct (HPrepareStep (2 ^ k) o opt (fun j => nth j y 0)) as [q' r] eqn:E. cbn [fst snd] in HN, HG'.
  assert (q' = mkHermitian n (h_mats o) (h_affine o) W (Multiply (2 ^ k) n W (herm_neg n As C (so_c_weight opt) y)) (herm_neg n As C (so_c_weight opt) y)) as Eq.
  { unfold HPrepareStep in E. rewrite Ha in E. injection E as <- _. reflexivity. }
  pose proof (laws_cd k) as L.
  assert (cl k n D = madd (one (cd k) n) (mmul n (mconj F) (mmul n (cl k n (herm_neg n As C (so_c_weight opt) y)) F))) as ED.
  { unfold D. unfold cl at 1. rewrite matrix_components. change (HNegativeSlack o (so_c_weight opt) (fun j => nth j y 0)) with (herm_neg n As C (so_c_weight opt) y).
    apply (clipped_add (cd k) _ L); [apply clipped_one|]. apply (clipped_mul (cd k) _ L); [apply (clipped_conj (cd k) _ L); auto|].
    apply (clipped_mul (cd k) _ L); auto. apply cl_clipped. }
  eexists. exists D, q'. split.
  { f_equal. rewrite HN. rewrite (cl_inner k n), ED. reflexivity. }
  split; [reflexivity|]. rewrite Eq. cbn [h_WS h_W h_rank]. split; [reflexivity|]. split; [reflexivity|]. split.
  - exists k, W, F. repeat (split; [solve [auto]|]). auto.
  - pose proof (good_inside k n _ _ (hw_map w) Hk HG') as HI'. rewrite Eq in HI'. exact HI'.
Qed.

Lemma herm_taken h n As C w o opt b : herm_ready h n As C w (length As) = Ok o -> herm_inside w ->
  exists o' w', HTakeStep h o opt = Ok o' /\ herm_memory h o' b = SHerm w' /\ herm_inside w' /\ hw_h w' = h /\ hw_n w' = n /\ hw_map w' = b /\
    exists W' WS', hw_W w' = Some W' /\ hw_WS w' = Some WS'.
Proof.
  intros Ho HI. apply herm_ready_ok in Ho as (k & W & Hk & -> & EW & Hn & Hh & Hw & Hl & HC & HD & ->).
  pose proof (inside_good k n As C w W Hk HI EW Hh Hw) as HG.
  destruct (good_take k Hk n _ _ opt HG) as (o' & E & HG' & _). exists o'. eexists. split; [exact E|]. split; [reflexivity|].
  split; [eapply good_inside; eauto|]. cbn [hw_h hw_n hw_map hw_W hw_WS]. split; [auto|]. split; [apply HG'|]. eauto.
Qed.

(** ** The block *)
Definition mat_of (As : list (list matrix)) (j : nat) : hyper := component (nth j As []).

Lemma herm_block k n As C w m o : (k <= 2)%nat -> herm_ready (2 ^ k) n As C w m = Ok o -> herm_inside w ->
  let q := schur_of (HSchur (2 ^ k) o true blank) m in
  exists W, hw_W w = Some W /\ length As = m /\ length (r_AW (sc_rhs q)) = m /\ length (r_AQc (sc_rhs q)) = m /\
    (forall i j, (j <= i < m)%nat -> sc_G q i j = minner n n (cl k n (mat_of As i)) (mmul n (cl k n W) (mmul n (cl k n (mat_of As j)) (cl k n W)))) /\
    (forall i j, (i < m)%nat -> (j < m)%nat ->
       minner n n (cl k n (mat_of As i)) (mmul n (cl k n W) (mmul n (cl k n (mat_of As j)) (cl k n W))) =
       minner n n (cl k n (mat_of As j)) (mmul n (cl k n W) (mmul n (cl k n (mat_of As i)) (cl k n W)))) /\
    (forall a, (a < m)%nat -> nth a (r_AW (sc_rhs q)) 0 = minner n n (cl k n (mat_of As a)) (cl k n W)) /\
    (forall a, (a < m)%nat -> nth a (r_AQc (sc_rhs q)) 0 = minner n n (cl k n (component C)) (mmul n (cl k n W) (mmul n (cl k n (mat_of As a)) (cl k n W)))) /\
    r_wc (sc_rhs q) = minner n n (cl k n (component C)) (cl k n W) /\
    r_cQc (sc_rhs q) = minner n n (cl k n (component C)) (mmul n (cl k n W) (mmul n (cl k n (component C)) (cl k n W))).
Proof.
  intros Hk Ho HI. apply herm_ready_ok in Ho as (k' & W & Hk' & E & EW & Hn & Hh & Hw & Hl & HC & HD & ->). apply pow_inj in E as <-. cbv zeta.
  pose proof (inside_good k n As C w W Hk HI EW Hh Hw) as HG. pose proof (herm_data_of k n As C W (old_WS w) HD) as HO.
  set (o := herm_of n As C W (old_WS w)) in *. pose proof HG as (_ & _ & _ & HP & (F & HF1 & HF2) & _).
  destruct (schur_spec (2 ^ k) o true blank) as (S1 & _ & S3 & S4 & S5). pose proof (laws_cd k) as L.
  assert (length (h_mats o) = m) as Hm by (cbn [o herm_of h_mats]; rewrite map_length; auto). rewrite Hm in *.
  assert (forall j, (j < m)%nat -> nth j (h_mats o) Zero = mat_of As j) as HM.
  { intros j Hj. cbn [o herm_of h_mats]. rewrite (nth_map_lt _ As j Zero []) by lia. reflexivity. }
  assert (forall j, (j < m)%nat -> mconj (cl k n (mat_of As j)) = cl k n (mat_of As j)) as HH.
  { intros j Hj. rewrite <- HM by auto. apply nth_herm; auto. }
  change (h_rank o) with n in *. change (h_W o) with W in *. change (h_affine o) with (component C) in *. cbn [put] in *.
  exists W. split; auto. split; auto. cbn [schur_of sc_rhs r_AW r_AQc LinearModel.sc_G r_wc r_cQc]. rewrite !map_length, !seq_length. do 2 (split; [auto|]).
  assert (forall i, (i < m)%nat -> cl k n (waw (2 ^ k) o i) = mmul n (cl k n W) (mmul n (cl k n (mat_of As i)) (cl k n W))) as HWA.
  { intros i Hi. rewrite (cl_waw k Hk n o i eq_refl), HM by auto. reflexivity. }
  split. { intros i j Hij. unfold schur_of. cbn [LinearModel.sc_G]. rewrite S1 by auto. rewrite (cl_inner k n), HWA, HM by lia. reflexivity. }
  split. { intros i j Hi Hj. rewrite HF2. rewrite !(sandwich k Hk) by auto. apply minner_sym. }
  split. { intros a Ha. rewrite (nth_map_lt _ _ a 0 0%nat) by (rewrite seq_length; auto). rewrite seq_nth by auto. cbn [Nat.add].
    rewrite (proj1 (S3 a Ha)). unfold awi. assert ((2 ^ k =? 8)%nat = false) as -> by (destruct k as [|[|[|]]]; auto; lia).
    unfold HWAW. assert ((2 ^ k =? 8)%nat = false) as -> by (destruct k as [|[|[|]]]; auto; lia). cbn [fst].
    change (h_rank o) with n. change (h_W o) with W. rewrite HM by auto. rewrite (cl_trace k n), (cl_mul k Hk n). rewrite (minner_retr (cd k) _ L), HH by auto. reflexivity. }
  split. { intros a Ha. rewrite (nth_map_lt _ _ a 0 0%nat) by (rewrite seq_length; auto). rewrite seq_nth by auto. cbn [Nat.add].
    rewrite (proj2 (S3 a Ha)), (cl_inner k n), HWA by auto. reflexivity. }
  split. { rewrite S4, (cl_inner k n). reflexivity. }
  rewrite S5, (cl_inner k n), cl_quad by auto. reflexivity.
Qed.

(** The dual matrix, up to scale. *)
Definition herm_dual (h n : nat) (W WS : hyper) : hyper := Add (ScalarMultiply W 2) (Multiply h n WS W).

(** The pairing with the slack. *)
Lemma neg_inner k n As C t y Z : minner n n (cl k n (herm_neg n As C t y)) Z =
  total (fun j => nth j y 0 * minner n n (cl k n (mat_of As j)) Z) (seq 0 (length As)) - t * minner n n (cl k n (component C)) Z.
Proof.
  pose proof (laws_cd k) as L.
  set (P := components k Z).
  assert (forall X, minner n n (cl k n X) Z = herm_inner (2 ^ k) n X P) as E.
  { intros X. rewrite inner_trace, of_trace, (minner_clip k n). unfold P. rewrite matrix_components. rewrite (minner_clip k n (matrix_of k X)). unfold cl. rewrite clip_clip. reflexivity. }
  rewrite !E. rewrite (total_ext _ (fun j => nth j y 0 * herm_inner (2 ^ k) n (mat_of As j) P)) by (intros; rewrite E; reflexivity).
  assert (herm_inner (2 ^ k) n (herm_neg n As C t y) P = rsum (2 ^ k) (fun u => rsum n (fun r => rsum n (fun c => herm_neg n As C t y u r c * P u r c)))) as ->.
  { unfold herm_inner. rewrite rsum_total. apply total_ext. intros u _. rewrite rsum_total. apply total_ext. intros r _. rewrite rsum_total. reflexivity. }
  assert (forall X, herm_inner (2 ^ k) n X P = rsum (2 ^ k) (fun u => rsum n (fun r => rsum n (fun c => X u r c * P u r c)))) as HI.
  { intros X. unfold herm_inner. rewrite rsum_total. apply total_ext. intros u _. rewrite rsum_total. apply total_ext. intros r _. rewrite rsum_total. reflexivity. }
  rewrite <- rsum_total. rewrite HI. erewrite (rsum_ext (length As)) by (intros j _; rewrite HI; reflexivity).
  erewrite (rsum_ext (length As)) by (intros j _; rewrite <- rsum_scal; reflexivity). rewrite (rsum_swap (length As)).
  unfold Rminus. rewrite Ropp_mult_distr_l, <- rsum_scal, <- rsum_plus. apply rsum_ext. intros u _.
  erewrite (rsum_ext (length As)) by (intros j _; rewrite <- rsum_scal; reflexivity). rewrite (rsum_swap (length As)).
  rewrite <- rsum_scal, <- rsum_plus. apply rsum_ext. intros r _.
  erewrite (rsum_ext (length As)) by (intros j _; rewrite <- rsum_scal; reflexivity). rewrite (rsum_swap (length As)).
  rewrite <- rsum_scal, <- rsum_plus. apply rsum_ext. intros c _. rewrite herm_neg_entry, <- rsum_total.
  unfold Rminus. rewrite Rmult_plus_distr_r, (Rmult_comm (rsum _ _)), <- rsum_scal. f_equal; [|ring]. apply rsum_ext. intros j _. unfold mat_of. ring.
Qed.

Lemma herm_gradient h n As C t z (u : nat -> R) w w' D m o a : herm_stepped h n As C t z w w' D -> (forall b, (b < m)%nat -> nth b z 0 = u b) -> (a < m)%nat ->
  herm_ready h n As C w m = Ok o -> herm_inside w ->
  exists W WS, hw_W w' = Some W /\ hw_WS w' = Some WS /\ hw_h w' = h /\ hw_n w' = n /\
    herm_inner h n (component (nth a As [])) (listed_matrix n (entries h n (herm_dual h n W WS))) =
    total (fun b => sc_G (schur_of (HSchur h o true blank) m) (Nat.max a b) (Nat.min a b) * u b) (seq 0 m)
    - t * nth a (r_AQc (sc_rhs (schur_of (HSchur h o true blank) m))) 0 + 2 * nth a (r_AW (sc_rhs (schur_of (HSchur h o true blank) m))) 0.
Proof.
  intros (k & W & F & Hk & -> & EW & Hn & Hh & Hw & Hl & HC & HD & HP & HF1 & HF2 & _ & ->) HV Ha Ho HI.
  cbn [hw_W hw_WS hw_h hw_n]. exists W, (Multiply (2 ^ k) n W (herm_neg n As C t z)). do 4 (split; [auto|]).
  destruct (herm_block k n As C w m o Hk Ho HI) as (W' & B1 & B2 & B3 & B4 & B5 & B6 & B7 & B8 & _). rewrite EW in B1. injection B1 as <-.
  rewrite inner_entries, inner_trace, (cl_inner k n). unfold herm_dual. rewrite cl_add, cl_scal, !cl_mul by auto.
  pose proof (laws_cd k) as L. pose proof (assoc_cd k Hk) as HA. rewrite (mmul_assoc _ _ L HA).
  rewrite (minner_add_r k n), (minner_scal_r k n). rewrite (B7 a Ha). fold (mat_of As a).
  pose proof (herm_data_of k n As C W (old_WS w) HD) as HO.
  assert (mconj (cl k n (mat_of As a)) = cl k n (mat_of As a)) as HHa.
  { pose proof (nth_herm k Hk n (herm_of n As C W (old_WS w)) a HO) as E. cbn [herm_of h_mats] in E. rewrite (nth_map_lt _ As a Zero []) in E by lia. exact E. }
  assert (mconj (cl k n (herm_neg n As C t z)) = cl k n (herm_neg n As C t z)) as HHn.
  { unfold herm_neg. apply slack_hermitian. apply herm_data_of. auto. }
  assert (minner n n (cl k n (mat_of As a)) (mmul n (cl k n W) (mmul n (cl k n (herm_neg n As C t z)) (cl k n W))) =
    minner n n (cl k n (herm_neg n As C t z)) (mmul n (cl k n W) (mmul n (cl k n (mat_of As a)) (cl k n W)))) as ->.
  { rewrite HF2. rewrite !(sandwich k Hk) by auto. apply minner_sym. }
  rewrite neg_inner. rewrite (B8 a Ha), B2.
  rewrite (total_ext _ (fun b => sc_G (schur_of (HSchur (2 ^ k) o true blank) m) (Nat.max a b) (Nat.min a b) * u b)); [ring|].
  intros b Hb. apply in_seq in Hb. rewrite HV by lia.
  destruct (Nat.max_spec a b) as [[M ->]|[M ->]]; destruct (Nat.min_spec a b) as [[N ->]|[N ->]]; try lia.
  - rewrite B5 by lia. ring.
  - rewrite B5 by lia. rewrite (B6 b a) by lia. ring.
Qed.

(** The gap and the cones. *)
Lemma herm_result h n As C t z w w' D : herm_stepped h n As C t z w w' D ->
  exists W WS, hw_W w' = Some W /\ hw_WS w' = Some WS /\ hw_h w' = h /\ hw_n w' = n /\
    herm_inner h n (herm_neg n As C t z) (herm_dual h n W WS) = TraceInnerProduct h n n D D - INR n /\
    (TraceInnerProduct h n n D D <= 1 -> herm_psd h n (herm_dual h n W WS) /\ herm_psd h n (fun u r c => - herm_neg n As C t z u r c)) /\
    (TraceInnerProduct h n n D D < 1 -> herm_pd h n (herm_dual h n W WS) /\ herm_pd h n (fun u r c => - herm_neg n As C t z u r c)).
Proof.
  intros (k & W & F & Hk & -> & EW & Hn & Hh & Hw & Hl & HC & HD & HP & HF1 & HF2 & ED & ->). cbn [hw_W hw_WS hw_h hw_n].
  exists W, (Multiply (2 ^ k) n W (herm_neg n As C t z)). do 4 (split; [auto|]). set (S0 := herm_neg n As C t z) in *.
  pose proof (laws_cd k) as L.
  assert (mconj (cl k n S0) = cl k n S0) as HH. { unfold S0, herm_neg. apply slack_hermitian. apply herm_data_of. auto. }
  assert (posdef n (mmul n F (mconj F))) as HPF by (rewrite <- HF2; apply (cl_posdef k n); auto).
  assert (cl k n (herm_dual (2 ^ k) n W (Multiply (2 ^ k) n W S0)) =
    madd (mscal 2 (mmul n F (mconj F))) (mmul n (mmul n (mmul n F (mconj F)) (cl k n S0)) (mmul n F (mconj F)))) as EX.
  { unfold herm_dual. rewrite cl_add, cl_scal, !cl_mul, HF2 by auto. reflexivity. }
  assert (cl k n (fun u r c => - S0 u r c) = mscal (-1) (cl k n S0)) as EM.
  { rewrite <- cl_scal. unfold cl. f_equal. apply functional_extensionality. intros r. apply functional_extensionality. intros c.
    unfold matrix_of. apply read_ext. intros u _. unfold ScalarMultiply. ring. }
  assert (forall X, possemidef n (cl k n X) -> possemidef n (matrix_of k X)) as PS.
  { intros X [P1 P2]. split.
    - apply (herm_clip (cd k) _ L) in P1. unfold cl in P1. rewrite clip_clip in P1. apply (herm_clip (cd k) _ L). exact P1.
    - intros v. rewrite <- (form_clip (cd k) n). apply P2. }
  destruct (scaled_cone k Hk n F (cl k n S0) HF1 HH HPF) as [C1 C2].
  rewrite inner_trace, !(cl_inner k n), EX, ED. split; [apply (scaled_gap k Hk n F (cl k n S0)); auto; apply cl_clipped|].
  rewrite <- EX, <- EM in C1, C2. split; intros H.
  - destruct (C1 H) as [K1 K2]. split; exists k; do 2 (split; [auto|]); apply PS; auto.
  - destruct (C2 H) as [K1 K2]. split; exists k; do 2 (split; [auto|]); apply (cl_posdef k n); auto.
Qed.

(** The same from bounds on the pencil of [W S W] and [W]. *)
Lemma herm_pencil k n As C t y W : (k <= 2)%nat -> Forall (hermitian_entries (2 ^ k) n) (C :: As) -> posdef n (matrix_of k W) ->
  let S0 := herm_neg n As C t y in let M := matrix_of k in let X := herm_dual (2 ^ k) n W (Multiply (2 ^ k) n W S0) in
  hermitian_matrix n (M S0) /\ same_matrix n (M (Multiply (2 ^ k) n W S0)) (mmul n (M W) (M S0)) /\
  ((forall z, - 2 * form n (M W) z <= form n (mmul n (mmul n (M W) (M S0)) (M W)) z <= 0) ->
     herm_psd (2 ^ k) n X /\ herm_psd (2 ^ k) n (fun u r c => - S0 u r c)) /\
  ((forall z, nz (cd k) n z -> - 2 * form n (M W) z < form n (mmul n (mmul n (M W) (M S0)) (M W)) z < 0) ->
     herm_pd (2 ^ k) n X /\ herm_pd (2 ^ k) n (fun u r c => - S0 u r c)).
Proof.
  intros Hk HD HP S0 M X. pose proof (laws_cd k) as L.
  assert (mconj (cl k n S0) = cl k n S0) as HH. { unfold S0, herm_neg. apply slack_hermitian. apply herm_data_of. auto. }
  split; [apply cl_herm; exact HH|].
  split. { apply clip_same. rewrite (clip_mul _ _ L). exact (cl_mul k Hk n W S0). }
  destruct (posdef_factor k Hk n _ HP) as (F & HF1 & HE). apply clip_same in HE.
  assert (cl k n W = mmul n F (mconj F)) as HF2. { unfold cl. rewrite HE, (clip_mul _ _ L), (clip_conj _ _ L), HF1. auto. }
  assert (posdef n (mmul n F (mconj F))) as HPF by (rewrite <- HF2; apply (cl_posdef k n); auto).
  assert (cl k n X = madd (mscal 2 (mmul n F (mconj F))) (mmul n (mmul n (mmul n F (mconj F)) (cl k n S0)) (mmul n F (mconj F)))) as EX.
  { unfold X, herm_dual. rewrite cl_add, cl_scal, !cl_mul, HF2 by auto. reflexivity. }
  assert (cl k n (fun u r c => - S0 u r c) = mscal (-1) (cl k n S0)) as EM.
  { rewrite <- cl_scal. unfold cl. f_equal. apply functional_extensionality. intros r. apply functional_extensionality. intros c.
    unfold matrix_of. apply read_ext. intros u _. unfold ScalarMultiply. ring. }
  assert (forall Y, possemidef n (cl k n Y) -> possemidef n (matrix_of k Y)) as PS.
  { intros Y [P1 P2]. split.
    - apply (herm_clip (cd k) _ L) in P1. unfold cl in P1. rewrite clip_clip in P1. apply (herm_clip (cd k) _ L). exact P1.
    - intros v. rewrite <- (form_clip (cd k) n). apply P2. }
  assert (forall z, form n (M W) z = form n (mmul n F (mconj F)) z) as EW.
  { intros z. rewrite <- HF2. unfold cl. rewrite (form_clip (cd k)). reflexivity. }
  assert (forall z, form n (mmul n (mmul n (M W) (M S0)) (M W)) z = form n (mmul n (mmul n F (mconj F)) (mmul n (cl k n S0) (mmul n F (mconj F)))) z) as EWS.
  { intros z. rewrite <- (form_clip (cd k) n), !(clip_mul _ _ L). change (clip (cd k) n (M W)) with (cl k n W). change (clip (cd k) n (M S0)) with (cl k n S0).
    rewrite HF2. rewrite (mmul_assoc _ _ L (assoc_cd k Hk) n (mmul n F (mconj F))). reflexivity. }
  destruct (scaled_pencil k Hk n F (cl k n S0) HF1 HH HPF) as [C1 C2].
  rewrite <- EX, <- EM in C1, C2. split; intros H.
  - destruct C1 as [K1 K2]; [intros z; rewrite <- EW, <- EWS; apply H|]. split; exists k; do 2 (split; [auto|]); apply PS; auto.
  - destruct C2 as [K1 K2]; [intros z Hz; rewrite <- EW, <- EWS; apply H; auto|]. split; exists k; do 2 (split; [auto|]); apply (cl_posdef k n); auto.
Qed.
