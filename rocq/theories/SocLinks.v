(** The second-order cone operations of SocModel.v on the data of a program:
    columns and affine terms are lists. *)
From Coq Require Import List Arith Reals Bool Lia Lra.
From Verif Require Import JordanModel SocModel Spec_Soc Spec_SocSteps SocAlgebra SocProofs SocCone SocNewton.
From Verif Require Import Base BaseFacts DenseModel RSum KktModel ProgramModel LinearModel ConcreteBackend Spec_Linear RhsProofs.
Import ListNotations.
Open Scope R_scope.

Definition list_of (n : nat) (x : spin) : list R := fst x :: map (snd x) (seq 0 n).
Lemma list_of_length n x : length (list_of n x) = (n + 1)%nat.
Proof. unfold list_of. cbn. rewrite map_length, seq_length. lia. Qed.
Lemma list_of_zero n x : nth 0 (list_of n x) 0 = fst x.
Proof. reflexivity. Qed.
Lemma list_of_nth n x i : (i < n)%nat -> nth (S i) (list_of n x) 0 = snd x i.
Proof.
  intros H. cbn. rewrite (nth_map_lt _ _ i 0 0%nat) by (rewrite seq_length; auto). rewrite seq_nth; auto.
Qed.
Lemma list_of_ext n x y : same n x y -> list_of n x = list_of n y.
Proof.
  intros [H0 H1]. unfold list_of. f_equal; auto. apply map_ext_in. intros i Hi. apply in_seq in Hi. apply H1. lia.
Qed.

Lemma rsum_total n f : rsum n f = total f (seq 0 n).
Proof.
  induction n as [|n IH]; [reflexivity|]. rewrite seq_S, total_app. cbn [rsum]. rewrite IH. unfold total at 3. cbn. lra.
Qed.
Lemma total_succ n (f : nat -> R) : total f (seq 0 (n + 1)) = f 0%nat + total (fun k => f (S k)) (seq 0 n).
Proof. rewrite Nat.add_1_r. cbn [seq]. rewrite <- seq_shift. unfold total at 1. cbn [fold_right]. f_equal. apply total_map. Qed.

(** The entries [k = 0 .. n] of an element. *)
Definition entry_of (x : spin) (k : nat) : R := match k with O => fst x | S i => snd x i end.
Lemma list_of_entry n x k : (k < n + 1)%nat -> nth k (list_of n x) 0 = entry_of x k.
Proof. intros H. destruct k; [reflexivity|]. apply list_of_nth. lia. Qed.
Lemma entry_spin l k : entry_of (spin_of l) k = nth k l 0.
Proof. destruct k; reflexivity. Qed.

Lemma inner_entries n x y : inner (euclid n) x y = total (fun k => entry_of x k * entry_of y k) (seq 0 (n + 1)).
Proof. rewrite total_succ. unfold inner, euclid. rewrite rsum_total. reflexivity. Qed.
Lemma inner_lists n a x : inner (euclid n) (spin_of a) x = total (fun k => nth k a 0 * nth k (list_of n x) 0) (seq 0 (n + 1)).
Proof.
  rewrite inner_entries. apply total_ext. intros k Hk. apply in_seq in Hk. rewrite entry_spin, list_of_entry by lia. reflexivity.
Qed.
Lemma sdotp_inner n x y : sdotp n x y = inner (euclid n) x y.
Proof. reflexivity. Qed.
Lemma inner_cons a x b y n : inner (euclid (S n)) (a, x) (b, y) = a * b + (x 0%nat * y 0%nat + rsum n (fun i => x (S i) * y (S i))).
Proof.
  unfold inner, euclid. cbn [fst snd]. rewrite !rsum_total. rewrite <- Nat.add_1_r, total_succ. reflexivity.
Qed.

(** ** Steps to the border of the cone *)

Section Border.
  Variables (n : nat) (B : vec -> vec -> R).
  Hypothesis F : form n B.

  Lemma qr_cone_inv s y : det B s <> 0 -> cone B (qr B s y) -> cone B y.
  Proof.
    intros HD H. set (t := (fst s, fun i => -1 * snd s i) : elem). apply (qr_cone n B F t) in H.
    assert (inner B t (qr B s y) = det B s * inner B s y) as E1.
    { unfold t, inner, qr. cbn [fst snd]. rewrite (B_scal n B F), (B_lin_r n B F). unfold det, inner. ring. }
    assert (det B t = det B s) as E2.
    { unfold t, det. cbn [fst snd]. rewrite (B_scal n B F), (B_scal_r n B F). ring. }
    assert (fst (qr B t (qr B s y)) = det B s * det B s * fst y) as E3.
    { unfold qr at 1. cbn [fst]. rewrite E1, E2. unfold t, qr. cbn [fst]. ring. }
    assert (B (snd (qr B t (qr B s y))) (snd (qr B t (qr B s y))) = det B s * det B s * (det B s * det B s * B (snd y) (snd y))) as E4.
    { rewrite (B_ext n B F _ (fun i => det B s * det B s * snd y i) _ (fun i => det B s * det B s * snd y i));
        [|intros i Hi; unfold qr at 1; cbn [snd]; rewrite E1, E2; unfold t, qr; cbn [snd]; ring
         |intros i Hi; unfold qr at 1; cbn [snd]; rewrite E1, E2; unfold t, qr; cbn [snd]; ring].
      rewrite (B_scal n B F), (B_scal_r n B F). ring. }
    destruct H as [H0 H1]. rewrite E3 in H0, H1. rewrite E4 in H1. assert (0 < det B s * det B s) as HP by nra.
    set (q := det B s * det B s) in *. split.
    - apply (Rmult_le_reg_l q); auto. rewrite Rmult_0_r. auto.
    - assert (0 < q * q) by nra. apply (Rmult_le_reg_l (q * q)); auto. lra.
  Qed.

  Lemma near_cone s sl : interior B s ->
    let d := direction B s sl in Rabs (fst d + enorm B d) <= 1 -> Rabs (fst d - enorm B d) <= 1 ->
    cone B sl /\ cone B (dual_point B s d).
  Proof.
    intros Hs d H0 H1. pose proof (enorm_pos B d) as HP.
    assert (-1 <= fst d - enorm B d /\ fst d + enorm B d <= 1) as [L U].
    { split; [pose proof (Rle_abs (- (fst d - enorm B d))) as E; rewrite Rabs_Ropp in E; lra|pose proof (Rle_abs (fst d + enorm B d)); lra]. }
    assert (det B s <> 0) as HD by (apply interior_det_ne; auto).
    split.
    - apply (qr_cone_inv s); auto. apply (cone_evs n B F).
      assert (fst (qr B s sl) = 1 - fst d) as -> by (unfold d, direction; rewrite (quadrep_eq n) by auto; cbn [fst jsub jone]; ring).
      assert (enorm B (qr B s sl) = enorm B d) as ->; [|lra].
      unfold enorm. f_equal. unfold d, direction. rewrite (quadrep_eq n) by auto. cbn [snd jsub jone].
      rewrite (B_ext n B F (fun i => 0 - snd (qr B s sl) i) (fun i => -1 * snd (qr B s sl) i) _ (fun i => -1 * snd (qr B s sl) i)) by (intros; ring).
      rewrite (B_scal n B F), (B_scal_r n B F). ring.
    - unfold dual_point. rewrite (quadrep_eq n) by auto. apply (qr_cone n B F). apply (cone_evs n B F).
      cbn [fst jadd jone]. assert (enorm B (jadd jone d) = enorm B d) as ->; [|lra].
      unfold enorm. f_equal. apply (B_ext n B F); intros; cbn; ring.
  Qed.
End Border.

(** ** The operations *)

Lemma soc_ready_ok n A c w m o : soc_ready n A c w m = Ok o ->
  exists W, sw_W w = Some W /\ (0 < n)%nat /\ sw_n w = n /\ length A = m /\
    o = soc_of n A c W (match sw_d w with Some d => d | None => (0, fun _ => 0) end).
Proof.
  unfold soc_ready. intros H. apply bind_ok in H as (W & EW & H). destruct (sw_W w) as [W'|] eqn:E; [|discriminate]. injection EW as ->.
  destruct (Nat.eqb_spec n 0); [discriminate|]. destruct (Nat.eqb_spec (sw_n w) n); [|discriminate].
  destruct (Nat.eqb_spec (length A) m); [|discriminate]. injection H as <-. exists W. repeat split; auto. lia.
Qed.
Lemma soc_ready_total n A c w m W : sw_W w = Some W -> (0 < n)%nat -> sw_n w = n -> length A = m ->
  soc_ready n A c w m = Ok (soc_of n A c W (match sw_d w with Some d => d | None => (0, fun _ => 0) end)).
Proof.
  intros E H1 H2 H3. unfold soc_ready. rewrite E. cbn [written bind]. destruct (Nat.eqb_spec n 0); [lia|].
  rewrite H2, H3, !Nat.eqb_refl. reflexivity.
Qed.

Definition soc_columns (A : matrix) : nat -> spin := fun j => spin_of (nth j A []).
Definition soc_slack (A : matrix) (c : list R) (k : R) (y : list R) : spin :=
  slack (length A) (soc_columns A) (spin_of c) k (fun j => nth j y 0).

Lemma cone_or n x : cone (euclid n) x \/ ~ cone (euclid n) x.
Proof. rewrite (cone_evs n _ (euclid_form n)). destruct (Rle_dec 0 (fst x - enorm (euclid n) x)); auto. Qed.

(** What preparing a step computes. *)
Definition soc_stepped (n : nat) (A : matrix) (c : list R) (k : R) (y : list R) (w w' : soc_ws) (d : spin) : Prop :=
  exists W s, sw_W w = Some W /\ (0 < n)%nat /\ sw_n w = n /\ length A = length y /\ c <> [] /\
    cone (euclid n) W /\ applied n (euclid n) sqrt W s /\ d = direction (euclid n) s (soc_slack A c k y) /\
    w' = mkSocWs n (Some s) (Some d).

Lemma soc_prepared n A c w k y o q r : soc_ready n A c w (length y) = Ok o ->
  SPrepareStep o k (fun j => nth j y 0) = Ok (q, r) ->
  exists w' d, soc_memory q = SSoc w' /\ soc_stepped n A c k y w w' d /\ r = (SNormInf n d, 2 * inner (euclid n) d d).
Proof.
  intros H1 H2. apply soc_ready_ok in H1 as (W & EW & Hn & Hs & Hl & ->).
  set (d0 := match sw_d w with Some d => d | None => _ end) in *.
  destruct c as [|c0 c]. { exfalso. discriminate H2. }
  destruct (cone_or n W) as [HC|HC].
  - destruct (soc_prepare_ok (soc_of n A (c0 :: c) W d0) k (fun j => nth j y 0) (spin_of (c0 :: c)) eq_refl HC) as (s & Ha & E).
    cbn [so_n so_m so_A so_W soc_of] in Ha, E. cbv zeta in E. rewrite E in H2. injection H2 as <- <-.
    eexists. eexists. split; [reflexivity|]. split; [|reflexivity].
    exists W, s. do 4 (split; [auto|]). split; [discriminate|]. split; [exact HC|]. split; [exact Ha|]. auto.
  - exfalso. unfold SPrepareStep in H2. apply bind_ok in H2 as (ms & _ & H2). cbn [so_n so_W soc_of] in H2.
    rewrite (SSqrt_none n W HC) in H2. discriminate.
Qed.

Lemma soc_prepare_total n A c w k y W : sw_W w = Some W -> (0 < n)%nat -> sw_n w = n -> length A = length y -> c <> [] ->
  cone (euclid n) W -> exists o q r, soc_ready n A c w (length y) = Ok o /\ SPrepareStep o k (fun j => nth j y 0) = Ok (q, r).
Proof.
  intros EW Hn Hs Hl Hc HC. eexists. rewrite (soc_ready_total n A c w (length y) W) by auto.
  set (d0 := match sw_d w with Some d => d | None => _ end) in *. destruct c as [|c0 c]; [congruence|].
  destruct (soc_prepare_ok (soc_of n A (c0 :: c) W d0) k (fun j => nth j y 0) (spin_of (c0 :: c)) eq_refl HC) as (s & Ha & E).
  eexists. eexists. split; [reflexivity|]. exact E.
Qed.

(** The norm bounds both eigenvalues of the direction. *)
Lemma norm_bounds n d : Rabs (fst d + enorm (euclid n) d) <= SNormInf n d /\ Rabs (fst d - enorm (euclid n) d) <= SNormInf n d /\ 0 <= SNormInf n d.
Proof.
  destruct (SNormInf_ok n d) as (H1 & H2 & _). pose proof (Rabs_pos (fst d + enorm (euclid n) d)). repeat split; lra.
Qed.

(** Taking a step from an interior scaling point. *)
Lemma soc_taken n A c w m o step : soc_ready n A c w m = Ok o ->
  exists W W' d', sw_W w = Some W /\ sw_n w = n /\ soc_memory (STakeStep o step) = SSoc (mkSocWs n (Some W') (Some d')) /\
    (interior (euclid n) W -> interior (euclid n) W').
Proof.
  intros H. apply soc_ready_ok in H as (W & EW & Hn & Hs & Hl & ->). exists W. eexists. eexists. split; [auto|]. split; [auto|].
  split; [reflexivity|]. intros HW. pose proof (euclid_form n) as F. unfold STakeStep, soc_state. cbn [so_n so_W so_d soc_of]. rewrite SQuadRep_qr.
  apply (qr_interior n _ F); [apply (interior_det_ne _ _ HW)|]. eapply (exp_interior n _ F). apply SExp_ok.
Qed.

Lemma soc_stepped_interior n A c k y w w' d : soc_stepped n A c k y w w' d ->
  (forall W, sw_W w = Some W -> interior (euclid (sw_n w)) W) -> forall s, sw_W w' = Some s -> interior (euclid (sw_n w')) s.
Proof.
  intros (W & s & E & Hn & Hs & Hl & Hc & HC & Ha & Hd & ->) H s' [= <-]. cbn [sw_n]. specialize (H _ E). rewrite Hs in H.
  eapply (sqrt_interior n _ (euclid_form n)); eauto.
Qed.

(** ** The block of a second-order cone *)

Lemma soc_block n A c w m o q : soc_ready n A c w m = Ok o -> soc_schur o m = Ok q ->
  exists W, sw_W w = Some W /\ sw_n w = n /\ length A = m /\ (0 < n)%nat /\ c <> [] /\ cone (euclid n) W /\
    (forall i j, sc_G q i j = 2 * inner (euclid n) (soc_columns A i) (qr (euclid n) W (soc_columns A j))) /\
    length (r_AW (sc_rhs q)) = m /\ length (r_AQc (sc_rhs q)) = m /\
    (forall i, (i < m)%nat -> nth i (r_AW (sc_rhs q)) 0 = 2 * inner (euclid n) (soc_columns A i) W) /\
    (forall i, (i < m)%nat -> nth i (r_AQc (sc_rhs q)) 0 = 2 * inner (euclid n) (soc_columns A i) (qr (euclid n) W (spin_of c))) /\
    r_wc (sc_rhs q) = 2 * inner (euclid n) (spin_of c) W /\
    r_cQc (sc_rhs q) = 2 * inner (euclid n) (spin_of c) (qr (euclid n) W (spin_of c)).
Proof.
  intros H1 H2. apply soc_ready_ok in H1 as (W & EW & Hn & Hs & Hl & ->).
  set (d0 := match sw_d w with Some d => d | None => _ end) in *. pose proof (euclid_form n) as F.
  unfold soc_schur, schur_of in H2. apply bind_ok in H2 as (s & E & H2). injection H2 as <-.
  unfold SSchur in E. cbn [so_n so_W so_c so_A soc_of] in E. apply bind_ok in E as (sq & Esq & E).
  destruct c as [|c0 c]; [discriminate|]. cbn [filled bind] in E. set (cc := spin_of (c0 :: c)) in *.
  destruct (cone_or n W) as [HC|HC]. 2:{ rewrite (SSqrt_none n W HC) in Esq. discriminate. }
  destruct (SSqrt_ok n W HC) as (z & Ez & Ha). rewrite Ez in Esq. injection Esq as <-. injection E as <-.
  pose proof (sqrt_root n _ F W z HC Ha) as HR.
  exists W. split; [auto|]. split; [auto|]. split; [auto|]. split; [auto|]. split; [discriminate|]. split; [auto|].
  cbn [sc_G sc_rhs r_AW r_AQc r_wc r_cQc JordanModel.sc_G JordanModel.sc_AW JordanModel.sc_AQc JordanModel.sc_wc JordanModel.sc_cQc put].
  rewrite !map_length, !seq_length. rewrite !SQuadRep_qr, !sdotp_inner.
  assert (forall a b, inner (euclid n) (qr (euclid n) z a) (qr (euclid n) z b) = inner (euclid n) a (qr (euclid n) W b)) as RR
    by (intros; apply (root_qr_qr n _ F); auto).
  split. { intros i j. rewrite !SQuadRep_qr, sdotp_inner, RR. reflexivity. }
  split; [auto|]. split; [auto|].
  split. { intros i Hi. rewrite (nth_map_lt _ _ i 0 0%nat) by (rewrite seq_length; auto). rewrite seq_nth by auto. reflexivity. }
  split. { intros i Hi. rewrite (nth_map_lt _ _ i 0 0%nat) by (rewrite seq_length; auto). rewrite seq_nth by auto.
    rewrite !SQuadRep_qr, sdotp_inner, RR. reflexivity. }
  split; [|rewrite RR; reflexivity].
  pose proof (root_qr_one n _ F W z cc HR) as E1. rewrite (inner_qr_sym n _ F) in E1.
  rewrite (inner_sym n _ F cc W), <- E1. unfold inner, jone. cbn [fst snd]. rewrite (B_zero n _ F).
  change (2 * fst (SQuadRep n z cc) = 2 * (1 * fst (qr (euclid n) z cc) + 0)). rewrite SQuadRep_qr. ring.
Qed.

Lemma soc_schur_total n A c w m W : sw_W w = Some W -> (0 < n)%nat -> sw_n w = n -> length A = m -> c <> [] ->
  cone (euclid n) W -> exists o q, soc_ready n A c w m = Ok o /\ soc_schur o m = Ok q.
Proof.
  intros EW Hn Hs Hl Hc HC. rewrite (soc_ready_total n A c w m W) by auto.
  generalize (match sw_d w with Some d => d | None => (0, fun _ : nat => 0) end). intros d0. eexists. destruct c as [|c0 c]; [congruence|].
  destruct (soc_schur_ok (soc_of n A (c0 :: c) W d0) true (JordanModel.mkSchur (fun _ _ => 0) (fun _ => 0) (fun _ => 0) 0 0)
    (spin_of (c0 :: c)) m eq_refl HC) as (sys & E & _).
  eexists. split; [reflexivity|]. unfold soc_schur, blank. rewrite E. reflexivity.
Qed.

Lemma soc_spectrum_total n A c w y k W : sw_W w = Some W -> (0 < n)%nat -> sw_n w = n -> length A = length y -> c <> [] ->
  interior (euclid n) W -> exists o r, soc_ready n A c w (length y) = Ok o /\ SWeightedSlack o (fun j => nth j y 0) k = Ok r.
Proof.
  intros EW Hn Hs Hl Hc HC. rewrite (soc_ready_total n A c w (length y) W) by auto.
  generalize (match sw_d w with Some d => d | None => (0, fun _ : nat => 0) end). intros d0. eexists. destruct c as [|c0 c]; [congruence|].
  destruct (soc_weighted_slack (soc_of n A (c0 :: c) W d0) (fun j => nth j y 0) k (spin_of (c0 :: c)) eq_refl HC) as (s & r & _ & E & _).
  eexists. split; [reflexivity|]. exact E.
Qed.
