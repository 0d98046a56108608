(** Programs whose KKT systems can always be factored. *)
From Coq Require Import List Arith ZArith Reals Bool Lia Lra.
From Verif Require Import Base BaseFacts LayoutModel SupernodeModel TriWorkspaceModel AssemblerModel DenseModel BlockModel KktModel
  ProgramModel ApiModel DivergenceModel SolveModel LinearModel ConcreteBackend Spec_Linear Spec_Assembly RhsProofs Spec_Program Spec_Solve Spec_Conex
  SymbolicFacts LinearFacts KktProofs ConexFacts ConexKkt ConexBlocks ConexStep.
From Verif Require Import SocLinks.
From Verif Require Spec_Soc SocAlgebra SocProofs SocNewton HermLinks HermPairing.
Import ListNotations.
Open Scope R_scope.

Definition nonzero_weights (st : cst) : Prop :=
  (forall i w W, nth_error (ct_cons st) i = Some (SLinear w) -> lw_W w = Some W -> Forall (fun x => x <> 0) W) /\
  (forall i w W, nth_error (ct_cons st) i = Some (SSoc w) -> sw_W w = Some W -> Spec_Soc.interior (Spec_Soc.euclid (sw_n w)) W) /\
  (forall i w, nth_error (ct_cons st) i = Some (SHerm w) -> HermLinks.herm_inside w).

(** The quadratic representation of an interior point is definite. *)
Lemma qr_definite n W s v : Spec_Soc.root_of (Spec_Soc.euclid n) W s -> Spec_Soc.interior (Spec_Soc.euclid n) s ->
  let u := Spec_Soc.inner (Spec_Soc.euclid n) v (SocAlgebra.qr (Spec_Soc.euclid n) W v) in
  0 <= u /\ (u = 0 -> forall k, (k <= n)%nat -> entry_of v k = 0).
Proof.
  intros HR HI. cbv zeta. pose proof (SocAlgebra.euclid_form n) as F. rewrite <- (SocProofs.root_qr_qr n _ F W s v v HR).
  set (B := Spec_Soc.euclid n) in *. set (x := SocAlgebra.qr B s v). pose proof (SocAlgebra.f_psd _ _ F (snd x)) as HP.
  assert (0 <= fst x * fst x) as HS by apply Rle_0_sqr.
  unfold Spec_Soc.inner. split; [unfold B in *; lra|]. intros E.
  assert (fst x * fst x = 0) as E1 by (unfold B in *; lra). assert (B (snd x) (snd x) = 0) as E2 by (unfold B in *; lra).
  assert (fst x = 0) as Z0 by (apply Rsqr_0_uniq; exact E1). pose proof (SocAlgebra.euclid_zero n (snd x) E2) as Z1.
  assert (Spec_Soc.det B s <> 0) as HD by (apply SocProofs.interior_det_ne; exact HI).
  set (t := (fst s, fun i => -1 * snd s i) : Spec_Soc.elem).
  assert (Spec_Soc.inner B t x = Spec_Soc.det B s * Spec_Soc.inner B s v) as E3.
  { unfold t, x, Spec_Soc.inner, SocAlgebra.qr. cbn [fst snd]. rewrite (SocAlgebra.B_scal n B F), (SocAlgebra.B_lin_r n B F). unfold Spec_Soc.det, Spec_Soc.inner. ring. }
  assert (Spec_Soc.inner B t x = 0) as E4.
  { unfold Spec_Soc.inner. rewrite Z0, (SocAlgebra.B_ext n B F (snd t) (snd t) (snd x) (fun _ => 0)), (SocAlgebra.B_zero_r n B F) by auto. ring. }
  assert (Spec_Soc.inner B s v = 0) as E5. { rewrite E4 in E3. symmetry in E3. apply Rmult_integral in E3 as [|]; auto. contradiction. }
  intros [|k] Hk; cbn [entry_of].
  - unfold x, SocAlgebra.qr in Z0. cbn [fst] in Z0. rewrite E5 in Z0. apply Rmult_eq_reg_l with (Spec_Soc.det B s); auto. lra.
  - specialize (Z1 k ltac:(lia)). unfold x, SocAlgebra.qr in Z1. cbn [snd] in Z1. rewrite E5 in Z1. apply Rmult_eq_reg_l with (Spec_Soc.det B s); auto. lra.
Qed.

Lemma total_nonneg_in {A} (f : A -> R) l : (forall a, In a l -> 0 <= f a) -> 0 <= total f l.
Proof.
  unfold total. induction l as [|a l IH]; cbn; intros H; [lra|]. specialize (IH ltac:(intros; apply H; right; auto)). specialize (H a (or_introl eq_refl)). lra.
Qed.
Lemma total_all_zero {A} (f : A -> R) l : (forall a, In a l -> 0 <= f a) -> total f l = 0 -> forall a, In a l -> f a = 0.
Proof.
  unfold total. induction l as [|a l IH]; cbn; intros H E x [].
  - subst x. pose proof (total_nonneg_in f l ltac:(intros; apply H; right; auto)). unfold total in H0. specialize (H a (or_introl eq_refl)). lra.
  - apply IH; auto. pose proof (total_nonneg_in f l ltac:(intros; apply H; right; auto)). unfold total in H1. specialize (H a (or_introl eq_refl)). lra.
Qed.

Section Definite.
  Variable p : program.
  Hypothesis HR : ready p.
  Hypothesis HT : rectangular p.
  Hypothesis HD : definite p.
  Variable st : cst.
  Variable q : list (cstate * schur).
  Hypothesis HQ : blocks_of p st q.
  Hypothesis HW : nonzero_weights st.
  Notation cl i := (nth i (p_cliques p) []).
  Notation N := (SizeOfKKTSystem p).

  Definition block_form (z : list R) (i : nat) : R :=
    total (fun a => total (fun b => sc_G (snd (nth i q qdef)) (Nat.max a b) (Nat.min a b) * nth (nth b (cl i) 0%nat) z 0) (seq 0 (length (cl i)))
                    * nth (nth a (cl i) 0%nat) z 0) (seq 0 (length (cl i))).

  Lemma form_linear z i co cols A b : nth_error (p_eqs p) i = Some co -> ct_data co = CLinear cols A b ->
    exists W, length W = length A /\ Forall (fun x => x <> 0) W /\
      block_form z i = total (fun k => (nth k W 0 * row_value (nth k A []) (cl i) z) * (nth k W 0 * row_value (nth k A []) (cl i) z)) (seq 0 (length A)).
  Proof.
    intros Hi Hd. destruct HQ as [_ H]. destruct (H i co Hi) as (s & Hs & Ec). unfold con_schur in Ec. rewrite Hd in Ec.
    destruct s as [w|l| |w| |]; try discriminate. apply bind_ok in Ec as ([w' q'] & E & Ec).
    injection Ec as Ec. rewrite (wb_vars _ (rd_built _ HR) i co Hi) in E. pose proof (HT i co cols A b Hi Hd) as HCo.
    destruct (linear_schur_ok _ _ _ _ _ _ _ E HCo) as (W & L1 & L2 & L3 & L4 & L5 & L6 & _).
    exists W. split; auto. split; [eapply (proj1 HW); eauto|]. unfold block_form. rewrite <- Ec. cbn [snd].
    rewrite (total_ext _ (fun a => total (fun k => (mget A k a * nth (nth a (cl i) 0%nat) z 0) * (nth k W 0 * nth k W 0 * row_value (nth k A []) (cl i) z)) (seq 0 (length A)))).
    - rewrite total_swap. apply total_ext. intros k Hk. apply in_seq in Hk. rewrite total_scale_r.
      rewrite (total_seq_cut _ cols) by (auto; intros j Hj; rewrite (mget_over cols A k j) by auto; ring).
      rewrite <- (row_value_mget A k (cl i) z cols) by (auto; lia). ring.
    - intros a _. rewrite (linear_block_times cols A W (cl i) z (length (cl i)) a _ HCo L5 L6). rewrite <- total_scale_r. apply total_ext. intros k _. ring.
  Qed.

  Lemma form_quadratic z i co Q : nth_error (p_eqs p) i = Some co -> ct_data co = CQuad Q -> block_form z i = quadratic_form Q (cl i) z.
  Proof.
    intros Hi Hd. destruct HQ as [_ H]. destruct (H i co Hi) as (s & Hs & Ec). unfold con_schur in Ec. rewrite Hd in Ec.
    destruct s as [w|l| |w| |]; try discriminate. apply bind_ok in Ec as (q' & E & Ec). injection Ec as Ec.
    destruct (quadratic_schur_ok _ _ _ E) as (L1 & _). unfold block_form, quadratic_form. rewrite <- Ec. cbn [snd].
    apply total_ext. intros a _. rewrite Rmult_comm. f_equal. apply total_ext. intros b _. rewrite L1. reflexivity.
  Qed.

  Lemma form_cone z i co n A b : nth_error (p_eqs p) i = Some co -> ct_data co = CSoc n A b ->
    0 <= block_form z i /\ (block_form z i = 0 -> forall k, (k <= n)%nat -> column_value A (cl i) z k = 0).
  Proof.
    intros Hi Hd. destruct HQ as [_ H]. destruct (H i co Hi) as (s & Hs & Ec). unfold con_schur in Ec. rewrite Hd in Ec.
    destruct s as [| | |w| |]; try discriminate. apply bind_ok in Ec as (o & Eo & Ec). apply bind_ok in Ec as (q' & Eq & Ec). injection Ec as Ec.
    rewrite (wb_vars _ (rd_built _ HR) i co Hi) in Eo, Eq.
    destruct (soc_block _ _ _ _ _ _ _ Eo Eq) as (W & B1 & B2 & B3 & B4 & B5 & B6 & B7 & _).
    pose proof (proj1 (proj2 HW) i w W Hs B1) as HI. rewrite B2 in HI. pose proof (SocAlgebra.euclid_form n) as F.
    set (V := (column_value A (cl i) z 0%nat, fun k => column_value A (cl i) z (S k)) : Spec_Soc.elem).
    assert (forall x, Spec_Soc.inner (Spec_Soc.euclid n) V x = total (fun a => nth (nth a (cl i) 0%nat) z 0 * Spec_Soc.inner (Spec_Soc.euclid n) (soc_columns A a) x) (seq 0 (length (cl i)))) as HV.
    { intros x. rewrite inner_entries.
      rewrite (total_ext _ (fun a => total (fun k => nth (nth a (cl i) 0%nat) z 0 * (nth k (nth a A []) 0 * entry_of x k)) (seq 0 (n + 1))) (seq 0 (length (cl i)))).
      - rewrite total_swap. apply total_ext. intros k _. assert (entry_of V k = column_value A (cl i) z k) as -> by (destruct k; auto).
        unfold column_value. rewrite B3, <- total_scale_r. apply total_ext. intros j _. ring.
      - intros a _. rewrite inner_entries, <- total_scale. apply total_ext. intros k _. unfold soc_columns. rewrite entry_spin. ring. }
    assert (block_form z i = 2 * Spec_Soc.inner (Spec_Soc.euclid n) V (SocAlgebra.qr (Spec_Soc.euclid n) W V)) as EB.
    { rewrite HV. unfold block_form. rewrite <- Ec. cbn [snd]. rewrite <- total_scale. apply total_ext. intros a Ha. apply in_seq in Ha.
      rewrite <- (SocAlgebra.inner_qr_sym n _ F), (SocAlgebra.inner_sym n _ F), HV.
      rewrite <- !total_scale, <- total_scale_r. apply total_ext. intros b0 Hb. rewrite B7.
      assert (forall u v, Spec_Soc.inner (Spec_Soc.euclid n) u (SocAlgebra.qr (Spec_Soc.euclid n) W v) = Spec_Soc.inner (Spec_Soc.euclid n) v (SocAlgebra.qr (Spec_Soc.euclid n) W u)) as SY.
      { intros u v. rewrite <- (SocAlgebra.inner_qr_sym n _ F). apply (SocAlgebra.inner_sym n _ F). }
      destruct (Nat.max_spec a b0) as [[M ->]|[M ->]]; destruct (Nat.min_spec a b0) as [[N ->]|[N ->]]; try lia; [ring|rewrite (SY (soc_columns A a)); ring]. }
    assert (Spec_Soc.cone (Spec_Soc.euclid n) W) as HCo by exact B6.
    destruct (SocProofs.SSqrt_ok n W HCo) as (sq & _ & Ha).
    pose proof (SocProofs.sqrt_root n _ F W sq HCo Ha) as HRt.
    destruct (qr_definite n W sq V HRt (SocProofs.sqrt_interior n _ F W sq HI Ha)) as [D1 D2]. rewrite EB. split; [lra|]. intros E k Hk.
    rewrite <- (D2 ltac:(lra) k Hk). destruct k; auto.
  Qed.

  Lemma form_matrix z i co h n As C : nth_error (p_eqs p) i = Some co -> ct_data co = CHerm h n As C ->
    0 <= block_form z i /\
    (block_form z i = 0 -> forall t r c, (t < h)%nat -> (r < n)%nat -> (c < n)%nat ->
       total (fun j => component (nth j As []) t r c * nth (nth j (cl i) 0%nat) z 0) (seq 0 (length As)) = 0).
  Proof.
    intros Hi Hd. destruct HQ as [_ H]. destruct (H i co Hi) as (s & Hs & Ec). unfold con_schur in Ec. rewrite Hd in Ec.
    destruct s as [| | | |w|]; try discriminate. apply bind_ok in Ec as (o & Eo & Ec). injection Ec as Ec.
    rewrite (wb_vars _ (rd_built _ HR) i co Hi) in Eo, Ec. pose proof (proj2 (proj2 HW) i w Hs) as HI.
    pose proof (HermPairing.herm_form h n As C w _ o (fun j => nth (nth j (cl i) 0%nat) z 0) Eo HI) as HF. cbv zeta in HF.
    unfold block_form. rewrite <- Ec. cbn [snd]. exact HF.
  Qed.

  Lemma form_nonneg z i : (i < length (p_eqs p))%nat -> 0 <= block_form z i.
  Proof.
    intros Hi. destruct (nth_error (p_eqs p) i) as [co|] eqn:Ei; [|apply nth_error_None in Ei; lia].
    destruct HD as (Cv & NE & _). destruct (proj2 HQ i co Ei) as (s & _ & Ec). unfold con_schur in Ec.
    destruct (ct_data co) as [cols A b|n A b|h n As C| | |Q|A b] eqn:Ed; try (destruct s; discriminate).
    - destruct (form_linear z i co cols A b Ei Ed) as (W & _ & _ & ->). apply total_nonneg_in. intros k _. apply Rle_0_sqr.
    - apply (form_cone z i co n A b Ei Ed).
    - apply (form_matrix z i co h n As C Ei Ed).
    - rewrite (form_quadratic z i co Q Ei Ed). eapply Cv; eauto.
    - exfalso. eapply NE; eauto.
  Qed.

  Lemma matrix_definite : positive_definite N (matrix_of p q).
  Proof.
    intros x (u & Hu & Hx). set (z := map x (seq 0 N)).
    assert (forall v, (v < N)%nat -> nth v z 0 = x v) as Hz.
    { intros v Hv. unfold z. rewrite (nth_map_lt _ _ _ 0 0%nat) by (rewrite seq_length; lia). rewrite seq_nth by lia. auto. }
    assert (forall i, (i < length (p_eqs p))%nat -> forall a, (a < length (cl i))%nat -> (nth a (cl i) 0 < N)%nat) as Hcl.
    { intros i Hi a Ha. apply (ready_range p (cl i)); auto; [apply nth_in_cliques; auto|apply nth_In; auto]. }
    assert (total (fun u => x u * row_times N (matrix_of p q) x u) (seq 0 N) = total (block_form z) (seq 0 (length (p_eqs p)))) as ET.
    { rewrite (total_ext _ (fun u => total (fun i => placed (cl i) (fun a => total (fun b => sc_G (snd (nth i q qdef)) (Nat.max a b) (Nat.min a b) * x (nth b (cl i) 0%nat)) (seq 0 (length (cl i)))) u * x u) (seq 0 (length (p_cliques p))))).
      - rewrite total_swap, (wb_lengths _ (rd_built _ HR)). apply total_ext. intros i Hi. apply in_seq in Hi. rewrite placed_pair by (apply Hcl; lia).
        unfold block_form. apply total_ext. intros a Ha. apply in_seq in Ha. rewrite Hz by (apply Hcl; lia). f_equal. apply total_ext. intros b Hb. apply in_seq in Hb.
        rewrite Hz by (apply Hcl; lia). auto.
      - intros v _. unfold matrix_of. rewrite row_times_blocks by (intros c w; apply (ready_range p); auto).
        rewrite total_scale_r. ring. }
    rewrite ET. pose proof (total_nonneg_in (block_form z) (seq 0 (length (p_eqs p)))) as H0.
    assert (forall i, In i (seq 0 (length (p_eqs p))) -> 0 <= block_form z i) as Hnn by (intros i Hi; apply in_seq in Hi; apply form_nonneg; lia).
    specialize (H0 Hnn). destruct (Req_dec (total (block_form z) (seq 0 (length (p_eqs p)))) 0) as [E|]; [|lra]. exfalso.
    pose proof (total_all_zero _ _ Hnn E) as HZ. apply Hx. rewrite <- Hz by auto.
    destruct HD as (_ & _ & _ & HF). apply HF; auto.
    - intros i co cols A b k Hi Hd Hk. pose proof (nth_error_lt _ _ _ Hi) as Hl. specialize (HZ i ltac:(apply in_seq; lia)).
      destruct (form_linear z i co cols A b Hi Hd) as (W & L1 & L2 & EF). rewrite EF in HZ.
      assert (nth k W 0 * row_value (nth k A []) (cl i) z = 0) as HM.
      { apply Rsqr_0_uniq. apply (total_all_zero (fun k => Rsqr (nth k W 0 * row_value (nth k A []) (cl i) z)) (seq 0 (length A))); auto; [intros; apply Rle_0_sqr|apply in_seq; lia]. }
      apply Rmult_integral in HM as [HM|HM]; auto. exfalso. rewrite Forall_forall in L2. apply (L2 (nth k W 0)); auto. apply nth_In. lia.
    - intros i co n A b k Hi Hd Hk. pose proof (nth_error_lt _ _ _ Hi) as Hl. apply (form_cone z i co n A b Hi Hd); auto. apply HZ. apply in_seq. lia.
    - intros i co h n As C t r c Hi Hd Ht Hr Hc. pose proof (nth_error_lt _ _ _ Hi) as Hl. apply (form_matrix z i co h n As C Hi Hd); auto. apply HZ. apply in_seq. lia.
    - intros i co Q Hi Hd. pose proof (nth_error_lt _ _ _ Hi) as Hl. rewrite <- (form_quadratic z i co Q Hi Hd). apply HZ. apply in_seq. lia.
  Qed.
End Definite.

Lemma factor_never_fails iters p st st0 st1 ok : ready p -> rectangular p -> factorable p -> nonzero_weights st ->
  con_assemble p st = Ok st0 -> con_factor iters p st0 = Ok (st1, ok) -> ok = true.
Proof.
  intros R T F W E0 E1. unfold con_factor, with_solver in E1. rewrite (rd_solver _ R) in E1. apply bind_ok in E1 as ([[d o] bs] & Eb & E1).
  destruct iters as [iters|f]; [|apply bind_ok in E1 as (K & _ & E1); congruence].
  apply bind_ok in E1 as (r & EF & E1). pose proof (wb_admissible _ (rd_built _ R)) as AD. pose proof (wb_covered _ (rd_built _ R)) as HC.
  destruct F as [F|F].
  - pose proof (covered_N _ _ _ _ _ _ AD Eb HC) as EN. rewrite <- EN in HC.
    destruct (Factor_ldlt _ _ _ _ _ AD Eb HC (ct_mem st0) iters F) as (m' & fs & K & E & EF' & _). rewrite EF' in EF. injection EF as <-. congruence.
  - destruct (assembled p st st0 R E0) as (q & Q1 & _ & _ & _ & _ & _ & _ & _ & Q9).
    pose proof (matrix_definite p R T F st q Q1 W) as PD. destruct F as (_ & _ & NM & _).
    apply (factor_cholesky_iff_pd _ _ _ d o bs AD Eb HC NM (ct_mem st0) iters (matrix_of p q) (Q9 d o bs Eb)) in PD as (FK & EF').
    rewrite EF' in EF. injection EF as <-. congruence.
Qed.
