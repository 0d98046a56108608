(** Programs whose KKT systems are nonsingular. *)
From Coq Require Import List Arith ZArith Reals Bool Lia Lra.
From Verif Require Import Base BaseFacts LayoutModel SupernodeModel TriWorkspaceModel AssemblerModel DenseModel BlockModel KktModel
  ProgramModel ApiModel DivergenceModel SolveModel LinearModel ConcreteBackend Spec_Linear Spec_Assembly RhsProofs Spec_Program Spec_Solve Spec_Conex
  SymbolicFacts LinearFacts KktProofs ConexFacts ConexKkt ConexBlocks ConexStep ConexNewton ConexResult ConexDefinite.
Import ListNotations.
Open Scope R_scope.

(** Definite programs are regular. *)
Lemma definite_regular p : definite p -> regular p.
Proof.
  intros (H1 & H2 & H3 & H4). split; auto. split; [intros i co A b Hi Hd; destruct (H2 i co A b Hi Hd)|].
  split; [|intros l _ i co A b k Hi Hd; destruct (H2 i co A b Hi Hd)].
  intros z Z1 Z2 Z3 Z4 _ v Hv _. apply H4; auto.
Qed.

Section Regular.
  Variable p : program.
  Hypothesis HR : ready p.
  Hypothesis HT : rectangular p.
  Hypothesis HG : regular p.
  Variable st : cst.
  Variable q : list (cstate * schur).
  Hypothesis HQ : blocks_of p st q.
  Hypothesis HW : nonzero_weights st.
  Notation cl i := (nth i (p_cliques p) []).
  Notation du i := (nth i (p_duals p) []).
  Notation N := (SizeOfKKTSystem p).

  Definition block_row (z : list R) (i a : nat) : R :=
    total (fun b => sc_G (snd (nth i q qdef)) (Nat.max a b) (Nat.min a b) * nth (nth b (cl i) 0%nat) z 0) (seq 0 (length (cl i))).

  Lemma block_form_rows z i : block_form p q z i = total (fun a => block_row z i a * nth (nth a (cl i) 0%nat) z 0) (seq 0 (length (cl i))).
  Proof. reflexivity. Qed.

  Lemma equality_block i co A b : nth_error (p_eqs p) i = Some co -> ct_data co = CEq A b ->
    (mcols A + length A <= length (cl i))%nat /\ has_cols (mcols A) A /\
    forall r k, (k <= r)%nat -> sc_G (snd (nth i q qdef)) r k =
      if ((length (cl i) - length A <=? r) && (r <? length (cl i)) && (k <? mcols A))%nat then mget A (r - (length (cl i) - length A)) k else 0.
  Proof.
    intros Hi Hd. destruct HG as (_ & HE & _). destruct (HE i co A b Hi Hd) as (H1 & H2 & H3). split; auto. split; auto.
    destruct HQ as [_ H]. destruct (H i co Hi) as (s & Hs & Ec). unfold con_schur in Ec. rewrite Hd in Ec.
    destruct s as [w|l| |w| |]; try discriminate. apply bind_ok in Ec as (q' & E & Ec). injection Ec as Ec.
    rewrite (wb_vars _ (rd_built _ HR) i co Hi) in E. destruct (equality_schur_ok _ _ _ _ E H2) as (_ & H4 & _).
    rewrite <- Ec. exact H4.
  Qed.

  Lemma equality_multiplier z i co A b j : nth_error (p_eqs p) i = Some co -> ct_data co = CEq A b -> (j < length A)%nat ->
    block_row z i (length (cl i) - length A + j) = row_value (nth j A []) (cl i) z.
  Proof.
    intros Hi Hd Hj. destruct (equality_block i co A b Hi Hd) as (H1 & H2 & H3). unfold block_row. apply equality_block_multiplier; auto.
  Qed.
  Lemma equality_variable z i co A b a : nth_error (p_eqs p) i = Some co -> ct_data co = CEq A b -> (a < length (cl i) - length A)%nat ->
    block_row z i a = total (fun j => mget A j a * nth (nth j (du i) 0%nat) z 0) (seq 0 (length A)).
  Proof.
    intros Hi Hd Ha. destruct (equality_block i co A b Hi Hd) as (H1 & H2 & H3). unfold block_row.
    rewrite (equality_block_variable A (length (cl i)) a _ (cl i) z H1 H2 Ha H3). apply total_ext. intros j Hj. apply in_seq in Hj.
    destruct HG as (_ & HE & _). destruct (multiplier_position p i co A b j (rd_built _ HR) HE Hi Hd ltac:(lia)) as (P & _). rewrite P. auto.
  Qed.

  Lemma matrix_nonsingular : nonsingular N (matrix_of p q).
  Proof.
    intros x HX. set (z := map x (seq 0 N)).
    assert (forall v, (v < N)%nat -> nth v z 0 = x v) as Hz.
    { intros v Hv. unfold z. rewrite (nth_map_lt _ _ _ 0 0%nat) by (rewrite seq_length; lia). rewrite seq_nth by lia. auto. }
    assert (forall i, (i < length (p_eqs p))%nat -> forall a, (a < length (cl i))%nat -> (nth a (cl i) 0 < N)%nat) as Hcl.
    { intros i Hi a Ha. apply (ready_range p (cl i)); auto; [apply nth_in_cliques; auto|apply nth_In; auto]. }
    pose proof (rd_built _ HR) as WB. pose proof HG as (Cv & HE & HF & HL).
    assert (forall v, (v < N)%nat -> total (fun i => placed (cl i) (block_row z i) v) (seq 0 (length (p_eqs p))) = 0) as HS.
    { intros v Hv. rewrite <- (HX v Hv). unfold matrix_of. rewrite row_times_blocks by (intros c w; apply (ready_range p); auto).
      rewrite (wb_lengths _ WB). apply total_ext. intros i Hi. apply in_seq in Hi. apply placed_ext. intros a Ha. unfold block_row.
      apply total_ext. intros b Hb. apply in_seq in Hb. rewrite Hz by (apply Hcl; lia). auto. }
    assert (forall i co A b j, nth_error (p_eqs p) i = Some co -> ct_data co = CEq A b -> (j < length A)%nat -> row_value (nth j A []) (cl i) z = 0) as HEQ.
    { intros i co A b j Hi Hd Hj. pose proof (nth_error_lt _ _ _ Hi) as Hl.
      destruct (multiplier_position p i co A b j WB HE Hi Hd Hj) as (P1 & P2 & P3).
      set (u := nth j (du i) 0%nat) in *. assert (u < N)%nat as Hu by (rewrite <- P1; apply Hcl; auto).
      specialize (HS u Hu). rewrite (total_single _ i) in HS; auto.
      - rewrite <- P1 in HS. rewrite placed_at in HS by (auto; apply nodup_clique; auto). rewrite <- (equality_multiplier z i co A b j Hi Hd Hj). exact HS.
      - intros i' Hi' Hne. apply placed_out. intros HIn. apply Hne. symmetry. eapply (wb_private _ WB); eauto. }
    assert (forall i co A b, nth_error (p_eqs p) i = Some co -> ct_data co = CEq A b -> block_form p q z i = 0) as HFE.
    { intros i co A b Hi Hd. destruct (equality_block i co A b Hi Hd) as (B1 & B2 & B3). rewrite block_form_rows.
      replace (seq 0 (length (cl i))) with (seq 0 (length (cl i) - length A + length A)) by (f_equal; lia). rewrite seq_app, total_app.
      rewrite (total_ext _ (fun a => total (fun j => nth (nth j (du i) 0%nat) z 0 * (mget A j a * nth (nth a (cl i) 0%nat) z 0)) (seq 0 (length A))) (seq 0 (length (cl i) - length A))).
      2: { intros a Ha. apply in_seq in Ha. rewrite (equality_variable z i co A b a Hi Hd) by lia. rewrite <- total_scale_r. apply total_ext. intros j _. ring. }
      rewrite total_swap. rewrite (total_zero _ (seq 0 (length A))).
      2: { intros j Hj. apply in_seq in Hj. rewrite total_scale. rewrite (total_seq_cut _ (mcols A)) by (try lia; intros a Ha; rewrite (mget_over (mcols A)) by auto; lra).
        rewrite <- (row_value_mget A j (cl i) z (mcols A)) by (auto; lia). rewrite (HEQ i co A b j Hi Hd) by lia. lra. }
      rewrite total_zero; [lra|]. intros a Ha. apply in_seq in Ha.
      replace a with (length (cl i) - length A + (a - (length (cl i) - length A)))%nat at 1 by lia.
      rewrite (equality_multiplier z i co A b) by (auto; lia). rewrite (HEQ i co A b) by (auto; lia). lra. }
    assert (total (block_form p q z) (seq 0 (length (p_eqs p))) = 0) as ET.
    { transitivity (total (fun v => total (fun i => placed (cl i) (block_row z i) v) (seq 0 (length (p_eqs p))) * nth v z 0) (seq 0 N)).
      - symmetry. erewrite total_ext by (intros v _; symmetry; exact (total_scale_r (fun i => placed (cl i) (block_row z i) v) (nth v z 0) (seq 0 (length (p_eqs p))))).
        rewrite total_swap. apply total_ext. intros i Hi. apply in_seq in Hi. rewrite (placed_pair N (cl i) (block_row z i) (fun v => nth v z 0)) by (apply Hcl; lia). apply block_form_rows.
      - apply total_zero. intros v Hv. apply in_seq in Hv. rewrite HS by lia. lra. }
    assert (forall i, In i (seq 0 (length (p_eqs p))) -> 0 <= block_form p q z i) as Hnn.
    { intros i Hi. apply in_seq in Hi. destruct (nth_error (p_eqs p) i) as [co|] eqn:Ei; [|apply nth_error_None in Ei; lia].
      destruct (proj2 HQ i co Ei) as (s & _ & Ec). unfold con_schur in Ec.
      destruct (ct_data co) as [cols A b|n A b|h n As C| | |Q|A b] eqn:Ed; try (destruct s; discriminate).
      - destruct (form_linear p HR HT st q HQ HW z i co cols A b Ei Ed) as (W & _ & _ & ->). apply total_nonneg_in. intros k _. apply Rle_0_sqr.
      - apply (form_cone p HR st q HQ HW z i co n A b Ei Ed).
      - apply (form_matrix p HR st q HQ HW z i co h n As C Ei Ed).
      - rewrite (form_quadratic p st q HQ z i co Q Ei Ed). eapply Cv; eauto.
      - rewrite (HFE i co A b Ei Ed). lra. }
    pose proof (total_all_zero _ _ Hnn ET) as HZ.
    assert (forall v, (v < N)%nat -> (forall i co A b, nth_error (p_eqs p) i = Some co -> ct_data co = CEq A b -> ~ In v (du i)) -> nth v z 0 = 0) as HP.
    { apply HF; auto.
      - intros i co cols A b k Hi Hd Hk. pose proof (nth_error_lt _ _ _ Hi) as Hl. specialize (HZ i ltac:(apply in_seq; lia)).
        destruct (form_linear p HR HT st q HQ HW z i co cols A b Hi Hd) as (W & L1 & L2 & EF). rewrite EF in HZ.
        assert (nth k W 0 * row_value (nth k A []) (cl i) z = 0) as HM.
        { apply Rsqr_0_uniq. refine (total_all_zero _ _ _ HZ k _); [intros; apply Rle_0_sqr|apply in_seq; lia]. }
        apply Rmult_integral in HM as [HM|HM]; auto. exfalso. rewrite Forall_forall in L2. apply (L2 (nth k W 0)); auto. apply nth_In. lia.
      - intros i co n A b k Hi Hd Hk. pose proof (nth_error_lt _ _ _ Hi) as Hl. apply (form_cone p HR st q HQ HW z i co n A b Hi Hd); auto. apply HZ. apply in_seq. lia.
      - intros i co h n As C t r c Hi Hd Ht Hr Hc. pose proof (nth_error_lt _ _ _ Hi) as Hl. apply (form_matrix p HR st q HQ HW z i co h n As C Hi Hd); auto. apply HZ. apply in_seq. lia.
      - intros i co Q Hi Hd. pose proof (nth_error_lt _ _ _ Hi) as Hl. rewrite <- (form_quadratic p st q HQ z i co Q Hi Hd). apply HZ. apply in_seq. lia. }
    assert (forall v, (v < N)%nat -> multiplier_sum p z v = 0) as HM.
    { intros v Hv. rewrite <- (HS v Hv). unfold multiplier_sum. apply total_ext. intros i Hi. apply in_seq in Hi.
      destruct (nth_error (p_eqs p) i) as [co|] eqn:Ei; [|apply nth_error_None in Ei; lia].
      assert ((exists A b, ct_data co = CEq A b) \/ (forall A b, ct_data co <> CEq A b)) as [(A & b & Ed)|Ed].
      { destruct (ct_data co); try (right; discriminate). left. eauto. }
      - rewrite Ed. destruct (equality_block i co A b Ei Ed) as (B1 & B2 & B3). apply placed_ext. intros a Ha.
        destruct (le_lt_dec (length (cl i) - length A) a) as [Hla|Hla].
        + replace (block_row z i a) with (block_row z i (length (cl i) - length A + (a - (length (cl i) - length A)))) by (f_equal; lia).
          rewrite (equality_multiplier z i co A b) by (auto; lia). rewrite (HEQ i co A b) by (auto; lia).
          apply total_zero. intros k _. change (nth a (nth k A []) 0) with (mget A k a). rewrite (mget_over (mcols A)) by (auto; lia). lra.
        + rewrite (equality_variable z i co A b a Ei Ed Hla). reflexivity.
      - assert (placed (cl i) (block_row z i) v = 0) as ->.
        { unfold placed. apply total_zero. intros a Ha. apply in_seq in Ha. destruct (_ =? _)%nat; auto. unfold block_row. apply total_zero. intros b Hb. apply in_seq in Hb.
          rewrite HP; [lra|apply Hcl; lia|]. intros i' co' A' b' Hi' Hd' HIn.
          pose proof (wb_private _ WB i' i _ HIn ltac:(apply nth_In; lia)) as ->. rewrite Ei in Hi'. injection Hi' as ->. exact (Ed A' b' Hd'). }
        destruct (ct_data co) as [| | | | | |A b]; auto. destruct (Ed A b eq_refl). }
    intros v Hv. rewrite <- (Hz v Hv).
    assert ((exists i co A b, nth_error (p_eqs p) i = Some co /\ ct_data co = CEq A b /\ In v (du i)) \/
      (forall i co A b, nth_error (p_eqs p) i = Some co -> ct_data co = CEq A b -> ~ In v (du i))) as [(i & co & A & b & Hi & Hd & HIn)|HN].
    { assert (forall m, (exists i co A b, (i < m)%nat /\ nth_error (p_eqs p) i = Some co /\ ct_data co = CEq A b /\ In v (du i)) \/
        (forall i co A b, (i < m)%nat -> nth_error (p_eqs p) i = Some co -> ct_data co = CEq A b -> ~ In v (du i))) as HDec.
      { induction m as [|m IH]; [right; intros; lia|]. destruct IH as [(i & co & A & b & H1 & H2)|IH]; [left; exists i, co, A, b; split; auto; lia|].
        destruct (in_dec Nat.eq_dec v (du m)) as [HI|HI].
        - destruct (nth_error (p_eqs p) m) as [co|] eqn:Em.
          + assert ((exists A b, ct_data co = CEq A b) \/ (forall A b, ct_data co <> CEq A b)) as [(A & b & Ed)|Ed].
            { destruct (ct_data co); try (right; discriminate). left. eauto. }
            * left. exists m, co, A, b. auto.
            * right. intros i co' A b Hi H1 H2. destruct (Nat.eq_dec i m) as [->|]; [|eapply IH; eauto; lia]. rewrite Em in H1. injection H1 as <-. destruct (Ed A b H2).
          + right. intros i co' A b Hi H1 H2. destruct (Nat.eq_dec i m) as [->|]; [congruence|eapply IH; eauto; lia].
        - right. intros i co A b Hi H1 H2. destruct (Nat.eq_dec i m) as [->|]; [auto|eapply IH; eauto; lia]. }
      destruct (HDec (length (p_eqs p))) as [(i & co & A & b & H1 & H2)|H]; [left; eauto 6|right].
      intros i co A b H1 H2. eapply H; eauto. eapply nth_error_lt; eauto. }
    - apply (In_nth _ _ 0%nat) in HIn as (k & Hk & <-). destruct (HE i co A b Hi Hd) as (_ & _ & HLn). apply (HL z HM i co A b k Hi Hd). lia.
    - apply HP; auto.
  Qed.
End Regular.
