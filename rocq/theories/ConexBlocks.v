(** The blocks of the constraints (C45) and the Newton equation. *)
From Coq Require Import List Arith ZArith Reals Bool Lia Lra.
From Verif Require Import Base BaseFacts LayoutModel SupernodeModel TriWorkspaceModel AssemblerModel DenseModel BlockModel KktModel
  ProgramModel ApiModel DivergenceModel SolveModel LinearModel ConcreteBackend Spec_Linear Spec_Assembly RhsProofs Spec_Program Spec_Solve Spec_Conex
  SolveProofs SolveFacts ConexFacts ConexStep ConexKkt.
Import ListNotations.
Open Scope R_scope.

Lemma seq_from m k : seq m k = map (fun j => m + j)%nat (seq 0 k).
Proof.
  induction k as [|k IH]; auto. rewrite !seq_S, map_app, IH. auto.
Qed.

(** ** Linear constraints *)

Lemma nth_map_col (A : matrix) j k : nth k (map (fun r => nth j r 0) A) 0 = mget A k j.
Proof.
  unfold mget. destruct (le_lt_dec (length A) k) as [H|H].
  - rewrite nth_overflow by (rewrite map_length; auto). rewrite (nth_overflow A) by auto. destruct j; auto.
  - rewrite (nth_map_lt _ A k 0 []) by auto. auto.
Qed.

Lemma scaled_rows (W : list R) (A : matrix) k j : length W = length A ->
  mget (map (fun p => vscale (fst p) (snd p)) (combine W A)) k j = nth k W 0 * mget A k j.
Proof.
  intros H. unfold mget. revert A k H. induction W as [|w W IH]; intros [|r A] k H; try discriminate; cbn [combine map].
  - destruct k, j; cbn; lra.
  - destruct k; cbn [nth fst snd]; [apply vscale_nth|]. apply IH. cbn in H. lia.
Qed.

Lemma pad_nth n v j : nth j (pad n v) 0 = nth j v 0.
Proof.
  unfold pad. destruct (le_lt_dec (length v) j) as [H|H]; [|rewrite app_nth1; auto].
  rewrite app_nth2, (nth_overflow v) by auto. apply nth_repeat_any.
Qed.

Lemma tmul_nth cols (A : matrix) v j : length v = length A ->
  nth j (tmul cols A v) 0 = if (j <? cols)%nat then total (fun k => mget A k j * nth k v 0) (seq 0 (length A)) else 0.
Proof.
  intros H. unfold tmul. destruct (Nat.ltb_spec j cols) as [Hj|Hj].
  - rewrite (nth_map_lt _ _ _ 0 0%nat) by (rewrite seq_length; auto). rewrite seq_nth by auto. cbn [Nat.add].
    rewrite vdot_total, map_length. apply total_ext. intros k _. rewrite nth_map_col. auto.
  - apply nth_overflow. rewrite map_length, seq_length. auto.
Qed.

Lemma mget_over cols A k j : has_cols cols A -> (cols <= j)%nat -> mget A k j = 0.
Proof.
  unfold has_cols, mget. intros H Hj. destruct (le_lt_dec (length A) k) as [Hk|Hk].
  - rewrite (nth_overflow A) by auto. destruct j; auto.
  - apply nth_overflow. rewrite Forall_forall in H. rewrite H; auto. apply nth_In. auto.
Qed.

(** The defining formulas, without reference to the storage. *)
Lemma linear_schur_ok cols A b w n w' q : linear_schur cols A b w n = Ok (w', q) -> has_cols cols A ->
  exists W, lw_W w = Some W /\ lw_W w' = Some W /\ length W = length A /\ length b = length A /\ (cols <= n)%nat /\
    (forall i j, sc_G q i j = total (fun k => nth k W 0 * nth k W 0 * mget A k i * mget A k j) (seq 0 (length A))) /\
    (forall j, nth j (r_AW (sc_rhs q)) 0 = total (fun k => mget A k j * nth k W 0) (seq 0 (length A))) /\
    (forall j, nth j (r_AQc (sc_rhs q)) 0 = total (fun k => nth k W 0 * nth k W 0 * mget A k j * nth k b 0) (seq 0 (length A))) /\
    r_wc (sc_rhs q) = (if (n =? cols)%nat then total (fun k => nth k W 0 * nth k b 0) (seq 0 (length A)) else 0) /\
    r_cQc (sc_rhs q) = (if (n =? cols)%nat then total (fun k => nth k W 0 * nth k W 0 * nth k b 0 * nth k b 0) (seq 0 (length A)) else 0).
Proof.
  intros H HC. unfold linear_schur in H. apply bind_ok in H as (W & EW & H). apply written_ok in EW.
  destruct (Nat.eqb_spec (length W) (length A)) as [HL|]; [|discriminate]. cbn [bind] in H.
  set (WA := map (fun p => vscale (fst p) (snd p)) (combine W A)) in *.
  assert (length WA = length A) as LWA by (unfold WA; rewrite map_length, combine_length; lia).
  apply bind_ok in H as (WC & EC & H). apply zip_ok in EC as (C1 & C2 & C3).
  destruct (Nat.ltb_spec n cols) as [|Hn]; [discriminate|]. injection H as <- <-. cbn [lw_W sc_G sc_rhs r_AW r_AQc r_wc r_cQc].
  exists W. split; auto. split; auto. split; auto. split; [lia|]. split; auto.
  assert (forall k j, mget WA k j = nth k W 0 * mget A k j) as HS by (intros; apply scaled_rows; auto).
  split; [|split; [|split; [|split]]].
  - intros i j. destruct (Nat.ltb_spec i cols) as [Hi|Hi]; cbn [andb].
    + destruct (Nat.ltb_spec j cols) as [Hj|Hj].
      * rewrite vdot_total, map_length, LWA. apply total_ext. intros k _. rewrite !nth_map_col, !HS. ring.
      * symmetry. apply total_zero. intros k _. rewrite (mget_over cols A k j) by auto. ring.
    + symmetry. apply total_zero. intros k _. rewrite (mget_over cols A k i) by auto. ring.
  - intros j. rewrite pad_nth, tmul_nth by auto. destruct (Nat.ltb_spec j cols) as [Hj|Hj]; auto.
    symmetry. apply total_zero. intros k _. rewrite (mget_over cols A k j) by auto. ring.
  - intros j. rewrite pad_nth, tmul_nth by lia. rewrite LWA. destruct (Nat.ltb_spec j cols) as [Hj|Hj].
    + apply total_ext. intros k Hk. apply in_seq in Hk. rewrite HS, C3 by lia. ring.
    + symmetry. apply total_zero. intros k _. rewrite (mget_over cols A k j) by auto. ring.
  - destruct (n =? cols)%nat; auto. assert (vtotal WC = total (fun x => x) WC) as -> by reflexivity.
    rewrite (total_nth _ _ 0), C2, HL. apply total_ext. intros k Hk. apply in_seq in Hk. apply C3. lia.
  - destruct (n =? cols)%nat; auto. rewrite vdot_total, C2, HL. apply total_ext. intros k Hk. apply in_seq in Hk. rewrite C3 by lia. ring.
Qed.

(** Rows and the values of rows. *)
Lemma row_value_mget A k clique y n : has_cols n A -> (k < length A)%nat ->
  row_value (nth k A []) clique y = total (fun j => mget A k j * nth (nth j clique 0%nat) y 0) (seq 0 n).
Proof.
  intros H Hk. unfold row_value, mget. unfold has_cols in H. rewrite Forall_forall in H. rewrite H by (apply nth_In; auto). auto.
Qed.
Lemma total_seq_cut (f : nat -> R) m n : (m <= n)%nat -> (forall j, (m <= j)%nat -> f j = 0) -> total f (seq 0 n) = total f (seq 0 m).
Proof.
  intros H Hf. replace n with (m + (n - m))%nat by lia. rewrite seq_app, total_app. rewrite (total_zero f (seq (0 + m) (n - m))); [lra|].
  intros j Hj. apply in_seq in Hj. apply Hf. lia.
Qed.

Lemma linear_block_times cols A W clique y n a (G : nat -> nat -> R) : has_cols cols A -> (cols <= n)%nat ->
  (forall i j, G i j = total (fun k => nth k W 0 * nth k W 0 * mget A k i * mget A k j) (seq 0 (length A))) ->
  total (fun b => G (Nat.max a b) (Nat.min a b) * nth (nth b clique 0%nat) y 0) (seq 0 n) =
  total (fun k => mget A k a * (nth k W 0 * nth k W 0 * row_value (nth k A []) clique y)) (seq 0 (length A)).
Proof.
  intros HC Hn HG.
  rewrite (total_ext _ (fun b => total (fun k => mget A k a * (nth k W 0 * nth k W 0 * (mget A k b * nth (nth b clique 0%nat) y 0))) (seq 0 (length A)))).
  - rewrite total_swap. apply total_ext. intros k Hk. apply in_seq in Hk. rewrite (row_value_mget A k clique y cols) by (auto; lia).
    rewrite total_scale. f_equal. rewrite total_scale. f_equal. apply total_seq_cut; auto.
    intros j Hj. rewrite (mget_over cols A k j) by auto. lra.
  - intros b _. rewrite HG, <- total_scale_r. apply total_ext. intros k _.
    destruct (Nat.max_spec a b) as [[M ->]|[M ->]]; destruct (Nat.min_spec a b) as [[N ->]|[N ->]]; try lia; ring.
Qed.

(** ** Equality constraints *)

Lemma equality_schur_ok A b n q : equality_schur A b n = Ok q -> (mcols A + length A <= n)%nat ->
  length b = length A /\
  (forall i j, (j <= i)%nat -> sc_G q i j =
     if ((n - length A <=? i) && (i <? n) && (j <? mcols A))%nat then mget A (i - (n - length A)) j else 0) /\
  (forall j, nth j (r_AW (sc_rhs q)) 0 = 0) /\
  (forall j, nth j (r_AQc (sc_rhs q)) 0 = if (j <? n - length A)%nat then 0 else nth (j - (n - length A)) b 0) /\
  r_wc (sc_rhs q) = 0 /\ r_cQc (sc_rhs q) = 0.
Proof.
  unfold equality_schur. intros H Hs. destruct ((_ || _) || _) eqn:Eb; [discriminate|]. injection H as <-.
  apply orb_false_iff in Eb as [_ E2]. apply negb_false_iff, Nat.eqb_eq in E2. cbn [sc_G sc_rhs r_AW r_AQc r_wc r_cQc].
  split; auto. split.
  - intros i j Hij. destruct (Nat.ltb_spec i (mcols A)) as [Hi|Hi]; cbn [andb]; auto.
    destruct (Nat.leb_spec (n - length A) j) as [Hj|Hj]; cbn [andb]; auto. lia.
  - split; [intros; apply nth_repeat_any|]. split; auto.
    intros j. destruct (Nat.ltb_spec j (n - length A)) as [Hj|Hj].
    + rewrite app_nth1 by (rewrite repeat_length; auto). apply nth_repeat_any.
    + rewrite app_nth2, repeat_length by (rewrite repeat_length; auto). auto.
Qed.

(** Multiplier rows and variable rows of the block. *)
Lemma equality_block_multiplier A n j (G : nat -> nat -> R) clique y : (mcols A + length A <= n)%nat -> has_cols (mcols A) A -> (j < length A)%nat ->
  (forall i k, (k <= i)%nat -> G i k =
     if ((n - length A <=? i) && (i <? n) && (k <? mcols A))%nat then mget A (i - (n - length A)) k else 0) ->
  total (fun b => G (Nat.max (n - length A + j) b) (Nat.min (n - length A + j) b) * nth (nth b clique 0%nat) y 0) (seq 0 n) =
  row_value (nth j A []) clique y.
Proof.
  intros Hn HC Hj HG. rewrite (row_value_mget A j clique y (mcols A)) by auto.
  rewrite (total_seq_cut _ (mcols A) n) by (try lia; intros b Hb;
    rewrite HG by lia; replace (Nat.min (n - length A + j) b <? mcols A)%nat with false by (symmetry; apply Nat.ltb_ge; lia); rewrite andb_false_r; lra).
  apply total_ext. intros b Hb. apply in_seq in Hb. rewrite HG by lia.
  rewrite Nat.max_l, Nat.min_r by lia.
  replace (n - length A <=? n - length A + j)%nat with true by (symmetry; apply Nat.leb_le; lia).
  replace (n - length A + j <? n)%nat with true by (symmetry; apply Nat.ltb_lt; lia).
  replace (b <? mcols A)%nat with true by (symmetry; apply Nat.ltb_lt; lia). cbn [andb].
  replace (n - length A + j - (n - length A))%nat with j by lia. auto.
Qed.

Lemma equality_block_variable A n a (G : nat -> nat -> R) clique y : (mcols A + length A <= n)%nat -> has_cols (mcols A) A -> (a < n - length A)%nat ->
  (forall i k, (k <= i)%nat -> G i k =
     if ((n - length A <=? i) && (i <? n) && (k <? mcols A))%nat then mget A (i - (n - length A)) k else 0) ->
  total (fun b => G (Nat.max a b) (Nat.min a b) * nth (nth b clique 0%nat) y 0) (seq 0 n) =
  total (fun j => mget A j a * nth (nth (n - length A + j) clique 0%nat) y 0) (seq 0 (length A)).
Proof.
  intros Hn HC Ha HG. replace (seq 0 n) with (seq 0 (n - length A + length A)) by (f_equal; lia). rewrite seq_app, total_app.
  rewrite (total_zero _ (seq 0 (n - length A))).
  - replace (seq (0 + (n - length A)) (length A)) with (map (fun j => n - length A + j)%nat (seq 0 (length A))).
    + rewrite total_map, Rplus_0_l. apply total_ext. intros j Hj. apply in_seq in Hj. rewrite HG by lia. rewrite Nat.max_r, Nat.min_l by lia.
      replace (n - length A <=? n - length A + j)%nat with true by (symmetry; apply Nat.leb_le; lia).
      replace (n - length A + j <? n)%nat with true by (symmetry; apply Nat.ltb_lt; lia). cbn [andb].
      replace (n - length A + j - (n - length A))%nat with j by lia.
      destruct (Nat.ltb_spec a (mcols A)); auto. rewrite (mget_over (mcols A) A j a) by auto. auto.
    + rewrite (seq_from (0 + (n - length A))). auto.
  - intros b Hb. apply in_seq in Hb. rewrite HG by lia.
    replace (n - length A <=? Nat.max a b)%nat with false by (symmetry; apply Nat.leb_gt; lia). cbn. lra.
Qed.

(** ** Quadratic costs *)
Lemma quadratic_schur_ok Q n q : quadratic_schur Q n = Ok q ->
  (forall i j, sc_G q i j = if ((i <? length Q) && (j <? mcols Q))%nat then mget Q i j else 0) /\
  (forall j, nth j (r_AW (sc_rhs q)) 0 = 0) /\ (forall j, nth j (r_AQc (sc_rhs q)) 0 = 0) /\
  r_wc (sc_rhs q) = 0 /\ r_cQc (sc_rhs q) = 0.
Proof.
  unfold quadratic_schur. destruct (_ || _); [discriminate|]. intros [= <-]. cbn. repeat split; auto; intros; apply nth_repeat_any.
Qed.
