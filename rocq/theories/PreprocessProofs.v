(** Preprocessing of two-sided inequalities (C40). *)
From Coq Require Import List Arith ZArith Reals Bool Lia Lra.
From Verif Require Import Base BaseFacts ProgramModel PreprocessModel ApiModel Spec_Linear Spec_Preprocess RhsProofs ProgramProofs ConcreteBackend LinearModel
  Spec_Program Spec_Conex.
Import ListNotations.
Open Scope R_scope.

Lemma squared_norm_acc a : forall s, fold_left (fun s x => s + x * x) a s = s + total (fun x => x * x) a.
Proof. induction a as [|x a IH]; intros s; cbn [fold_left]; [unfold total; cbn; lra|]. rewrite IH. unfold total. cbn [fold_right]. lra. Qed.
Lemma squared_norm_total a : squared_norm a = total (fun x => x * x) a.
Proof. unfold squared_norm. rewrite squared_norm_acc. lra. Qed.
Lemma squares_nonneg a : 0 <= total (fun x => x * x) a.
Proof. induction a as [|x a IH]; unfold total in *; cbn [fold_right]; [lra|]. nra. Qed.
Lemma squares_pos a x : In x a -> x <> 0 -> 0 < total (fun x => x * x) a.
Proof.
  induction a as [|z a IH]; [intros []|]. intros [->|H] Hx; pose proof (squares_nonneg a); [|specialize (IH H Hx)]; unfold total in *; cbn [fold_right]; nra.
Qed.
Lemma squares_zero a : (forall x, In x a -> x = 0) -> total (fun x => x * x) a = 0.
Proof. intros H. apply total_zero. intros x Hx. rewrite (H x Hx). lra. Qed.

Lemma row_scale_ok a u k : row_scale a u = Some k -> 0 < k /\ k * k * (squared_norm a + u * u) = 1.
Proof.
  unfold row_scale. destruct (Rlt_dec 0 _) as [H|]; [|discriminate]. intros [= <-]. set (s := squared_norm a + u * u) in *.
  pose proof (sqrt_lt_R0 _ H) as HS. split; [apply Rdiv_lt_0_compat; lra|].
  replace s with (sqrt s * sqrt s) at 3 by (apply sqrt_sqrt; lra). field. lra.
Qed.
Lemma row_scale_some a u : nonzero_row a u <-> exists k, row_scale a u = Some k.
Proof.
  unfold row_scale. rewrite squared_norm_total. pose proof (squares_nonneg a) as HN. destruct (Rlt_dec 0 _) as [H|H].
  - split; [eauto|]. intros _. destruct (Req_EM_T u 0) as [->|]; [|left; auto]. right.
    destruct (Exists_dec (fun x => x <> 0) a) as [E|E].
    { intros x. destruct (Req_EM_T x 0); [right; tauto|left; auto]. }
    + apply Exists_exists in E. destruct E as (x & Hx & Hn). eauto.
    + rewrite squares_zero in H; [lra|]. intros x Hx. destruct (Req_EM_T x 0); auto. exfalso. apply E, Exists_exists. eauto.
  - split; [|intros (k & E); discriminate]. intros [Hu|(x & Hx & Hn)]; exfalso; apply H.
    + assert (0 < u * u) by nra. lra.
    + pose proof (squares_pos _ _ Hx Hn). nra.
Qed.

Lemma product_scale k a y : product (scale_row k a) y = k * product a y.
Proof.
  unfold product, scale_row. rewrite map_length.
  assert (forall l, (forall j, In j l -> (j < length a)%nat) -> total (fun j => nth j (map (fun x => k * x) a) 0 * nth j y 0) l =
    k * total (fun j => nth j a 0 * nth j y 0) l) as H.
  { induction l as [|j l IH]; intros Hl; unfold total in *; cbn [fold_right]; [lra|]. rewrite IH by (intros i Hi; apply Hl; right; auto).
    rewrite (nth_map_lt (fun x => k * x) a j 0 0) by (apply Hl; left; auto). lra. }
  apply H. intros j Hj. apply in_seq in Hj. lia.
Qed.

Lemma upper_app l1 l2 y : upper_rows (l1 ++ l2) y <-> upper_rows l1 y /\ upper_rows l2 y.
Proof. unfold upper_rows. setoid_rewrite in_app_iff. firstorder. Qed.
Lemma equal_app l1 l2 y : equal_rows (l1 ++ l2) y <-> equal_rows l1 y /\ equal_rows l2 y.
Proof. unfold equal_rows. setoid_rewrite in_app_iff. firstorder. Qed.
Lemma upper_one a b y : upper_rows [(a, b)] y <-> product a y <= b.
Proof. split; [intros H; apply H; left; auto|]. intros H a' b' [[= <- <-]|[]]. auto. Qed.
Lemma equal_one a b y : equal_rows [(a, b)] y <-> product a y = b.
Proof. split; [intros H; apply H; left; auto|]. intros H a' b' [[= <- <-]|[]]. auto. Qed.
Lemma scaled_upper k a b y : 0 < k -> (k * product a y <= k * b <-> product a y <= b).
Proof. intros H. split; intros; nra. Qed.
Lemma scaled_equal k a b y : 0 < k -> (k * product a y = k * b <-> product a y = b).
Proof. intros H. split; intros E; [|nra]. apply (Rmult_eq_reg_l k); lra. Qed.
Lemma scaled_lower k a b y : 0 < k -> (- k * product a y <= - k * b <-> b <= product a y).
Proof. intros H. split; intros; nra. Qed.

Definition kept_row (a : list R) (lb ub : R) (y : list R) : Prop :=
  (lb = ub -> product a y = lb) /\ (lb <> ub -> ub < 10 ^ 8 -> product a y <= ub) /\ (lb <> ub -> - 10 ^ 8 < lb -> lb <= product a y).

Lemma pow8 : 10 ^ 8 = 100000000.
Proof. lra. Qed.

Lemma preprocess_row_ok s a lb ub s' y : preprocess_row s a lb ub = Some s' ->
  (upper_rows (sp_ineq s') y /\ equal_rows (sp_eq s') y <-> (upper_rows (sp_ineq s) y /\ equal_rows (sp_eq s) y) /\ kept_row a lb ub y).
Proof.
  unfold preprocess_row, kept_row. rewrite pow8. destruct (Req_EM_T lb ub) as [->|Hne].
  - destruct (row_scale a ub) as [k|] eqn:E; [|discriminate]. intros [= <-]. apply row_scale_ok in E as [Hk _]. cbn [sp_ineq sp_eq].
    rewrite equal_app, equal_one, product_scale, scaled_equal by auto. tauto.
  - destruct (Rlt_dec ub 100000000) as [Hu|Hu]; destruct (Rlt_dec (-100000000) lb) as [Hl|Hl].
    + destruct (row_scale a ub) as [k|] eqn:E; [|discriminate]. destruct (row_scale a lb) as [k'|] eqn:E'; [|discriminate]. intros [= <-].
      apply row_scale_ok in E as [Hk _]. apply row_scale_ok in E' as [Hk' _]. cbn [sp_ineq sp_eq].
      rewrite !upper_app, !upper_one, !product_scale, scaled_upper, scaled_lower by auto. tauto.
    + destruct (row_scale a ub) as [k|] eqn:E; [|discriminate]. intros [= <-]. apply row_scale_ok in E as [Hk _]. cbn [sp_ineq sp_eq].
      rewrite !upper_app, !upper_one, !product_scale, scaled_upper by auto. assert (- 100000000 < lb -> False) by lra. tauto.
    + destruct (row_scale a lb) as [k'|] eqn:E'; [|discriminate]. intros [= <-].
      apply row_scale_ok in E' as [Hk' _]. cbn [sp_ineq sp_eq].
      rewrite !upper_app, !upper_one, !product_scale, scaled_lower by auto. tauto.
    + intros [= <-]. assert (- 100000000 < lb -> False) by lra. tauto.
Qed.

Lemma preprocess_ok rows : forall s s' y, preprocess rows s = Some s' ->
  (upper_rows (sp_ineq s') y /\ equal_rows (sp_eq s') y <-> (upper_rows (sp_ineq s) y /\ equal_rows (sp_eq s) y) /\ kept_bounds_hold rows y).
Proof.
  induction rows as [|[[a lb] ub] t IH]; intros s s' y H; cbn [preprocess] in H.
  - injection H as <-. split; [|tauto]. intros H. split; auto. intros a lb ub [].
  - destruct (preprocess_row s a lb ub) as [s1|] eqn:E; [|discriminate]. rewrite (IH _ _ y H), (preprocess_row_ok _ _ _ _ _ y E).
    split.
    + intros ((H1 & H2) & H3). split; auto. intros a' lb' ub' [[= <- <- <-]|Hin]; [apply H2|apply H3; auto].
    + intros (H1 & H2). split; [split; auto|].
      * apply (H2 a lb ub). left. auto.
      * intros a' lb' ub' Hin. apply H2. right. auto.
Qed.

(** ** When it works *)

Definition used_nonzero (a : list R) (lb ub : R) : Prop :=
  (lb = ub \/ ub < 10 ^ 8 -> nonzero_row a ub) /\ (lb <> ub -> - 10 ^ 8 < lb -> nonzero_row a lb).

Lemma preprocess_row_some s a lb ub : (exists s', preprocess_row s a lb ub = Some s') <-> used_nonzero a lb ub.
Proof.
  unfold preprocess_row, used_nonzero. rewrite pow8, !row_scale_some. destruct (Req_EM_T lb ub) as [->|Hne].
  - destruct (row_scale a ub) as [k|]; split.
    + intros _. split; [eauto|congruence].
    + eauto.
    + intros (? & H). discriminate.
    + intros [H _]. destruct (H (or_introl eq_refl)) as (? & ?). discriminate.
  - assert (lb = ub \/ ub < 100000000 <-> ub < 100000000) as -> by tauto.
    destruct (Rlt_dec ub 100000000) as [Hu|Hu]; destruct (Rlt_dec (-100000000) lb) as [Hl|Hl];
      destruct (row_scale a ub) as [k|]; destruct (row_scale a lb) as [k'|]; split; intros H; eauto;
      try (destruct H as (? & H); discriminate);
      try (destruct H as [H _]; destruct (H Hu) as (? & ?); discriminate);
      try (destruct H as [_ H]; destruct (H Hne Hl) as (? & ?); discriminate);
      (split; intros; eauto; exfalso; lra).
Qed.

Lemma preprocess_some rows : forall s, (exists s', preprocess rows s = Some s') <-> forall a lb ub, In (a, lb, ub) rows -> used_nonzero a lb ub.
Proof.
  induction rows as [|[[a lb] ub] t IH]; intros s; cbn [preprocess].
  - split; [intros _ a lb ub []|eauto].
  - destruct (preprocess_row s a lb ub) as [s1|] eqn:E.
    + rewrite (IH s1). split; [|intros H a' lb' ub' Hin; apply H; right; auto].
      intros H a' lb' ub' [[= <- <- <-]|Hin]; [|apply H; auto]. apply (preprocess_row_some s). eauto.
    + split; [intros (? & ?); discriminate|]. intros H. specialize (H a lb ub (or_introl eq_refl)). apply (preprocess_row_some s) in H as (? & H). congruence.
Qed.

(** ** Size of the rows *)

Definition unit_row (r : list R * R) : Prop := total (fun x => x * x) (fst r) + snd r * snd r = 1.
Lemma squared_scale k a : total (fun x => x * x) (scale_row k a) = k * k * squared_norm a.
Proof.
  rewrite squared_norm_total. unfold scale_row, total in *. induction a as [|x a IH]; cbn [map fold_right]; [lra|]. rewrite IH. lra.
Qed.
Lemma scaled_unit a u k : row_scale a u = Some k -> unit_row (scale_row k a, k * u) /\ unit_row (scale_row (- k) a, - k * u).
Proof. intros E. apply row_scale_ok in E as [_ E]. unfold unit_row. cbn [fst snd]. rewrite !squared_scale. split; nra. Qed.

Definition rows_ok (P : list R * R -> Prop) (s : split_rows) : Prop := Forall P (sp_ineq s) /\ Forall P (sp_eq s).
Lemma preprocess_row_forall (P : list R * R -> Prop) s a lb ub s' :
  (forall u k, row_scale a u = Some k -> P (scale_row k a, k * u) /\ P (scale_row (- k) a, - k * u)) ->
  rows_ok P s -> preprocess_row s a lb ub = Some s' -> rows_ok P s'.
Proof.
  intros HP [H1 H2]. unfold preprocess_row. assert (forall u k, row_scale a u = Some k -> P (scale_row k a, k * u)) as P1 by (intros; apply HP; auto).
  assert (forall u k, row_scale a u = Some k -> P (scale_row (- k) a, - k * u)) as P2 by (intros; apply HP; auto).
  destruct (Req_EM_T lb ub) as [->|Hne].
  - destruct (row_scale a ub) as [k|] eqn:E; [|discriminate]. intros [= <-]. split; cbn; auto. apply Forall_app. auto.
  - destruct (Rlt_dec ub 100000000) as [Hu|Hu]; destruct (Rlt_dec (-100000000) lb) as [Hl|Hl];
      destruct (row_scale a ub) as [k|] eqn:E; try discriminate; destruct (row_scale a lb) as [k'|] eqn:E'; try discriminate; intros [= <-];
      split; cbn; auto; repeat (apply Forall_app; split; auto).
Qed.
Lemma preprocess_forall (P : list R * R -> Prop) rows : forall s s',
  (forall a lb ub, In (a, lb, ub) rows -> forall u k, row_scale a u = Some k -> P (scale_row k a, k * u) /\ P (scale_row (- k) a, - k * u)) ->
  rows_ok P s -> preprocess rows s = Some s' -> rows_ok P s'.
Proof.
  induction rows as [|[[a lb] ub] t IH]; intros s s' HP H0 H; cbn [preprocess] in H; [injection H as <-; auto|].
  destruct (preprocess_row s a lb ub) as [s1|] eqn:E; [|discriminate]. apply (IH s1); auto.
  - intros a' lb' ub' Hin. apply (HP a' lb' ub'). right. auto.
  - eapply preprocess_row_forall; eauto. apply (HP a lb ub). left. auto.
Qed.

(** ** The program *)

Lemma product_row a n extra y : (length a <= n)%nat -> row_value a (map Z.to_nat (map Z.of_nat (seq 0 n)) ++ extra) y = product a y.
Proof.
  intros H. unfold row_value, product. apply total_ext. intros j Hj. apply in_seq in Hj. rewrite app_nth1 by (rewrite !map_length, seq_length; lia).
  rewrite map_map. rewrite (map_ext _ (fun x => x)) by (intros; apply Nat2Z.id). rewrite map_id, seq_nth by lia. reflexivity.
Qed.

Definition block_holds (x : cdata) (vars : list nat) (y : list R) : Prop :=
  match x with CLinear _ A b => inequality_holds A b vars y | CEq A b => equality_holds A b vars y
  | CSoc n A c => lorentz n (cone_slack A c vars y) | CHerm h n As C => herm_psd h n (herm_slack As C vars y) | _ => True end.

Lemma feasible_append p p' x v du reg y : length (p_cliques p) = length (p_eqs p) -> appended p p' x v du reg ->
  length (p_cliques p') = length (p_eqs p') /\ (feasible p' y <-> feasible p y /\ block_holds x (map Z.to_nat v ++ du) y).
Proof.
  intros HL (_ & E1 & E2 & _). split; [rewrite E1, E2, !app_length; cbn; lia|]. unfold feasible. rewrite E1, E2. split.
  - intros H. split.
    + intros i co Hi. pose proof (nth_error_lt _ _ _ Hi) as Hl. specialize (H i co). rewrite nth_error_app1 in H by auto. specialize (H Hi).
      rewrite app_nth1 in H by lia. exact H.
    + specialize (H (length (p_eqs p)) (mkCont x (length du + length v))). rewrite nth_error_app2, Nat.sub_diag in H by lia. specialize (H eq_refl).
      rewrite app_nth2 in H by lia. rewrite HL, Nat.sub_diag in H. exact H.
  - intros [H1 H2] i co Hi. destruct (Nat.ltb_spec i (length (p_eqs p))) as [Hl|Hl].
    + rewrite nth_error_app1 in Hi by auto. rewrite app_nth1 by lia. apply H1; auto.
    + rewrite nth_error_app2 in Hi by auto. destruct (i - length (p_eqs p))%nat as [|k] eqn:Ek; [|destruct k; discriminate].
      injection Hi as <-. cbn [ct_data]. rewrite app_nth2 by lia. rewrite HL, Ek. exact H2.
Qed.

Lemma upper_inequality rows n extra y : Forall (fun r => (length (fst r) <= n)%nat) rows ->
  (inequality_holds (map fst rows) (map snd rows) (map Z.to_nat (map Z.of_nat (seq 0 n)) ++ extra) y <-> upper_rows rows y).
Proof.
  intros HF. rewrite Forall_forall in HF. unfold inequality_holds. rewrite map_length. split.
  - intros H a b Hin. apply (In_nth _ _ ([], 0)) in Hin as Hn. destruct Hn as (k & Hk & Ek). specialize (H k Hk).
    rewrite (nth_map_lt fst rows k [] ([], 0)), (nth_map_lt snd rows k 0 ([], 0)), Ek in H by auto. cbn [fst snd] in H. rewrite product_row in H; auto.
    apply (HF _ Hin).
  - intros H k Hk. rewrite (nth_map_lt fst rows k [] ([], 0)), (nth_map_lt snd rows k 0 ([], 0)) by auto.
    destruct (nth k rows ([], 0)) as [a b] eqn:Ek. assert (In (a, b) rows) as Hin by (rewrite <- Ek; apply nth_In; auto). cbn [fst snd].
    rewrite product_row; [apply H; auto|apply (HF _ Hin)].
Qed.
Lemma equal_equality rows n extra y : Forall (fun r => (length (fst r) <= n)%nat) rows ->
  (equality_holds (map fst rows) (map snd rows) (map Z.to_nat (map Z.of_nat (seq 0 n)) ++ extra) y <-> equal_rows rows y).
Proof.
  intros HF. rewrite Forall_forall in HF. unfold equality_holds. rewrite map_length. split.
  - intros H a b Hin. apply (In_nth _ _ ([], 0)) in Hin as Hn. destruct Hn as (k & Hk & Ek). specialize (H k Hk).
    rewrite (nth_map_lt fst rows k [] ([], 0)), (nth_map_lt snd rows k 0 ([], 0)), Ek in H by auto. cbn [fst snd] in H. rewrite product_row in H; auto.
    apply (HF _ Hin).
  - intros H k Hk. rewrite (nth_map_lt fst rows k [] ([], 0)), (nth_map_lt snd rows k 0 ([], 0)) by auto.
    destruct (nth k rows ([], 0)) as [a b] eqn:Ek. assert (In (a, b) rows) as Hin by (rewrite <- Ek; apply nth_In; auto). cbn [fst snd].
    rewrite product_row; [apply H; auto|apply (HF _ Hin)].
Qed.

Lemma add_inequalities_feasible p cols rows p' r y : length (p_cliques p) = length (p_eqs p) ->
  (forall a lb ub, In (a, lb, ub) rows -> (length a <= p_n p)%nat) ->
  api_step p (AAddLinearInequalities cols rows) = Ok (p', r) ->
  (feasible p' y <-> feasible p y /\ kept_bounds_hold rows y).
Proof.
  intros HL HR E. cbn [api_step] in E. unfold PreprocessLinearInequality in E. destruct (preprocess rows (mkSplit [] [])) as [s|] eqn:Es; [|discriminate].
  pose proof (preprocess_ok _ _ _ y Es) as HS. cbn [sp_ineq sp_eq] in HS.
  assert (rows_ok (fun r => (length (fst r) <= p_n p)%nat) s) as [F1 F2].
  { apply (preprocess_forall _ rows (mkSplit [] [])); [|split; constructor|exact Es]. intros a lb ub Hin u k _. cbn. unfold scale_row. rewrite !map_length.
    split; eapply HR; eauto. }
  apply bind_ok in E as ([p1 s1] & E1 & E). apply bind_ok in E as ([p2 s2] & E2 & E). injection E as <- _.
  assert (p_n p1 = p_n p /\ length (p_cliques p1) = length (p_eqs p1) /\ (feasible p1 y <-> feasible p y /\ upper_rows (sp_ineq s) y)) as (N1 & L1 & G1).
  { destruct (Nat.ltb_spec 0 (length (sp_ineq s))) as [H|H].
    - apply add_cases in E1 as [(_ & _ & HA)|(_ & _ & v & Hv & _)]; [|discriminate]. destruct (feasible_append _ _ _ _ _ _ y HL HA) as [G1 G2].
      split; [apply HA|]. split; auto. rewrite G2. cbn [block_holds list_of new_duals]. unfold all_variables. rewrite upper_inequality by auto. tauto.
    - injection E1 as <- _. split; auto. split; auto. destruct (sp_ineq s); [|cbn in H; lia]. split; [|tauto]. intros; split; auto. intros a b []. }
  assert (feasible p2 y <-> feasible p1 y /\ equal_rows (sp_eq s) y) as G2.
  { destruct (Nat.ltb_spec 0 (length (sp_eq s))) as [H|H].
    - apply add_cases in E2 as [(_ & _ & HA)|(_ & _ & v & Hv & _)]; [|discriminate]. destruct (feasible_append _ _ _ _ _ _ y L1 HA) as [_ G2].
      rewrite G2. cbn [block_holds list_of new_duals]. unfold all_variables. rewrite N1, equal_equality by auto. tauto.
    - injection E2 as <- _. destruct (sp_eq s); [|cbn in H; lia]. split; [|tauto]. intros; split; auto. intros a b []. }
  rewrite G2, G1. assert (upper_rows [] y /\ equal_rows [] y) as H0 by (split; intros a b []). tauto.
Qed.
