(** Linear programs of clients of the C interface (C71). *)
From Coq Require Import List Arith ZArith Reals Bool Lia Lra.
From Verif Require Import Base BaseFacts LayoutModel SupernodeModel TriWorkspaceModel AssemblerModel KktModel Spec_Assembly
  ProgramModel PreprocessModel ApiModel Spec_Program ProgramProofs ProgramRun Prop_Program SolveModel LinearModel ConcreteBackend
  Spec_Linear Spec_Solve Spec_Preprocess Spec_Conex RhsProofs PreprocessProofs ConexBuilt ConexTotal PrivateFacts ClientModel Spec_Client ClientFacts.
Import ListNotations.
Open Scope R_scope.

(** ** Preprocessed rows *)

Record row_split (s : split_rows) (a : list R) (lb ub : R) (s' : split_rows) (li le : list (list R * R)) : Prop := {
  rs_ineq : sp_ineq s' = sp_ineq s ++ li;
  rs_eq : sp_eq s' = sp_eq s ++ le;
  rs_count : length li = bound_count lb ub;
  rs_equal : le <> [] <-> lb = ub;
  rs_any : counts lb ub -> li ++ le <> [];
  rs_scaled : forall r, In r (li ++ le) -> exists k, k <> 0 /\ fst r = scale_row k a
}.

Lemma pow8' : 10 ^ 8 = 100000000.
Proof. lra. Qed.

Lemma preprocess_row_split s a lb ub s' : preprocess_row s a lb ub = Some s' -> exists li le, row_split s a lb ub s' li le.
Proof.
  assert (forall u k, row_scale a u = Some k -> k <> 0 /\ - k <> 0) as HK.
  { intros u k E. apply row_scale_ok in E as [Hk _]. split; lra. }
  unfold preprocess_row. destruct (Req_EM_T lb ub) as [E0|Hne].
  - destruct (row_scale a ub) as [k|] eqn:E; [|discriminate]. intros [= <-]. destruct (HK _ _ E) as [K1 K2].
    exists [], [(scale_row k a, k * ub)]. split; cbn; rewrite ?app_nil_r; auto.
    + unfold bound_count. destruct (Req_EM_T lb ub); tauto.
    + split; [auto|discriminate].
    + discriminate.
    + intros r [<-|[]]. cbn. eauto.
  - assert (bound_count lb ub = (if Rlt_dec ub 100000000 then 1 else 0) + (if Rlt_dec (-100000000) lb then 1 else 0))%nat as HB.
    { unfold bound_count. destruct (Req_EM_T lb ub); [tauto|].
      destruct (Rlt_dec ub (10 ^ 8)), (Rlt_dec ub 100000000), (Rlt_dec (- 10 ^ 8) lb), (Rlt_dec (-100000000) lb); auto; exfalso; lra. }
    assert (counts lb ub -> ub < 100000000 \/ -100000000 < lb) as HC.
    { unfold counts. rewrite pow8'. intros [?|[?|?]]; [tauto|lra|lra]. }
    destruct (Rlt_dec ub 100000000) as [Hu|Hu]; destruct (Rlt_dec (-100000000) lb) as [Hl|Hl].
    + destruct (row_scale a ub) as [k|] eqn:E; [|discriminate]. destruct (row_scale a lb) as [k'|] eqn:E'; [|discriminate]. intros [= <-].
      destruct (HK _ _ E) as [K1 K2], (HK _ _ E') as [K3 K4].
      exists [(scale_row k a, k * ub); (scale_row (- k') a, - k' * lb)], []. split; cbn; rewrite ?app_nil_r, <- ?app_assoc; auto; try discriminate.
      * split; tauto.
      * intros r [<-|[<-|[]]]; cbn; eauto.
    + destruct (row_scale a ub) as [k|] eqn:E; [|discriminate]. intros [= <-]. destruct (HK _ _ E) as [K1 K2].
      exists [(scale_row k a, k * ub)], []. split; cbn; rewrite ?app_nil_r, <- ?app_assoc; auto; try discriminate.
      * split; tauto.
      * intros r [<-|[]]; cbn; eauto.
    + destruct (row_scale a lb) as [k|] eqn:E; [|discriminate]. intros [= <-]. destruct (HK _ _ E) as [K1 K2].
      exists [(scale_row (- k) a, - k * lb)], []. split; cbn; rewrite ?app_nil_r, <- ?app_assoc; auto; try discriminate.
      * split; tauto.
      * intros r [<-|[]]; cbn; eauto.
    + intros [= <-]. exists [], []. split; cbn; rewrite ?app_nil_r; auto.
      * split; tauto.
      * intros H. apply HC in H. tauto.
      * intros r [].
Qed.

Definition vanish (l : list (list R * R)) (z : list R) : Prop := forall r, In r l -> product (fst r) z = 0.
Lemma vanish_app l1 l2 z : vanish (l1 ++ l2) z <-> vanish l1 z /\ vanish l2 z.
Proof. unfold vanish. setoid_rewrite in_app_iff. firstorder. Qed.

Lemma preprocess_split rows : forall s s', preprocess rows s = Some s' ->
  length (sp_ineq s') = (length (sp_ineq s) + list_sum (map (fun r => bound_count (snd (fst r)) (snd r)) rows))%nat /\
  (sp_eq s' <> [] <-> sp_eq s <> [] \/ exists a lb ub, In (a, lb, ub) rows /\ lb = ub) /\
  ((exists a lb ub, In (a, lb, ub) rows /\ counts lb ub) -> sp_ineq s' ++ sp_eq s' <> []) /\
  (sp_ineq s ++ sp_eq s <> [] -> sp_ineq s' ++ sp_eq s' <> []) /\
  forall z, vanish (sp_ineq s') z -> vanish (sp_eq s') z ->
    vanish (sp_ineq s) z /\ vanish (sp_eq s) z /\ forall a lb ub, In (a, lb, ub) rows -> counts lb ub -> product a z = 0.
Proof.
  induction rows as [|[[a lb] ub] t IH]; intros s s' H; cbn [preprocess] in H.
  - injection H as <-. cbn. split; [lia|]. split; [split; [auto|intros [?|(a & lb & ub & [] & _)]; auto]|].
    split; [intros (a & lb & ub & [] & _)|]. split; [auto|]. intros z H1 H2. split; auto. split; auto. intros a lb ub [].
  - destruct (preprocess_row s a lb ub) as [s1|] eqn:E; [|discriminate].
    apply preprocess_row_split in E as (li & le & [R1 R2 R3 R4 R5 R6]). destruct (IH _ _ H) as (I1 & I2 & I3 & I4 & I5).
    split; [|split; [|split; [|split]]].
    + rewrite I1, R1, app_length, R3. cbn [map list_sum fold_right fst snd]. unfold list_sum. cbn [fold_right]. lia.
    + rewrite I2, R2. split.
      * intros [HE|(a' & lb' & ub' & Hin & He)]; [|right; exists a', lb', ub'; split; auto; right; auto].
        destruct (sp_eq s) as [|x l]; [|left; discriminate]. cbn in HE. right. exists a, lb, ub. split; [left; auto|]. apply R4; auto.
      * intros [HE|(a' & lb' & ub' & [[= <- <- <-]|Hin] & He)].
        -- left. destruct (sp_eq s); [tauto|discriminate].
        -- left. apply R4 in He. destruct le; [tauto|]. destruct (sp_eq s); discriminate.
        -- right. eauto 6.
    + intros (a' & lb' & ub' & [[= <- <- <-]|Hin] & Hc); [|eauto 6].
      apply I4. rewrite R1, R2. specialize (R5 Hc). destruct li as [|x li]; [|destruct (sp_ineq s); discriminate].
      cbn in R5. destruct le as [|x le]; [tauto|]. destruct (sp_ineq s), (sp_eq s); discriminate.
    + intros HN. apply I4. rewrite R1, R2. destruct (sp_ineq s); [|discriminate]. cbn in *. destruct (sp_eq s); [tauto|]. destruct li; discriminate.
    + intros z H1 H2. destruct (I5 z H1 H2) as (V1 & V2 & V3). rewrite R1 in V1. rewrite R2 in V2.
      apply vanish_app in V1 as [V1 V1']. apply vanish_app in V2 as [V2 V2']. split; auto. split; auto.
      intros a' lb' ub' [[= <- <- <-]|Hin] Hc; [|eauto]. specialize (R5 Hc).
      assert (exists r, In r (li ++ le)) as (r & Hr) by (destruct (li ++ le) as [|r l]; [tauto|exists r; left; auto]).
      destruct (R6 r Hr) as (k & Hk & Ef).
      assert (product (fst r) z = 0) as Hz by (apply in_app_iff in Hr as [Hr|Hr]; auto).
      rewrite Ef, product_scale in Hz. apply Rmult_integral in Hz as [|]; tauto.
Qed.

(** ** The constraints of a client *)

Definition group_data (n : nat) (g : group) : list cdata :=
  match g with
  | Upper A b => [CLinear n A b]
  | Between rows =>
      match PreprocessLinearInequality rows with
      | None => []
      | Some s => (if (0 <? length (sp_ineq s))%nat then [CLinear n (map fst (sp_ineq s)) (map snd (sp_ineq s))] else []) ++
                  (if (0 <? length (sp_eq s))%nat then [CEq (map fst (sp_eq s)) (map snd (sp_eq s))] else [])
      end
  end.
Definition sized_data (n : nat) (x : cdata) : Prop :=
  match x with
  | CLinear cols A b => cols = n /\ A <> [] /\ length b = length A /\ has_cols n A
  | CEq A b => A <> [] /\ length b = length A /\ has_cols n A
  | _ => False
  end.
Definition data_holds (x : cdata) (y : list R) : Prop :=
  match x with
  | CLinear _ A b => forall k, (k < length A)%nat -> product (nth k A []) y <= nth k b 0
  | CEq A b => forall k, (k < length A)%nat -> product (nth k A []) y = nth k b 0
  | _ => True
  end.
Definition data_flat (x : cdata) (z : list R) : Prop :=
  match x with
  | CLinear _ A b | CEq A b => forall a, In a A -> product a z = 0
  | _ => True
  end.
Definition data_count (x : cdata) : nat := match x with CLinear _ A _ => length A | _ => 0%nat end.

Lemma between_some n rows : group_ok n (Between rows) -> exists s, PreprocessLinearInequality rows = Some s.
Proof. intros H. apply preprocess_some. intros a lb ub Hin. apply (H a lb ub Hin). Qed.

Lemma between_cols n rows s : group_ok n (Between rows) -> PreprocessLinearInequality rows = Some s ->
  has_cols n (map fst (sp_ineq s)) /\ has_cols n (map fst (sp_eq s)).
Proof.
  intros H E. assert (rows_ok (fun r => length (fst r) = n) s) as [H1 H2].
  { apply (preprocess_forall _ rows (mkSplit [] [])); [|split; constructor|exact E]. intros a lb ub Hin u k _. cbn. unfold scale_row. rewrite !map_length.
    split; apply (H a lb ub Hin). }
  unfold has_cols. rewrite !Forall_map. auto.
Qed.

Lemma group_sized n g : group_ok n g -> Forall (sized_data n) (group_data n g).
Proof.
  destruct g as [A b|rows]; intros H.
  - constructor; auto. cbn in *. tauto.
  - destruct (between_some n rows H) as (s & E). cbn [group_data]. rewrite E. destruct (between_cols n rows s H E) as [H1 H2].
    apply Forall_app. split; [destruct (Nat.ltb_spec 0 (length (sp_ineq s))) as [Hl|]|destruct (Nat.ltb_spec 0 (length (sp_eq s))) as [Hl|]];
      constructor; try constructor; cbn; rewrite ?map_length; repeat split; auto; intros E'; apply (f_equal (@length _)) in E'; rewrite map_length in E'; cbn in E'; lia.
Qed.

Lemma upper_list rows y : (forall k, (k < length (map (@fst (list R) R) rows))%nat -> product (nth k (map fst rows) []) y <= nth k (map snd rows) 0) <-> upper_rows rows y.
Proof.
  rewrite map_length. split.
  - intros H a b Hin. apply (In_nth _ _ ([], 0)) in Hin as (k & Hk & Ek). specialize (H k Hk).
    rewrite (nth_map_lt fst rows k [] ([], 0)), (nth_map_lt snd rows k 0 ([], 0)), Ek in H by auto. exact H.
  - intros H k Hk. rewrite (nth_map_lt fst rows k [] ([], 0)), (nth_map_lt snd rows k 0 ([], 0)) by auto. apply H.
    rewrite <- surjective_pairing. apply nth_In. auto.
Qed.
Lemma equal_list rows y : (forall k, (k < length (map (@fst (list R) R) rows))%nat -> product (nth k (map fst rows) []) y = nth k (map snd rows) 0) <-> equal_rows rows y.
Proof.
  rewrite map_length. split.
  - intros H a b Hin. apply (In_nth _ _ ([], 0)) in Hin as (k & Hk & Ek). specialize (H k Hk).
    rewrite (nth_map_lt fst rows k [] ([], 0)), (nth_map_lt snd rows k 0 ([], 0)), Ek in H by auto. exact H.
  - intros H k Hk. rewrite (nth_map_lt fst rows k [] ([], 0)), (nth_map_lt snd rows k 0 ([], 0)) by auto. apply H.
    rewrite <- surjective_pairing. apply nth_In. auto.
Qed.

Lemma group_same n g y : group_ok n g -> ((forall x, In x (group_data n g) -> data_holds x y) <-> group_holds g y).
Proof.
  destruct g as [A b|rows]; intros H.
  - cbn. split; [intros HX; apply (HX (CLinear n A b)); auto|]. intros HX x [<-|[]]. auto.
  - destruct (between_some n rows H) as (s & E). cbn [group_data group_holds]. rewrite E.
    pose proof (preprocess_ok _ _ _ y E) as HP. cbn in HP.
    assert (upper_rows [] y /\ equal_rows [] y) as H0 by (split; intros a b []).
    assert (kept_bounds_hold rows y <-> upper_rows (sp_ineq s) y /\ equal_rows (sp_eq s) y) as HK by tauto. rewrite HK, <- upper_list, <- equal_list. split.
    + intros HX. split.
      * intros k Hk. specialize (HX (CLinear n (map fst (sp_ineq s)) (map snd (sp_ineq s)))). cbn [data_holds] in HX. apply HX; auto.
        apply in_app_iff. left. rewrite map_length in Hk. destruct (Nat.ltb_spec 0 (length (sp_ineq s))); [left; auto|lia].
      * intros k Hk. specialize (HX (CEq (map fst (sp_eq s)) (map snd (sp_eq s)))). cbn [data_holds] in HX. apply HX; auto.
        apply in_app_iff. right. rewrite map_length in Hk. destruct (Nat.ltb_spec 0 (length (sp_eq s))); [left; auto|lia].
    + intros [HA HB] x Hx. apply in_app_iff in Hx as [Hx|Hx]; (destruct (_ <? _)%nat in Hx; [destruct Hx as [<-|[]]; auto|destruct Hx]).
Qed.

Lemma group_flat_data n g z : group_ok n g -> (forall x, In x (group_data n g) -> data_flat x z) -> group_flat g z.
Proof.
  destruct g as [A b|rows]; intros H HX.
  - apply (HX (CLinear n A b)). left. auto.
  - destruct (between_some n rows H) as (s & E). cbn [group_data group_flat] in *. rewrite E in HX.
    destruct (preprocess_split _ _ _ E) as (_ & _ & _ & _ & HV). apply (HV z).
    + intros r Hr. apply (HX (CLinear n (map fst (sp_ineq s)) (map snd (sp_ineq s)))); [|cbn; apply in_map; auto].
      apply in_app_iff. left. destruct (Nat.ltb_spec 0 (length (sp_ineq s))); [left; auto|]. destruct (sp_ineq s); [destruct Hr|cbn in *; lia].
    + intros r Hr. apply (HX (CEq (map fst (sp_eq s)) (map snd (sp_eq s)))); [|cbn; apply in_map; auto].
      apply in_app_iff. right. destruct (Nat.ltb_spec 0 (length (sp_eq s))); [left; auto|]. destruct (sp_eq s); [destruct Hr|cbn in *; lia].
Qed.

Lemma group_count_data n g : group_ok n g -> list_sum (map data_count (group_data n g)) = group_count g.
Proof.
  destruct g as [A b|rows]; intros H; [cbn; lia|].
  destruct (between_some n rows H) as (s & E). cbn [group_data group_count]. rewrite E.
  destruct (preprocess_split _ _ _ E) as (HL & _). cbn in HL. rewrite <- HL, map_app, list_sum_app.
  destruct (Nat.ltb_spec 0 (length (sp_ineq s))), (Nat.ltb_spec 0 (length (sp_eq s))); cbn; rewrite ?map_length; lia.
Qed.

Lemma group_restricts n g : group_ok n g -> restricts g -> group_data n g <> [].
Proof.
  destruct g as [A b|rows]; intros H HR; [discriminate|].
  destruct (between_some n rows H) as (s & E). cbn [group_data restricts] in *. rewrite E.
  destruct (preprocess_split _ _ _ E) as (_ & _ & HN & _). specialize (HN HR).
  destruct (sp_ineq s) as [|x l]; [|discriminate]. cbn in *. destruct (sp_eq s); [tauto|discriminate].
Qed.

Lemma group_equates n g : group_ok n g -> ((exists A b, In (CEq A b) (group_data n g)) <-> equates g).
Proof.
  destruct g as [A b|rows]; intros H.
  - cbn. split; [|tauto]. intros (A' & b' & [HE|[]]). discriminate.
  - destruct (between_some n rows H) as (s & E). cbn [group_data equates] in *. rewrite E.
    destruct (preprocess_split _ _ _ E) as (_ & HN & _). cbn in HN.
    assert (sp_eq s <> [] <-> exists a lb ub, In (a, lb, ub) rows /\ lb = ub) as HN' by (split; [intros H1; apply HN in H1 as [|]; tauto|intros H1; apply HN; auto]).
    rewrite <- HN'. split.
    + intros (A & b & Hin). apply in_app_iff in Hin as [Hin|Hin].
      * destruct (_ <? _)%nat in Hin; [destruct Hin as [Hin|[]]; discriminate|destruct Hin].
      * destruct (sp_eq s); [destruct Hin|discriminate].
    + intros HS. exists (map fst (sp_eq s)), (map snd (sp_eq s)). apply in_app_iff. right. destruct (sp_eq s); [tauto|left; auto].
Qed.

(** ** The program of a client *)

Lemma group_step n p g : shared n p -> group_ok n g -> exists p' r, api_step p (group_call n g) = Ok (p', r) /\
  map ct_data (p_eqs p') = map ct_data (p_eqs p) ++ group_data n g /\ p_quadratic p' = p_quadratic p /\ p_init p' = p_init p.
Proof.
  assert (forall q lv x, exists q', AddConstraint q lv x None = Ok (q', SUCCESS) /\
    map ct_data (p_eqs q') = map ct_data (p_eqs q) ++ [x] /\ p_quadratic q' = p_quadratic q /\ p_init q' = p_init q) as HA.
  { intros q lv x. destruct (add_all q lv x) as (q' & E & Ha). exists q'. split; auto. pose proof (appended_rest _ _ _ _ _ _ Ha) as (HR & _ & HQ).
    assert (p_init q' = p_init q) as HR1 by (unfold rest in HR; congruence). split; [|auto].
    apply appended_m in Ha as (_ & E2 & _). rewrite E2, map_app. reflexivity. }
  intros S H. destruct g as [A b|rows]; cbn [group_call api_step].
  - destruct (HA p true (CLinear n A b)) as (q & E & E2 & E3 & E4). rewrite E. cbn [bind]. eauto 8.
  - destruct (between_some n rows H) as (s & E). cbn [group_data]. rewrite E.
    destruct (Nat.ltb_spec 0 (length (sp_ineq s))) as [H1|H1], (Nat.ltb_spec 0 (length (sp_eq s))) as [H2|H2]; cbn [bind].
    + destruct (HA p false (CLinear n (map fst (sp_ineq s)) (map snd (sp_ineq s)))) as (q & Eq & E2 & E3 & E4). rewrite Eq. cbn [bind].
      destruct (HA q false (CEq (map fst (sp_eq s)) (map snd (sp_eq s)))) as (q2 & Eq2 & F2 & F3 & F4). rewrite Eq2. cbn [bind].
      eexists _, _. split; [reflexivity|]. rewrite F2, E2, <- app_assoc. split; [reflexivity|]. split; congruence.
    + destruct (HA p false (CLinear n (map fst (sp_ineq s)) (map snd (sp_ineq s)))) as (q & Eq & E2 & E3 & E4). rewrite Eq. cbn [bind].
      eexists _, _. split; [reflexivity|]. rewrite E2. split; [reflexivity|]. split; congruence.
    + destruct (HA p false (CEq (map fst (sp_eq s)) (map snd (sp_eq s)))) as (q2 & Eq2 & F2 & F3 & F4). rewrite Eq2. cbn [bind].
      eexists _, _. split; [reflexivity|]. rewrite F2. split; [reflexivity|]. split; congruence.
    + eexists _, _. split; [reflexivity|]. cbn. rewrite app_nil_r. auto.
Qed.

Lemma group_whole n g : whole_list (group_call n g).
Proof. destruct g; exact I. Qed.

Lemma groups_run n : forall gs p, (0 < n)%nat -> shared n p -> Forall (group_ok n) gs -> exists p' rs, api_run p (map (group_call n) gs) = Ok (p', rs) /\
  map ct_data (p_eqs p') = map ct_data (p_eqs p) ++ flat_map (group_data n) gs /\ p_quadratic p' = p_quadratic p.
Proof.
  induction gs as [|g gs IH]; intros p Hn S F; cbn [map api_run flat_map].
  - exists p, []. rewrite app_nil_r. auto.
  - inversion F as [|g' gs' Hg F']; subst. destruct (group_step n p g S Hg) as (p1 & r & E1 & E2 & E3 & _). rewrite E1. cbn [bind].
    destruct (IH p1 Hn) as (p2 & rs & E4 & E5 & E6); auto. { eapply shared_step; eauto using group_whole. }
    rewrite E4. cbn [bind]. eexists _, _. split; [reflexivity|]. rewrite E5, E2, <- app_assoc. split; congruence.
Qed.

Lemma create_run n ks : (0 < n)%nat -> api_run CONEX_CreateConeProgram (ASetNumberOfVariables (Z.of_nat n) :: ks) =
  ('(p, rs) <- api_run (new_program n) ks ;; Ok (p, mkReply SUCCESS None :: rs)).
Proof.
  intros Hn. cbn [api_run api_step]. destruct (Z.leb_spec 1 (Z.of_nat n)); [|lia]. cbn -[new_program Z.of_nat].
  rewrite Nat2Z.id. reflexivity.
Qed.

Lemma client_run n gs : (0 < n)%nat -> Forall (group_ok n) gs -> exists p rs,
  api_run CONEX_CreateConeProgram (client_calls n gs) = Ok (p, rs).
Proof.
  intros Hn F. unfold client_calls. rewrite create_run by auto. destruct (groups_run n gs (new_program n) Hn (shared_new n) F) as (p & rs & E & _).
  rewrite E. cbn [bind]. eauto.
Qed.

Lemma objective_run n ks p rs b : api_run (new_program n) ks = Ok (p, rs) ->
  exists rs', api_run (new_program n) (ks ++ [PClearLinearCosts; PAddLinearCost (map Ropp b)]) = Ok (set_objective p b, rs').
Proof.
  intros E. assert (forall k1 k2 p0 p1 r1, api_run p0 k1 = Ok (p1, r1) -> api_run p0 (k1 ++ k2) = ('(p2, r2) <- api_run p1 k2 ;; Ok (p2, r1 ++ r2))) as HA.
  { induction k1 as [|k k1 IH]; intros k2 p0 p1 r1 E1.
    - cbn in E1. injection E1 as <- <-. cbn. destruct (api_run p0 k2) as [[]| | |]; reflexivity.
    - apply run_cons in E1 as (q & r & rs' & E1 & E2 & ->). cbn [app api_run]. rewrite E1. cbn [bind]. rewrite (IH k2 _ _ _ E2).
      destruct (api_run p1 k2) as [[]| | |]; reflexivity. }
  rewrite (HA _ _ _ _ _ E). cbn [api_run api_step bind]. unfold set_objective. destruct (AddLinearCost (ClearLinearCosts p) (map Ropp b)) as [q s]. cbn. eauto.
Qed.

Record client (n : nat) (gs : list group) (b : list R) (p : program) : Prop := {
  cl_shared : shared n p;
  cl_built : p_eqs p <> [] -> well_built p;
  cl_listed : listed p;
  cl_owned : owned p;
  cl_data : map ct_data (p_eqs p) = flat_map (group_data n) gs;
  cl_quadratic : p_quadratic p = false;
  cl_cost : length (p_cost p) = n;
  cl_value : length b = n -> forall v, nth v (p_cost p) 0 = - nth v b 0
}.

Lemma vadd_zero a b : length a = length b -> vadd (map (fun _ : R => 0) a) b = b.
Proof. revert b. induction a as [|x a IH]; intros [|y b] H; cbn in *; try discriminate; auto. rewrite IH by lia. f_equal. lra. Qed.

Lemma client_program n gs p rs b : (0 < n)%nat -> Forall (group_ok n) gs ->
  api_run CONEX_CreateConeProgram (client_calls n gs) = Ok (p, rs) -> client n gs b (set_objective p b).
Proof.
  intros Hn F E. unfold client_calls in E. rewrite create_run in E by auto. apply bind_ok in E as ([q rs0] & E & E'). injection E' as <- <-.
  destruct (groups_run n gs (new_program n) Hn (shared_new n) F) as (q' & rs' & E1 & E2 & E3). rewrite E in E1. injection E1 as <- <-.
  destruct (objective_run n _ _ _ b E) as (rs1 & E4).
  assert (Forall whole_list (map (group_call n) gs ++ [PClearLinearCosts; PAddLinearCost (map Ropp b)])) as FW.
  { apply Forall_app. split; [apply Forall_map, Forall_forall; intros; apply group_whole|repeat constructor]. }
  pose proof (C23_linear_cost n _ _ _ (or_introl Hn) E) as [LC _].
  assert (p_eqs (set_objective q b) = p_eqs q /\ p_quadratic (set_objective q b) = p_quadratic q) as [EE EQ].
  { unfold set_objective, AddLinearCost. destruct (negb _); auto. }
  pose proof (shared_run n _ _ _ _ Hn (shared_new n) FW E4) as SH.
  split.
  - exact SH.
  - intros He. eapply shared_well; eauto.
  - eapply built_listed; eauto.
  - eapply built_multipliers; eauto. apply Forall_app. split; [|repeat constructor; auto].
    apply Forall_map, Forall_forall. intros g _. destruct g; cbn; auto.
  - rewrite EE, E2. reflexivity.
  - rewrite EQ, E3. reflexivity.
  - apply (C23_linear_cost n _ _ _ (or_introl Hn) E4).
  - intros Hb v. unfold set_objective, AddLinearCost.
    assert (p_n (ClearLinearCosts q) = n) as Hq. { pose proof (shared_run n _ _ _ _ Hn (shared_new n) (proj1 (proj1 (Forall_app _ _ _) FW)) E). apply H. }
    rewrite Hq, map_length, Hb, Nat.eqb_refl. cbn. rewrite vadd_zero by (rewrite map_length; congruence).
    destruct (Nat.lt_ge_cases v (length b)) as [Hl|Hl]; [rewrite (nth_map_lt Ropp b v 0 0) by auto; reflexivity|].
    rewrite !nth_overflow by (rewrite ?map_length; lia). lra.
Qed.
