(** Solves of a client's conic program (C72). *)
From Coq Require Import List Arith ZArith Reals Bool Lia Lra.
From Verif Require Import Base BaseFacts LayoutModel SupernodeModel TriWorkspaceModel AssemblerModel KktModel Spec_Assembly
  ProgramModel PreprocessModel ApiModel Spec_Program ProgramProofs ProgramRun SolveModel LinearModel ConcreteBackend
  Spec_Linear Spec_Solve Spec_Preprocess Spec_Conex Spec_Semidefinite RhsProofs PreprocessProofs ConexBuilt ConexStep ConexTotal ConexOutcome PrivateFacts ClientModel
  Spec_Client Spec_Conic ClientFacts ClientProofs ClientRun ConicWrites ConicProofs HyperFacts HermLinks Prop_Conex.
From Verif Require CoeffProofs ConexGap.
From Verif Require Spec_Hyper Prop_Cones Prop_Semidefinite.
Import ListNotations.
Open Scope R_scope.

(** ** One group *)

Definition csized (n : nat) (x : cdata) : Prop :=
  match x with
  | CSoc m A c => (0 < m)%nat /\ length A = n /\ c <> []
  | CHerm h m As C => (0 < m)%nat /\ (h = 1 \/ h = 2 \/ h = 4)%nat /\ length As = n /\ Forall (hermitian_entries h m) (C :: As)
  | CQuad Q => length Q = n /\ forall row, In row Q -> length row = n
  | _ => sized_data n x
  end.
Definition cholds (n : nat) (x : cdata) (y : list R) : Prop :=
  match x with
  | CSoc m A c => lorentz m (cone_slack A c (seq 0 n) y)
  | CHerm h m As C => herm_psd h m (herm_slack As C (seq 0 n) y)
  | CQuad _ => True
  | _ => data_holds x y
  end.
Definition cflat (n : nat) (x : cdata) (z : list R) : Prop :=
  match x with
  | CSoc m A c => forall k, (k <= m)%nat -> column_value A (seq 0 n) z k = 0
  | CHerm h m As C => forall t r c, (t < h)%nat -> (r < m)%nat -> (c < m)%nat ->
      total (fun j => component (nth j As []) t r c * nth (nth j (seq 0 n) 0%nat) z 0) (seq 0 (length As)) = 0
  | CQuad Q => quadratic_form Q (seq 0 n) z = 0
  | _ => data_flat x z
  end.
Definition ccount (x : cdata) : nat := match x with CSoc _ _ _ => 2%nat | CHerm _ m _ _ => m | CQuad _ => 0%nat | _ => data_count x end.
Definition qvalue (n : nat) (y : list R) (x : cdata) : R := match x with CQuad Q => quadratic_form Q (seq 0 n) y | _ => 0 end.
Definition gvalue (n : nat) (y : list R) (g : cgroup) : R := match g with Cost l => cost_at n l y | _ => 0 end.

Lemma sized_csized n x : sized_data n x -> csized n x.
Proof. destruct x; cbn; tauto. Qed.
Lemma sized_holds n x y : sized_data n x -> (cholds n x y <-> data_holds x y).
Proof. destruct x; cbn; tauto. Qed.
Lemma sized_flat n x y : sized_data n x -> (cflat n x y <-> data_flat x y).
Proof. destruct x; cbn; tauto. Qed.
Lemma sized_count n x : sized_data n x -> ccount x = data_count x.
Proof. destruct x; cbn; tauto. Qed.

Lemma lorentz_ext m s s' : (forall k, (k <= m)%nat -> s k = s' k) -> lorentz m s <-> lorentz m s'.
Proof.
  intros H. unfold lorentz. rewrite (H 0%nat) by lia. rewrite (total_ext (fun k => s k * s k) (fun k => s' k * s' k)); [tauto|].
  intros k Hk. apply in_seq in Hk. rewrite (H k) by lia. reflexivity.
Qed.
Lemma psd_ext h m X X' : (forall t r c, (t < h)%nat -> (r < m)%nat -> (c < m)%nat -> X t r c = X' t r c) -> herm_psd h m X <-> herm_psd h m X'.
Proof.
  assert (forall X X', (forall t r c, (t < h)%nat -> (r < m)%nat -> (c < m)%nat -> X t r c = X' t r c) -> herm_psd h m X -> herm_psd h m X') as HI.
  { intros Y Y' H (k & Hk & -> & [H1 H2]). exists k. split; auto. split; auto.
    assert (Spec_Hyper.same_matrix m (Spec_Hyper.matrix_of k Y) (Spec_Hyper.matrix_of k Y')) as HS by (apply matrix_of_same; auto). split.
    - intros r c Hr Hc. unfold Spec_Hyper.mconj. rewrite <- (HS c r), <- (HS r c) by auto. apply (H1 r c Hr Hc).
    - intros z. rewrite <- (form_same _ m _ _ z HS). auto. }
  intros H. split; apply HI; auto. intros. symmetry. auto.
Qed.

Lemma cone_slack_at n m A c y k : length A = n -> cone_slack A c (seq 0 n) y k = slack_at n (fun v => value_at (CSoc m A c) (mkPlace v k 0 0)) y.
Proof.
  intros L. unfold cone_slack, column_value, slack_at. cbn. rewrite L. f_equal. apply total_ext. intros j Hj. apply in_seq in Hj. rewrite seq_nth by lia. reflexivity.
Qed.
Lemma column_at n m A c y k : length A = n -> column_value A (seq 0 n) y k = total (fun j => value_at (CSoc m A c) (mkPlace (Some j) k 0 0) * nth j y 0) (seq 0 n).
Proof.
  intros L. unfold column_value. cbn. rewrite L. apply total_ext. intros j Hj. apply in_seq in Hj. rewrite seq_nth by lia. reflexivity.
Qed.
Lemma matrix_column_at n h m As C y t r c : length As = n ->
  total (fun j => component (nth j As []) t r c * nth (nth j (seq 0 n) 0%nat) y 0) (seq 0 (length As)) =
  total (fun j => value_at (CHerm h m As C) (mkPlace (Some j) r c t) * nth j y 0) (seq 0 n).
Proof. intros L. rewrite L. apply total_ext. intros j Hj. apply in_seq in Hj. rewrite seq_nth by lia. reflexivity. Qed.
Lemma matrix_slack_at n h m As C y t r c : length As = n ->
  herm_slack As C (seq 0 n) y t r c = slack_at n (fun v => value_at (CHerm h m As C) (mkPlace v r c t)) y.
Proof. intros L. unfold herm_slack, slack_at. rewrite (matrix_column_at n h m As C) by auto. reflexivity. Qed.

Lemma form_cost n l Q y : length Q = n -> (forall row, In row Q -> length row = n) -> (forall r c, CoeffProofs.entry Q r c = cost_entry l r c) ->
  (forall r c, cost_entry l r c = cost_entry l c r) -> quadratic_form Q (seq 0 n) y = cost_at n l y.
Proof.
  intros L HR V HS. unfold quadratic_form, cost_at. rewrite seq_length. apply total_ext. intros r Hr. apply in_seq in Hr. rewrite seq_nth by lia. cbn [Nat.add].
  rewrite <- total_scale. apply total_ext. intros c Hc. apply in_seq in Hc. rewrite seq_nth by lia. cbn [Nat.add].
  assert (symmetric_entry Q r c = cost_entry l r c) as ->; [|lra]. unfold symmetric_entry.
  assert (mcols Q = n) as ->. { destruct Q as [|q Q']; [cbn in *; lia|]. apply (HR q (or_introl eq_refl)). }
  assert (((Nat.max r c <? length Q) && (Nat.min r c <? n))%nat = true) as ->.
  { apply andb_true_intro. split; apply Nat.ltb_lt; lia. }
  change (mget Q (Nat.max r c) (Nat.min r c)) with (CoeffProofs.entry Q (Nat.max r c) (Nat.min r c)). rewrite V.
  destruct (Nat.le_ge_cases r c); [rewrite Nat.max_r, Nat.min_l by auto; auto|rewrite Nat.max_l, Nat.min_r by auto; auto].
Qed.

Lemma slack_at_ext n a a' y : (forall v, a v = a' v) -> slack_at n a y = slack_at n a' y.
Proof. intros H. unfold slack_at. rewrite H. f_equal. apply total_ext. intros j _. rewrite H. reflexivity. Qed.

Section Group.
Variables (n : nat) (g : cgroup) (ds : list cdata).
Hypothesis Hg : cgroup_ok n g.
Hypothesis D : gdata n g ds.

Lemma gdata_sized : Forall (csized n) ds.
Proof.
  destruct g as [g'|m l|h m l|l]; cbn [gdata cgroup_ok] in *.
  - rewrite D. pose proof (group_sized n g' Hg) as F. revert F. apply Forall_impl. intros x. apply sized_csized.
  - destruct D as (A & c & E & L & Hc & _). rewrite E. constructor; [|constructor]. cbn. tauto.
  - destruct D as (As & C & E & L & HF & _). rewrite E. constructor; [|constructor]. cbn. tauto.
  - destruct D as (Q & E & L & HR & _). rewrite E. constructor; [|constructor]. cbn. tauto.
Qed.

Lemma gdata_same y : (forall x, In x ds -> cholds n x y) <-> cgroup_holds n g y.
Proof.
  destruct g as [g'|m l|h m l|l]; cbn [gdata cgroup_ok cgroup_holds] in *.
  - pose proof D as D'. rewrite D'. rewrite <- (group_same n g' y Hg). pose proof (group_sized n g' Hg) as F. rewrite Forall_forall in F.
    split; intros H x Hx; apply (sized_holds n x y (F x Hx)); auto.
  - destruct D as (A & c & E & L & Hc & V). rewrite E. transitivity (cholds n (CSoc m A c) y).
    { split; [intros H; apply H; left; auto|intros H x [<-|[]]; auto]. }
    cbn [cholds]. apply lorentz_ext. intros k Hk. rewrite (cone_slack_at n m) by auto. apply slack_at_ext. intros v. auto.
  - destruct D as (As & C & E & L & HF & V). rewrite E. transitivity (cholds n (CHerm h m As C) y).
    { split; [intros H; apply H; left; auto|intros H x [<-|[]]; auto]. }
    cbn [cholds]. apply psd_ext. intros t r c Ht Hr Hc. rewrite (matrix_slack_at n h m) by auto. apply slack_at_ext. intros v. auto.
  - destruct D as (Q & E & _). rewrite E. split; [auto|]. intros _ x [<-|[]]. exact I.
Qed.

Lemma gdata_flat z : (forall x, In x ds -> cflat n x z) -> cgroup_flat n g z.
Proof.
  destruct g as [g'|m l|h m l|l]; cbn [gdata cgroup_ok cgroup_flat] in *.
  - pose proof D as D'. rewrite D'. intros H. apply (group_flat_data n g' z Hg). pose proof (group_sized n g' Hg) as F. rewrite Forall_forall in F.
    intros x Hx. apply (sized_flat n x z (F x Hx)); auto.
  - destruct D as (A & c & E & L & Hc & V). rewrite E. intros H k Hk. specialize (H _ (or_introl eq_refl)). cbn [cflat] in H. specialize (H k Hk).
    rewrite (column_at n m A c) in H by auto. eapply eq_trans; [|exact H]. apply total_ext. intros j _. rewrite V by auto. reflexivity.
  - destruct D as (As & C & E & L & HF & V). rewrite E. intros H t r c Ht Hr Hc. specialize (H _ (or_introl eq_refl)). cbn [cflat] in H. specialize (H t r c Ht Hr Hc).
    rewrite (matrix_column_at n h m As C) in H by auto. eapply eq_trans; [|exact H]. apply total_ext. intros j _. rewrite V by auto. reflexivity.
  - destruct D as (Q & E & L & HR & V). rewrite E. intros H. specialize (H _ (or_introl eq_refl)). cbn [cflat] in H. rewrite <- (form_cost n l Q); auto. apply Hg.
Qed.

Lemma gdata_value y : total (qvalue n y) ds = gvalue n y g.
Proof.
  destruct g as [g'|m l|h m l|l]; cbn [gdata cgroup_ok gvalue] in *.
  - pose proof D as D'. rewrite D'. pose proof (group_sized n g' Hg) as F. rewrite Forall_forall in F. apply total_zero. intros x Hx. specialize (F x Hx). destruct x; cbn in *; tauto.
  - destruct D as (A & c & E & _). rewrite E. cbn. lra.
  - destruct D as (As & C & E & _). rewrite E. cbn. lra.
  - destruct D as (Q & E & L & HR & V). rewrite E. cbn. rewrite Rplus_0_r. apply form_cost; auto. apply Hg.
Qed.

Lemma gdata_count : list_sum (map ccount ds) = cgroup_count g.
Proof.
  destruct g as [g'|m l|h m l|l]; cbn [gdata cgroup_ok cgroup_count] in *.
  - pose proof D as D'. rewrite D', <- (group_count_data n g' Hg). pose proof (group_sized n g' Hg) as F. rewrite Forall_forall in F. f_equal.
    apply map_ext_in. intros x Hx. apply (sized_count n x (F x Hx)).
  - destruct D as (A & c & E & _). rewrite E. reflexivity.
  - destruct D as (As & C & E & _). rewrite E. cbn. lia.
  - destruct D as (Q & E & _). rewrite E. reflexivity.
Qed.

Lemma gdata_restricts : crestricts g -> ds <> [].
Proof.
  destruct g as [g'|m l|h m l|l]; cbn [gdata cgroup_ok crestricts] in *.
  - pose proof D as D'. rewrite D'. apply group_restricts; auto.
  - destruct D as (A & c & E & _). rewrite E. discriminate.
  - destruct D as (As & C & E & _). rewrite E. discriminate.
  - destruct D as (Q & E & _). rewrite E. discriminate.
Qed.

Lemma gdata_equates : (exists A b, In (CEq A b) ds) <-> cequates g.
Proof.
  destruct g as [g'|m l|h m l|l]; cbn [gdata cgroup_ok cequates] in *.
  - pose proof D as D'. rewrite D'. apply group_equates; auto.
  - destruct D as (A & c & E & _). rewrite E. split; [|tauto]. intros (A' & b & [H|[]]). discriminate.
  - destruct D as (As & C & E & _). rewrite E. split; [|tauto]. intros (A' & b & [H|[]]). discriminate.
  - destruct D as (Q & E & _). rewrite E. split; [|tauto]. intros (A' & b & [H|[]]). discriminate.
Qed.

Lemma gdata_matrix h m As C : In (CHerm h m As C) ds -> is_matrix g.
Proof.
  destruct g as [g'|m' l|h' m' l|l]; cbn [gdata cgroup_ok is_matrix] in *; auto.
  - pose proof D as D'. rewrite D'. intros H. pose proof (group_sized n g' Hg) as F. rewrite Forall_forall in F. specialize (F _ H). destruct F.
  - destruct D as (A & c & E & _). rewrite E. intros [H|[]]. discriminate.
  - destruct D as (Q & E & _). rewrite E. intros [H|[]]. discriminate.
Qed.
End Group.

(** ** The program *)

Section Client.
Variables (n : nat) (gs : list cgroup) (dss : list (list cdata)) (b : list R) (p : program).
Hypothesis Hok : Forall (cgroup_ok n) gs.
Hypothesis C : cclient n gs dss b p.

Lemma groups_in ds : In ds dss -> exists g, In g gs /\ cgroup_ok n g /\ gdata n g ds.
Proof.
  pose proof (cc_groups _ _ _ _ _ C) as F. pose proof Hok as O. revert O F. generalize gs dss. induction gs0 as [|g l IH]; intros dss0 O F Hin.
  - inversion F; subst. destruct Hin.
  - inversion F as [|g' ds' l' dss' H1 H2]; subst. inversion O; subst. destruct Hin as [<-|Hin]; [exists g; split; [left; auto|auto]|].
    destruct (IH dss') as (g0 & G1 & G2); auto. exists g0. split; [right; auto|auto].
Qed.
Lemma groups_of g : In g gs -> exists ds, In ds dss /\ cgroup_ok n g /\ gdata n g ds.
Proof.
  pose proof (cc_groups _ _ _ _ _ C) as F. pose proof Hok as O. revert O F. generalize gs dss. induction gs0 as [|g' l IH]; intros dss0 O F Hin; [destruct Hin|].
  inversion F as [|g0 ds' l' dss' H1 H2]; subst. inversion O; subst. destruct Hin as [<-|Hin]; [exists ds'; split; [left; auto|auto]|].
  destruct (IH dss') as (g0 & G1 & G2); auto. exists g0. split; [right; auto|auto].
Qed.

Lemma data_in i co : nth_error (p_eqs p) i = Some co -> exists g ds, In g gs /\ cgroup_ok n g /\ gdata n g ds /\ In (ct_data co) ds.
Proof.
  intros H. assert (In (ct_data co) (map ct_data (p_eqs p))) as Hin by (apply in_map; eapply nth_error_In; eauto).
  rewrite (cc_data _ _ _ _ _ C) in Hin. apply in_concat in Hin as (ds & Hd & Hx). destruct (groups_in ds Hd) as (g & G1 & G2 & G3). exists g, ds. auto.
Qed.
Lemma data_of ds x : In ds dss -> In x ds -> exists i co, nth_error (p_eqs p) i = Some co /\ ct_data co = x.
Proof.
  intros Hg Hx. assert (In x (map ct_data (p_eqs p))) as Hin by (rewrite (cc_data _ _ _ _ _ C); apply in_concat; eauto).
  apply in_map_iff in Hin as (co & E & Hin). apply In_nth_error in Hin as (i & Hi). eauto.
Qed.

Lemma conic_sized i co : nth_error (p_eqs p) i = Some co -> csized n (ct_data co).
Proof.
  intros H. destruct (data_in i co H) as (g & ds & _ & G & D & Hx). pose proof (gdata_sized n g ds G D) as F. rewrite Forall_forall in F. auto.
Qed.

Lemma conic_clique i co : nth_error (p_eqs p) i = Some co -> nth i (p_cliques p) [] = seq 0 n ++ nth i (p_duals p) [].
Proof. intros H. apply (sh_clique _ _ (cc_shared _ _ _ _ _ C)). apply nth_error_Some. congruence. Qed.
Lemma conic_plain i co : nth_error (p_eqs p) i = Some co -> (forall A c, ct_data co <> CEq A c) -> nth i (p_cliques p) [] = seq 0 n.
Proof. intros H HN. rewrite (conic_clique i co H), (sh_duals _ _ (cc_shared _ _ _ _ _ C) i co H HN). apply app_nil_r. Qed.

Lemma conic_value i co a y : nth_error (p_eqs p) i = Some co -> length a = n -> row_value a (nth i (p_cliques p) []) y = product a y.
Proof.
  intros H La. rewrite (conic_clique i co H). unfold row_value, product. apply total_ext. intros j Hj. apply in_seq in Hj.
  rewrite app_nth1 by (rewrite seq_length; lia). rewrite seq_nth by lia. reflexivity.
Qed.

Lemma conic_block i co y : nth_error (p_eqs p) i = Some co ->
  (match ct_data co with
   | CLinear _ A c => inequality_holds A c (nth i (p_cliques p) []) y
   | CSoc m A c => lorentz m (cone_slack A c (nth i (p_cliques p) []) y)
   | CHerm h m As C0 => herm_psd h m (herm_slack As C0 (nth i (p_cliques p) []) y)
   | CEq A c => equality_holds A c (nth i (p_cliques p) []) y
   | _ => True
   end <-> cholds n (ct_data co) y).
Proof.
  intros H. pose proof (conic_sized i co H) as S. pose proof (conic_plain i co H) as HP.
  destruct (ct_data co) as [cols A c| | | | |Q|A c] eqn:E; cbn [csized sized_data cholds data_holds] in *; try tauto.
  - destruct S as (_ & _ & _ & S). unfold inequality_holds, has_cols in *. rewrite Forall_forall in S.
    split; intros HX k Hk; specialize (HX k Hk); rewrite (conic_value i co) in *; auto; apply S, nth_In; auto.
  - rewrite HP by discriminate. tauto.
  - rewrite HP by discriminate. tauto.
  - destruct S as (_ & _ & S). unfold equality_holds, has_cols in *. rewrite Forall_forall in S.
    split; intros HX k Hk; specialize (HX k Hk); rewrite (conic_value i co) in *; auto; apply S, nth_In; auto.
Qed.

Lemma conic_feasible y : feasible p y <-> forall g, In g gs -> cgroup_holds n g y.
Proof.
  split.
  - intros H g Hg. destruct (groups_of g Hg) as (ds & Hd & G & D). apply (gdata_same n g ds G D). intros x Hx.
    destruct (data_of ds x Hd Hx) as (i & co & Hi & <-). apply (conic_block i co y Hi). apply (H i co Hi).
  - intros H i co Hi. apply (conic_block i co y Hi). destruct (data_in i co Hi) as (g & ds & Hg & G & D & Hx).
    apply (gdata_same n g ds G D y); auto.
Qed.

Lemma conic_count : inequalities p = INR (list_sum (map cgroup_count gs)).
Proof.
  assert (inequalities p = total (fun x => INR (ccount x)) (map ct_data (p_eqs p))) as ->.
  { unfold inequalities. rewrite total_map, (total_nth _ (p_eqs p) (mkCont (CQuad []) 0)). apply total_ext. intros i Hi. apply in_seq in Hi.
    destruct (nth_error (p_eqs p) i) as [co|] eqn:E; [|apply nth_error_None in E; lia]. rewrite (nth_error_nth _ _ _ E).
    pose proof (conic_sized i co E). destruct (ct_data co); cbn in *; try tauto; try reflexivity; lra. }
  rewrite (cc_data _ _ _ _ _ C). pose proof (cc_groups _ _ _ _ _ C) as F. pose proof Hok as O. revert O F. generalize gs dss. induction gs0 as [|g l IH]; intros dss0 O F.
  - inversion F; subst. reflexivity.
  - inversion F as [|g0 ds' l' dss' H1 H2]; subst. inversion O; subst. cbn [concat map]. rewrite total_app, IH by auto. unfold list_sum at 2. cbn [fold_right]. rewrite plus_INR. f_equal.
    rewrite <- (gdata_count n g ds') by auto. generalize ds'. induction ds'0 as [|x l0 IH0]; [reflexivity|].
    unfold total, list_sum in *. cbn [fold_right map]. rewrite plus_INR, IH0. reflexivity.
Qed.

(** Without inequalities there are only costs and equalities. *)
Lemma conic_none i co : list_sum (map cgroup_count gs) = 0%nat -> nth_error (p_eqs p) i = Some co ->
  (exists Q, ct_data co = CQuad Q) \/ exists A c, ct_data co = CEq A c.
Proof.
  intros H0 Hi. destruct (data_in i co Hi) as (g & ds & Hg & G & D & Hx). pose proof (conic_sized i co Hi) as S.
  assert (forall (f : cgroup -> nat) l x, list_sum (map f l) = 0%nat -> In x l -> f x = 0%nat) as HZ.
  { intros f l x. induction l as [|a l IH]; [intros _ []|]. unfold list_sum in *. cbn [map fold_right]. intros H1 [<-|H2]; [lia|apply IH; auto; lia]. }
  assert (forall (f : cdata -> nat) l x, list_sum (map f l) = 0%nat -> In x l -> f x = 0%nat) as HZ'.
  { intros f l x. induction l as [|a l IH]; [intros _ []|]. unfold list_sum in *. cbn [map fold_right]. intros H1 [<-|H2]; [lia|apply IH; auto; lia]. }
  specialize (HZ _ _ _ H0 Hg). rewrite <- (gdata_count n g ds G D) in HZ. specialize (HZ' _ _ _ HZ Hx).
  destruct (ct_data co) as [cols A c|m A c|h m As C0| | |Q|A c]; cbn in S, HZ'; try tauto; eauto; try discriminate.
  - destruct A; [tauto|discriminate].
  - lia.
Qed.

Lemma conic_objective k y : length b = n -> objective p k y = - product b y + k / 2 * total (gvalue n y) gs.
Proof.
  intros Hb. unfold objective. f_equal.
  - rewrite (cc_cost _ _ _ _ _ C). unfold product. rewrite Hb.
    replace (- total (fun j => nth j b 0 * nth j y 0) (seq 0 n)) with (-1 * total (fun j => nth j b 0 * nth j y 0) (seq 0 n)) by lra.
    rewrite <- total_scale. apply total_ext. intros v _. rewrite (cc_value _ _ _ _ _ C Hb). lra.
  - f_equal. transitivity (total (qvalue n y) (map ct_data (p_eqs p))).
    { rewrite total_map, (total_nth _ (p_eqs p) (mkCont (CQuad []) 0)). apply total_ext. intros i Hi. apply in_seq in Hi.
      destruct (nth_error (p_eqs p) i) as [co|] eqn:E; [|apply nth_error_None in E; lia]. rewrite (nth_error_nth _ _ _ E).
      pose proof (conic_plain i co E) as HP. destruct (ct_data co); cbn [qvalue]; try reflexivity. rewrite HP by discriminate. reflexivity. }
    rewrite (cc_data _ _ _ _ _ C). pose proof (cc_groups _ _ _ _ _ C) as F. pose proof Hok as O. revert O F. generalize gs dss. induction gs0 as [|g l IH]; intros dss0 O F.
    + inversion F; subst. reflexivity.
    + inversion F as [|g0 ds' l' dss' H1 H2]; subst. inversion O; subst. cbn [concat]. rewrite total_app, IH by auto. rewrite (gdata_value _ g ds') by auto. reflexivity.
Qed.

Lemma conic_cols i co A c : nth_error (p_eqs p) i = Some co -> ct_data co = CEq A c -> mcols A = n /\ has_cols n A /\ length c = length A.
Proof.
  intros H E. pose proof (conic_sized i co H) as S. rewrite E in S. cbn in S. destruct S as (S1 & S2 & S3). split; [|auto].
  destruct A as [|a A]; [tauto|]. inversion S3. auto.
Qed.

Lemma conic_rectangular : rectangular p.
Proof. intros i co cols A c H E. pose proof (conic_sized i co H) as S. rewrite E in S. cbn in S. destruct S as (-> & _ & _ & S). exact S. Qed.

Lemma conic_equalities : sized_equalities p.
Proof.
  intros i co A c H E. destruct (conic_cols i co A c H E) as (E1 & E2 & E3). rewrite E1. split; auto.
  pose proof (cc_owned _ _ _ _ _ C i co A c H E) as EO. rewrite (conic_clique i co H), app_length, seq_length, EO. split; lia.
Qed.

Lemma conic_costs : on_costs p.
Proof.
  intros i co H. pose proof (conic_sized i co H) as S. pose proof (conic_plain i co H) as HP. rewrite (cc_cost _ _ _ _ _ C).
  assert (Forall (fun v => (v < n)%nat) (seq 0 n)) as F0 by (apply Forall_forall; intros v Hv; apply in_seq in Hv; lia).
  destruct (ct_data co) as [cols A c| | | | |Q|A c] eqn:E; cbn in S; try tauto; try (rewrite HP by discriminate; exact F0).
  rewrite (conic_clique i co H). rewrite app_length, seq_length, (cc_owned _ _ _ _ _ C i co A c H E). replace (n + length A - length A)%nat with (n + 0)%nat by lia.
  rewrite Nat.add_0_r, firstn_app, seq_length, Nat.sub_diag, firstn_all2 by (rewrite seq_length; lia). cbn [firstn]. rewrite app_nil_r. exact F0.
Qed.

Hypothesis HC : cconvex n gs.

Lemma conic_convex : convex p.
Proof.
  intros i co Q y H E. destruct (data_in i co H) as (g & ds & Hg & G & D & Hx). rewrite (conic_plain i co H) by (rewrite E; discriminate). rewrite E in Hx.
  destruct g as [g'|m l|h m l|l]; cbn [gdata] in D.
  - rewrite D in Hx. pose proof (group_sized n g' G) as F. rewrite Forall_forall in F. destruct (F _ Hx).
  - destruct D as (A & c & E' & _). rewrite E' in Hx. destruct Hx as [Hx|[]]. discriminate.
  - destruct D as (As & C0 & E' & _). rewrite E' in Hx. destruct Hx as [Hx|[]]. discriminate.
  - destruct D as (Q' & E' & L & HR & V). rewrite E' in Hx. destruct Hx as [Hx|[]]. injection Hx as <-. rewrite (form_cost n l Q'); auto. apply G.
Qed.
Lemma conic_matrices : (forall g, In g gs -> ~ is_matrix g) -> no_matrices p.
Proof.
  intros HN i co h m A c H E. destruct (data_in i co H) as (g & ds & Hg & G & D & Hx). rewrite E in Hx.
  apply (HN g Hg). eapply gdata_matrix; eauto.
Qed.

Lemma conic_vars i co : well_built p -> nth_error (p_eqs p) i = Some co -> ct_vars co = (n + length (nth i (p_duals p) []))%nat.
Proof. intros W H. rewrite (wb_vars _ W i co H), (conic_clique i co H), app_length, seq_length. reflexivity. Qed.

Lemma conic_consistent : well_built p -> consistent p.
Proof.
  intros W i co H. pose proof (conic_sized i co H) as S. pose proof (conic_vars i co W H) as V. pose proof (sh_duals _ _ (cc_shared _ _ _ _ _ C) i co H) as HD.
  destruct (ct_data co) as [cols A c| | | | |Q|A c] eqn:E; cbn [csized sized_data] in S; try tauto.
  - destruct S as (-> & S2 & S3 & _). repeat split; auto. lia.
  - rewrite HD in V by discriminate. cbn in V. destruct S as (S1 & S2 & S3). split; [auto|]. split; [lia|auto].
  - rewrite HD in V by discriminate. cbn in V. destruct S as (S1 & S2 & S3 & S4). split; [auto|]. split; [auto|]. split; [lia|auto].
  - rewrite HD in V by discriminate. cbn in V. destruct S as [S1 S2]. split; [lia|]. destruct Q as [|q Q']; [cbn; lia|]. cbn. rewrite (S2 q) by (left; auto). lia.
  - destruct (conic_cols i co A c H E) as (E1 & E2 & E3). rewrite V, (cc_owned _ _ _ _ _ C i co A c H E). repeat split; auto; lia.
Qed.

Lemma conic_nonempty : Exists crestricts gs -> p_eqs p <> [].
Proof.
  intros HE E. apply Exists_exists in HE as (g & Hg & HR). destruct (groups_of g Hg) as (ds & Hd & G & D). pose proof (gdata_restricts n g ds G D HR) as HN.
  destruct ds as [|x l]; [tauto|]. destruct (data_of (x :: l) x Hd (or_introl eq_refl)) as (i & co & Hi & _). rewrite E in Hi. destruct i; discriminate.
Qed.

Lemma conic_equates : Exists cequates gs -> exists dv, In dv (p_duals p) /\ dv <> [].
Proof.
  intros HE. apply Exists_exists in HE as (g & Hg & HR). destruct (groups_of g Hg) as (ds & Hd & G & D).
  destruct (proj2 (gdata_equates n g ds G D) HR) as (A & c & Hin). destruct (data_of ds _ Hd Hin) as (i & co & Hi & E).
  pose proof (conic_sized i co Hi) as S. rewrite E in S. cbn in S. pose proof (cc_owned _ _ _ _ _ C i co A c Hi E) as L.
  assert (nth i (p_duals p) [] <> []) as HN. { intros E'. rewrite E' in L. destruct A; [tauto|discriminate]. }
  exists (nth i (p_duals p) []). split; auto. apply nth_In. rewrite (sh_lens _ _ (cc_shared _ _ _ _ _ C)). apply nth_error_Some. congruence.
Qed.

Lemma conic_no_equality : (forall g, In g gs -> ~ cequates g) -> (forall i co A c, nth_error (p_eqs p) i = Some co -> ct_data co <> CEq A c) /\ forall dv, In dv (p_duals p) -> dv = [].
Proof.
  intros HN.
  assert (forall i co A c, nth_error (p_eqs p) i = Some co -> ct_data co <> CEq A c) as HX.
  { intros i co A c H E. destruct (data_in i co H) as (g & ds & Hg & G & D & Hx). rewrite E in Hx. apply (HN g Hg). apply (gdata_equates n g ds G D). eauto. }
  split; auto. intros dv Hd. apply (In_nth _ _ []) in Hd as (i & Hi & <-). rewrite (sh_lens _ _ (cc_shared _ _ _ _ _ C)) in Hi.
  destruct (nth_error (p_eqs p) i) as [co|] eqn:E; [|apply nth_error_None in E; lia].
  apply (sh_duals _ _ (cc_shared _ _ _ _ _ C) i co E). intros; eauto.
Qed.

Lemma conic_size : (n <= SizeOfKKTSystem p)%nat.
Proof. unfold SizeOfKKTSystem. rewrite (sh_n _ _ (cc_shared _ _ _ _ _ C)). lia. Qed.

Lemma conic_factorable : Exists cequates gs \/ (cspanning n gs /\ forall g, In g gs -> ~ cequates g) -> factorable p.
Proof.
  intros [H|[H HN]]; [left; apply conic_equates; auto|]. right. destruct (conic_no_equality HN) as [N1 N2].
  split; [apply conic_convex|]. split; [auto|]. split; [auto|]. intros z HL HN' HM HQ v Hv.
  unfold SizeOfKKTSystem in Hv. rewrite (sh_n _ _ (cc_shared _ _ _ _ _ C)), no_dual_size in Hv by auto. apply (H z); [|lia].
  intros g Hg. destruct (groups_of g Hg) as (ds & Hd & G & D). apply (gdata_flat n g ds G D z). intros x Hx.
  destruct (data_of ds x Hd Hx) as (i & co & Hi & E). pose proof (conic_sized i co Hi) as S. pose proof (conic_plain i co Hi (fun A c => N1 i co A c Hi)) as HP.
  destruct (ct_data co) as [cols A c|m A c|h m As C0| | |Q|A c] eqn:E'; cbn [csized sized_data] in S; try tauto; subst x; cbn [cflat data_flat].
  - intros a Ha. destruct S as (_ & _ & _ & S). unfold has_cols in S. rewrite Forall_forall in S. rewrite <- (conic_value i co a z Hi) by auto.
    apply (In_nth _ _ []) in Ha as (k & Hk & <-). eapply HL; eauto.
  - intros k Hk. rewrite <- HP. eapply HN'; eauto.
  - intros t r c0 Ht Hr Hc. rewrite <- HP. eapply HM; eauto.
  - rewrite <- HP. eapply HQ; eauto.
  - exfalso. eapply N1; eauto.
Qed.

End Client.

Lemma cequates_dec gs : (forall g, In g gs -> ~ cequates g) \/ Exists cequates gs.
Proof.
  induction gs as [|g gs [IH|IH]].
  - left. intros g [].
  - assert (cequates g \/ ~ cequates g) as [H|H].
    { destruct g as [g'| | |]; cbn; auto. destruct (equates_dec [g']) as [H|H]; [right; apply H; left; auto|left]. inversion H as [? ? H'|? ? H']; [auto|inversion H']. }
    + right. left. auto.
    + left. intros g' [<-|Hg]; auto.
  - right. right. auto.
Qed.

Lemma conic_solves env n gs b p st c : (0 < n)%nat -> Forall (cgroup_ok n) gs -> Exists crestricts gs -> conic_client n gs = Ok p ->
  cconvex n gs -> cost_options gs (APIConvertSolverConfiguration c) -> plain_options (APIConvertSolverConfiguration c) -> Exists cequates gs \/ cspanning n gs ->
  exists r y e t bs cs, CONEX_Maximize env p st b c = Ok (Returned _ r) /\ rt_y _ r = YVec y /\ length y = n /\ rt_log _ r = e :: t /\
    scalings (rt_prog _ r) (rt_num _ r) bs cs /\ 0 < bs /\ 0 < cs /\ (a_enable_rescaling c = 0%Z -> bs = 1 /\ cs = 1) /\ 0 < en_ism e /\
    (certified env gs (en_dinf e) -> (forall g, In g gs -> ~ cequates g) \/ exact_pivots (set_objective p b) (nm_bk (rt_num _ r)) ->
     (forall g, In g gs -> cgroup_holds n g y) /\
     (length b = n -> forall z, (forall g, In g gs -> cgroup_holds n g z) ->
      value n gs b z <= value n gs b y + INR (list_sum (map cgroup_count gs)) * (1 / (en_ism e * en_ism e)) / (bs * cs))).
Proof.
  intros Hn Hok HR E HCv HCo PO HS. destruct (conic_program n gs p b Hn Hok E) as (dss & C). set (q := set_objective p b) in *. set (cf := APIConvertSolverConfiguration c) in *.
  pose proof (conic_nonempty n gs dss b q Hok C HR) as HE. pose proof (cc_built _ _ _ _ _ C HE) as W.
  assert (starts q cf) as HSt. { split; auto. rewrite (cc_quadratic _ _ _ _ _ C). intros HX. apply existsb_exists in HX as ([g'|m l|h m l|l] & Hin & HX); try discriminate. apply HCo. eauto. }
  assert (factorable q) as HF.
  { destruct (cequates_dec gs) as [HN|HX]; [|apply (conic_factorable n gs dss b q Hok C HCv); auto]. apply (conic_factorable n gs dss b q Hok C HCv).
    destruct HS as [HX|HS]; [left; auto|right; split; auto]. }
  pose proof (cc_cost _ _ _ _ _ C) as LC.
  destruct (cold_handed env q st cf) as (r & y & e & HB & Ly); auto; try apply PO.
  { apply (conic_consistent n gs dss b q); auto. } { apply (cc_listed _ _ _ _ _ C). } { apply (conic_rectangular n gs dss b q); auto. }
  { rewrite LC. apply (conic_size n gs dss b q); auto. } { intros HK. exfalso. apply (po_solver _ PO). auto. }
  destruct (handed_scaled _ _ _ _ _ _ _ HB) as (bs & cs & B1 & B2 & B3 & B4). destruct (hb_entry _ _ _ _ _ _ _ HB) as (t & Et).
  exists r, y, e, t, bs, cs. split; [apply (hb_solve _ _ _ _ _ _ _ HB)|]. split; [apply (hb_y _ _ _ _ _ _ _ HB)|]. split; [congruence|]. split; [auto|]. split; [auto|]. split; [auto|]. split; [auto|].
  split. { intros H0. eapply unit_scalings; eauto. apply PO. } split; [auto|].
  intros HD HX. assert (exact_pivots q (nm_bk (rt_num _ r))) as HP.
  { destruct HX as [HX|HX]; auto. left. apply (conic_no_equality n gs dss b q Hok C HX). }
  pose proof (conic_rectangular n gs dss b q Hok C) as P1. pose proof (conic_equalities n gs dss b q Hok C) as P2. pose proof (conic_costs n gs dss b q Hok C) as P3.
  pose proof (conic_convex n gs dss b q Hok C HCv) as P4.
  assert ((forall i co, nth_error (p_eqs q) i = Some co -> (exists Q, ct_data co = CQuad Q) \/ exists A d, ct_data co = CEq A d) \/ en_dinf e <= 1) as HD1.
  { destruct HD as [HD|HD]; [left; intros i co; apply (conic_none n gs dss b q Hok C); auto|right]. destruct HD as [[? _]|(eps & ? & _ & ?)]; lra. }
  assert ((forall i co h m As C0, nth_error (p_eqs q) i = Some co -> ct_data co = CHerm h m As C0 -> herm_psd h m (herm_slack As C0 (nth i (p_cliques q) []) y)) /\
    forall z, feasible q z -> objective q (cs / bs) y <= objective q (cs / bs) z + inequalities q * (1 / (en_ism e * en_ism e)) / (bs * cs)) as [HM HO].
  { destruct HD as [HD|[[Hd1 HN]|(eps & He & HA & Hd)]].
    - pose proof (fun i co => conic_none n gs dss b q Hok C i co HD) as HNo. assert (no_matrices q) as NM.
      { intros i co h m As C0 Hi Ed. destruct (HNo i co Hi) as [(Q & EQ)|(A & d & EQ)]; rewrite Ed in EQ; discriminate. }
      split; [intros i co h m As C0 Hi Ed; exfalso; exact (NM i co h m As C0 Hi Ed)|].
      intros z Fz. apply (outcome_near env q st cf r y e bs cs z HB B4 P1 P2 P3 P4 (po_duals _ PO) HP); auto.
      intros i co Hi Hc. unfold ConexGap.in_cone in Hc. destruct (HNo i co Hi) as [(Q & EQ)|(A & d & EQ)]; rewrite EQ in Hc; destruct Hc.
    - pose proof (conic_matrices n gs dss b q Hok C HN) as NM. split.
      + intros i co h m As C0 Hi Ed. exfalso. exact (NM i co h m As C0 Hi Ed).
      + intros z Fz. exact (C54_suboptimality env q st cf r y e bs cs z HB B4 P1 P2 P3 P4 (po_duals _ PO) HP Hd1 NM Fz).
    - destruct (Prop_Semidefinite.C66_accurate env q st cf r y e bs cs eps HB B4 P1 P2 P3 P4 (po_duals _ PO) HP He HA Hd) as [K1 K2]. split; auto.
      intros i co h m As C0 Hi Ed. apply (K1 i co h m As C0 Hi Ed). }
  split.
  - apply (conic_feasible n gs dss b q Hok C y). intros i co Hi. pose proof (conic_sized n gs dss b q Hok C i co Hi) as S.
    assert ((forall A d, ct_data co <> CEq A d) -> on_variables q i) as HV.
    { intros HN. pose proof (P3 i co Hi) as P3'. destruct (ct_data co); try exact P3'. exfalso. eapply HN; eauto. }
    destruct (ct_data co) as [cols A d|m A d|h m As C0| | |Q|A d] eqn:ED; cbn [csized sized_data] in S; try tauto.
    + assert (en_dinf e <= 1). { destruct HD1 as [HD1|HD1]; auto. destruct (HD1 i co Hi) as [(Q' & EQ)|(A' & d' & EQ)]; congruence. }
      apply (C35_inequalities_hold env q st cf r y e t i co cols A d); auto; try apply HB; try (apply HV; discriminate). eapply P1; eauto.
    + assert (en_dinf e <= 1). { destruct HD1 as [HD1|HD1]; auto. destruct (HD1 i co Hi) as [(Q' & EQ)|(A' & d' & EQ)]; congruence. }
      apply (Prop_Cones.C59_cones_hold env q st cf r y e t i co m A d); auto; try apply HB; try (apply HV; discriminate).
    + eapply HM; eauto.
    + eapply C34_equalities_hold; eauto. apply PO.
  - intros Hb z Hz. assert (feasible q z) as Fz by (apply (conic_feasible n gs dss b q Hok C z); auto).
    specialize (HO z Fz). rewrite !(conic_objective n gs dss b q Hok C) in HO by auto. rewrite (conic_count n gs dss b q Hok C) in HO.
    unfold value. change (fun g => match g with Cost l => cost_at n l z | _ => 0 end) with (gvalue n z). change (fun g => match g with Cost l => cost_at n l y | _ => 0 end) with (gvalue n y).
    destruct (existsb is_cost gs) eqn:HB0.
    + apply existsb_exists in HB0 as ([g'|m l|h m l|l] & Hin & HB0); try discriminate. destruct (HCo (ex_intro _ l Hin)) as [_ HR0].
      destruct (unit_scalings _ _ _ _ _ _ _ _ _ HB (po_cold _ PO) HR0 B4) as [-> ->]. replace (1 / 1 / 2) with (/ 2) in HO by lra. lra.
    + assert (forall x, total (gvalue n x) gs = 0) as HZ.
      { intros x. apply total_zero. intros g Hg. destruct g as [g'|m l|h m l|l]; try reflexivity. assert (existsb is_cost gs = true) by (apply existsb_exists; exists (Cost l); auto). congruence. }
      rewrite !HZ in HO |- *. lra.
Qed.
