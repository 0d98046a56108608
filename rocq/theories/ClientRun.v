(** Solves of a client's linear program (C71). *)
From Coq Require Import List Arith ZArith Reals Bool Lia Lra.
From Verif Require Import Base BaseFacts LayoutModel SupernodeModel TriWorkspaceModel AssemblerModel KktModel Spec_Assembly
  ProgramModel PreprocessModel ApiModel Spec_Program ProgramProofs ProgramRun SolveModel LinearModel ConcreteBackend
  Spec_Linear Spec_Solve Spec_Preprocess Spec_Conex RhsProofs PreprocessProofs ConexBuilt ConexStep ConexTotal ConexOutcome PrivateFacts ClientModel Spec_Client ClientFacts ClientProofs Prop_Conex.
Import ListNotations.
Open Scope R_scope.

Section Client.
Variables (n : nat) (gs : list group) (b : list R) (p : program).
Hypothesis Hok : Forall (group_ok n) gs.
Hypothesis C : client n gs b p.

Lemma client_sized i co : nth_error (p_eqs p) i = Some co -> sized_data n (ct_data co).
Proof.
  intros H. assert (In (ct_data co) (map ct_data (p_eqs p))) as Hin by (apply in_map; eapply nth_error_In; eauto).
  rewrite (cl_data _ _ _ _ C) in Hin. apply in_flat_map in Hin as (g & Hg & Hx).
  pose proof (group_sized n g (proj1 (Forall_forall _ _) Hok g Hg)) as F. rewrite Forall_forall in F. auto.
Qed.

Lemma client_clique i co : nth_error (p_eqs p) i = Some co -> nth i (p_cliques p) [] = seq 0 n ++ nth i (p_duals p) [].
Proof. intros H. apply (sh_clique _ _ (cl_shared _ _ _ _ C)). apply nth_error_Some. congruence. Qed.

Lemma client_value i co a y : nth_error (p_eqs p) i = Some co -> length a = n -> row_value a (nth i (p_cliques p) []) y = product a y.
Proof.
  intros H La. rewrite (client_clique i co H). unfold row_value, product. apply total_ext. intros j Hj. apply in_seq in Hj.
  rewrite app_nth1 by (rewrite seq_length; lia). rewrite seq_nth by lia. reflexivity.
Qed.

Lemma client_data_in i co : nth_error (p_eqs p) i = Some co -> exists g, In g gs /\ In (ct_data co) (group_data n g).
Proof.
  intros H. assert (In (ct_data co) (map ct_data (p_eqs p))) as Hin by (apply in_map; eapply nth_error_In; eauto).
  rewrite (cl_data _ _ _ _ C) in Hin. apply in_flat_map in Hin. auto.
Qed.
Lemma client_data_of g x : In g gs -> In x (group_data n g) -> exists i co, nth_error (p_eqs p) i = Some co /\ ct_data co = x.
Proof.
  intros Hg Hx. assert (In x (map ct_data (p_eqs p))) as Hin by (rewrite (cl_data _ _ _ _ C); apply in_flat_map; eauto).
  apply in_map_iff in Hin as (co & E & Hin). apply In_nth_error in Hin as (i & Hi). eauto.
Qed.

Lemma client_block i co y : nth_error (p_eqs p) i = Some co ->
  (match ct_data co with
   | CLinear _ A c => inequality_holds A c (nth i (p_cliques p) []) y
   | CSoc m A c => lorentz m (cone_slack A c (nth i (p_cliques p) []) y)
   | CHerm h m As C0 => herm_psd h m (herm_slack As C0 (nth i (p_cliques p) []) y)
   | CEq A c => equality_holds A c (nth i (p_cliques p) []) y
   | _ => True
   end <-> data_holds (ct_data co) y).
Proof.
  intros H. pose proof (client_sized i co H) as S. destruct (ct_data co) as [cols A c| | | | | |A c] eqn:E; cbn [sized_data data_holds] in *; try tauto.
  - destruct S as (_ & _ & _ & S). unfold inequality_holds, has_cols in *. rewrite Forall_forall in S.
    split; intros HX k Hk; specialize (HX k Hk); rewrite (client_value i co) in *; auto; apply S, nth_In; auto.
  - destruct S as (_ & _ & S). unfold equality_holds, has_cols in *. rewrite Forall_forall in S.
    split; intros HX k Hk; specialize (HX k Hk); rewrite (client_value i co) in *; auto; apply S, nth_In; auto.
Qed.

Lemma client_feasible y : feasible p y <-> forall g, In g gs -> group_holds g y.
Proof.
  pose proof Hok as F. rewrite Forall_forall in F. split.
  - intros H g Hg. apply (group_same n g y (F g Hg)). intros x Hx. destruct (client_data_of g x Hg Hx) as (i & co & Hi & <-).
    apply (client_block i co y Hi). apply (H i co Hi).
  - intros H i co Hi. apply (client_block i co y Hi). destruct (client_data_in i co Hi) as (g & Hg & Hx).
    apply (group_same n g y (F g Hg)); auto.
Qed.

Lemma client_count : inequalities p = INR (list_sum (map group_count gs)).
Proof.
  assert (inequalities p = total (fun x => INR (data_count x)) (map ct_data (p_eqs p))) as ->.
  { unfold inequalities. rewrite total_map, (total_nth _ (p_eqs p) (mkCont (CQuad []) 0)). apply total_ext. intros i Hi. apply in_seq in Hi.
    destruct (nth_error (p_eqs p) i) as [co|] eqn:E; [|apply nth_error_None in E; lia]. rewrite (nth_error_nth _ _ _ E).
    pose proof (client_sized i co E). destruct (ct_data co); cbn in *; try tauto; reflexivity. }
  rewrite (cl_data _ _ _ _ C). pose proof Hok as F. rewrite Forall_forall in F. revert F. generalize gs. induction gs0 as [|g l IH]; intros HF; [reflexivity|].
  cbn [flat_map map]. rewrite total_app, IH by (intros; apply HF; right; auto). unfold list_sum. cbn [fold_right]. rewrite plus_INR. f_equal.
  rewrite <- (group_count_data n g) by (apply HF; left; auto). generalize (group_data n g). induction l0 as [|x l0 IH0]; [reflexivity|].
  unfold total, list_sum in *. cbn [fold_right map]. rewrite plus_INR, IH0. reflexivity.
Qed.

Lemma client_objective k y : length b = n -> objective p k y = - product b y.
Proof.
  intros Hb. unfold objective.
  rewrite (total_zero (fun i => match nth_error (p_eqs p) i with Some co => match ct_data co with CQuad Q => quadratic_form Q (nth i (p_cliques p) []) y | _ => 0 end | None => 0 end)).
  - rewrite (cl_cost _ _ _ _ C), Rmult_0_r, Rplus_0_r. unfold product. rewrite Hb.
    replace (- total (fun j => nth j b 0 * nth j y 0) (seq 0 n)) with (-1 * total (fun j => nth j b 0 * nth j y 0) (seq 0 n)) by lra.
    rewrite <- total_scale. apply total_ext. intros v _. rewrite (cl_value _ _ _ _ C Hb). lra.
  - intros i _. destruct (nth_error (p_eqs p) i) as [co|] eqn:E; auto. pose proof (client_sized i co E). destruct (ct_data co); cbn in *; tauto.
Qed.

Lemma client_cols i co A c : nth_error (p_eqs p) i = Some co -> ct_data co = CEq A c -> mcols A = n /\ has_cols n A /\ length c = length A.
Proof.
  intros H E. pose proof (client_sized i co H) as S. rewrite E in S. cbn in S. destruct S as (S1 & S2 & S3). split; [|auto].
  destruct A as [|a A]; [tauto|]. inversion S3. auto.
Qed.

Lemma client_rectangular : rectangular p.
Proof. intros i co cols A c H E. pose proof (client_sized i co H) as S. rewrite E in S. cbn in S. destruct S as (-> & _ & _ & S). exact S. Qed.

Lemma client_equalities : sized_equalities p.
Proof.
  intros i co A c H E. destruct (client_cols i co A c H E) as (E1 & E2 & E3). rewrite E1. split; auto.
  pose proof (cl_owned _ _ _ _ C i co A c H E) as EO. rewrite (client_clique i co H), app_length, seq_length, EO. split; lia.
Qed.

Lemma client_costs : on_costs p.
Proof.
  intros i co H. pose proof (client_sized i co H) as S. rewrite (client_clique i co H), (cl_cost _ _ _ _ C). pose proof (sh_duals _ _ (cl_shared _ _ _ _ C) i co H) as HD.
  destruct (ct_data co) as [cols A c| | | | | |A c] eqn:E; cbn in S; try tauto.
  - rewrite HD by discriminate. rewrite app_nil_r. apply Forall_forall. intros v Hv. apply in_seq in Hv. lia.
  - rewrite app_length, seq_length, (cl_owned _ _ _ _ C i co A c H E). replace (n + length A - length A)%nat with (n + 0)%nat by lia.
    rewrite <- (seq_length n 0) at 1. rewrite firstn_app_2. cbn. rewrite app_nil_r. apply Forall_forall. intros v Hv. apply in_seq in Hv. lia.
Qed.

Lemma client_convex : convex p.
Proof. intros i co Q y H E. pose proof (client_sized i co H) as S. rewrite E in S. destruct S. Qed.
Lemma client_matrices : no_matrices p.
Proof. intros i co h m A c H E. pose proof (client_sized i co H) as S. rewrite E in S. destruct S. Qed.

Lemma client_vars i co : well_built p -> nth_error (p_eqs p) i = Some co -> ct_vars co = (n + length (nth i (p_duals p) []))%nat.
Proof. intros W H. rewrite (wb_vars _ W i co H), (client_clique i co H), app_length, seq_length. reflexivity. Qed.

Lemma client_consistent : well_built p -> consistent p.
Proof.
  intros W i co H. pose proof (client_sized i co H) as S. pose proof (client_vars i co W H) as V.
  destruct (ct_data co) as [cols A c| | | | | |A c] eqn:E; cbn in S; try tauto.
  - destruct S as (-> & S2 & S3 & _). repeat split; auto. lia.
  - destruct (client_cols i co A c H E) as (E1 & E2 & E3). rewrite V, (cl_owned _ _ _ _ C i co A c H E). repeat split; auto; lia.
Qed.

Lemma client_nonempty : Exists restricts gs -> p_eqs p <> [].
Proof.
  intros HE E. apply Exists_exists in HE as (g & Hg & HR). pose proof (cl_data _ _ _ _ C) as D. rewrite E in D. cbn in D.
  pose proof Hok as F. rewrite Forall_forall in F. pose proof (group_restricts n g (F g Hg) HR) as HN. apply HN.
  destruct (group_data n g) as [|x l] eqn:EG; auto. assert (In x (flat_map (group_data n) gs)) as Hin by (apply in_flat_map; exists g; rewrite EG; split; auto; left; auto).
  rewrite <- D in Hin. destruct Hin.
Qed.

Lemma client_equates : Exists equates gs -> exists dv, In dv (p_duals p) /\ dv <> [].
Proof.
  intros HE. apply Exists_exists in HE as (g & Hg & HR). pose proof Hok as F. rewrite Forall_forall in F.
  apply (group_equates n g (F g Hg)) in HR as (A & c & Hin). destruct (client_data_of g _ Hg Hin) as (i & co & Hi & E).
  pose proof (client_sized i co Hi) as S. rewrite E in S. cbn in S. pose proof (cl_owned _ _ _ _ C i co A c Hi E) as L.
  assert (nth i (p_duals p) [] <> []) as HN. { intros E'. rewrite E' in L. destruct A; [tauto|discriminate]. }
  exists (nth i (p_duals p) []). split; auto. apply nth_In. rewrite (sh_lens _ _ (cl_shared _ _ _ _ C)). apply nth_error_Some. congruence.
Qed.

Lemma client_no_equality : (forall g, In g gs -> ~ equates g) -> (forall i co A c, nth_error (p_eqs p) i = Some co -> ct_data co <> CEq A c) /\ forall dv, In dv (p_duals p) -> dv = [].
Proof.
  intros HN. pose proof Hok as F. rewrite Forall_forall in F.
  assert (forall i co A c, nth_error (p_eqs p) i = Some co -> ct_data co <> CEq A c) as HX.
  { intros i co A c H E. destruct (client_data_in i co H) as (g & Hg & Hx). rewrite E in Hx. apply (HN g Hg). apply (group_equates n g (F g Hg)). eauto. }
  split; auto. intros dv Hd. apply (In_nth _ _ []) in Hd as (i & Hi & <-). rewrite (sh_lens _ _ (cl_shared _ _ _ _ C)) in Hi.
  destruct (nth_error (p_eqs p) i) as [co|] eqn:E; [|apply nth_error_None in E; lia].
  apply (sh_duals _ _ (cl_shared _ _ _ _ C) i co E). intros; eauto.
Qed.

Lemma no_dual_size (l : list (list nat)) : (forall dv, In dv l -> dv = []) -> forall s, fold_left (fun s dv => s + length dv)%nat l s = s.
Proof. induction l as [|d l IH]; intros H s; [reflexivity|]. cbn. rewrite (H d) by (left; auto). rewrite IH by (intros; apply H; right; auto). cbn. lia. Qed.

Lemma client_size : (n <= SizeOfKKTSystem p)%nat.
Proof. unfold SizeOfKKTSystem. rewrite (sh_n _ _ (cl_shared _ _ _ _ C)). lia. Qed.

Lemma client_factorable : Exists equates gs \/ (spanning n gs /\ forall g, In g gs -> ~ equates g) -> factorable p.
Proof.
  intros [H|[H HN]]; [left; apply client_equates; auto|]. right. destruct (client_no_equality HN) as [N1 N2].
  split; [apply client_convex|]. split; [auto|]. split; [auto|]. intros z HL _ _ _ v Hv.
  unfold SizeOfKKTSystem in Hv. rewrite (sh_n _ _ (cl_shared _ _ _ _ C)), no_dual_size in Hv by auto. apply (H z); [|lia].
  intros g Hg. pose proof Hok as F. rewrite Forall_forall in F. apply (group_flat_data n g z (F g Hg)). intros x Hx.
  destruct (client_data_of g x Hg Hx) as (i & co & Hi & E). pose proof (client_sized i co Hi) as S.
  destruct (ct_data co) as [cols A c| | | | | |A c] eqn:E'; cbn in S; try tauto; subst x; cbn [data_flat].
  - intros a Ha. destruct S as (_ & _ & _ & S). unfold has_cols in S. rewrite Forall_forall in S. rewrite <- (client_value i co a z Hi) by auto.
    apply (In_nth _ _ []) in Ha as (k & Hk & <-). eapply HL; eauto.
  - exfalso. eapply N1; eauto.
Qed.

End Client.

Lemma equates_dec gs : (forall g, In g gs -> ~ equates g) \/ Exists equates gs.
Proof.
  assert (forall g, equates g \/ ~ equates g) as HG.
  { intros [A b|rows]; cbn; [right; tauto|]. induction rows as [|[[a lb] ub] t [IH|IH]].
    - right. intros (a & lb & ub & [] & _).
    - left. destruct IH as (a' & lb' & ub' & Hin & E). exists a', lb', ub'. split; auto. right. auto.
    - destruct (Req_EM_T lb ub) as [E|E]; [left; exists a, lb, ub; split; auto; left; auto|]. right.
      intros (a' & lb' & ub' & [[= <- <- <-]|Hin] & E'); [tauto|]. apply IH. eauto 6. }
  induction gs as [|g gs [IH|IH]].
  - left. intros g [].
  - destruct (HG g) as [H|H]; [right; left; auto|]. left. intros g' [<-|Hg]; auto.
  - right. right. auto.
Qed.

Lemma client_solves env n gs b p rs st c : (0 < n)%nat -> Forall (group_ok n) gs -> Exists restricts gs ->
  api_run CONEX_CreateConeProgram (client_calls n gs) = Ok (p, rs) ->
  plain_options (APIConvertSolverConfiguration c) -> Exists equates gs \/ spanning n gs ->
  exists r y e t bs cs, CONEX_Maximize env p st b c = Ok (Returned _ r) /\ rt_y _ r = YVec y /\ length y = n /\ rt_log _ r = e :: t /\
    scalings (rt_prog _ r) (rt_num _ r) bs cs /\ 0 < bs /\ 0 < cs /\ (a_enable_rescaling c = 0%Z -> bs = 1 /\ cs = 1) /\ 0 < en_ism e /\
    (en_dinf e <= 1 -> (forall g, In g gs -> ~ equates g) \/ exact_pivots (set_objective p b) (nm_bk (rt_num _ r)) ->
     (forall g, In g gs -> group_holds g y) /\
     (length b = n -> forall z, (forall g, In g gs -> group_holds g z) ->
      product b z <= product b y + INR (list_sum (map group_count gs)) * (1 / (en_ism e * en_ism e)) / (bs * cs))).
Proof.
  intros Hn Hok HR E PO HS. pose proof (client_program n gs p rs b Hn Hok E) as C. set (q := set_objective p b) in *. set (cf := APIConvertSolverConfiguration c) in *.
  pose proof (client_nonempty n gs b q Hok C HR) as HE. pose proof (cl_built _ _ _ _ C HE) as W.
  assert (starts q cf) as HSt. { split; auto. rewrite (cl_quadratic _ _ _ _ C). discriminate. }
  assert (factorable q) as HF.
  { destruct (equates_dec gs) as [HN|HX]; [|apply (client_factorable n gs b q Hok C); auto]. apply (client_factorable n gs b q Hok C).
    destruct HS as [HX|HS]; [left; auto|right; split; auto]. }
  pose proof (cl_cost _ _ _ _ C) as LC.
  destruct (cold_handed env q st cf) as (r & y & e & HB & Ly); auto; try apply PO.
  { apply (client_consistent n gs b q); auto. } { apply (cl_listed _ _ _ _ C). } { apply (client_rectangular n gs b q); auto. }
  { rewrite LC. apply (client_size n gs b q); auto. } { intros HK. exfalso. apply (po_solver _ PO). auto. }
  destruct (handed_scaled _ _ _ _ _ _ _ HB) as (bs & cs & B1 & B2 & B3 & B4). destruct (hb_entry _ _ _ _ _ _ _ HB) as (t & Et).
  exists r, y, e, t, bs, cs. split; [apply (hb_solve _ _ _ _ _ _ _ HB)|]. split; [apply (hb_y _ _ _ _ _ _ _ HB)|]. split; [congruence|]. split; [auto|]. split; [auto|]. split; [auto|]. split; [auto|].
  split. { intros H0. eapply unit_scalings; eauto. apply PO. } split; [auto|].
  intros HD HX. assert (exact_pivots q (nm_bk (rt_num _ r))) as HP.
  { destruct HX as [HX|HX]; auto. left. apply (client_no_equality n gs b q Hok C HX). }
  pose proof (client_rectangular n gs b q Hok C) as P1. pose proof (client_equalities n gs b q Hok C) as P2. pose proof (client_costs n gs b q Hok C) as P3.
  split.
  - apply (client_feasible n gs b q Hok C y). intros i co Hi. pose proof (client_sized n gs b q Hok C i co Hi) as S.
    destruct (ct_data co) as [cols A d| | | | | |A d] eqn:ED; cbn in S; try tauto.
    + assert (on_variables q i) as HV. { specialize (P3 i co Hi). rewrite ED in P3. exact P3. }
      apply (C35_inequalities_hold env q st cf r y e t i co cols A d); auto; try apply HB. eapply P1; eauto.
    + eapply C34_equalities_hold; eauto. apply PO.
  - intros Hb z Hz. assert (feasible q z) as Fz by (apply (client_feasible n gs b q Hok C z); auto).
    pose proof (C54_suboptimality env q st cf r y e bs cs z HB B4 P1 P2 P3 (client_convex n gs b q Hok C) (po_duals _ PO) HP HD (client_matrices n gs b q Hok C) Fz) as HO.
    rewrite !(client_objective n gs b q Hok C) in HO by auto. rewrite (client_count n gs b q Hok C) in HO. lra.
Qed.

Lemma default_plain c : a_kkt_solver c <> 2%Z -> plain_options (APIConvertSolverConfiguration (CONEX_SetDefaultOptions c)).
Proof.
  intros H. split; cbn; try lia; try lra; auto.
Qed.
