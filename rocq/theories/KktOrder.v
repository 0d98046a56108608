(** The root clique is eliminated last, so with equality constraints present the
    last supernode is not empty. *)
From Coq Require Import List Arith ZArith Bool Lia Permutation.
From Verif Require Import Base BaseFacts TreeModel CliqueModel SupernodeModel TriWorkspaceModel AssemblerModel
  Spec_Block Spec_Assembly TriWorkspaceProofs AssemblerProofs.
Import ListNotations.

Ltac inv_bind H :=
  let a := fresh "a" in let E := fresh "E" in apply bind_ok in H as (a & E & H).

Lemma attach_prefix vl active argmax : forall st st', attach vl active argmax st = Ok st' ->
  exists l, h_order st' = h_order st ++ l.
Proof.
  induction argmax as [|e rest IH]; intros st st' H; cbn [attach] in H.
  - injection H as <-. exists []. rewrite app_nil_r. auto.
  - repeat (inv_bind H). 
    set (s1 := mkH _ _ _ _ _ _ _) in H.
    assert (forall st2, attach vl active rest s1 = Ok st2 -> exists l, h_order st2 = h_order st ++ l) as K.
    { intros st2 H2. apply IH in H2 as (l & E'). exists (e :: l). rewrite E'. unfold s1. cbn. rewrite <- app_assoc. auto. }
    destruct (0 <? length vl); [|auto].
    inv_bind H. destruct (_ =? 0); [|auto]. injection H as <-. exists [e]. reflexivity.
Qed.

Lemma visit_root_prefix active st st' : visit_root active st = Ok st' ->
  (exists l, h_order st' = h_order st ++ l) /\
  (nth active (h_visited st) 1 = 0 -> h_order st' = h_order st ++ [active]).
Proof.
  unfold visit_root. intros H. inv_bind H. apply at_ok in E.
  destruct (Nat.eqb_spec a 0) as [->|Ha].
  - repeat (inv_bind H). injection H as <-. cbn. split; eauto.
  - injection H as <-. split; [exists []; rewrite app_nil_r; auto|].
    intros H. rewrite (nth_error_nth _ _ _ E) in H. congruence.
Qed.

Lemma helper_prefix fuel cliques vl : forall st st', helper_loop fuel cliques vl st = Ok st' ->
  exists l, h_order st' = h_order st ++ l.
Proof.
  induction fuel as [|fuel IH]; intros st st' H; cbn [helper_loop] in H;
    destruct (_ <? length cliques); try discriminate;
    try (injection H as <-; exists []; rewrite app_nil_r; auto; fail).
  destruct (h_stack st) as [|active below]; [discriminate|].
  inv_bind H. inv_bind H. destruct a0 as [[inter mw] argmax]. inv_bind H.
  apply visit_root_prefix in E as [(l1 & Ev) _]. apply attach_prefix in E1 as (l2 & E2). cbn in E2.
  assert (exists l, h_order a0 = h_order st ++ l) as (l & El).
  { exists (l1 ++ l2). rewrite E2, Ev, app_assoc. auto. }
  assert (forall st2, h_order st2 = h_order a0 -> helper_loop fuel cliques vl st2 = Ok st' ->
     exists l, h_order st' = h_order st ++ l) as K.
  { intros st2 E3 H3. apply IH in H3 as (l3 & E4). exists (l ++ l3). rewrite E4, E3, El, app_assoc. auto. }
  destruct (length argmax =? 0); [|eapply K; eauto].
  destruct below.
  - destruct (GetUnvisited _).
    + eapply K; [|exact H]. reflexivity.
    + injection H as <-. cbn. eauto.
  - eapply K; [|exact H]. reflexivity.
Qed.

Lemma helper_root fuel cliques vl root tree seps inter st' : root < length cliques ->
  helper_loop fuel cliques vl (mkH [] (repeat 0 (length cliques)) [root] tree seps inter []) = Ok st' ->
  exists l, h_order st' = root :: l.
Proof.
  intros Hr H. destruct fuel; cbn [helper_loop h_order length h_stack h_visited h_inter] in H;
    destruct (Nat.ltb_spec 0 (length cliques)); try discriminate; try lia.
  inv_bind H. inv_bind H. destruct a0 as [[inter' mw] argmax]. inv_bind H.
  apply visit_root_prefix in E as [_ Ev]. apply attach_prefix in E1 as (l2 & E2). cbn in E2, Ev.
  assert (h_order a = [root]) as E3.
  { apply Ev. rewrite nth_indep with (d' := 0) by (rewrite repeat_length; auto). apply nth_repeat. }
  rewrite E3 in E2.
  assert (forall st2, h_order st2 = h_order a0 -> helper_loop fuel cliques vl st2 = Ok st' ->
     exists l, h_order st' = root :: l) as K.
  { intros st2 E4 H4. apply helper_prefix in H4 as (l3 & E5). exists (l2 ++ l3). rewrite E5, E4, E2. auto. }
  destruct (length argmax =? 0); [|eapply K; eauto].
  destruct (GetUnvisited _).
  - eapply K; [|exact H]. reflexivity.
  - injection H as <-. cbn. rewrite E2. cbn. eauto.
Qed.

Lemma elimination_order_last cliques vl root order sn sp t t' : root < length cliques ->
  GetCliqueEliminationOrder cliques vl (Z.of_nat root) t = Ok (order, sn, sp, t') ->
  exists l, order = l ++ [root].
Proof.
  intros Hr H. unfold GetCliqueEliminationOrder in H. inv_bind H.
  destruct a as [br [[[o0 s0] t0] i0]]. inv_bind H. destruct a as [[o1 s1] t1]. inv_bind H.
  injection H as -> -> ->.
  destruct (Z.eqb_spec (Z.of_nat root) (-1)); [lia|]. injection E0 as -> -> ->.
  unfold PickCliqueOrderHelper in E. inv_bind E. inv_bind E. injection E as _ E _ _ _.
  destruct (Z.ltb_spec (Z.of_nat root) 0); [lia|]. rewrite Nat2Z.id in E0.
  apply helper_root in E0 as (l & El); auto. rewrite El in E. cbn [rev] in E. eauto.
Qed.

Lemma argmax_size_spec l : forall i best bestv,
  let '(am, mx) := argmax_size l i best bestv in
  bestv <= mx /\ (mx = bestv /\ am = best \/ i <= am < i + length l /\ mx = length (nth (am - i) l [])) /\
  forall x, In x l -> length x <= mx.
Proof.
  induction l as [|a l IH]; intros i best bestv; cbn [argmax_size].
  - repeat split; auto. intros x [].
  - destruct (Nat.ltb_spec bestv (length a)) as [H|H].
    + specialize (IH (S i) i (length a)). destruct (argmax_size l (S i) i (length a)) as [am mx].
      destruct IH as (I1 & I2 & I3). split; [lia|]. split.
      * right. destruct I2 as [[-> ->]|[I2 ->]]; cbn [length].
        -- rewrite Nat.sub_diag. cbn. split; [lia|auto].
        -- split; [lia|]. destruct (am - i) as [|q] eqn:Eq; [lia|]. cbn. replace (am - S i) with q by lia. auto.
      * intros x [->|Hx]; auto.
    + specialize (IH (S i) best bestv). destruct (argmax_size l (S i) best bestv) as [am mx].
      destruct IH as (I1 & I2 & I3). split; [lia|]. split.
      * destruct I2 as [[-> ->]|[I2 ->]]; cbn [length]; auto. right.
        split; [lia|]. destruct (am - i) as [|q] eqn:Eq; [lia|]. cbn. replace (am - S i) with q by lia. auto.
      * intros x [->|Hx]; auto. lia.
Qed.

Lemma root_has_duals vars dual_vars root : GetRootNode vars dual_vars = Ok root ->
  (exists dv, In dv dual_vars /\ dv <> []) ->
  root < length dual_vars /\ nth root dual_vars [] <> [].
Proof.
  unfold GetRootNode. intros H (dv & Hin & Hne). destruct dual_vars as [|d0 ds]; [destruct Hin|].
  cbn [at_ nth_error bind] in H. cbn [tl] in H.
  pose proof (argmax_size_spec ds 1 0 (length d0)) as K. cbn [at_] in H. unfold at_ in H. cbn in H.
  destruct (argmax_size ds 1 0 (length d0)) as [am mx]. destruct K as (K1 & K2 & K3).
  assert (0 < mx) as Hm.
  { destruct Hin as [->|Hin]; [|apply K3 in Hin]; destruct dv; try congruence; cbn in *; lia. }
  assert (am = root) as <- by (destruct mx; [lia|congruence]).
  destruct K2 as [[E1 ->]|[H1 E1]].
  - cbn. split; [lia|]. intros ->. cbn in E1. lia.
  - cbn [length]. split; [lia|]. destruct am as [|am]; [lia|]. cbn. replace (S am - 1) with am in E1 by lia.
    intros E2. rewrite E2 in E1. cbn in E1. lia.
Qed.

Lemma last_block_nonempty cliques dual_vars d o bs :
  admissible cliques dual_vars -> build cliques dual_vars = Ok (d, o, bs) ->
  (exists dv, In dv dual_vars /\ dv <> []) ->
  0 < nth (length (d_cliques d) - 1) (d_supernode_size d) 0.
Proof.
  intros AD E HD. pose proof (build_fun _ _ _ _ _ AD E) as BP. pose proof (bp_an _ _ _ _ _ BP) as HA.
  pose proof (an_fill _ _ _ _ _ _ _ _ _ HA) as FC. pose proof (an_rows _ _ _ _ _ _ _ _ _ HA) as Hn.
  unfold build in E. apply bind_ok in E as ([d' labels] & E0 & E). apply bind_ok in E as (o' & _ & E).
  apply bind_ok in E as (ss' & _ & E). injection E as -> -> _.
  unfold kkt_analyze in E0. apply bind_ok in E0 as (root & E & E0). apply bind_ok in E0 as (d'' & E3 & E0).
  apply bind_ok in E0 as (lab' & _ & E0). injection E0 as -> ->.
  unfold GetData in E3. apply bind_ok in E3 as ([[ord snl] sepl] & E0 & E3). apply bind_ok in E3 as (mx & _ & E3).
  unfold SupernodesToData in E3. apply bind_ok in E3 as ([[q p] pinv] & _ & E3).
  apply bind_ok in E3 as (rows' & _ & E3). injection E3 as E3.
  assert (d_order d = ord) as Eo by (rewrite <- E3; reflexivity).
  destruct (root_has_duals _ _ _ E HD) as [Hr Hrd]. rewrite (ad_len _ _ AD) in Hr.
  unfold PickCliqueOrder in E0. apply bind_ok in E0 as ([[[oo ss0] pp] tt] & E8 & E0).
  apply bind_ok in E0 as (mx' & _ & E0). apply bind_ok in E0 as ([s1 s2] & _ & E0). injection E0 as -> -> ->.
  apply elimination_order_last in E8 as (l & El); [|rewrite map_length; auto].
  assert (length (d_order d) = length cliques) as Lo.
  { rewrite (Permutation_length (an_order _ _ _ _ _ _ _ _ _ HA)). apply seq_length. }
  assert (length l = length cliques - 1) as Ll.
  { rewrite Eo, El, app_length in Lo. cbn in Lo. lia. }
  assert (nth (length cliques - 1) (d_order d) 0 = root) as Elast.
  { rewrite Eo, El, app_nth2 by lia. rewrite Ll, Nat.sub_diag. auto. }
  (* the root clique is not empty *)
  destruct (ad_dual _ _ AD root Hr) as (pre & Ec).
  assert (exists v, In v (nth root cliques [])) as (v & Hv).
  { rewrite Ec. destruct (nth root dual_vars []) as [|v ?]; [congruence|]. exists v. apply in_app_iff. right. left. auto. }
  pose proof (an_cover _ _ _ _ _ _ _ _ _ HA (length cliques - 1) v ltac:(lia)) as Hc.
  rewrite Elast in Hc. specialize (Hc Hv). rewrite Hn.
  destruct (rows_split _ _ FC (length cliques - 1) ltac:(lia)) as (Er & _ & R).
  unfold stored_row in Hc. rewrite Er, in_app_iff, in_seq in Hc. destruct Hc as [Hc|Hc]; [lia|].
  apply R in Hc. replace (S (length cliques - 1)) with (length cliques) in Hc by lia.
  unfold dim in Hc. rewrite (fc_len _ _ FC), Hn in Hc. lia.
Qed.
