(** Variables that occur in one constraint only are eliminated with it (C71). *)
From Coq Require Import List Arith ZArith Bool Lia Sorting.Sorted Permutation.
From Verif Require Import Base BaseFacts TreeModel CliqueModel SupernodeModel TriWorkspaceModel AssemblerModel
  Spec_Tree Spec_Clique Spec_Block Spec_Assembly TreeProofs CliqueProofs CliqueFill SupernodeProofs TriWorkspaceProofs AssemblerProofs KktOrder.
Import ListNotations.

Lemma foldM_keep {S A} (f : S -> A -> res S) (Q : S -> Prop) (l : list A) : forall s s',
  (forall s a s', In a l -> Q s -> f s a = Ok s' -> Q s') -> Q s -> foldM f s l = Ok s' -> Q s'.
Proof.
  induction l as [|a l IH]; intros s s' H HQ E; cbn [foldM] in E.
  - injection E as <-. auto.
  - apply bind_ok in E as (s1 & E1 & E). apply (IH s1); auto.
    + intros. eapply H; eauto. right; auto.
    + eapply H; eauto. left; auto.
Qed.

Lemma set_at_inv {A} (l : list A) i a l' : set_at l i a = Ok l' -> i < length l /\ l' = upd l i a.
Proof. unfold set_at. destruct (Nat.ltb_spec i (length l)); [|discriminate]. intros E. injection E as <-. auto. Qed.

Lemma path_same n par hei e l : forest n par hei -> e < n -> PathInTree e e par hei = Ok l -> last l 0 = e.
Proof.
  intros HF He E. destruct (PathInTree_correct n par hei HF e e He He) as (l' & z & E' & (P1 & P2 & P3) & _).
  { exists e. split; apply anc_refl. }
  rewrite E in E'. injection E' as ->. rewrite last_last.
  symmetry. apply (anc_antisym n par hei HF); auto. apply P3; apply anc_refl.
Qed.

Lemma private_fill cliques nv order snodes seps t v f sn sp :
  (forall c, In c cliques -> SSorted c) -> (forall c u, In c cliques -> In u c -> u < nv) ->
  elim_post cliques order snodes seps t ->
  f < length cliques -> (forall e, occurs cliques v e -> e = f) -> v < nv ->
  FillIn t nv order snodes seps = Ok (sn, sp) -> forall e, In v (nth e sn []) -> e = f.
Proof.
  intros Hs Hnv HE Hf Hv Hvn E e Hin.
  assert (length order = length cliques) as Lo.
  { rewrite (Permutation_length (Hperm cliques order snodes seps t HE)). apply seq_length. }
  unfold FillIn in E. rewrite Lo in E. apply bind_ok in E as ([el sp'] & E1 & E). apply bind_ok in E as (sn' & E2 & E).
  injection E as <- <-.
  destruct (fill_loop_ok cliques Hs nv Hnv order snodes seps t HE) as (st & E1' & HI).
  rewrite Lo in E1'. rewrite E1 in E1'. injection E1' as <-. pose proof (fi_le _ _ _ _ _ _ _ HI) as Le. cbn in Le.
  destruct (collect_ok cliques nv order el Le) as (sn2 & E2' & L2 & HC). rewrite E2 in E2'. injection E2' as <-.
  assert (nth v el 0 = length cliques + 1 \/ nth v el 0 = f) as HQ.
  { apply (foldM_keep (fun st node => sn <- at_ snodes node;; foldM (fill_var t (length cliques) node) st sn)
      (fun st => length (fst st) = nv /\ (nth v (fst st) 0 = length cliques + 1 \/ nth v (fst st) 0 = f)) order
      (repeat (length cliques + 1) nv, seps) (el, sp')); auto.
    - intros s node s' Hn HQ Es. apply bind_ok in Es as (sv & Ev & Es). apply at_ok in Ev.
      apply (foldM_keep (fill_var t (length cliques) node)
        (fun st => length (fst st) = nv /\ (nth v (fst st) 0 = length cliques + 1 \/ nth v (fst st) 0 = f)) sv s s'); auto. clear HQ Es s s'.
      intros [a b] u s' Hu [HL HQ] Es. cbn [fst] in *. unfold fill_var in Es. apply bind_ok in Es as (ev & Eev & Es).
      apply at_ok in Eev. pose proof (nth_error_nth _ _ 0 Eev) as Eev'.
      assert (node < length cliques) as Hnode by (apply (order_in cliques order snodes seps t HE); auto).
      assert (u = v -> node = f) as Hnf.
      { intros ->. apply Hv. apply (orig_in cliques Hs order snodes seps t HE v node Hnode). unfold orig.
        rewrite (nth_error_nth _ _ [] Ev). auto. }
      destruct (Nat.ltb_spec ev (length cliques)) as [Hlt|Hge].
      + apply bind_ok in Es as (fill & Ef & Es). apply bind_ok in Es as (seps' & _ & Es). apply bind_ok in Es as (el' & Ee & Es).
        injection Es as <-. apply set_at_inv in Ee as [Hul ->]. cbn [fst]. rewrite upd_length. split; auto.
        rewrite nth_upd by auto. destruct (Nat.eqb_spec u v) as [->|]; auto.
        specialize (Hnf eq_refl). subst node. right. rewrite Eev' in HQ. destruct HQ as [HQ| ->]; [lia|].
        eapply path_same; eauto. apply (HF cliques order snodes seps t HE).
      + apply bind_ok in Es as (el' & Ee & Es). injection Es as <-. apply set_at_inv in Ee as [Hul ->]. cbn [fst]. rewrite upd_length. split; auto.
        rewrite nth_upd by auto. destruct (Nat.eqb_spec u v) as [->|]; auto.
    - cbn [fst]. rewrite repeat_length. split; auto. left. apply nth_repeat_lt. auto. }
  rewrite (map_sort_id sn') in Hin by (intros; apply HC). apply HC in Hin as (_ & H1 & H2). destruct HQ; lia.
Qed.

Lemma private_order cliques valid_leaf root order sn sp v f :
  (forall c, In c cliques -> SSorted c) -> valid_leaf = [] \/ length valid_leaf = length cliques ->
  nth 0 cliques [] <> [] -> (root < Z.of_nat (length cliques))%Z ->
  PickCliqueOrder cliques valid_leaf root = Ok (order, sn, sp) ->
  occurs cliques v f -> (forall e, occurs cliques v e -> e = f) ->
  forall e, In v (nth e sn []) -> e = f.
Proof.
  intros Hs Hl H0 Hr E Ho Hv. unfold PickCliqueOrder in E.
  destruct (GetCliqueEliminationOrder_ok cliques valid_leaf Hs Hl root (RootedTree_init (length cliques)))
    as (order' & snodes & seps & t & E1 & HE); auto.
  { destruct cliques; [cbn in H0; congruence|cbn; lia]. } { cbn. apply repeat_length. } { cbn. apply repeat_length. }
  rewrite E1 in E. cbn [bind] in E. apply bind_ok in E as (m & Em & E). apply bind_ok in E as ([s1 s2] & EF & E). injection E as <- <- <-.
  destruct (GetMax_ok _ _ Em) as [_ G].
  assert (f < length cliques) as Hf. { destruct (Nat.lt_ge_cases f (length cliques)); auto. unfold occurs in Ho. rewrite nth_overflow in Ho by lia. destruct Ho. }
  assert (v < m + 1) as Hvm. { specialize (G _ v (nth_In cliques [] Hf) Ho). lia. }
  apply (private_fill cliques (m + 1) order' snodes seps t v f s1 s2); auto.
  intros c u Hc Hu. specialize (G c u Hc Hu). lia.
Qed.

Lemma private_label cliques dual_vars d o bs v f : admissible cliques dual_vars -> build cliques dual_vars = Ok (d, o, bs) ->
  In v (nth f cliques []) -> (forall e, In v (nth e cliques []) -> e = f) ->
  forall k, k < length cliques -> In v (nth k (d_sn_labels d) []) -> nth k (d_order d) 0 = f.
Proof.
  intros AD E Hv Hu k Hk Hin. pose proof (build_fun _ _ _ _ _ AD E) as BP. pose proof (bp_an _ _ _ _ _ BP) as HA.
  unfold build in E. apply bind_ok in E as ([d' labels] & E0 & E). apply bind_ok in E as (o' & _ & E).
  apply bind_ok in E as (ss' & _ & E). injection E as -> -> _.
  unfold kkt_analyze in E0. apply bind_ok in E0 as (root & E & E0). apply bind_ok in E0 as (d'' & E3 & E0).
  apply bind_ok in E0 as (lab' & _ & E0). injection E0 as -> ->.
  destruct (GetRootNode_ok cliques dual_vars) as (r & Er & Hr).
  { intros ->. apply (ad_first _ _ AD). reflexivity. } { apply AD. }
  rewrite E in Er. injection Er as <-.
  unfold GetData in E3. apply bind_ok in E3 as ([[ord snl] sepl] & E0 & E3). apply bind_ok in E3 as (mx & _ & E3).
  unfold SupernodesToData in E3. apply bind_ok in E3 as ([[q p] pinv] & _ & E3).
  apply bind_ok in E3 as (rows' & ER & E3). injection E3 as E3.
  assert (d_order d = ord) as Eo by (rewrite <- E3; reflexivity).
  assert (length ord = length cliques) as Lo.
  { rewrite <- Eo, (Permutation_length (an_order _ _ _ _ _ _ _ _ _ HA)). apply seq_length. }
  assert (nth k (d_sn_labels d) [] = nth (nth k ord 0) snl []) as El.
  { rewrite <- E3. cbn [d_sn_labels]. clear - ER Hk Lo.
    revert k rows' ER Hk. rewrite <- Lo. clear Lo cliques. induction ord as [|e ord IH]; intros k rows' ER Hk; [cbn in Hk; lia|].
    cbn [mapM] in ER. apply bind_ok in ER as (row & E1 & ER). apply bind_ok in ER as (rows & E2 & ER). injection ER as <-.
    destruct k as [|k].
    - cbn. unfold data_for_clique in E1. repeat (inv_bind E1). injection E1 as <-. apply at_ok in E. rewrite (nth_error_nth _ _ [] E). reflexivity.
    - cbn in *. apply IH; auto. lia. }
  rewrite Eo. rewrite El in Hin. 
  apply (private_order (map sort cliques) (is_empty dual_vars) (Z.of_nat root) ord snl sepl v f); auto.
  - intros c Hc. apply in_map_iff in Hc as (c' & <- & Hc'). apply sort_lt; auto. apply AD; auto.
  - right. unfold is_empty. rewrite !map_length. apply AD.
  - rewrite sort_cliques_nth. intros E'. apply (ad_first _ _ AD). apply length_zero_iff_nil. rewrite <- sort_length, E'. auto.
  - rewrite map_length. lia.
  - unfold occurs. rewrite sort_cliques_nth, sort_in. auto.
  - intros e He. unfold occurs in He. rewrite sort_cliques_nth, sort_in in He. auto.
Qed.

(** Constraints over the same variables and private multipliers are not affected
    by the fault of C08. *)
Lemma shared_clean cliques dual_vars d o bs common : admissible cliques dual_vars -> build cliques dual_vars = Ok (d, o, bs) ->
  (forall e, e < length cliques -> nth e cliques [] = common ++ nth e dual_vars []) ->
  (forall i j v, In v (nth i dual_vars []) -> In v (nth j cliques []) -> i = j) ->
  forall b, In b bs -> direct_update b = true -> ~ In (-1)%Z (b_sn b).
Proof.
  intros AD E Hc Hp. apply (no_fill_clean _ _ _ _ _ AD E). intros k Hk c sn _ v Hv.
  pose proof (build_fun _ _ _ _ _ AD E) as BP. pose proof (order_lt _ _ _ _ _ k BP Hk) as Ho.
  destruct (in_dec Nat.eq_dec v common) as [Hin|Hin].
  { unfold c. rewrite Hc by auto. apply in_app_iff. auto. }
  assert (exists e, e < length cliques /\ In v (nth e cliques [])) as (e & He & Hve).
  { pose proof (bp_an _ _ _ _ _ BP) as HA. destruct (an_labels _ _ _ _ _ _ _ _ _ HA k Hk) as [L1 L2].
    assert (In v (nth k (d_sn_labels d) [] ++ nth k (d_sep_labels d) [])) as Hv2 by (apply in_app_iff; auto).
    rewrite L2 in Hv2. apply in_map_iff in Hv2 as (i & <- & Hi).
    destruct (an_pinv _ _ _ _ _ _ _ _ _ HA i) as [(c' & H1 & H2) _].
    { pose proof (an_fill _ _ _ _ _ _ _ _ _ HA) as FC. rewrite (an_N _ _ _ _ _ _ _ _ _ HA).
      rewrite <- (an_rows _ _ _ _ _ _ _ _ _ HA) in Hk. destruct (rows_split _ _ FC k Hk) as (Er & _ & R).
      rewrite Er in Hi. apply in_app_iff in Hi as [Hi|Hi]; [|apply R in Hi; lia]. apply in_seq in Hi.
      assert (offset (d_supernode_size d) (S k) <= dim (d_supernode_size d)).
      { unfold dim. rewrite (fc_len _ _ FC). apply offset_le. lia. }
      cbn in H; lia. }
    apply (In_nth _ _ []) in H1 as (e & He & <-). eauto. }
  assert (In v (nth e dual_vars [])) as Hd. { pose proof Hve as Hve'. rewrite Hc in Hve' by auto. apply in_app_iff in Hve' as [|]; tauto. }
  assert (nth k (d_order d) 0 = e) as Eo.
  { apply (private_label cliques dual_vars d o bs v e AD E Hve) with (k := k); auto. intros e' He'. symmetry. eapply Hp; eauto. }
  unfold c. rewrite Eo. auto.
Qed.
