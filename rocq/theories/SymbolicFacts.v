(** Lemmas behind Prop_Symbolic.v: the model facts restated in specification
    vocabulary. *)
From Coq Require Import List Arith ZArith Lia Sorting.Sorted Permutation.
From Verif Require Import Base BaseFacts TreeModel CliqueModel SupernodeModel TriWorkspaceModel AssemblerModel
  Spec_Tree Spec_Clique Spec_Block Spec_Assembly TreeProofs CliqueProofs CliqueFill SupernodeProofs TriWorkspaceProofs
  AssemblerProofs.
Import ListNotations.

Lemma tree_path n par hei x y :
  forest n par hei -> x < n -> y < n -> same_tree par x y ->
  exists l z, PathInTree x y par hei = Ok (l ++ [z]) /\
    closest_common_ancestor par x y z /\ NoDup (l ++ [z]) /\
    (forall u, In u l <-> (ancestor par x u \/ ancestor par y u) /\ ancestor par u z /\ u <> z).
Proof.
  intros HF Hx Hy Hs. destruct (PathInTree_correct n par hei HF x y Hx Hy Hs) as (l & z & E & P).
  exists l, z. split; auto.
Qed.

Lemma tree_path_ancestor n par hei x y :
  forest n par hei -> x < n -> y < n -> ancestor par x y ->
  (exists l, PathInTree x y par hei = Ok (l ++ [y])) /\ (exists l, PathInTree y x par hei = Ok (l ++ [y])).
Proof.
  intros HF Hx Hy Ha. split.
  - destruct (tree_path n par hei x y HF Hx Hy) as (l & z & E & (A1 & A2 & A3) & _).
    { exists y. split; auto. apply anc_refl. }
    exists l. replace y with z at 2; auto.
    apply (anc_antisym n par hei HF); auto.
    + apply (anc_lt n par hei HF y); auto.
    + apply A3; auto. apply anc_refl.
  - destruct (tree_path n par hei y x HF Hy Hx) as (l & z & E & (A1 & A2 & A3) & _).
    { exists y. split; auto. apply anc_refl. }
    exists l. replace y with z at 2; auto.
    apply (anc_antisym n par hei HF); auto.
    + apply (anc_lt n par hei HF y); auto.
    + apply A3; auto. apply anc_refl.
Qed.

Lemma clique_order cliques valid_leaf root :
  (forall c, In c cliques -> StronglySorted lt c) ->
  valid_leaf = [] \/ length valid_leaf = length cliques ->
  cliques <> [] -> (root < Z.of_nat (length cliques))%Z ->
  exists order snodes seps t,
    GetCliqueEliminationOrder cliques valid_leaf root (RootedTree_init (length cliques))
      = Ok (order, snodes, seps, t) /\
    clique_tree cliques order (parent t) (height t).
Proof.
  intros Hs Hl Hne Hr.
  destruct (GetCliqueEliminationOrder_ok cliques valid_leaf Hs Hl root (RootedTree_init (length cliques)))
    as (order & sn & sp & t & E & ((HP & _) & _)); auto.
  - destruct cliques; [congruence|cbn; lia].
  - apply repeat_length.
  - apply repeat_length.
  - exists order, sn, sp, t. auto.
Qed.

Lemma before_irrefl order e : NoDup order -> ~ before order e e.
Proof.
  intros ND (l1 & l2 & l3 & E). subst. apply NoDup_remove_2 in ND. apply ND.
  rewrite !in_app_iff. right. right. left. auto.
Qed.

Lemma eliminated_once cliques valid_leaf root :
  (forall c, In c cliques -> StronglySorted lt c) ->
  valid_leaf = [] \/ length valid_leaf = length cliques ->
  nth 0 cliques [] <> [] -> (root < Z.of_nat (length cliques))%Z ->
  exists order sn sep, PickCliqueOrder cliques valid_leaf root = Ok (order, sn, sep) /\
    length sn = length cliques /\ length sep = length cliques /\
    (forall v, (exists e, e < length cliques /\ occurs cliques v e) <->
               (exists e, e < length cliques /\ In v (nth e sn []))) /\
    (forall v e e', In v (nth e sn []) -> In v (nth e' sn []) -> e = e') /\
    (forall e, NoDup (nth e sn [])) /\
    (forall v e, occurs cliques v e -> In v (nth e sn []) \/ In v (nth e sep [])) /\
    (forall v e, In v (nth e sn []) -> ~ In v (nth e sep [])).
Proof.
  intros Hs Hl H0 Hr. destruct (PickCliqueOrder_ok cliques valid_leaf root Hs Hl H0 Hr) as (order & sn & sp & E & HS).
  exists order, sn, sp. split; auto. split; [apply HS|]. split; [apply HS|]. split; [apply HS|]. split; [apply HS|].
  split; [intros e; apply ssorted_nodup; apply HS|]. split; [apply HS|].
  intros v e H1 H2.
  assert (e < length cliques) as He.
  { destruct (Nat.lt_ge_cases e (length cliques)); auto. rewrite nth_overflow in H1 by (rewrite (so_len_sn _ _ _ _ HS); auto). destruct H1. }
  destruct (so_later _ _ _ _ HS v e He H2) as (f & Hf & H3 & HB).
  assert (e = f) by (eapply (so_unique _ _ _ _ HS); eauto). subst f.
  eapply before_irrefl; [|exact HB].
  apply (Permutation_NoDup (l := seq 0 (length cliques))); [symmetry; apply HS|apply seq_NoDup].
Qed.

Lemma fill_in_closed cliques valid_leaf root :
  (forall c, In c cliques -> StronglySorted lt c) ->
  valid_leaf = [] \/ length valid_leaf = length cliques ->
  nth 0 cliques [] <> [] -> (root < Z.of_nat (length cliques))%Z ->
  exists order sn sep, PickCliqueOrder cliques valid_leaf root = Ok (order, sn, sep) /\
    (forall e v, e < length cliques -> In v (nth e sep []) ->
       exists f, f < length cliques /\ In v (nth f sn []) /\ before order e f) /\
    (forall e f g u v, e < length cliques ->
       In u (nth e sep []) -> In v (nth e sep []) ->
       In u (nth f sn []) -> In v (nth g sn []) -> f = g \/ before order f g ->
       In v (nth f sn []) \/ In v (nth f sep [])).
Proof.
  intros Hs Hl H0 Hr. destruct (PickCliqueOrder_ok cliques valid_leaf root Hs Hl H0 Hr) as (order & sn & sp & E & HS).
  exists order, sn, sp. split; auto. split.
  - intros. eapply (so_later _ _ _ _ HS); eauto.
  - intros e f g u v He Hu Hv Hf Hg Hb. apply (so_closed _ _ _ _ HS e f g u v); auto.
Qed.

Lemma lookup_total cliques dual_vars :
  admissible cliques dual_vars ->
  exists d o bs, build cliques dual_vars = Ok (d, o, bs) /\
    forall k i j, k < length cliques ->
      let sep := skipn (nth k (d_supernode_size d) 0) (nth k (d_cliques d) []) in
      j <= i < length sep -> exists a, LookupAddress o (nth i sep 0) (nth j sep 0) = Ok a.
Proof.
  intros AD. destruct (admissible_build _ _ AD) as (d & o & bs & E & BP). exists d, o, bs. split; auto.
  intros k i j Hk sep Hij. pose proof (an_fill _ _ _ _ _ _ _ _ _ (bp_an _ _ _ _ _ BP)) as FC.
  eexists. apply (LookupAddress_ok _ _ FC o (bp_ws _ _ _ _ _ BP)).
  apply (sep_lower_stored cliques dual_vars d o bs BP); auto.
Qed.

Lemma permutation_bijection cliques valid_leaf root n :
  (forall c, In c cliques -> NoDup c) ->
  valid_leaf = [] \/ length valid_leaf = length cliques ->
  nth 0 cliques [] <> [] -> (root < Z.of_nat (length cliques))%Z ->
  (forall v, v < n <-> covered cliques v) ->
  exists d, GetData cliques valid_leaf root = Ok d /\ d_N d = n /\
    Permutation (d_perm d) (seq 0 n) /\ Permutation (d_perm_inv d) (seq 0 n) /\
    (forall i, i < n -> nth (nth i (d_perm_inv d) 0) (d_perm d) 0 = i) /\
    (forall v, v < n -> nth (nth v (d_perm d) 0) (d_perm_inv d) 0 = v) /\
    (forall k, k < length cliques -> exists sep,
       nth k (d_cliques d) [] = seq (offset (d_supernode_size d) k) (nth k (d_supernode_size d) 0) ++ sep /\
       StronglySorted lt sep /\ forall x, In x sep -> offset (d_supernode_size d) (S k) <= x < n).
Proof.
  intros ND Hl H0 Hr HC. destruct (GetData_ok cliques valid_leaf root ND Hl H0 Hr) as (d & E & HA).
  exists d. split; auto. destruct HA.
  assert (length (d_perm d) = n) as Lp.
  { destruct an_max as [M1 (c & M2 & M3)].
    assert (length (d_perm d) - 1 < n) as H1 by (apply HC; exists c; auto).
    destruct (Nat.eq_dec n 0) as [->|Hn]; [lia|].
    assert (n - 1 < length (d_perm d)) by (apply M1; apply HC; lia). lia. }
  assert (length (d_perm_inv d) = n) as Lpi by lia.
  assert (forall v, v < n -> nth v (d_perm d) 0 < d_N d /\ nth (nth v (d_perm d) 0) (d_perm_inv d) 0 = v) as P1.
  { intros v Hv. apply an_p. apply HC. auto. }
  assert (forall i, i < d_N d -> nth i (d_perm_inv d) 0 < n /\ nth (nth i (d_perm_inv d) 0) (d_perm d) 0 = i) as P2.
  { intros i Hi. destruct (an_pinv i Hi) as [A B]. split; auto. apply HC; auto. }
  assert (d_N d = n) as EN.
  { apply Nat.le_antisymm; [lia|].
    assert (length (d_perm d) <= d_N d) as H1; [|lia].
    rewrite <- (seq_length (d_N d) 0). apply NoDup_incl_length.
    - apply (NoDup_nth _ 0). intros i j Hi Hj Ei. rewrite Lp in *.
      destruct (P1 i Hi) as [_ <-]. destruct (P1 j Hj) as [_ <-]. congruence.
    - intros x Hx. apply (In_nth _ _ 0) in Hx as (i & Hi & <-). apply in_seq. split; [lia|]. apply P1. lia. }
  split; auto. rewrite EN in *.
  assert (forall l, length l = n -> NoDup l -> (forall x, In x l -> x < n) -> Permutation l (seq 0 n)) as PP.
  { intros l L1 L2 L3. apply NoDup_Permutation_bis; auto.
    - rewrite seq_length. lia.
    - intros x Hx. apply in_seq. split; [lia|]. apply L3; auto. }
  split.
  { apply PP; auto.
    - apply (NoDup_nth _ 0). intros i j Hi Hj Ei. rewrite Lp in *.
      destruct (P1 i Hi) as [_ <-]. destruct (P1 j Hj) as [_ <-]. congruence.
    - intros x Hx. apply (In_nth _ _ 0) in Hx as (i & Hi & <-). apply P1. lia. }
  split.
  { apply PP; auto.
    - apply (NoDup_nth _ 0). intros i j Hi Hj Ei. rewrite Lpi in *.
      destruct (P2 i Hi) as [_ <-]. destruct (P2 j Hj) as [_ <-]. congruence.
    - intros x Hx. apply (In_nth _ _ 0) in Hx as (i & Hi & <-). apply P2. lia. }
  split; [intros; apply P2; auto|]. split; [intros; apply P1; auto|].
  intros k Hk. rewrite an_N. apply (fc_shape _ _ an_fill). lia.
Qed.

Lemma analysis_succeeds cliques dual_vars :
  (forall c, In c cliques -> NoDup c) ->
  nth 0 cliques [] <> [] -> length dual_vars = length cliques ->
  (forall e, length (nth e dual_vars []) <= length (nth e cliques [])) ->
  exists d o bs idx, build cliques dual_vars = Ok (d, o, bs) /\ Pt_indices d = Ok idx.
Proof.
  intros ND H0 L Hd. destruct (build_ok cliques dual_vars ND H0 L Hd) as (d & o & bs & E & BP).
  eexists d, o, bs, _. split; auto. apply Pt_indices_ok. apply (an_len _ _ _ _ _ _ _ _ _ (bp_an _ _ _ _ _ BP)).
Qed.

Lemma empty_first_clique_throws cliques dual_vars :
  (forall c, In c cliques -> NoDup c) ->
  cliques <> [] -> nth 0 cliques [] = [] -> length dual_vars = length cliques ->
  build cliques dual_vars = Throw.
Proof.
  intros ND Hne H0 L. unfold build, kkt_analyze.
  destruct (GetRootNode_ok cliques dual_vars Hne L) as (r & Er & Hr). rewrite Er. cbn [bind].
  rewrite GetData_throws; auto.
  - right. unfold is_empty. rewrite map_length. auto.
  - lia.
Qed.

Lemma storage cliques dual_vars :
  admissible cliques dual_vars ->
  exists d o bs, build cliques dual_vars = Ok (d, o, bs) /\
    exists addr_of : nat -> nat -> addr,
    let pat r c := c <= r /\ exists k, k < length cliques /\ in_block (d_supernode_size d) k c /\
                                       stored_row (d_cliques d) k r in
    (forall r c, pat r c -> LookupAddress o r c = Ok (addr_of r c) /\
                            Get_addr o (d_cliques d) r c = Ok (Some (addr_of r c))) /\
    (forall r c, r < d_N d -> c <= r -> ~ pat r c -> Get_addr o (d_cliques d) r c = Ok None) /\
    (forall r c, pat r c -> addr_offset o (addr_of r c) < SizeOf_ws o) /\
    (forall r c r' c', pat r c -> pat r' c' ->
       addr_offset o (addr_of r c) = addr_offset o (addr_of r' c') -> r = r' /\ c = c').
Proof.
  intros AD. destruct (admissible_build _ _ AD) as (d & o & bs & E & BP). exists d, o, bs. split; auto.
  pose proof (bp_an _ _ _ _ _ BP) as HA. pose proof (an_fill _ _ _ _ _ _ _ _ _ HA) as FC.
  pose proof (bp_ws _ _ _ _ _ BP) as HW. pose proof (an_rows _ _ _ _ _ _ _ _ _ HA) as Hn.
  exists (address (d_cliques d) (d_supernode_size d)). intros pat.
  assert (forall r c, pat r c <-> stored (d_cliques d) (d_supernode_size d) r c) as HP.
  { intros r c. unfold pat. split.
    - intros (H1 & k & Hk & Hb & Hs). split; auto.
      assert (r < dim (d_supernode_size d)) as Hr.
      { destruct (rows_split _ _ FC k) as (Er & _ & R); [lia|]. unfold stored_row in Hs.
        rewrite Er, in_app_iff, in_seq in Hs. destruct Hs as [Hs|Hs]; [|apply R in Hs; lia].
        pose proof (off_le_dim _ _ FC (S k) ltac:(lia)). cbn in H. lia. }
      split; auto. rewrite (owner_spec _ _ k); auto. lia.
    - intros (H1 & H2 & H3). split; auto. destruct (owner_block _ _ FC c ltac:(lia)) as [Hk Hb].
      eexists. split; [|split; [exact Hb|exact H3]]. lia. }
  split; [|split; [|split]].
  - intros r c Hp. apply HP in Hp. split.
    + apply (LookupAddress_ok _ _ FC); auto.
    + pose proof Hp as (H1 & H2 & _). apply (Get_addr_ok _ _ FC o HW r c); auto.
  - intros r c Hr Hcr Hp. rewrite HP in Hp. rewrite (an_N _ _ _ _ _ _ _ _ _ HA) in Hr.
    apply (Get_addr_ok _ _ FC o HW r c); auto.
  - intros r c Hp. apply HP in Hp. apply (addr_offset_lt _ _ o HW). apply (address_in_block _ _ FC); auto.
  - intros r c r' c' Hp Hp' Eo. apply HP in Hp, Hp'.
    apply (address_inj _ _ FC); auto. apply (addr_offset_inj o); auto; apply (address_in_block _ _ FC); auto.
Qed.

Lemma kkt_dimension cliques dual_vars :
  admissible cliques dual_vars ->
  exists d o bs, build cliques dual_vars = Ok (d, o, bs) /\
    (forall vars, NoDup vars -> (forall v, In v vars <-> covered cliques v) -> d_N d = length vars) /\
    (forall n, (forall v, covered cliques v -> v < n) ->
       (d_N d = n <-> forall v, v < n -> covered cliques v)).
Proof.
  intros AD. destruct (admissible_build _ _ AD) as (d & o & bs & E & BP). exists d, o, bs. split; auto.
  pose proof (bp_an _ _ _ _ _ BP) as HA. destruct HA.
  pose (L := firstn (d_N d) (d_perm_inv d)).
  assert (length L = d_N d) as LL by (unfold L; rewrite firstn_length; lia).
  assert (forall i, i < d_N d -> nth i L 0 = nth i (d_perm_inv d) 0) as NL.
  { intros i Hi. unfold L. rewrite nth_firstn_lt; auto. }
  assert (NoDup L) as NDL.
  { apply (NoDup_nth _ 0). intros i j Hi Hj Ei. rewrite LL in *. rewrite !NL in Ei by auto.
    destruct (an_pinv i Hi) as [_ <-]. destruct (an_pinv j Hj) as [_ <-]. congruence. }
  assert (forall v, In v L <-> covered cliques v) as HL.
  { intros v. split.
    - intros Hv. apply (In_nth _ _ 0) in Hv as (i & Hi & <-). rewrite LL in Hi. rewrite NL by auto. apply an_pinv; auto.
    - intros Hv. destruct (an_p v Hv) as [H1 H2]. rewrite <- H2, <- NL by auto. apply nth_In. lia. }
  assert (forall vars, NoDup vars -> (forall v, In v vars <-> covered cliques v) -> d_N d = length vars) as Hcard.
  { intros vars Nv Hv. rewrite <- LL. apply Permutation_length. apply NoDup_Permutation; auto.
    intros x. rewrite HL, Hv. tauto. }
  split; auto. intros n Hn. split.
  - intros EN v Hv. apply HL.
    assert (Permutation L (seq 0 n)) as P.
    { apply NoDup_Permutation_bis; auto.
      - rewrite seq_length. lia.
      - intros x Hx. apply in_seq. split; [lia|]. apply Hn, HL; auto. }
    eapply Permutation_in; [symmetry; exact P|]. apply in_seq. lia.
  - intros HC. rewrite (Hcard (seq 0 n)); [apply seq_length|apply seq_NoDup|].
    intros v. rewrite in_seq. split; [intros; apply HC; lia|]. intros Hv. apply Hn in Hv. lia.
Qed.
