(** Proofs about SupernodeModel.v. *)
From Coq Require Import List Arith ZArith Bool Lia Sorting.Sorted Permutation.
From Verif Require Import Base BaseFacts TreeModel CliqueModel SupernodeModel
  Spec_Tree Spec_Clique Spec_Block TreeProofs CliqueProofs CliqueFill.
Import ListNotations.

(** ** Offsets *)
Lemma offset_le size : forall j k, j <= k -> offset size j <= offset size k.
Proof. intros j k H. induction H; cbn; lia. Qed.

Lemma offset_lt_inv size j k c : in_block size j c -> in_block size k c -> j = k.
Proof.
  unfold in_block. intros [H1 H2] [H3 H4].
  destruct (Nat.lt_trichotomy j k) as [H|[H|H]]; auto.
  - pose proof (offset_le size (S j) k H). lia.
  - pose proof (offset_le size (S k) j H). lia.
Qed.

Lemma in_block_ex size c : c < dim size -> exists k, k < length size /\ in_block size k c.
Proof.
  unfold dim. generalize (length size) as n. induction n as [|n IH]; cbn; intros H; [lia|].
  destruct (Nat.lt_ge_cases c (offset size n)) as [H1|H1].
  - destruct (IH H1) as (k & K1 & K2). exists k; split; auto.
  - exists n. split; auto. split; auto.
Qed.

Lemma offset_app_l l1 l2 k : k <= length l1 -> offset (l1 ++ l2) k = offset l1 k.
Proof.
  induction k; cbn; auto. intros. rewrite IHk by lia. rewrite app_nth1 by lia. auto.
Qed.

Lemma dim_cons a l : dim (a :: l) = a + dim l.
Proof.
  unfold dim. cbn [length]. 
  assert (forall k, offset (a :: l) (S k) = a + offset l k) as G.
  { induction k as [|k IH]; [cbn; lia|].
    change (offset (a :: l) (S (S k))) with (offset (a :: l) (S k) + nth k l 0).
    rewrite IH. cbn. lia. }
  apply G.
Qed.

Lemma offset_cons a l k : offset (a :: l) (S k) = a + offset l k.
Proof.
  induction k as [|k IH]; [cbn; lia|].
  change (offset (a :: l) (S (S k))) with (offset (a :: l) (S k) + nth k l 0).
  rewrite IH. cbn. lia.
Qed.

Lemma dim_sum l : dim l = sum_list l.
Proof. induction l; [reflexivity|]. rewrite dim_cons, sum_list_cons. lia. Qed.

(** Elements of the k-th list of a concatenation. *)
Lemma nth_concat {A} (ll : list (list A)) (d : A) : forall k i,
  k < length ll -> i < length (nth k ll []) ->
  nth (offset (map (@length A) ll) k + i) (concat ll) d = nth i (nth k ll []) d.
Proof.
  induction ll as [|l ll IH]; intros k i Hk Hi; cbn in Hk; [lia|].
  destruct k as [|k].
  - cbn in *. apply app_nth1; auto.
  - cbn [map]. rewrite offset_cons. cbn [concat nth] in *.
    rewrite app_nth2 by lia.
    replace (length l + offset (map (length (A:=A)) ll) k + i - length l)
      with (offset (map (length (A:=A)) ll) k + i) by lia.
    apply IH; auto. lia.
Qed.

Lemma concat_nth_inv {A} (ll : list (list A)) (d : A) i : i < length (concat ll) ->
  exists k j, k < length ll /\ j < length (nth k ll []) /\
    i = offset (map (@length A) ll) k + j.
Proof.
  intros H. assert (i < dim (map (@length A) ll)) as H'.
  { rewrite dim_sum, <- concat_length_sum. auto. }
  destruct (in_block_ex _ _ H') as (k & K1 & K2 & K3). rewrite map_length in K1.
  cbn in K3.
  exists k, (i - offset (map (length (A:=A)) ll) k). split; auto. split; [|lia].
  change 0 with (length (@nil A)) in K3. rewrite map_nth in K3. lia.
Qed.

(** ** Numbering *)
Definition num_step (st : nat * list nat * list nat) (v : nat) : res (nat * list nat * list nat) :=
  let '(i, p, pinv) := st in
  pinv' <- set_at pinv i v ;;
  p' <- set_at p v i ;;
  Ok (S i, p', pinv').

Lemma foldM_concat {St A B} (f : St -> B -> res St) (g : A -> list B) l : forall s,
  foldM (fun s a => foldM f s (g a)) s l = foldM f s (concat (map g l)).
Proof.
  induction l as [|a l IH]; intros s; cbn; auto.
  rewrite foldM_app. destruct (foldM f s (g a)); cbn; auto.
Qed.

Lemma foldM_ext {St A} (f g : St -> A -> res St) l : (forall s a, In a l -> f s a = g s a) ->
  forall s, foldM f s l = foldM g s l.
Proof.
  induction l as [|a l IH]; intros H s; cbn; auto.
  rewrite H by (left; auto). destruct (g s a); cbn; auto. apply IH. intros; apply H; right; auto.
Qed.

Lemma num_step_ok nv L : NoDup L -> (forall v, In v L -> v < nv) ->
  exists p, foldM num_step (0, repeat 0 nv, repeat 0 nv) L =
     Ok (length L, p, L ++ repeat 0 (nv - length L)) /\ length p = nv /\
     forall i, i < length L -> nth (nth i L 0) p 0 = i.
Proof.
  intros ND Hv.
  assert (length L <= nv) as HL.
  { rewrite <- (seq_length nv 0). apply NoDup_incl_length; auto. intros v H. apply in_seq.
    specialize (Hv v H). lia. }
  destruct (foldM_inv num_step (fun pre st => exists p,
     st = (length pre, p, pre ++ repeat 0 (nv - length pre)) /\ length p = nv /\
     forall i, i < length pre -> nth (nth i pre 0) p 0 = i) L (0, repeat 0 nv, repeat 0 nv))
    as (st & E & p & -> & Lp & Hp).
  - exists (repeat 0 nv). cbn. rewrite Nat.sub_0_r, repeat_length. repeat split; auto. lia.
  - intros pre v post st HLs (p & -> & Lp & Hp).
    assert (v < nv) as Hvn by (apply Hv; rewrite HLs; apply in_elt).
    assert (length pre < nv) as Hpre.
    { rewrite HLs in HL. rewrite app_length in HL. cbn in HL. lia. }
    unfold num_step. rewrite set_at_lt by (rewrite app_length, repeat_length; lia). cbn [bind].
    rewrite set_at_lt by lia. cbn [bind]. eexists; split; [reflexivity|].
    exists (upd p v (length pre)). split; [|split].
    + f_equal; [f_equal; rewrite app_length; cbn; lia|].
      replace (nv - length pre) with (S (nv - length (pre ++ [v]))) by (rewrite app_length; cbn; lia).
      cbn [repeat]. generalize (repeat 0 (nv - length (pre ++ [v]))) as r. clear.
      induction pre; cbn; intros; auto. rewrite IHpre. auto.
    + rewrite upd_length; auto.
    + intros i Hi. rewrite app_length in Hi. cbn in Hi.
      destruct (Nat.eq_dec i (length pre)) as [->|Hne].
      * rewrite nth_middle. apply nth_upd_eq. lia.
      * rewrite app_nth1 by lia. rewrite nth_upd_neq.
        -- apply Hp. lia.
        -- intros E. rewrite HLs in ND. apply NoDup_app_inv in ND as (_ & _ & D).
           apply (D v); [rewrite E; apply nth_In; lia|left; auto].
  - exists p. auto.
Qed.

Lemma Relabel_ok x labels : (forall v, In v x -> v < length labels) ->
  Relabel x labels = Ok (map (fun v => nth v labels 0) x).
Proof.
  intros H. unfold Relabel. apply mapM_total. intros a Ha. apply at_lt. auto.
Qed.

Section Data.
  Variable cliques : list (list nat).
  Notation n := (length cliques).
  Variables (order : list nat) (sn sp : list (list nat)).
  Hypothesis HS : symbolic_ok cliques order sn sp.
  Variable nv : nat.
  Hypothesis Hnv : forall v e, occurs cliques v e -> v < nv.

  Definition LL : list (list nat) := map (fun e => nth e sn []) order.
  Definition L : list nat := concat LL.
  Definition sizes : list nat := map (@length nat) LL.

  Lemma ord_len : length order = n.
  Proof. rewrite (Permutation_length (so_order _ _ _ _ HS)). apply seq_length. Qed.
  Lemma ord_in e : In e order <-> e < n.
  Proof.
    split; intros H.
    - apply (Permutation_in _ (so_order _ _ _ _ HS)) in H. apply in_seq in H. lia.
    - apply (Permutation_in _ (Permutation_sym (so_order _ _ _ _ HS))). apply in_seq. lia.
  Qed.
  Lemma ord_nodup : NoDup order.
  Proof.
    eapply Permutation_NoDup; [apply Permutation_sym, (so_order _ _ _ _ HS)|apply seq_NoDup].
  Qed.
  Lemma LL_len : length LL = n.
  Proof. unfold LL. rewrite map_length. apply ord_len. Qed.
  Lemma LL_nth k : k < n -> nth k LL [] = nth (nth k order 0) sn [].
  Proof.
    intros H. unfold LL. rewrite nth_indep with (d' := nth 0 sn []).
    - apply (map_nth (fun e => nth e sn [])).
    - rewrite map_length, ord_len. auto.
  Qed.
  Lemma sizes_nth k : nth k sizes 0 = length (nth k LL []).
  Proof. unfold sizes. change 0 with (length (@nil nat)). apply map_nth. Qed.
  Lemma sizes_len : length sizes = n.
  Proof. unfold sizes. rewrite map_length. apply LL_len. Qed.
  Lemma L_len : length L = dim sizes.
  Proof. unfold L. rewrite dim_sum. apply concat_length_sum. Qed.

  Lemma ord_nth_lt k : k < n -> nth k order 0 < n.
  Proof. intros. apply ord_in. apply nth_In. rewrite ord_len; auto. Qed.
  Lemma ord_nth_inv e : e < n -> exists k, k < n /\ nth k order 0 = e.
  Proof.
    intros He. apply ord_in in He. apply In_nth with (d := 0) in He as (k & K1 & K2).
    rewrite ord_len in K1. eauto.
  Qed.

  Lemma sn_in_nv v e : In v (nth e sn []) -> v < nv.
  Proof.
    intros H. assert (e < n) as He.
    { destruct (Nat.lt_ge_cases e n); auto. rewrite nth_overflow in H; [contradiction|].
      rewrite (so_len_sn _ _ _ _ HS). auto. }
    destruct (proj2 (so_cover _ _ _ _ HS v)) as (f & Hf & Ho); eauto.
  Qed.

  Lemma L_in v : In v L <-> exists e, e < n /\ In v (nth e sn []).
  Proof.
    unfold L, LL. rewrite in_concat. split.
    - intros (x & Hx & Hv). apply in_map_iff in Hx as (e & <- & He). exists e. split; auto. apply ord_in; auto.
    - intros (e & He & Hv). exists (nth e sn []). split; auto. apply in_map_iff. exists e. split; auto. apply ord_in; auto.
  Qed.

  Lemma L_nodup : NoDup L.
  Proof.
    unfold L, LL. pose proof ord_nodup as ND. revert ND. generalize order as o.
    induction o as [|e o IH]; cbn; intros ND; [constructor|].
    apply NoDup_cons_iff in ND as [He ND]. apply NoDup_app_inv. repeat split; auto.
    - apply ssorted_nodup. apply HS.
    - intros v Hv Hin. apply in_concat in Hin as (x & Hx & Hv2). apply in_map_iff in Hx as (e' & <- & He').
      assert (e = e') as -> by (eapply (so_unique _ _ _ _ HS); eauto). auto.
  Qed.

  Variable p : list nat.
  Hypothesis Lp : length p = nv.
  Hypothesis Hp : forall i, i < length L -> nth (nth i L 0) p 0 = i.
  Definition pinv := L ++ repeat 0 (nv - length L).

  Lemma L_le_nv : length L <= nv.
  Proof.
    rewrite <- (seq_length nv 0). apply NoDup_incl_length; [apply L_nodup|].
    intros v Hv. apply L_in in Hv as (e & _ & Hv). apply in_seq. apply sn_in_nv in Hv. lia.
  Qed.
  Lemma pinv_len : length pinv = nv.
  Proof. unfold pinv. rewrite app_length, repeat_length. pose proof L_le_nv. lia. Qed.
  Lemma pinv_nth i : i < length L -> nth i pinv 0 = nth i L 0.
  Proof. intros. unfold pinv. apply app_nth1; auto. Qed.
  Lemma p_lt v : In v L -> nth v p 0 < length L /\ nth (nth v p 0) pinv 0 = v.
  Proof.
    intros H. apply In_nth with (d := 0) in H as (i & Hi & <-).
    rewrite Hp by auto. split; auto. apply pinv_nth; auto.
  Qed.
  Lemma p_inj u v : In u L -> In v L -> nth u p 0 = nth v p 0 -> u = v.
  Proof.
    intros Hu Hv E. rewrite <- (proj2 (p_lt u Hu)), E. apply p_lt; auto.
  Qed.

  Lemma p_block k v : k < n -> In v (nth (nth k order 0) sn []) -> in_block sizes k (nth v p 0).
  Proof.
    intros Hk H. rewrite <- LL_nth in H by auto. apply In_nth with (d := 0) in H as (i & Hi & <-).
    assert (k < length LL) as Hk' by (rewrite LL_len; auto).
    rewrite <- (nth_concat LL 0 k i Hk' Hi). fold L. fold sizes.
    assert (offset sizes k + i < length L).
    { rewrite L_len. unfold dim. rewrite sizes_len.
      pose proof (offset_le sizes (S k) n Hk). cbn in H. rewrite sizes_nth in H. lia. }
    rewrite Hp by auto. split; [lia|]. cbn. rewrite sizes_nth. lia.
  Qed.

  Lemma sep_in_L v e : e < n -> In v (nth e sp []) -> In v L.
  Proof.
    intros He H. destruct (so_later _ _ _ _ HS v e He H) as (f & Hf & Hv & _).
    apply L_in. eauto.
  Qed.

  Definition newsep (e : nat) : list nat := sort (map (fun v => nth v p 0) (nth e sp [])).
  Definition oldsep (e : nat) : list nat := map (fun i => nth i pinv 0) (newsep e).

  Lemma newsep_nodup e : e < n -> SSorted (newsep e).
  Proof.
    intros He. apply sort_lt. 
    assert (forall v, In v (nth e sp []) -> In v L) as Hin by (intros; eapply sep_in_L; eauto).
    pose proof (ssorted_nodup _ (so_sorted_sep _ _ _ _ HS e)) as ND.
    revert Hin ND. generalize (nth e sp []) as l. induction l as [|a l IH]; intros Hin ND; cbn; [constructor|].
    apply NoDup_cons_iff in ND as [Ha ND]. constructor.
    - intros Hx. apply in_map_iff in Hx as (b & Eb & Hb). apply Ha.
      apply p_inj in Eb; try (apply Hin; cbn; auto). subst; auto.
    - apply IH; auto. intros; apply Hin; right; auto.
  Qed.

  Lemma newsep_in x e : In x (newsep e) <-> exists v, In v (nth e sp []) /\ x = nth v p 0.
  Proof.
    unfold newsep. rewrite sort_in, in_map_iff. split; intros (v & H); exists v; intuition.
  Qed.

  Lemma newsep_lt x e : e < n -> In x (newsep e) -> x < length L.
  Proof.
    intros He H. apply newsep_in in H as (v & Hv & ->). apply p_lt. eapply sep_in_L; eauto.
  Qed.

  Lemma map_p_sn k : k < n -> map (fun v => nth v p 0) (nth (nth k order 0) sn []) =
     seq (offset sizes k) (nth k sizes 0).
  Proof.
    intros Hk. rewrite <- LL_nth by auto.
    assert (k < length LL) as Hk' by (rewrite LL_len; auto).
    apply nth_ext with (d := 0) (d' := 0).
    - rewrite map_length, seq_length, sizes_nth. auto.
    - intros i Hi. rewrite map_length in Hi. rewrite seq_nth by (rewrite sizes_nth; auto).
      rewrite nth_indep with (d' := nth 0 p 0) by (rewrite map_length; auto).
      rewrite map_nth with (f := fun v => nth v p 0).
      rewrite <- (nth_concat LL 0 k i Hk' Hi). fold L. fold sizes.
      apply Hp. rewrite L_len. unfold dim. rewrite sizes_len.
      pose proof (offset_le sizes (S k) n Hk). cbn in H. rewrite sizes_nth in H. lia.
  Qed.

  Lemma map_p_pinv l : (forall i, In i l -> i < length L) ->
    map (fun v => nth v p 0) (map (fun i => nth i pinv 0) l) = l.
  Proof.
    intros H. rewrite map_map. rewrite <- (map_id l) at 2. apply map_ext_in.
    intros i Hi. rewrite pinv_nth by auto. apply Hp; auto.
  Qed.

  Lemma map_pinv_p l : (forall v, In v l -> In v L) ->
    map (fun i => nth i pinv 0) (map (fun v => nth v p 0) l) = l.
  Proof.
    intros H. rewrite map_map. rewrite <- (map_id l) at 2. apply map_ext_in.
    intros v Hv. apply p_lt; auto.
  Qed.

  Definition newrow (k : nat) : list nat :=
    seq (offset sizes k) (nth k sizes 0) ++ newsep (nth k order 0).

  Lemma data_for_clique_ok k : k < n ->
    data_for_clique sn sp p pinv (nth k order 0) =
      Ok (newrow k, nth k sizes 0, nth k LL [], oldsep (nth k order 0)).
  Proof.
    intros Hk. pose proof (ord_nth_lt k Hk) as He. set (e := nth k order 0) in *.
    unfold data_for_clique.
    rewrite (at_lt sn e []) by (rewrite (so_len_sn _ _ _ _ HS); auto). cbn [bind].
    rewrite (at_lt sp e []) by (rewrite (so_len_sep _ _ _ _ HS); auto). cbn [bind].
    assert (forall v, In v L -> v < nv) as HLn.
    { intros v Hv. apply L_in in Hv as (f & _ & Hv). eapply sn_in_nv; eauto. }
    rewrite Relabel_ok. 2:{ intros v Hv. rewrite Lp. apply HLn. eapply sep_in_L; eauto. }
    cbn [bind]. fold (newsep e).
    rewrite Relabel_ok. 2:{ intros v Hv. rewrite pinv_len. apply newsep_lt in Hv; auto. pose proof L_le_nv. lia. }
    cbn [bind]. fold (oldsep e).
    rewrite Relabel_ok.
    2:{ intros v Hv. rewrite Lp. rewrite in_app_iff in Hv. destruct Hv as [Hv|Hv].
        - eapply sn_in_nv; eauto.
        - unfold oldsep in Hv. apply in_map_iff in Hv as (i & <- & Hi). apply newsep_lt in Hi; auto.
          rewrite pinv_nth by auto. apply HLn. apply nth_In; auto. }
    cbn [bind]. rewrite map_app. unfold oldsep at 1. rewrite map_p_pinv by (intros; apply newsep_lt with e; auto).
    unfold e at 1. rewrite map_p_sn by auto. unfold newrow.
    rewrite sizes_nth, LL_nth by auto. reflexivity.
  Qed.

  Lemma before_nth j k : before order (nth k order 0) (nth j order 0) -> j < n -> k < n -> k < j.
  Proof.
    intros (l1 & l2 & l3 & E) Hj Hk.
    pose proof ord_nodup as ND. 
    assert (nth (length l1) order 0 = nth k order 0) as E1.
    { rewrite E at 1. apply nth_middle. }
    assert (nth (length l1 + 1 + length l2) order 0 = nth j order 0) as E2.
    { rewrite E at 1. rewrite app_nth2 by lia. replace (length l1 + 1 + length l2 - length l1) with (S (length l2)) by lia.
      cbn. apply nth_middle. }
    assert (length order = length l1 + S (length l2 + S (length l3))) as EL.
    { rewrite E. rewrite app_length. cbn. rewrite app_length. cbn. lia. }
    pose proof ord_len as OL.
    apply (proj1 (NoDup_nth order 0) ND) in E1; [|lia|lia].
    apply (proj1 (NoDup_nth order 0) ND) in E2; [|lia|lia]. lia.
  Qed.

  Lemma nth_before j k : k < j -> j < n -> before order (nth k order 0) (nth j order 0).
  Proof.
    intros Hkj Hj. pose proof ord_len as OL.
    destruct (nth_split order 0 (n := k)) as (l1 & l2 & E & E1); [lia|].
    exists l1. 
    assert (nth j order 0 = nth (j - k - 1) l2 0) as E2.
    { rewrite E at 1. rewrite app_nth2 by lia. rewrite E1.
      destruct (j - k) as [|m] eqn:Em; [lia|]. cbn. f_equal. lia. }
    destruct (nth_split l2 0 (n := j - k - 1)) as (m1 & m2 & F & F1).
    { assert (length order = k + S (length l2)) by (rewrite E, app_length; cbn; lia). lia. }
    exists m1, m2. rewrite E2. rewrite <- F. auto.
  Qed.

  Lemma rows_fill_closed : fill_closed (map newrow (seq 0 n)) sizes.
  Proof.
    assert (forall k, k < n -> nth k (map newrow (seq 0 n)) [] = newrow k) as Hnth.
    { intros k Hk. rewrite nth_indep with (d' := newrow 0) by (rewrite map_length, seq_length; auto).
      rewrite map_nth, seq_nth by auto. auto. }
    assert (forall k x, k < n -> In x (newsep (nth k order 0)) -> offset sizes (S k) <= x < dim sizes) as Hrng.
    { intros k x Hk Hx. pose proof (ord_nth_lt k Hk) as He.
      split; [|rewrite <- L_len; eapply newsep_lt; eauto].
      apply newsep_in in Hx as (v & Hv & ->).
      destruct (so_later _ _ _ _ HS v _ He Hv) as (f & Hf & Hvf & Hb).
      destruct (ord_nth_inv f Hf) as (j & Hj & <-).
      apply before_nth in Hb; auto.
      pose proof (p_block j v Hj Hvf) as [B1 _].
      pose proof (offset_le sizes (S k) j Hb). lia. }
    constructor.
    - rewrite map_length, seq_length. apply sizes_len.
    - intros k Hk. rewrite map_length, seq_length in Hk. rewrite Hnth by auto.
      exists (newsep (nth k order 0)). split; [reflexivity|]. split.
      + apply newsep_nodup. apply ord_nth_lt; auto.
      + intros x Hx. apply Hrng; auto.
    - intros k j r c Hk Hj Hr Hc Hcr Hjc. rewrite map_length, seq_length in Hk, Hj.
      unfold stored_row in *. rewrite Hnth in * by auto. unfold newrow in *. rewrite in_app_iff in *.
      destruct Hc as [Hc|Hc].
      + (* c in own block: j = k *)
        apply in_seq in Hc. assert (in_block sizes k c) by (unfold in_block; cbn; lia).
        assert (j = k) as -> by (eapply offset_lt_inv; eauto). auto.
      + destruct Hr as [Hr|Hr].
        { apply in_seq in Hr. specialize (Hrng k c Hk Hc). cbn in Hrng. lia. }
        pose proof (ord_nth_lt k Hk) as He.
        apply newsep_in in Hc as (u & Hu & ->). apply newsep_in in Hr as (v & Hv & ->).
        destruct (so_later _ _ _ _ HS u _ He Hu) as (f & Hf & Huf & _).
        destruct (so_later _ _ _ _ HS v _ He Hv) as (g & Hg & Hvg & _).
        destruct (ord_nth_inv f Hf) as (jf & Hjf & <-). destruct (ord_nth_inv g Hg) as (jg & Hjg & <-).
        pose proof (p_block jf u Hjf Huf) as Bf. pose proof (p_block jg v Hjg Hvg) as Bg.
        assert (j = jf) as -> by (eapply offset_lt_inv; eauto).
        assert (jf <= jg) as Hle.
        { destruct (Nat.le_gt_cases jf jg); auto. exfalso.
          pose proof (offset_le sizes (S jg) jf H). unfold in_block in *. lia. }
        destruct (so_closed _ _ _ _ HS (nth k order 0) (nth jf order 0) (nth jg order 0) u v) as [H|H]; auto.
        { destruct (Nat.eq_dec jf jg) as [->|]; auto. right. apply nth_before; auto. lia. }
        * left. apply in_seq. pose proof (p_block jf v Hjf H) as B. unfold in_block in B. cbn in B. auto.
        * right. apply newsep_in. eauto.
  Qed.

  Lemma mapM_order_rows :
    mapM (data_for_clique sn sp p pinv) order =
    Ok (map (fun k => (newrow k, nth k sizes 0, nth k LL [], oldsep (nth k order 0))) (seq 0 n)).
  Proof.
    assert (order = map (fun k => nth k order 0) (seq 0 n)) as Eo.
    { apply nth_ext with (d := 0) (d' := 0).
      - rewrite map_length, seq_length. apply ord_len.
      - intros i Hi. rewrite ord_len in Hi.
        rewrite nth_indep with (l := map _ _) (d' := nth 0 order 0) by (rewrite map_length, seq_length; auto).
        rewrite (map_nth (fun k => nth k order 0)), seq_nth by auto. auto. }
    rewrite Eo at 1. 
    assert (forall l, (forall k, In k l -> k < n) ->
      mapM (data_for_clique sn sp p pinv) (map (fun k => nth k order 0) l) =
      Ok (map (fun k => (newrow k, nth k sizes 0, nth k LL [], oldsep (nth k order 0))) l)) as G.
    { induction l as [|k l IH]; intros Hl; cbn [map mapM]; auto.
      rewrite data_for_clique_ok by (apply Hl; left; auto). cbn [bind].
      rewrite IH by (intros; apply Hl; right; auto). reflexivity. }
    apply G. intros k Hk. apply in_seq in Hk. lia.
  Qed.

  Lemma map_nth_id {A} (l : list A) d : map (fun k => nth k l d) (seq 0 (length l)) = l.
  Proof.
    apply nth_ext with (d := d) (d' := d).
    - rewrite map_length, seq_length. auto.
    - intros i Hi. rewrite map_length, seq_length in Hi.
      rewrite nth_indep with (d' := nth 0 l d) by (rewrite map_length, seq_length; auto).
      rewrite (map_nth (fun k => nth k l d)), seq_nth by auto. auto.
  Qed.

  Hypothesis Hmax : exists c, In c cliques /\ In (nv - 1) c.

  Lemma occ_in_L v : (exists c, In c cliques /\ In v c) <-> In v L.
  Proof.
    rewrite L_in, <- (so_cover _ _ _ _ HS v). split.
    - intros (c & Hc & Hv). apply In_nth with (d := []) in Hc as (e & He & <-). exists e. auto.
    - intros (e & He & Hv). exists (nth e cliques []). split; auto. apply nth_In; auto.
  Qed.

  Lemma analysis_final :
    analysis_ok cliques order (map newrow (seq 0 n)) sizes p pinv (sum_list sizes)
      LL (map (fun k => oldsep (nth k order 0)) (seq 0 n)).
  Proof.
    assert (forall k, k < n -> nth k (map newrow (seq 0 n)) [] = newrow k) as Hnth.
    { intros k Hk. rewrite nth_indep with (d' := newrow 0) by (rewrite map_length, seq_length; auto).
      rewrite map_nth, seq_nth by auto. auto. }
    assert (sum_list sizes = length L) as EN by (rewrite L_len, dim_sum; auto).
    constructor.
    - apply HS.
    - rewrite map_length, seq_length. auto.
    - apply rows_fill_closed.
    - rewrite dim_sum. auto.
    - rewrite Lp, pinv_len. split; auto. rewrite EN. apply L_le_nv.
    - rewrite Lp. split; auto. intros v Hv. apply occ_in_L, L_in in Hv as (e & _ & Hv). eapply sn_in_nv; eauto.
    - intros v Hv. apply occ_in_L in Hv. rewrite EN. apply p_lt; auto.
    - intros i Hi. rewrite EN in Hi. rewrite pinv_nth by auto. split.
      + apply occ_in_L. apply nth_In; auto.
      + apply Hp; auto.
    - intros k v Hk Hv. unfold stored_row. rewrite Hnth by auto.
      destruct (so_clique _ _ _ _ HS v _ Hv) as [H|H]; unfold newrow; rewrite in_app_iff.
      + left. apply in_seq. apply (p_block k v Hk H).
      + right. apply newsep_in. eauto.
    - rewrite map_length, seq_length. split; auto. apply LL_len.
    - intros k Hk. rewrite sizes_nth. split; auto.
      rewrite Hnth by auto. unfold newrow. rewrite map_app. f_equal.
      + rewrite <- map_p_sn by auto. rewrite map_pinv_p.
        * apply LL_nth; auto.
        * intros v Hv. apply L_in. exists (nth k order 0). split; auto. apply ord_nth_lt; auto.
      + rewrite nth_indep with (d' := oldsep (nth 0 order 0)) by (rewrite map_length, seq_length; auto).
        rewrite (map_nth (fun k => oldsep (nth k order 0))), seq_nth by auto. reflexivity.
  Qed.
End Data.

Lemma SupernodesToData_ok cliques order sn sp nv :
  symbolic_ok cliques order sn sp ->
  (forall v e, occurs cliques v e -> v < nv) ->
  (exists c, In c cliques /\ In (nv - 1) c) ->
  exists d, SupernodesToData nv order sn sp = Ok d /\ d_order d = order /\
    analysis_ok cliques order (d_cliques d) (d_supernode_size d) (d_perm d) (d_perm_inv d) (d_N d)
      (d_sn_labels d) (d_sep_labels d).
Proof.
  intros HS Hnv Hmax. unfold SupernodesToData.
  assert (number_vars order sn (0, repeat 0 nv, repeat 0 nv) =
          foldM num_step (0, repeat 0 nv, repeat 0 nv) (L order sn)) as E.
  { unfold number_vars, L, LL. rewrite <- foldM_concat. apply foldM_ext.
    intros s e He. rewrite (at_lt sn e []).
    - reflexivity.
    - rewrite (so_len_sn _ _ _ _ HS). apply (ord_in _ _ _ _ HS); auto. }
  rewrite E.
  destruct (num_step_ok nv (L order sn)) as (p & Ep & Lp & Hp).
  { eapply L_nodup; eauto. }
  { intros v Hv. apply (L_in _ _ _ _ HS) in Hv as (e & _ & Hv). eapply sn_in_nv; eauto. }
  rewrite Ep. cbn [bind]. change (L order sn ++ repeat 0 (nv - length (L order sn))) with (pinv order sn nv).
  rewrite (mapM_order_rows cliques order sn sp HS nv Hnv p Lp Hp). cbn [bind].
  eexists; split; [reflexivity|]. cbn. split; auto.
  rewrite !map_map. 
  pose proof (analysis_final cliques order sn sp HS nv Hnv p Lp Hp Hmax) as A.
  assert (map (fun x => nth x (sizes order sn) 0) (seq 0 (length cliques)) = sizes order sn) as ->.
  { rewrite <- (sizes_len _ _ _ _ HS). apply map_nth_id. }
  assert (map (fun x => nth x (LL order sn) []) (seq 0 (length cliques)) = LL order sn) as ->.
  { rewrite <- (LL_len _ _ _ _ HS). apply map_nth_id. }
  apply A.
Qed.

(** ** GetData *)
Lemma sort_cliques_nth cliques e : nth e (map sort cliques) [] = sort (nth e cliques []).
Proof. change (@nil nat) with (sort []) at 1. apply map_nth. Qed.

Lemma fold_max_perm l l' : Permutation l l' -> forall m,
  fold_left (fun m ci => if m <? ci then ci else m) l m = fold_left (fun m ci => if m <? ci then ci else m) l' m.
Proof.
  intros H. induction H; intros m; cbn [fold_left]; auto.
  - f_equal. destruct (Nat.ltb_spec m y), (Nat.ltb_spec m x); 
    repeat (match goal with |- context [?a <? ?b] => destruct (Nat.ltb_spec a b) end); lia.
  - rewrite IHPermutation1. auto.
Qed.

Lemma analysis_sort cliques order rows size p pinv N snl sepl :
  analysis_ok (map sort cliques) order rows size p pinv N snl sepl ->
  analysis_ok cliques order rows size p pinv N snl sepl.
Proof.
  assert (forall v, (exists c, In c (map sort cliques) /\ In v c) <-> (exists c, In c cliques /\ In v c)) as HE.
  { intros v. split.
    - intros (c & Hc & Hv). apply in_map_iff in Hc as (c' & <- & Hc'). exists c'. split; auto. apply sort_in; auto.
    - intros (c & Hc & Hv). exists (sort c). split; [apply in_map; auto|apply sort_in; auto]. }
  intros [A1 A2 A3 A4 A5 A6 A7 A8 A9 A10 A11]. rewrite map_length in *.
  constructor; auto.
  - destruct A6 as [B1 B2]. split; [|apply HE; auto]. intros v Hv. apply B1, HE; auto.
  - intros v Hv. apply A7, HE; auto.
  - intros i Hi. destruct (A8 i Hi) as [B1 B2]. split; auto. apply HE; auto.
  - intros k v Hk Hv. apply A9; auto. rewrite sort_cliques_nth. apply sort_in; auto.
Qed.

Lemma GetData_ok cliques valid_leaf root :
  (forall c, In c cliques -> NoDup c) ->
  valid_leaf = [] \/ length valid_leaf = length cliques ->
  nth 0 cliques [] <> [] -> (root < Z.of_nat (length cliques))%Z ->
  exists d, GetData cliques valid_leaf root = Ok d /\
    analysis_ok cliques (d_order d) (d_cliques d) (d_supernode_size d) (d_perm d) (d_perm_inv d) (d_N d)
      (d_sn_labels d) (d_sep_labels d).
Proof.
  intros ND Hl H0 Hr. unfold GetData.
  destruct (PickCliqueOrder_ok (map sort cliques) valid_leaf root) as (order & sn & sp & E & HS).
  - intros c Hc. apply in_map_iff in Hc as (c' & <- & Hc'). apply sort_lt; auto.
  - rewrite map_length; auto.
  - rewrite sort_cliques_nth. intros E. apply H0. apply length_zero_iff_nil.
    rewrite <- sort_length, E. auto.
  - rewrite map_length; auto.
  - rewrite E. cbn [bind]. destruct (GetMax_total cliques H0) as (m & Em). rewrite Em. cbn [bind].
    destruct (GetMax_ok _ _ Em) as [G1 G2].
    destruct (SupernodesToData_ok (map sort cliques) order sn sp (m + 1) HS) as (d & Ed & Eo & HA).
    + intros v e Ho. unfold occurs in Ho. rewrite sort_cliques_nth, sort_in in Ho.
      destruct (Nat.lt_ge_cases e (length cliques)).
      * specialize (G2 _ v (nth_In cliques [] H) Ho). lia.
      * rewrite nth_overflow in Ho by lia. contradiction.
    + replace (m + 1 - 1) with m by lia. destruct G1 as (c & Hc & Hm). exists (sort c).
      split; [apply in_map; auto|apply sort_in; auto].
    + exists d. split; auto. rewrite Eo. apply analysis_sort; auto.
Qed.

Lemma GetData_throws cliques valid_leaf root :
  (forall c, In c cliques -> NoDup c) ->
  valid_leaf = [] \/ length valid_leaf = length cliques ->
  cliques <> [] -> nth 0 cliques [] = [] -> (root < Z.of_nat (length cliques))%Z ->
  GetData cliques valid_leaf root = Throw.
Proof.
  intros ND Hl Hne H0 Hr. unfold GetData, PickCliqueOrder.
  destruct (GetCliqueEliminationOrder_ok (map sort cliques) valid_leaf)
    with (root := root) (t := RootedTree_init (length (map sort cliques))) as (order & sn & sp & t & E & _).
  - intros c Hc. apply in_map_iff in Hc as (c' & <- & Hc'). apply sort_lt; auto.
  - rewrite map_length; auto.
  - rewrite map_length. destruct cliques; [congruence|cbn; lia].
  - rewrite map_length; auto.
  - cbn. apply repeat_length.
  - cbn. apply repeat_length.
  - rewrite E. cbn [bind]. rewrite GetMax_throws; auto.
    rewrite sort_cliques_nth, H0. reflexivity.
Qed.

(** ** Root node and relabelling *)
Lemma argmax_size_lt l : forall i best bv, best < i -> fst (argmax_size l i best bv) < i + length l.
Proof.
  induction l as [|a l IH]; intros i best bv H; cbn [argmax_size length]; [cbn; lia|].
  destruct (bv <? length a).
  - specialize (IH (S i) i (length a) ltac:(lia)). lia.
  - specialize (IH (S i) best bv ltac:(lia)). lia.
Qed.

Lemma GetRootNode_ok vars dual_vars : vars <> [] -> length dual_vars = length vars ->
  exists r, GetRootNode vars dual_vars = Ok r /\ r < length vars.
Proof.
  intros Hv Hl. unfold GetRootNode.
  destruct dual_vars as [|d0 dv]; [destruct vars; cbn in *; [congruence|lia]|].
  destruct vars as [|v0 vs]; [congruence|]. cbn in Hl.
  cbn [at_ nth_error bind tl].
  pose proof (argmax_size_lt dv 1 0 (length d0) Nat.lt_0_1) as H.
  change (at_ (d0 :: dv) 0) with (Ok d0). change (at_ (v0 :: vs) 0) with (Ok v0). cbn [bind].
  destruct (argmax_size dv 1 0 (length d0)) as [am mx]. cbn in H.
  destruct (0 <? mx).
  - exists am. split; auto. cbn. lia.
  - eexists; split; [reflexivity|].
    pose proof (argmax_size_lt vs 1 0 (length v0) Nat.lt_0_1). cbn. lia.
Qed.

Lemma kkt_analyze_ok cliques dual_vars :
  (forall c, In c cliques -> NoDup c) ->
  nth 0 cliques [] <> [] -> length dual_vars = length cliques ->
  (forall e, length (nth e dual_vars []) <= length (nth e cliques [])) ->
  exists d labels, kkt_analyze cliques dual_vars = Ok (d, labels) /\
    analysis_ok cliques (d_order d) (d_cliques d) (d_supernode_size d) (d_perm d) (d_perm_inv d) (d_N d)
      (d_sn_labels d) (d_sep_labels d) /\
    length labels = length cliques /\
    (forall k, k < length cliques ->
       let j := nth k (d_order d) 0 in
       let c := nth j cliques [] in let dv := nth j dual_vars [] in
       let names := firstn (length c - length dv) c ++ dv in
       nth k labels ([], []) = (ReplaceWithPosition (nth k (d_sn_labels d) []) names,
                                ReplaceWithPosition (nth k (d_sep_labels d) []) names)).
Proof.
  intros ND H0 Hl Hdv. unfold kkt_analyze.
  assert (cliques <> []) as Hne by (intros ->; cbn in H0; congruence).
  destruct (GetRootNode_ok cliques dual_vars Hne Hl) as (r & Er & Hr). rewrite Er. cbn [bind].
  destruct (GetData_ok cliques (is_empty dual_vars) (Z.of_nat r) ND) as (d & Ed & HA); auto.
  { right. unfold is_empty. rewrite map_length. auto. } { lia. }
  rewrite Ed. cbn [bind]. unfold RelabelCliques.
  pose (names := fun k => let j := nth k (d_order d) 0 in
       let c := nth j cliques [] in let dv := nth j dual_vars [] in
       firstn (length c - length dv) c ++ dv).
  rewrite mapM_total with (g := fun k => (ReplaceWithPosition (nth k (d_sn_labels d) []) (names k),
                                ReplaceWithPosition (nth k (d_sep_labels d) []) (names k))).
  - cbn [bind]. eexists _, _. split; [reflexivity|]. split; auto. rewrite map_length, seq_length.
    split; auto. intros k Hk. 
    match goal with |- nth _ (map ?f _) _ = _ => rewrite nth_indep with (d' := f 0) by (rewrite map_length, seq_length; auto); rewrite (map_nth f) end.
    rewrite seq_nth by auto. reflexivity.
  - intros k Hk. apply in_seq in Hk.
    assert (length (d_order d) = length cliques) as Lo.
    { rewrite (Permutation_length (an_order _ _ _ _ _ _ _ _ _ HA)). apply seq_length. }
    assert (nth k (d_order d) 0 < length cliques) as Hj.
    { assert (In (nth k (d_order d) 0) (seq 0 (length cliques))) as Hin.
      { eapply Permutation_in; [apply (an_order _ _ _ _ _ _ _ _ _ HA)|]. apply nth_In. lia. }
      apply in_seq in Hin. lia. }
    destruct (an_lens _ _ _ _ _ _ _ _ _ HA) as [L1 L2].
    unfold relabel_one. rewrite (at_lt (d_order d) k 0) by lia. cbn [bind].
    rewrite (at_lt cliques _ []), (at_lt dual_vars _ []) by lia. cbn [bind].
    specialize (Hdv (nth k (d_order d) 0)).
    destruct (Nat.leb_spec (length (nth (nth k (d_order d) 0) dual_vars []))
                           (length (nth (nth k (d_order d) 0) cliques []))); [|lia].
    unfold ConcatFirstN.
    destruct (Nat.leb_spec (length (nth (nth k (d_order d) 0) cliques []) - length (nth (nth k (d_order d) 0) dual_vars []))
                           (length (nth (nth k (d_order d) 0) cliques []))); [|lia].
    cbn [bind]. rewrite (at_lt (d_sn_labels d) k []), (at_lt (d_sep_labels d) k []) by lia.
    reflexivity.
Qed.

Lemma Pt_indices_ok d : d_N d <= length (d_perm_inv d) ->
  Pt_indices d = Ok (firstn (d_N d) (d_perm_inv d)).
Proof. intros H. unfold Pt_indices. destruct (Nat.leb_spec (d_N d) (length (d_perm_inv d))); auto. lia. Qed.
