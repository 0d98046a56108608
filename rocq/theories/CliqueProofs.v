(** Proofs about CliqueModel.v, part 1: the greedy clique tree. *)
From Coq Require Import List Arith ZArith Bool Lia Sorting.Sorted Permutation.
From Verif Require Import Base BaseFacts TreeModel CliqueModel Spec_Tree Spec_Clique TreeProofs.
Import ListNotations.

Lemma LinearIndex_lt i j n : i < n -> j < n -> LinearIndex i j n < n * n.
Proof. intros. unfold LinearIndex. destruct (Nat.ltb_spec j i); nia. Qed.

Lemma LinearIndex_sym i j n : LinearIndex i j n = LinearIndex j i n.
Proof.
  unfold LinearIndex. destruct (Nat.ltb_spec j i), (Nat.ltb_spec i j); try lia.
  assert (i = j) by lia. subst; auto.
Qed.

Lemma LinearIndex_inj i j i' j' n : i < n -> j < n -> i' < n -> j' < n ->
  LinearIndex i j n = LinearIndex i' j' n -> (i = i' /\ j = j') \/ (i = j' /\ j = i').
Proof.
  intros. unfold LinearIndex in *.
  assert (forall a b c d, b < n -> d < n -> a * n + b = c * n + d -> a = c /\ b = d) as U.
  { intros a b c d Hb Hd E. assert (a = c) by nia. subst. split; auto. lia. }
  destruct (Nat.ltb_spec j i), (Nat.ltb_spec j' i'); 
    match goal with H : _ = _ |- _ => apply U in H as [? ?]; auto end.
Qed.

Section Greedy.
  Variable cliques : list (list nat).
  Variable valid_leaf : list nat.
  Notation n := (length cliques).
  Hypothesis Hsorted : forall c, In c cliques -> SSorted c.
  Hypothesis Hleaf : valid_leaf = [] \/ length valid_leaf = n.

  Definition I (i j : nat) : list nat :=
    set_intersection (nth i cliques []) (nth j cliques []).

  Lemma nth_sorted i : SSorted (nth i cliques []).
  Proof.
    destruct (Nat.lt_ge_cases i n).
    - apply Hsorted, nth_In; auto.
    - rewrite nth_overflow by lia. constructor.
  Qed.

  Lemma I_sym i j : I i j = I j i.
  Proof. apply set_intersection_comm; apply nth_sorted. Qed.

  Lemma I_in i j v : In v (I i j) <-> occurs cliques v i /\ occurs cliques v j.
  Proof. apply set_intersection_spec; apply nth_sorted. Qed.

  Definition entry (m : SymMat) (i j : nat) := nth (LinearIndex i j n) (sm_data m) [].

  Definition cache_ok (m : SymMat) : Prop :=
    sm_n m = n /\ length (sm_data m) = n * n /\
    forall i j, i < n -> j < n -> entry m i j = [] \/ entry m i j = I i j.

  Lemma cache_init : cache_ok (SymMat_init n).
  Proof.
    split; [reflexivity|]. cbn. rewrite repeat_length. split; auto.
    intros. left. unfold entry. cbn. apply nth_repeat_any.
  Qed.

  Lemma sm_get_ok m i j : cache_ok m -> i < n -> j < n -> sm_get m i j = Ok (entry m i j).
  Proof.
    intros (E & L & _) Hi Hj. unfold sm_get, entry. rewrite E.
    apply at_lt. rewrite L. apply LinearIndex_lt; auto.
  Qed.

  Lemma sm_set_ok m a b : cache_ok m -> a < n -> b < n ->
    exists m', sm_set m a b (I a b) = Ok m' /\ cache_ok m' /\ entry m' a b = I a b /\
      (forall i j, i < n -> j < n -> entry m i j = I i j -> entry m' i j = I i j).
  Proof.
    intros (E & L & C) Ha Hb. unfold sm_set.
    pose proof (LinearIndex_lt a b n Ha Hb) as Hlt.
    rewrite E, set_at_lt by lia. cbn.
    eexists; split; [reflexivity|].
    assert (forall i j, i < n -> j < n ->
      entry (mkSym n (upd (sm_data m) (LinearIndex a b n) (I a b))) i j =
      if LinearIndex a b n =? LinearIndex i j n then I i j else entry m i j) as G.
    { intros i j Hi Hj. unfold entry. cbn. rewrite nth_upd by lia.
      destruct (Nat.eqb_spec (LinearIndex a b n) (LinearIndex i j n)) as [E1|]; auto.
      apply LinearIndex_inj in E1 as [[-> ->]|[-> ->]]; auto. apply I_sym. }
    split; [|split].
    - split; [reflexivity|]. split; [cbn; rewrite upd_length; auto|].
      intros i j Hi Hj. rewrite G by auto.
      destruct (_ =? _); auto.
    - rewrite G by auto. rewrite Nat.eqb_refl. auto.
    - intros i j Hi Hj H. rewrite G by auto. destruct (_ =? _); auto.
  Qed.

  Lemma get_weight_ok m a i : cache_ok m -> a < n -> i < n ->
    exists w m', get_weight cliques valid_leaf m a i = Ok (w, m') /\ cache_ok m' /\
      entry m' a i = I a i /\ length (I a i) <= w /\
      (forall x y, x < n -> y < n -> entry m x y = I x y -> entry m' x y = I x y).
  Proof.
    intros C Ha Hi. unfold get_weight.
    rewrite sm_get_ok by auto. cbn [bind].
    assert (exists m', (if length (entry m a i) =? 0
       then ca <- at_ cliques a;; ci <- at_ cliques i;;
            sm_set m a i (set_intersection ca ci)
       else Ok m) = Ok m' /\ cache_ok m' /\ entry m' a i = I a i /\
       (forall x y, x < n -> y < n -> entry m x y = I x y -> entry m' x y = I x y))
      as (m' & E & C' & En & Pres).
    { destruct (Nat.eqb_spec (length (entry m a i)) 0) as [E0|E0].
      - rewrite (at_lt cliques a []), (at_lt cliques i []) by auto. cbn [bind].
        apply sm_set_ok; auto.
      - exists m. split; auto. split; auto. split; auto.
        destruct C as (_ & _ & C). destruct (C a i Ha Hi) as [E1|E1]; auto.
        rewrite E1 in E0. cbn in E0. lia. }
    rewrite E. cbn [bind]. rewrite sm_get_ok by auto. cbn [bind]. rewrite En.
    destruct (Nat.ltb_spec 0 (length valid_leaf)).
    - destruct Hleaf as [->|HL]; [cbn in *; lia|].
      rewrite (at_lt valid_leaf i 0), (at_lt valid_leaf a 0) by lia. cbn [bind].
      eexists _, m'. split; [reflexivity|]. repeat split; auto; try apply C'. 
      lia.
    - eexists _, m'. split; [reflexivity|]. repeat split; auto; apply C'.
  Qed.

  Lemma scan_ok vis a m : cache_ok m -> length vis = n -> a < n ->
    exists m' mw am, scan cliques valid_leaf vis a m = Ok (m', mw, am) /\ cache_ok m' /\
      NoDup am /\
      (forall e, In e am -> e < n /\ e <> a /\ nth e vis 0 = 0 /\ entry m' a e = I a e) /\
      (am = [] -> forall i, i < n -> i <> a -> nth i vis 0 = 0 -> I a i = []).
  Proof.
    intros C Lv Ha. unfold scan.
    pose (Inv := fun (pre : list nat) (st : SymMat * nat * list nat) =>
      let '(m', mw, am) := st in
      cache_ok m' /\ 1 <= mw /\ NoDup am /\
      (forall e, In e am -> In e pre /\ e < n /\ e <> a /\ nth e vis 0 = 0 /\ entry m' a e = I a e) /\
      (am = [] -> mw = 1 /\ forall i, In i pre -> i <> a -> nth i vis 0 = 0 -> I a i = [])).
    destruct (foldM_inv (scan_step cliques valid_leaf vis a) Inv (seq 0 n) (m, 1, []))
      as (((m' & mw) & am) & E & HI).
    - cbn. repeat split; auto; try apply C; try constructor; try tauto.
    - intros pre i post ((m1 & mw) & am) Hs HI. cbn in HI. destruct HI as (C1 & Hmw & ND & Ham & Hempty).
      assert (i < n) as Hi.
      { assert (In i (seq 0 n)) by (rewrite Hs; apply in_elt). apply in_seq in H. lia. }
      assert (~ In i pre) as Hnp.
      { pose proof (seq_NoDup n 0) as ND0. rewrite Hs in ND0. apply NoDup_app_inv in ND0 as (_ & _ & D).
        intros Hin. apply (D i Hin). left; auto. }
      assert (~ In i am) as Hnam by (intros Hin; apply Ham in Hin; tauto).
      unfold scan_step. destruct (Nat.eqb_spec i a) as [->|Hne].
      + eexists; split; [reflexivity|]. cbn. split; auto. split; auto. split; auto. split.
        * intros e He. apply Ham in He. rewrite in_app_iff. tauto.
        * intros Em. destruct (Hempty Em) as [E1 E2]. split; auto.
          intros j Hj Hja. rewrite in_app_iff in Hj. destruct Hj as [Hj|[<-|[]]]; auto. congruence.
      + destruct (get_weight_ok m1 a i C1 Ha Hi) as (w & m2 & Ew & C2 & En & Hw & Pres).
        rewrite Ew. cbn [bind].
        destruct (Nat.leb_spec mw w).
        * rewrite (at_lt vis i 0) by lia. cbn [bind].
          destruct (Nat.eqb_spec (nth i vis 0) 0) as [V0|V0].
          -- destruct (Nat.ltb_spec mw w).
             ++ eexists; split; [reflexivity|]. cbn. split; auto. split; [lia|]. split; [repeat constructor; auto|]. split.
                ** intros e [<-|[]]. rewrite in_app_iff. cbn. auto 10.
                ** discriminate.
             ++ eexists; split; [reflexivity|]. cbn. split; auto. split; [lia|]. split.
                { apply NoDup_app_inv. repeat split; auto. repeat constructor; auto.
                  intros x Hx [<-|[]]. auto. }
                split.
                ** intros e He. rewrite in_app_iff in *. cbn in *. destruct He as [He|[<-|[]]]; auto 10.
                   apply Ham in He. intuition.
                ** intros Em. destruct am; discriminate.
          -- eexists; split; [reflexivity|]. cbn. split; auto. split; auto. split; auto. split.
             ++ intros e He. apply Ham in He. rewrite in_app_iff. intuition.
             ++ intros Em. destruct (Hempty Em) as [E1 E2]. split; auto.
                intros j Hj Hja Hv. rewrite in_app_iff in Hj. destruct Hj as [Hj|[<-|[]]]; auto. congruence.
        * eexists; split; [reflexivity|]. cbn. split; auto. split; auto. split; auto. split.
          ++ intros e He. apply Ham in He. rewrite in_app_iff. intuition.
          ++ intros Em. destruct (Hempty Em) as [E1 E2]. split; auto.
             intros j Hj Hja Hv. rewrite in_app_iff in Hj. destruct Hj as [Hj|[<-|[]]]; auto.
             destruct (I a i); auto. cbn in *. lia.
    - cbn in HI. destruct HI as (C1 & Hmw & ND & Ham & Hempty).
      exists m', mw, am. split; auto. split; auto. split; auto. split.
      + intros e He. apply Ham in He. tauto.
      + intros Em i Hi Hia Hv. apply (proj2 (Hempty Em)); auto. apply in_seq; lia.
  Qed.

  (** ** The loop invariant *)
  Definition vis (st : hstate) (e : nat) : Prop := e < n /\ nth e (h_visited st) 0 <> 0.
  Notation par st := (parent (h_tree st)).
  Notation hei st := (height (h_tree st)).

  Record Inv (st : hstate) : Prop := {
    iv_lv : length (h_visited st) = n;
    iv_lp : length (par st) = n;
    iv_lh : length (hei st) = n;
    iv_ls : length (h_seps st) = n;
    iv_cache : cache_ok (h_inter st);
    iv_nodup : NoDup (h_order st);
    iv_order : forall e, In e (h_order st) <-> vis st e;
    iv_node : forall e, vis st e -> vis st (nth e (par st) 0) /\
       ((nth e (par st) 0 = e /\ nth e (hei st) 0 = 0 /\ nth e (h_seps st) [] = []) \/
        (nth e (hei st) 0 = S (nth (nth e (par st) 0) (hei st) 0) /\
         nth e (h_seps st) [] = I (nth e (par st) 0) e));
    iv_unvis : forall e, ~ vis st e -> nth e (h_seps st) [] = [];
    iv_first : forall l1 e l2, h_order st = l1 ++ e :: l2 ->
       nth e (par st) 0 = e \/ In (nth e (par st) 0) l1;
    iv_stack : forall s, In s (h_stack st) -> s < n /\ (vis st s \/ h_stack st = [s]);
    iv_sep : forall u i, vis st u -> ~ In u (h_stack st) -> i < n -> ~ vis st i -> I u i = [];
    iv_tree_stack : forall s t, In s (h_stack st) -> In t (h_stack st) -> vis st s -> vis st t ->
       same_tree (par st) s t;
    iv_tree : forall u w, vis st u -> vis st w -> I u w <> [] -> same_tree (par st) u w;
    iv_edges : forall e, In e (h_edges st) -> fst e < n /\ snd e < n
  }.

  Lemma anc_upd p0 (V : nat -> Prop) e v x a :
    (forall x, V x -> V (nth x p0 0)) -> ~ V e -> V x ->
    ancestor p0 x a -> ancestor (upd p0 e v) x a.
  Proof.
    intros Hc He Hx H. induction H; [constructor|].
    apply anc_step. rewrite nth_upd_neq by (intros ->; auto). auto.
  Qed.

  Lemma vis_dec st e : {vis st e} + {~ vis st e}.
  Proof.
    destruct (lt_dec e n) as [H|H]; [|right; intros [? _]; lia].
    destruct (Nat.eq_dec (nth e (h_visited st) 0) 0) as [E|E]; [right; intros [_ ?]; auto|left; split; auto].
  Qed.

  Lemma same_tree_upd p0 (V : nat -> Prop) e v x y :
    (forall x, V x -> V (nth x p0 0)) -> ~ V e -> V x -> V y ->
    same_tree p0 x y -> same_tree (upd p0 e v) x y.
  Proof.
    intros Hc He Hx Hy (a & H1 & H2). exists a. split; eapply anc_upd; eauto.
  Qed.

  Lemma same_tree_refl p0 x : same_tree p0 x x.
  Proof. exists x; split; constructor. Qed.

  Lemma vis_upd st st' e x : length (h_visited st) = n -> e < n ->
    h_visited st' = upd (h_visited st) e 1 -> (vis st' x <-> vis st x \/ x = e).
  Proof.
    intros L He Hv. unfold vis. rewrite Hv, nth_upd by lia.
    destruct (Nat.eqb_spec e x) as [->|Hn]; split; intuition (auto; congruence).
  Qed.

  Lemma visit_root_ok st active : Inv st -> In active (h_stack st) ->
    exists st', visit_root active st = Ok st' /\ Inv st' /\ vis st' active /\
      h_stack st' = h_stack st /\
      ((vis st active /\ st' = st) \/
       (~ vis st active /\ length (h_order st') = S (length (h_order st)))).
  Proof.
    intros HI Hin. pose proof (iv_stack _ HI _ Hin) as [Ha Hst].
    pose proof (iv_lv _ HI) as Lv. pose proof (iv_lp _ HI) as Lp. pose proof (iv_lh _ HI) as Lh.
    unfold visit_root. rewrite (at_lt _ _ 0) by lia. cbn [bind].
    destruct (Nat.eqb_spec (nth active (h_visited st) 0) 0) as [E|E].
    - rewrite !set_at_lt by lia. cbn [bind].
      assert (~ vis st active) as Nv by (intros [_ ?]; auto).
      destruct Hst as [|Hst]; [tauto|].
      eexists; split; [reflexivity|].
      set (st' := mkH _ _ _ _ _ _ _).
      assert (forall x, vis st' x <-> vis st x \/ x = active) as HV.
      { intros x. apply vis_upd with (e := active); auto. }
      assert (forall x, vis st x -> vis st (nth x (par st) 0)) as Hcl.
      { intros x Hx. apply (iv_node _ HI); auto. }
      split; [|split; [apply HV; auto|split; [reflexivity|right; split; auto; cbn; rewrite app_length; cbn; lia]]].
      constructor; try (cbn; rewrite ?upd_length; auto; apply HI).
      + (* NoDup *) cbn. apply NoDup_app_inv. repeat split; [apply HI|repeat constructor; auto|].
        intros x Hx [<-|[]]. apply (iv_order _ HI) in Hx. auto.
      + intros e. cbn. rewrite in_app_iff. rewrite (iv_order _ HI), HV. cbn. intuition.
      + intros e He. apply HV in He. destruct (Nat.eq_dec e active) as [->|Hne].
        * cbn. rewrite !nth_upd_eq by lia. split; [apply HV; auto|]. left. repeat split; auto.
          apply (iv_unvis _ HI); auto.
        * destruct He as [He|?]; [|congruence].
          cbn. rewrite !nth_upd_neq by auto.
          destruct (iv_node _ HI e He) as [H1 H2]. split; [apply HV; auto|].
          destruct H2 as [H2|[H2 H3]]; [left; auto|right].
          split; auto. rewrite nth_upd_neq; auto. intros E2. rewrite <- E2 in H1. auto.
      + intros e He. cbn. apply (iv_unvis _ HI). intros H. apply He. apply HV; auto.
      + intros l1 e l2 Ho. cbn in Ho.
        destruct (list_eq_dec Nat.eq_dec l2 []) as [->|Hl2].
        * apply app_inj_tail in Ho as [_ <-]. cbn. left. apply nth_upd_eq. lia.
        * destruct (exists_last Hl2) as (l2' & x & ->).
          rewrite app_comm_cons, app_assoc in Ho. apply app_inj_tail in Ho as [Ho <-].
          assert (e <> active) as Hne.
          { intros ->. apply Nv. apply (iv_order _ HI). rewrite Ho. apply in_elt. }
          cbn. rewrite nth_upd_neq by auto. apply (iv_first _ HI _ _ _ Ho).
      + intros s Hs. cbn in Hs. split; [apply (iv_stack _ HI); auto|]. cbn. 
        rewrite Hst in Hs. destruct Hs as [<-|[]]. left. apply HV; auto.
      + intros u i Hu Hns Hi Hnv. cbn in Hns. apply HV in Hu. 
        destruct Hu as [Hu|Hu]; [|exfalso; apply Hns; rewrite Hst; left; auto].
        apply (iv_sep _ HI); auto. intros H. apply Hnv, HV; auto.
      + intros s t Hs Ht Vs Vt. cbn in Hs, Ht. rewrite Hst in Hs, Ht.
        destruct Hs as [<-|[]], Ht as [<-|[]]. apply same_tree_refl.
      + intros u w Hu Hw Hne. apply HV in Hu. apply HV in Hw. cbn.
        assert (forall x, vis st x -> I x active = []) as Hz.
        { intros x Hx. apply (iv_sep _ HI); auto. rewrite Hst. intros [<-|[]]. auto. }
        destruct Hu as [Hu|Hu], Hw as [Hw|Hw]; subst.
        * eapply same_tree_upd with (V := vis st); eauto. apply (iv_tree _ HI); auto.
        * exfalso. apply Hne. apply Hz; auto.
        * exfalso. apply Hne. rewrite I_sym. apply Hz; auto.
        * apply same_tree_refl.
    - exists st. split; auto. split; auto. split; [split; auto|]. split; auto.
      left. split; auto. split; auto.
  Qed.

  Lemma attach1_ok st active e :
    Inv st -> In active (h_stack st) -> vis st active -> e < n -> e <> active -> ~ vis st e ->
    entry (h_inter st) active e = I active e ->
    Inv (mkH (h_order st ++ [e]) (upd (h_visited st) e 1) (e :: h_stack st)
             (mkTree (upd (par st) e active)
                     (upd (hei st) e (nth active (hei st) 0 + 1)))
             (upd (h_seps st) e (entry (h_inter st) active e)) (h_inter st)
             (h_edges st ++ [(active, e)])).
  Proof.
    intros HI Hin Va He Hea Nv En.
    pose proof (iv_lv _ HI) as Lv. pose proof (iv_lp _ HI) as Lp. pose proof (iv_lh _ HI) as Lh.
    pose proof (iv_ls _ HI) as Ls.
    set (st' := mkH _ _ _ _ _ _ _).
    assert (forall x, vis st' x <-> vis st x \/ x = e) as HV.
    { intros x. apply vis_upd with (e := e); auto. }
    assert (forall x, vis st x -> vis st (nth x (par st) 0)) as Hcl.
    { intros x Hx. apply (iv_node _ HI); auto. }
    assert (forall x, vis st x -> x <> e) as Nxe by (intros x Hx ->; auto).
    assert (forall s, In s (h_stack st) -> vis st s) as Hsv.
    { intros s Hs. destruct (iv_stack _ HI _ Hs) as [_ [Hv|Hv]]; auto.
      rewrite Hv in Hin. destruct Hin as [->|[]]; auto. }
    assert (forall x y, vis st x -> vis st y -> same_tree (par st) x y -> same_tree (par st') x y) as Hstr.
    { intros x y Hx Hy H. cbn. apply same_tree_upd with (V := vis st); auto. }
    assert (forall y, vis st y -> same_tree (par st') active y -> same_tree (par st') e y) as Hext.
    { intros y Hy (a & H1 & H2). exists a. split; auto. apply anc_step. cbn [st' h_tree parent].
      rewrite nth_upd_eq by lia. auto. }
    constructor; try (cbn; rewrite ?upd_length; auto; apply HI).
    - cbn. apply NoDup_app_inv. repeat split; [apply HI|repeat constructor; auto|].
      intros x Hx [<-|[]]. apply (iv_order _ HI) in Hx. auto.
    - intros x. cbn. rewrite in_app_iff. rewrite (iv_order _ HI), HV. cbn. intuition.
    - intros x Hx. apply HV in Hx. destruct (Nat.eq_dec x e) as [->|Hne].
      + cbn. rewrite !nth_upd_eq by lia. split; [apply HV; auto|]. right.
        rewrite nth_upd_neq by auto. split; auto. lia.
      + destruct Hx as [Hx|?]; [|congruence].
        cbn. rewrite !nth_upd_neq by auto.
        destruct (iv_node _ HI x Hx) as [H1 H2]. split; [apply HV; auto|].
        rewrite nth_upd_neq; auto. intros ->. exact (Nv H1).
    - intros x Hx. cbn. rewrite nth_upd_neq.
      + apply (iv_unvis _ HI). intros H. apply Hx. apply HV; auto.
      + intros ->. apply Hx. apply HV; auto.
    - intros l1 x l2 Ho. cbn in Ho.
      destruct (list_eq_dec Nat.eq_dec l2 []) as [->|Hl2].
      + apply app_inj_tail in Ho as [Ho <-]. cbn. right. rewrite nth_upd_eq by lia.
        rewrite <- Ho. apply (iv_order _ HI). auto.
      + destruct (exists_last Hl2) as (l2' & y & ->).
        rewrite app_comm_cons, app_assoc in Ho. apply app_inj_tail in Ho as [Ho <-].
        assert (x <> e) as Hne.
        { intros ->. apply Nv. apply (iv_order _ HI). rewrite Ho. apply in_elt. }
        cbn. rewrite nth_upd_neq by auto. apply (iv_first _ HI _ _ _ Ho).
    - intros s [<-|Hs].
      + split; auto. left. apply HV; auto.
      + split; [apply (iv_stack _ HI); auto|]. left. apply HV. left; auto.
    - intros u i Hu Hns Hi Hnv. cbn in Hns. apply HV in Hu.
      destruct Hu as [Hu| ->]; [|exfalso; apply Hns; left; auto].
      apply (iv_sep _ HI); auto. intros H. apply Hnv, HV; auto.
    - intros s t Hs Ht Vs Vt. cbn in Hs, Ht.
      destruct Hs as [<-|Hs], Ht as [<-|Ht].
      + apply same_tree_refl.
      + apply Hext; auto. apply Hstr; auto. apply (iv_tree_stack _ HI); auto.
      + apply same_tree_sym. apply Hext; auto. apply Hstr; auto. apply (iv_tree_stack _ HI); auto.
      + apply Hstr; auto. apply (iv_tree_stack _ HI); auto.
    - assert (forall w, vis st w -> I e w <> [] -> same_tree (par st') e w) as G.
      { intros w Hw Hne. apply Hext; auto. apply Hstr; auto.
        assert (In w (h_stack st)) as Hs.
        { destruct (in_dec Nat.eq_dec w (h_stack st)); auto. exfalso. apply Hne.
          rewrite I_sym. apply (iv_sep _ HI); auto. }
        apply (iv_tree_stack _ HI); auto. }
      intros u w Hu Hw Hne. apply HV in Hu. apply HV in Hw.
      destruct Hu as [Hu| ->], Hw as [Hw| ->]; auto.
      + apply Hstr; auto. apply (iv_tree _ HI); auto.
      + apply same_tree_sym. apply G; auto. rewrite I_sym; auto.
      + apply same_tree_refl.
    - intros x Hx. cbn in Hx. rewrite in_app_iff in Hx. destruct Hx as [Hx|[<-|[]]].
      + apply (iv_edges _ HI); auto.
      + cbn. split; auto. apply Va.
  Qed.

  Lemma attach_ok active am : forall st,
    Inv st -> In active (h_stack st) -> vis st active -> NoDup am ->
    (forall e, In e am -> e < n /\ e <> active /\ nth e (h_visited st) 0 = 0 /\
               entry (h_inter st) active e = I active e) ->
    exists st', attach valid_leaf active am st = Ok st' /\ Inv st' /\
      (am = [] -> st' = st) /\
      (am <> [] -> exists k, 1 <= k /\ length (h_order st') = length (h_order st) + k /\
                   length (h_stack st') = length (h_stack st) + k /\
                   (forall s, In s (h_stack st') -> vis st' s)).
  Proof.
    induction am as [|e rest IH]; intros st HI Hin Va ND Ham; cbn [attach].
    - exists st. split; auto. split; auto. split; auto. congruence.
    - pose proof (iv_lv _ HI) as Lv. pose proof (iv_lp _ HI) as Lp. pose proof (iv_lh _ HI) as Lh.
      pose proof (iv_ls _ HI) as Ls.
      destruct (Ham e) as (He & Hea & V0 & En); [left; auto|].
      rewrite sm_get_ok by (auto; solve [apply Va | apply HI]). cbn [bind].
      rewrite !set_at_lt by lia. cbn [bind].
      rewrite (at_lt _ active 0) by (rewrite Lh; apply Va). cbn [bind].
      rewrite !set_at_lt by lia. cbn [bind].
      assert (~ vis st e) as Nv by (intros [_ ?]; auto).
      pose proof (attach1_ok st active e HI Hin Va He Hea Nv En) as HI'.
      set (st' := mkH _ _ _ _ _ _ _) in *.
      assert (forall x, vis st' x <-> vis st x \/ x = e) as HV.
      { intros x. apply vis_upd with (e := e); auto. }
      assert (forall s, In s (h_stack st') -> vis st' s) as Hsv.
      { intros s [<-|Hs]; [apply HV; auto|].
        destruct (iv_stack _ HI _ Hs) as [_ [Hv|Hv]]; [apply HV; auto|].
        rewrite Hv in Hin. destruct Hin as [->|[]]; apply HV; auto. }
      assert (exists st'', Ok st' = Ok st'' /\ Inv st'' /\ (e :: rest = [] -> st'' = st) /\
        (e :: rest <> [] -> exists k, 1 <= k /\ length (h_order st'') = length (h_order st) + k /\
                   length (h_stack st'') = length (h_stack st) + k /\
                   (forall s, In s (h_stack st'') -> vis st'' s))) as Hstop.
      { exists st'. split; auto. split; auto. split; [discriminate|]. intros _.
        exists 1. split; auto. cbn. rewrite app_length. cbn. repeat split; try lia;
        apply Hsv; auto. }
      assert (exists st'', attach valid_leaf active rest st' = Ok st'' /\ Inv st'' /\ (e :: rest = [] -> st'' = st) /\
        (e :: rest <> [] -> exists k, 1 <= k /\ length (h_order st'') = length (h_order st) + k /\
                   length (h_stack st'') = length (h_stack st) + k /\
                   (forall s, In s (h_stack st'') -> vis st'' s))) as Hgo.
      { apply NoDup_cons_iff in ND as [Hnr ND].
        destruct (IH st' HI') as (st'' & E & HI'' & H1 & H2); auto.
        - right; auto.
        - apply HV; auto.
        - intros x Hx. destruct (Ham x) as (A & B & C & D); [right; auto|].
          repeat split; auto. cbn. rewrite nth_upd_neq; auto. intros ->; auto.
        - exists st''. split; auto. split; auto. split; [discriminate|]. intros _.
          destruct rest as [|r rest'].
          + rewrite (H1 eq_refl) in *. exists 1. split; auto. cbn. rewrite app_length. cbn.
            repeat split; try lia; apply Hsv; auto.
          + destruct H2 as (k & K1 & K2 & K3 & K4); [discriminate|].
            exists (S k). cbn in K2, K3. rewrite app_length in K2. cbn in K2.
            repeat split; auto; try lia; apply K4; auto. }
      destruct (Nat.ltb_spec 0 (length valid_leaf)) as [HL|HL]; auto.
      destruct Hleaf as [->|HL']; [cbn in HL; lia|].
      rewrite (at_lt valid_leaf e 0) by lia. cbn [bind].
      destruct (_ =? 0); auto.
  Qed.

  Definition mu (st : hstate) : nat :=
    3 * (n - length (h_order st)) +
    match h_stack st with
    | [] => 0
    | s :: _ => if nth s (h_visited st) 0 =? 0 then 0 else length (h_stack st)
    end.

  Lemma order_le st : Inv st -> length (h_order st) <= n.
  Proof.
    intros HI. rewrite <- (seq_length n 0). apply NoDup_incl_length; [apply HI|].
    intros e He. apply (iv_order _ HI) in He. apply in_seq. destruct He; lia.
  Qed.

  Lemma unvisited_some st : Inv st -> length (h_order st) < n ->
    exists e, e < n /\ ~ vis st e.
  Proof.
    intros HI Hlt.
    destruct (existsb (fun e => nth e (h_visited st) 0 =? 0) (seq 0 n)) eqn:E.
    - apply existsb_exists in E as (e & He & Hv). apply in_seq in He. apply Nat.eqb_eq in Hv.
      exists e. split; [lia|]. intros [_ ?]; auto.
    - exfalso. assert (n <= length (h_order st)); [|lia].
      rewrite <- (seq_length n 0) at 1. apply NoDup_incl_length; [apply seq_NoDup|].
      intros e He. apply (iv_order _ HI). pose proof He as He'. apply in_seq in He. split; [lia|].
      intros Hv. assert (existsb (fun e => nth e (h_visited st) 0 =? 0) (seq 0 n) = true).
      { apply existsb_exists. exists e. split; auto. apply Nat.eqb_eq; auto. }
      congruence.
  Qed.

  Lemma GetUnvisited_from_spec l c :
    match GetUnvisited_from l c with
    | Some e => c <= e < c + length l /\ nth (e - c) l 1 = 0
    | None => forall i, i < length l -> nth i l 0 <> 0
    end.
  Proof.
    revert c; induction l; intros c; cbn; [lia|].
    destruct (Nat.eqb_spec a 0).
    - split; [lia|]. rewrite Nat.sub_diag. auto.
    - specialize (IHl (S c)). destruct (GetUnvisited_from l (S c)) as [k|].
      + destruct IHl as [H1 H2]. split; [lia|].
        replace (k - c) with (S (k - S c)) by lia. auto.
      + intros [|i] Hi; auto. apply IHl. lia.
  Qed.

  Lemma GetUnvisited_spec st : Inv st ->
    match GetUnvisited (h_visited st) with
    | Some e => e < n /\ ~ vis st e
    | None => length (h_order st) = n
    end.
  Proof.
    intros HI. pose proof (GetUnvisited_from_spec (h_visited st) 0) as H.
    unfold GetUnvisited. pose proof (iv_lv _ HI) as Lv.
    destruct (GetUnvisited_from (h_visited st) 0) as [e|].
    - destruct H as [H1 H2]. split; [lia|]. intros [H3 H4]. apply H4.
      rewrite Nat.sub_0_r in H2. rewrite <- H2. apply nth_indep. lia.
    - pose proof (order_le _ HI). destruct (Nat.lt_ge_cases (length (h_order st)) n) as [Hl|]; [|lia].
      destruct (unvisited_some st HI Hl) as (e & He & Hn). exfalso. apply Hn. split; auto.
      apply H. lia.
  Qed.

  Lemma helper_loop_ok fuel : forall st,
    Inv st -> h_stack st <> [] -> mu st <= fuel ->
    exists st', helper_loop fuel cliques valid_leaf st = Ok st' /\ Inv st' /\
                length (h_order st') = n.
  Proof.
    induction fuel as [|fuel IH]; intros st HI Hne Hf; cbn [helper_loop];
      (destruct (Nat.ltb_spec (length (h_order st)) n) as [Hlt|Hge];
       [|exists st; split; auto; split; auto; pose proof (order_le _ HI); lia]).
    { exfalso. unfold mu in Hf. lia. }
    destruct (h_stack st) as [|active below] eqn:Hst; [congruence|].
    assert (In active (h_stack st)) as Hin by (rewrite Hst; left; auto).
    destruct (visit_root_ok st active HI Hin) as (st1 & E1 & HI1 & Va1 & Hs1 & Hcase).
    rewrite E1. cbn [bind].
    destruct (scan_ok (h_visited st1) active (h_inter st1)) as (m' & mw & am & Es & Cm & NDam & Ham & Hempty).
    { apply HI1. } { apply HI1. } { apply Va1. }
    rewrite Es. cbn [bind].
    set (st1' := mkH (h_order st1) (h_visited st1) (h_stack st1) (h_tree st1) (h_seps st1) m' (h_edges st1)).
    assert (Inv st1') as HI1'.
    { destruct HI1. constructor; auto. }
    destruct (attach_ok active am st1') as (st2 & E2 & HI2 & Hnil & Hcons); auto.
    { cbn. rewrite Hs1. auto. }
    rewrite E2. cbn [bind].
    (* measure of st1 *)
    assert (mu st1' <= mu st) as Hmu1.
    { destruct Hcase as [[Hv ->]|[Hv HL]].
      - unfold mu, st1'. cbn. lia.
      - unfold mu, st1'. cbn. rewrite Hs1, Hst.
        destruct (iv_stack _ HI _ Hin) as [Ha [Hvv|Hsing]]; [tauto|].
        rewrite Hst in Hsing. injection Hsing as ->.
        destruct (Nat.eqb_spec (nth active (h_visited st) 0) 0) as [Ez|Ez]; [|exfalso; apply Hv; split; auto].
        destruct (_ =? 0); cbn; pose proof (order_le _ HI1); lia. }
    assert (mu st1' = 3 * (n - length (h_order st1)) + length (h_stack st)) as Hmu1'.
    { unfold mu, st1'. cbn. rewrite Hs1, Hst.
      destruct (Nat.eqb_spec (nth active (h_visited st1) 0) 0) as [Ez|Ez]; auto. exfalso. apply Va1; auto. }
    destruct am as [|e0 am'].
    - cbn [length Nat.eqb].
      rewrite (Hnil eq_refl) in *. clear Hnil Hcons.
      assert (forall u i, vis st1' u -> ~ In u below -> i < n -> ~ vis st1' i -> I u i = []) as Hsep.
      { intros u i Hu Hnb Hi Hni. destruct (Nat.eq_dec u active) as [->|Hua].
        - apply Hempty; auto. { intros ->; auto. }
          destruct (Nat.eq_dec (nth i (h_visited st1) 0) 0); auto. exfalso. apply Hni. split; auto.
        - apply (iv_sep _ HI1'); auto. cbn. rewrite Hs1, Hst. intros [|]; auto. }
      destruct below as [|b bs].
      + pose proof (GetUnvisited_spec st1' HI1') as HU.
        destruct (GetUnvisited (h_visited st1')) as [node|] eqn:EU.
        * destruct HU as [Hn Hnv]. apply IH.
          -- destruct HI1'. constructor; auto; cbn.
             ++ intros s [<-|[]]. auto.
             ++ intros s t [<-|[]] [<-|[]] _ _. apply same_tree_refl.
          -- discriminate.
          -- rewrite Hmu1' in Hmu1. rewrite Hst in Hmu1. cbn [length] in Hmu1.
             unfold mu. cbn.
             destruct (Nat.eqb_spec (nth node (h_visited st1) 0) 0) as [Ez|Ez]; [lia|].
             exfalso. apply Hnv. split; auto.
        * eexists. split; [reflexivity|]. split; auto.
          destruct HI1'. constructor; auto; cbn; try tauto.
      + apply IH.
        * assert (forall s, In s (b :: bs) -> In s (h_stack st1')) as Hsub.
          { intros s Hs. cbn [st1' h_stack]. rewrite Hs1, Hst. right; auto. }
          destruct HI1'. constructor; auto; cbn.
          -- intros s Hs. destruct (iv_stack0 s) as [A B]; auto. split; auto.
             left. destruct B as [|B]; auto. cbn in B. rewrite Hs1, Hst in B. discriminate.
        * discriminate.
        * rewrite Hmu1' in Hmu1. rewrite Hst in Hmu1. cbn [length] in Hmu1.
          unfold mu. cbn. destruct (_ =? 0); lia.
    - cbn [length Nat.eqb].
      destruct Hcons as (k & K1 & K2 & K3 & K4); [discriminate|].
      apply IH; auto.
      + intros Hn. rewrite Hn in K3. cbn in K3. lia.
      + assert (mu st2 = 3 * (n - length (h_order st2)) + length (h_stack st2)) as Hmu2.
        { unfold mu. destruct (h_stack st2) as [|s r] eqn:Es2; [cbn in K3; lia|].
          destruct (Nat.eqb_spec (nth s (h_visited st2) 0) 0) as [Ez|Ez]; auto.
          exfalso. apply (K4 s); [left; auto|auto]. }
        rewrite Hmu2. cbn in K2, K3. rewrite Hs1 in K3.
        pose proof (order_le _ HI2). lia.
  Qed.

  (** ** Output of the helper *)
  Definition helper_post (order : list nat) (seps : list (list nat)) (t : RootedTree) : Prop :=
    clique_tree cliques order (parent t) (height t) /\
    length seps = n /\
    forall e, e < n -> nth e seps [] =
      if nth e (parent t) 0 =? e then [] else I (nth e (parent t) 0) e.

  Lemma Inv_init root t m : root < n -> length (parent t) = n -> length (height t) = n ->
    cache_ok m -> Inv (mkH [] (repeat 0 n) [root] t (repeat [] n) m []).
  Proof.
    intros Hr Lp Lh C.
    assert (forall e, ~ vis (mkH [] (repeat 0 n) [root] t (repeat [] n) m []) e) as NV.
    { intros e [He Hv]. cbn in Hv. rewrite nth_repeat_any in Hv. auto. }
    constructor; cbn; auto; try (intros; exfalso; eapply NV; eauto; fail).
    - apply repeat_length.
    - apply repeat_length.
    - constructor.
    - intros e. split; [tauto|]. intros H; exfalso; eapply NV; eauto.
    - intros e _. apply nth_repeat_any.
    - intros l1 e l2 H. destruct l1; discriminate.
    - intros s [<-|[]]. auto.
    - tauto.
  Qed.

  Lemma Inv_post st : Inv st -> length (h_order st) = n -> 
    helper_post (rev (h_order st)) (h_seps st) (h_tree st).
  Proof.
    intros HI HL.
    assert (Permutation (h_order st) (seq 0 n)) as HP.
    { apply NoDup_Permutation_bis; [apply HI|rewrite seq_length; lia|].
      intros e He. apply (iv_order _ HI) in He. apply in_seq. destruct He; lia. }
    assert (forall e, e < n -> vis st e) as HV.
    { intros e He. apply (iv_order _ HI). eapply Permutation_in; [apply Permutation_sym, HP|].
      apply in_seq; lia. }
    assert (forest n (par st) (hei st)) as HF.
    { split; [apply HI|]. split; [apply HI|]. intros e He.
      destruct (iv_node _ HI e (HV e He)) as [H1 H2]. split; [apply H1|]. tauto. }
    split; [split; [|split; [|split]]|split].
    - rewrite <- HP. apply Permutation_sym, Permutation_rev.
    - auto.
    - intros l1 e l2 Ho.
      assert (h_order st = rev l2 ++ e :: rev l1) as Ho'.
      { rewrite <- (rev_involutive (h_order st)), Ho, rev_app_distr. cbn. rewrite <- app_assoc. reflexivity. }
      destruct (iv_first _ HI _ _ _ Ho'); auto. right. apply in_rev; auto.
    - intros v a b Ha Hb Va Vb. apply (iv_tree _ HI); auto.
      intros E. assert (In v (I a b)) by (apply I_in; auto). rewrite E in H. contradiction.
    - apply HI.
    - intros e He. destruct (iv_node _ HI e (HV e He)) as [H1 [(E1 & E2 & E3)|(E1 & E2)]].
      + rewrite E1, Nat.eqb_refl. auto.
      + destruct (Nat.eqb_spec (nth e (par st) 0) e) as [E|]; auto.
        rewrite E in E1. lia.
  Qed.

  Lemma GetMaxWeighted_ok edges m : cache_ok m -> 
    (forall e, In e edges -> fst e < n /\ snd e < n) ->
    exists w, GetMaxWeightedDegreeNode n edges m = Ok w /\ length w = n.
  Proof.
    intros C He. unfold GetMaxWeightedDegreeNode.
    apply foldM_inv' with (I := fun w : list nat => length w = n).
    - apply repeat_length.
    - intros e w Hin L. destruct (He e Hin) as [H1 H2].
      rewrite sm_get_ok by auto. cbn [bind].
      rewrite (at_lt w (fst e) 0) by lia. cbn [bind].
      rewrite set_at_lt by lia. cbn [bind].
      rewrite (at_lt _ (snd e) 0) by (rewrite upd_length; lia). cbn [bind].
      rewrite set_at_lt by (rewrite upd_length; lia).
      eexists; split; [reflexivity|]. rewrite !upd_length. auto.
  Qed.

  Lemma argmax_from_lt l : forall i best bv, best < i -> argmax_from l i best bv < i + length l.
  Proof.
    induction l; intros i best bv H; cbn [argmax_from length]; [lia|].
    destruct (bv <? a).
    - specialize (IHl (S i) i a). lia.
    - specialize (IHl (S i) best bv). lia.
  Qed.

  Lemma max_element_lt l : l <> [] -> max_element_index l < length l.
  Proof.
    destruct l as [|x l]; [congruence|]. intros _. cbn.
    pose proof (argmax_from_lt l 1 0 x Nat.lt_0_1). lia.
  Qed.

  Lemma helper_ok root m t : n <> 0 -> (root < Z.of_nat n)%Z ->
    cache_ok m -> length (parent t) = n -> length (height t) = n ->
    exists br order seps t' m',
      PickCliqueOrderHelper cliques valid_leaf root m (repeat [] n) t =
        Ok (br, (order, seps, t', m')) /\
      br < n /\ cache_ok m' /\ helper_post order seps t'.
  Proof.
    intros Hn Hr C Lp Lh. unfold PickCliqueOrderHelper.
    set (root' := if (root <? 0)%Z then 0 else Z.to_nat root).
    assert (root' < n) as Hr'.
    { unfold root'. destruct (Z.ltb_spec root 0); lia. }
    destruct (helper_loop_ok (3 * n + 3) (mkH [] (repeat 0 n) [root'] t (repeat [] n) m []))
      as (st & E & HI & HL).
    - apply Inv_init; auto.
    - discriminate.
    - unfold mu. cbn. rewrite nth_repeat_any. cbn. lia.
    - rewrite E. cbn [bind].
      destruct (GetMaxWeighted_ok (h_edges st) (h_inter st)) as (w & Ew & Lw).
      + apply HI.
      + apply HI.
      + rewrite Ew. cbn [bind].
        eexists _, _, _, _, _. split; [reflexivity|]. split; [|split].
        * rewrite <- Lw. apply max_element_lt. intros ->. cbn in Lw. lia.
        * apply HI.
        * apply Inv_post; auto.
  Qed.

  (** ** Supernodes before fill-in *)
  Lemma write_difference_ok c s : SSorted c -> SSorted s -> incl s c ->
    write_difference c s = Ok (set_difference c s).
  Proof.
    intros Hc Hs Hi. unfold write_difference.
    assert (length s <= length c).
    { apply NoDup_incl_length; auto. apply ssorted_nodup; auto. }
    destruct (Nat.ltb_spec (length c) (length s)); [lia|].
    pose proof (set_difference_length c s Hc Hs Hi) as HL.
    destruct (Nat.ltb_spec 0 (length c - length s)).
    - rewrite HL, Nat.leb_refl, Nat.sub_diag. cbn. rewrite app_nil_r. auto.
    - assert (length (set_difference c s) = 0) as E by lia.
      apply length_zero_iff_nil in E. rewrite E. auto.
  Qed.

  Definition elim_post (order : list nat) (snodes seps : list (list nat)) (t : RootedTree) : Prop :=
    helper_post order seps t /\ length snodes = n /\
    forall e, e < n -> nth e snodes [] = set_difference (nth e cliques []) (nth e seps []).

  Lemma helper_post_sep order seps t e : helper_post order seps t -> e < n ->
    SSorted (nth e seps []) /\ incl (nth e seps []) (nth e cliques []).
  Proof.
    intros (_ & _ & Hs) He. rewrite Hs by auto. destruct (_ =? e).
    - split; [constructor|]. intros x [].
    - split; [apply set_intersection_spec; apply nth_sorted|].
      intros x Hx. apply I_in in Hx. apply Hx.
  Qed.

  Lemma GetCliqueEliminationOrder_ok root t :
    n <> 0 -> (root < Z.of_nat n)%Z -> length (parent t) = n -> length (height t) = n ->
    exists order snodes seps t',
      GetCliqueEliminationOrder cliques valid_leaf root t = Ok (order, snodes, seps, t') /\
      elim_post order snodes seps t'.
  Proof.
    intros Hn Hr Lp Lh. unfold GetCliqueEliminationOrder.
    destruct (helper_ok root (SymMat_init n) t Hn Hr cache_init Lp Lh)
      as (br & order0 & seps0 & t0 & m0 & E0 & Hbr & C0 & P0).
    rewrite E0. cbn [bind].
    assert (exists order seps t', (if (root =? -1)%Z then
        '(_, (order1, seps1, tree1, _)) <-
           PickCliqueOrderHelper cliques valid_leaf (Z.of_nat br) m0
                                 (repeat [] n) (RootedTree_init n) ;;
        Ok (order1, seps1, tree1)
      else Ok (order0, seps0, t0)) = Ok (order, seps, t') /\ helper_post order seps t')
      as (order & seps & t' & E & P).
    { destruct (root =? -1)%Z.
      - destruct (helper_ok (Z.of_nat br) m0 (RootedTree_init n) Hn)
          as (br1 & order1 & seps1 & t1 & m1 & E1 & _ & _ & P1); auto.
        + lia.
        + cbn. apply repeat_length.
        + cbn. apply repeat_length.
        + rewrite E1. cbn. eauto.
      - eauto 10. }
    cbn [bind] in E |- *. rewrite E. cbn [bind].
    pose proof P as ((Hperm & _) & Ls & _).
    destruct (foldM_inv (fun sn e =>
                     c <- at_ cliques e ;;
                     s <- at_ seps e ;;
                     d <- write_difference c s ;;
                     set_at sn e d)
      (fun pre sn => length sn = n /\ forall e, In e pre -> nth e sn [] = set_difference (nth e cliques []) (nth e seps []))
      order (repeat [] n)) as (sn & Esn & Lsn & Hsn).
    - split; [apply repeat_length|]. intros e [].
    - intros pre e post sn Ho [L H].
      assert (e < n) as He.
      { assert (In e (seq 0 n)) as Hin. { eapply Permutation_in; [apply Hperm|]. rewrite Ho. apply in_elt. }
        apply in_seq in Hin. lia. }
      rewrite (at_lt cliques e []), (at_lt seps e []) by lia. cbn [bind].
      destruct (helper_post_sep _ _ _ e P He) as [S1 S2].
      rewrite write_difference_ok by (auto; apply nth_sorted). cbn [bind].
      rewrite set_at_lt by lia. eexists; split; [reflexivity|].
      split; [rewrite upd_length; auto|].
      intros x Hx. rewrite nth_upd by lia. destruct (Nat.eqb_spec e x) as [->|]; auto.
      apply H. rewrite in_app_iff in Hx. destruct Hx as [|[|[]]]; auto. congruence.
    - rewrite Esn. cbn [bind].
      eexists _, _, _, _. split; [reflexivity|]. split; auto. split; auto.
      intros e He. apply Hsn. eapply Permutation_in; [apply Permutation_sym, Hperm|]. apply in_seq; lia.
  Qed.
End Greedy.
