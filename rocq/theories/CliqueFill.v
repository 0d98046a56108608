(** Proofs about CliqueModel.v, part 2: fill-in. *)
From Coq Require Import List Arith ZArith Bool Lia Sorting.Sorted Permutation.
From Verif Require Import Base BaseFacts TreeModel CliqueModel Spec_Tree Spec_Clique TreeProofs CliqueProofs.
Import ListNotations.

(** ** Position facts *)
Lemma before_in order a b : before order a b -> In a order /\ In b order.
Proof.
  intros (l1 & l2 & l3 & ->). split; rewrite !in_app_iff; cbn; rewrite ?in_app_iff; cbn; auto 10.
Qed.

Lemma before_trans order a b c : NoDup order -> before order a b -> before order b c -> before order a c.
Proof.
  intros ND (l1 & l2 & l3 & E1) (m1 & m2 & m3 & E2).
  assert (l1 ++ a :: l2 = m1 /\ l3 = m2 ++ c :: m3) as [<- ->].
  { assert (forall (x1 x2 y1 y2 : list nat), NoDup (x1 ++ b :: x2) -> x1 ++ b :: x2 = y1 ++ b :: y2 -> x1 = y1 /\ x2 = y2) as U.
    { clear. induction x1 as [|x x1 IH]; intros x2 y1 y2 ND E; destruct y1 as [|y y1]; cbn in *.
      - injection E as ->. auto.
      - injection E as -> ->. exfalso. apply NoDup_cons_iff in ND as [H _]. apply H, in_elt.
      - injection E as -> <-. exfalso. apply NoDup_cons_iff in ND as [H _]. apply H, in_elt.
      - injection E as -> E. apply NoDup_cons_iff in ND as [_ ND]. destruct (IH _ _ _ ND E) as [-> ->]. auto. }
    apply U.
    - rewrite <- app_assoc. cbn. rewrite <- E1. auto.
    - rewrite <- app_assoc. cbn. rewrite <- E1. auto. }
  exists l1, (l2 ++ b :: m2), m3. rewrite E2. rewrite <- !app_assoc. cbn. rewrite <- ?app_assoc. reflexivity.
Qed.

Lemma before_irrefl order a : NoDup order -> ~ before order a a.
Proof.
  intros ND (l1 & l2 & l3 & E). rewrite E in ND. apply NoDup_remove_2 in ND.
  apply ND. rewrite !in_app_iff. cbn. auto.
Qed.

Lemma before_asym order a b : NoDup order -> before order a b -> ~ before order b a.
Proof. intros ND H1 H2. eapply before_irrefl; eauto. eapply before_trans; eauto. Qed.

(** ** GetMax *)
Lemma fold_max_ge c : forall m, m <= fold_left (fun m ci => if m <? ci then ci else m) c m /\
  forall v, In v c -> v <= fold_left (fun m ci => if m <? ci then ci else m) c m.
Proof.
  induction c as [|a c IH]; intros m; cbn [fold_left]; [split; [lia|intros v []]|].
  destruct (IH (if m <? a then a else m)) as [H1 H2].
  destruct (Nat.ltb_spec m a); (split; [lia|]; intros v [->|Hv]; [lia|auto]).
Qed.

Lemma fold_max_in c : forall m, fold_left (fun m ci => if m <? ci then ci else m) c m = m \/
  In (fold_left (fun m ci => if m <? ci then ci else m) c m) c.
Proof.
  induction c as [|a c IH]; intros m; cbn [fold_left]; [auto|].
  destruct (IH (if m <? a then a else m)) as [E|H]; [|right; right; auto].
  rewrite E. destruct (m <? a); [right; left; auto|left; auto].
Qed.

Lemma GetMax_ok cliques m : GetMax cliques = Ok m ->
  (exists c, In c cliques /\ In m c) /\ (forall c v, In c cliques -> In v c -> v <= m).
Proof.
  unfold GetMax. intros H. apply bind_ok in H as (c0 & H0 & H).
  apply bind_ok in H as (m0 & H1 & H). injection H as <-.
  apply at_ok in H0. apply at_ok in H1.
  assert (In c0 cliques) as Hc0 by (eapply nth_error_In; eauto).
  assert (In m0 c0) as Hm0 by (eapply nth_error_In; eauto).
  set (g := fun (mx : nat) (c : list nat) => fold_left (fun m ci => if m <? ci then ci else m) c mx).
  assert (forall l acc, acc <= fold_left g l acc /\ (forall c v, In c l -> In v c -> v <= fold_left g l acc) /\
     (fold_left g l acc = acc \/ exists c, In c l /\ In (fold_left g l acc) c)) as G.
  { induction l as [|c l IH]; intros acc; cbn [fold_left].
    - split; [lia|]. split; [intros c v []|auto].
    - destruct (IH (g acc c)) as (A & B & C). unfold g at 2 in A. 
      destruct (fold_max_ge c acc) as [D E].
      split; [unfold g in *; lia|]. split.
      + intros c' v [<-|Hc] Hv; [|eauto]. specialize (E v Hv). unfold g in *. lia.
      + destruct C as [C|(c' & C1 & C2)]; [|right; exists c'; cbn; auto].
        rewrite C. unfold g. destruct (fold_max_in c acc) as [F|F]; auto. right. exists c. cbn; auto. }
  destruct (G cliques m0) as (A & B & C). split; auto.
  destruct C as [C|C]; auto. rewrite C. eauto.
Qed.

Lemma GetMax_total cliques : nth 0 cliques [] <> [] -> exists m, GetMax cliques = Ok m.
Proof.
  intros H. unfold GetMax. destruct cliques as [|c0 t]; [cbn in H; congruence|].
  cbn. destruct c0 as [|x c0]; [cbn in H; congruence|]. cbn. eauto.
Qed.

Lemma GetMax_throws cliques : nth 0 cliques [] = [] -> GetMax cliques = Throw.
Proof.
  intros H. unfold GetMax. destruct cliques as [|c0 t]; [reflexivity|].
  cbn in *. subst. reflexivity.
Qed.

Section Fill.
  Variable cliques : list (list nat).
  Notation n := (length cliques).
  Hypothesis Hsorted : forall c, In c cliques -> SSorted c.
  Variable nv : nat.
  Hypothesis Hnv : forall c v, In c cliques -> In v c -> v < nv.

  Variables (order : list nat) (snodes seps : list (list nat)) (t : RootedTree).
  Hypothesis HE : elim_post cliques order snodes seps t.

  Notation p e := (nth e (parent t) 0).
  Notation h e := (nth e (height t) 0).
  Notation anc := (ancestor (parent t)).

  Lemma HF : forest n (parent t) (height t).
  Proof. apply HE. Qed.
  Lemma HT v a b : a < n -> b < n -> occurs cliques v a -> occurs cliques v b -> same_tree (parent t) a b.
  Proof. apply HE. Qed.
  Lemma Hperm : Permutation order (seq 0 n).
  Proof. apply HE. Qed.
  Lemma order_in e : In e order <-> e < n.
  Proof.
    split; intros H.
    - apply (Permutation_in _ Hperm) in H. apply in_seq in H. lia.
    - apply (Permutation_in _ (Permutation_sym Hperm)). apply in_seq. lia.
  Qed.
  Lemma order_nodup : NoDup order.
  Proof. eapply Permutation_NoDup; [apply Permutation_sym, Hperm|apply seq_NoDup]. Qed.

  Lemma occurs_lt v e : occurs cliques v e -> e < n.
  Proof.
    unfold occurs. intros H. destruct (Nat.lt_ge_cases e n); auto.
    rewrite nth_overflow in H by lia. contradiction.
  Qed.
  Lemma occurs_nv v e : occurs cliques v e -> v < nv.
  Proof.
    intros H. eapply Hnv; [|exact H]. apply nth_In. eapply occurs_lt; eauto.
  Qed.

  Definition orig (v e : nat) : Prop := In v (nth e snodes []).

  Lemma seps0_in v e : e < n ->
    (In v (nth e seps []) <-> p e <> e /\ occurs cliques v (p e) /\ occurs cliques v e).
  Proof.
    intros He. destruct HE as ((_ & _ & Hs) & _). rewrite Hs by auto.
    destruct (Nat.eqb_spec (p e) e) as [E|E].
    - cbn. tauto.
    - rewrite (I_in cliques [] Hsorted (or_introl eq_refl)). tauto.
  Qed.

  Lemma orig_in v e : e < n ->
    (orig v e <-> occurs cliques v e /\ (p e = e \/ ~ occurs cliques v (p e))).
  Proof.
    intros He. unfold orig. destruct HE as (HP & _ & Hs). rewrite Hs by auto.
    destruct (helper_post_sep cliques [] Hsorted (or_introl eq_refl) _ _ _ e HP He) as [S1 S2].
    rewrite (proj1 (set_difference_spec _ _ (nth_sorted cliques [] Hsorted (or_introl eq_refl) e) S1)).
    rewrite seps0_in by auto. unfold occurs.
    destruct (Nat.eq_dec (p e) e); destruct (in_dec Nat.eq_dec v (nth (p e) cliques [])); tauto.
  Qed.

  Lemma orig_or_sep v e : occurs cliques v e -> orig v e \/ In v (nth e seps []).
  Proof.
    intros H. pose proof (occurs_lt _ _ H) as He.
    destruct (Nat.eq_dec (p e) e) as [E|E]; [left; apply orig_in; auto|].
    destruct (in_dec Nat.eq_dec v (nth (p e) cliques [])).
    - right. apply seps0_in; auto.
    - left. apply orig_in; auto.
  Qed.

  Lemma par_lt' e : e < n -> p e < n.
  Proof. apply (par_lt _ _ _ HF). Qed.

  (** ** Invariant of the fill loop *)
  Record FI (P : nat -> nat -> Prop) (st : list nat * list (list nat)) : Prop := {
    fi_le : length (fst st) = nv;
    fi_ls : length (snd st) = n;
    fi_el : forall v, v < nv -> nth v (fst st) 0 < n \/ nth v (fst st) 0 = n + 1;
    fi_none : forall v tt, P tt v -> nth v (fst st) 0 < n;
    fi_some : forall v, v < nv -> nth v (fst st) 0 < n ->
       exists e, occurs cliques v e /\ same_tree (parent t) e (nth v (fst st) 0);
    fi_sorted : forall e, SSorted (nth e (snd st) []);
    fi_mono : forall e v, In v (nth e seps []) -> In v (nth e (snd st) []);
    fi_occ : forall e v, e < n -> In v (nth e (snd st) []) -> exists f, occurs cliques v f;
    fi_up : forall e v, e < n -> In v (nth e (snd st) []) ->
       p e <> e /\ (In v (nth (p e) (snd st) []) \/ orig v (p e) \/ nth v (fst st) 0 = p e);
    fi_done : forall tt v, P tt v -> nth v (fst st) 0 = tt \/ In v (nth tt (snd st) [])
  }.

  Lemma same_tree_trans a b c : a < n -> b < n -> c < n ->
    same_tree (parent t) a b -> same_tree (parent t) b c -> same_tree (parent t) a c.
  Proof.
    intros Ha Hb Hc (x & H1 & H2) (y & H3 & H4).
    destruct (anc_chain (parent t) b x y H2 H3) as [H|H].
    - exists y. split; auto. eapply anc_trans; eauto.
    - exists x. split; auto. eapply anc_trans; eauto.
  Qed.

  Lemma add_separators_ok v l : forall sp, length sp = n -> (forall e, In e l -> e < n) ->
    (forall e, SSorted (nth e sp [])) ->
    exists sp', foldM (add_separator v) sp l = Ok sp' /\ length sp' = n /\
      (forall e, SSorted (nth e sp' [])) /\
      (forall e u, In u (nth e sp' []) <-> In u (nth e sp []) \/ (u = v /\ In e l)).
  Proof.
    induction l as [|a l IH]; intros sp L Hl Hs; cbn [foldM].
    - exists sp. repeat split; auto. intros [|[_ []]]; auto.
    - assert (a < n) as Ha by (apply Hl; left; auto).
      unfold add_separator at 1. rewrite (at_lt sp a []) by lia. cbn [bind].
      rewrite set_at_lt by lia. cbn [bind].
      assert (SSorted [v]) as Sv by repeat constructor.
      destruct (set_union_spec (nth a sp []) [v] (Hs a) Sv) as [U2 U1].
      destruct (IH (upd sp a (set_union (nth a sp []) [v]))) as (sp' & E & L' & S' & M).
      + rewrite upd_length; auto.
      + intros; apply Hl; right; auto.
      + intros e. rewrite nth_upd by lia. destruct (a =? e); auto.
      + exists sp'. split; auto. split; auto. split; auto.
        intros e u. rewrite M. rewrite nth_upd by lia.
        destruct (Nat.eqb_spec a e) as [->|Hne].
        * rewrite U2. cbn. intuition.
        * cbn. intuition.
  Qed.

  Lemma fill_var_ok P st node v : FI P st -> node < n -> orig v node ->
    exists st', fill_var t (length order) node st v = Ok st' /\
      FI (fun a b => P a b \/ (a = node /\ b = v)) st'.
  Proof.
    intros HI Hn Ho. destruct st as [el sp].
    pose proof (fi_le _ _ HI) as Le. pose proof (fi_ls _ _ HI) as Ls. cbn in Le, Ls.
    assert (length order = n) as Lo.
    { rewrite (Permutation_length Hperm). apply seq_length. }
    assert (occurs cliques v node) as Hocc by (apply orig_in in Ho; tauto).
    assert (v < nv) as Hv by (eapply occurs_nv; eauto).
    unfold fill_var. rewrite Lo, (at_lt el v 0) by lia. cbn [bind].
    destruct (Nat.ltb_spec (nth v el 0) n) as [Hlt|Hge].
    - destruct (fi_some _ _ HI v Hv Hlt) as (f & Hf & Hst). cbn in Hst.
      pose proof (occurs_lt _ _ Hf) as Hfn.
      assert (same_tree (parent t) node (nth v el 0)) as Hst2.
      { apply same_tree_trans with f; auto. eapply HT; eauto. }
      destruct (PathInTree_correct n (parent t) (height t) HF node (nth v el 0) Hn Hlt Hst2)
        as (l & z & E & Hp).
      destruct (path_closed n (parent t) (height t) HF node (nth v el 0) l z Hn Hlt Hp) as (P1 & P2 & P3 & Hz).
      rewrite E. cbn [bind]. rewrite removelast_last.
      destruct (add_separators_ok v l sp Ls) as (sp' & Es & L' & S' & M).
      { intros e He. apply P3; auto. }
      { apply HI. }
      rewrite Es. cbn [bind]. rewrite set_at_lt by lia. cbn [bind]. rewrite last_last.
      eexists; split; [reflexivity|].
      assert (forall e, In e (l ++ [z]) -> z = e \/ In v (nth e sp' [])) as HL.
      { intros e He. rewrite in_app_iff in He. destruct He as [He|[->|[]]]; auto.
        right. apply M. auto. }
      constructor; cbn [fst snd].
      + rewrite upd_length; auto.
      + auto.
      + intros u Hu. rewrite nth_upd by lia. destruct (v =? u); auto. apply HI; auto.
      + intros u tt [H|[-> ->]]; rewrite nth_upd by lia.
        * destruct (v =? u); auto. eapply (fi_none _ _ HI); eauto.
        * rewrite Nat.eqb_refl; auto.
      + intros u Hu. rewrite nth_upd by lia. destruct (Nat.eqb_spec v u) as [<-|Hne].
        * intros _. exists node. split; auto. destruct Hp as ((A & _) & _). exists z. split; auto. constructor.
        * intros H. apply (fi_some _ _ HI u Hu H).
      + auto.
      + intros e u Hu. apply M. left. apply (fi_mono _ _ HI); auto.
      + intros e u He Hu. apply M in Hu as [Hu|[-> _]]; eauto. eapply (fi_occ _ _ HI); eauto.
      + intros e u He Hu. rewrite nth_upd by lia. apply M in Hu as [Hu|[-> Hu]].
        * destruct (fi_up _ _ HI e u He Hu) as [U1 U2]. cbn in U2. split; auto.
          destruct (Nat.eqb_spec v u) as [<-|Hne].
          -- destruct U2 as [U2|[U2|U2]]; auto.
             ++ left. apply M; auto.
             ++ rewrite U2 in P2. apply HL in P2. tauto.
          -- destruct U2 as [U2|[U2|U2]]; auto. left. apply M; auto.
        * rewrite Nat.eqb_refl. destruct (P3 e Hu) as (_ & U1 & U2). split; auto.
          apply HL in U2. tauto.
      + intros tt u [H|[-> ->]]; rewrite nth_upd by lia.
        * destruct (fi_done _ _ HI tt u H) as [D|D]; cbn in D.
          -- destruct (Nat.eqb_spec v u) as [<-|Hne]; auto. subst tt. apply HL; auto.
          -- right. apply M; auto.
        * rewrite Nat.eqb_refl. apply HL; auto.
    - rewrite set_at_lt by lia. cbn [bind]. eexists; split; [reflexivity|].
      assert (nth v el 0 = n + 1) as Ev.
      { destruct (fi_el _ _ HI v Hv); auto. cbn in *. lia. }
      constructor; cbn [fst snd]; try apply HI.
      + rewrite upd_length; auto.
      + intros u Hu. rewrite nth_upd by lia. destruct (v =? u); auto. apply HI; auto.
      + intros u tt [H|[-> ->]]; rewrite nth_upd by lia.
        * destruct (v =? u); auto. eapply (fi_none _ _ HI); eauto.
        * rewrite Nat.eqb_refl; auto.
      + intros u Hu. rewrite nth_upd by lia. destruct (Nat.eqb_spec v u) as [<-|Hne].
        * intros _. exists node. split; auto. exists node; split; constructor.
        * intros H. apply (fi_some _ _ HI u Hu H).
      + intros e u He Hu. rewrite nth_upd by lia.
        destruct (fi_up _ _ HI e u He Hu) as [U1 U2]. cbn in U2. split; auto.
        destruct (Nat.eqb_spec v u) as [<-|Hne]; auto.
        destruct U2 as [U2|[U2|U2]]; auto. pose proof (par_lt' e He). lia.
      + intros tt u [H|[-> ->]]; rewrite nth_upd by lia.
        * destruct (Nat.eqb_spec v u) as [<-|Hne].
          -- pose proof (fi_none _ _ HI _ _ H). cbn in *. lia.
          -- apply (fi_done _ _ HI tt u H).
        * rewrite Nat.eqb_refl; auto.
  Qed.

  Lemma FI_ext P P' st : (forall a b, P a b <-> P' a b) -> FI P st -> FI P' st.
  Proof.
    intros H [a b c d e f g i j k]. constructor; auto.
    - intros v tt Hv. apply H in Hv. eauto.
    - intros tt v Hv. apply H in Hv. eauto.
  Qed.

  Lemma FI_init : FI (fun _ _ => False) (repeat (n + 1) nv, seps).
  Proof.
    destruct HE as (HP & _). destruct HP as (HC & Ls & Hs) eqn:EE. clear EE.
    assert (forall e, e < n -> SSorted (nth e seps []) /\ incl (nth e seps []) (nth e cliques [])) as HS.
    { intros e He. apply (helper_post_sep cliques [] Hsorted (or_introl eq_refl) _ _ _ e (conj HC (conj Ls Hs)) He). }
    constructor; cbn [fst snd].
    - apply repeat_length.
    - auto.
    - intros v Hv. rewrite nth_repeat_lt by auto. auto.
    - tauto.
    - intros v Hv. rewrite nth_repeat_lt by auto. lia.
    - intros e. destruct (Nat.lt_ge_cases e n) as [He|He]; [apply HS; auto|].
      rewrite nth_overflow by lia. constructor.
    - auto.
    - intros e v He Hin. exists e. apply HS; auto.
    - intros e v He Hin. pose proof Hin as Hin'. apply seps0_in in Hin as (A & B & C); auto.
      split; auto. destruct (orig_or_sep v (p e) B); auto.
    - tauto.
  Qed.

  Lemma fill_loop_ok :
    exists st, fill_loop t (length order) snodes order (repeat (length order + 1) nv, seps) = Ok st /\
      FI (fun a b => a < n /\ orig b a) st.
  Proof.
    assert (length order = n) as Lo.
    { rewrite (Permutation_length Hperm). apply seq_length. }
    unfold fill_loop. rewrite Lo.
    destruct (foldM_inv (fun st node => sn <- at_ snodes node;; foldM (fill_var t n node) st sn)
      (fun pre st => FI (fun a b => In a pre /\ orig b a) st) order (repeat (n + 1) nv, seps))
      as (st & E & HI).
    - eapply FI_ext; [|apply FI_init]. cbn. tauto.
    - intros pre node post st Ho HI.
      assert (node < n) as Hn by (apply order_in; rewrite Ho; apply in_elt).
      assert (length snodes = n) as Lsn by apply HE.
      rewrite (at_lt snodes node []) by lia. cbn [bind].
      destruct (foldM_inv (fill_var t n node)
        (fun pre2 st => FI (fun a b => (In a pre /\ orig b a) \/ (a = node /\ In b pre2)) st)
        (nth node snodes []) st) as (st' & E & HI').
      + eapply FI_ext; [|apply HI]. cbn. tauto.
      + intros pre2 v post2 st2 Hs HI2.
        assert (orig v node) as Hov by (unfold orig; rewrite Hs; apply in_elt).
        destruct (fill_var_ok _ st2 node v HI2 Hn Hov) as (st3 & E3 & HI3).
        rewrite Lo in E3. exists st3. split; auto. eapply FI_ext; [|exact HI3].
        intros a b. cbn. rewrite in_app_iff. cbn. intuition.
      + exists st'. split; auto. eapply FI_ext; [|exact HI'].
        intros a b. cbn. rewrite in_app_iff. cbn. unfold orig. intuition (subst; auto).
    - exists st. split; auto. eapply FI_ext; [|exact HI]. intros a b. cbn. rewrite order_in. tauto.
  Qed.

  (** ** Collecting the supernodes *)
  Lemma collect_ok el : length el = nv ->
    exists sn, collect_supernodes n el = Ok sn /\ length sn = n /\
      forall e, SSorted (nth e sn []) /\
        (forall v, In v (nth e sn []) <-> v < nv /\ nth v el 0 = e /\ e < n).
  Proof.
    intros L. unfold collect_supernodes. rewrite L.
    pose (J := fun (pre : list nat) (sn : list (list nat)) => length sn = n /\
      forall e, SSorted (nth e sn []) /\
        (forall v, In v (nth e sn []) <-> In v pre /\ nth v el 0 = e /\ e < n)).
    destruct (foldM_inv (fun sn i => e <- at_ el i ;;
           if e <? n then s <- at_ sn e ;; set_at sn e (s ++ [i]) else Ok sn) J
           (seq 0 nv) (repeat [] n)) as (sn & E & L' & HJ).
    - split; [apply repeat_length|]. intros e. rewrite nth_repeat_any. split; [constructor|].
      cbn. tauto.
    - intros pre i post sn Hs [L1 H1].
      assert (pre = seq 0 i /\ i < nv) as [Ep Hi].
      { assert (forall a k pre post, seq a k = pre ++ i :: post -> pre = seq a (i - a) /\ a <= i < a + k) as U.
        { clear. intros a k; revert a. induction k; intros a pre post E.
          - destruct pre; discriminate.
          - destruct pre as [|x pre]; cbn in E; injection E as <- E.
            + rewrite Nat.sub_diag. split; auto; lia.
            + destruct (IHk _ _ _ E) as [-> ?]. split; [|lia].
              replace (i - a) with (S (i - S a)) by lia. auto. }
        apply U in Hs as [-> ?]. rewrite Nat.sub_0_r. split; auto; lia. }
      rewrite (at_lt el i 0) by lia. cbn [bind].
      assert (forall v, In v (pre ++ [i]) <-> v <= i) as Hpre.
      { intros v. rewrite in_app_iff, Ep, in_seq. cbn. lia. }
      destruct (Nat.ltb_spec (nth i el 0) n) as [Hlt|Hge].
      + rewrite (at_lt sn (nth i el 0) []) by lia. cbn [bind].
        rewrite set_at_lt by lia. eexists; split; [reflexivity|].
        split; [rewrite upd_length; auto|].
        intros e. rewrite nth_upd by lia. destruct (H1 e) as [S1 M1].
        destruct (Nat.eqb_spec (nth i el 0) e) as [Ee|Hne].
        * rewrite Ee. split.
          -- apply ssorted_snoc; auto. intros x Hx. apply M1 in Hx. rewrite Ep, in_seq in Hx. lia.
          -- intros v. rewrite in_app_iff, M1, Hpre, Ep, in_seq. cbn.
             split; [intros [[? ?]|[<-|[]]]; intuition lia|]. 
             intros (A & B & C). destruct (Nat.eq_dec v i) as [->|]; auto.
             left. split; auto. lia.
        * split; auto. intros v. rewrite M1, Hpre, Ep, in_seq.
          split; intros (A & B & C); repeat split; auto; try lia.
          destruct (Nat.eq_dec v i) as [->|]; [congruence|lia].
      + eexists; split; [reflexivity|]. split; auto. intros e. destruct (H1 e) as [S1 M1]. split; auto.
        intros v. rewrite M1, Hpre, Ep, in_seq.
        split; intros (A & B & C); repeat split; auto; try lia.
        destruct (Nat.eq_dec v i) as [->|]; lia.
    - exists sn. split; auto. split; auto. intros e. destruct (HJ e) as [S1 M1]. split; auto.
      intros v. rewrite M1, in_seq. intuition lia.
  Qed.

  (** ** Consequences for the final state *)
  Section Final.
    Variables (el : list nat) (sp : list (list nat)).
    Hypothesis HI : FI (fun a b => a < n /\ orig b a) (el, sp).
    Notation owner v := (nth v el 0).

    Lemma done_orig v e : e < n -> orig v e -> owner v = e \/ In v (nth e sp []).
    Proof. intros. apply (fi_done _ _ HI e v); auto. Qed.

    Lemma up_final v e : e < n -> In v (nth e sp []) ->
      p e <> e /\ (In v (nth (p e) sp []) \/ owner v = p e).
    Proof.
      intros He Hin. destruct (fi_up _ _ HI e v He Hin) as [A B]. cbn in B. split; auto.
      destruct B as [B|[B|B]]; auto. pose proof (par_lt' e He).
      destruct (done_orig v (p e)); auto.
    Qed.

    Lemma owner_ancestor v : forall k e, h e <= k -> e < n -> In v (nth e sp []) ->
      anc e (owner v) /\ owner v <> e /\ owner v < n.
    Proof.
      induction k as [|k IH]; intros e Hk He Hin;
        (destruct (up_final v e He Hin) as [A B]; pose proof (par_lt' e He) as Hp;
         destruct (par_cases _ _ _ HF e He) as [[C _]|C]; [congruence|]); [lia|].
      destruct B as [B|B].
      - destruct (IH (p e)) as (D1 & D2 & D3); auto. { lia. }
        assert (anc e (owner v)) by (apply anc_step; auto).
        split; auto. split; auto. intros E.
        destruct (anc_height _ _ _ HF (p e) (owner v) D1 Hp) as [F|F]; [congruence|].
        rewrite E in F. lia.
      - rewrite B. split; [apply anc_step; constructor|]. split; auto.
    Qed.

    Lemma sep_owner v e : e < n -> In v (nth e sp []) -> anc e (owner v) /\ owner v <> e /\ owner v < n.
    Proof. intros; eapply owner_ancestor; eauto. Qed.

    Lemma sep_chain v e f : e < n -> In v (nth e sp []) -> anc e f -> anc f (owner v) -> f <> owner v ->
      In v (nth f sp []).
    Proof.
      intros He Hin H. induction H as [|x a H IH]; auto.
      intros H1 H2. destruct (up_final v x He Hin) as [A [B|B]].
      - apply IH; auto. apply par_lt'; auto.
      - exfalso. apply H2. rewrite B in *. 
        apply (anc_antisym _ _ _ HF); auto. 
        eapply anc_lt; [apply HF|apply H|]. apply par_lt'; auto.
    Qed.

    Lemma has_top v : forall k e, h e <= k -> occurs cliques v e -> exists f, f < n /\ orig v f.
    Proof.
      induction k as [|k IH]; intros e Hk Ho; pose proof (occurs_lt _ _ Ho) as He;
        destruct (Nat.eq_dec (p e) e) as [E|E];
        try (exists e; split; auto; apply orig_in; auto; fail);
        (destruct (in_dec Nat.eq_dec v (nth (p e) cliques [])) as [Hin|Hin];
         [|exists e; split; auto; apply orig_in; auto]);
        (destruct (par_cases _ _ _ HF e He) as [[C _]|C]; [congruence|]); [lia|].
      apply (IH (p e)); auto. lia.
    Qed.

    Lemma occ_owner v e : occurs cliques v e -> owner v < n.
    Proof.
      intros Ho. destruct (has_top v (h e) e (le_n _) Ho) as (f & Hf & Hor).
      apply (fi_none _ _ HI v f). auto.
    Qed.

    Lemma anc_before e f : e < n -> anc e f -> e = f \/ before order e f.
    Proof.
      intros He H. induction H as [|x a H IH]; auto.
      assert (p x < n) as Hp by (apply par_lt'; auto).
      destruct (Nat.eq_dec (p x) x) as [E|E]; [rewrite E in *; auto|].
      right. 
      assert (before order x (p x)) as Hb.
      { assert (In x order) as Hin by (apply order_in; auto).
        apply in_split in Hin as (l1 & l2 & El).
        destruct HE as (((_ & _ & HC & _) & _) & _). destruct (HC _ _ _ El) as [|Hin]; [congruence|].
        apply in_split in Hin as (m1 & m2 & ->). exists l1, m1, m2. auto. }
      destruct (IH Hp) as [<-|Hb2]; auto. eapply before_trans; eauto. apply order_nodup.
    Qed.

    Lemma final_symbolic sn : length sn = n ->
      (forall e, SSorted (nth e sn []) /\
        (forall v, In v (nth e sn []) <-> v < nv /\ owner v = e /\ e < n)) ->
      symbolic_ok cliques order sn sp.
    Proof.
      intros Lsn Hsn. constructor.
      - apply Hperm.
      - auto.
      - apply (fi_ls _ _ HI).
      - intros e. apply Hsn.
      - apply (fi_sorted _ _ HI).
      - intros v. split.
        + intros (e & He & Ho). exists (owner v). pose proof (occ_owner v e Ho). split; auto.
          apply Hsn. split; auto. eapply occurs_nv; eauto.
        + intros (e & He & Hin). apply Hsn in Hin as (A & B & C).
          destruct (fi_some _ _ HI v A) as (f & Hf & _). { cbn. lia. }
          exists f. split; auto. eapply occurs_lt; eauto.
      - intros v e e' H1 H2. apply Hsn in H1 as (_ & <- & _). apply Hsn in H2 as (_ & <- & _). auto.
      - intros v e Ho. pose proof (occurs_lt _ _ Ho) as He. pose proof (occurs_nv _ _ Ho) as Hv.
        destruct (orig_or_sep v e Ho) as [H|H].
        + destruct (done_orig v e He H) as [E|E]; auto. left. apply Hsn. auto.
        + right. apply (fi_mono _ _ HI); auto.
      - intros v e He Hin. destruct (sep_owner v e He Hin) as (A & B & C).
        exists (owner v). split; auto. split.
        + apply Hsn. split; auto. destruct (fi_occ _ _ HI e v He Hin) as (f & Hf). eapply occurs_nv; eauto.
        + destruct (anc_before e _ He A); auto. congruence.
      - intros e f g u v He Hu Hv Huf Hvg Hfg.
        apply Hsn in Huf as (A1 & <- & A2). apply Hsn in Hvg as (B1 & <- & B2).
        destruct (sep_owner u e He Hu) as (C1 & C2 & C3). destruct (sep_owner v e He Hv) as (D1 & D2 & D3).
        destruct (Nat.eq_dec (owner u) (owner v)) as [E|E].
        + left. rewrite E. apply Hsn. auto.
        + right. apply sep_chain with e; auto.
          destruct Hfg as [|Hb]; [congruence|].
          destruct (anc_chain (parent t) e (owner u) (owner v) C1 D1) as [|H]; auto.
          exfalso. destruct (anc_before _ _ D3 H) as [F|F]; [congruence|].
          eapply before_asym; eauto. apply order_nodup.
    Qed.
  End Final.

  Lemma map_sort_id (l : list (list nat)) : (forall e, SSorted (nth e l [])) -> map sort l = l.
  Proof.
    intros H. rewrite <- (map_id l) at 2. apply map_ext_in. intros a Ha.
    apply sort_sorted_id. apply In_nth with (d := []) in Ha as (i & _ & <-). auto.
  Qed.

  Lemma FillIn_ok : exists sn sp, FillIn t nv order snodes seps = Ok (sn, sp) /\
    symbolic_ok cliques order sn sp.
  Proof.
    unfold FillIn. destruct fill_loop_ok as ([el sp] & E & HI).
    assert (length order = n) as Lo.
    { rewrite (Permutation_length Hperm). apply seq_length. }
    rewrite E. cbn [bind]. rewrite Lo.
    destruct (collect_ok el) as (sn & E2 & L2 & H2). { apply HI. }
    rewrite E2. cbn [bind].
    rewrite (map_sort_id sn) by apply H2. rewrite (map_sort_id sp) by apply HI.
    exists sn, sp. split; auto. eapply final_symbolic; eauto.
  Qed.
End Fill.

(** ** PickCliqueOrder *)
Lemma PickCliqueOrder_ok cliques valid_leaf root :
  (forall c, In c cliques -> SSorted c) ->
  valid_leaf = [] \/ length valid_leaf = length cliques ->
  nth 0 cliques [] <> [] -> (root < Z.of_nat (length cliques))%Z ->
  exists order sn sp, PickCliqueOrder cliques valid_leaf root = Ok (order, sn, sp) /\
    symbolic_ok cliques order sn sp.
Proof.
  intros Hs Hl H0 Hr. unfold PickCliqueOrder.
  assert (length cliques <> 0) as Hn by (destruct cliques; [cbn in H0; congruence|cbn; lia]).
  destruct (GetCliqueEliminationOrder_ok cliques valid_leaf Hs Hl root (RootedTree_init (length cliques)))
    as (order & snodes & seps & t & E & HE); auto.
  { cbn. apply repeat_length. } { cbn. apply repeat_length. }
  rewrite E. cbn [bind].
  destruct (GetMax_total cliques H0) as (m & Em). rewrite Em. cbn [bind].
  destruct (FillIn_ok cliques Hs (m + 1)) with (order := order) (snodes := snodes) (seps := seps) (t := t)
    as (sn & sp & E2 & HS); auto.
  { intros c v Hc Hv. destruct (GetMax_ok _ _ Em) as [_ G]. specialize (G c v Hc Hv). lia. }
  rewrite E2. cbn. eauto 10.
Qed.
