(** Proofs about TreeModel.v. *)
From Coq Require Import List Arith Lia.
From Verif Require Import Base BaseFacts TreeModel Spec_Tree.
Import ListNotations.

Section Forest.
  Variables (n : nat) (par hei : list nat).
  Hypothesis F : forest n par hei.
  Notation p x := (nth x par 0).
  Notation h x := (nth x hei 0).
  Notation anc := (ancestor par).

  Lemma par_lt e : e < n -> p e < n.
  Proof. intros H. destruct F as (_ & _ & G). apply G; auto. Qed.

  Lemma par_cases e : e < n -> (p e = e /\ h e = 0) \/ h e = S (h (p e)).
  Proof. intros H. destruct F as (_ & _ & G). apply G; auto. Qed.

  Lemma anc_lt x a : anc x a -> x < n -> a < n.
  Proof. induction 1; intros; auto. apply IHancestor, par_lt; auto. Qed.

  Lemma anc_height x a : anc x a -> x < n -> a = x \/ h a < h x.
  Proof.
    induction 1 as [|x a H IH]; intros Hx; auto.
    pose proof (par_lt x Hx) as Hp. specialize (IH Hp).
    destruct (par_cases x Hx) as [[E1 E2]|E].
    - rewrite E1 in *. auto.
    - right. destruct IH as [->|IH]; lia.
  Qed.

  Lemma anc_trans x y z : anc x y -> anc y z -> anc x z.
  Proof. induction 1; auto. intros. apply anc_step. auto. Qed.

  Lemma anc_antisym x y : x < n -> anc x y -> anc y x -> x = y.
  Proof.
    intros Hx H1 H2. pose proof (anc_lt _ _ H1 Hx) as Hy.
    destruct (anc_height _ _ H1 Hx); auto. destruct (anc_height _ _ H2 Hy); auto. lia.
  Qed.

  Lemma anc_inv x a : anc x a -> a = x \/ anc (p x) a.
  Proof. inversion 1; auto. Qed.

  (** ancestors of a node form a chain *)
  Lemma anc_chain x a b : anc x a -> anc x b -> anc a b \/ anc b a.
  Proof.
    induction 1 as [x|x a H IH]; intros Hb; auto.
    apply anc_inv in Hb as [->|Hb]; auto. right. apply anc_step; auto.
  Qed.

  Lemma not_root_step x y : x < n -> y < n -> h y <= h x -> x <> y ->
    same_tree par x y -> h x = S (h (p x)).
  Proof.
    intros Hx Hy Hle Hne (a & Ha1 & Ha2).
    destruct (par_cases x Hx) as [[E1 E2]|E]; auto. exfalso.
    destruct (anc_height _ _ Ha1 Hx) as [->|?]; [|lia].
    destruct (anc_height _ _ Ha2 Hy) as [->|?]; [auto|lia].
  Qed.

  Lemma common_step x y a : x < n -> y < n -> h y <= h x -> x <> y ->
    anc x a -> anc y a -> anc (p x) a.
  Proof.
    intros Hx Hy Hle Hne H1 H2.
    apply anc_inv in H1 as [->|H1]; auto. exfalso.
    destruct (anc_height _ _ H2 Hy) as [->|?]; [auto|lia].
  Qed.

  Definition path_post (x y : nat) (l : list nat) (z : nat) : Prop :=
    closest_common_ancestor par x y z /\ NoDup (l ++ [z]) /\
    (forall u, In u l <-> (anc x u \/ anc y u) /\ anc u z /\ u <> z).

  Lemma same_tree_sym x y : same_tree par x y -> same_tree par y x.
  Proof. intros (a & ? & ?); exists a; auto. Qed.

  Lemma path_post_sym x y l z : path_post x y l z -> path_post y x l z.
  Proof.
    intros ((A & B & C) & D & E). split; [split; [auto|split; auto]|split; auto].
    intros u. rewrite E. tauto.
  Qed.

  Lemma path_post_step x y l z : x < n -> y < n -> h y <= h x -> x <> y ->
    same_tree par x y ->
    path_post (p x) y l z -> path_post x y (x :: l) z.
  Proof.
    intros Hx Hy Hle Hne Hst ((A & B & C) & D & E).
    pose proof (not_root_step x y Hx Hy Hle Hne Hst) as Hh.
    pose proof (par_lt x Hx) as Hp.
    assert (forall u, anc (p x) u -> u <> x) as Nx.
    { intros u Hu ->. destruct (anc_height _ _ Hu Hp) as [E1|?]; [rewrite <- E1 in Hh|]; lia. }
    assert (forall u, anc y u -> u <> x) as Ny.
    { intros u Hu ->. destruct (anc_height _ _ Hu Hy) as [E1|?]; [auto|lia]. }
    split; [|split].
    - split; [apply anc_step; auto|split; auto].
      intros a H1 H2. apply C; auto. apply common_step with (y := y); auto.
    - cbn. constructor; auto. rewrite in_app_iff. intros [Hin|[Hin|[]]].
      + apply E in Hin as ([Hin|Hin] & _); [eapply Nx|eapply Ny]; eauto.
      + subst. eapply Nx; eauto.
    - intros u. cbn [In]. rewrite E. split.
      + intros [<-|([Hu|Hu] & Hz & Hn)].
        * split; [left; constructor|]. split; [apply anc_step; auto|].
          intros ->. eapply Nx; eauto.
        * split; [left; apply anc_step; auto|auto].
        * auto.
      + intros ([Hu|Hu] & Hz & Hn); auto.
        apply anc_inv in Hu as [->|Hu]; auto.
  Qed.

  Lemma path_loop_spec fuel : forall x y path,
    x < n -> y < n -> same_tree par x y -> h x + h y <= fuel ->
    exists l z, path_loop fuel x y par hei path = Ok (path ++ l ++ [z])
                /\ path_post x y l z.
  Proof.
    destruct F as (Lp & Lh & _).
    induction fuel as [|fuel IH]; intros x y path Hx Hy Hst Hf; cbn [path_loop].
    - destruct (Nat.eqb_spec x y) as [->|Hne].
      + exists [], y. split; auto. split; [|split].
        * split; [constructor|split; [constructor|auto]].
        * repeat constructor; auto.
        * intros u. cbn. split; [tauto|]. intros (Hu & Hz & Hn).
          apply Hn. apply anc_antisym; auto; [|tauto].
          eapply anc_lt with (x := y); tauto.
      + exfalso. pose proof (not_root_step x y Hx Hy ltac:(lia) Hne Hst). lia.
    - destruct (Nat.eqb_spec x y) as [->|Hne].
      + exists [], y. split; auto. split; [|split].
        * split; [constructor|split; [constructor|auto]].
        * repeat constructor; auto.
        * intros u. cbn. split; [tauto|]. intros (Hu & Hz & Hn).
          apply Hn. apply anc_antisym; auto; [|tauto].
          eapply anc_lt with (x := y); tauto.
      + rewrite (idx_lt hei x 0), (idx_lt hei y 0) by lia. cbn [bind].
        destruct (Nat.ltb_spec (h x) (h y)).
        * rewrite (at_lt par y 0) by lia. cbn [bind].
          assert (y <> x) as Hne' by auto.
          pose proof (same_tree_sym _ _ Hst) as Hst'.
          pose proof (not_root_step y x Hy Hx ltac:(lia) Hne' Hst') as Hs.
          destruct (IH x (p y) (path ++ [y])) as (l & z & E & Hp); auto.
          { apply par_lt; auto. }
          { destruct Hst as (a & Ha1 & Ha2). exists a; split; auto.
            eapply common_step with (x := y) (y := x); eauto. lia. }
          { lia. }
          exists (y :: l), z. split.
          { rewrite E. rewrite <- app_assoc. reflexivity. }
          apply path_post_sym, path_post_step; auto; try lia.
          apply path_post_sym; auto.
        * rewrite (at_lt par x 0) by lia. cbn [bind].
          pose proof (not_root_step x y Hx Hy ltac:(lia) Hne Hst) as Hs.
          destruct (IH (p x) y (path ++ [x])) as (l & z & E & Hp); auto.
          { apply par_lt; auto. }
          { destruct Hst as (a & Ha1 & Ha2). exists a; split; auto.
            eapply common_step with (x := x) (y := y); eauto. }
          { lia. }
          exists (x :: l), z. split.
          { rewrite E. rewrite <- app_assoc. reflexivity. }
          apply path_post_step; auto; try lia.
  Qed.

  Lemma PathInTree_correct x y :
    x < n -> y < n -> same_tree par x y ->
    exists l z, PathInTree x y par hei = Ok (l ++ [z]) /\ path_post x y l z.
  Proof.
    intros. unfold PathInTree.
    destruct (path_loop_spec (h x + h y) x y []) as (l & z & E & P); auto.
    exists l, z; auto.
  Qed.

  (** Consequences used by the fill-in proof. *)
  Lemma path_closed x y l z : x < n -> y < n -> path_post x y l z ->
    In x (l ++ [z]) /\ In y (l ++ [z]) /\
    (forall e, In e l -> e < n /\ p e <> e /\ In (p e) (l ++ [z])) /\ z < n.
  Proof.
    intros Hx Hy ((A & B & C) & D & E).
    assert (z < n) as Hz by (eapply anc_lt; eauto).
    assert (forall u, anc x u \/ anc y u -> anc u z -> In u (l ++ [z])) as G.
    { intros u H1 H2. rewrite in_app_iff. destruct (Nat.eq_dec u z) as [->|]; cbn; auto.
      left. apply E; auto. }
    split; [apply G; auto; left; constructor|].
    split; [apply G; auto; right; constructor|].
    split; auto.
    intros e He. apply E in He as (H1 & H2 & H3).
    assert (e < n) as Hen by (destruct H1; eapply anc_lt; eauto).
    pose proof (anc_inv _ _ H2) as [->|H4]; [congruence|].
    split; auto. split.
    - intros Ep. destruct (par_cases e Hen) as [[E1 E2]|E1].
      + destruct (anc_height _ _ H2 Hen); [congruence|lia].
      + rewrite Ep in E1. lia.
    - apply G; auto. destruct H1 as [H1|H1]; [left|right];
        (eapply anc_trans; [exact H1|apply anc_step; constructor]).
  Qed.
End Forest.
