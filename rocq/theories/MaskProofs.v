(** The closure loop computes the reached columns if all given ones are touched. *)
From Coq Require Import List Arith Bool Lia.
From Verif Require Import ComponentModel MaskModel Spec_Mask.
Import ListNotations.

Section Closure.
  Variables (m n : nat) (A : nat -> nat -> bool) (b M0 : nat -> bool).
  Lemma spread_true M c : spread m n A M c = true <-> exists r k, r < m /\ k < n /\ A r k = true /\ M k = true /\ A r c = true.
  Proof.
    unfold spread. rewrite existsb_exists. split.
    - intros (r & Hr & H). apply andb_true_iff in H as [H Hc]. apply existsb_exists in H as (k & Hk & H). apply andb_true_iff in H as [H1 H2].
      apply in_seq in Hr, Hk. exists r, k. repeat split; auto; lia.
    - intros (r & k & Hr & Hk & H1 & H2 & H3). exists r. split; [apply in_seq; lia|]. apply andb_true_iff. split; auto. apply existsb_exists. exists k.
      split; [apply in_seq; lia|]. rewrite H1, H2. auto.
  Qed.
  Lemma nnz_le M M' : (forall c, c < n -> M c = true -> M' c = true) -> nnz n M <= nnz n M'.
  Proof.
    intros H. unfold nnz. apply NoDup_incl_length; [apply NoDup_filter, seq_NoDup|]. intros c Hc. apply filter_In in Hc as [H1 H2]. apply filter_In. split; auto.
    apply H; auto. apply in_seq in H1. lia.
  Qed.
  Lemma nnz_same M M' : (forall c, c < n -> M c = true -> M' c = true) -> nnz n M = nnz n M' -> forall c, c < n -> M' c = true -> M c = true.
  Proof.
    intros H E c Hc Hm. unfold nnz in E. assert (incl (filter M' (seq 0 n)) (filter M (seq 0 n))) as Hi.
    { apply NoDup_length_incl; [apply NoDup_filter, seq_NoDup|lia|]. intros x Hx. apply filter_In in Hx as [H1 H2]. apply filter_In. split; auto. apply H; auto. apply in_seq in H1. lia. }
    assert (In c (filter M (seq 0 n))) as Hin by (apply Hi, filter_In; split; auto; apply in_seq; lia). apply filter_In in Hin. tauto.
  Qed.
  Lemma nnz_bound M : nnz n M <= n.
  Proof.
    unfold nnz. rewrite <- (seq_length n 0) at 2. apply NoDup_incl_length; [apply NoDup_filter, seq_NoDup|]. intros c H. apply filter_In in H. tauto.
  Qed.

  Definition good (M : nat -> bool) : Prop :=
    (forall c, c < n -> M c = true -> reached m n A b M0 c) /\
    (forall c, c < n -> M c = true -> touched m A c) /\
    (forall c, c < n -> M0 c = true -> M c = true) /\ (forall r c, r < m -> c < n -> b r = true -> A r c = true -> M c = true).
  Lemma spread_more M : good M -> forall c, c < n -> M c = true -> spread m n A M c = true.
  Proof. intros G c Hc H. destruct G as (_ & G & _). destruct (G c Hc H) as (r & Hr & HA). apply spread_true. exists r, c. auto. Qed.
  Lemma spread_good M : good M -> good (spread m n A M).
  Proof.
    intros G. pose proof (spread_more M G) as HM. destruct G as (G1 & G2 & G3 & G4). split; [|split; [|split]].
    - intros c Hc H. apply spread_true in H as (r & k & Hr & Hk & H1 & H2 & H3). apply Through with r k; auto.
    - intros c Hc H. apply spread_true in H as (r & k & Hr & Hk & H1 & H2 & H3). exists r. auto.
    - auto.
    - intros r c Hr Hc H1 H2. apply HM; eauto.
  Qed.
  Lemma loop_closure fuel : forall M, good M -> n < nnz n M + fuel ->
    exists M', closure_loop fuel m n A M (nnz n M) = Some M' /\ forall c, c < n -> (M' c = true <-> reached m n A b M0 c).
  Proof.
    induction fuel as [|fuel IH]; intros M G Hf; [pose proof (nnz_bound M); lia|]. cbn [closure_loop].
    pose proof (spread_more M G) as HM. pose proof (spread_good M G) as G'. pose proof (nnz_le _ _ HM) as Hle.
    destruct (Nat.eqb_spec (nnz n M) (nnz n (spread m n A M))) as [E|E]; [|apply IH; auto; lia].
    eexists. split; [reflexivity|]. intros c Hc. split; [apply G'; auto|]. pose proof (nnz_same _ _ HM E) as HS.
    intros HR. induction HR as [c _ H|r c Hr _ H1 H2|r k c HR IHR Hr _ H1 H2].
    - apply G'; auto.
    - destruct G' as (_ & _ & _ & G4). apply (G4 r); auto.
    - assert (k < n) as Hk by (destruct HR; auto). apply spread_true. exists r, k. repeat split; auto.
  Qed.
  Lemma closure_ok : (forall c, c < n -> M0 c = true -> touched m A c) ->
    exists M', SubspaceClosure m n A b M0 = Some M' /\ forall c, c < n -> (M' c = true <-> reached m n A b M0 c).
  Proof.
    intros HT. unfold SubspaceClosure. apply loop_closure; [|lia]. 
    assert (forall c, existsb (fun r => b r && A r c) (seq 0 m) = true <-> exists r, r < m /\ b r = true /\ A r c = true) as HE.
    { intros c. rewrite existsb_exists. split.
      - intros (r & Hr & H). apply andb_true_iff in H. apply in_seq in Hr. exists r. split; [lia|auto].
      - intros (r & Hr & H). exists r. split; [apply in_seq; lia|]. apply andb_true_iff. auto. }
    split; [|split; [|split]].
    - intros c Hc H. apply orb_true_iff in H as [H|H]; [|apply Given; auto]. apply HE in H as (r & Hr & H1 & H2). apply Forced with r; auto.
    - intros c Hc H. apply orb_true_iff in H as [H|H]; [|auto]. apply HE in H as (r & Hr & H1 & H2). exists r. auto.
    - intros c Hc H. rewrite H. apply orb_true_r.
    - intros r c Hr Hc H1 H2. apply orb_true_iff. left. apply HE. eauto.
  Qed.
End Closure.
