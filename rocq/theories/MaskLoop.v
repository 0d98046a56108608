(** The outer loop of the mask: it ends, and its blocks are the smallest ones. *)
From Coq Require Import List Arith Bool Lia Permutation.
From Verif Require Import ComponentModel Spec_Component ComponentProofs MaskModel Spec_Mask MaskProofs.
Import ListNotations.

Lemma joined_more N A B u v : (forall i j, i < N -> j < N -> A i j = true -> B i j = true) -> joined N A u v -> joined N B u v /\ u < N /\ v < N.
Proof.
  intros H. induction 1 as [Hu|v w HJ IH Hw E]; [split; [constructor; auto|auto]|]. destruct IH as (IH & Hu & Hv). split; [|auto].
  apply Step with v; auto. destruct E; [left|right]; auto.
Qed.
Lemma completion_pairs d M : (forall i j, i < d -> j < d -> M i j = M j i) ->
  exists M' q, BinaryPsdCompletion d M = Some (M', q) /\ NoDup (concat q) /\ (forall u, In u (concat q) -> u < d) /\
  (forall i j, i < d -> j < d -> (M' i j = true <-> in_block q i j)) /\
  (forall i j, i < d -> j < d -> (in_block q i j <-> (exists c, c < d /\ M i c = true) /\ joined d M i j)).
Proof.
  intros H. destruct (completion_ok d M H) as (M' & q & E & P & S & C & F). exists M', q. split; auto.
  split; [eapply Permutation_NoDup; [apply Permutation_sym; exact P|apply rows_nodup]|].
  split; [intros u Hu; eapply Permutation_in in Hu; [|exact P]; apply rows_in in Hu; tauto|].
  assert (forall i j, i < d -> j < d -> (in_block q i j <-> (exists c, c < d /\ M i c = true) /\ joined d M i j)) as HB.
  { intros i j Hi Hj. split.
    - intros (x & Hx & H1 & H2). split; [|apply (C x); auto]. apply (rows_in d M i). eapply Permutation_in; [exact P|]. apply in_concat. eauto.
    - intros [Hc Hij]. assert (In i (concat q)) as Hin by (eapply Permutation_in; [apply Permutation_sym; exact P|]; apply rows_in; auto).
      apply in_concat in Hin as (x & Hx & H1). exists x. split; auto. split; auto. apply (C x i); auto. }
  split; auto. intros i j Hi Hj. rewrite F. split; auto. intros [HM|HM]; auto. apply HB; auto. split; [eauto|]. apply Step with i; auto. constructor; auto.
Qed.

Section Any.
  Variables (m n : nat) (A : nat -> nat -> bool) (b : nat -> bool).
  Definition start (M : nat -> bool) (c : nat) : bool := existsb (fun r => b r && A r c) (seq 0 m) || M c.
  Definition row_closed (Q : nat -> Prop) : Prop := forall r k c, r < m -> k < n -> c < n -> Q k -> A r k = true -> A r c = true -> Q c.
  Lemma spread_closed Q M : row_closed Q -> (forall k, k < n -> M k = true -> Q k) -> forall k, k < n -> spread m n A M k = true -> Q k.
  Proof. intros HQ H k Hk Hs. apply spread_true in Hs as (r & l & Hr & Hl & H1 & H2 & H3). apply (HQ r l k); auto. Qed.
  Lemma any_loop fuel : forall M, (forall k, k < n -> M k = true -> touched m A k) -> n < nnz n M + fuel ->
    exists M2, closure_loop fuel m n A M (nnz n M) = Some (spread m n A M2) /\ (forall k, k < n -> M k = true -> spread m n A M2 k = true) /\
      forall Q, row_closed Q -> (forall k, k < n -> M k = true -> Q k) -> forall k, k < n -> spread m n A M2 k = true -> Q k.
  Proof.
    induction fuel as [|fuel IH]; intros M HT Hf; [pose proof (nnz_bound m n A b M M); lia|]. cbn [closure_loop].
    assert (forall k, k < n -> M k = true -> spread m n A M k = true) as HM.
    { intros k Hk H. destruct (HT k Hk H) as (r & Hr & HA). apply spread_true. exists r, k. auto. }
    pose proof (nnz_le n _ _ HM) as Hle. destruct (Nat.eqb_spec (nnz n M) (nnz n (spread m n A M))) as [E|E].
    - exists M. split; auto. split; auto. intros Q HQ H. apply spread_closed; auto.
    - destruct (IH (spread m n A M)) as (M2 & E2 & H1 & H2); [|lia|].
      { intros k Hk H. apply spread_true in H as (r & l & Hr & Hl & G1 & G2 & G3). exists r. auto. }
      exists M2. split; auto. split; auto. intros Q HQ H. apply H2; auto. apply spread_closed; auto.
  Qed.
  Lemma any_closure M : exists M2, SubspaceClosure m n A b M = Some (spread m n A M2) /\
    (forall k, k < n -> spread m n A (start M) k = true -> spread m n A M2 k = true) /\
    forall Q, row_closed Q -> (forall k, k < n -> start M k = true -> Q k) -> forall k, k < n -> spread m n A M2 k = true -> Q k.
  Proof.
    unfold SubspaceClosure. fold (start M). change (fun c => existsb (fun r => b r && A r c) (seq 0 m) || M c) with (start M).
    replace (n + 2) with (S (n + 1)) by lia. cbn [closure_loop].
    destruct (Nat.eqb_spec (nnz n (start M)) (nnz n (spread m n A (start M)))) as [E|E].
    - exists (start M). split; auto. split; auto. intros Q HQ H. apply spread_closed; auto.
    - destruct (any_loop (n + 1) (spread m n A (start M))) as (M2 & E2 & H1 & H2); [|lia|].
      { intros k Hk H. apply spread_true in H as (r & l & Hr & Hl & G1 & G2 & G3). exists r. auto. }
      exists M2. split; auto. split; auto. intros Q HQ H. apply H2; auto. apply spread_closed; auto.
  Qed.
  Lemma start_true M c : start M c = true <-> M c = true \/ exists r, r < m /\ b r = true /\ A r c = true.
  Proof.
    unfold start. rewrite orb_true_iff, existsb_exists. split.
    - intros [(r & Hr & H)|H]; [right|auto]. apply andb_true_iff in H. apply in_seq in Hr. exists r. split; [lia|auto].
    - intros [H|(r & Hr & H)]; [auto|left]. exists r. split; [apply in_seq; lia|]. apply andb_true_iff. auto.
  Qed.
End Any.

Section Mask.
  Variables (m d : nat) (A : nat -> nat -> bool) (b c : nat -> bool).
  Hypothesis symA : forall r i j, r < m -> i < d -> j < d -> A r (i + d * j) = A r (j + d * i).
  Lemma col_lt i j : i < d -> j < d -> i + d * j < d * d.
  Proof. nia. Qed.
  Lemma col_mod i j : i < d -> (i + d * j) mod d = i.
  Proof. intros H. rewrite (Nat.mul_comm d j), Nat.mod_add by lia. apply Nat.mod_small. auto. Qed.
  Lemma col_div i j : i < d -> (i + d * j) / d = j.
  Proof. intros H. rewrite (Nat.mul_comm d j), Nat.div_add by lia. rewrite Nat.div_small; auto. Qed.
  Lemma col_split k : k < d * d -> exists i j, i < d /\ j < d /\ k = i + d * j.
  Proof.
    intros H. assert (d <> 0) by (intros ->; lia). exists (k mod d), (k / d). split; [apply Nat.mod_upper_bound; auto|].
    split; [apply Nat.div_lt_upper_bound; auto|]. rewrite Nat.add_comm. apply Nat.div_mod. auto.
  Qed.
  Definition meets (k : nat) : bool := existsb (fun r => A r k) (seq 0 m).
  Lemma meets_true k : meets k = true <-> touched m A k.
  Proof.
    unfold meets, touched. rewrite existsb_exists. split; intros (r & H1 & H2); exists r; (split; [|auto]); [apply in_seq in H1|apply in_seq]; lia.
  Qed.
  Definition firm (M : nat -> bool) (i j : nat) : bool := M (i + d * j) && meets (i + d * j).
  Definition smallest (M : nat -> bool) : Prop := forall P : nat -> nat -> Prop, (forall i j, P i j -> P j i) -> (forall i j k, P i j -> P j k -> P i k) ->
    keeps m d A b c P -> forall i j, i < d -> j < d -> M (i + d * j) = true -> P i j.
  Definition inv (M : nat -> bool) : Prop :=
    (forall i j, i < d -> j < d -> c (i + d * j) = true -> M (i + d * j) = true) /\
    (forall i j, i < d -> j < d -> M (i + d * j) = true -> (exists k, k < d /\ firm M i k = true) /\ joined d (firm M) i j) /\ smallest M.
  Lemma spread_sym M i j : i < d -> j < d -> spread m (d * d) A M (i + d * j) = spread m (d * d) A M (j + d * i).
  Proof.
    intros Hi Hj. apply eq_true_iff_eq. rewrite !spread_true. split; intros (r & k & Hr & Hk & H1 & H2 & H3); exists r, k; repeat split; auto.
    - rewrite <- symA; auto.
    - rewrite symA; auto.
  Qed.
  Lemma mask_ok fuel : forall M, inv M -> d * d < nnz (d * d) M + fuel ->
    exists q, mask_loop fuel m d A b M (nnz (d * d) M) = Some q /\ NoDup (concat q) /\ (forall u, In u (concat q) -> u < d) /\ keeps m d A b c (in_block q) /\
      forall P : nat -> nat -> Prop, (forall i j, P i j -> P j i) -> (forall i j k, P i j -> P j k -> P i k) -> keeps m d A b c P ->
        forall i j, in_block q i j -> P i j.
  Proof.
    induction fuel as [|fuel IH]; intros M (I1 & I2 & I3) Hf; [pose proof (nnz_bound m (d * d) A b M M); lia|]. cbn [mask_loop].
    destruct (any_closure m (d * d) A b M) as (M2 & -> & HS & HQ). set (S := spread m (d * d) A M2) in *.
    destruct (completion_pairs d (fun i j => S (i + d * j))) as (temp & q & -> & ND & HU & HT & HB).
    { intros i j Hi Hj. apply spread_sym; auto. }
    set (M' := fun k => temp (k mod d) (k / d)).
    assert (forall i j, i < d -> j < d -> (M' (i + d * j) = true <-> in_block q i j)) as HM'.
    { intros i j Hi Hj. unfold M'. rewrite col_mod, col_div by auto. apply HT; auto. }
    assert (forall i j, i < d -> j < d -> S (i + d * j) = true -> in_block q i j) as HSB.
    { intros i j Hi Hj H. apply HB; auto. split; [eauto|]. apply Step with i; auto. constructor; auto. }
    assert (forall i j, i < d -> j < d -> firm M i j = true -> S (i + d * j) = true) as HF.
    { intros i j Hi Hj H. apply andb_true_iff in H as [H1 H2]. apply meets_true in H2 as (r & Hr & HA). apply HS; [apply col_lt; auto|].
      apply spread_true. exists r, (i + d * j). repeat split; auto; [apply col_lt; auto|]. apply start_true. auto. }
    assert (forall i j, i < d -> j < d -> M (i + d * j) = true -> in_block q i j) as HMB.
    { intros i j Hi Hj H. destruct (I2 i j Hi Hj H) as [(k & Hk & H1) H2]. apply HB; auto. split; [exists k; split; auto|].
      eapply joined_more in H2; [apply H2|]. auto. }
    assert (forall k, k < d * d -> M k = true -> M' k = true) as Hmore.
    { intros k Hk H. destruct (col_split k Hk) as (i & j & Hi & Hj & ->). apply HM'; auto. }
    assert (forall i j, in_block q i j -> i < d /\ j < d) as Hrange.
    { intros i j (x & Hx & H1 & H2). split; apply HU, in_concat; eauto. }
    assert (forall P : nat -> nat -> Prop, (forall i j, P i j -> P j i) -> (forall i j k, P i j -> P j k -> P i k) -> keeps m d A b c P ->
        forall i j, in_block q i j -> P i j) as Hmin.
    { intros P Ps Pt PK i j Hij. destruct (Hrange i j Hij) as [Hi Hj]. apply HB in Hij as [(k & Hk & Hik) HJ]; auto.
      assert (forall i j, i < d -> j < d -> S (i + d * j) = true -> P i j) as HP.
      { intros u v Hu Hv Huv. assert (P ((u + d * v) mod d) ((u + d * v) / d)) as G; [|rewrite col_mod, col_div in G by auto; exact G].
        apply (HQ (fun k => P (k mod d) (k / d))) with (k := u + d * v); [| |apply col_lt; auto|exact Huv].
        - intros r x y Hr Hx Hy H1 H2 H3. destruct (col_split x Hx) as (x1 & x2 & Hx1 & Hx2 & ->), (col_split y Hy) as (y1 & y2 & Hy1 & Hy2 & ->).
          rewrite col_mod, col_div in * by auto. destruct PK as (_ & _ & PK). apply (PK r y1 y2 x1 x2); auto.
        - intros x Hx H. destruct (col_split x Hx) as (x1 & x2 & Hx1 & Hx2 & ->). rewrite col_mod, col_div by auto.
          apply start_true in H as [H|(r & Hr & H1 & H2)]; [apply I3; auto|]. destruct PK as (_ & PK & _). apply (PK r); auto. }
      assert (P i i) as Pii by (apply Pt with k; [|apply Ps]; apply HP; auto).
      assert (forall v, joined d (fun i j => S (i + d * j)) i v -> v < d /\ P i v) as G.
      { induction 1 as [_|v w HJ' IHJ Hw E]; [auto|]. destruct IHJ as [Hv IHJ]. split; auto. apply Pt with v; auto. destruct E; [|apply Ps]; apply HP; auto. }
      apply G. auto. }
    destruct (Nat.eqb_spec (nnz (d * d) M) (nnz (d * d) M')) as [E|E].
    - exists q. split; auto. split; auto. split; auto. split; [|auto]. pose proof (nnz_same m (d * d) A b M _ _ Hmore E) as Hsame.
      split; [|split].
      + intros i j Hi Hj H. apply HMB; auto.
      + intros r i j Hr Hi Hj H1 H2. apply HSB; auto. apply HS; [apply col_lt; auto|]. apply spread_true. exists r, (i + d * j).
        repeat split; auto; [apply col_lt; auto|]. apply start_true. right. eauto.
      + intros r i j k l Hr Hi Hj Hk Hl HK H1 H2. apply HSB; auto. apply HS; [apply col_lt; auto|]. apply spread_true. exists r, (k + d * l).
        repeat split; auto; [apply col_lt; auto|]. apply start_true. left. apply Hsame; [apply col_lt; auto|]. apply HM'; auto.
    - apply IH; [|pose proof (nnz_le (d * d) _ _ Hmore); lia]. split; [|split].
      + intros i j Hi Hj H. apply Hmore; [apply col_lt; auto|]. auto.
      + assert (forall i j, i < d -> j < d -> S (i + d * j) = true -> firm M' i j = true) as HSF.
        { intros i j Hi Hj H. apply andb_true_iff. split; [apply HM'; auto|]. apply meets_true. apply spread_true in H as (r & k & Hr & Hk & _ & _ & H). exists r. auto. }
        intros i j Hi Hj H. apply HM' in H; auto. apply HB in H as [(k & Hk & H1) H2]; auto. split; [exists k; split; auto|].
        eapply joined_more in H2; [apply H2|]. auto.
      + intros P Ps Pt PK i j Hi Hj H. apply Hmin; auto. apply HM'; auto.
  Qed.
  Lemma build_ok : (forall k, k < d * d -> c k = true -> touched m A k) ->
    exists q, BuildMask m d A b c = Some q /\ NoDup (concat q) /\ (forall u, In u (concat q) -> u < d) /\ keeps m d A b c (in_block q) /\
      forall P : nat -> nat -> Prop, (forall i j, P i j -> P j i) -> (forall i j k, P i j -> P j k -> P i k) -> keeps m d A b c P ->
        forall i j, in_block q i j -> P i j.
  Proof.
    intros HT. apply mask_ok; [|lia]. split; [auto|split].
    - intros i j Hi Hj H. assert (firm c i j = true) as HF by (apply andb_true_iff; split; auto; apply meets_true, HT; auto; apply col_lt; auto).
      split; [eauto|]. apply Step with i; auto. constructor; auto.
    - intros P _ _ (PK & _) i j Hi Hj H. apply PK; auto.
  Qed.
End Mask.
