(** Property C79: splitting of patterns into blocks by the MATLAB interface. *)
From Coq Require Import List Arith Bool Lia Permutation.
From Verif Require Import ComponentModel Spec_Component ComponentProofs.
Import ListNotations.

(** The search ends; the components list every node once, are sorted by size, not
    empty, and two nodes are in the same one exactly if a path joins them.  The pattern
    need not be symmetric. *)
Theorem C79_components : forall N A, exists ms, conncomp N A = Some ms /\ Permutation (concat ms) (seq 0 N) /\ ascending ms /\
  (forall m, In m ms -> m <> []) /\ forall m u v, In m ms -> In u m -> (In v m <-> joined N A u v).
Proof. exact conncomp_ok. Qed.

(** For a symmetric pattern the blocks are the components of the rows with an entry. *)
Theorem C79_blocks : forall d M, (forall i j, i < d -> j < d -> M i j = M j i) ->
  exists M' q, BinaryPsdCompletion d M = Some (M', q) /\ NoDup (concat q) /\ ascending q /\
  (forall u, In u (concat q) <-> u < d /\ exists c, c < d /\ M u c = true) /\
  (forall m u v, In m q -> In u m -> (In v m <-> joined d M u v)).
Proof.
  intros d M H. destruct (completion_ok d M H) as (M' & q & E & P & S & C & _). exists M', q. split; auto. split; [|split; [auto|split; [|auto]]].
  - eapply Permutation_NoDup; [apply Permutation_sym; exact P|]. apply rows_nodup.
  - intros u. rewrite <- (rows_in d M u). split; intros Hu; (eapply Permutation_in; [|exact Hu]); [exact P|apply Permutation_sym; exact P].
Qed.

(** The completed pattern is the smallest one that is full on blocks: its entries are
    the pairs joined by a path that starts at a row with an entry. *)
Theorem C79_pattern : forall d M, (forall i j, i < d -> j < d -> M i j = M j i) ->
  exists M' q, BinaryPsdCompletion d M = Some (M', q) /\
  forall i j, i < d -> j < d -> (M' i j = true <-> (exists c, c < d /\ M i c = true) /\ joined d M i j).
Proof.
  intros d M H. destruct (completion_ok d M H) as (M' & q & E & P & S & C & F). exists M', q. split; auto. intros i j Hi Hj. rewrite F. split.
  - intros [HM|(m & Hm & H1 & H2)].
    + split; [eauto|]. apply Step with i; auto. constructor; auto.
    + split; [|apply (C m); auto]. apply (rows_in d M i). eapply Permutation_in; [exact P|]. apply in_concat. eauto.
  - intros [Hc Hij]. right. assert (In i (concat q)) as Hin by (eapply Permutation_in; [apply Permutation_sym; exact P|]; apply rows_in; auto).
    apply in_concat in Hin as (m & Hm & H1). exists m. split; auto. split; auto. apply (C m i); auto.
Qed.

(** Three joined indices, one without entries, one with a diagonal entry only. *)
Definition sample (i j : nat) : bool :=
  match i, j with 0, 2 | 2, 0 | 2, 3 | 3, 2 | 4, 4 => true | _, _ => false end.
Example C79_example : (forall i j, i < 5 -> j < 5 -> sample i j = sample j i) /\ conncomp 5 sample = Some [[1]; [4]; [0; 2; 3]] /\
  exists M', BinaryPsdCompletion 5 sample = Some (M', [[4]; [0; 2; 3]]) /\ M' 0 3 = true /\ M' 1 1 = false /\ M' 0 4 = false.
Proof.
  split; [|split; [reflexivity|eexists; split; [reflexivity|repeat split]]].
  intros i j Hi Hj. destruct i as [|[|[|[|[|]]]]]; try lia; destruct j as [|[|[|[|[|]]]]]; try lia; reflexivity.
Qed.

(** Without symmetry, an entry in a row and an otherwise empty column is in no block. *)
Theorem C79_asymmetric_refuted : exists d M M' q, BinaryPsdCompletion d M = Some (M', q) /\ M 0 1 = true /\ joined d M 0 1 /\ q = [[0]].
Proof.
  exists 2, (fun i j => (i =? 0) && (j =? 1)). eexists _, _. split; [reflexivity|]. split; [reflexivity|]. split; [|reflexivity].
  apply Step with 0; [constructor; lia|lia|left; reflexivity].
Qed.
Print Assumptions C79_components.
Print Assumptions C79_blocks.
Print Assumptions C79_pattern.
Print Assumptions C79_asymmetric_refuted.
