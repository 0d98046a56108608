(** Positive definite matrices over the reals, complex numbers and quaternions:
    linear systems are solvable, and there is a factorization [W = F F^*]. *)
From Coq Require Import List Arith Reals Lra Lia Bool FunctionalExtensionality Classical.
From Verif Require Import Base BaseFacts DenseModel RSum Spec_Hyper HyperFacts JordanInterior.
Import ListNotations.
Open Scope R_scope.

Lemma self_conjugate : forall k (x : el (cd k)), sconj x = x -> x = sscal (sre x) s1.
Proof.
  induction k as [|k IH]; intros x H.
  - symmetry. exact (Rmult_1_r x).
  - pose proof (laws_cd k) as L. destruct x as [a b]. cbn [cd double smul sconj sscal sre s1 fst snd] in *. injection H as Ha Hb. f_equal; auto.
    apply (co_sep _ _ L). intros i. coords L. assert (coords_of k i (sscal (-1) b) = coords_of k i b) as E by (rewrite Hb; auto).
    rewrite (co_scal _ _ L) in E. lra.
Qed.

Section Solve.
  Variable k : nat.
  Hypothesis Hk : (k <= 2)%nat.
  Notation A := (cd k).
  Let L : laws A (coords_of k) := laws_cd k.
  Let HA : associative A := assoc_cd k Hk.
  Notation M := (amat A).
  Ltac slin := apply (co_sep _ _ L); let i := fresh "i" in intros i; coords L; try ring.

  Definition ext (d : nat) (z : nat -> el A) (x : el A) : nat -> el A := fun r => if (r <? d)%nat then z r else x.
  Lemma ext_lt d z x r : (r < d)%nat -> ext d z x r = z r.
  Proof. intros H. unfold ext. apply Nat.ltb_lt in H. rewrite H. auto. Qed.
  Lemma ext_eq d z x : ext d z x d = x.
  Proof. unfold ext. rewrite Nat.ltb_irrefl. auto. Qed.
  Lemma mv_ext d (W : M) z x r : mv A (S d) W (ext d z x) r = sadd (mv A d W z r) (smul (W r d) x).
  Proof. unfold mv. cbn [ssum]. rewrite ext_eq. f_equal. apply ssum_ext. intros t Ht. rewrite ext_lt by auto. auto. Qed.
  Lemma ip_ext d z x v : ip A (S d) (ext d z x) v = ip A d z v + sre (smul (sconj x) (v d)).
  Proof. unfold ip. cbn [ssum]. rewrite ext_eq, (re_add _ _ L). do 2 f_equal. apply ssum_ext. intros t Ht. rewrite ext_lt by auto. auto. Qed.
  Lemma ip_same d z v v' : (forall r, (r < d)%nat -> v r = v' r) -> ip A d z v = ip A d z v'.
  Proof. intros H. unfold ip. f_equal. apply ssum_ext. intros t Ht. rewrite H by auto. auto. Qed.

  Lemma posdef_minor d (W : M) : posdef (S d) W -> posdef d W.
  Proof.
    intros [H1 H2]. split.
    - intros r c Hr Hc. apply H1; lia.
    - intros z (r & Hr & Hn). assert (form (S d) W (ext d z s0) = form d W z) as <-.
      { rewrite !(form_ip _ _ L), ip_ext. rewrite (conj_0 _ _ L), (mul_0_l _ _ L), (re_0 _ _ L), Rplus_0_r. apply ip_same. intros t Ht.
        rewrite mv_ext, (mul_0_r _ _ L). apply (add_0_r _ _ L). }
      apply H2. exists r. rewrite ext_lt by auto. split; auto.
  Qed.

  (** The pivot [w - b^* u] with [W' u = b] is a positive real number. *)
  Definition pivot (d : nat) (W : M) (u : nat -> el A) : el A := sadd (W d d) (sscal (-1) (mv A d W u d)).
  Lemma pivot_ok d (W : M) u : posdef (S d) W -> (forall r, (r < d)%nat -> mv A d W u r = W r d) ->
    pivot d W u = sscal (sre (pivot d W u)) s1 /\ 0 < sre (pivot d W u) /\ mv A d W u d = ssum d (fun r => smul (sconj (u r)) (mv A d W u r)).
  Proof.
    intros [H1 H2] Hu.
    assert (forall r c, (r <= d)%nat -> (c <= d)%nat -> sconj (W c r) = W r c) as HH by (intros r c Hr Hc; apply (H1 r c); lia).
    set (Q := ssum d (fun r => smul (sconj (u r)) (mv A d W u r))).
    assert (sconj Q = Q) as HQ.
    { unfold Q, mv. rewrite (ssum_conj _ _ L). erewrite (ssum_ext _ d (fun r => smul (sconj (u r)) _)) by (intros; apply (ssum_mul_l _ _ L)).
      rewrite (ssum_swap _ _ L). apply ssum_ext. intros r Hr.
      rewrite (conj_mul _ _ L), (conj_conj _ _ L), (ssum_conj _ _ L), (ssum_mul_r _ _ L). apply ssum_ext. intros c Hc.
      rewrite (conj_mul _ _ L), (HH c r) by lia. apply HA. }
    assert (mv A d W u d = Q) as HM.
    { rewrite <- HQ. unfold Q. rewrite (ssum_conj _ _ L). unfold mv at 1. apply ssum_ext. intros r Hr.
      rewrite (conj_mul _ _ L), (conj_conj _ _ L), Hu by auto. rewrite (HH d r) by lia. auto. }
    assert (sconj (pivot d W u) = pivot d W u) as HS.
    { unfold pivot. rewrite (conj_add _ _ L), (conj_scal _ _ L), HM, HQ, HH by lia. auto. }
    split; [apply self_conjugate; auto|]. split; auto.
    specialize (H2 (ext d (fun r => sscal (-1) (u r)) s1)).
    assert (form (S d) W (ext d (fun r => sscal (-1) (u r)) s1) = sre (pivot d W u)) as <-.
    2:{ apply H2. exists d. rewrite ext_eq. split; [lia|]. intros E. pose proof (re_1 _ _ L) as R1. rewrite E, (re_0 _ _ L) in R1. lra. }
    rewrite (form_ip _ _ L), ip_ext.
    assert (forall r, mv A (S d) W (ext d (fun r0 => sscal (-1) (u r0)) s1) r = sadd (sscal (-1) (mv A d W u r)) (W r d)) as E.
    { intros r. rewrite mv_ext, (mul_1_r _ _ L). f_equal. unfold mv. rewrite <- (ssum_scal _ _ L). apply ssum_ext. intros. apply (mul_scal_r _ _ L). }
    rewrite (ip_same d _ _ (fun _ => s0)).
    - rewrite E, (conj_1 _ _ L), (mul_1_l _ _ L). unfold ip. rewrite (ssum_0 _ _ L) by (intros; apply (mul_0_r _ _ L)). rewrite (re_0 _ _ L), Rplus_0_l.
      f_equal. unfold pivot. slin.
    - intros r Hr. rewrite E, Hu by auto. slin.
  Qed.

  Lemma mv_sub d (W : M) p u x r : mv A d W (fun t => sadd (p t) (sscal (-1) (smul (u t) x))) r = sadd (mv A d W p r) (sscal (-1) (smul (mv A d W u r) x)).
  Proof.
    unfold mv. rewrite (ssum_mul_r _ _ L), <- (ssum_scal _ _ L), <- (ssum_add _ _ L). apply ssum_ext. intros t Ht.
    rewrite (mul_add_r _ _ L), (mul_scal_r _ _ L), HA. auto.
  Qed.

  Lemma posdef_solve : forall d (W : M), posdef d W -> forall v, exists z, forall r, (r < d)%nat -> mv A d W z r = v r.
  Proof.
    induction d as [|d IH]; intros W HP v; [exists v; intros; lia|].
    pose proof (posdef_minor d W HP) as HP'. destruct (IH W HP' (fun r => W r d)) as (u & Hu). destruct (IH W HP' v) as (p & Hp).
    destruct (pivot_ok d W u HP Hu) as (Es & Hs & _). set (s := sre (pivot d W u)) in *.
    set (x := sscal (/ s) (sadd (v d) (sscal (-1) (mv A d W p d)))).
    exists (ext d (fun t => sadd (p t) (sscal (-1) (smul (u t) x))) x). intros r Hr. rewrite mv_ext, mv_sub.
    destruct (Nat.eq_dec r d) as [->|Hn].
    - assert (sadd (sadd (mv A d W p d) (sscal (-1) (smul (mv A d W u d) x))) (smul (W d d) x) = sadd (mv A d W p d) (smul (pivot d W u) x)) as ->.
      { unfold pivot. rewrite (mul_add_l _ _ L), (mul_scal_l _ _ L). slin. }
      rewrite Es, (mul_scal_l _ _ L), (mul_1_l _ _ L). unfold x. apply (co_sep _ _ L). intros i. coords L. field. lra.
    - rewrite Hu, Hp by lia. slin.
  Qed.

  (** Factorization. *)
  Lemma posdef_factor : forall d (W : M), posdef d W -> exists F, clipped A d F /\ same_matrix d W (mmul d F (mconj F)).
  Proof.
    assert (forall d (W : M), posdef d W -> exists F, same_matrix d W (mmul d F (mconj F)) /\ forall r c, (d <= c)%nat -> F r c = s0) as G.
    { induction d as [|d IH]; intros W HP. { exists (fun _ _ => s0). split; auto. intros r c Hr. lia. }
      pose proof (posdef_minor d W HP) as HP'. destruct (IH W HP') as (F & HF & HZ). destruct (posdef_solve d W HP' (fun r => W r d)) as (u & Hu).
      destruct (pivot_ok d W u HP Hu) as (Es & Hs & HQ). set (s := sre (pivot d W u)) in *.
      set (g := fun c => sconj (mv A d (mconj F) u c)).
      exists (fun r c => if (r <? d)%nat then F r c else if (c <? d)%nat then g c else if (c =? d)%nat then sscal (sqrt s) s1 else s0).
      assert (forall r t, (r < d)%nat -> ssum t (fun c => smul (F r c) (sconj (g c))) = ssum t (fun c => smul (F r c) (mv A d (mconj F) u c))) as EG.
      { intros r t Hr. apply ssum_ext. intros c Hc. unfold g. rewrite (conj_conj _ _ L). auto. }
      assert (forall r, (r < d)%nat -> mv A d W u r = ssum d (fun c => smul (F r c) (mv A d (mconj F) u c))) as EW.
      { intros r Hr. change (ssum d (fun c => smul (F r c) (mv A d (mconj F) u c))) with (mv A d F (mv A d (mconj F) u) r).
        rewrite <- (mv_mul _ _ L HA). unfold mv. apply ssum_ext. intros c Hc. rewrite HF by auto. auto. }
      assert (ssum d (fun c => smul (g c) (sconj (g c))) = mv A d W u d) as EQ.
      { rewrite HQ. transitivity (ssum d (fun c => smul (sconj (mv A d (mconj F) u c)) (mv A d (mconj F) u c))).
        { apply ssum_ext. intros c Hc. unfold g. rewrite (conj_conj _ _ L). auto. }
        erewrite (ssum_ext _ d (fun r => smul (sconj (u r)) (mv A d W u r))) by (intros r Hr; rewrite EW by auto; apply (ssum_mul_l _ _ L)).
        rewrite (ssum_swap _ _ L). apply ssum_ext. intros c Hc. unfold mv at 1. rewrite (ssum_conj _ _ L), (ssum_mul_r _ _ L). apply ssum_ext. intros r Hr.
        unfold mconj at 1. rewrite (conj_mul _ _ L), (conj_conj _ _ L). apply HA. }
      assert (forall r c, (r <= d)%nat -> (c <= d)%nat -> sconj (W c r) = W r c) as HH by (intros r c Hr Hc; apply (proj1 HP r c); lia).
      split.
      - assert (forall r, (r < d)%nat -> sadd (ssum d (fun t => smul (F r t) (sconj (g t)))) (smul (F r d) (sconj (sscal (sqrt s) s1))) = W r d) as EB.
        { intros r Hr. rewrite EG, <- EW, Hu, HZ, (mul_0_l _ _ L), (add_0_r _ _ L) by auto. auto. }
        intros r c Hr Hc. unfold mmul, mconj. cbn [ssum].
        destruct (Nat.ltb_spec r d) as [Hr'|Hr']; destruct (Nat.ltb_spec c d) as [Hc'|Hc'].
        + rewrite (HZ r d), (mul_0_l _ _ L), (add_0_r _ _ L) by auto. rewrite HF by auto. apply ssum_ext. intros t Ht. auto.
        + assert (c = d) as -> by lia. rewrite Nat.ltb_irrefl, Nat.eqb_refl. rewrite <- (EB r Hr') at 1. f_equal.
          apply ssum_ext. intros t Ht. apply Nat.ltb_lt in Ht. rewrite Ht. auto.
        + assert (r = d) as -> by lia. rewrite Nat.ltb_irrefl, Nat.eqb_refl. rewrite <- (HH d c), <- (EB c Hc') by lia.
          rewrite (conj_add _ _ L), (ssum_conj _ _ L), (conj_mul _ _ L), (conj_conj _ _ L). f_equal.
          apply ssum_ext. intros t Ht. rewrite (conj_mul _ _ L), (conj_conj _ _ L). apply Nat.ltb_lt in Ht. rewrite Ht. auto.
        + assert (r = d) as -> by lia. assert (c = d) as -> by lia. rewrite Nat.ltb_irrefl, Nat.eqb_refl.
          rewrite (ssum_ext _ d _ (fun t => smul (g t) (sconj (g t)))) by (intros t Ht; apply Nat.ltb_lt in Ht; rewrite Ht; auto).
          rewrite EQ, (conj_scal _ _ L), (conj_1 _ _ L), (mul_scal_l _ _ L), (mul_scal_r _ _ L), (mul_1_l _ _ L).
          assert (sscal (sqrt s) (sscal (sqrt s) s1) = pivot d W u) as ->.
          { rewrite Es. apply (co_sep _ _ L). intros i. coords L. rewrite <- Rmult_assoc, sqrt_sqrt by lra. auto. }
          unfold pivot. slin.
      - intros r c Hc. destruct (Nat.ltb_spec r d); [apply HZ; lia|]. destruct (Nat.ltb_spec c d); [lia|]. destruct (Nat.eqb_spec c d); [lia|]. auto. }
    intros d W HP. destruct (G d W HP) as (F & HF & HZ). exists (clip A d F). split; [apply clip_clip|].
    apply clip_same. apply clip_same in HF. rewrite HF, !(clip_mul _ _ L), !(clip_conj _ _ L), !clip_clip. auto.
  Qed.
End Solve.
