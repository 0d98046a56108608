(** Gram-Schmidt orthogonalization over an associative algebra with conjugation. *)
From Coq Require Import List Arith Reals Lra Lia Bool.
From Verif Require Import Base DenseModel RSum Spec_Hyper HyperFacts.
Import ListNotations.
Open Scope R_scope.

Lemma self_conjugate k : forall x : el (cd k), sconj x = x -> x = sscal (sre x) s1.
Proof.
  induction k as [|k IH]; intros x H.
  - cbn in *. symmetry. apply Rmult_1_r.
  - destruct x as [a b]. cbn in H. injection H as Ha Hb. cbn. rewrite <- (IH a Ha). f_equal.
    pose proof (laws_cd k) as L. apply (co_sep _ _ L). intros i. rewrite (co_scal _ _ L), (co_0 _ _ L).
    assert (coords_of k i (sscal (-1) b) = coords_of k i b) as E by (rewrite Hb; auto). rewrite (co_scal _ _ L) in E. lra.
Qed.

Section Algebra.
  Variable A : star.
  Variable co : nat -> el A -> R.
  Hypothesis L : laws A co.
  Hypothesis HA : associative A.
  Hypothesis HR : forall x : el A, sconj x = x -> x = sscal (sre x) s1.
  Variables rows cols : nat.

  Definition cdot (u v : nat -> el A) : el A := ssum rows (fun r => smul (sconj (u r)) (v r)).
  Lemma cdot_add u v w : cdot u (fun r => sadd (v r) (w r)) = sadd (cdot u v) (cdot u w).
  Proof. unfold cdot. rewrite <- (ssum_add A co L). apply (ssum_ext A). intros. apply (mul_add_r _ _ L). Qed.
  Lemma cdot_mul_r u v s : cdot u (fun r => smul (v r) s) = smul (cdot u v) s.
  Proof. unfold cdot. rewrite (ssum_mul_r A co L). apply (ssum_ext A). intros. symmetry. apply HA. Qed.
  Lemma cdot_conj u v : sconj (cdot u v) = cdot v u.
  Proof. unfold cdot. rewrite (ssum_conj A co L). apply (ssum_ext A). intros. rewrite (conj_mul _ _ L), (conj_conj _ _ L). auto. Qed.
  Lemma cdot_scal_r u v s : cdot u (fun r => sscal s (v r)) = sscal s (cdot u v).
  Proof. unfold cdot. rewrite <- (ssum_scal A co L). apply (ssum_ext A). intros. apply (mul_scal_r _ _ L). Qed.
  Lemma cdot_scal_l u v s : cdot (fun r => sscal s (u r)) v = sscal s (cdot u v).
  Proof. unfold cdot. rewrite <- (ssum_scal A co L). apply (ssum_ext A). intros. rewrite (conj_scal _ _ L). apply (mul_scal_l _ _ L). Qed.
  Lemma cdot_ext u v u' v' : (forall r, (r < rows)%nat -> u r = u' r) -> (forall r, (r < rows)%nat -> v r = v' r) -> cdot u v = cdot u' v'.
  Proof. intros Hu Hv. unfold cdot. apply (ssum_ext A). intros r Hr. rewrite Hu, Hv by auto. auto. Qed.
  Lemma cdot_self u : cdot u u = sscal (sre (cdot u u)) s1.
  Proof. apply HR. apply cdot_conj. Qed.
  Lemma cdot_pos u : (exists r, (r < rows)%nat /\ u r <> s0) -> 0 < sre (cdot u u).
  Proof. intros H. apply (HyperFacts.ip_pos A co L). auto. Qed.
  Lemma cdot_zero u v : (forall r, (r < rows)%nat -> v r = s0) -> cdot u v = s0.
  Proof. intros H. unfold cdot. apply (ssum_0 A co L). intros r Hr. rewrite H by auto. apply (mul_0_r A co L). Qed.

  (** The state after the columns before [i] have been treated. *)
  Record gs (Q0 : nat -> nat -> el A) (i : nat) (C : nat -> nat -> el A) : Prop := {
    gs_ortho : forall a b, (a < i)%nat -> (b < cols)%nat -> cdot (fun r => C r a) (fun r => C r b) = if (a =? b)%nat then s1 else s0;
    gs_fwd : exists R : nat -> nat -> el A,
      (forall c, (c < cols)%nat -> forall r, (r < rows)%nat -> Q0 r c = ssum (S c) (fun t => smul (C r t) (R t c))) /\
      (forall c, (c < i)%nat -> exists rho, 0 < rho /\ R c c = sscal rho s1) /\
      (forall c, (i <= c)%nat -> R c c = s1) /\ (forall t c, (i <= t < c)%nat -> R t c = s0);
    gs_bwd : exists X : nat -> nat -> el A,
      (forall c, (c < cols)%nat -> forall r, (r < rows)%nat -> C r c = ssum (S c) (fun t => smul (Q0 r t) (X t c))) /\
      (forall c, (c < cols)%nat -> exists rho, 0 < rho /\ X c c = sscal rho s1) }.

  Lemma gs_init Q0 : gs Q0 0 Q0.
  Proof.
    assert (forall c r, Q0 r c = ssum (S c) (fun t => smul (Q0 r t) (if (t =? c)%nat then s1 else s0))) as E.
    { intros c r. rewrite (ssum_single A co L (S c) c) by first [lia|intros t Ht Hn; destruct (Nat.eqb_spec t c); [contradiction|apply (mul_0_r A co L)]].
      rewrite Nat.eqb_refl, (mul_1_r _ _ L). auto. }
    constructor.
    - intros; lia.
    - exists (fun t c => if (t =? c)%nat then s1 else s0). split; [auto|]. split; [intros; lia|]. split; intros.
      + rewrite Nat.eqb_refl. auto.
      + destruct (Nat.eqb_spec t c); [lia|auto].
    - exists (fun t c => if (t =? c)%nat then s1 else s0). split; [auto|]. intros c Hc. exists 1. split; [lra|]. rewrite Nat.eqb_refl.
      apply (co_sep _ _ L). intros. rewrite (co_scal _ _ L). ring.
  Qed.

  (** One step: column [i] is divided by its norm [nu], its component is removed from
      the later ones. *)
  Definition gs_step (i : nat) (nu : R) (C : nat -> nat -> el A) : nat -> nat -> el A :=
    let q := fun r => sscal (/ nu) (C r i) in
    fun r c => if (c =? i)%nat then q r
               else if ((i <? c) && (c <? cols))%nat%bool then sadd (C r c) (smul (q r) (sscal (-1) (cdot q (fun r => C r c))))
               else C r c.

  Lemma gs_step_ok Q0 i C nu : (i < cols)%nat -> 0 < nu -> nu * nu = sre (cdot (fun r => C r i) (fun r => C r i)) ->
    gs Q0 i C -> gs Q0 (S i) (gs_step i nu C).
  Proof.
    intros Hi Hnu Enu [HO (R & R1 & R2 & R3 & R4) (X & X1 & X2)].
    set (q := fun r => sscal (/ nu) (C r i)). set (m := fun c => cdot q (fun r => C r c)).
    assert (forall r, gs_step i nu C r i = q r) as Ei by (intros r; unfold gs_step; rewrite Nat.eqb_refl; auto).
    assert (forall r c, (c < i)%nat -> gs_step i nu C r c = C r c) as Elt.
    { intros r c Hc. unfold gs_step. destruct (Nat.eqb_spec c i); [lia|]. destruct (Nat.ltb_spec i c); [lia|auto]. }
    assert (forall r c, (i < c < cols)%nat -> gs_step i nu C r c = sadd (C r c) (smul (q r) (sscal (-1) (m c)))) as Egt.
    { intros r c Hc. unfold gs_step. destruct (Nat.eqb_spec c i); [lia|]. destruct (Nat.ltb_spec i c); [|lia]. destruct (Nat.ltb_spec c cols); [|lia]. auto. }
    set (C' := gs_step i nu C) in *.
    assert (cdot q q = s1) as Hqq.
    { unfold q. rewrite cdot_scal_l, cdot_scal_r, cdot_self, <- Enu. apply (co_sep _ _ L). intros. rewrite !(co_scal _ _ L). field. lra. }
    assert (forall u : nat -> el A, cdot u (fun r => C' r i) = sscal (/ nu) (cdot u (fun r => C r i))) as Hci.
    { intros u. rewrite <- cdot_scal_r. apply cdot_ext; auto. intros; rewrite Ei; auto. }
    assert (forall u c, (i < c < cols)%nat -> cdot u (fun r => C' r c) = sadd (cdot u (fun r => C r c)) (smul (cdot u q) (sscal (-1) (m c)))) as Hcg.
    { intros u c Hc. rewrite <- cdot_mul_r, <- cdot_add. apply cdot_ext; auto. }
    constructor.
    - intros a b Ha Hb. destruct (Nat.eq_dec a i) as [->|Hai].
      + assert (cdot (fun r => C' r i) (fun r => C' r b) = cdot q (fun r => C' r b)) as -> by (apply cdot_ext; auto).
        destruct (lt_eq_lt_dec b i) as [[Hbi|Hbi]|Hbi].
        * destruct (Nat.eqb_spec i b); [lia|].
          assert (cdot q (fun r => C' r b) = cdot q (fun r => C r b)) as -> by (apply cdot_ext; auto). rewrite <- cdot_conj.
          unfold q. rewrite cdot_scal_r, (HO b i Hbi Hi). destruct (Nat.eqb_spec b i); [lia|]. rewrite (scal_0_r A co L). apply (conj_0 A co L).
        * subst b. rewrite Nat.eqb_refl. rewrite <- Hqq. apply cdot_ext; auto.
        * destruct (Nat.eqb_spec i b); [lia|]. rewrite Hcg by lia. rewrite Hqq. fold (m b). lin L.
      + assert (a < i)%nat as Ha' by lia.
        assert (cdot (fun r => C' r a) (fun r => C' r b) = cdot (fun r => C r a) (fun r => C' r b)) as -> by (apply cdot_ext; auto).
        destruct (lt_eq_lt_dec b i) as [[Hbi|Hbi]|Hbi].
        * rewrite <- (HO a b Ha' Hb). apply cdot_ext; auto.
        * subst b. rewrite Hci, (HO a i Ha' Hi). destruct (Nat.eqb_spec a i); [lia|]. apply (scal_0_r A co L).
        * rewrite Hcg by lia. rewrite (HO a b Ha' Hb). unfold q. rewrite cdot_scal_r, (HO a i Ha' Hi).
          destruct (Nat.eqb_spec a i); [lia|]. rewrite (scal_0_r A co L), (mul_0_l A co L), (add_0_r A co L). auto.
    - exists (fun t c => if (t =? i)%nat then (if (c =? i)%nat then sscal nu s1 else if (i <? c)%nat then m c else R t c) else R t c).
      split; [|split; [|split]].
      + intros c Hc r Hr. rewrite (R1 c Hc r Hr). destruct (lt_eq_lt_dec c i) as [[Hci'|Hci']|Hci'].
        * apply (ssum_ext A). intros t Ht. rewrite Elt by lia. destruct (Nat.eqb_spec t i); [lia|auto].
        * subst c. cbn [ssum]. rewrite Nat.eqb_refl, Ei, (R3 i) by auto. f_equal.
          -- apply (ssum_ext A). intros t Ht. rewrite Elt by lia. destruct (Nat.eqb_spec t i); [lia|auto].
          -- unfold q. rewrite (mul_scal_l _ _ L), (mul_scal_r _ _ L), (mul_1_r _ _ L). apply (co_sep _ _ L). intros. rewrite !(co_scal _ _ L). field. lra.
        * cbn [ssum]. rewrite (R3 c) by lia. destruct (Nat.eqb_spec c i); [lia|]. rewrite !(mul_1_r _ _ L), Egt by lia.
          rewrite (ssum_ext A c (fun t => smul (C r t) (R t c)) (fun t => if (t <? i)%nat then smul (C r t) (R t c) else s0)).
          2:{ intros t Ht. destruct (Nat.ltb_spec t i); auto. rewrite (R4 t c) by lia. apply (mul_0_r A co L). }
          rewrite (ssum_ext A c (fun t => smul (C' r t) (if (t =? i)%nat then if (i <? c)%nat then m c else R t c else R t c))
                   (fun t => sadd (if (t <? i)%nat then smul (C r t) (R t c) else s0) (if (t =? i)%nat then smul (q r) (m c) else s0))).
          2:{ intros t Ht. destruct (Nat.ltb_spec t i).
              - destruct (Nat.eqb_spec t i); [lia|]. rewrite Elt by lia. rewrite (add_0_r A co L). auto.
              - destruct (Nat.eqb_spec t i) as [->|].
                + rewrite Ei. destruct (Nat.ltb_spec i c); [|lia]. rewrite (add_0_l A co L). auto.
                + rewrite (R4 t c) by lia. rewrite (mul_0_r A co L), (add_0_l A co L). auto. }
          rewrite (ssum_add A co L). rewrite (ssum_single A co L c i (fun t => if (t =? i)%nat then smul (q r) (m c) else s0)).
          2: lia. 2:{ intros t Ht Hn. destruct (Nat.eqb_spec t i); [contradiction|auto]. }
          rewrite Nat.eqb_refl. lin L.
      + intros c Hc. destruct (Nat.eqb_spec c i) as [->|Hne].
        * exists nu. auto.
        * apply R2. lia.
      + intros c Hc. destruct (Nat.eqb_spec c i); [lia|]. apply R3. lia.
      + intros t c Ht. destruct (Nat.eqb_spec t i); [lia|]. apply R4. lia.
    - exists (fun t c => if (c =? i)%nat then sscal (/ nu) (X t i)
                        else if (i <? c)%nat then sadd (X t c) (if (t <=? i)%nat then smul (sscal (/ nu) (X t i)) (sscal (-1) (m c)) else s0) else X t c).
      split.
      + intros c Hc r Hr. destruct (lt_eq_lt_dec c i) as [[Hci'|Hci']|Hci'].
        * rewrite Elt by auto. rewrite (X1 c Hc r Hr). apply (ssum_ext A). intros t Ht. destruct (Nat.eqb_spec c i); [lia|]. destruct (Nat.ltb_spec i c); [lia|auto].
        * subst c. rewrite Ei, Nat.eqb_refl. unfold q. rewrite (X1 i Hc r Hr). rewrite <- (ssum_scal A co L). apply (ssum_ext A). intros. symmetry. apply (mul_scal_r _ _ L).
        * rewrite Egt by lia. destruct (Nat.eqb_spec c i); [lia|]. destruct (Nat.ltb_spec i c); [|lia].
          rewrite (ssum_ext A (S c) _ (fun t => sadd (smul (Q0 r t) (X t c)) (if (t <=? i)%nat then smul (smul (Q0 r t) (sscal (/ nu) (X t i))) (sscal (-1) (m c)) else s0))).
          2:{ intros t Ht. rewrite (mul_add_r _ _ L). f_equal. destruct (Nat.leb_spec t i); [|apply (mul_0_r A co L)]. symmetry. apply HA. }
          rewrite (ssum_add A co L), <- (X1 c Hc r Hr). f_equal.
          unfold q. rewrite (X1 i Hi r Hr). rewrite <- (ssum_scal A co L), (ssum_mul_r A co L).
          assert (forall (n0 m0 : nat) (f : nat -> el A), (n0 <= m0)%nat -> ssum m0 (fun t => if (t <? n0)%nat then f t else s0) = ssum n0 f) as Htr.
          { clear - L. intros n0 m0 f H. induction m0 as [|m0 IH]; [replace n0 with 0%nat by lia; auto|]. cbn [ssum].
            destruct (Nat.ltb_spec m0 n0).
            - replace n0 with (S m0) by lia. cbn [ssum]. f_equal. apply (ssum_ext A). intros t Ht. destruct (Nat.ltb_spec t (S m0)); [auto|lia].
            - rewrite IH by lia. apply (add_0_r A co L). }
          rewrite <- (Htr (S i) (S c)) by lia. apply (ssum_ext A). intros t Ht.
          destruct (Nat.ltb_spec t (S i)), (Nat.leb_spec t i); try lia; auto. f_equal. symmetry. apply (mul_scal_r _ _ L).
      + intros c Hc. destruct (X2 c Hc) as (rho & Hrho & E). destruct (Nat.eqb_spec c i) as [->|Hne].
        * exists (/ nu * rho). split; [apply Rmult_lt_0_compat; auto; apply Rinv_0_lt_compat; auto|]. rewrite E. apply (co_sep _ _ L). intros. rewrite !(co_scal _ _ L). ring.
        * exists rho. split; auto. destruct (Nat.ltb_spec i c); [|auto]. destruct (Nat.leb_spec c i); [lia|]. rewrite (add_0_r A co L). auto.
  Qed.

  Definition independent (Q : nat -> nat -> el A) : Prop :=
    forall x : nat -> el A, (forall r, (r < rows)%nat -> ssum cols (fun c => smul (Q r c) (x c)) = s0) -> forall c, (c < cols)%nat -> x c = s0.

  (** A column that vanishes shows that the given ones depend on each other. *)
  Lemma gs_dependent Q0 i C : (i < cols)%nat -> gs Q0 i C -> (forall r, (r < rows)%nat -> C r i = s0) -> ~ independent Q0.
  Proof.
    intros Hi [_ _ (X & X1 & X2)] HZ Hind. destruct (X2 i Hi) as (rho & Hrho & E).
    specialize (Hind (fun t => if (t <? S i)%nat then X t i else s0)).
    assert (X i i = s0) as Hx.
    { assert ((if (i <? S i)%nat then X i i else s0) = s0) as H0.
      { apply Hind; auto. intros r Hr. transitivity (C r i); [|auto]. rewrite (X1 i Hi r Hr).
        assert (forall (n0 m0 : nat) (f : nat -> el A), (n0 <= m0)%nat -> (forall t, (n0 <= t < m0)%nat -> f t = s0) -> ssum m0 f = ssum n0 f) as Htr.
        { clear - L. intros n0 m0 f H H0. induction m0 as [|m0 IH]; [replace n0 with 0%nat by lia; auto|].
          destruct (Nat.eq_dec n0 (S m0)) as [->|]; auto. cbn [ssum]. rewrite H0 by lia. rewrite (add_0_r A co L). apply IH; [lia|]. intros; apply H0; lia. }
        rewrite (Htr (S i) cols (fun c => smul (Q0 r c) (if (c <? S i)%nat then X c i else s0)) Hi).
        2:{ intros t Ht. destruct (Nat.ltb_spec t (S i)); [lia|apply (mul_0_r A co L)]. }
        apply (ssum_ext A). intros t Ht. destruct (Nat.ltb_spec t (S i)); [auto|lia]. }
      destruct (Nat.ltb_spec i (S i)); [auto|lia]. }
    rewrite Hx in E. assert (sre (s0 : el A) = rho) as E1 by (rewrite E; rewrite (re_scal A co L), (re_1 _ _ L); ring).
    rewrite (re_0 A co L) in E1. lra.
  Qed.

  (** Orthonormal columns times an upper triangular matrix with positive diagonal are
      independent. *)
  Lemma gs_independent Q0 C : gs Q0 cols C -> independent Q0.
  Proof.
    intros [HO (R & R1 & R2 & _ & _) _] x Hx.
    set (R' := fun t c => if (t <? S c)%nat then R t c else s0).
    set (y := fun t => ssum cols (fun c => smul (R' t c) (x c))).
    assert (forall r, (r < rows)%nat -> ssum cols (fun t => smul (C r t) (y t)) = s0) as Hy.
    { intros r Hr. eapply eq_trans; [|exact (Hx r Hr)]. unfold y.
      rewrite (ssum_ext A cols _ (fun t => ssum cols (fun c => smul (smul (C r t) (R' t c)) (x c)))).
      2:{ intros t Ht. rewrite (ssum_mul_l A co L). apply (ssum_ext A). intros. symmetry. apply HA. }
      rewrite (ssum_swap A co L). apply (ssum_ext A). intros c Hc. rewrite <- (ssum_mul_r A co L). f_equal. rewrite (R1 c Hc r Hr). symmetry.
      assert (forall (n0 m0 : nat) (f : nat -> el A), (n0 <= m0)%nat -> (forall t, (n0 <= t < m0)%nat -> f t = s0) -> ssum m0 f = ssum n0 f) as Htr.
      { clear - L. intros n0 m0 f H H0. induction m0 as [|m0 IH]; [replace n0 with 0%nat by lia; auto|].
        destruct (Nat.eq_dec n0 (S m0)) as [->|]; auto. cbn [ssum]. rewrite H0 by lia. rewrite (add_0_r A co L). apply IH; [lia|]. intros; apply H0; lia. }
      rewrite (Htr (S c) cols (fun t => smul (C r t) (R' t c)) Hc).
      2:{ intros t Ht. unfold R'. destruct (Nat.ltb_spec t (S c)); [lia|apply (mul_0_r A co L)]. }
      apply (ssum_ext A). intros t Ht. unfold R'. destruct (Nat.ltb_spec t (S c)); [auto|lia]. }
    assert (forall a, (a < cols)%nat -> y a = s0) as Hya.
    { intros a Ha. pose proof (cdot_zero (fun r => C r a) (fun r => ssum cols (fun t => smul (C r t) (y t))) Hy) as E. unfold cdot in E.
      rewrite (ssum_ext A rows _ (fun r => ssum cols (fun t => smul (smul (sconj (C r a)) (C r t)) (y t)))) in E.
      2:{ intros r Hr. rewrite (ssum_mul_l A co L). apply (ssum_ext A). intros. symmetry. apply HA. }
      rewrite (ssum_swap A co L) in E. rewrite (ssum_ext A cols _ (fun t => smul (if (a =? t)%nat then s1 else s0) (y t))) in E.
      2:{ intros t Ht. rewrite <- (ssum_mul_r A co L). f_equal. apply (HO a t Ha Ht). }
      rewrite (ssum_single A co L cols a) in E; auto.
      - rewrite Nat.eqb_refl, (mul_1_l _ _ L) in E. auto.
      - intros t Ht Hn. destruct (Nat.eqb_spec a t); [congruence|apply (mul_0_l A co L)]. }
    assert (forall n c, (cols - n <= c < cols)%nat -> x c = s0) as G; [|intros c Hc; apply (G cols); lia].
    induction n as [|n IH]; intros c Hc; [lia|].
    pose proof (Hya c ltac:(lia)) as E. unfold y in E. rewrite (ssum_single A co L cols c) in E; [|lia|].
    - unfold R' in E. destruct (Nat.ltb_spec c (S c)); [|lia]. destruct (R2 c ltac:(lia)) as (rho & Hrho & ER). rewrite ER, (mul_scal_l _ _ L), (mul_1_l _ _ L) in E.
      apply (co_sep _ _ L). intros j. rewrite (co_0 _ _ L). assert (co j (sscal rho (x c)) = 0) as E1 by (rewrite E; apply (co_0 _ _ L)).
      rewrite (co_scal _ _ L) in E1. apply Rmult_integral in E1 as [E1|E1]; [lra|auto].
    - intros t Ht Hn. unfold R'. destruct (Nat.ltb_spec c (S t)).
      + rewrite (IH t) by lia. apply (mul_0_r A co L).
      + apply (mul_0_l A co L).
  Qed.
End Algebra.
