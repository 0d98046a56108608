(** Laws of the Cayley-Dickson algebras up to the octonions, and of matrices over
    an algebra with these laws. *)
From Coq Require Import List Arith Reals Lra Lia Bool FunctionalExtensionality.
From Verif Require Import DenseModel RSum Spec_Hyper.
Open Scope R_scope.

(** [sco] are coordinates that separate elements. *)
Record laws (A : star) (sco : nat -> el A -> R) : Prop := mkLaws {
  co_sep : forall x y : el A, (forall i, sco i x = sco i y) -> x = y;
  co_re : forall x : el A, sre x = sco 0%nat x;
  co_add : forall i (x y : el A), sco i (sadd x y) = sco i x + sco i y;
  co_scal : forall i s (x : el A), sco i (sscal s x) = s * sco i x;
  co_0 : forall i, sco i (s0 : el A) = 0;
  mul_add_l : forall x y z : el A, smul (sadd x y) z = sadd (smul x z) (smul y z);
  mul_add_r : forall x y z : el A, smul x (sadd y z) = sadd (smul x y) (smul x z);
  mul_scal_l : forall s (x y : el A), smul (sscal s x) y = sscal s (smul x y);
  mul_scal_r : forall s (x y : el A), smul x (sscal s y) = sscal s (smul x y);
  mul_1_l : forall x : el A, smul s1 x = x;
  mul_1_r : forall x : el A, smul x s1 = x;
  conj_add : forall x y : el A, sconj (sadd x y) = sadd (sconj x) (sconj y);
  conj_scal : forall s (x : el A), sconj (sscal s x) = sscal s (sconj x);
  conj_conj : forall x : el A, sconj (sconj x) = x;
  conj_mul : forall x y : el A, sconj (smul x y) = smul (sconj y) (sconj x);
  conj_1 : sconj (s1 : el A) = s1;
  re_conj : forall x : el A, sre (sconj x) = sre x;
  re_comm : forall x y : el A, sre (smul x y) = sre (smul y x);
  re_assoc : forall x y z : el A, sre (smul (smul x y) z) = sre (smul x (smul y z));
  re_1 : sre (s1 : el A) = 1;
  re_pos : forall x : el A, x <> s0 -> 0 < sre (smul (sconj x) x) }.

Lemma laws_reals : laws reals (fun i (x : el reals) => if (i =? 0)%nat then x else 0).
Proof.
  constructor; cbn; intros; try ring.
  - exact (H 0%nat).
  - destruct i; cbn; ring.
  - destruct i; cbn; ring.
  - destruct i; cbn; ring.
  - nra.
Qed.

Ltac push L := repeat (rewrite (mul_add_l _ _ L) || rewrite (mul_add_r _ _ L) || rewrite (mul_scal_l _ _ L) || rewrite (mul_scal_r _ _ L)
  || rewrite (conj_add _ _ L) || rewrite (conj_scal _ _ L) || rewrite (conj_conj _ _ L) || rewrite (conj_mul _ _ L) || rewrite (conj_1 _ _ L)
  || rewrite (mul_1_l _ _ L) || rewrite (mul_1_r _ _ L)).
Ltac coords L := repeat (rewrite (co_add _ _ L) || rewrite (co_scal _ _ L) || rewrite (co_0 _ _ L)).
(** Equality of two real linear combinations of products. *)
Ltac lin L := push L; apply (co_sep _ _ L); let i := fresh "i" in intros i; coords L; ring.

Section Basic.
  Variable A : star.
  Variable sco : nat -> el A -> R.
  Hypothesis L : laws A sco.
  Lemma conj_0 : sconj (s0 : el A) = s0.
  Proof.
    assert ((s0 : el A) = sscal 0 s0) as E by (apply (co_sep A sco L); intros; coords L; ring). rewrite E at 1. rewrite (conj_scal A sco L).
    apply (co_sep A sco L); intros; coords L; ring.
  Qed.
  Lemma mul_0_l : forall x : el A, smul s0 x = s0.
  Proof.
    intros x. assert ((s0 : el A) = sscal 0 s0) as E by (apply (co_sep A sco L); intros; coords L; ring). rewrite E at 1. rewrite (mul_scal_l A sco L).
    apply (co_sep A sco L); intros; coords L; ring.
  Qed.
  Lemma mul_0_r : forall x : el A, smul x s0 = s0.
  Proof.
    intros x. assert ((s0 : el A) = sscal 0 s0) as E by (apply (co_sep A sco L); intros; coords L; ring). rewrite E at 1. rewrite (mul_scal_r A sco L).
    apply (co_sep A sco L); intros; coords L; ring.
  Qed.
  Lemma add_0_l : forall x : el A, sadd s0 x = x.
  Proof. intros. lin L. Qed.
  Lemma add_0_r : forall x : el A, sadd x s0 = x.
  Proof. intros. lin L. Qed.
  Lemma scal_0_r : forall s, sscal s (s0 : el A) = s0.
  Proof. intros. lin L. Qed.
  Lemma re_add : forall x y : el A, sre (sadd x y) = sre x + sre y.
  Proof. intros. rewrite !(co_re A sco L). apply (co_add A sco L). Qed.
  Lemma re_scal : forall s (x : el A), sre (sscal s x) = s * sre x.
  Proof. intros. rewrite !(co_re A sco L). apply (co_scal A sco L). Qed.
  Lemma re_0 : sre (s0 : el A) = 0.
  Proof. rewrite (co_re A sco L). apply (co_0 A sco L). Qed.
  Lemma re_nonneg : forall x : el A, 0 <= sre (smul (sconj x) x).
  Proof.
    intros x. destruct (Req_dec (sre (smul (sconj x) x)) 0) as [E|E]; [lra|]. apply Rlt_le. apply (re_pos A sco L). intros ->. apply E.
    rewrite mul_0_r. apply re_0.
  Qed.
End Basic.

(** The laws survive doubling. *)
Definition co2 {A : star} (co : nat -> el A -> R) (i : nat) (x : el (double A)) : R :=
  if Nat.even i then co (Nat.div2 i) (fst x) else co (Nat.div2 i) (snd x).
Lemma laws_double : forall A co, laws A co -> laws (double A) (co2 co).
Proof.
  intros A co L.
  assert (forall i x, co2 co i x = co (Nat.div2 i) (if Nat.even i then fst x else snd x)) as HC.
  { intros i x. unfold co2. destruct (Nat.even i); auto. }
  pose proof (add_0_l A co L) as A0l. pose proof (add_0_r A co L) as A0r. pose proof (scal_0_r A co L) as S0. pose proof (conj_0 A co L) as C0.
  pose proof (mul_0_l A co L) as M0l. pose proof (mul_0_r A co L) as M0r.
  pose proof (re_add A co L) as Ra. pose proof (re_scal A co L) as Rs. pose proof (re_conj A co L) as Rc. pose proof (re_comm A co L) as Rm.
  pose proof (re_assoc A co L) as Rx.
  constructor; cbn [double el s0 s1 sadd sscal smul sconj sre fst snd]; intros.
  - destruct x as [a b], y as [c d]. f_equal; apply (co_sep A co L); intros i.
    + specialize (H (2 * i)%nat). rewrite !HC in H. rewrite Nat.even_mul, Nat.div2_double in H. exact H.
    + specialize (H (S (2 * i))%nat). rewrite !HC in H. rewrite Nat.even_succ, Nat.odd_mul, Nat.div2_succ_double in H. exact H.
  - unfold co2. cbn. apply (co_re A co L).
  - rewrite !HC. destruct (Nat.even i); cbn [fst snd]; apply (co_add A co L).
  - rewrite !HC. destruct (Nat.even i); cbn [fst snd]; apply (co_scal A co L).
  - rewrite !HC. destruct (Nat.even i); cbn [fst snd]; apply (co_0 A co L).
  - f_equal; lin L.
  - f_equal; lin L.
  - f_equal; lin L.
  - f_equal; lin L.
  - rewrite C0, (conj_1 A co L), !M0r. destruct x as [a b]. cbn [fst snd]. f_equal; lin L.
  - rewrite M0l, !M0r. destruct x as [a b]. cbn [fst snd]. f_equal; lin L.
  - f_equal; lin L.
  - f_equal; lin L.
  - destruct x as [a b]. cbn [fst snd]. f_equal; lin L.
  - f_equal; lin L.
  - f_equal; [apply (conj_1 A co L)|apply S0].
  - apply Rc.
  - rewrite !Ra, !Rs. rewrite (Rm (fst x) (fst y)). f_equal. f_equal. rewrite <- Rc. push L. reflexivity.
  - destruct x as [a b], y as [c d], z as [e f]. cbn [fst snd]. push L. repeat (rewrite Ra || rewrite Rs).
    rewrite (Rx a c e). rewrite (Rx d (sconj b) e), (Rm d). rewrite (Rx (sconj b) e d), (Rm (sconj b)).
    rewrite <- (Rx f (sconj d) a), (Rm (smul f (sconj d)) a).
    rewrite (Rx (sconj c) f (sconj b)), (Rm (sconj c)), (Rx f (sconj b) (sconj c)). ring.
  - apply (re_1 A co L).
  - destruct x as [a b]. cbn [fst snd]. rewrite Ra, Rs. push L. rewrite Rs.
    assert (0 <= sre (smul (sconj a) a)) by apply (re_nonneg A co L). assert (0 <= sre (smul b (sconj b))) by (rewrite Rm; apply (re_nonneg A co L)).
    assert (a <> s0 \/ b <> s0 -> 0 < sre (smul (sconj a) a) + sre (smul b (sconj b))) as HP.
    { intros [Hn|Hn].
      - pose proof (re_pos A co L a Hn). lra.
      - pose proof (re_pos A co L b Hn). rewrite (Rm b). rewrite (Rm b) in H1. lra. }
    assert (~ (a = s0 /\ b = s0)) as HN by (intros [-> ->]; apply H; auto).
    assert (~ ~ (a <> s0 \/ b <> s0)) as HNN by tauto.
    destruct (Rlt_dec 0 (sre (smul (sconj a) a) + sre (smul b (sconj b)))) as [Hp|Hp]; [lra|]. exfalso. apply HNN. intros HH. apply Hp; auto.
Qed.

Fixpoint coords_of (k : nat) : nat -> el (cd k) -> R :=
  match k return nat -> el (cd k) -> R with
  | O => fun i (x : el reals) => if (i =? 0)%nat then x else 0
  | S k' => co2 (coords_of k')
  end.
Lemma laws_cd : forall k, laws (cd k) (coords_of k).
Proof. induction k; [apply laws_reals|apply laws_double; auto]. Qed.

(** Reals, complex numbers and quaternions are associative. *)
Section Commutative.
  Variable A : star.
  Variable co : nat -> el A -> R.
  Hypothesis L : laws A co.
  Hypothesis HA : associative A.
  Hypothesis HC : forall x y : el A, smul x y = smul y x.
  Definition sub_ (x y : el A) := sadd x (sscal (-1) y).
  Lemma star_ring : ring_theory (s0 : el A) s1 sadd smul sub_ (sscal (-1)) eq.
  Proof.
    constructor; intros; unfold sub_; auto; lin L.
  Qed.
  Add Ring star_ring : star_ring.
  Lemma assoc_double : associative (double A).
  Proof. intros [a b] [c d] [e f]. cbn [double smul fst snd]. push L. f_equal; ring. Qed.
End Commutative.
Lemma assoc_cd : forall k, (k <= 2)%nat -> associative (cd k).
Proof.
  intros k Hk. destruct k as [|[|[|]]]; [| | |lia].
  - intros x y z. cbn. ring.
  - apply (assoc_double reals _ laws_reals); [intros x y z; cbn; ring|intros; cbn; ring].
  - apply (assoc_double (cd 1) _ (laws_cd 1)).
    + apply (assoc_double reals _ laws_reals); [intros x y z; cbn; ring|intros; cbn; ring].
    + intros [a b] [c d]. cbn. f_equal; ring.
Qed.

(** ** Sums and matrices *)
Section MatrixLaws.
  Variable A : star.
  Variable co : nat -> el A -> R.
  Hypothesis L : laws A co.
  Notation M := (nat -> nat -> el A).

  Lemma ssum_ext : forall d f g, (forall t, (t < d)%nat -> f t = g t) -> ssum d f = ssum (A := A) d g.
  Proof. induction d; intros f g H; cbn; auto. rewrite (IHd f g) by auto. rewrite H by auto. auto. Qed.
  Lemma co_ssum : forall i d f, co i (ssum d f) = rsum d (fun t => co i (f t)).
  Proof. induction d; intros; cbn; [apply (co_0 A co L)|]. rewrite (co_add A co L), IHd. auto. Qed.
  Lemma ssum_add : forall d f g, ssum d (fun t => sadd (f t) (g t)) = sadd (ssum d f) (ssum (A := A) d g).
  Proof. induction d; intros; cbn; [lin L|]. rewrite IHd. lin L. Qed.
  Lemma ssum_scal : forall d s f, ssum d (fun t => sscal s (f t)) = sscal s (ssum (A := A) d f).
  Proof. induction d; intros; cbn; [lin L|]. rewrite IHd. lin L. Qed.
  Lemma ssum_0 : forall d f, (forall t, (t < d)%nat -> f t = s0) -> ssum d f = (s0 : el A).
  Proof. induction d; intros f H; cbn; auto. rewrite IHd, H by auto. lin L. Qed.
  Lemma ssum_mul_l : forall d x f, smul x (ssum d f) = ssum (A := A) d (fun t => smul x (f t)).
  Proof. induction d; intros; cbn; [apply (mul_0_r A co L)|]. rewrite (mul_add_r A co L), IHd. auto. Qed.
  Lemma ssum_mul_r : forall d x f, smul (ssum d f) x = ssum (A := A) d (fun t => smul (f t) x).
  Proof. induction d; intros; cbn; [apply (mul_0_l A co L)|]. rewrite (mul_add_l A co L), IHd. auto. Qed.
  Lemma ssum_conj : forall d f, sconj (ssum d f) = ssum (A := A) d (fun t => sconj (f t)).
  Proof. induction d; intros; cbn; [apply (conj_0 A co L)|]. rewrite (conj_add A co L), IHd. auto. Qed.
  Lemma ssum_re : forall d f, sre (ssum (A := A) d f) = rsum d (fun t => sre (f t)).
  Proof. induction d; intros; cbn; [apply (re_0 A co L)|]. rewrite (re_add A co L), IHd. auto. Qed.
  Lemma ssum_swap : forall d e (f : nat -> nat -> el A), ssum d (fun i => ssum e (fun j => f i j)) = ssum e (fun j => ssum d (fun i => f i j)).
  Proof.
    induction d; intros e f; cbn.
    - symmetry. apply ssum_0. auto.
    - rewrite IHd, <- ssum_add. auto.
  Qed.
  Lemma ssum_single : forall d k (f : nat -> el A), (k < d)%nat -> (forall t, (t < d)%nat -> t <> k -> f t = s0) -> ssum d f = f k.
  Proof.
    induction d; intros k f Hk H; [lia|]. cbn. destruct (Nat.eq_dec k d) as [->|Hn].
    - rewrite ssum_0; [lin L|]. intros t Ht. apply H; lia.
    - rewrite (IHd k), (H d); [lin L|lia|auto|lia|]. intros; apply H; auto; lia.
  Qed.

  (** Entries outside the matrix set to zero. *)
  Definition clip (d : nat) (X : M) : M := fun r c => if (r <? d)%nat then if (c <? d)%nat then X r c else s0 else s0.
  Definition clipped (d : nat) (X : M) : Prop := clip d X = X.
  Ltac fext := let r := fresh "r" in let c := fresh "c" in apply functional_extensionality; intros r; apply functional_extensionality; intros c.

  Lemma clip_clip : forall d X, clip d (clip d X) = clip d X.
  Proof. intros. fext. unfold clip. destruct (r <? d)%nat; auto. destruct (c <? d)%nat; auto. Qed.
  Lemma clip_same : forall d X Y, same_matrix d X Y <-> clip d X = clip d Y.
  Proof.
    intros d X Y. split.
    - intros H. fext. unfold clip. destruct (Nat.ltb_spec r d); auto. destruct (Nat.ltb_spec c d); auto.
    - intros H r c Hr Hc. assert (clip d X r c = clip d Y r c) as E by (rewrite H; auto). unfold clip in E.
      apply Nat.ltb_lt in Hr, Hc. rewrite Hr, Hc in E. auto.
  Qed.
  Lemma clip_mul : forall d X Y, clip d (mmul d X Y) = mmul d (clip d X) (clip d Y).
  Proof.
    intros. fext. unfold mmul, clip. destruct (r <? d)%nat.
    - destruct (c <? d)%nat.
      + apply ssum_ext. intros t Ht. apply Nat.ltb_lt in Ht. rewrite Ht. auto.
      + symmetry. apply ssum_0. intros t Ht. destruct (t <? d)%nat; apply (mul_0_r A co L).
    - symmetry. apply ssum_0. intros t Ht. apply (mul_0_l A co L).
  Qed.
  Lemma clip_add : forall d X Y, clip d (madd X Y) = madd (clip d X) (clip d Y).
  Proof. intros. fext. unfold madd, clip. destruct (r <? d)%nat; [destruct (c <? d)%nat|]; auto; lin L. Qed.
  Lemma clip_scal : forall d s X, clip d (mscal s X) = mscal s (clip d X).
  Proof. intros. fext. unfold mscal, clip. destruct (r <? d)%nat; [destruct (c <? d)%nat|]; auto; lin L. Qed.
  Lemma clip_conj : forall d X, clip d (mconj X) = mconj (clip d X).
  Proof. intros. fext. unfold mconj, clip. destruct (r <? d)%nat; destruct (c <? d)%nat; auto; rewrite (conj_0 A co L); auto. Qed.

  Lemma mmul_add_l : forall d X Y Z, mmul d (madd X Y) Z = madd (mmul d X Z) (mmul (A := A) d Y Z).
  Proof. intros. fext. unfold mmul, madd. rewrite <- ssum_add. apply ssum_ext. intros. apply (mul_add_l A co L). Qed.
  Lemma mmul_add_r : forall d X Y Z, mmul d X (madd Y Z) = madd (mmul d X Y) (mmul (A := A) d X Z).
  Proof. intros. fext. unfold mmul, madd. rewrite <- ssum_add. apply ssum_ext. intros. apply (mul_add_r A co L). Qed.
  Lemma mmul_scal_l : forall d s X Y, mmul d (mscal s X) Y = mscal s (mmul (A := A) d X Y).
  Proof. intros. fext. unfold mmul, mscal. rewrite <- ssum_scal. apply ssum_ext. intros. apply (mul_scal_l A co L). Qed.
  Lemma mmul_scal_r : forall d s X Y, mmul d X (mscal s Y) = mscal s (mmul (A := A) d X Y).
  Proof. intros. fext. unfold mmul, mscal. rewrite <- ssum_scal. apply ssum_ext. intros. apply (mul_scal_r A co L). Qed.
  Lemma mconj_add : forall X Y, mconj (madd X Y) = madd (mconj X) (mconj (A := A) Y).
  Proof. intros. fext. apply (conj_add A co L). Qed.
  Lemma mconj_scal : forall s X, mconj (mscal s X) = mscal s (mconj (A := A) X).
  Proof. intros. fext. apply (conj_scal A co L). Qed.
  Lemma mconj_mconj : forall X, mconj (mconj (A := A) X) = X.
  Proof. intros. fext. apply (conj_conj A co L). Qed.
  Lemma mconj_mul : forall d X Y, mconj (mmul d X Y) = mmul (A := A) d (mconj Y) (mconj X).
  Proof. intros. fext. unfold mconj, mmul. rewrite ssum_conj. apply ssum_ext. intros. apply (conj_mul A co L). Qed.
  Definition one (d : nat) : M := clip d mid.
  Lemma mconj_one : forall d, mconj (one d) = one d.
  Proof.
    intros. unfold one. rewrite <- clip_conj. f_equal. fext. unfold mconj, mid. rewrite Nat.eqb_sym. destruct (r =? c)%nat; [apply (conj_1 A co L)|apply (conj_0 A co L)].
  Qed.
  Lemma one_l : forall d X, clipped d X -> mmul d (one d) X = X.
  Proof.
    intros d X H. rewrite <- H at 2. fext. unfold mmul, one, clip at 1, mid. destruct (Nat.ltb_spec r d) as [Hr|Hr].
    - rewrite (ssum_single d r).
      + assert ((r <? d)%nat = true) as -> by (apply Nat.ltb_lt; auto). rewrite Nat.eqb_refl, (mul_1_l A co L).
        assert (X r c = clip d X r c) as -> by (rewrite H; auto). auto.
      + auto.
      + intros t Ht Hn. apply Nat.ltb_lt in Ht. rewrite Ht. assert ((r =? t)%nat = false) as -> by (apply Nat.eqb_neq; auto). apply (mul_0_l A co L).
    - rewrite ssum_0; [|intros; apply (mul_0_l A co L)]. unfold clip. apply Nat.ltb_ge in Hr. rewrite Hr. auto.
  Qed.
  Lemma one_r : forall d X, clipped d X -> mmul d X (one d) = X.
  Proof.
    intros d X H. rewrite <- (mconj_mconj (mmul d X (one d))), mconj_mul, mconj_one, one_l, mconj_mconj; auto.
    unfold clipped. rewrite clip_conj. f_equal. auto.
  Qed.

  Hypothesis HA : associative A.
  Lemma mmul_assoc : forall d X Y Z, mmul d (mmul d X Y) Z = mmul (A := A) d X (mmul d Y Z).
  Proof.
    intros. fext. unfold mmul. erewrite ssum_ext by (intros; apply ssum_mul_r). rewrite ssum_swap. apply ssum_ext. intros t Ht.
    rewrite ssum_mul_l. apply ssum_ext. intros. apply HA.
  Qed.

  (** ** Quadratic forms *)
  Definition mv (d : nat) (X : M) (z : nat -> el A) : nat -> el A := fun r => ssum d (fun c => smul (X r c) (z c)).
  Definition ip (d : nat) (u v : nat -> el A) : R := sre (ssum d (fun r => smul (sconj (u r)) (v r))).
  Lemma form_ip : forall d X z, form d X z = ip d z (mv d X z).
  Proof. intros. unfold form, ip, mv. f_equal. apply ssum_ext. intros. rewrite ssum_mul_l. auto. Qed.
  Lemma ip_adj : forall d X u v, ip d u (mv d X v) = ip d (mv d (mconj X) u) v.
  Proof.
    intros. unfold ip, mv, mconj. f_equal. erewrite ssum_ext by (intros; apply ssum_mul_l). rewrite ssum_swap. apply ssum_ext. intros t Ht.
    rewrite ssum_conj, ssum_mul_r. apply ssum_ext. intros. rewrite (conj_mul A co L), (conj_conj A co L), HA. auto.
  Qed.
  Lemma mv_mul : forall d X Y v, mv d (mmul d X Y) v = mv d X (mv d Y v).
  Proof.
    intros. apply functional_extensionality. intros r. unfold mv, mmul. erewrite ssum_ext by (intros; apply ssum_mul_r). rewrite ssum_swap.
    apply ssum_ext. intros. rewrite ssum_mul_l. apply ssum_ext. intros. apply HA.
  Qed.
  Lemma form_congruence : forall d (X W : M) z, form d (mmul d X (mmul d W (mconj X))) z = form d W (mv d (mconj X) z).
  Proof. intros. rewrite !form_ip, !mv_mul. rewrite ip_adj. auto. Qed.
  Lemma ip_pos : forall d z, (exists r, (r < d)%nat /\ z r <> s0) -> 0 < ip d z z.
  Proof.
    intros d z (r & Hr & Hn). unfold ip. rewrite ssum_re. revert Hr. induction d; intros Hr; [lia|]. cbn.
    assert (forall e, 0 <= rsum e (fun t => sre (smul (sconj (z t)) (z t)))) as HS.
    { induction e; cbn; [lra|]. pose proof (re_nonneg A co L (z e)). lra. }
    destruct (Nat.eq_dec r d) as [->|Hd].
    - pose proof (re_pos A co L _ Hn). specialize (HS d). lra.
    - pose proof (re_nonneg A co L (z d)). assert (r < d)%nat as Hr' by lia. specialize (IHd Hr'). lra.
  Qed.
  Lemma form_clip : forall d X z, form d (clip d X) z = form d X z.
  Proof.
    intros. unfold form. f_equal. apply ssum_ext. intros r Hr. apply ssum_ext. intros c Hc. unfold clip. apply Nat.ltb_lt in Hr, Hc. rewrite Hr, Hc. auto.
  Qed.
  Lemma form_same : forall d (X Y : M) z, same_matrix d X Y -> form d X z = form d Y z.
  Proof. intros d X Y z H. rewrite <- (form_clip d X), <- (form_clip d Y). apply clip_same in H. rewrite H. auto. Qed.
  Lemma form_conj : forall d (X : M) z, form d (mconj X) z = form d X z.
  Proof.
    intros. unfold form, mconj. rewrite <- (re_conj A co L). rewrite ssum_conj. erewrite ssum_ext by (intros; apply ssum_conj). rewrite ssum_swap.
    f_equal. apply ssum_ext. intros r Hr. apply ssum_ext. intros c Hc. rewrite !(conj_mul A co L), !(conj_conj A co L). apply HA.
  Qed.
  Lemma form_add : forall d (X Y : M) z, form d (madd X Y) z = form d X z + form d Y z.
  Proof.
    intros. unfold form, madd. rewrite <- (re_add A co L), <- ssum_add. f_equal. apply ssum_ext. intros. rewrite <- ssum_add. apply ssum_ext. intros.
    push L. auto.
  Qed.
  Lemma form_scal : forall d s (X : M) z, form d (mscal s X) z = s * form d X z.
  Proof.
    intros. unfold form, mscal. rewrite <- (re_scal A co L), <- ssum_scal. f_equal. apply ssum_ext. intros. rewrite <- ssum_scal. apply ssum_ext. intros.
    push L. auto.
  Qed.
End MatrixLaws.
