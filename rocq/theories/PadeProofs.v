(** The rational exponential map keeps real scaling points positive definite. *)
From Coq Require Import List Arith Reals Lra Lia Bool FunctionalExtensionality Classical.
From Verif Require Import Base BaseFacts DenseModel RSum JordanModel Spec_Hyper HyperFacts JordanProofs JordanInterior JordanSteps.
Import ListNotations.
Open Scope R_scope.

(** More columns than rows: the columns are dependent. *)
Definition skip (p j : nat) : nat := if (j <? p)%nat then j else S j.
Lemma rsum_skip : forall n p (f : nat -> R), (p <= n)%nat -> rsum (S n) f = f p + rsum n (fun j => f (skip p j)).
Proof.
  induction n; intros p f Hp.
  - replace p with 0%nat by lia. cbn. ring.
  - destruct (Nat.eq_dec p (S n)) as [->|Hn].
    + rewrite (rsum_ext (S n) (fun j => f (skip (S n) j)) f); [cbn [rsum]; ring|].
      intros i Hi; unfold skip; destruct (Nat.ltb_spec i (S n)); auto; lia.
    + cbn [rsum]. specialize (IHn p f ltac:(lia)). cbn [rsum] in IHn. rewrite IHn. unfold skip at 2. destruct (Nat.ltb_spec n p); try lia.
      cbn [rsum]. unfold skip. destruct (Nat.ltb_spec n p); try lia. ring.
Qed.
Lemma dependent : forall n (A : mat), exists c : vec, (exists j, (j <= n)%nat /\ c j <> 0) /\
  forall i, (i < n)%nat -> rsum (S n) (fun j => A i j * c j) = 0.
Proof.
  induction n; intros A.
  - exists (fun _ => 1). split; [exists 0%nat; split; [lia|lra]|]. intros; lia.
  - destruct (classic (exists p, (p <= S n)%nat /\ A n p <> 0)) as [(p & Hp & Hn)|Hn].
    + destruct (IHn (fun i j => A i (skip p j) - A i p * A n (skip p j) / A n p)) as (c & (q & Hq & Hc) & HC).
      set (t := - rsum (S n) (fun j => A n (skip p j) * c j) / A n p).
      set (x := fun j => if (j <? p)%nat then c j else if (j =? p)%nat then t else c (j - 1)%nat).
      assert (forall j, x (skip p j) = c j) as Hx.
      { intros j. unfold x, skip. destruct (Nat.ltb_spec j p).
        - destruct (Nat.ltb_spec j p); auto; lia.
        - destruct (Nat.ltb_spec (S j) p); try lia. destruct (Nat.eqb_spec (S j) p); try lia. f_equal. lia. }
      assert (x p = t) as Hxp by (unfold x; rewrite Nat.ltb_irrefl, Nat.eqb_refl; auto).
      exists x. split.
      * exists (skip p q). split; [unfold skip; destruct (q <? p)%nat; lia|]. rewrite Hx. auto.
      * intros i Hi. rewrite (rsum_skip (S n) p) by auto. rewrite Hxp. erewrite rsum_ext by (intros; rewrite Hx; reflexivity).
        destruct (Nat.eq_dec i n) as [->|].
        -- unfold t. field. auto.
        -- specialize (HC i ltac:(lia)).
           erewrite rsum_ext in HC by (intros j _; instantiate (1 := fun j => A i (skip p j) * c j - A i p / A n p * (A n (skip p j) * c j)); cbn beta; field; auto).
           rewrite rsum_minus, rsum_scal in HC. unfold t.
           transitivity (rsum (S n) (fun j => A i (skip p j) * c j) - A i p / A n p * rsum (S n) (fun j => A n (skip p j) * c j)); [field; auto|exact HC].
    + destruct (IHn A) as (c & (q & Hq & Hc) & HC). exists (fun j => if (j <=? n)%nat then c j else 0). split.
      * exists q. split; [lia|]. destruct (Nat.leb_spec q n); auto; lia.
      * intros i Hi. destruct (Nat.eq_dec i n) as [->|].
        -- apply rsum_zero. intros j Hj. destruct (classic (A n j = 0)) as [->|E]; [ring|]. exfalso. apply Hn. exists j. split; auto. lia.
        -- rewrite rsum_S. destruct (Nat.leb_spec (S n) n); try lia. rewrite Rmult_0_r, Rplus_0_r.
           rewrite <- (HC i ltac:(lia)).
           apply rsum_ext. intros j Hj. destruct (Nat.leb_spec j n); auto; lia.
Qed.
(** Injective square matrices are surjective. *)
Lemma surjective : forall d (D : mat), JordanModel.invertible d D -> forall z : vec, exists u : vec,
  forall r, (r < d)%nat -> rsum d (fun t => D r t * u t) = z r.
Proof.
  intros d D HI z. destruct (dependent d (fun i j => if (j =? d)%nat then z i else D i j)) as (c & (q & Hq & Hc) & HC).
  assert (forall i, (i < d)%nat -> rsum d (fun j => D i j * c j) + z i * c d = 0) as HC'.
  { intros i Hi. specialize (HC i Hi). cbn [rsum] in HC. rewrite Nat.eqb_refl in HC. rewrite <- HC. f_equal. apply rsum_ext. intros j Hj.
    assert ((j =? d)%nat = false) as -> by (apply Nat.eqb_neq; lia). auto. }
  destruct (Req_EM_T (c d) 0) as [E|E].
  - exfalso. apply Hc. destruct (Nat.eq_dec q d) as [->|]; auto. apply HI; [|lia]. intros r Hr. specialize (HC' r Hr). rewrite E in HC'. lra.
  - exists (fun j => - c j / c d). intros r Hr. specialize (HC' r Hr).
    erewrite rsum_ext by (intros j _; instantiate (1 := fun j => - / c d * (D r j * c j)); cbn beta; field; auto).
    rewrite rsum_scal. replace (rsum d (fun j => D r j * c j)) with (- (z r * c d)) by lra. field. auto.
Qed.

Section Generic.
  Variable A : star.
  Variable co : nat -> el A -> R.
  Hypothesis L : laws A co.
  Hypothesis HA : associative A.
  Variable d : nat.
  Notation M := (nat -> nat -> el A).
  Notation "X ** Y" := (mmul d X Y) (at level 40, left associativity).
  Notation "X +m Y" := (madd X Y) (at level 50, left associativity).
  Notation I := (one A d).
  Ltac mlin := fext; unfold madd, mscal; apply (co_sep _ _ L); let i := fresh "i" in intros i; coords L; field.
  Ltac mpush := repeat (rewrite (mmul_add_l _ _ L) || rewrite (mmul_add_r _ _ L) || rewrite (mmul_scal_l _ _ L)
    || rewrite (mmul_scal_r _ _ L) || rewrite (mconj_add _ _ L) || rewrite (mconj_scal _ _ L)
    || rewrite (mconj_mul _ _ L) || rewrite (mconj_mconj _ _ L) || rewrite (mconj_one _ _ L)).

  Definition denom (X : M) : M := mscal 120 I +m mscal (-60) X +m mscal 12 (X ** X) +m mscal (-1) (X ** (X ** X)).
  Definition numer (X : M) : M := mscal 120 I +m mscal 60 X +m mscal 12 (X ** X) +m X ** (X ** X).

  Variables X W : M.
  Hypothesis HW : clipped A d W.
  Hypothesis HX : clipped A d X.
  Hypothesis HP : posdef d W.
  Hypothesis HC : compatible A d X W.
  Variable tau : R.
  Hypothesis Ht : tau < 20.
  Hypothesis HB : forall v, form d W (mv A d (mconj X) v) <= tau * form d W v.

  Lemma Wherm : mconj W = W.
  Proof. destruct HP as [H _]. apply (herm_clip A _ L) in H. rewrite HW in H. auto. Qed.
  Lemma form_nonneg : forall v, 0 <= form d W v.
  Proof.
    intros v. destruct (classic (nz A d v)) as [H|H].
    - apply Rlt_le. apply HP; auto.
    - rewrite (form_zero A _ L); [lra|]. intros r Hr. apply (mv_zero A _ L). apply (nz_of A d). auto.
  Qed.
  Lemma denom_clipped : clipped A d (denom X).
  Proof.
    unfold denom. repeat apply (clipped_add A _ L); apply (clipped_scal A _ L); auto using clipped_one; repeat apply (clipped_mul A _ L); auto.
  Qed.
  Lemma numer_clipped : clipped A d (numer X).
  Proof.
    unfold numer. repeat apply (clipped_add A _ L); try apply (clipped_scal A _ L); auto using clipped_one; repeat apply (clipped_mul A _ L); auto.
  Qed.

  (** [v^T W (N D)^T v] in terms of the powers of [X^T]. *)
  Lemma product_form : forall v, form d (numer X ** (W ** mconj (denom X))) v =
    14400 * form d W v - 720 * form d W (mv A d (mconj X) v) + 24 * form d W (mv A d (mconj (X ** X)) v) - form d W (mv A d (mconj (X ** (X ** X))) v).
  Proof.
    intros v.
    rewrite <- !(form_congruence _ _ L HA).
    assert (numer X ** (W ** mconj (denom X)) = mscal 14400 W +m mscal (-720) (X ** (W ** mconj X)) +m mscal 24 ((X ** X) ** (W ** mconj (X ** X)))
      +m mscal (-1) ((X ** (X ** X)) ** (W ** mconj (X ** (X ** X))))) as E.
    { unfold numer, denom. pose proof HC as HC'. unfold compatible in HC'. mpush. rewrite ?(one_r _ _ L), ?(one_l _ _ L) by auto.
      rewrite !(mmul_assoc _ _ L HA). 
      repeat (rewrite (one_r _ _ L) || rewrite (one_l _ _ L) || rewrite (mmul_assoc _ _ L HA)); auto.
      all: repeat (apply (clipped_mul A _ L) || apply (clipped_conj A _ L)); auto.
      assert (forall Y : M, X ** (W ** Y) = W ** (mconj X ** Y)) as HS.
      { intros Y. rewrite <- (mmul_assoc _ _ L HA), HC', (mmul_assoc _ _ L HA). auto. }
      repeat rewrite HS. rewrite HC'. repeat rewrite HS. mlin. }
    rewrite E, !(form_add _ _ L), !(form_scal _ _ L). ring.
  Qed.
  Lemma product_pos : forall v, nz A d v -> 0 < form d (numer X ** (W ** mconj (denom X))) v.
  Proof.
    intros v Hv. rewrite product_form. pose proof (proj2 HP v Hv) as H0.
    pose proof (HB v) as H1. pose proof (HB (mv A d (mconj (X ** X)) v)) as H3.
    replace (mv A d (mconj X) (mv A d (mconj (X ** X)) v)) with (mv A d (mconj (X ** (X ** X))) v) in H3.
    - pose proof (form_nonneg (mv A d (mconj (X ** X)) v)). nra.
    - rewrite <- (mv_mul _ _ L HA). f_equal. mpush. apply (mmul_assoc _ _ L HA).
  Qed.
  Lemma denom_conj_injective : injective A d (mconj (denom X)).
  Proof.
    intros v Hv. apply (nz_of A d). intros Hz. pose proof (product_pos v Hz) as H. rewrite (form_zero A _ L) in H; [lra|].
    intros r Hr. rewrite !(mv_mul _ _ L HA). apply (mv_zero A _ L). intros q Hq. apply (mv_zero A _ L). auto.
  Qed.
End Generic.

Section Pade.
  Notation A := reals.
  Notation L := laws_reals.
  Lemma HA : associative reals.
  Proof. intros x y z. cbn. ring. Qed.
  Variable d : nat.
  Notation M := (nat -> nat -> el A).
  Notation "X ** Y" := (mmul (A := reals) d X Y) (at level 40, left associativity).
  Notation "X +m Y" := (madd (A := reals) X Y) (at level 50, left associativity).
  Notation I := (one A d).

  Lemma ssum_reals : forall n (f : nat -> R), ssum (A := reals) n f = rsum n f.
  Proof. induction n; intros; cbn; auto; rewrite IHn; auto. Qed.
  Lemma rprod_mmul : forall X Y : M, rprod d X Y = X ** Y.
  Proof. intros. reflexivity. Qed.
  Lemma mv_reals : forall (X : M) v r, mv A d X v r = rsum d (fun t => X r t * v t).
  Proof. reflexivity. Qed.
  Lemma inj_invertible : forall X : M, injective A d X <-> JordanModel.invertible d X.
  Proof.
    intros X. unfold injective, JordanModel.invertible. split; intros H v Hv; apply H; intros r Hr; specialize (Hv r Hr); rewrite mv_reals in *; auto.
  Qed.

  Ltac mlin := fext; unfold madd, mscal; cbn [sadd sscal reals]; match goal with |- @eq _ ?a ?b => change (@eq R a b) end; field.
  Ltac mpush := repeat (rewrite (mmul_add_l _ _ L) || rewrite (mmul_add_r _ _ L) || rewrite (mmul_scal_l _ _ L)
    || rewrite (mmul_scal_r _ _ L) || rewrite (mconj_add _ _ L) || rewrite (mconj_scal _ _ L)
    || rewrite (mconj_mul _ _ L) || rewrite (mconj_mconj _ _ L) || rewrite (mconj_one _ _ L)).

  Lemma odd_clip : forall X : M, clip A d (odd_powers d X) = mscal 60 (clip A d X) +m clip A d X ** (clip A d X ** clip A d X).
  Proof.
    intros X. unfold odd_powers. rewrite rprod_mmul.
    replace (fun r c => 1 * rprod d X X r c + 60 * ridentity r c) with (X ** X +m mscal 60 mid).
    - rewrite (clip_mul _ _ L), (clip_add _ _ L), (clip_mul _ _ L), (clip_scal _ _ L). change (clip A d mid) with I. mpush.
      rewrite (one_r _ _ L) by apply clip_clip. mlin.
    - fext. unfold madd, mscal. rewrite <- rprod_mmul. unfold mid, ridentity. cbn [sadd sscal reals s1 s0]. match goal with |- @eq _ ?a ?b => change (@eq R a b) end. destruct (r =? c)%nat; ring.
  Qed.
  Lemma even_clip : forall X : M, clip A d (even_powers d X) = mscal 120 I +m mscal 12 (clip A d X ** clip A d X).
  Proof.
    intros X. replace (even_powers d X) with (mscal 120 mid +m mscal 12 (X ** X)).
    - rewrite (clip_add _ _ L), !(clip_scal _ _ L), (clip_mul _ _ L). auto.
    - fext. unfold even_powers, madd, mscal. rewrite <- rprod_mmul. unfold mid. cbn [sadd sscal reals s1 s0]. match goal with |- @eq _ ?a ?b => change (@eq R a b) end. destruct (r =? c)%nat; ring.
  Qed.
  Lemma denom_clip : forall X : M, clip A d (PadeDenominator d X) = denom A d (clip A d X).
  Proof.
    intros X. replace (PadeDenominator d X) with (mscal (A := reals) (-1) (odd_powers d X) +m even_powers d X).
    - rewrite (clip_add _ _ L), (clip_scal _ _ L), odd_clip, even_clip. unfold denom. mlin.
    - fext. unfold PadeDenominator, madd, mscal. cbn [sadd sscal reals]. match goal with |- @eq _ ?a ?b => change (@eq R a b) end; ring.
  Qed.
  Lemma numer_clip : forall X : M, clip A d (PadeNumerator d X) = numer A d (clip A d X).
  Proof.
    intros X. replace (PadeNumerator d X) with (odd_powers d X +m even_powers d X).
    - rewrite (clip_add _ _ L), odd_clip, even_clip. unfold numer. mlin.
    - reflexivity.
  Qed.

  Variables X W : M.
  Hypothesis HW : clipped A d W.
  Hypothesis HX : clipped A d X.
  Hypothesis HP : posdef d W.
  Hypothesis HC : compatible A d X W.
  Variable tau : R.
  Hypothesis Ht : tau < 20.
  Hypothesis HB : forall v, form d W (mv A d (mconj X) v) <= tau * form d W v.

  Notation conj_injective := (denom_conj_injective reals _ laws_reals HA d X W HW HX HP HC tau Ht HB).
  Lemma denom_injective : injective A d (denom A d X).
  Proof.
    intros v Hv. apply (nz_of A d). intros Hz.
    destruct (surjective d (mconj (denom A d X)) (proj1 (inj_invertible _) conj_injective) v) as (u & Hu).
    pose proof (ip_pos A _ L d v Hz) as H. assert (ip A d v v = 0) as E; [|lra].
    transitivity (ip A d (mv A d (mconj (denom A d X)) u) v).
    - unfold ip. f_equal. apply ssum_ext. intros r Hr. rewrite mv_reals, Hu by auto. auto.
    - rewrite <- (ip_adj _ _ L HA). unfold ip. apply (rsum_zero d). intros r Hr. rewrite Hv by auto. cbn. ring.
  Qed.
  Lemma ratio_posdef : forall E : M, clipped A d E -> denom A d X ** E = numer A d X ->
    posdef d (mscal (1 / 2) (E ** W +m mconj (E ** W))).
  Proof.
    intros E HE HD. split.
    - apply (herm_clip A _ L). f_equal. rewrite !(clip_scal _ _ L), !(clip_add _ _ L), !(clip_conj _ _ L).  mpush. mlin.
    - intros z Hz. rewrite (form_scal _ _ L), (form_add _ _ L), (form_conj _ _ L HA).
      destruct (surjective d (mconj (denom A d X)) (proj1 (inj_invertible _) conj_injective) z) as (u & Hu).
      assert (form d (E ** W) z = form d (numer A d X ** (W ** mconj (denom A d X))) u) as ->.
      { rewrite <- HD. rewrite (mmul_assoc _ _ L HA), <- (mmul_assoc _ _ L HA d E W), (form_congruence _ _ L HA).
        unfold form. f_equal. apply ssum_ext. intros r Hr. apply ssum_ext. intros c Hc. rewrite !mv_reals, !Hu by auto. auto. }
      assert (nz A d u) as Hnu.
      { destruct (classic (nz A d u)) as [H|H]; auto. exfalso. destruct Hz as (r & Hr & Hn). apply Hn. rewrite <- (Hu r Hr). apply rsum_zero.
        intros t Ht'. rewrite (nz_of A d u H t Ht'). cbn. ring. }
      pose proof (product_pos reals _ laws_reals HA d X W HW HX HP HC tau Ht HB u Hnu). lra.
  Qed.
  Lemma ratio_exists : exists E : M, clipped A d E /\ denom A d X ** E = numer A d X.
  Proof.
    assert (forall c, exists u : vec, forall r, (r < d)%nat -> rsum d (fun t => denom A d X r t * u t) = numer A d X r c) as H.
    { intros c. apply surjective. apply inj_invertible. apply denom_injective. }
    assert (forall q, exists E : M, forall r c, (r < d)%nat -> (c < q)%nat -> rsum d (fun t => denom A d X r t * E t c) = numer A d X r c) as HQ.
    { induction q.
      - exists (fun _ _ => 0). intros; lia.
      - destruct IHq as (E & HE). destruct (H q) as (u & Hu). exists (fun r c => if (c =? q)%nat then u r else E r c).
        intros r c Hr Hc. destruct (Nat.eqb_spec c q) as [->|]; auto. apply HE; auto. lia. }
    destruct (HQ d) as (E & HE). exists (clip A d E). split; [apply clip_clip|].
    rewrite <- (denom_clipped A _ L d X HX), <- (numer_clipped A _ L d X HX), <- (clip_mul _ _ L). apply clip_same. intros r c Hr Hc. rewrite <- rprod_mmul. apply HE; auto.
  Qed.
End Pade.

(** ** [TakeStep] of the real semidefinite constraint *)
(** [X^T v] for [X = W S + e I]. *)
Definition direction (d : nat) (WS : mat) (e : R) (v : vec) : vec := fun r => rsum d (fun t => WS t r * v t) + e * v r.

Section Step.
  Notation A := reals.
  Notation L := laws_reals.
  Variable d : nat.
  Variables W S WS W' : mat.
  Variable opt : step_options.
  Variable nu : R.
  Hypothesis HP : posdef (A := reals) d W.
  Hypothesis HS : hermitian_matrix (A := reals) d S.
  Hypothesis HWS : forall r c, (r < d)%nat -> (c < d)%nat -> WS r c = rsum d (fun t => W r t * S t c).
  Hypothesis Hnu : 0 <= nu.
  Hypothesis Hstep : Rabs (so_step_size opt) * nu <= sqrt 2.
  Hypothesis HB : forall v, form (A := reals) d W (direction d WS (so_e_weight opt) v) <= nu * nu * form (A := reals) d W v.
  Let Wc : amat reals := clip A d W.
  Let Xc : amat reals := clip A d (GeodesicArgument WS opt).

  Lemma argument_clip : Xc = mscal (so_step_size opt) (madd (mmul d Wc (clip A d S)) (mscal (so_e_weight opt) (one A d))).
  Proof.
    unfold Xc, Wc. rewrite <- (clip_mul _ _ L). unfold one. rewrite <- (clip_scal _ _ L), <- (clip_add _ _ L), <- (clip_scal _ _ L).
    apply clip_same. intros r c Hr Hc. unfold GeodesicArgument, mscal, madd.
    assert (mmul (A := reals) d W S r c = WS r c) as -> by (rewrite HWS by auto; reflexivity).
    unfold mid. cbn [sadd sscal s1 s0 reals]. destruct (Req_EM_T (so_step_size opt) 1) as [->|]; destruct (r =? c)%nat; cbn; ring.
  Qed.
  Lemma Wc_posdef : posdef d Wc.
  Proof. apply (posdef_same A _ L d W); auto. apply clip_same. unfold Wc. rewrite clip_clip. auto. Qed.
  Lemma Xc_compatible : compatible A d Xc Wc.
  Proof.
    rewrite argument_clip. apply (comp_scal A _ L). apply (comp_add A _ L).
    - apply (comp_slack A _ L HA); apply (herm_clip A _ L); auto. apply HP.
    - apply (comp_scal A _ L), (comp_one A _ L), clip_clip.
  Qed.
  Lemma Xc_bound : forall v, form d Wc (mv A d (mconj Xc) v) <= 2 * form d Wc v.
  Proof.
    intros v.
    assert (form d Wc (mv A d (mconj Xc) v) = so_step_size opt * so_step_size opt * form (A := reals) d W (direction d WS (so_e_weight opt) v)) as ->.
    { unfold Wc at 1. rewrite form_clip. unfold form. cbn [sre reals].
      change (rsum d (fun r => rsum d (fun c => mv A d (mconj Xc) v r * (W r c * mv A d (mconj Xc) v c))) =
        so_step_size opt * so_step_size opt * rsum d (fun r => rsum d (fun c => direction d WS (so_e_weight opt) v r * (W r c * direction d WS (so_e_weight opt) v c)))).
      assert (forall r, (r < d)%nat -> mv A d (mconj Xc) v r = so_step_size opt * direction d WS (so_e_weight opt) v r) as E.
      { intros r Hr. change (rsum d (fun t => Xc t r * v t) = so_step_size opt * direction d WS (so_e_weight opt) v r).
        unfold direction. assert (so_e_weight opt * v r = rsum d (fun t => if (t =? r)%nat then so_e_weight opt * v t else 0)) as ->.
        { symmetry. rewrite (rsum_single d r); auto; [rewrite Nat.eqb_refl; auto|]. intros i _ Hi. assert ((i =? r)%nat = false) as -> by (apply Nat.eqb_neq; auto). auto. }
        rewrite <- rsum_plus, <- rsum_scal. apply rsum_ext. intros t Ht. unfold Xc, clip, GeodesicArgument.
        apply Nat.ltb_lt in Hr, Ht. rewrite Hr, Ht. destruct (Req_EM_T (so_step_size opt) 1) as [->|]; destruct (t =? r)%nat; ring. }
      rewrite <- rsum_scal. apply rsum_ext. intros r Hr. rewrite <- rsum_scal. apply rsum_ext. intros c Hc. rewrite !E by auto. ring. }
    assert (form d Wc v = form (A := reals) d W v) as -> by apply form_clip.
    specialize (HB v). assert (0 <= form (A := reals) d W v) as H0.
    { pose proof (form_nonneg A _ L d Wc Wc_posdef v) as H. unfold Wc in H. rewrite form_clip in H. auto. }
    set (f := form (A := reals) d W v) in *. set (g := form (A := reals) d W _) in *.
    set (s := so_step_size opt) in *.
    assert (sqrt 2 * sqrt 2 = 2) as H2 by (apply sqrt_sqrt; lra). pose proof (sqrt_pos 2).
    assert (s * s = Rabs s * Rabs s) as ES by (rewrite <- Rabs_mult; symmetry; apply Rabs_pos_eq; nra).
    assert ((s * s) * (nu * nu) <= 2) as H3. { rewrite ES. pose proof (Rabs_pos s). assert (0 <= Rabs s * nu) by nra. nra. }
    assert (0 <= s * s) by nra. nra.
  Qed.

  Lemma pade_invertible : JordanModel.invertible d (PadeDenominator d (GeodesicArgument WS opt)).
  Proof.
    assert (JordanModel.invertible d (denom A d Xc)) as H.
    { apply inj_invertible. apply (denom_injective d Xc Wc (clip_clip _ _ _) (clip_clip _ _ _) Wc_posdef Xc_compatible 2); [lra|]. apply Xc_bound. }
    intros v Hv. apply H. intros r Hr. rewrite <- (Hv r Hr). apply rsum_ext. intros t Ht. f_equal.
    unfold Xc. rewrite <- denom_clip. unfold clip. apply Nat.ltb_lt in Hr, Ht. rewrite Hr, Ht. auto.
  Qed.
  Lemma pade_posdef : PTakeStep d W WS opt W' -> posdef (A := reals) d W'.
  Proof.
    intros (E & HE & HW'). specialize (HE pade_invertible).
    assert (mmul d (denom A d Xc) (clip A d E) = numer A d Xc) as HD.
    { unfold Xc. rewrite <- denom_clip, <- numer_clip, <- (clip_mul _ _ L). apply clip_same. exact HE. }
    pose proof (ratio_posdef d Xc Wc (clip_clip _ _ _) (clip_clip _ _ _) Wc_posdef Xc_compatible 2 ltac:(lra) Xc_bound (clip A d E) (clip_clip _ _ _) HD) as H.
    revert H. apply (posdef_same A _ L). intros r c Hr Hc. rewrite HW' by auto. unfold mscal, madd, mconj, Wc.
    assert (forall r c, (r < d)%nat -> (c < d)%nat -> mmul d (clip A d E) (clip A d W) r c = rprod d E W r c) as EM.
    { intros a b Ha Hb. rewrite <- (clip_mul _ _ L). unfold clip. apply Nat.ltb_lt in Ha, Hb. rewrite Ha, Hb. reflexivity. }
    rewrite !EM by auto. cbn. ring.
  Qed.
  Lemma pade_exists : exists W1, PTakeStep d W WS opt W1.
  Proof.
    destruct (ratio_exists d Xc Wc (clip_clip _ _ _) (clip_clip _ _ _) Wc_posdef Xc_compatible 2 ltac:(lra) Xc_bound) as (E & HE1 & HE2).
    exists (fun r c => (rprod d E W r c + rprod d E W c r) * (1 / 2)). exists E. split; auto.
    intros _ r c Hr Hc.
    assert (clip A d (mmul (A := reals) d (PadeDenominator d (GeodesicArgument WS opt)) E) = clip A d (PadeNumerator d (GeodesicArgument WS opt))) as H.
    { rewrite (clip_mul _ _ L), denom_clip, numer_clip. fold Xc. rewrite HE1. exact HE2. }
    apply clip_same in H. apply H; auto.
  Qed.
End Step.
