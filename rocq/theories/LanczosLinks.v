(** The two versions of the recurrence as instances of the abstract one. *)
From Coq Require Import List Arith Reals Lra Lia FunctionalExtensionality.
From Verif Require Import Base DenseModel RSum JordanModel LanczosModel Spec_Hyper Spec_Lanczos HyperFacts JordanProofs LanczosProofs.
Import ListNotations.
Open Scope R_scope.

Section Instance.
  Variable A : star.
  Variable co : nat -> el A -> R.
  Hypothesis L : laws A co.
  Hypothesis HA : associative A.
  Variable d : nat.
  Variables W S : amat A.
  Hypothesis HW : hermitian_matrix d W.
  Hypothesis HS : hermitian_matrix d S.
  Hypothesis Hpsd : forall z, 0 <= form d W z.
  Notation mv := (mv A). Notation ip := (ip A).

  Lemma mv_ext X Y u v r : (forall c, (c < d)%nat -> X r c = Y r c) -> (forall c, (c < d)%nat -> u c = v c) -> mv d X u r = mv d Y v r.
  Proof. intros HX Hu. unfold mv. apply (ssum_ext A). intros. rewrite HX, Hu by auto. auto. Qed.
  Lemma ip_ext u v u' v' : (forall r, (r < d)%nat -> u r = u' r) -> (forall r, (r < d)%nat -> v r = v' r) -> ip d u v = ip d u' v'.
  Proof. intros H1 H2. unfold ip. f_equal. apply (ssum_ext A). intros. rewrite H1, H2 by auto. auto. Qed.
  Lemma ip_comm u v : ip d u v = ip d v u.
  Proof.
    unfold ip. rewrite <- (re_conj A co L). f_equal. rewrite (ssum_conj A co L). apply (ssum_ext A). intros.
    rewrite (conj_mul A co L), (conj_conj A co L). auto.
  Qed.
  Lemma ip_plus u v w : ip d u (fun r => sadd (v r) (w r)) = ip d u v + ip d u w.
  Proof. unfold ip. rewrite <- (re_add A co L), <- (ssum_add A co L). f_equal. apply (ssum_ext A). intros. apply (mul_add_r A co L). Qed.
  Lemma ip_times u v s : ip d u (fun r => sscal s (v r)) = s * ip d u v.
  Proof. unfold ip. rewrite <- (re_scal A co L), <- (ssum_scal A co L). f_equal. apply (ssum_ext A). intros. apply (mul_scal_r A co L). Qed.
  Lemma mv_plus X v w : mv d X (fun r => sadd (v r) (w r)) = fun r => sadd (mv d X v r) (mv d X w r).
  Proof. apply functional_extensionality. intros r. unfold mv. rewrite <- (ssum_add A co L). apply (ssum_ext A). intros. apply (mul_add_r A co L). Qed.
  Lemma mv_times X v s : mv d X (fun r => sscal s (v r)) = fun r => sscal s (mv d X v r).
  Proof. apply functional_extensionality. intros r. unfold mv. rewrite <- (ssum_scal A co L). apply (ssum_ext A). intros. apply (mul_scal_r A co L). Qed.
  Lemma herm_adj X u v : hermitian_matrix d X -> ip d u (mv d X v) = ip d (mv d X u) v.
  Proof. intros HX. rewrite (ip_adj A co L HA). apply ip_ext; auto. intros r Hr. apply mv_ext; auto. Qed.

  Variables (E : Type) (add : E -> E -> E) (scale : E -> R -> E) (ipE : E -> E -> R) (op : E -> E).
  Variables (c0 c1 : E -> nat -> el A).
  Hypothesis c0_add : forall x y, c0 (add x y) = fun r => sadd (c0 x r) (c0 y r).
  Hypothesis c1_add : forall x y, c1 (add x y) = fun r => sadd (c1 x r) (c1 y r).
  Hypothesis c0_scale : forall x s, c0 (scale x s) = fun r => sscal s (c0 x r).
  Hypothesis c1_scale : forall x s, c1 (scale x s) = fun r => sscal s (c1 x r).
  Hypothesis ipE_def : forall x y, ipE x y = ip d (c0 x) (c1 y).
  Hypothesis c0_op : forall x, c0 (op x) = mv d (mmul d W S) (c0 x).
  Hypothesis c1_op : forall x, c1 (op x) = mv d (mconj (mmul d W S)) (c1 x).

  (** The first column is [W] times the second. *)
  Definition linked (x : E) : Prop := forall r, (r < d)%nat -> c0 x r = mv d W (c1 x) r.

  Lemma adj_product u r : (r < d)%nat -> mv d (mconj (mmul d W S)) u r = mv d S (mv d W u) r.
  Proof.
    intros Hr. rewrite <- (mv_mul A co L HA). apply mv_ext; auto. intros c Hc. rewrite (mconj_mul A co L). unfold mmul. apply (ssum_ext A).
    intros t Ht. rewrite (HW t c), (HS r t) by auto. auto.
  Qed.
  Lemma linked_ip x y : linked x -> ipE x y = ip d (c1 x) (mv d W (c1 y)).
  Proof. intros Hx. rewrite ipE_def, herm_adj by auto. apply ip_ext; auto. Qed.
  Lemma linked_norm x : linked x -> ipE x x = form d W (c1 x).
  Proof. intros. rewrite linked_ip by auto. symmetry. apply (form_ip A co L). Qed.
  Lemma linked_op_value x : linked x -> forall r, (r < d)%nat -> c1 (op x) r = mv d S (mv d W (c1 x)) r.
  Proof. intros Hx r Hr. rewrite c1_op. apply adj_product. auto. Qed.
  Lemma linked_add x y : linked x -> linked y -> linked (add x y).
  Proof. intros Hx Hy r Hr. rewrite c0_add, c1_add, mv_plus, Hx, Hy by auto. auto. Qed.
  Lemma linked_scale x s : linked x -> linked (scale x s).
  Proof. intros Hx r Hr. rewrite c0_scale, c1_scale, mv_times, Hx by auto. auto. Qed.
  Lemma linked_op x : linked x -> linked (op x).
  Proof.
    intros Hx r Hr. rewrite c0_op, (mv_mul A co L HA), c1_op. apply mv_ext; auto. intros c Hc. rewrite adj_product by auto. apply mv_ext; auto.
  Qed.
  Lemma linked_sym x y : linked x -> linked y -> ipE x y = ipE y x.
  Proof. intros Hx Hy. rewrite linked_ip by auto. rewrite ip_comm, ipE_def. apply ip_ext; auto. intros. symmetry. auto. Qed.
  Lemma op_value x y : linked x -> ipE x (op y) = ip d (mv d W (c1 x)) (mv d S (mv d W (c1 y))).
  Proof. intros Hx. rewrite ipE_def. apply ip_ext; auto. intros r Hr. rewrite c1_op. apply adj_product. auto. Qed.
  Lemma op_symmetric x y : linked x -> linked y -> ipE x (op y) = ipE y (op x).
  Proof. intros Hx Hy. rewrite !op_value by auto. rewrite herm_adj by auto. apply ip_comm. Qed.
  Lemma op_weighted x : linked x -> ipE x (op x) = weighted d W S (c1 x).
  Proof.
    intros Hx. rewrite op_value by auto. unfold weighted. rewrite (form_ip A co L), !(mv_mul A co L HA). rewrite <- herm_adj by auto. auto.
  Qed.

  Lemma estimate th num V al be lam : (forall x, 0 <= x -> 0 <= th x) -> linked V ->
    lanczos E add scale ipE op th num V = Some (al, be) -> is_eigenvalue al be lam ->
    exists z, 0 < form d W z /\ weighted d W S z = lam * form d W z /\
      ((length al < num)%nat -> forall eps,
       (let v := scale V (1 / sqrt (ipE V V)) in th (ipE (op v) (op v)) <= eps * eps) -> near_eigenvector d W S lam eps z).
  Proof.
    intros Hth HV HL HE.
    destruct (ritz E add scale ipE op linked linked_add linked_scale linked_op) with (th := th) (num := num) (V := V) (al := al) (be := be) (lam := lam)
      as (x & Hx & Hp & Hq & Hr); auto.
    - intros x y z Hx Hy Hz. rewrite !ipE_def, c1_add. apply ip_plus.
    - intros x y s Hx Hy. rewrite !ipE_def, c1_scale. apply ip_times.
    - apply linked_sym.
    - apply op_symmetric.
    - intros x Hx. apply Hth. rewrite linked_norm by auto. apply Hpsd.
    - exists (c1 x). rewrite <- linked_norm, <- op_weighted by auto. split; [auto|]. split; [auto|].
      intros Hl eps He. specialize (Hr Hl). cbv zeta in Hr, He. split; [rewrite <- linked_norm; auto|].
      set (r := add (op x) (scale x (- lam))) in *. assert (linked r) as Hlr by (apply linked_add; [apply linked_op|apply linked_scale]; auto).
      apply Rle_trans with (ipE r r).
      + right. rewrite linked_norm by auto. rewrite !(form_ip A co L). 
        assert (forall i, (i < d)%nat -> c1 r i = sadd (act d S (act d W (c1 x)) i) (sscal (- lam) (c1 x i))) as Er.
        { intros i Hi. unfold r. rewrite c1_add, c1_scale, linked_op_value by auto. auto. }
        apply ip_ext; [intros; symmetry; auto|]. intros i Hi. apply mv_ext; auto. intros; symmetry; auto.
      + eapply Rle_trans; [exact Hr|]. rewrite (linked_norm x) by auto. apply Rmult_le_compat_r; auto.
  Qed.

  Lemma bound t x : 0 <= t -> spectrum_between d W S (- t) t -> linked x -> ipE (op x) (op x) <= t * t * ipE x x.
  Proof.
    intros Ht HB Hx. apply (op_bound E add scale ipE op linked linked_add linked_scale linked_op); auto.
    - intros u y z Hu Hy Hz. rewrite !ipE_def, c1_add. apply ip_plus.
    - intros u y s Hu Hy. rewrite !ipE_def, c1_scale. apply ip_times.
    - apply linked_sym.
    - apply op_symmetric.
    - intros y Hy. rewrite op_weighted, linked_norm by auto. specialize (HB (c1 y)). apply Rabs_le. lra.
  Qed.
End Instance.

(** ** approximate_eigenvalues.cc *)
Lemma mv_real d (X : mat) (v : vec) r : mv reals d X v r = rsum d (fun t => X r t * v t).
Proof. unfold mv. induction d; cbn; auto. Qed.
Lemma ip_real d (u v : vec) : ip reals d u v = rsum d (fun t => u t * v t).
Proof. unfold ip. induction d; cbn in *; auto. Qed.
Lemma mmul_real d (X Y : mat) : mmul (A := reals) d X Y = rprod d X Y.
Proof. fext. unfold mmul, rprod. induction d; cbn in *; auto. Qed.
Lemma assoc_reals : associative reals.
Proof. intros x y z. cbn. ring. Qed.

Section RealInstance.
  Variables (d : nat) (W S : mat).
  Hypothesis HW : possemidef (A := reals) d W.
  Hypothesis HS : hermitian_matrix (A := reals) d S.
  Lemma real_estimate r num al be lam : AsymmetricLanczos d (rprod d W S) W r num = Some (al, be) -> is_eigenvalue al be lam ->
    exists z, 0 < form (A := reals) d W z /\ weighted (A := reals) d W S z = lam * form (A := reals) d W z /\
      ((length al < num)%nat -> near_eigenvector (A := reals) d W S lam (1 / 1000) z).
  Proof.
    intros HL HE. unfold AsymmetricLanczos in HL.
    destruct (estimate reals _ laws_reals assoc_reals d W S (proj1 HW) HS (proj2 HW) columns columns_add columns_scale (inner_product d) (apply_both d (rprod d W S)) (@fst vec vec) (@snd vec vec))
      with (th := fun _ : R => 1 / 10 ^ 6) (num := num) (V := ((fun i => rsum d (fun t => W i t * r t), r) : columns)) (al := al) (be := be) (lam := lam) as (z & H1 & H2 & H3); auto.
    - intros x s. apply functional_extensionality. intros i. cbn. ring.
    - intros x s. apply functional_extensionality. intros i. cbn. ring.
    - intros. lra.
    - intros i Hi. cbn [fst snd]. rewrite mv_real. reflexivity.
    - exists z. split; [auto|]. split; [auto|]. intros Hl. apply H3; auto. cbv zeta. lra.
  Qed.
End RealInstance.

(** ** jordan_matrix_algebra.cc *)
Lemma re_read : forall k f, sre (read k f) = f 0%nat.
Proof. induction k; intros f; cbn; auto. Qed.
Definition column (k : nat) (X : hyper) : nat -> el (cd k) := fun r => matrix_of k X r 0%nat.
Section HyperInstance.
  Variables (k d : nat) (W S : hyper).
  Hypothesis Hk : (k <= 2)%nat.
  Hypothesis HW : possemidef d (matrix_of k W).
  Hypothesis HS : hermitian_matrix d (matrix_of k S).
  Notation n := (2 ^ k)%nat.
  Lemma column_multiply X Y : column k (Multiply n d X Y) = mv (cd k) d (matrix_of k X) (column k Y).
  Proof. apply functional_extensionality. intros r. unfold column. rewrite of_multiply by lia. reflexivity. Qed.
  Lemma hinner_ip V U : hinner_product n d V U = ip (cd k) d (column k (fst V)) (column k (snd U)).
  Proof.
    unfold hinner_product. transitivity (sre (matrix_of k (Multiply n d (ConjugateTranspose (fst V)) (snd U)) 0%nat 0%nat)).
    - unfold matrix_of. rewrite re_read. reflexivity.
    - rewrite of_multiply, of_conj by lia. reflexivity.
  Qed.
  Lemma hyper_estimate r num al be lam : HApproximateEigenvalues n d (Multiply n d W S) W r num = Some (al, be) -> is_eigenvalue al be lam ->
    exists z, 0 < form d (matrix_of k W) z /\ weighted d (matrix_of k W) (matrix_of k S) z = lam * form d (matrix_of k W) z /\
      ((length al < num)%nat -> forall t eps, 0 <= t -> spectrum_between d (matrix_of k W) (matrix_of k S) (- t) t -> t * t <= 10 ^ 5 * (eps * eps) ->
       near_eigenvector d (matrix_of k W) (matrix_of k S) lam eps z).
  Proof.
    intros HL HE. unfold HApproximateEigenvalues in HL.
    set (V := ((Multiply n d W r, r) : hcolumns)) in *. set (WS := Multiply n d W S) in *.
    assert (forall x y, column k (fst (hcolumns_add x y)) = fun r0 => sadd (column k (fst x) r0) (column k (fst y) r0)) as A1 by (intros x y; unfold column; cbn [hcolumns_add fst]; rewrite of_add; reflexivity).
    assert (forall x y, column k (snd (hcolumns_add x y)) = fun r0 => sadd (column k (snd x) r0) (column k (snd y) r0)) as A2 by (intros x y; unfold column; cbn [hcolumns_add snd]; rewrite of_add; reflexivity).
    assert (forall x s, column k (fst (hcolumns_scale x s)) = fun r0 => sscal s (column k (fst x) r0)) as A3 by (intros x s; unfold column; cbn [hcolumns_scale fst]; rewrite of_scal; reflexivity).
    assert (forall x s, column k (snd (hcolumns_scale x s)) = fun r0 => sscal s (column k (snd x) r0)) as A4 by (intros x s; unfold column; cbn [hcolumns_scale snd]; rewrite of_scal; reflexivity).
    assert (forall x, column k (fst (happly_both n d WS x)) = mv (cd k) d (mmul d (matrix_of k W) (matrix_of k S)) (column k (fst x))) as A5
      by (intros x; cbn [happly_both fst]; unfold WS; rewrite column_multiply, of_multiply by lia; reflexivity).
    assert (forall x, column k (snd (happly_both n d WS x)) = mv (cd k) d (mconj (mmul d (matrix_of k W) (matrix_of k S))) (column k (snd x))) as A6
      by (intros x; cbn [happly_both snd]; unfold WS; rewrite column_multiply, of_conj, of_multiply by lia; reflexivity).
    pose proof (linked_norm (cd k) _ (laws_cd k) (assoc_cd k Hk) d (matrix_of k W) (proj1 HW) hcolumns (hinner_product n d) (fun V => column k (fst V)) (fun V => column k (snd V)) hinner_ip) as HN.
    assert (linked (cd k) d (matrix_of k W) hcolumns (fun V => column k (fst V)) (fun V => column k (snd V)) V) as HV by (intros i Hi; cbn [V fst snd]; rewrite column_multiply; reflexivity).
    pose proof (estimate (cd k) _ (laws_cd k) (assoc_cd k Hk) d (matrix_of k W) (matrix_of k S) (proj1 HW) HS (proj2 HW) hcolumns hcolumns_add hcolumns_scale
        (hinner_product n d) (happly_both n d WS) (fun V => column k (fst V)) (fun V => column k (snd V)) A1 A2 A3 A4 hinner_ip A5 A6
        (fun s : R => 1 / 10 ^ 5 * s) num V al be lam ltac:(intros; lra) HV HL HE) as HX.
    destruct HX as (z & H1 & H2 & H3). exists z. split; [exact H1|]. split; [exact H2|]. intros Hl t eps Ht HB He. apply H3; auto. cbv zeta.
    assert (0 < hinner_product n d V V) as HP.
    { unfold lanczos in HL. destruct num; [discriminate|]. destruct (Rle_dec (hinner_product n d V V) 0); [discriminate|lra]. }
    set (v := hcolumns_scale V (1 / sqrt (hinner_product n d V V))).
    assert (linked (cd k) d (matrix_of k W) hcolumns (fun V => column k (fst V)) (fun V => column k (snd V)) v) as Hv.
    { apply (linked_scale (cd k) _ (laws_cd k) d (matrix_of k W) hcolumns hcolumns_scale (fun V => column k (fst V)) (fun V => column k (snd V)) A3 A4). exact HV. }
    assert (hinner_product n d v v = 1) as HU.
    { assert (forall s, hinner_product n d (hcolumns_scale V s) (hcolumns_scale V s) = s * s * hinner_product n d V V) as EQ.
      { intros s. rewrite !hinner_ip, A4, (ip_times (cd k) _ (laws_cd k)), (ip_comm (cd k) _ (laws_cd k)), A3, (ip_times (cd k) _ (laws_cd k)), (ip_comm (cd k) _ (laws_cd k)). ring. }
      unfold v. rewrite EQ.
      assert (0 < sqrt (hinner_product n d V V)) by (apply sqrt_lt_R0; auto). assert (sqrt (hinner_product n d V V) * sqrt (hinner_product n d V V) = hinner_product n d V V) as E0 by (apply R_sqrt.sqrt_def; lra).
      rewrite <- E0 at 3. field. lra. }
    pose proof (bound (cd k) _ (laws_cd k) (assoc_cd k Hk) d (matrix_of k W) (matrix_of k S) (proj1 HW) HS hcolumns hcolumns_add hcolumns_scale
        (hinner_product n d) (happly_both n d WS) (fun V => column k (fst V)) (fun V => column k (snd V)) A1 A2 A3 A4 hinner_ip A5 A6 t v Ht HB Hv) as HO.
    rewrite HU in HO. lra.
  Qed.
End HyperInstance.
