(** The recurrence on pairs of columns, and the polynomials that stand for them. *)
From Coq Require Import List Arith Reals Lra Lia FunctionalExtensionality.
From Verif Require Import Base DenseModel RSum JordanModel LanczosModel EstimateModel Spec_Hyper Spec_Lanczos Spec_Estimate HyperFacts JordanProofs
  LanczosProofs LanczosLinks LanczosFacts LanczosReports RealFactor PadeProofs EstimateProofs EstimateLinks.
Import ListNotations.
Open Scope R_scope.

(** ** Pairs of columns *)
Section Columns.
  Variables (d : nat) (W S : mat).
  Hypothesis HW : posdef (A := reals) d W.
  Hypothesis HS : hermitian_matrix (A := reals) d S.
  Notation WS := (rprod d W S).
  Notation P := (linked reals d W columns (@fst vec vec) (@snd vec vec)).
  Notation ip := (inner_product d).
  Notation op := (apply_both d WS).

  Lemma zero_or_not (x : vec) : (exists i, (i < d)%nat /\ x i <> 0) \/ (forall i, (i < d)%nat -> x i = 0).
  Proof.
    clear. induction d as [|n IH]; [right; intros; lia|]. destruct IH as [(i & Hi & Hx)|IH]; [left; exists i; auto with arith|].
    destruct (Req_dec (x n) 0) as [E|E]; [right|left; exists n; auto]. intros i Hi. destruct (Nat.eq_dec i n) as [->|]; auto. apply IH. lia.
  Qed.
  Lemma posdef_psd z : 0 <= form (A := reals) d W z.
  Proof.
    destruct (zero_or_not z) as [H|H]; [left; apply HW; exact H|]. right. symmetry. rewrite rform_form. unfold rform.
    apply rsum_zero. intros i Hi. apply rsum_zero. intros j Hj. rewrite (H i) by auto. ring.
  Qed.
  Lemma posdef_null z : form (A := reals) d W z = 0 -> forall i, (i < d)%nat -> z i = 0.
  Proof. intros H0. destruct (zero_or_not z) as [H|H]; auto. exfalso. apply (proj2 HW) in H. lra. Qed.
  Lemma posdef_invertible : JordanModel.invertible d W.
  Proof.
    intros z Hz i Hi. apply posdef_null; auto. rewrite rform_form. unfold rform. apply rsum_zero. intros k Hk. rewrite rsum_scal, Hz by auto. ring.
  Qed.

  Lemma c_add x y : P x -> P y -> P (columns_add x y).
  Proof. apply (linked_add reals _ laws_reals d W columns columns_add); auto. Qed.
  Lemma c_scale x s : P x -> P (columns_scale x s).
  Proof. apply (linked_scale reals _ laws_reals d W columns columns_scale); intros; apply functional_extensionality; intros; cbn; ring. Qed.
  Lemma c_op x : P x -> P (op x).
  Proof. apply (linked_op reals _ laws_reals assoc_reals d W S (proj1 HW) HS columns op); auto. Qed.
  Lemma c_ip_add x y z : ip x (columns_add y z) = ip x y + ip x z.
  Proof. unfold inner_product. rewrite <- rsum_plus. apply rsum_ext. intros. cbn. ring. Qed.
  Lemma c_ip_scale x y s : ip x (columns_scale y s) = s * ip x y.
  Proof. unfold inner_product. rewrite <- rsum_scal. apply rsum_ext. intros. cbn. ring. Qed.
  Lemma c_sym x y : P x -> P y -> ip x y = ip y x.
  Proof. apply (linked_sym reals _ laws_reals assoc_reals d W (proj1 HW) columns ip); auto. Qed.
  Lemma c_op_sym x y : P x -> P y -> ip x (op y) = ip y (op x).
  Proof. apply (op_symmetric reals _ laws_reals assoc_reals d W S (proj1 HW) HS columns ip op); auto. Qed.
  Lemma c_norm x : P x -> ip x x = form (A := reals) d W (snd x).
  Proof. apply (linked_norm reals _ laws_reals assoc_reals d W (proj1 HW) columns ip); auto. Qed.
  Lemma c_pos x : P x -> 0 <= ip x x.
  Proof. intros Hx. rewrite c_norm by auto. apply posdef_psd. Qed.

  Section Run.
    Variables (th : R -> R) (V : columns) (num : nat) (al be : list R).
    Hypothesis Hth : forall x, 0 <= th x.
    Hypothesis HV : P V.
    Hypothesis HL : lanczos columns columns_add columns_scale ip op th num V = Some (al, be).

    Lemma columns_short : (length al <= d)%nat.
    Proof.
      eapply (lanczos_short columns) with (P := P) (d := d) (fl := fst) (co := snd) in HL; auto using c_add, c_scale, c_op, c_ip_add, c_ip_scale, c_sym, c_op_sym.
    Qed.
    Lemma columns_ritz lam : is_eigenvalue al be lam ->
      exists z, 0 < form (A := reals) d W z /\ weighted (A := reals) d W S z = lam * form (A := reals) d W z.
    Proof.
      intros HE.
      destruct (estimate reals _ laws_reals assoc_reals d W S (proj1 HW) HS posdef_psd columns columns_add columns_scale ip op (@fst vec vec) (@snd vec vec))
        with (th := th) (num := num) (V := V) (al := al) (be := be) (lam := lam) as (z & H1 & H2 & _); eauto;
        intros; apply functional_extensionality; intros; cbn; ring.
    Qed.
    Lemma columns_exact lam : length al = d -> (is_eigenvalue al be lam <-> eigenvalue_of d WS lam).
    Proof.
      intros Hn.
      assert (is_eigenvalue al be lam <-> exists x, P x /\ 0 < ip x x /\ forall y, P y -> ip y (op x) = lam * ip y x) as ->.
      { eapply (full_spectrum columns) with (P := P) (d := d) (fl := fst) (co := snd); eauto using c_add, c_scale, c_op, c_sym, c_op_sym, c_pos.
        - intros. apply c_ip_add.
        - intros. apply c_ip_scale. }
      split.
      - intros (x & Hx & Hp & HE). exists (fst x). split.
        + destruct (rsum_witness d (fun i => fst x i * snd x i)) as (i & Hi & Hxi); [apply Rgt_not_eq; exact Hp|]. exists i. split; auto.
          intros H0. apply Hxi. rewrite H0. ring.
        + set (w := columns_add (op x) (columns_scale x (- lam))). assert (P w) as Hw by (apply c_add; [apply c_op|apply c_scale]; auto).
          assert (ip w w = 0) as H0 by (unfold w at 2; rewrite c_ip_add, c_ip_scale, HE by auto; ring).
          rewrite c_norm in H0 by auto. pose proof (posdef_null _ H0) as Hz.
          intros i Hi. rewrite act_real. assert (fst w i = 0) as Hwi.
          { rewrite Hw by auto. rewrite mv_real. apply rsum_zero. intros t Ht. rewrite Hz by auto. ring. }
          unfold w in Hwi. cbn in Hwi. unfold times. lra.
      - intros (z & (i & Hi & Hz) & HE). destruct (surjective d W posdef_invertible z) as (u & Hu). set (x := (z, u) : columns).
        assert (P x) as Hx by (intros r Hr; cbn [fst snd x]; rewrite mv_real, Hu by auto; auto). exists x. split; [auto|]. split.
        + rewrite c_norm by auto. apply HW. destruct (zero_or_not u) as [H|H]; [exact H|]. exfalso. apply Hz. rewrite <- Hu by auto.
          apply rsum_zero. intros t Ht. rewrite H by auto. ring.
        + intros y Hy. rewrite (c_sym y (op x)), (c_sym y x) by auto using c_op. unfold inner_product. rewrite <- rsum_scal. apply rsum_ext.
          intros k Hk. cbn [fst x apply_both]. specialize (HE k Hk). rewrite act_real in HE. unfold times in HE. rewrite HE. ring.
    Qed.
  End Run.
  Lemma columns_length th V num al be : th = (fun _ : R => 0) -> P V -> lanczos columns columns_add columns_scale ip op th num V = Some (al, be) -> length al = num.
  Proof. intros -> HV HL. eapply (lanczos_length columns) with (P := P) in HL; auto using c_add, c_scale, c_op, c_pos. Qed.
End Columns.

(** ** Polynomials *)
Section Polynomials.
  Variables (d : nat) (A W : mat) (r : vec).
  Notation power := (power d A).
  Notation PIP := (PolynomialInnerProduct d A W r).
  Notation ip := (inner_product d).
  Notation op := (apply_both d A).

  Lemma power_comm k i j : (i < d)%nat -> (j < d)%nat -> rsum d (fun t => power k i t * A t j) = rsum d (fun t => A i t * power k t j).
  Proof.
    revert i j. induction k; intros i j Hi Hj.
    - rewrite (rsum_single d i), (rsum_single d j); auto; cbn; rewrite ?Nat.eqb_refl; try ring.
      + intros t Ht Hn. apply Nat.eqb_neq in Hn. rewrite Hn. ring.
      + intros t Ht Hn. apply Nat.eqb_neq in Hn. rewrite Nat.eqb_sym, Hn. ring.
    - cbn [EstimateModel.power].
      rewrite (rsum_ext _ _ (fun t => rsum d (fun s => A i s * (power k s t * A t j)))) by (intros; rewrite <- rsum_scal_r; apply rsum_ext; intros; ring).
      rewrite rsum_swap. apply rsum_ext. intros s Hs. rewrite rsum_scal, IHk by auto. auto.
  Qed.

  Definition left (k i : nat) : R := rsum d (fun t => power k i t * rsum d (fun s => W t s * r s)).
  Definition right (k i : nat) : R := rsum d (fun t => power k t i * r t).
  (** The pair of columns a polynomial with [m] coefficients stands for. *)
  Definition pair (m : nat) (p : vec) : columns := (fun i => rsum m (fun k => p k * left k i), fun i => rsum m (fun k => p k * right k i)).

  Lemma left_next k i : left (S k) i = rsum d (fun t => A i t * left k t).
  Proof.
    unfold left. cbn [EstimateModel.power].
    rewrite (rsum_ext _ _ (fun t => rsum d (fun s => A i s * (power k s t * rsum d (fun s => W t s * r s))))) by (intros; rewrite <- rsum_scal_r; apply rsum_ext; intros; ring).
    rewrite rsum_swap. apply rsum_ext. intros. rewrite rsum_scal. auto.
  Qed.
  Lemma right_next k i : (i < d)%nat -> right (S k) i = rsum d (fun t => A t i * right k t).
  Proof.
    intros Hi. unfold right. cbn [EstimateModel.power].
    rewrite (rsum_ext _ _ (fun t => rsum d (fun s => A s i * (power k t s * r t)))).
    - rewrite rsum_swap. apply rsum_ext. intros. rewrite rsum_scal. auto.
    - intros t Ht. rewrite <- power_comm by auto. rewrite <- rsum_scal_r. apply rsum_ext. intros. ring.
  Qed.
  Lemma inner_pair m p m' q : PIP m p m' q = ip (pair m' q) (pair m p).
  Proof.
    unfold PolynomialInnerProduct, inner_product, dot, pair. cbn [fst snd]. apply rsum_ext. intros i Hi. rewrite Rmult_comm. f_equal.
    - unfold EvalPoly, left.
      rewrite (rsum_ext d _ (fun t => rsum d (fun s => rsum m' (fun k => q k * (power k i s * (W s t * r t)))))).
      + rewrite rsum_swap. rewrite (rsum_ext d _ (fun s => rsum m' (fun k => q k * (power k i s * rsum d (fun t => W s t * r t))))).
        * rewrite rsum_swap. apply rsum_ext. intros. rewrite rsum_scal. auto.
        * intros s Hs. rewrite rsum_swap. apply rsum_ext. intros k Hk. rewrite !rsum_scal. auto.
      + intros t Ht. rewrite <- rsum_scal_r. apply rsum_ext. intros s Hs. rewrite <- rsum_scal_r, <- rsum_scal_r. apply rsum_ext. intros. ring.
    - unfold EvalPoly, right. rewrite (rsum_ext d _ (fun t => rsum m (fun k => p k * (power k t i * r t)))).
      + rewrite rsum_swap. apply rsum_ext. intros. rewrite rsum_scal. auto.
      + intros t Ht. rewrite <- rsum_scal_r. apply rsum_ext. intros. ring.
  Qed.

  (** Pairs of columns are compared in their [d] rows. *)
  Definition agree (x y : columns) : Prop := forall i, (i < d)%nat -> fst x i = fst y i /\ snd x i = snd y i.
  Lemma agree_ip x y x' y' : agree x x' -> agree y y' -> ip x y = ip x' y'.
  Proof. intros Hx Hy. unfold inner_product. apply rsum_ext. intros i Hi. destruct (Hx i Hi) as [-> _], (Hy i Hi) as [_ ->]. auto. Qed.
  Lemma agree_op x y : agree x y -> agree (op x) (op y).
  Proof. intros Hx i Hi. split; cbn; apply rsum_ext; intros t Ht; destruct (Hx t Ht) as [E1 E2]; rewrite ?E1, ?E2; auto. Qed.

  Lemma pair_shift m v : agree (pair (S m) (shift v)) (op (pair m v)).
  Proof.
    assert (forall f : nat -> R, rsum (S m) (fun k => shift v k * f k) = rsum m (fun k => v k * f (S k))) as E.
    { intros f. rewrite rsum_first. cbn [shift]. rewrite Rmult_0_l, Rplus_0_l. auto. }
    intros i Hi. cbn [pair fst snd apply_both]. rewrite !E. split.
    - rewrite (rsum_ext d _ (fun t => rsum m (fun k => v k * (A i t * left k t)))) by (intros; rewrite <- rsum_scal; apply rsum_ext; intros; ring).
      rewrite rsum_swap. apply rsum_ext. intros k Hk. rewrite rsum_scal, left_next. auto.
    - rewrite (rsum_ext d _ (fun t => rsum m (fun k => v k * (A t i * right k t)))) by (intros; rewrite <- rsum_scal; apply rsum_ext; intros; ring).
      rewrite rsum_swap. apply rsum_ext. intros k Hk. rewrite rsum_scal, right_next by auto. auto.
  Qed.
  Lemma pair_shift_short m v : v m = 0 -> agree (pair (S m) (shift v)) (op (pair (S m) v)).
  Proof.
    intros Hv i Hi. destruct (pair_shift m v i Hi) as [E1 E2]. rewrite E1, E2.
    assert (agree (pair m v) (pair (S m) v)) as Ha. { intros t Ht. cbn [pair fst snd]. rewrite !rsum_S, Hv. split; ring. }
    apply (agree_op _ _ Ha i Hi).
  Qed.

  Definition full (todo : nat) (o : option (list R * list R)) : option (list R * list R) :=
    match o with Some (als, bes) => if (length als =? todo)%nat then Some (als, bes) else None | None => None end.
  Definition next (x : columns) (a : R) (y : columns) (b : R) (z : columns) : columns :=
    columns_add (columns_add x (columns_scale y a)) (columns_scale z b).

  Lemma loop_same n todo : forall j vprev v beta V U, (j + todo <= n)%nat -> (forall i, (j <= i)%nat -> v i = 0) -> (forall i, (j <= i)%nat -> vprev i = 0) ->
    agree V (pair n v) -> agree U (next (op V) (- ip V (op V)) V (- beta) (pair n vprev)) ->
    match full todo (lanczos_loop columns columns_add columns_scale ip op 0 todo V U) with
    | Some (als, bes) => exists als' last, jacobi_loop d A W r n todo vprev v beta = Some (als', bes, last) /\
        als' ++ [PIP (S n) (shift last) n last] = ip V (op V) :: als
    | None => jacobi_loop d A W r n todo vprev v beta = None
    end.
  Proof.
    induction todo as [|todo IH]; intros j vprev v beta V U Hj Hv Hp HV HU.
    - cbn. exists [], v. split; auto. cbn. f_equal. rewrite inner_pair. apply agree_ip; [intros i Hi; destruct (HV i Hi); auto|].
      intros i Hi. destruct (pair_shift n v i Hi) as [-> ->]. destruct (agree_op _ _ HV i Hi); auto.
    - cbn [lanczos_loop jacobi_loop]. destruct n as [|m]; [lia|].
      assert (agree (pair (S m) (shift v)) (op V)) as Hop.
      { intros i Hi. destruct (pair_shift_short m v ltac:(apply Hv; lia) i Hi) as [-> ->]. destruct (agree_op _ _ HV i Hi); auto. }
      assert (PIP (S m) (shift v) (S m) v = ip V (op V)) as Ea.
      { rewrite inner_pair. apply agree_ip; auto. intros i Hi. destruct (HV i Hi); auto. }
      rewrite Ea. set (alpha := ip V (op V)) in *. set (vhat := fun i => shift v i - alpha * v i - beta * vprev i).
      assert (agree U (pair (S m) vhat)) as HU'.
      { intros i Hi. destruct (HU i Hi) as [-> ->], (HV i Hi) as [E1 E2], (Hop i Hi) as [E3 E4]. cbn [next columns_add columns_scale fst snd].
        rewrite <- E3, <- E4, E1, E2. cbn [pair fst snd]. rewrite <- !rsum_scal_r, <- !rsum_plus. unfold vhat. split; apply rsum_ext; intros; ring. }
      assert (PIP (S m) vhat (S m) vhat = ip U U) as Eb by (rewrite inner_pair; apply agree_ip; intros i Hi; destruct (HU' i Hi); auto).
      rewrite Eb. set (b2 := ip U U) in *.
      destruct (Rlt_dec b2 0); [cbn; destruct (Rle_dec b2 0); [auto|lra]|]. destruct (Rle_dec b2 0); [cbn; auto|].
      set (V' := columns_scale U (1 / sqrt b2)). 
      specialize (IH (S j) v (fun i => vhat i / sqrt b2) (sqrt b2) V' (next (op V') (- ip V' (op V')) V' (- sqrt b2) V)).
      assert (agree V' (pair (S m) (fun i => vhat i / sqrt b2))) as HV'.
      { intros i Hi. destruct (HU' i Hi) as [E1 E2]. cbn [V' columns_scale fst snd]. rewrite E1, E2. cbn [pair fst snd]. rewrite <- !rsum_scal_r.
        unfold Rdiv. split; apply rsum_ext; intros; ring. }
      lapply IH; [clear IH; intros IH|lia].
      lapply IH; [clear IH; intros IH|intros i Hi; destruct i as [|i]; [lia|]; unfold vhat, Rdiv; cbn [shift]; rewrite (Hv i), (Hv (S i)), (Hp (S i)) by lia; ring].
      lapply IH; [clear IH; intros IH|intros i Hi; apply Hv; lia].
      lapply IH; [clear IH; intros IH|exact HV'].
      lapply IH; [clear IH; intros IH|intros i Hi; destruct (HV i Hi) as [E1 E2]; cbn [next columns_add columns_scale fst snd]; rewrite E1, E2; auto].
      unfold next in IH. destruct (lanczos_loop columns columns_add columns_scale ip op 0 todo V' _) as [[als bes]|]; cbn [full] in *.
      + cbn [length]. change (S (length als) =? S todo)%nat with (length als =? todo)%nat. destruct (length als =? todo)%nat.
        * destruct IH as (als' & last & EJ & EA). unfold vhat in EJ. cbv beta in EJ. rewrite EJ. exists (alpha :: als'), last. split; auto. cbn. f_equal. exact EA.
        * unfold vhat in IH. cbv beta in IH. rewrite IH. auto.
      + unfold vhat in IH. cbv beta in IH. rewrite IH. auto.
  Qed.

  Notation start := ((fun i => rsum d (fun t => W i t * r t), r) : columns).
  Lemma start_pair n : agree start (pair (S n) (fun i => if (i =? 0)%nat then 1 else 0)).
  Proof.
    intros i Hi. cbn [pair fst snd]. rewrite !rsum_first. cbn [Nat.eqb].
    rewrite !(rsum_zero n) by (intros; ring). split.
    - unfold left. rewrite (rsum_single d i (fun t => power 0 i t * _)); auto; cbn; rewrite ?Nat.eqb_refl; [ring|].
      intros t Ht Hn. apply Nat.eqb_neq in Hn. rewrite Nat.eqb_sym, Hn. ring.
    - unfold right. rewrite (rsum_single d i); auto; cbn; rewrite ?Nat.eqb_refl; [ring|].
      intros t Ht Hn. apply Nat.eqb_neq in Hn. rewrite Hn. ring.
  Qed.
  (** The uncompressed variant is the recurrence that never ends early. *)
  Lemma uncompressed_same num : Eigenvalues d A W r num = full num (lanczos columns columns_add columns_scale ip op (fun _ => 0) num start).
  Proof.
    unfold Eigenvalues, lanczos. destruct num as [|n]; [auto|]. set (one := fun i : nat => if (i =? 0)%nat then 1 else 0).
    assert (PIP (S n) one (S n) one = ip start start) as E0 by (rewrite inner_pair; apply agree_ip; intros i Hi; destruct (start_pair n i Hi); auto).
    rewrite E0. set (n2 := ip start start). destruct (Rle_dec n2 0); [auto|].
    set (V := columns_scale start (1 / sqrt n2)).
    pose proof (loop_same (S n) n 1 (fun _ => 0) (fun i => one i / sqrt n2) (sqrt n2) V (columns_add (op V) (columns_scale V (- ip V (op V))))) as H.
    lapply H; [clear H; intros H|lia].
    lapply H; [clear H; intros H|intros i Hi; unfold one; destruct (Nat.eqb_spec i 0); [lia|unfold Rdiv; ring]].
    lapply H; [clear H; intros H|auto].
    lapply H; [clear H; intros H|].
    2:{ intros i Hi. destruct (start_pair n i Hi) as [E1 E2]. cbn [V columns_scale fst snd] in *. fold one in E1, E2. rewrite E1, E2. cbn [pair fst snd].
        rewrite <- !rsum_scal_r. unfold Rdiv. split; apply rsum_ext; intros; ring. }
    lapply H; [clear H; intros H|].
    2:{ intros i Hi. cbn [next columns_add columns_scale pair fst snd]. rewrite !(rsum_zero (S n)) by (intros; ring). split; ring. }
    unfold one in *. cbv beta in *. destruct (lanczos_loop columns columns_add columns_scale ip op 0 n V _) as [[als bes]|]; cbn [full] in *.
    - cbn [length]. change (S (length als) =? S n)%nat with (length als =? n)%nat. destruct (length als =? n)%nat.
      + destruct H as (als' & last & -> & ->). auto.
      + rewrite H. auto.
    - rewrite H. auto.
  Qed.
End Polynomials.
