(** The three estimates: agreement, ranges, exactness and the division by zero. *)
From Coq Require Import List Arith Reals Lra Lia FunctionalExtensionality.
From Verif Require Import Base DenseModel RSum JordanModel LanczosModel EstimateModel Spec_Hyper Spec_Lanczos Spec_Estimate HyperFacts JordanProofs
  LanczosProofs LanczosLinks LanczosFacts LanczosReports RealFactor PadeProofs EstimateProofs EstimateLinks EstimateColumns.
Import ListNotations.
Open Scope R_scope.

(** ** Thresholds *)
Lemma loop_threshold E add scale ip op th todo : 0 <= th -> forall V U als bes,
  lanczos_loop E add scale ip op th todo V U = Some (als, bes) /\ length als = todo <->
  lanczos_loop E add scale ip op 0 todo V U = Some (als, bes) /\ length als = todo /\ (forall b, In b bes -> th <= b * b).
Proof.
  intros Hth. induction todo as [|todo IH]; intros V U als bes; cbn [lanczos_loop].
  - split; [intros [[= <- <-] _]; repeat split; contradiction|intros (E1 & E2 & _); auto].
  - destruct (Rle_dec (ip U U) 0) as [H0|H0].
    + split.
      * intros [E1 E2]. destruct (Rlt_dec (ip U U) th); [injection E1 as <- <-|]; discriminate.
      * intros (E1 & E2 & _). destruct (Rlt_dec (ip U U) 0); [injection E1 as <- <-|]; discriminate.
    + destruct (Rlt_dec (ip U U) 0) as [|_]; [lra|].
      match goal with |- context [lanczos_loop _ _ _ _ _ 0 _ ?a ?b] => specialize (IH a b); set (U' := b) in *; set (V' := a) in * end.
      assert (sqrt (ip U U) * sqrt (ip U U) = ip U U) as Hs by (apply R_sqrt.sqrt_def; lra).
      destruct (Rlt_dec (ip U U) th) as [Hlt|Hge].
      * split; [intros [[= <- <-] E2]; discriminate|]. intros (E1 & E2 & E3).
        destruct (lanczos_loop E add scale ip op 0 todo V' U') as [[als1 bes1]|]; [|discriminate]. injection E1 as <- <-.
        specialize (E3 _ (or_introl eq_refl)). lra.
      * split.
        -- intros [E1 E2]. destruct (lanczos_loop E add scale ip op th todo V' U') as [[als1 bes1]|] eqn:EL; [|discriminate]. injection E1 as <- <-.
           cbn in E2. destruct (proj1 (IH als1 bes1)) as (F1 & F2 & F3); [split; auto; lia|]. rewrite F1. repeat split; auto.
           intros b [<-|Hb]; auto. lra.
        -- intros (E1 & E2 & E3). destruct (lanczos_loop E add scale ip op 0 todo V' U') as [[als1 bes1]|] eqn:EL; [|discriminate]. injection E1 as <- <-.
           cbn in E2. destruct (proj2 (IH als1 bes1)) as (F1 & F2); [split; [auto|split; [lia|intros; apply E3; right; auto]]|]. rewrite F1. auto.
Qed.
Lemma lanczos_threshold E add scale ip op th num V al be : 0 <= th ->
  lanczos E add scale ip op (fun _ => th) num V = Some (al, be) /\ length al = num <->
  lanczos E add scale ip op (fun _ => 0) num V = Some (al, be) /\ length al = num /\ (forall b, In b be -> th <= b * b).
Proof.
  intros Hth. unfold lanczos. destruct num as [|n]; [split; [intros [H _]|intros (H & _)]; discriminate|].
  destruct (Rle_dec (ip V V) 0) as [|_]; [split; [intros [H _]|intros (H & _)]; discriminate|]. cbv zeta.
  match goal with |- context [lanczos_loop _ _ _ _ _ 0 _ ?a ?b] => pose proof (loop_threshold E add scale ip op th n Hth a b) as HT; set (U' := b) in *; set (V' := a) in * end.
  split.
  - intros [E1 E2]. destruct (lanczos_loop E add scale ip op th n V' U') as [[als1 bes1]|] eqn:EL; [|discriminate]. injection E1 as <- <-. cbn in E2.
    destruct (proj1 (HT als1 bes1)) as (F1 & F2 & F3); [split; auto; lia|]. rewrite F1. auto.
  - intros (E1 & E2 & E3). destruct (lanczos_loop E add scale ip op 0 n V' U') as [[als1 bes1]|] eqn:EL; [|discriminate]. injection E1 as <- <-. cbn in E2.
    destruct (proj2 (HT als1 bes1)) as (F1 & F2); [split; [auto|split; [lia|auto]]|]. rewrite F1. auto.
Qed.

Lemma full_some num o al be : full num o = Some (al, be) <-> o = Some (al, be) /\ length al = num.
Proof.
  unfold full. destruct o as [[a b]|]; [|split; [|intros [H _]]; discriminate]. destruct (Nat.eqb_spec (length a) num) as [E|E].
  - split; [intros [= <- <-]; auto|intros [H _]; exact H].
  - split; [discriminate|]. intros [[= <- <-] H]. congruence.
Qed.

Lemma same_estimates d WS W r num al be :
  AsymmetricLanczos d WS W r num = Some (al, be) /\ length al = num <->
  Eigenvalues d WS W r num = Some (al, be) /\ (forall b, In b be -> 1 / 10 ^ 6 <= b * b).
Proof. rewrite uncompressed_same, full_some. unfold AsymmetricLanczos. rewrite lanczos_threshold by lra. tauto. Qed.

(** ** Weighted matrices *)
Section Weighted.
  Variables (d : nat) (W S : mat).
  Hypothesis HW : posdef (A := reals) d W.
  Hypothesis HS : hermitian_matrix (A := reals) d S.
  Notation WS := (rprod d W S).
  Local Definition start (r : vec) : columns := ((fun i => rsum d (fun t => W i t * r t)), r).
  Lemma start_linked r : linked reals d W columns (@fst vec vec) (@snd vec vec) (start r).
  Proof. intros i Hi. cbn [fst snd]. rewrite mv_real. auto. Qed.

  Lemma single_exact lam : d = 1%nat -> (is_eigenvalue [WS 0%nat 0%nat] [] lam <-> eigenvalue_of d WS lam).
  Proof.
    intros ->. rewrite scalar_eigenvalue. split.
    - intros ->. exists (fun _ => 1). split; [exists 0%nat; split; [lia|lra]|]. intros i Hi. rewrite act_real. unfold times. cbn [rsum].
      destruct i; [cbn [reals el]; ring|lia].
    - intros (z & (i & Hi & Hz) & H). specialize (H 0%nat ltac:(lia)). rewrite act_real in H. unfold times in H. cbn [rsum] in H.
      destruct i; [|lia]. apply Rmult_eq_reg_r with (z 0%nat); auto. lra.
  Qed.

  Lemma compressed_exact r num al be lam : ApproximateEigenvalues d WS W r num = Some (al, be) -> length al = d ->
    (is_eigenvalue al be lam <-> eigenvalue_of d WS lam).
  Proof.
    unfold ApproximateEigenvalues. destruct (Nat.eqb_spec d 1) as [E|E].
    - intros [= <- <-] _. apply single_exact. auto.
    - intros HL Hl. eapply (columns_exact d W S HW HS) in HL; eauto; [intros; lra|apply start_linked].
  Qed.

  Lemma uncompressed_run r num al be : Eigenvalues d WS W r num = Some (al, be) ->
    lanczos columns columns_add columns_scale (inner_product d) (apply_both d WS) (fun _ => 0) num (start r) = Some (al, be) /\ length al = num.
  Proof. rewrite uncompressed_same. apply full_some. Qed.
  Lemma uncompressed_exact r al be lam : UncompressedEigenvalues d WS W r d = Some (al, be) ->
    (is_eigenvalue al be lam <-> eigenvalue_of d WS lam).
  Proof.
    unfold UncompressedEigenvalues. destruct (Nat.eqb_spec d 1) as [E|E].
    - intros [= <- <-]. apply single_exact. auto.
    - intros HL. apply uncompressed_run in HL. destruct HL as [HL Hl].
      eapply (columns_exact d W S HW HS) in HL; eauto; [intros; lra|apply start_linked].
  Qed.
  Lemma uncompressed_range r num al be lam lo hi : UncompressedEigenvalues d WS W r num = Some (al, be) -> is_eigenvalue al be lam ->
    spectrum_between (A := reals) d W S lo hi -> lo <= lam <= hi.
  Proof.
    intros HL HE HB.
    assert (ApproximateEigenvalues d WS W r num = Some (al, be) \/ Eigenvalues d WS W r num = Some (al, be)) as [HA|HA].
    { unfold UncompressedEigenvalues, ApproximateEigenvalues in *. destruct (d =? 1)%nat; auto. }
    - exact (rayleigh_range (A := reals) d W S _ (approximate_rayleigh d W S r num HW HS) al be lam lo hi HA HE HB).
    - apply uncompressed_run in HA. destruct HA as [HA _].
      eapply (columns_ritz d W S HW HS) in HA; eauto; [|intros; lra|apply start_linked]. destruct HA as (z & H1 & H2).
      specialize (HB z). rewrite H2 in HB. split; apply Rmult_le_reg_r with (form (A := reals) d W z); lra.
  Qed.
  Lemma uncompressed_too_many r num : d <> 1%nat -> (d < num)%nat -> UncompressedEigenvalues d WS W r num = None.
  Proof.
    intros H1 Hn. unfold UncompressedEigenvalues. apply Nat.eqb_neq in H1. rewrite H1.
    destruct (Eigenvalues d WS W r num) as [[al be]|] eqn:HL; auto. exfalso. apply uncompressed_run in HL. destruct HL as [HL Hl].
    eapply (columns_short d W S HW HS) in HL; [lia|intros; lra|apply start_linked].
  Qed.

  Section Eigenvector.
    Variables (r : vec) (lam : R).
    Hypothesis Hr : exists i, (i < d)%nat /\ r i <> 0.
    Hypothesis HE : forall i, (i < d)%nat -> act (A := reals) d S (act (A := reals) d W r) i = lam * r i.

    Lemma eigen_first : exists V, inner_product d (start r) (start r) > 0 /\ V = columns_scale (start r) (1 / sqrt (inner_product d (start r) (start r))) /\
      inner_product d V (apply_both d WS V) = lam /\
      inner_product d (columns_add (apply_both d WS V) (columns_scale V (- lam))) (columns_add (apply_both d WS V) (columns_scale V (- lam))) = 0.
    Proof.
      assert (inner_product d (start r) (start r) > 0) as Hp.
      { rewrite (c_norm d W HW) by apply start_linked. apply HW. exact Hr. }
      set (q := inner_product d (start r) (start r)) in *. eexists. split; [exact Hp|]. split; [reflexivity|].
      assert (exists s, 0 < s /\ s * s = q /\ s = sqrt q) as (s & Hs & Hss & <-) by (exists (sqrt q); split; [apply sqrt_lt_R0; auto|split; [apply R_sqrt.sqrt_def; lra|auto]]).
      set (V := columns_scale (start r) (1 / s)).
      assert (forall i, (i < d)%nat -> snd (apply_both d WS V) i = lam * snd V i) as E.
      { intros i Hi. cbn [apply_both snd V columns_scale start]. specialize (HE i Hi). rewrite act_real in HE. unfold times in HE.
        transitivity (lam * r i * (1 / s)); [|ring]. rewrite <- HE.
        rewrite <- rsum_scal_r. rewrite (rsum_ext d (fun t => S i t * act (A := reals) d W r t * (1 / s)) (fun t => rsum d (fun u => S i t * W t u * r u * (1 / s)))).
        - rewrite rsum_swap. apply rsum_ext. intros t Ht. unfold rprod. rewrite <- rsum_scal_r. apply rsum_ext. intros u Hu.
          destruct HW as [HWh _]. specialize (HWh t u Ht Hu). specialize (HS u i Hu Hi). unfold mconj in HWh, HS. cbn in HWh, HS. rewrite <- HWh, <- HS. ring.
        - intros t Ht. rewrite act_real. unfold times. rewrite <- rsum_scal, <- rsum_scal_r. apply rsum_ext. intros. ring. }
      assert (inner_product d V V = 1) as H1.
      { transitivity (q / (s * s)); [|rewrite Hss; field; lra]. unfold q, inner_product, V. unfold Rdiv. rewrite <- rsum_scal_r. apply rsum_ext. intros. cbn. field. lra. }
      split.
      - transitivity (lam * inner_product d V V); [|rewrite H1; ring]. unfold inner_product. rewrite <- rsum_scal. apply rsum_ext. intros. rewrite E by auto. ring.
      - unfold inner_product. apply rsum_zero. intros i Hi. cbn [columns_add columns_scale fst snd]. rewrite E by auto. ring.
    Qed.
    Lemma eigen_uncompressed num : d <> 1%nat -> (2 <= num)%nat -> UncompressedEigenvalues d WS W r num = None.
    Proof.
      intros H1 Hn. unfold UncompressedEigenvalues. apply Nat.eqb_neq in H1. rewrite H1.
      rewrite uncompressed_same. unfold lanczos. destruct num as [|[|n]]; [lia|lia|]. destruct eigen_first as (V & Hp & EV & Ea & EU). unfold start in EV, Hp.
      destruct (Rle_dec _ 0); [auto|]. cbv zeta. rewrite <- EV, Ea. cbn [lanczos_loop]. rewrite EU.
      destruct (Rlt_dec 0 0); [lra|]. destruct (Rle_dec 0 0); [auto|lra].
    Qed.
    Lemma eigen_compressed num : d <> 1%nat -> (1 <= num)%nat -> ApproximateEigenvalues d WS W r num = Some ([lam], []).
    Proof.
      intros H1 Hn. unfold ApproximateEigenvalues. apply Nat.eqb_neq in H1. rewrite H1.
      unfold AsymmetricLanczos, lanczos. destruct num as [|n]; [lia|]. destruct eigen_first as (V & Hp & EV & Ea & EU). unfold start in EV, Hp.
      destruct (Rle_dec _ 0); [lra|]. cbv zeta. rewrite <- EV, Ea. destruct n; cbn [lanczos_loop]; [auto|]. rewrite EU.
      destruct (Rlt_dec 0 (1 / 10 ^ 6)); [auto|lra].
    Qed.
  End Eigenvector.
End Weighted.

Lemma symmetric_eigen d A r lam num : (exists i, (i < d)%nat /\ r i <> 0) -> (forall i, (i < d)%nat -> act (A := reals) d A r i = lam * r i) ->
  (2 <= num)%nat -> SymmetricLanczos d A r num = None.
Proof.
  intros (i & Hi & Hr) HE Hn. unfold SymmetricLanczos, lanczos. destruct num as [|[|n]]; [lia|lia|].
  destruct (Rle_dec (dot d r r) 0) as [|Hp]; [auto|]. cbv zeta.
  assert (exists s, 0 < s /\ s * s = dot d r r /\ s = sqrt (dot d r r)) as (s & Hs & Hss & <-) by (exists (sqrt (dot d r r)); split; [apply sqrt_lt_R0; lra|split; [apply R_sqrt.sqrt_def; lra|auto]]).
  set (V := fun i => r i * (1 / s)). assert (forall i, (i < d)%nat -> times d A V i = lam * V i) as E.
  { intros k Hk. specialize (HE k Hk). rewrite act_real in HE. unfold V. rewrite <- Rmult_assoc, <- HE. unfold times. rewrite <- rsum_scal_r. apply rsum_ext. intros. ring. }
  assert (dot d V V = 1) as H1. { transitivity (dot d r r / (s * s)); [|rewrite Hss; field; lra]. unfold dot, V, Rdiv. rewrite <- rsum_scal_r. apply rsum_ext. intros. field. lra. }
  assert (dot d V (times d A V) = lam) as Ea. { transitivity (lam * dot d V V); [|rewrite H1; ring]. unfold dot. rewrite <- rsum_scal. apply rsum_ext. intros. rewrite E by auto. ring. }
  rewrite Ea. cbn [lanczos_loop]. set (U := fun i => times d A V i + r i * (1 / s) * - lam). assert (dot d U U = 0) as ->.
  { unfold dot. apply rsum_zero. intros k Hk. unfold U. rewrite E by auto. unfold V. ring. }
  destruct (Rlt_dec 0 0); [lra|]. destruct (Rle_dec 0 0); [auto|lra].
Qed.
