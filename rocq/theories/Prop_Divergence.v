(** Properties C39 and C52: the centering parameter computed from the divergence bound. *)
From Coq Require Import List Reals Bool Lra Lia.
From Verif Require Import DivergenceModel Spec_Divergence DivergenceProofs.
Import ListNotations.
Open Scope R_scope.

(** ** C39: the inverse of the divergence bound *)

(** A positive result meets the bound exactly. *)
Theorem C39_meets_bound : forall bound p l k, summarises p l ->
  DivergenceUpperBoundInverse bound p = Some k -> 0 < k -> divergence_is k l bound.
Proof. exact inverse_of_list. Qed.

(** For positive eigenvalues it is the largest positive number meeting the bound. *)
Theorem C39_largest : forall bound p l k, summarises p l -> Forall (fun x => 0 < x) l -> 0 < bound ->
  0 < k -> divergence_is k l bound ->
  exists k', DivergenceUpperBoundInverse bound p = Some k' /\ k <= k' /\ divergence_is k' l bound.
Proof.
  intros bound p l k Hs Hl Hb Hk Hd. destruct (inverse_of_list_largest bound p l k Hs Hl Hb Hk Hd) as (k' & E & H).
  exists k'. split; auto. split; auto. apply (inverse_of_list bound p); auto. lra.
Qed.

(** The bound evaluated by the code is the divergence of the eigenvalues. *)
Theorem C39_bound_is_divergence : forall p l k bound, summarises p l ->
  (divergence_is k l bound <-> BoundIsFinite k p = true /\ DivergenceUpperBound k p = bound).
Proof. intros p l k bound H. apply (divergence_candidate p l k bound H). Qed.

(** A result other than -1 can miss the bound when it is negative. *)
Theorem C39_negative_refuted : exists bound p l k, summarises p l /\ 0 < bound /\
  DivergenceUpperBoundInverse bound p = Some k /\ k <> -1 /\ ~ divergence_is k l bound.
Proof.
  set (p := mkSpectrum 9 (-3) (-3) (-3) 1). exists (1 / 110), p, [-3], (- 3 / 10).
  assert (summarises p [-3]) as Hs.
  { constructor; cbn; try lra.
    - split; [auto|]. constructor; [lra|constructor].
    - split; [auto|]. constructor; [lra|constructor]. }
  split; auto. split; [lra|].
  assert (InverseLambdaMinBranch (1 / 110) p = -1) as E1.
  { unfold InverseLambdaMinBranch, SolveQuadratic, p. cbn [frobenius_norm_squared trace lambda_min lambda_max rank].
    set (D := _ - _). replace D with (21 / 110 * (21 / 110)) by (unfold D; field). rewrite sqrt_square by lra.
    destruct (Rlt_dec _ 0); [lra|]. unfold InLimits, Rleb.
    destruct (Rle_dec 0 ((2 * -3 / -3 + 1 / 110 + 21 / 110) / (2 * (9 / -3)))) as [H|_]; [exfalso; lra|].
    destruct (Rle_dec 0 ((2 * -3 / -3 + 1 / 110 - 21 / 110) / (2 * (9 / -3)))) as [H|_]; [exfalso; lra|]. reflexivity. }
  assert (InverseLambdaMaxBranch (1 / 110) p = -3 / 10) as E2.
  { unfold InverseLambdaMaxBranch, SolveRationalEquation, sqrt_nan, p. cbn [frobenius_norm_squared trace lambda_min lambda_max rank].
    set (D := _ + _). replace D with (63 / 110 * (63 / 110)) by (unfold D; field). rewrite sqrt_square by lra.
    destruct (Rlt_dec _ 0); [lra|]. unfold Rleb. destruct (Rle_dec _ _) as [_|H]; [field|exfalso; apply H; lra]. }
  split; [|split; [lra|]].
  - unfold DivergenceUpperBoundInverse. rewrite E1, E2. unfold Req0. cbn [frobenius_norm_squared lambda_min lambda_max p].
    destruct (Req_EM_T 9 0); [lra|]. destruct (Req_EM_T (-3) 0); [lra|]. destruct (Req_EM_T (-3 + -3) 0); [lra|]. cbn [orb].
    assert (BoundIsFinite (-1) p = false) as ->.
    { destruct (BoundIsFinite (-1) p) eqn:F; auto. apply finite_iff in F. cbn in F. lra. }
    assert (BoundIsFinite (-3 / 10) p = true) as ->.
    { apply finite_iff. cbn. lra. }
    unfold Rltb. destruct (Rlt_dec (-1) (-3 / 10)); [reflexivity|lra].
  - intros H. apply (divergence_candidate p) in H as [_ H]; auto. unfold DivergenceUpperBound in H.
    rewrite norm_inf_max in H. cbn [frobenius_norm_squared trace lambda_min lambda_max rank p] in H. rewrite (Rabs_left (-3 / 10 * -3 - 1)) in H by lra. rewrite Rmax_left in H by lra.
    field_simplify in H. lra.
Qed.

Lemma divergence_example : summarises (mkSpectrum 10 4 1 3 2) [1; 3] /\ divergence_is (1 / 2) [1; 3] 1.
Proof.
  split.
  - constructor; cbn; try lra.
    + split; [auto|]. repeat (constructor; try lra).
    + split; [auto|]. repeat (constructor; try lra).
  - exists (1 / 2). split; [split|split].
    + exists 3. split; [cbn; auto|]. rewrite Rabs_pos_eq; lra.
    + constructor; [apply Rabs_le; lra|]. constructor; [apply Rabs_le; lra|constructor].
    + lra.
    + cbn. lra.
Qed.

Example C39_example : exists k, summarises (mkSpectrum 10 4 1 3 2) [1; 3] /\ Forall (fun x => 0 < x) [1; 3] /\
  divergence_is (1 / 2) [1; 3] 1 /\ DivergenceUpperBoundInverse 1 (mkSpectrum 10 4 1 3 2) = Some k /\ 1 / 2 <= k.
Proof.
  destruct divergence_example as [H1 H2]. assert (Forall (fun x => 0 < x) [1; 3]) as H3 by (repeat constructor; lra).
  destruct (C39_largest 1 _ _ (1 / 2) H1 H3 ltac:(lra) ltac:(lra) H2) as (k & E & Hk & _). exists k. auto.
Qed.

Print Assumptions C39_meets_bound.
Print Assumptions C39_largest.
Print Assumptions C39_bound_is_divergence.
Print Assumptions C39_negative_refuted.

(** ** C52: the centering parameter without line search *)

(** With positive eigenvalues the result is positive, keeps the largest distance
    below one, and either meets the divergence bound and is the largest such
    value, or no value meets the bound and it minimises the distance. *)
Theorem C52_positive_spectrum : forall upper p l, summarises p l -> Forall (fun x => 0 < x) l -> 0 < upper ->
  let bound := upper * INR (length l) in
  exists k, mu_from_spectrum upper (length l) p = Some k /\ 0 < k /\
    (forall M, distance_from_one k l M -> M < 1) /\
    ((divergence_is k l bound /\ forall z, 0 < z -> divergence_is z l bound -> z <= k) \/
     ((forall z, 0 < z -> ~ divergence_is z l bound) /\
      forall M z Mz, distance_from_one k l M -> distance_from_one z l Mz -> M <= Mz)).
Proof. exact mu_positive. Qed.

(** Otherwise, with a positive sum of eigenvalues and no value meeting the bound,
    the result is positive and the squared distance from one is within a factor
    3/2 of the smallest possible. *)
Theorem C52_fallback : forall upper p l k0, summarises p l ->
  DivergenceUpperBoundInverse (upper * INR (length l)) p = Some k0 ->
  k0 < 0 -> lambda_min p <= 0 -> / 10 ^ 12 < trace p ->
  exists k, mu_from_spectrum upper (length l) p = Some k /\ 0 < k /\
    forall z, total (fun x => (k * x - 1) * (k * x - 1)) l <= 3 / 2 * total (fun x => (z * x - 1) * (z * x - 1)) l.
Proof. exact mu_fallback. Qed.

Example C52_example : summarises (mkSpectrum 10 4 1 3 2) [1; 3] /\ Forall (fun x => 0 < x) [1; 3] /\ 0 < 1 / 2 /\
  divergence_is (1 / 2) [1; 3] (1 / 2 * INR (length [1; 3])).
Proof.
  destruct divergence_example as [H1 H2]. split; auto. split; [repeat constructor; lra|]. split; [lra|].
  replace (1 / 2 * INR (length [1; 3])) with 1 by (cbn; lra). auto.
Qed.

(** Eigenvalues -1 and 3. *)
Example C52_fallback_example : let p := mkSpectrum 10 2 (-1) 3 2 in summarises p [-1; 3] /\ lambda_min p <= 0 /\ / 10 ^ 12 < trace p /\
  exists k0, DivergenceUpperBoundInverse (1 * INR (length [-1; 3])) p = Some k0 /\ k0 < 0.
Proof.
  intros p. assert (summarises p [-1; 3]) as Hs.
  { constructor; cbn; try lra.
    - split; [auto|]. repeat (constructor; try lra).
    - split; [auto|]. repeat (constructor; try lra). }
  split; auto. split; [cbn; lra|]. split.
  - cbn [trace p]. rewrite <- (Rinv_inv 2). apply Rinv_lt_contravar; [apply Rmult_lt_0_compat; [lra|apply pow_lt; lra]|].
    apply Rlt_trans with 1; [lra|]. apply Rlt_pow_R1; [lra|lia].
  - assert (exists k0, DivergenceUpperBoundInverse (1 * INR (length [-1; 3])) p = Some k0) as (k0 & E).
    { unfold DivergenceUpperBoundInverse, Req0. cbn [frobenius_norm_squared lambda_min lambda_max p].
      destruct (Req_EM_T 10 0); [lra|]. destruct (Req_EM_T (-1) 0); [lra|]. destruct (Req_EM_T (3 + -1) 0); [lra|]. eexists. reflexivity. }
    exists k0. split; auto. destruct (Rlt_le_dec k0 0) as [|H]; auto. exfalso.
    destruct (Rle_lt_or_eq_dec _ _ H) as [H'|<-].
    + apply (C39_meets_bound _ p [-1; 3]) in E; auto. destruct E as (M & [_ HM] & Hlt & _). rewrite Forall_forall in HM.
      specialize (HM (-1) ltac:(cbn; auto)). rewrite Rabs_left in HM; lra.
    + unfold DivergenceUpperBoundInverse in E. cbn [orb] in E. destruct (Req0 _ || _ || _); [discriminate|].
      injection E as E. destruct (BoundIsFinite (InverseLambdaMinBranch _ p) p) eqn:F1.
      * apply finite_iff in F1. cbn [lambda_min lambda_max p] in F1. lra.
      * destruct (Rltb _ _ && _) eqn:E2; [|lra]. apply andb_prop in E2 as [_ E2]. apply finite_iff in E2. cbn [lambda_min lambda_max p] in E2. lra.
Qed.

Print Assumptions C52_positive_spectrum.
Print Assumptions C52_fallback.
