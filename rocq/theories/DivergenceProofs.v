(** Facts about the divergence bound and its inverse. *)
From Coq Require Import List Reals Bool Lra Psatz.
From Verif Require Import DivergenceModel Spec_Divergence.
Import ListNotations.
Open Scope R_scope.

Lemma sq_nonneg x : 0 <= x * x.
Proof. exact (Rle_0_sqr x). Qed.

Lemma norm_inf_max k p : norm_inf k p = Rmax (Rabs (k * lambda_max p - 1)) (Rabs (k * lambda_min p - 1)).
Proof.
  unfold norm_inf, Rltb. destruct (Rlt_dec _ _).
  - rewrite Rmax_right; lra.
  - rewrite Rmax_left; lra.
Qed.

Lemma finite_iff k p : BoundIsFinite k p = true <-> (0 < k * lambda_max p < 2 /\ 0 < k * lambda_min p < 2).
Proof.
  unfold BoundIsFinite, Rltb. rewrite norm_inf_max. destruct (Rlt_dec _ _) as [H|H].
  - split; auto. intros _. pose proof (Rmax_l (Rabs (k * lambda_max p - 1)) (Rabs (k * lambda_min p - 1))).
    pose proof (Rmax_r (Rabs (k * lambda_max p - 1)) (Rabs (k * lambda_min p - 1))).
    assert (Rabs (k * lambda_max p - 1) < 1) as G1 by lra. assert (Rabs (k * lambda_min p - 1) < 1) as G2 by lra.
    apply Rabs_def2 in G1. apply Rabs_def2 in G2. lra.
  - split; [discriminate|]. intros [H1 H2]. exfalso. apply H. apply Rmax_lub_lt; apply Rabs_def1; lra.
Qed.

(** The norm on either side of the balance point. *)
Lemma norm_low k p : 0 < k -> lambda_min p <= lambda_max p -> k * (lambda_max p + lambda_min p) <= 2 ->
  k * lambda_min p <= 1 -> norm_inf k p = 1 - k * lambda_min p.
Proof.
  intros Hk Hl H1 H2. rewrite norm_inf_max. assert (k * lambda_min p <= k * lambda_max p) by (apply Rmult_le_compat_l; lra).
  rewrite (Rabs_left1 (k * lambda_min p - 1)) by lra. rewrite Rmax_right; [lra|]. apply Rabs_le. lra.
Qed.
Lemma norm_high k p : 0 < k -> lambda_min p <= lambda_max p -> 2 <= k * (lambda_max p + lambda_min p) ->
  norm_inf k p = k * lambda_max p - 1.
Proof.
  intros Hk Hl H1. rewrite norm_inf_max. assert (k * lambda_min p <= k * lambda_max p) by (apply Rmult_le_compat_l; lra).
  rewrite (Rabs_pos_eq (k * lambda_max p - 1)) by lra. rewrite Rmax_left; [lra|]. apply Rabs_le. lra.
Qed.

Lemma root_plus a b c r : a <> 0 -> r * r = b * b - 4 * a * c ->
  let x := (- b + r) / (2 * a) in a * x * x + b * x + c = 0.
Proof.
  intros Ha Hr x. assert (2 * a * x = - b + r) as E by (unfold x; field; auto).
  assert (4 * a * (a * x * x + b * x + c) = 0) as F.
  { replace (4 * a * (a * x * x + b * x + c)) with ((2 * a * x) * (2 * a * x) + 2 * b * (2 * a * x) + 4 * a * c) by ring. rewrite E. nra. }
  apply Rmult_integral in F as [F|F]; auto. lra.
Qed.

(** Roots of a quadratic lie at the two values of the formula. *)
Lemma root_disc a b c x : a * x * x + b * x + c = 0 -> (2 * a * x + b) * (2 * a * x + b) = b * b - 4 * a * c.
Proof. intros H. replace (b * b - 4 * a * c) with ((2 * a * x + b) * (2 * a * x + b) - 4 * a * (a * x * x + b * x + c)) by ring. rewrite H. ring. Qed.

Lemma root_le a b c x : 0 < a -> a * x * x + b * x + c = 0 ->
  0 <= b * b - 4 * a * c /\ x <= (- b + sqrt (b * b - 4 * a * c)) / (2 * a).
Proof.
  intros Ha H. apply root_disc in H. set (D := b * b - 4 * a * c) in *.
  assert (0 <= D) as HD by (rewrite <- H; apply sq_nonneg). split; auto.
  assert (2 * a * x + b <= sqrt D).
  { destruct (Rle_lt_dec (2 * a * x + b) 0); [pose proof (sqrt_pos D); lra|].
    rewrite <- H, sqrt_square by lra. lra. }
  apply (Rmult_le_reg_l (2 * a)); [lra|]. replace (2 * a * ((- b + sqrt D) / (2 * a))) with (- b + sqrt D) by (field; lra). lra.
Qed.

Lemma sqrt_nan_ok x r : sqrt_nan x = Some r -> r * r = x /\ 0 <= r.
Proof.
  unfold sqrt_nan. destruct (Rlt_dec x 0); [discriminate|]. intros E. injection E as <-. split; [apply sqrt_sqrt; lra|apply sqrt_pos].
Qed.

Lemma rational_root a b c d k x : a <> 0 -> SolveRationalEquation a b c d k = Some x ->
  a * x * x + b * x + c = k * (2 - d * x).
Proof.
  intros Ha. unfold SolveRationalEquation.
  set (D := _ + _). destruct (sqrt_nan D) as [r|] eqn:Er; [|discriminate].
  apply sqrt_nan_ok in Er as [Er _]. intros E. injection E as <-.
  pose proof (root_plus a (b + d * k) (c - 2 * k) r Ha) as H. rewrite Er in H. specialize (H ltac:(subst D; ring)). cbn zeta in H.
  replace (- (b + d * k - r) / (2 * a)) with ((- (b + d * k) + r) / (2 * a)) by (field; auto). lra.
Qed.

Lemma quadratic_roots a b n c x y : a <> 0 -> SolveQuadratic a b n c = Some (x, y) ->
  a * x * x - (b + c) * x + n = 0 /\ a * y * y - (b + c) * y + n = 0.
Proof.
  intros Ha. unfold SolveQuadratic. set (D := _ - _). destruct (Rlt_dec D 0); [discriminate|]. intros E. injection E as <- <-.
  assert (sqrt D * sqrt D = D) as Er by (apply sqrt_sqrt; lra). split.
  - pose proof (root_plus a (- (b + c)) n (sqrt D) Ha) as H. rewrite Er in H. specialize (H ltac:(subst D; ring)). cbn zeta in H.
    replace (- - (b + c)) with (b + c) in H by ring. lra.
  - pose proof (root_plus a (- (b + c)) n (- sqrt D) Ha) as H. replace (- sqrt D * - sqrt D) with D in H by (rewrite <- Er at 1; ring).
    specialize (H ltac:(subst D; ring)). cbn zeta in H.
    replace (- - (b + c)) with (b + c) in H by ring. unfold Rminus at 2 4. replace (b + c - sqrt D) with (b + c + - sqrt D) by ring. lra.
Qed.

Lemma low_branch bound p : lambda_min p <> 0 -> frobenius_norm_squared p <> 0 ->
  let k := InverseLambdaMinBranch bound p in
  k <> -1 -> 0 <= k <= 2 / (lambda_max p + lambda_min p) /\
    k * k * frobenius_norm_squared p - 2 * k * trace p + rank p = bound * (k * lambda_min p).
Proof.
  intros Hl Hf. unfold InverseLambdaMinBranch. cbn zeta.
  destruct (SolveQuadratic _ _ _ _) as [[x y]|] eqn:E; [|tauto].
  apply quadratic_roots in E as [E1 E2]; [|intros H; apply Hf; apply (Rmult_eq_compat_r (lambda_min p)) in H; field_simplify in H; auto].
  assert (forall z, frobenius_norm_squared p / lambda_min p * z * z - (2 * trace p / lambda_min p + bound) * z + rank p / lambda_min p = 0 ->
            z * z * frobenius_norm_squared p - 2 * z * trace p + rank p = bound * (z * lambda_min p)) as F.
  { intros z Hz. apply (Rmult_eq_compat_r (lambda_min p)) in Hz. rewrite Rmult_0_l in Hz.
    replace ((frobenius_norm_squared p / lambda_min p * z * z - (2 * trace p / lambda_min p + bound) * z + rank p / lambda_min p) * lambda_min p)
      with (z * z * frobenius_norm_squared p - 2 * z * trace p + rank p - bound * (z * lambda_min p)) in Hz by (field; auto). lra. }
  assert (forall z, InLimits z 0 (2 / (lambda_max p + lambda_min p)) = true -> 0 <= z <= 2 / (lambda_max p + lambda_min p)) as G.
  { intros z. unfold InLimits, Rleb. destruct (Rle_dec 0 z), (Rle_dec z (2 / (lambda_max p + lambda_min p))); cbn; try discriminate. auto. }
  apply F in E1, E2. destruct (InLimits x _ _) eqn:Ex; destruct (InLimits y _ _) eqn:Ey; unfold Rltb;
    repeat destruct (Rlt_dec _ _); intros Hk; try tauto; split; auto.
Qed.

Lemma high_branch bound p : frobenius_norm_squared p <> 0 ->
  let k := InverseLambdaMaxBranch bound p in
  k <> -1 -> 2 / (lambda_max p + lambda_min p) <= k /\
    k * k * frobenius_norm_squared p - 2 * k * trace p + rank p = bound * (2 - k * lambda_max p).
Proof.
  intros Hf. unfold InverseLambdaMaxBranch. cbn zeta.
  destruct (SolveRationalEquation _ _ _ _ _) as [x|] eqn:E; [|tauto].
  apply rational_root in E; auto. unfold Rleb. destruct (Rle_dec _ _); [|tauto]. intros _. split; [lra|].
  rewrite (Rmult_comm x (lambda_max p)), <- E. ring.
Qed.

Lemma balance p k : 0 < lambda_max p + lambda_min p ->
  (k <= 2 / (lambda_max p + lambda_min p) <-> k * (lambda_max p + lambda_min p) <= 2) /\
  (2 / (lambda_max p + lambda_min p) <= k <-> 2 <= k * (lambda_max p + lambda_min p)).
Proof.
  set (s := lambda_max p + lambda_min p). intros Hs. assert (2 / s * s = 2) as E by (field; lra).
  split; split; intros H.
  - rewrite <- E. apply Rmult_le_compat_r; lra.
  - rewrite <- E in H. apply Rmult_le_reg_r in H; auto.
  - rewrite <- E at 1. apply Rmult_le_compat_r; lra.
  - rewrite <- E in H at 1. apply Rmult_le_reg_r in H; auto.
Qed.

Definition candidate (p : spectrum) (k bound : R) := BoundIsFinite k p = true /\ DivergenceUpperBound k p = bound.

Lemma positive_spectrum k p : 0 < k -> BoundIsFinite k p = true -> 0 < lambda_max p /\ 0 < lambda_min p.
Proof. intros Hk H. apply finite_iff in H as [H1 H2]. split; nra. Qed.

Lemma bound_low k p bound : 0 < k -> lambda_min p <= lambda_max p -> BoundIsFinite k p = true -> k <= 2 / (lambda_max p + lambda_min p) ->
  (k * k * frobenius_norm_squared p - 2 * k * trace p + rank p = bound * (k * lambda_min p) <-> DivergenceUpperBound k p = bound).
Proof.
  intros Hk Hl Hf Hu. destruct (positive_spectrum k p Hk Hf) as [H1 H2]. apply (proj1 (balance p k ltac:(lra))) in Hu.
  apply finite_iff in Hf. unfold DivergenceUpperBound. rewrite norm_low by (auto; nra).
  replace (1 - (1 - k * lambda_min p)) with (k * lambda_min p) by ring. split; intros E.
  - rewrite E. field. lra.
  - rewrite <- E. field. lra.
Qed.
Lemma bound_high k p bound : 0 < k -> lambda_min p <= lambda_max p -> BoundIsFinite k p = true -> 2 / (lambda_max p + lambda_min p) <= k ->
  (k * k * frobenius_norm_squared p - 2 * k * trace p + rank p = bound * (2 - k * lambda_max p) <-> DivergenceUpperBound k p = bound).
Proof.
  intros Hk Hl Hf Hu. destruct (positive_spectrum k p Hk Hf) as [H1 H2]. apply (proj2 (balance p k ltac:(lra))) in Hu.
  apply finite_iff in Hf. unfold DivergenceUpperBound. rewrite norm_high by auto.
  replace (1 - (k * lambda_max p - 1)) with (2 - k * lambda_max p) by ring. split; intros E.
  - rewrite E. field. lra.
  - rewrite <- E. field. lra.
Qed.

Lemma inverse_sound bound p k : lambda_min p <= lambda_max p ->
  DivergenceUpperBoundInverse bound p = Some k -> 0 < k -> candidate p k bound.
Proof.
  intros Hl. unfold DivergenceUpperBoundInverse, Req0.
  destruct (Req_EM_T (frobenius_norm_squared p) 0) as [|Hf]; [discriminate|].
  destruct (Req_EM_T (lambda_min p) 0) as [|Hm]; [discriminate|].
  destruct (Req_EM_T (lambda_max p + lambda_min p) 0) as [|Hs]; [discriminate|]. cbn [orb].
  intros E. injection E as <-. intros Hk.
  pose proof (low_branch bound p Hm Hf) as HL. pose proof (high_branch bound p Hf) as HH. cbn zeta in HL, HH.
  set (k1 := InverseLambdaMinBranch bound p) in *. set (k2 := InverseLambdaMaxBranch bound p) in *.
  set (k := if BoundIsFinite k1 p then k1 else -1) in *.
  destruct (Rltb k k2 && BoundIsFinite k2 p) eqn:E2.
  - apply andb_prop in E2 as [_ E2]. destruct (HH ltac:(lra)) as [G1 G2]. split; auto. apply bound_high; auto.
  - unfold k in *. destruct (BoundIsFinite k1 p) eqn:E1; [|lra]. destruct (HL ltac:(lra)) as [G1 G2]. split; auto. apply bound_low; tauto.
Qed.

Lemma low_largest bound p k : 0 < lambda_min p -> 0 < frobenius_norm_squared p ->
  0 < k <= 2 / (lambda_max p + lambda_min p) ->
  k * k * frobenius_norm_squared p - 2 * k * trace p + rank p = bound * (k * lambda_min p) ->
  k <= InverseLambdaMinBranch bound p.
Proof.
  intros Hl Hf Hk E. unfold InverseLambdaMinBranch, SolveQuadratic. cbn zeta.
  set (a := frobenius_norm_squared p / lambda_min p). set (b := 2 * trace p / lambda_min p). set (n := rank p / lambda_min p).
  assert (a * k * k + - (b + bound) * k + n = 0) as Eq.
  { unfold a, b, n. apply (Rmult_eq_reg_r (lambda_min p)); [|lra]. rewrite Rmult_0_l.
    replace ((frobenius_norm_squared p / lambda_min p * k * k + - (2 * trace p / lambda_min p + bound) * k + rank p / lambda_min p) * lambda_min p)
      with (k * k * frobenius_norm_squared p - 2 * k * trace p + rank p - bound * (k * lambda_min p)) by (field; lra). lra. }
  assert (0 < a) as Ha by (apply Rdiv_lt_0_compat; auto).
  set (D := b * b + 2 * b * bound + bound * bound - 4 * a * n).
  assert (- (b + bound) * - (b + bound) - 4 * a * n = D) as ED by (unfold D; ring).
  pose proof (root_disc a (- (b + bound)) n k Eq) as Hd. rewrite ED in Hd.
  assert (0 <= D) as HD by (rewrite <- Hd; apply sq_nonneg).
  destruct (Rlt_dec D 0); [lra|].
  assert (k = (b + bound + sqrt D) / (2 * a) \/ k = (b + bound - sqrt D) / (2 * a)) as Hc.
  { destruct (Rle_lt_dec 0 (2 * a * k + - (b + bound))).
    - left. rewrite <- Hd, sqrt_square by auto. field. lra.
    - right. rewrite <- Hd. replace ((2 * a * k + - (b + bound)) * (2 * a * k + - (b + bound))) with ((b + bound - 2 * a * k) * (b + bound - 2 * a * k)) by ring.
      rewrite sqrt_square by lra. field. lra. }
  assert (InLimits k 0 (2 / (lambda_max p + lambda_min p)) = true) as Hi.
  { unfold InLimits, Rleb. destruct (Rle_dec 0 k); [|lra]. destruct (Rle_dec k _); [auto|lra]. }
  destruct Hc as [Hc|Hc]; rewrite <- Hc, Hi; clear Hi.
  - destruct (InLimits _ _ _); [|apply Rle_refl]. unfold Rltb. destruct (Rlt_dec _ _) as [Hy|Hy]; [apply Rlt_le; exact Hy|apply Rle_refl].
  - unfold Rltb. destruct (Rlt_dec _ _) as [Hy|Hy]; [apply Rle_refl|apply Rnot_lt_le; exact Hy].
Qed.

Lemma high_largest bound p k : 0 < frobenius_norm_squared p -> 2 / (lambda_max p + lambda_min p) <= k ->
  k * k * frobenius_norm_squared p - 2 * k * trace p + rank p = bound * (2 - k * lambda_max p) ->
  k <= InverseLambdaMaxBranch bound p.
Proof.
  intros Hf Hk E. unfold InverseLambdaMaxBranch, SolveRationalEquation, sqrt_nan. cbn zeta.
  set (a := frobenius_norm_squared p) in *. set (b := -2 * trace p). set (c := rank p) in *. set (d := lambda_max p) in *.
  set (D := _ + _).
  destruct (root_le a (b + d * bound) (c - 2 * bound) k Hf) as [H1 H2]; [unfold b; lra|].
  replace ((b + d * bound) * (b + d * bound) - 4 * a * (c - 2 * bound)) with D in * by (unfold D; ring).
  destruct (Rlt_dec D 0); [lra|].
  replace (- (b + d * bound - sqrt D) / (2 * a)) with ((- (b + d * bound) + sqrt D) / (2 * a)) by (field; lra).
  unfold Rleb. destruct (Rle_dec _ _); lra.
Qed.

(** For a genuine spectrum the inverse is the largest solution. *)
Lemma inverse_largest bound p k : 0 < bound -> 0 < lambda_min p <= lambda_max p -> 0 < frobenius_norm_squared p ->
  (forall z, (z * lambda_max p - 1) * (z * lambda_max p - 1) <= z * z * frobenius_norm_squared p - 2 * z * trace p + rank p) ->
  0 < k -> candidate p k bound ->
  exists k', DivergenceUpperBoundInverse bound p = Some k' /\ k <= k'.
Proof.
  intros Hb Hl Hf HN Hk [G1 G2].
  unfold DivergenceUpperBoundInverse, Req0.
  destruct (Req_EM_T (frobenius_norm_squared p) 0); [lra|]. destruct (Req_EM_T (lambda_min p) 0); [lra|].
  destruct (Req_EM_T (lambda_max p + lambda_min p) 0); [lra|]. cbn [orb].
  pose proof (low_branch bound p ltac:(auto) ltac:(auto)) as HL. pose proof (high_branch bound p ltac:(auto)) as HH. cbn zeta in HL, HH.
  set (s := lambda_max p + lambda_min p) in *. assert (0 < s) as Hs by (unfold s; lra).
  assert (0 < 2 / s) as Hs2 by (apply Rdiv_lt_0_compat; lra).
  eexists. split; [reflexivity|].
  destruct (Rle_lt_dec k (2 / s)) as [Hlow|Hhigh].
  - apply (bound_low k p bound) in G2; auto; [|tauto]. apply low_largest in G2; [|tauto|auto|split; auto].
    set (k1 := InverseLambdaMinBranch bound p) in *.
    assert (BoundIsFinite k1 p = true) as F1.
    { destruct (HL ltac:(lra)) as [[_ L] _]. apply finite_iff. apply (proj1 (balance p k1 Hs)) in L. fold s in L.
      unfold s in L. split; split; try nra. }
    rewrite F1. destruct (Rltb _ _ && _) eqn:E; [|lra]. apply andb_prop in E as [E _]. unfold Rltb in E. destruct (Rlt_dec _ _); [lra|discriminate].
  - apply (bound_high k p bound) in G2; auto; [|tauto|fold s; lra]. apply high_largest in G2; [|auto|fold s; lra].
    set (k2 := InverseLambdaMaxBranch bound p) in *.
    assert (BoundIsFinite k2 p = true) as F2.
    { destruct (HH ltac:(lra)) as [_ L]. specialize (HN k2). apply finite_iff.
      assert (0 < 2 - k2 * lambda_max p).
      { rewrite L in HN. pose proof (sq_nonneg (k2 * lambda_max p - 1)) as HS.
        destruct (Rlt_le_dec 0 (2 - k2 * lambda_max p)) as [|HC]; auto. exfalso.
        destruct (Rle_lt_or_eq_dec _ _ HC) as [HC'|HC'].
        - assert (bound * (2 - k2 * lambda_max p) < bound * 0) by (apply Rmult_lt_compat_l; auto). lra.
        - rewrite HC' in HN. replace (k2 * lambda_max p) with 2 in HN by lra. lra. }
      assert (k2 * lambda_min p <= k2 * lambda_max p) by (apply Rmult_le_compat_l; lra).
      split; split; try lra; apply Rmult_lt_0_compat; lra. }
    rewrite F2, andb_true_r. unfold Rltb. destruct (Rlt_dec _ _); lra.
Qed.

(** ** The fallbacks *)

Lemma minimize_norm p k : lambda_min p <= lambda_max p -> MinimizeNormInf p = Some k -> k <> -1 ->
  0 < k /\ norm_inf k p < 1 /\ forall z, norm_inf k p <= norm_inf z p.
Proof.
  intros Hl. unfold MinimizeNormInf, Rltb, Req0. destruct (Rlt_dec 0 (lambda_min p)) as [Hm|]; [|intros E; injection E as <-; tauto].
  destruct (Req_EM_T _ 0); [lra|]. intros E. injection E as <-. intros _.
  set (s := lambda_min p + lambda_max p) in *. assert (0 < s) as Hs by (unfold s; lra).
  assert (0 < 2 / s) as H0 by (apply Rdiv_lt_0_compat; lra). assert (2 / s * s = 2) as Es by (field; lra).
  assert (2 / s * (lambda_max p + lambda_min p) = 2) as Es2 by (rewrite (Rplus_comm (lambda_max p)); exact Es).
  assert (norm_inf (2 / s) p = 2 / s * lambda_max p - 1) as En by (apply norm_high; auto; lra).
  split; auto. rewrite En. split; [assert (0 < 2 / s * lambda_min p) by (apply Rmult_lt_0_compat; auto); lra|].
  intros z. rewrite norm_inf_max. destruct (Rle_lt_dec z (2 / s)) as [Hz|Hz].
  - apply Rle_trans with (2 := Rmax_r _ _). rewrite <- Rabs_Ropp. apply Rle_trans with (2 := Rle_abs _).
    assert (z * lambda_min p <= 2 / s * lambda_min p) by (apply Rmult_le_compat_r; lra). lra.
  - apply Rle_trans with (2 := Rmax_l _ _). apply Rle_trans with (2 := Rle_abs _).
    assert (2 / s * lambda_max p <= z * lambda_max p) by (apply Rmult_le_compat_r; lra). lra.
Qed.

(** ** Eigenvalues and their summary *)

Lemma total_distance k l : total (fun x => (k * x - 1) * (k * x - 1)) l =
  k * k * total (fun x => x * x) l - 2 * k * total (fun x => x) l + INR (length l).
Proof.
  induction l as [|x l IH]; [cbn; ring|].
  change (total (fun x => (k * x - 1) * (k * x - 1)) (x :: l)) with ((k * x - 1) * (k * x - 1) + total (fun x => (k * x - 1) * (k * x - 1)) l).
  change (total (fun x => x * x) (x :: l)) with (x * x + total (fun x => x * x) l).
  change (total (fun x => x) (x :: l)) with (x + total (fun x => x) l).
  rewrite IH. change (length (x :: l)) with (S (length l)). rewrite S_INR. ring.
Qed.

Lemma total_nonneg f l : (forall y, 0 <= f y) -> 0 <= total f l.
Proof. intros Hf. induction l as [|x l IH]; cbn; [lra|]. fold (total f l). pose proof (Hf x). lra. Qed.

Lemma total_ge f l x : (forall y, 0 <= f y) -> In x l -> f x <= total f l.
Proof.
  intros Hf. induction l as [|y l IH]; [intros []|].
  assert (forall m, 0 <= total f m) as Hp by (induction m as [|z m IHm]; cbn; [lra|pose proof (Hf z); fold (total f m); lra]).
  cbn. fold (total f l). intros [->|H]; [pose proof (Hp l); lra|]. apply IH in H. pose proof (Hf y). lra.
Qed.

Lemma distance_norm p l k : summarises p l -> distance_from_one k l (norm_inf k p).
Proof.
  intros [_ _ _ [Hm1 Hm2] [HM1 HM2]]. rewrite norm_inf_max. split.
  - destruct (Rle_dec (Rabs (k * lambda_max p - 1)) (Rabs (k * lambda_min p - 1))).
    + exists (lambda_min p). rewrite Rmax_right; auto.
    + exists (lambda_max p). rewrite Rmax_left by lra. auto.
  - apply Forall_forall. intros x Hx. rewrite Forall_forall in Hm2, HM2. specialize (Hm2 x Hx). specialize (HM2 x Hx).
    pose proof (Rmax_l (Rabs (k * lambda_max p - 1)) (Rabs (k * lambda_min p - 1))).
    pose proof (Rmax_r (Rabs (k * lambda_max p - 1)) (Rabs (k * lambda_min p - 1))).
    set (M := Rmax _ _) in *.
    assert (- M <= k * lambda_max p - 1 <= M) by (pose proof (Rle_abs (k * lambda_max p - 1)); pose proof (Rle_abs (- (k * lambda_max p - 1))) as Q; rewrite Rabs_Ropp in Q; lra).
    assert (- M <= k * lambda_min p - 1 <= M) by (pose proof (Rle_abs (k * lambda_min p - 1)); pose proof (Rle_abs (- (k * lambda_min p - 1))) as Q; rewrite Rabs_Ropp in Q; lra).
    apply Rabs_le. destruct (Rle_dec 0 k).
    + assert (k * lambda_min p <= k * x) by (apply Rmult_le_compat_l; lra). assert (k * x <= k * lambda_max p) by (apply Rmult_le_compat_l; lra). lra.
    + assert (k * x <= k * lambda_min p) by (apply Rmult_le_compat_neg_l; lra). assert (k * lambda_max p <= k * x) by (apply Rmult_le_compat_neg_l; lra). lra.
Qed.

Lemma distance_unique k l M M' : distance_from_one k l M -> distance_from_one k l M' -> M = M'.
Proof.
  intros [(x & Hx & Ex) H] [(x' & Hx' & Ex') H']. rewrite Forall_forall in H, H'. specialize (H _ Hx'). specialize (H' _ Hx). lra.
Qed.

Lemma divergence_candidate p l k bound : summarises p l -> (divergence_is k l bound <-> candidate p k bound).
Proof.
  intros Hs. pose proof (distance_norm p l k Hs) as Hd. destruct Hs as [H1 H2 H3 _ _].
  unfold candidate, BoundIsFinite, DivergenceUpperBound, Rltb. rewrite H1, H2, H3, <- total_distance. split.
  - intros (M & D & HM & E). rewrite (distance_unique _ _ _ _ D Hd) in *. destruct (Rlt_dec _ _); [auto|lra].
  - intros [HM E]. exists (norm_inf k p). destruct (Rlt_dec _ _); [auto|discriminate].
Qed.

Lemma summary_order p l : summarises p l -> lambda_min p <= lambda_max p.
Proof. intros [_ _ _ [H _] [_ H']]. rewrite Forall_forall in H'. auto. Qed.

Lemma summary_square p l k : summarises p l ->
  (k * lambda_max p - 1) * (k * lambda_max p - 1) <= k * k * frobenius_norm_squared p - 2 * k * trace p + rank p.
Proof.
  intros [H1 H2 H3 _ [H _]]. rewrite H1, H2, H3, <- total_distance.
  apply (total_ge (fun x => (k * x - 1) * (k * x - 1))); auto. intros y. apply sq_nonneg.
Qed.

Lemma inverse_of_list bound p l k : summarises p l -> DivergenceUpperBoundInverse bound p = Some k -> 0 < k -> divergence_is k l bound.
Proof. intros Hs E Hk. apply (divergence_candidate p); auto. apply inverse_sound; auto. eapply summary_order; eauto. Qed.

Lemma inverse_of_list_largest bound p l k : summarises p l -> Forall (fun x => 0 < x) l -> 0 < bound -> 0 < k -> divergence_is k l bound ->
  exists k', DivergenceUpperBoundInverse bound p = Some k' /\ k <= k'.
Proof.
  intros Hs Hl Hb Hk Hd. apply (divergence_candidate p) in Hd; auto. pose proof (summary_order _ _ Hs).
  rewrite Forall_forall in Hl. assert (0 < lambda_min p) by (apply Hl, (sm_min _ _ Hs)).
  apply (inverse_largest bound p k); auto.
  - rewrite (sm_square _ _ Hs). pose proof (total_ge (fun x => x * x) l (lambda_min p) sq_nonneg (proj1 (sm_min _ _ Hs))). cbn beta in *. nra.
  - intros z. apply (summary_square _ _ _ Hs).
Qed.

Lemma minimize_of_list p l k M : summarises p l -> MinimizeNormInf p = Some k -> k <> -1 -> distance_from_one k l M ->
  0 < k /\ M < 1 /\ forall z Mz, distance_from_one z l Mz -> M <= Mz.
Proof.
  intros Hs E Hk HM. destruct (minimize_norm p k (summary_order _ _ Hs) E Hk) as (H1 & H2 & H3).
  rewrite (distance_unique _ _ _ _ HM (distance_norm p l k Hs)). split; auto. split; auto.
  intros z Mz Hz. rewrite (distance_unique _ _ _ _ Hz (distance_norm p l z Hs)). apply H3.
Qed.

Lemma minimize_total p l : summarises p l -> Forall (fun x => 0 < x) l -> exists k, MinimizeNormInf p = Some k /\ 0 < k.
Proof.
  intros Hs Hl. rewrite Forall_forall in Hl. assert (0 < lambda_min p) by (apply Hl, (sm_min _ _ Hs)). pose proof (summary_order _ _ Hs).
  unfold MinimizeNormInf, Rltb, Req0. destruct (Rlt_dec 0 (lambda_min p)); [|lra]. destruct (Req_EM_T _ 0); [lra|].
  eexists. split; [reflexivity|]. apply Rdiv_lt_0_compat; lra.
Qed.

Definition squared_distance (k : R) (l : list R) : R := total (fun x => (k * x - 1) * (k * x - 1)) l.

Lemma mu_positive upper p l : summarises p l -> Forall (fun x => 0 < x) l -> 0 < upper ->
  exists k, mu_from_spectrum upper (length l) p = Some k /\ 0 < k /\
    (forall M, distance_from_one k l M -> M < 1) /\
    ((divergence_is k l (upper * INR (length l)) /\ forall z, 0 < z -> divergence_is z l (upper * INR (length l)) -> z <= k) \/
     ((forall z, 0 < z -> ~ divergence_is z l (upper * INR (length l))) /\
      forall M z Mz, distance_from_one k l M -> distance_from_one z l Mz -> M <= Mz)).
Proof.
  intros Hs Hl Hu. pose proof Hl as Hl'. rewrite Forall_forall in Hl'.
  assert (0 < lambda_min p) as Hm by (apply Hl', (sm_min _ _ Hs)). pose proof (summary_order _ _ Hs) as Ho.
  assert (0 < INR (length l)) as Hn by (pose proof (proj1 (sm_min _ _ Hs)); destruct l; [easy|]; apply (lt_INR 0); cbn; apply Nat.lt_0_succ).
  set (bound := upper * INR (length l)). assert (0 < bound) as Hb by (apply Rmult_lt_0_compat; auto).
  unfold mu_from_spectrum. fold bound.
  destruct (DivergenceUpperBoundInverse bound p) as [k0|] eqn:E.
  - destruct (Req_EM_T k0 (-1)) as [->|Hk0].
    + destruct (minimize_total p l Hs Hl) as (k & Ek & Hk). rewrite Ek. unfold Rltb at 1. destruct (Rlt_dec k 0); [lra|]. cbn [andb].
      exists k. split; auto. split; auto.
      destruct (minimize_of_list p l k _ Hs Ek ltac:(lra) (distance_norm p l k Hs)) as (_ & G1 & G2).
      split; [intros M HM; rewrite (distance_unique _ _ _ _ HM (distance_norm p l k Hs)); auto|]. right. split.
      * intros z Hz Hd. destruct (inverse_of_list_largest bound p l z Hs Hl Hb Hz Hd) as (k' & E' & H'). rewrite E in E'. injection E' as <-. lra.
      * intros M z Mz HM HMz. rewrite (distance_unique _ _ _ _ HM (distance_norm p l k Hs)). eauto.
    + assert (0 < k0) as Hk.
      { unfold DivergenceUpperBoundInverse, Req0 in E.
        destruct (Req_EM_T (frobenius_norm_squared p) 0) as [|Hf]; [discriminate|].
        destruct (Req_EM_T (lambda_min p) 0) as [|Hm0]; [discriminate|].
        destruct (Req_EM_T (lambda_max p + lambda_min p) 0); [discriminate|]. cbn [orb] in E. injection E as E.
        pose proof (low_branch bound p Hm0 Hf) as HL. pose proof (high_branch bound p Hf) as HH. cbn zeta in HL, HH.
        destruct (BoundIsFinite (InverseLambdaMinBranch bound p) p) eqn:F1.
        - apply finite_iff in F1. assert (0 < InverseLambdaMinBranch bound p) by nra.
          destruct (Rltb _ _ && _) eqn:E2; [|lra]. apply andb_prop in E2 as [E2 _]. unfold Rltb in E2. destruct (Rlt_dec _ _); [lra|discriminate].
        - destruct (Rltb _ _ && _) eqn:E2; [|lra]. apply andb_prop in E2 as [_ E2]. apply finite_iff in E2. nra. }
      unfold Rltb at 1. destruct (Rlt_dec k0 0); [lra|]. cbn [andb]. exists k0. split; auto. split; auto.
      pose proof (inverse_of_list bound p l k0 Hs E Hk) as HD. split.
      * intros M HM. destruct HD as (M' & HM' & Hlt & _). rewrite (distance_unique _ _ _ _ HM HM'). auto.
      * left. split; auto. intros z Hz Hd. destruct (inverse_of_list_largest bound p l z Hs Hl Hb Hz Hd) as (k' & E' & H').
        rewrite E in E'. injection E' as <-. auto.
  - exfalso. unfold DivergenceUpperBoundInverse, Req0 in E.
    destruct (Req_EM_T (frobenius_norm_squared p) 0) as [Hf|Hf].
    + rewrite (sm_square _ _ Hs) in Hf. pose proof (total_ge (fun x => x * x) l (lambda_min p) sq_nonneg (proj1 (sm_min _ _ Hs))). cbn beta in *. nra.
    + destruct (Req_EM_T (lambda_min p) 0); [lra|]. destruct (Req_EM_T (lambda_max p + lambda_min p) 0); [lra|]. discriminate.
Qed.

(** The last fallback, when no eigenvalue condition holds but the trace is positive. *)
Lemma mu_fallback upper p l k0 : summarises p l -> DivergenceUpperBoundInverse (upper * INR (length l)) p = Some k0 ->
  k0 < 0 -> lambda_min p <= 0 -> / 10 ^ 12 < trace p ->
  exists k, mu_from_spectrum upper (length l) p = Some k /\ 0 < k /\
    forall z, squared_distance k l <= 3 / 2 * squared_distance z l.
Proof.
  intros Hs E Hk0 Hm Ht. assert (0 < / 10 ^ 12) as Hpos by (apply Rinv_0_lt_compat, pow_lt; lra).
  assert (frobenius_norm_squared p <> 0) as Hf0.
  { unfold DivergenceUpperBoundInverse, Req0 in E. destruct (Req_EM_T (frobenius_norm_squared p) 0); [discriminate|auto]. }
  assert (0 < frobenius_norm_squared p) as Hf.
  { pose proof (total_ge (fun x => x * x) l (lambda_min p) sq_nonneg (proj1 (sm_min _ _ Hs))) as G. rewrite <- (sm_square _ _ Hs) in G. cbn beta in G.
    pose proof (sq_nonneg (lambda_min p)). lra. }
  assert (forall z, squared_distance z l = z * z * frobenius_norm_squared p - 2 * z * trace p + INR (length l)) as HN.
  { intros z. unfold squared_distance. rewrite total_distance, <- (sm_square _ _ Hs), <- (sm_trace _ _ Hs). reflexivity. }
  assert (forall z, 0 <= squared_distance z l) as Hnn.
  { intros z. apply total_nonneg. intros y. apply sq_nonneg. }
  unfold mu_from_spectrum. rewrite E.
  assert ((if Req_EM_T k0 (-1) then MinimizeNormInf p else Some k0) = Some k0) as ->.
  { destruct (Req_EM_T k0 (-1)) as [->|]; auto. unfold MinimizeNormInf, Rltb. destruct (Rlt_dec 0 (lambda_min p)); [lra|auto]. }
  unfold Rltb at 1 2. destruct (Rlt_dec k0 0); [|lra]. destruct (Rlt_dec (/ 10 ^ 12) (trace p)); [|lra]. cbn [andb].
  unfold Req0. destruct (Req_EM_T _ 0) as [HF0|HF0]; [lra|].
  set (F := frobenius_norm_squared p) in *. set (T := trace p) in *. set (n := INR (length l)) in *.
  set (kstar := T / F). set (nb := 15 / 10 * (F * kstar * kstar - 2 * T * kstar + n)).
  assert (forall z, squared_distance kstar l <= squared_distance z l) as Hmin.
  { intros z. rewrite !HN. assert (F * kstar = T) as Ek by (unfold kstar; field; lra).
    assert (z * z * F - 2 * z * T + n - (kstar * kstar * F - 2 * kstar * T + n) = F * ((z - kstar) * (z - kstar))) as D by (rewrite <- Ek; ring).
    assert (0 <= F * ((z - kstar) * (z - kstar))) by (apply Rmult_le_pos; [lra|apply sq_nonneg]). lra. }
  assert (nb = 3 / 2 * squared_distance kstar l) as Enb by (unfold nb; rewrite HN; lra).
  assert (0 < kstar) as Hks by (apply Rdiv_lt_0_compat; lra).
  set (norm_bound := if Rltb (n * (7 / 10)) nb then n * (7 / 10) else nb).
  assert (norm_bound <= nb) as Hnb by (unfold norm_bound, Rltb; destruct (Rlt_dec _ _); lra).
  unfold Rltb. destruct (Rlt_dec _ 0) as [Hd|Hd].
  - exists kstar. split; auto. split; auto. intros z. specialize (Hmin z). pose proof (Hnn z). lra.
  - set (D := -2 * T * (-2 * T) - 4 * F * (n - norm_bound)) in *.
    set (k := (- (-2 * T) + sqrt D) / (2 * F)).
    assert (F * k * k + -2 * T * k + (n - norm_bound) = 0) as Er.
    { apply (root_plus F (-2 * T) (n - norm_bound) (sqrt D)); [lra|]. rewrite sqrt_sqrt; [reflexivity|lra]. }
    exists k. split; auto. split.
    + apply Rdiv_lt_0_compat; [|lra]. pose proof (sqrt_pos D). lra.
    + intros z. rewrite HN. replace (k * k * F - 2 * k * T + n) with norm_bound by lra. specialize (Hmin z). lra.
Qed.
