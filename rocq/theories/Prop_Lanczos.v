(** Properties C62 and C63: the eigenvalue estimates behind the norms and eigenvalues
    that semidefinite constraints report. *)
From Coq Require Import List Arith Reals Lra Lia FunctionalExtensionality.
From Verif Require Import Base DenseModel RSum JordanModel LanczosModel Spec_Hyper Spec_Lanczos HyperFacts JordanProofs JordanInterior JordanSteps
  LanczosProofs LanczosLinks LanczosFacts LanczosReports RealFactor.
Import ListNotations.
Open Scope R_scope.

(** ** C62: the estimates lie inside the spectrum *)

(** Every value returned by [ApproximateEigenvalues] lies between any two bounds of the
    spectrum of [W^{1/2} S W^{1/2}]. *)
Theorem C62_in_spectrum : forall d W S r num al be lambda lo hi,
  posdef (A := reals) d W -> hermitian_matrix (A := reals) d S ->
  ApproximateEigenvalues d (rprod d W S) W r num = Some (al, be) -> is_eigenvalue al be lambda ->
  spectrum_between (A := reals) d W S lo hi -> lo <= lambda <= hi.
Proof. intros d W S r num al be lambda lo hi HW HS E HE HB. exact (rayleigh_range (A := reals) d W S _ (approximate_rayleigh d W S r num HW HS) al be lambda lo hi E HE HB). Qed.
(** The same over the reals, complex numbers and quaternions. *)
Theorem C62_in_spectrum_hyper : forall k d W S r num al be lambda lo hi, (k <= 2)%nat ->
  possemidef d (matrix_of k W) -> hermitian_matrix d (matrix_of k S) ->
  HApproximateEigenvalues (2 ^ k) d (Multiply (2 ^ k) d W S) W r num = Some (al, be) -> is_eigenvalue al be lambda ->
  spectrum_between d (matrix_of k W) (matrix_of k S) lo hi -> lo <= lambda <= hi.
Proof. intros k d W S r num al be lambda lo hi Hk HW HS E HE HB. exact (rayleigh_range d _ _ _ (hyper_rayleigh k d W S r num Hk HW HS) al be lambda lo hi E HE HB). Qed.

(** If the iteration stops early, every estimate is an eigenvalue up to a residual of
    [1/1000] (relative to the norm of the operator for hypercomplex matrices, with
    [10^-5] on the squares). *)
Theorem C62_early_stop : forall d W S r num al be lambda,
  possemidef (A := reals) d W -> hermitian_matrix (A := reals) d S ->
  AsymmetricLanczos d (rprod d W S) W r num = Some (al, be) -> is_eigenvalue al be lambda -> (length al < num)%nat ->
  exists z, near_eigenvector (A := reals) d W S lambda (1 / 1000) z.
Proof. intros d W S r num al be lambda HW HS E HE Hl. destruct (real_estimate d W S HW HS r num al be lambda E HE) as (z & _ & _ & H). exists z. auto. Qed.
Theorem C62_early_stop_hyper : forall k d W S r num al be lambda t eps, (k <= 2)%nat ->
  possemidef d (matrix_of k W) -> hermitian_matrix d (matrix_of k S) ->
  HApproximateEigenvalues (2 ^ k) d (Multiply (2 ^ k) d W S) W r num = Some (al, be) -> is_eigenvalue al be lambda -> (length al < num)%nat ->
  0 <= t -> spectrum_between d (matrix_of k W) (matrix_of k S) (- t) t -> t * t <= 10 ^ 5 * (eps * eps) ->
  exists z, near_eigenvector d (matrix_of k W) (matrix_of k S) lambda eps z.
Proof.
  intros k d W S r num al be lambda t eps Hk HW HS E HE Hl Ht HB He.
  destruct (hyper_estimate k d W S Hk HW HS r num al be lambda E HE) as (z & _ & _ & H). exists z. eapply H; eauto.
Qed.

(** The reported [norminfd] never exceeds the operator norm of
    [e + W^{1/2} S W^{1/2}], and with [e_weight = 1] its square never exceeds the
    reported [normsqrd]. *)
Theorem C62_norm : forall d W S opt t, posdef (A := reals) d W -> hermitian_matrix (A := reals) d S ->
  PNormInf d W S opt t ->
  (forall b, norm_at_most (A := reals) d W S (so_e_weight opt) b -> t <= b) /\
  (so_e_weight opt = 1 -> t * t <= PNormSquared d (PWeightedSlack d W S)).
Proof.
  intros d W S opt t HW HS HT.
  assert (forall b, norm_at_most (A := reals) d W S (so_e_weight opt) b -> t <= b) as H.
  { intros b HB. exact (rayleigh_norm (A := reals) d W S _ (approximate_rayleigh d W S _ _ HW HS) _ _ _ HT HB). }
  split; [exact H|]. intros He. rewrite He in H. destruct (real_norm_bound d W S HW HS) as [HB H0]. apply H in HB.
  assert (0 <= t) as Ht.
  { destruct HT as (al & be & lo & hi & _ & _ & _ & ->). unfold norm_from. destruct (Rlt_dec _ _); apply Rabs_pos. }
  rewrite <- (R_sqrt.sqrt_def _ H0). apply Rmult_le_compat; auto.
Qed.
Theorem C62_norm_hyper : forall k o0 b o opt y r t, (k <= 2)%nat -> herm_data k (h_rank o0) o0 -> reached (2 ^ k) o0 b o ->
  HNormInf (2 ^ k) o opt y r t ->
  (forall c, norm_at_most (h_rank o0) (matrix_of k (h_W o)) (matrix_of k (HNegativeSlack o (so_c_weight opt) y)) (so_e_weight opt) c -> t <= c) /\
  (so_affine opt = false -> so_e_weight opt = 1 -> exists s, snd (HPrepareStep (2 ^ k) o opt y) = Some s /\ t * t <= s).
Proof.
  intros k o0 b o opt y r t Hk HD HR HT. pose proof (reached_good k Hk (h_rank o0) o0 b o eq_refl HD HR) as HG.
  destruct (good_slack k Hk _ _ _ _ (so_c_weight opt) y HD HG) as [HW HS].
  assert (h_rank o = h_rank o0) as ER by apply HG. unfold HNormInf in HT. rewrite ER in HT.
  assert (forall c, norm_at_most (h_rank o0) (matrix_of k (h_W o)) (matrix_of k (HNegativeSlack o (so_c_weight opt) y)) (so_e_weight opt) c -> t <= c) as H.
  { intros c HB. exact (rayleigh_norm _ _ _ _ (hyper_rayleigh k _ _ _ r _ Hk (posdef_psd _ (laws_cd k) _ _ HW) HS) _ _ _ HT HB). }
  split; [exact H|]. intros Ha He. destruct (hermitian_norm_bound k Hk _ b o0 o opt y HD HG Ha He) as (s & E & HB & H0). exists s. split; [exact E|].
  rewrite He in H. apply H in HB.
  assert (0 <= t) as Ht.
  { destruct HT as (al & be & lo & hi & _ & _ & _ & ->). unfold norm_from. destruct (Rlt_dec _ _); apply Rabs_pos. }
  rewrite <- (R_sqrt.sqrt_def _ H0). apply Rmult_le_compat; auto.
Qed.

(** The reported [norminfd] is the largest distance of an estimate from [- e]. *)
Lemma norm_largest e T t : norm_estimate e T t ->
  exists al be, T = Some (al, be) /\ (forall lambda, is_eigenvalue al be lambda -> Rabs (e + lambda) <= t) /\
    exists lambda, is_eigenvalue al be lambda /\ t = Rabs (e + lambda).
Proof.
  intros (al & be & lo & hi & E & [Hlo Blo] & [Hhi Bhi] & ->). exists al, be. split; [exact E|]. unfold norm_from. cbv zeta. split.
  - intros lambda HE. apply Blo in HE as H1. apply Bhi in HE as H2. clear - H1 H2.
    unfold Rabs. repeat (destruct (Rcase_abs _) || destruct (Rlt_dec _ _)); lra.
  - destruct (Rlt_dec _ _); eauto.
Qed.
Theorem C62_norm_largest : forall d W S opt t, PNormInf d W S opt t ->
  exists al be, PPrepareTridiagonal d W S = Some (al, be) /\ (forall lambda, is_eigenvalue al be lambda -> Rabs (so_e_weight opt + lambda) <= t) /\
    exists lambda, is_eigenvalue al be lambda /\ t = Rabs (so_e_weight opt + lambda).
Proof. intros d W S opt t. exact (norm_largest _ _ t). Qed.
Theorem C62_norm_largest_hyper : forall n o opt y r t, HNormInf n o opt y r t ->
  exists al be, HApproximateEigenvalues n (h_rank o) (Multiply n (h_rank o) (h_W o) (HNegativeSlack o (so_c_weight opt) y)) (h_W o) r (h_rank o / 2 + 1) = Some (al, be) /\
    (forall lambda, is_eigenvalue al be lambda -> Rabs (so_e_weight opt + lambda) <= t) /\
    exists lambda, is_eigenvalue al be lambda /\ t = Rabs (so_e_weight opt + lambda).
Proof. intros n o opt y r t. exact (norm_largest _ _ t). Qed.

(** The reported eigenvalues of the weighted slack lie between its true extremes. *)
Theorem C62_slack : forall d W S lambda_min lambda_max lo hi, posdef (A := reals) d W -> hermitian_matrix (A := reals) d S ->
  PSlackEigenvalues d W S lambda_min lambda_max -> spectrum_between (A := reals) d W S lo hi ->
  - hi <= lambda_min /\ lambda_min <= lambda_max /\ lambda_max <= - lo.
Proof. intros d W S lmin lmax lo hi HW HS HE HB. exact (rayleigh_slack (A := reals) d W S _ (approximate_rayleigh d W S _ _ HW HS) _ _ _ _ HE HB). Qed.
Theorem C62_slack_hyper : forall k o0 b o y c_weight r lambda_min lambda_max lo hi, (k <= 2)%nat -> herm_data k (h_rank o0) o0 -> reached (2 ^ k) o0 b o ->
  HSlackEigenvalues (2 ^ k) o y c_weight r lambda_min lambda_max ->
  spectrum_between (h_rank o0) (matrix_of k (h_W o)) (matrix_of k (HNegativeSlack o c_weight y)) lo hi ->
  - hi <= lambda_min /\ lambda_min <= lambda_max /\ lambda_max <= - lo.
Proof.
  intros k o0 b o y c r lmin lmax lo hi Hk HD HR HE HB. pose proof (reached_good k Hk (h_rank o0) o0 b o eq_refl HD HR) as HG.
  destruct (good_slack k Hk _ _ _ _ c y HD HG) as [HW HS]. assert (h_rank o = h_rank o0) as ER by apply HG. unfold HSlackEigenvalues in HE. rewrite ER in HE.
  exact (rayleigh_slack _ _ _ _ (hyper_rayleigh k _ _ _ r _ Hk (posdef_psd _ (laws_cd k) _ _ HW) HS) _ _ _ _ HE HB).
Qed.

(** Examples.  [W] is the identity of order 2. *)
Definition two (a b c : R) : mat := fun i j =>
  match i, j with 0, 0 => a | 1, 1 => c | 0, 1 | 1, 0 => b | _, _ => 0%R end%nat.
Lemma two_hermitian a b c : hermitian_matrix (A := reals) 2 (two a b c).
Proof. intros i j Hi Hj. unfold mconj, two. cbn. destruct i as [|[|]], j as [|[|]]; auto; lia. Qed.
Lemma two_posdef : posdef (A := reals) 2 (two 1 0 1).
Proof.
  split; [apply two_hermitian|]. intros z (i & Hi & Hz). rewrite rform_form. unfold rform, two. cbn [rsum]. cbn [reals s0] in Hz.
  assert (0 < z i * z i) by (destruct (Rdichotomy _ _ Hz); nra).
  pose proof (Rle_0_sqr (z 0%nat)). pose proof (Rle_0_sqr (z 1%nat)). unfold Rsqr in *. destruct i as [|[|]]; [nra|nra|lia].
Qed.
Lemma sqrt_of x y : 0 <= y -> x = y * y -> sqrt x = y.
Proof. intros H ->. apply R_sqrt.sqrt_square. auto. Qed.
Lemma two_eigenvalue a b c lambda : is_eigenvalue [a; c] [b] lambda <-> (lambda - a) * (lambda - c) = b * b.
Proof.
  unfold is_eigenvalue, tridiagonal. cbn [length]. split.
  - intros (z & (i & Hi & Hz) & H). pose proof (H 0%nat ltac:(lia)) as H0. pose proof (H 1%nat ltac:(lia)) as H1. cbn in H0, H1.
    assert (b * z 1%nat = (lambda - a) * z 0%nat) as E0 by lra. assert (b * z 0%nat = (lambda - c) * z 1%nat) as E1 by lra.
    destruct i as [|[|]]; [| |lia].
    + apply Rmult_eq_reg_r with (z 0%nat); auto. transitivity ((lambda - c) * ((lambda - a) * z 0%nat)); [ring|]. rewrite <- E0.
      transitivity (b * ((lambda - c) * z 1%nat)); [ring|]. rewrite <- E1. ring.
    + apply Rmult_eq_reg_r with (z 1%nat); auto. transitivity ((lambda - a) * ((lambda - c) * z 1%nat)); [ring|]. rewrite <- E1.
      transitivity (b * ((lambda - a) * z 0%nat)); [ring|]. rewrite <- E0. ring.
  - intros H. destruct (Req_dec b 0) as [->|Hb].
    + assert ((lambda - a) * (lambda - c) = 0) as H0 by lra. apply Rmult_integral in H0. destruct H0 as [H0|H0].
      * exists (fun i => if (i =? 0)%nat then 1 else 0). split; [exists 0%nat; split; [lia|cbn; lra]|]. intros i Hi. destruct i as [|[|]]; [| |lia]; cbn; lra.
      * exists (fun i => if (i =? 1)%nat then 1 else 0). split; [exists 1%nat; split; [lia|cbn; lra]|]. intros i Hi. destruct i as [|[|]]; [| |lia]; cbn; lra.
    + exists (fun i => if (i =? 0)%nat then b else lambda - a). split; [exists 0%nat; split; [lia|cbn; auto]|].
      intros i Hi. destruct i as [|[|]]; [| |lia]; cbn; lra.
Qed.
(** Two iterations from [(3, 4)] with [S] exchanging the coordinates find both
    eigenvalues. *)

Ltac steps := unfold columns_scale, columns_add, apply_both, inner_product, rprod, two, PWeightedSlack; cbn [rsum fst snd Nat.eqb]; try field; try lra.
Lemma scalar_extremes a : min_eigenvalue [a] [] a /\ max_eigenvalue [a] [] a.
Proof. split; (split; [apply scalar_eigenvalue; auto|]); intros mu H; apply scalar_eigenvalue in H; lra. Qed.
Lemma one_iteration S r q : q = inner_product 2 (fun i => rsum 2 (fun t => two 1 0 1 i t * r t), r) (fun i => rsum 2 (fun t => two 1 0 1 i t * r t), r) -> 0 < q ->
  AsymmetricLanczos 2 S (two 1 0 1) r 1 = Some ([rform 2 S r / q], []).
Proof.
  intros Hq H0. unfold AsymmetricLanczos, lanczos. cbn zeta. match goal with |- context [Rle_dec (inner_product 2 ?X ?X) 0] => set (V := X) end. assert (inner_product 2 V V = q) as -> by (symmetry; exact Hq).
  destruct (Rle_dec q 0); [lra|]. unfold V. cbn [lanczos_loop]. do 3 f_equal.
  assert (0 < sqrt q) as Hs by (apply sqrt_lt_R0; auto). assert (sqrt q * sqrt q = q) as Hss by (apply sqrt_sqrt; lra).
  unfold columns_scale, apply_both, inner_product, rform, two. cbn [rsum fst snd].
  set (k := sqrt q) in *. clearbody k. rewrite <- Hss. field. lra.
Qed.
Example C62_example :
  AsymmetricLanczos 2 (rprod 2 (two 1 0 1) (two 0 1 0)) (two 1 0 1) (fun i => if (i =? 0)%nat then 3 else 4) 2 = Some ([24 / 25; - (24 / 25)], [7 / 25]) /\
  is_eigenvalue [24 / 25; - (24 / 25)] [7 / 25] 1 /\ is_eigenvalue [24 / 25; - (24 / 25)] [7 / 25] (-1) /\
  spectrum_between (A := reals) 2 (two 1 0 1) (two 0 1 0) (-1) 1.
Proof.
  split; [|split; [|split]].
  - unfold AsymmetricLanczos, lanczos. cbn zeta. match goal with |- context [Rle_dec (inner_product 2 ?X ?X) 0] => set (V := X) end.
    assert (inner_product 2 V V = 25) as -> by (unfold V; steps). destruct (Rle_dec 25 0); [lra|]. rewrite (sqrt_of 25 5) by lra.
    set (v := columns_scale V (1 / 5)). set (u := apply_both _ _ v).
    assert (inner_product 2 v u = 24 / 25) as -> by (unfold u, v, V; steps).
    set (U := columns_add u _). cbn [lanczos_loop].
    assert (inner_product 2 U U = 49 / 625) as -> by (unfold U, u, v, V; steps). destruct (Rlt_dec (49 / 625) (1 / 10 ^ 6)); [lra|]. destruct (Rle_dec (49 / 625) 0); [lra|].
    rewrite (sqrt_of (49 / 625) (7 / 25)) by lra. do 3 f_equal. f_equal. unfold U, u, v, V. steps.
  - apply two_eigenvalue. lra.
  - apply two_eigenvalue. lra.
  - intros z. unfold weighted. rewrite !rform_form. unfold rform, mmul, two. cbn. pose proof (Rle_0_sqr (z 0%nat - z 1%nat)). pose proof (Rle_0_sqr (z 0%nat + z 1%nat)). unfold Rsqr in *. lra.
Qed.
(** A stop after one iteration: [S] is the identity. *)
Example C62_early_example :
  AsymmetricLanczos 2 (rprod 2 (two 1 0 1) (two 1 0 1)) (two 1 0 1) (fun i => if (i =? 0)%nat then 3 else 4) 2 = Some ([1], []) /\
  is_eigenvalue [1] [] 1 /\ (length [1] < 2)%nat.
Proof.
  split; [|split; [apply scalar_eigenvalue; auto|cbn; lia]].
  unfold AsymmetricLanczos, lanczos. cbn zeta. match goal with |- context [Rle_dec (inner_product 2 ?X ?X) 0] => set (V := X) end.
  assert (inner_product 2 V V = 25) as -> by (unfold V; steps). destruct (Rle_dec 25 0); [lra|]. rewrite (sqrt_of 25 5) by lra.
  set (v := columns_scale V (1 / 5)). set (u := apply_both _ _ v).
  assert (inner_product 2 v u = 1) as -> by (unfold u, v, V; steps).
  set (U := columns_add u _). cbn [lanczos_loop].
  assert (inner_product 2 U U = 0) as -> by (unfold U, u, v, V; steps). destruct (Rlt_dec 0 (1 / 10 ^ 6)); [auto|lra].
Qed.
(** An indefinite [S] of order 2 (one iteration). *)
Lemma two_diagonal a b c : a < c \/ c <= a -> max_index 2 (fun i => rprod 2 (two 1 0 1) (two a b c) i i) = if Rlt_dec a c then 1%nat else 0%nat.
Proof.
  intros _. unfold max_index, for_up. cbn [seq fold_left]. unfold rprod, two. cbn [rsum].
  destruct (Rlt_dec (0 + 1 * a + 0 * b) (0 + 1 * a + 0 * b)); [lra|]. destruct (Rlt_dec (0 + 1 * a + 0 * b) (0 + 0 * b + 1 * c)); destruct (Rlt_dec a c); auto; lra.
Qed.
Lemma two_product a b c i j : (i < 2)%nat -> (j < 2)%nat -> rprod 2 (two 1 0 1) (two a b c) i j = two a b c i j.
Proof. intros Hi Hj. unfold rprod, two. cbn [rsum]. destruct i as [|[|]], j as [|[|]]; try lia; ring. Qed.
(** The tridiagonal matrices of [PrepareStep] and [GetWeightedSlackEigenvalues] in
    order 2 with [W] the identity. *)
Lemma two_estimate a b c : c <= a -> 0 < a * a + b * b ->
  let t := (a * a * a + 2 * a * b * b + b * b * c) / (a * a + b * b) in
  PPrepareTridiagonal 2 (two 1 0 1) (two a b c) = Some ([t], []) /\ PSlackTridiagonal 2 (two 1 0 1) (two a b c) = Some ([t], []).
Proof.
  intros Hc Hp t. unfold PPrepareTridiagonal, PSlackTridiagonal, PWeightedSlack. rewrite two_diagonal by lra. destruct (Rlt_dec a c); [lra|].
  unfold ApproximateEigenvalues. change (2 =? 1)%nat with false. cbn iota. change (2 / 2)%nat with 1%nat. split.
  - rewrite (one_iteration _ _ (a * a + b * b)); auto.
    + do 3 f_equal. unfold t, rform, rprod, two. cbn [rsum]. field. lra.
    + unfold inner_product, rprod, two. cbn [rsum fst snd]. ring.
  - rewrite (one_iteration _ _ (a * a + b * b)); auto.
    + do 3 f_equal. unfold t, rform, rprod, two. cbn [rsum]. field. lra.
    + unfold inner_product, rprod, two. cbn [rsum fst snd]. ring.
Qed.
Lemma norm_from_same e a : norm_from e a a = Rabs (e + a).
Proof. unfold norm_from. destruct (Rlt_dec _ _); auto. Qed.
Example C62_norm_example : let S := two (1 / 10) (1 / 2) (- (1 / 2)) in
  PNormInf 2 (two 1 0 1) S (mkStepOptions false 1 1 1) (93 / 130) /\ PSlackEigenvalues 2 (two 1 0 1) S (37 / 130) (37 / 130) /\
  norm_at_most (A := reals) 2 (two 1 0 1) S 1 2 /\ spectrum_between (A := reals) 2 (two 1 0 1) S (-1) 1.
Proof.
  intros S. destruct (two_estimate (1 / 10) (1 / 2) (- (1 / 2))) as [E1 E2]; [lra|lra|]. cbv zeta in E1, E2.
  replace ((1 / 10 * (1 / 10) * (1 / 10) + 2 * (1 / 10) * (1 / 2) * (1 / 2) + 1 / 2 * (1 / 2) * - (1 / 2)) / (1 / 10 * (1 / 10) + 1 / 2 * (1 / 2))) with (- (37 / 130)) in E1, E2 by field.
  destruct (scalar_extremes (- (37 / 130))) as [H1 H2]. split; [|split; [|split]].
  - exists [- (37 / 130)], [], (- (37 / 130)), (- (37 / 130)). split; [exact E1|]. split; [auto|]. split; [auto|]. rewrite norm_from_same. cbn [so_e_weight]. rewrite Rabs_right; lra.
  - exists [- (37 / 130)], [], (- (37 / 130)), (- (37 / 130)). split; [exact E2|]. split; [auto|]. split; [auto|]. split; lra.
  - intros z. unfold weighted. rewrite !rform_form. unfold rform, mmul, S, two. cbn. pose proof (Rle_0_sqr (z 0%nat - z 1%nat)). pose proof (Rle_0_sqr (z 0%nat + z 1%nat)).
    pose proof (Rle_0_sqr (z 0%nat)). pose proof (Rle_0_sqr (z 1%nat)). unfold Rsqr in *. apply Rabs_le. lra.
  - intros z. unfold weighted. rewrite !rform_form. unfold rform, mmul, S, two. cbn. pose proof (Rle_0_sqr (z 0%nat - z 1%nat)). pose proof (Rle_0_sqr (z 0%nat + z 1%nat)).
    pose proof (Rle_0_sqr (z 0%nat)). pose proof (Rle_0_sqr (z 1%nat)). unfold Rsqr in *. lra.
Qed.

(** A complex constraint: the slack exchanges the coordinates with factors [i], [-i]; the
    reported norm 2 is the operator norm and the square root of [normsqrd]. *)
Definition turn : hyper := fun i r c => if (i =? 1)%nat then match r, c with 0, 1 => (-1)%R | 1, 0 => 1%R | _, _ => 0%R end%nat else 0.
Definition turn_constraint : hermitian := mkHermitian 2 [] turn Zero Zero Zero.
Definition first_unit : hyper := fun i r _ => if ((i =? 0) && (r =? 0))%nat%bool then 1 else 0.
Ltac hsteps := lazy [hinner_product hcolumns_scale hcolumns_add happly_both fst snd Multiply for_up fold_left seq multiply_step index_at sign_at index_table sign_table nth
  Nat.eqb Z.leb Z.compare Pos.compare Pos.compare_cont CompOpp Zero Nat.pow Nat.mul Nat.add rprod rsum ConjugateTranspose ScalarMultiply Add
  turn first_unit Identity andb HNegativeSlack h_mats h_affine turn_constraint HSetIdentity with_W h_rank h_W so_c_weight].
Example C62_hyper_example : let o := HSetIdentity turn_constraint in let opt := mkStepOptions false 1 1 1 in
  herm_data 1 2 turn_constraint /\ reached (2 ^ 1) turn_constraint false o /\
  HNormInf (2 ^ 1) o opt (fun _ => 0) first_unit 2 /\ HSlackEigenvalues (2 ^ 1) o (fun _ => 0) 1 first_unit (-1) 1 /\
  snd (HPrepareStep (2 ^ 1) o opt (fun _ => 0)) = Some 4.
Proof.
  intros o opt. split; [|split; [constructor|]].
  { split; [intros X []|]. intros r c Hr Hc. unfold mconj, matrix_of, turn. destruct r as [|[|]], c as [|[|]]; try lia; cbn; f_equal; ring. }
  assert (HApproximateEigenvalues (2 ^ 1) 2 (Multiply (2 ^ 1) 2 Identity (HNegativeSlack o 1 (fun _ => 0))) Identity first_unit 2 = Some ([0; 0], [1])) as E.
  { unfold HApproximateEigenvalues, lanczos. cbn zeta. match goal with |- context [Rle_dec (hinner_product ?a ?b ?X ?X) 0] => set (V := X) end.
    assert (hinner_product (2 ^ 1) 2 V V = 1) as -> by (unfold V; hsteps; ring). destruct (Rle_dec 1 0); [lra|]. rewrite sqrt_1.
    set (v := hcolumns_scale V (1 / 1)). set (u := happly_both _ _ _ v).
    assert (hinner_product (2 ^ 1) 2 v u = 0) as -> by (unfold u, v, V, o; hsteps; field).
    assert (hinner_product (2 ^ 1) 2 u u = 1) as -> by (unfold u, v, V, o; hsteps; field).
    set (U := hcolumns_add u _). cbn [lanczos_loop].
    assert (hinner_product (2 ^ 1) 2 U U = 1) as -> by (unfold U, u, v, V, o; hsteps; field).
    destruct (Rlt_dec 1 (1 / 10 ^ 5 * 1)); [lra|]. destruct (Rle_dec 1 0); [lra|]. rewrite sqrt_1. do 3 f_equal. f_equal. unfold U, u, v, V, o. hsteps. field. }
  assert (min_eigenvalue [0; 0] [1] (-1) /\ max_eigenvalue [0; 0] [1] 1) as [H1 H2].
  { split; (split; [apply two_eigenvalue; ring|]); intros mu H; apply two_eigenvalue in H; nra. }
  split; [|split].
  - exists [0; 0], [1], (-1), 1. split; [exact E|]. split; [auto|]. split; [auto|]. unfold norm_from. cbn [so_e_weight opt].
    replace (1 + -1) with 0 by ring. rewrite Rabs_R0, (Rabs_right (1 + 1)) by lra. destruct (Rlt_dec 0 (1 + 1)); lra.
  - exists [0; 0], [1], (-1), 1. split; [exact E|]. split; [auto|]. split; [auto|]. split; lra.
  - unfold HPrepareStep. cbn [so_affine opt snd]. f_equal. unfold trace0. cbn [rsum h_rank o HSetIdentity with_W turn_constraint].
    unfold opt, o. hsteps. cbn [INR]. ring.
Qed.

(** ** C63: when the estimates are defined, and what they do not imply *)

(** The recurrence is defined exactly for a positive number of iterations and a
    non-zero start vector. *)
Theorem C63_defined : forall d (W WS : mat) r num, posdef (A := reals) d W ->
  ((exists T, AsymmetricLanczos d WS W r num = Some T) <-> (0 < num)%nat /\ exists i, (i < d)%nat /\ r i <> 0).
Proof. exact real_defined. Qed.
(** The hypercomplex version also needs a non-zero image of the start vector if more
    than one iteration is requested. *)
Theorem C63_defined_hyper : forall k d W S, (k <= 2)%nat -> posdef d (matrix_of k W) -> hermitian_matrix d (matrix_of k S) ->
  forall r num, (exists T, HApproximateEigenvalues (2 ^ k) d (Multiply (2 ^ k) d W S) W r num = Some T) <->
    (0 < num)%nat /\ (exists i, (i < d)%nat /\ matrix_of k r i 0%nat <> s0) /\
    (num = 1%nat \/ exists i, (i < d)%nat /\ act d (matrix_of k S) (act d (matrix_of k W) (fun i => matrix_of k r i 0%nat)) i <> s0).
Proof. exact hyper_defined. Qed.
Example C63_example : (exists T, AsymmetricLanczos 2 (two 0 1 0) (two 1 0 1) (fun i => INR i) 1 = Some T) /\
  ~ (exists T, AsymmetricLanczos 2 (two 0 1 0) (two 1 0 1) (fun i => 0) 1 = Some T) /\
  ~ (exists T, HApproximateEigenvalues (2 ^ 0) 2 (Multiply (2 ^ 0) 2 Identity Zero) Identity first_unit 2 = Some T).
Proof.
  split; [|split].
  - apply C63_defined; [apply two_posdef|]. split; [lia|]. exists 1%nat. split; [lia|cbn; lra].
  - rewrite C63_defined by apply two_posdef. intros (_ & i & _ & H). apply H. auto.
  - rewrite C63_defined_hyper.
    + intros (_ & _ & [H|(i & _ & H)]); [discriminate|]. apply H. unfold act, matrix_of. cbn. unfold Zero. ring.
    + lia.
    + apply cl_posdef. rewrite cl_identity. apply posdef_one.
    + intros r c _ _. reflexivity.
Qed.

(** [PrepareStep] of a real semidefinite constraint chooses the column of [WS] with the
    largest diagonal entry as start vector.  That column may vanish although the slack
    lies in the cone and is not zero; [norminfd] is then not defined. *)
Theorem C63_start_refuted : exists d W S, posdef (A := reals) d W /\ hermitian_matrix (A := reals) d S /\
  (forall z, form (A := reals) d S z <= 0) /\ (exists z, form (A := reals) d S z < 0) /\
  PPrepareTridiagonal d W S = None /\ forall opt t, ~ PNormInf d W S opt t.
Proof.
  exists 2%nat, (two 1 0 1), (two (-1) 0 0). split; [apply two_posdef|]. split; [apply two_hermitian|].
  assert (PPrepareTridiagonal 2 (two 1 0 1) (two (-1) 0 0) = None) as E.
  { destruct (PPrepareTridiagonal 2 (two 1 0 1) (two (-1) 0 0)) as [T|] eqn:E; [|auto]. exfalso.
    unfold PPrepareTridiagonal, PWeightedSlack in E. rewrite two_diagonal in E by lra. destruct (Rlt_dec (-1) 0); [|lra].
    unfold ApproximateEigenvalues in E. change (2 =? 1)%nat with false in E. cbn iota in E.
    destruct (proj1 (C63_defined 2 (two 1 0 1) (rprod 2 (two 1 0 1) (two (-1) 0 0)) (fun i => rprod 2 (two 1 0 1) (two (-1) 0 0) i 1%nat) (2 / 2) two_posdef)) as (_ & i & Hi & H); [eauto|].
    apply H. rewrite two_product by lia. unfold two. destruct i as [|[|]]; auto. }
  split; [|split; [|split; [exact E|]]].
  - intros z. rewrite rform_form. unfold rform, two. cbn [rsum]. pose proof (Rle_0_sqr (z 0%nat)). unfold Rsqr in *. lra.
  - exists (fun _ => 1). rewrite rform_form. unfold rform, two. cbn [rsum]. lra.
  - intros opt t (al & be & lo & hi & H & _). rewrite E in H. discriminate.
Qed.

(** A reported norm below 1 does not mean that the slack lies in the cone ([S] is the
    negative slack). *)
Theorem C63_norm_refuted : exists d W S opt t, posdef (A := reals) d W /\ hermitian_matrix (A := reals) d S /\
  so_e_weight opt = 1 /\ PNormInf d W S opt t /\ t < 1 /\ exists z, 0 < form (A := reals) d S z.
Proof.
  exists 2%nat, (two 1 0 1), (two (- (1 / 10)) (1 / 2) (- (3 / 2))), (mkStepOptions false 1 1 1), (83 / 130).
  split; [apply two_posdef|]. split; [apply two_hermitian|]. split; [reflexivity|]. split; [|split; [lra|]].
  - destruct (two_estimate (- (1 / 10)) (1 / 2) (- (3 / 2))) as [E _]; [lra|lra|]. cbv zeta in E.
    match type of E with _ = Some ([?x], []) => replace x with (- (213 / 130)) in E by field end.
    exists [- (213 / 130)], [], (- (213 / 130)), (- (213 / 130)). destruct (scalar_extremes (- (213 / 130))) as [H1 H2].
    split; [exact E|]. split; [auto|]. split; [auto|]. rewrite norm_from_same. cbn [so_e_weight]. rewrite Rabs_left; lra.
  - exists (fun i => if (i =? 0)%nat then 5 else 1). rewrite rform_form. unfold rform, two. cbn [rsum Nat.eqb]. lra.
Qed.
(** A true operator norm below 1 does. *)
Theorem C63_norm_exact : forall k d (W S : amat (cd k)) t, (k <= 2)%nat -> posdef d W -> hermitian_matrix d S -> t < 1 -> norm_at_most d W S 1 t ->
  forall z, form d W z = 0 \/ weighted d W S z < 0.
Proof.
  intros k d W S t Hk HW HS Ht HN z. destruct (posdef_psd _ (laws_cd k) d W HW) as [_ Hp]. destruct (Hp z) as [H|H]; [right|left; auto].
  specialize (HN z). pose proof (Rle_abs (1 * form d W z + weighted d W S z)). nra.
Qed.

Example C63_exact_example : let W := two 1 0 1 in let S := two (-1) (1 / 4) (-1) in
  posdef (A := cd 0) 2 W /\ hermitian_matrix (A := cd 0) 2 S /\ 1 / 2 < 1 /\ norm_at_most (A := cd 0) 2 W S 1 (1 / 2).
Proof.
  intros W S. split; [apply two_posdef|]. split; [apply two_hermitian|]. split; [lra|].
  intros z. change (cd 0) with reals. unfold weighted. rewrite !rform_form. unfold rform, mmul, W, S, two. cbn.
  pose proof (Rle_0_sqr (z 0%nat - z 1%nat)). pose proof (Rle_0_sqr (z 0%nat + z 1%nat)). unfold Rsqr in *. apply Rabs_le. lra.
Qed.

(** Octonions: the heuristic values.  A slack with eigenvalues -1, 2, 2 (not in the cone)
    is reported with [norminfd = 0] and positive eigenvalues. *)
Definition octonion_slack : hyper := fun i r c => if (i =? 0)%nat then (if (r =? c)%nat then (if (r =? 0)%nat then -1 else 2) else 0) else 0.
Theorem C63_octonion_refuted : exists o opt y, h_rank o = 3%nat /\ so_e_weight opt = 1 /\ hermitian_matrix 3 (matrix_of 3 (h_affine o)) /\
  h_W o = Identity /\ h_mats o = [] /\ so_c_weight opt = 1 /\
  (exists z, form 3 (matrix_of 3 (h_affine o)) z < 0) /\
  ONormInf o opt y = 0 /\ snd (OPrepareStep o opt y) = 6 /\ 0 < fst (OSlackEigenvalues o y 1).
Proof.
  exists (mkHermitian 3 [] octonion_slack Identity Zero Zero), (mkStepOptions false 1 1 1), (fun _ => 0).
  split; [reflexivity|]. split; [reflexivity|]. split; [|split; [reflexivity|split; [reflexivity|split; [reflexivity|split]]]].
  - intros r c Hr Hc. unfold mconj, matrix_of. cbn [h_affine]. rewrite <- read_conj. apply read_ext. intros i Hi. unfold octonion_slack.
    destruct (i =? 0)%nat; [|ring]. rewrite (Nat.eqb_sym c r). destruct (Nat.eqb_spec r c) as [->|]; auto.
  - exists (fun r => read 3 (fun i => if ((i =? 0) && (r =? 0))%nat%bool then 1 else 0)).
    unfold form, matrix_of, octonion_slack. cbn. lra.
  - assert (forall y, HNegativeSlack (mkHermitian 3 [] octonion_slack Identity Zero Zero) 1 y = ScalarMultiply octonion_slack (- 1)) as EN by reflexivity.
    set (s := ScalarMultiply octonion_slack (- 1)) in *.
    assert (TraceInnerProduct 8 3 3 Identity s = - 3) as E1.
    { unfold TraceInnerProduct. rewrite for_up_sum. cbn [rsum]. unfold s, ScalarMultiply, Identity, octonion_slack. cbn [Nat.eqb]. ring. }
    assert (TraceInnerProduct 8 3 3 (QuadraticRepresentation 8 3 Identity s) s = 9) as E2.
    { rewrite (quadratic_identity_trace 3) by lia. unfold TraceInnerProduct. rewrite for_up_sum. cbn [rsum Nat.pow Nat.mul Nat.add]. unfold s, ScalarMultiply, octonion_slack. cbn [Nat.eqb]. ring. }
    unfold ONormInf, OPrepareStep, OSlackEigenvalues. cbn [h_rank h_W so_c_weight snd fst]. rewrite !EN, E1, E2. cbn [INR]. split; [lra|]. split; [lra|].
    rewrite (Rabs_right 9), (Rabs_left (-3)) by lra. apply Rmult_lt_0_compat; [|lra]. apply Rdiv_lt_0_compat; [lra|]. assert (0 < / 10 ^ 15) by (apply Rinv_0_lt_compat; lra). lra.
Qed.

Print Assumptions C62_in_spectrum.
Print Assumptions C62_in_spectrum_hyper.
Print Assumptions C62_early_stop.
Print Assumptions C62_early_stop_hyper.
Print Assumptions C62_norm.
Print Assumptions C62_norm_largest.
Print Assumptions C62_norm_largest_hyper.
Print Assumptions C62_norm_hyper.
Print Assumptions C62_slack.
Print Assumptions C62_slack_hyper.
Print Assumptions C63_defined.
Print Assumptions C63_defined_hyper.
Print Assumptions C63_start_refuted.
Print Assumptions C63_norm_refuted.
Print Assumptions C63_norm_exact.
Print Assumptions C63_octonion_refuted.
