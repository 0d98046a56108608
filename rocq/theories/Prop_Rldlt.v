(** Theorems about the object [RLDLT] (property C74). *)
From Coq Require Import List Arith Reals Lra Lia Bool.
From Verif Require Import Base DenseModel RSum DenseProofs RldltModel RldltProofs RldltFacts Spec_Rldlt.
Import ListNotations.
Open Scope R_scope.

(** [compute]: the represented matrix is the given one, up to a diagonal perturbation of
    at most [1e-9], which is zero unless the object says that it was regularized. *)
Theorem C74_reconstructed : forall n A, (1 <= n)%nat -> symmetric n A ->
  well_formed n (compute n A) /\
  exists e, same n (reconstructedMatrix n (compute n A)) (fun r c => A r c + (if (r =? c)%nat then e r else 0)) /\
    (forall i, (i < n)%nat -> Rabs (e i) <= / 1000000000) /\
    ((2 <= n)%nat -> r_regularized (compute n A) = false -> forall i, (i < n)%nat -> e i = 0).
Proof. intros n A Hn HA. destruct (compute_post n A Hn HA) as (H1 & _ & H2). split; [exact H1|exact H2]. Qed.

(** The sign after [compute] is the definiteness of the represented matrix. *)
Theorem C74_sign : forall n A, (1 <= n)%nat -> symmetric n A ->
  (isPositive (compute n A) = true <-> positive_definite n (reconstructedMatrix n (compute n A))) /\
  (isNegative (compute n A) = true <-> negative_definite n (reconstructedMatrix n (compute n A))).
Proof. exact compute_sign. Qed.

(** An update that stores only finite values adds [sigma w w^T]. *)
Theorem C74_rank_update : forall n o w sigma o',
  well_formed n o -> pivots n (fun d => d <> 0) o -> rankUpdate n (Some o) w sigma = Some o' ->
  well_formed n o' /\ same n (reconstructedMatrix n o') (plus_outer (reconstructedMatrix n o) w sigma).
Proof. exact rank_update_exact. Qed.

(** For a positive definite matrix the update gives a positive definite factorization
    exactly when the updated matrix is positive definite. *)
Theorem C74_rank_update_definite : forall n o w sigma,
  well_formed n o -> positive_definite n (reconstructedMatrix n o) ->
  (positive_definite n (plus_outer (reconstructedMatrix n o) w sigma) <->
   exists o', rankUpdate n (Some o) w sigma = Some o' /\ positive_definite n (reconstructedMatrix n o')).
Proof. exact rank_update_definite. Qed.

(** Any number of updates and downdates, as long as every intermediate matrix is
    positive definite. *)
Theorem C74_updates : forall n l o, well_formed n o -> positive_definite n (reconstructedMatrix n o) ->
  (forall k, (k <= length l)%nat -> positive_definite n (plus_outers (reconstructedMatrix n o) (firstn k l))) ->
  exists o', rankUpdates n o l = Some o' /\ well_formed n o' /\ pivots n (fun d => 0 < d) o' /\
    same n (reconstructedMatrix n o') (plus_outers (reconstructedMatrix n o) l).
Proof. exact updates_definite. Qed.

(** [solve]: exact for the represented matrix if no pivot is below the smallest normal
    double. *)
Theorem C74_solve : forall n o b, well_formed n o -> pivots n (fun d => / 2 ^ 1022 < Rabs d) o ->
  solves_dense n (reconstructedMatrix n o) (rldlt_solve n o b) b.
Proof. exact solve_ok. Qed.

(** Zero pivots are skipped: a solvable system is solved, and if every pivot is negligible
    the result is zero. *)
Theorem C74_solve_singular : forall n o b, well_formed n o ->
  (pivots n (fun d => d = 0 \/ / 2 ^ 1022 < Rabs d) o -> (exists x, solves_dense n (reconstructedMatrix n o) x b) ->
    solves_dense n (reconstructedMatrix n o) (rldlt_solve n o b) b) /\
  (pivots n (fun d => Rabs d <= / 2 ^ 1022) o -> forall i, (i < n)%nat -> rldlt_solve n o b i = 0).
Proof. exact solve_singular. Qed.

(** Factor, add any number of rank-one terms, solve. *)
Theorem C74_updates_solve : forall n A l, (1 <= n)%nat -> symmetric n A -> isPositive (compute n A) = true ->
  (forall w sigma, In (w, sigma) l -> 0 <= sigma) ->
  exists o' e, rankUpdates n (compute n A) l = Some o' /\
    same n (reconstructedMatrix n o') (plus_outers (fun r c => A r c + (if (r =? c)%nat then e r else 0)) l) /\
    (forall i, (i < n)%nat -> Rabs (e i) <= / 1000000000) /\
    ((2 <= n)%nat -> r_regularized (compute n A) = false -> forall i, (i < n)%nat -> e i = 0) /\
    forall b, solves_dense n (reconstructedMatrix n o') (rldlt_solve n o' b) b.
Proof. exact updates_solve. Qed.

(** The first update of an object that is not initialised represents [sigma w w^T]
    exactly if the first entry of [w] is not zero or [w = 0]; otherwise it is lost. *)
Theorem C74_fresh_update : forall n w sigma, (1 <= n)%nat -> sigma <> 0 ->
  exists o, rankUpdate n None w sigma = Some o /\ well_formed n o /\
    ((w 0%nat <> 0 \/ forall i, (i < n)%nat -> w i = 0) <-> same n (reconstructedMatrix n o) (plus_outer (fun _ _ => 0) w sigma)) /\
    (w 0%nat = 0 -> same n (reconstructedMatrix n o) (fun _ _ => 0)).
Proof. exact fresh_update. Qed.

(** ** What does not hold *)

Definition one_by_one (a : R) : mat := fun _ _ => a.
Lemma compute_one a : reg < Rabs a -> compute 1 (one_by_one a) = mkRldlt (mset (one_by_one a) 0 0 a) [0%nat] (sign_step ZeroSign a) false.
Proof.
  intros Ha. unfold compute. unfold rldlt. cbn [Nat.leb lm ltr lret negb]. change (one_by_one a 0 0)%nat with a. assert (small_pivot a = a) as -> by (unfold small_pivot; destruct (Rlt_dec (Rabs a) reg); [lra|auto]).
  unfold for_up. cbn [seq fold_left]. rewrite !mset_eq. auto.
Qed.

(** The sign is not updated: after the downdate of the matrix [1] by [-2*2] the object
    represents [-3] and still says that it is positive. *)
Theorem C74_sign_refuted : exists A w o', symmetric 1 A /\ rankUpdate 1 (Some (compute 1 A)) w (-1) = Some o' /\
  isPositive o' = true /\ isNegative o' = false /\ negative_definite 1 (reconstructedMatrix 1 o').
Proof.
  exists (one_by_one 1), (fun _ => 2).
  assert (reg < Rabs 1) as H1 by (unfold reg; rewrite Rabs_R1; lra).
  rewrite (compute_one 1 H1).
  assert (sign_step ZeroSign 1 = PositiveSemiDef) as Es by (cbn; destruct (Rlt_dec 0 1); [auto|lra]). rewrite Es.
  set (o := mkRldlt (mset (one_by_one 1) 0 0 1) [0%nat] PositiveSemiDef false).
  assert (well_formed 1 o) as W by (split; [cbn; lia|intros p [<-|[]]; lia]).
  assert (exists o', rankUpdate 1 (Some o) (fun _ => 2) (-1) = Some o' /\ r_sign o' = PositiveSemiDef /\ r_matrix o' 0%nat 0%nat = -3 /\ r_trans o' = [0%nat]) as (o' & E & Es' & Em & Etr).
  { unfold rankUpdate, updateInPlace. cbn [seq for_opt r_matrix r_trans o]. unfold update_step at 1. cbn [u_alpha u_mat u_w].
    destruct (Req_EM_T 1 0); [lra|]. cbv zeta. eexists. split; [reflexivity|]. cbn [r_sign r_matrix r_trans]. split; auto. split; auto.
    cbn [u_mat]. rewrite !mset_eq, !perm_apply_spec. destruct (Req_EM_T _ 0); [rewrite mset_eq; lra|]. cbn [Nat.eqb Nat.ltb Nat.leb andb]. rewrite mset_eq. lra. }
  exists o'. split; [intros r c _ _; auto|]. split; auto. unfold isPositive, isNegative. rewrite Es'. split; auto. split; auto.
  apply negative_pivots; [split; rewrite Etr; [cbn; lia|intros p [<-|[]]; lia]|]. intros i Hi. assert (i = 0)%nat as -> by lia. rewrite Em. lra.
Qed.

(** A downdate can store values that are not finite although the matrix it should give
    is regular: the identity of order 2 and [w = (1, 1)]. *)
Definition identity_object : rldlt_object := mkRldlt (fun r c => if (r =? c)%nat then 1 else 0) [0%nat; 1%nat] PositiveSemiDef false.
Theorem C74_rank_update_refuted : exists o w, well_formed 2 o /\ pivots 2 (fun d => d = 1) o /\
  same 2 (plus_outer (reconstructedMatrix 2 o) w (-1)) (fun r c => if (r =? c)%nat then 0 else -1) /\
  rankUpdate 2 (Some o) w (-1) = None.
Proof.
  exists identity_object, (fun _ => 1).
  assert (well_formed 2 identity_object) as W by (split; [cbn; lia|intros p [<-|[<-|[]]]; lia]).
  split; auto. split; [intros i Hi; cbn; rewrite Nat.eqb_refl; auto|]. split.
  - intros r c Hr Hc. unfold plus_outer. rewrite reconstructed_ldl by auto. cbn [r_trans r_matrix identity_object].
    assert (forall i, (i < 2)%nat -> tau [0%nat; 1%nat] i = i) as Et by (intros i Hi; assert (i = 0 \/ i = 1)%nat as [-> | ->] by lia; reflexivity).
    rewrite !Et by auto. unfold ldl. cbn [rsum].
    assert (r = 0 \/ r = 1)%nat as [-> | ->] by lia; assert (c = 0 \/ c = 1)%nat as [-> | ->] by lia; unfold Lx; cbn [Nat.ltb Nat.leb Nat.eqb]; lra.
  - unfold rankUpdate, updateInPlace. cbn [seq for_opt r_matrix r_trans identity_object].
    unfold update_step at 1. cbn [u_alpha u_mat u_w Nat.eqb]. destruct (Req_EM_T 1 0); [lra|]. cbv zeta. rewrite !perm_apply_spec.
    unfold update_step at 1. cbn [u_alpha]. destruct (Req_EM_T (1 + -1 * (1 * 1) / 1) 0) as [_|Hn]; [auto|exfalso; apply Hn; field].
Qed.

(** The first update is lost for [w = (0, 1)]. *)
Theorem C74_fresh_update_refuted : exists w o, rankUpdate 2 None w 1 = Some o /\
  reconstructedMatrix 2 o 1%nat 1%nat = 0 /\ plus_outer (fun _ _ => 0) w 1 1%nat 1%nat = 1.
Proof.
  destruct (fresh_update 2 (fun i => INR i) 1) as (o & E & _ & _ & H); [lia|lra|].
  exists (fun i => INR i), o. split; auto. split; [rewrite H by (cbn; auto; lia); auto|]. unfold plus_outer. cbn. lra.
Qed.

(** ** Concrete cases *)

Example C74_example : exists o',
  rankUpdates 1 (compute 1 (one_by_one 2)) [(fun _ => 1, 3); (fun _ => 2, 1)] = Some o' /\
  reconstructedMatrix 1 o' 0%nat 0%nat = 9 /\ rldlt_solve 1 o' (fun _ => 18) 0%nat = 2.
Proof.
  assert (reg < Rabs 2) as H1 by (unfold reg; rewrite Rabs_right; lra).
  assert (isPositive (compute 1 (one_by_one 2)) = true) as HP.
  { rewrite (compute_one 2 H1). cbn. destruct (Rlt_dec 0 2); [auto|lra]. }
  assert (symmetric 1 (one_by_one 2)) as HS by (intros r c _ _; auto).
  assert (positive_definite 1 (reconstructedMatrix 1 (compute 1 (one_by_one 2)))) as PD by (apply (C74_sign 1 (one_by_one 2)); auto).
  destruct (C74_updates 1 [(fun _ => 1, 3); (fun _ => 2, 1)] (compute 1 (one_by_one 2))) as (o' & E & W & P & S).
  - apply C74_reconstructed; auto.
  - auto.
  - intros k Hk. apply plus_outers_definite; auto. intros w s Hi.
    assert (In (w, s) [((fun _ : nat => 1), 3); ((fun _ : nat => 2), 1)]) as Hi'
      by (rewrite <- (firstn_skipn k [((fun _ : nat => 1), 3); ((fun _ : nat => 2), 1)]); apply in_or_app; auto).
    destruct Hi' as [Hi'|[Hi'|[]]]; injection Hi' as _ <-; lra.
  - exists o'. split; auto.
    assert (reconstructedMatrix 1 o' 0%nat 0%nat = 9) as E9.
    { rewrite S by lia. cbn [plus_outers]. unfold plus_outer.
      rewrite (compute_one 2 H1). rewrite reconstructed_ldl by first [lia|split; [cbn; lia|intros p [<-|[]]; lia]]. cbn [r_trans r_matrix].
      assert (tau [0%nat] 0 = 0%nat) as -> by reflexivity. unfold ldl. cbn [rsum]. rewrite Lx_diag, mset_eq. lra. }
    split; auto. pose proof (C74_solve 1 o' (fun _ => 18) W) as Hs.
    assert (pivots 1 (fun d => / 2 ^ 1022 < Rabs d) o') as Hpv.
    { rewrite reconstructed_ldl in E9 by (auto; lia). destruct W as (Wl & Wp).
      assert (tau (r_trans o') 0 = 0%nat) as Et by (pose proof (tau_lt 1 (r_trans o') 0 (conj Wl Wp) ltac:(lia)); lia). rewrite Et in E9. unfold ldl in E9. cbn [rsum] in E9. rewrite Lx_diag in E9.
      intros i Hi. assert (i = 0)%nat as -> by lia. pose proof tiny_reg as T. unfold tiny, reg in T.
      replace (r_matrix o' 0%nat 0%nat) with 9 by lra. rewrite Rabs_right; lra. }
    specialize (Hs Hpv 0%nat ltac:(lia)). cbn [rsum] in Hs. rewrite E9 in Hs. lra.
Qed.

(** A singular object: [diag(1, 0)] and the right-hand side [(3, 0)]. *)
Definition singular_object : rldlt_object := mkRldlt (fun r c => if ((r =? 0) && (c =? 0))%nat%bool then 1 else 0) [0%nat; 1%nat] PositiveSemiDef false.
Example C74_singular_example : let b : vec := fun i => if (i =? 0)%nat then 3 else 0 in
  well_formed 2 singular_object /\ pivots 2 (fun d => d = 0 \/ / 2 ^ 1022 < Rabs d) singular_object /\
  (exists x, solves_dense 2 (reconstructedMatrix 2 singular_object) x b) /\
  solves_dense 2 (reconstructedMatrix 2 singular_object) (rldlt_solve 2 singular_object b) b.
Proof.
  intros b. assert (well_formed 2 singular_object) as W by (split; [cbn; lia|intros p [<-|[<-|[]]]; lia]).
  assert (pivots 2 (fun d => d = 0 \/ / 2 ^ 1022 < Rabs d) singular_object) as P.
  { intros i Hi. assert (i = 0 \/ i = 1)%nat as [-> | ->] by lia; [right|left; reflexivity]. cbn [r_matrix singular_object Nat.eqb andb].
    pose proof tiny_reg as T. unfold tiny, reg in T. rewrite Rabs_R1. lra. }
  assert (exists x, solves_dense 2 (reconstructedMatrix 2 singular_object) x b) as X.
  { exists b. intros r Hr. cbn [rsum]. rewrite !reconstructed_ldl by (auto; lia). cbn [r_trans r_matrix singular_object].
    assert (forall i, (i < 2)%nat -> tau [0%nat; 1%nat] i = i) as Et by (intros i Hi; assert (i = 0 \/ i = 1)%nat as [-> | ->] by lia; reflexivity).
    rewrite !Et by lia. unfold ldl, b. cbn [rsum].
    assert (r = 0 \/ r = 1)%nat as [-> | ->] by lia; unfold Lx; cbn [Nat.ltb Nat.leb Nat.eqb andb]; lra. }
  split; auto. split; auto. split; auto. apply (C74_solve_singular 2 singular_object b W); auto.
Qed.

(** Order 2: the identity plus [w w^T] with [w = (1, 2)], then minus [v v^T] with [v = (0, 1)]. *)
Example C74_example_two : exists o',
  rankUpdates 2 identity_object [(fun i => INR (S i), 1); (fun i => INR i, -1)] = Some o' /\
  pivots 2 (fun d => 0 < d) o' /\ reconstructedMatrix 2 o' 0%nat 0%nat = 2 /\
  reconstructedMatrix 2 o' 1%nat 0%nat = 2 /\ reconstructedMatrix 2 o' 1%nat 1%nat = 4.
Proof.
  assert (well_formed 2 identity_object) as W by (split; [cbn; lia|intros p [<-|[<-|[]]]; lia]).
  assert (forall r c, (r < 2)%nat -> (c < 2)%nat -> reconstructedMatrix 2 identity_object r c = if (r =? c)%nat then 1 else 0) as EI.
  { intros r c Hr Hc. rewrite reconstructed_ldl by auto. cbn [r_trans r_matrix identity_object].
    assert (forall i, (i < 2)%nat -> tau [0%nat; 1%nat] i = i) as Et by (intros i Hi; assert (i = 0 \/ i = 1)%nat as [-> | ->] by lia; reflexivity).
    rewrite !Et by auto. unfold ldl. cbn [rsum].
    assert (r = 0 \/ r = 1)%nat as [-> | ->] by lia; assert (c = 0 \/ c = 1)%nat as [-> | ->] by lia; unfold Lx; cbn [Nat.ltb Nat.leb Nat.eqb]; lra. }
  assert (forall x : vec, (exists i, (i < 2)%nat /\ x i <> 0) -> 0 < x 0%nat * x 0%nat + x 1%nat * x 1%nat) as HX.
  { intros x (i & Hi & Hx). pose proof (Rle_0_sqr (x 0%nat)) as H0. pose proof (Rle_0_sqr (x 1%nat)) as H1. pose proof (Rsqr_pos_lt _ Hx) as H2. unfold Rsqr in *.
    assert (i = 0 \/ i = 1)%nat as [-> | ->] by lia; lra. }
  destruct (C74_updates 2 [(fun i => INR (S i), 1); (fun i => INR i, -1)] identity_object) as (o' & E & _ & P & S); auto.
  - apply definite_pivots; auto. intros i Hi. cbn. rewrite Nat.eqb_refl. lra.
  - intros k Hk x Hx. specialize (HX x Hx). cbn in Hk. pose proof (Rle_0_sqr (x 0%nat + 2 * x 1%nat)) as H0. pose proof (Rle_0_sqr (x 1%nat)) as H1. unfold Rsqr in *.
    assert (0 < x 0%nat * x 0%nat + (x 0%nat + 2 * x 1%nat) * (x 0%nat + 2 * x 1%nat)) as H2.
    { pose proof (Rle_0_sqr (x 0%nat)) as H2. unfold Rsqr in H2. destruct (Req_EM_T (x 0%nat) 0) as [Ez|Ez]; [rewrite Ez in *; lra|]. pose proof (Rsqr_pos_lt _ Ez) as H3. unfold Rsqr in H3. lra. }
    assert (k = 0 \/ k = 1 \/ k = 2)%nat as [-> | [-> | ->]] by lia; cbn [firstn plus_outers]; unfold quadratic, plus_outer; cbn [rsum];
      rewrite !EI by lia; cbn [Nat.eqb INR]; lra.
  - exists o'. split; auto. split; auto. rewrite !S by lia. cbn [plus_outers]. unfold plus_outer. rewrite !EI by lia. cbn [Nat.eqb INR]. lra.
Qed.

Print Assumptions C74_reconstructed.
Print Assumptions C74_sign.
Print Assumptions C74_rank_update.
Print Assumptions C74_rank_update_definite.
Print Assumptions C74_updates.
Print Assumptions C74_solve.
Print Assumptions C74_solve_singular.
Print Assumptions C74_updates_solve.
Print Assumptions C74_fresh_update.
Print Assumptions C74_sign_refuted.
Print Assumptions C74_rank_update_refuted.
Print Assumptions C74_fresh_update_refuted.
Print Assumptions C74_example.
Print Assumptions C74_example_two.
