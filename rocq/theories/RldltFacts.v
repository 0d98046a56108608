(** The object [RLDLT]: solves, sign, updates of an object. *)
From Coq Require Import List Arith Reals Lra Lia Bool.
From Verif Require Import Base DenseModel RSum DenseProofs RldltModel RldltProofs Spec_Rldlt.
Import ListNotations.
Open Scope R_scope.

Lemma reindex_tau n tr f : tr_ok n tr -> rsum n (fun i => f (tau tr i)) = rsum n f.
Proof.
  intros Ht. apply rsum_reindex.
  - intros i Hi. apply tau_lt; auto.
  - intros i j _ _ E. rewrite <- (sigma_tau tr i), E, sigma_tau. auto.
Qed.

Lemma tiny_reg : 0 < tiny < reg.
Proof.
  unfold tiny, reg. assert (1000000000 < 2 ^ 30) as H by (cbn [pow]; lra).
  assert (2 ^ 30 <= 2 ^ 1022) as H1 by (apply Rle_pow; [lra|lia]).
  split; [apply Rinv_0_lt_compat; lra|]. apply Rinv_lt_contravar; [|lra]. apply Rmult_lt_0_compat; lra.
Qed.

Definition small_to_zero (M : mat) (z : vec) (i : nat) : R := if Rlt_dec tiny (Rabs (M i i)) then z i / M i i else 0.
Lemma solve_stages n o b : tr_ok n (r_trans o) ->
  exists z1, (forall k, (k < n)%nat -> rsum n (fun t => Lx (r_matrix o) k t * z1 t) = b (sigma (r_trans o) k)) /\
    forall t, (t < n)%nat -> rsum n (fun c => Lx (r_matrix o) c t * rldlt_solve n o b (sigma (r_trans o) c)) = small_to_zero (r_matrix o) z1 t.
Proof.
  intros Ht. unfold rldlt_solve. cbv zeta.
  set (M := r_matrix o) in *. set (tr := r_trans o) in *. set (y := perm_apply tr b).
  destruct (fwd_solve_ok n (unit_lower M) y) as (F1 & _).
  { intros i Hi. unfold unit_lower. rewrite Nat.eqb_refl. lra. }
  set (z1 := fwd_solve n (unit_lower M) y) in *.
  set (z2 := for_up n _ z1).
  assert (forall i, (i < n)%nat -> z2 i = small_to_zero M z1 i) as Hz2.
  { assert ((forall i, (i < n)%nat -> z2 i = small_to_zero M z1 i) /\ (forall i, (n <= i)%nat -> z2 i = z1 i)) as [G _]; auto. unfold z2.
    apply (for_up_inv (fun k z => (forall i, (i < k)%nat -> z i = small_to_zero M z1 i) /\ (forall i, (k <= i)%nat -> z i = z1 i))).
    - split; auto. intros; lia.
    - intros k z Hk (H1 & H2). split.
      + intros i Hi. destruct (Nat.eq_dec i k) as [->|Hne]; [rewrite vset_eq; unfold small_to_zero; rewrite H2 by lia; auto|rewrite vset_neq by auto; apply H1; lia].
      + intros i Hi. rewrite vset_neq by lia. apply H2. lia. }
  destruct (bwd_solve_ok n (unit_lower M) z2) as (B1 & _).
  { intros i Hi. unfold unit_lower. rewrite Nat.eqb_refl. lra. }
  set (z3 := bwd_solve n (unit_lower M) z2) in *.
  exists z1. split.
  - intros k Hr'. rewrite (rsum_trunc (S k) n) by (try lia; intros; rewrite Lx_up by lia; ring).
    rewrite (rsum_ext (S k) _ (fun t => unit_lower M k t * z1 t)) by (intros; rewrite Lx_unit_lower by lia; auto).
    rewrite F1 by auto. unfold y. rewrite perm_apply_spec. auto.
  - intros t Hn. rewrite <- Hz2 by auto.
    rewrite (rsum_ext n _ (fun c => Lx M c t * z3 c)) by (intros; rewrite perm_apply_T_spec, tau_sigma; auto).
    rewrite <- (B1 t Hn). rewrite (rsum_split_at t n) by lia. rewrite (rsum_zero t) by (intros; rewrite Lx_up by lia; ring).
    rewrite Rplus_0_l. apply rsum_ext. intros i Hi. rewrite Lx_unit_lower by lia. auto.
Qed.

Lemma product_ldl n o x r : tr_ok n (r_trans o) -> (r < n)%nat ->
  rsum n (fun c => reconstructedMatrix n o r c * x c) =
  rsum n (fun t => Lx (r_matrix o) (tau (r_trans o) r) t * (r_matrix o t t * rsum n (fun c => Lx (r_matrix o) c t * x (sigma (r_trans o) c)))).
Proof.
  intros Ht Hr. set (M := r_matrix o) in *. set (tr := r_trans o) in *.
  transitivity (rsum n (fun c => ldl n M (tau tr r) (tau tr c) * x (sigma tr (tau tr c)))).
  { apply rsum_ext. intros c Hc. rewrite reconstructed_ldl by auto. rewrite sigma_tau. auto. }
  rewrite (reindex_tau n tr (fun c => ldl n M (tau tr r) c * x (sigma tr c))) by auto.
  set (k := tau tr r) in *. unfold ldl.
  transitivity (rsum n (fun t => rsum n (fun c => Lx M k t * M t t * Lx M c t * x (sigma tr c)))).
  { rewrite rsum_swap. apply rsum_ext. intros c Hc. rewrite <- rsum_scal_r. auto. }
  apply rsum_ext. intros t Hn. rewrite <- Rmult_assoc, <- rsum_scal. apply rsum_ext. intros; ring.
Qed.

(** A unit lower triangular system has at most one solution. *)
Lemma unit_lower_unique n M y z : (forall k, (k < n)%nat -> rsum n (fun t => Lx M k t * y t) = rsum n (fun t => Lx M k t * z t)) ->
  forall k, (k < n)%nat -> y k = z k.
Proof.
  intros H k. induction k as [k IH] using lt_wf_ind. intros Hk. specialize (H k Hk).
  rewrite !(rsum_trunc (S k) n) in H by (try lia; intros; rewrite Lx_up by lia; ring). cbn [rsum] in H.
  rewrite (rsum_ext k _ (fun t => Lx M k t * z t)) in H by (intros t Hlt; rewrite (IH t) by lia; auto).
  rewrite !Lx_unit_lower in H by lia. unfold unit_lower in H. rewrite Nat.eqb_refl in H. lra.
Qed.
Lemma unit_upper_unique n M y z : (forall t, (t < n)%nat -> rsum n (fun c => Lx M c t * y c) = rsum n (fun c => Lx M c t * z c)) ->
  forall k, (k < n)%nat -> y k = z k.
Proof.
  intros H. assert (forall m k, (n - k <= m)%nat -> (k < n)%nat -> y k = z k) as G; [|intros k; apply (G n); lia].
  induction m as [|m IH]; intros k Hm Hk; [lia|]. specialize (H k Hk).
  rewrite !(rsum_split_at k n) in H by lia.
  rewrite !(rsum_zero k) in H by (intros; rewrite Lx_up by lia; ring). rewrite !Rplus_0_l in H.
  replace (n - k)%nat with (S (n - S k)) in H by lia. rewrite !rsum_first in H. replace (k + 0)%nat with k in H by lia.
  rewrite (rsum_ext (n - S k) _ (fun t => Lx M (k + S t)%nat k * z (k + S t)%nat)) in H by (intros t Hlt; rewrite (IH (k + S t)%nat) by lia; auto).
  rewrite !Lx_unit_lower in H by lia. unfold unit_lower in H. rewrite Nat.eqb_refl in H. lra.
Qed.

Lemma solve_ok n o b : tr_ok n (r_trans o) -> (forall i, (i < n)%nat -> tiny < Rabs (r_matrix o i i)) ->
  solves_dense n (reconstructedMatrix n o) (rldlt_solve n o b) b.
Proof.
  intros Ht Hd r Hr. destruct (solve_stages n o b Ht) as (z1 & Z1 & Z2). rewrite product_ldl by auto.
  rewrite (rsum_ext n _ (fun t => Lx (r_matrix o) (tau (r_trans o) r) t * z1 t)).
  - rewrite Z1 by (apply tau_lt; auto). rewrite sigma_tau. auto.
  - intros t Hn. rewrite Z2 by auto. unfold small_to_zero. specialize (Hd t Hn). destruct (Rlt_dec _ _) as [_|]; [|contradiction].
    f_equal. field. intros E. rewrite E, Rabs_R0 in Hd. pose proof tiny_reg. lra.
Qed.
Lemma solve_singular n o b : tr_ok n (r_trans o) ->
  ((forall i, (i < n)%nat -> r_matrix o i i = 0 \/ tiny < Rabs (r_matrix o i i)) -> (exists x, solves_dense n (reconstructedMatrix n o) x b) ->
    solves_dense n (reconstructedMatrix n o) (rldlt_solve n o b) b) /\
  ((forall i, (i < n)%nat -> Rabs (r_matrix o i i) <= tiny) -> forall i, (i < n)%nat -> rldlt_solve n o b i = 0).
Proof.
  intros Ht. destruct (solve_stages n o b Ht) as (z1 & Z1 & Z2). set (M := r_matrix o) in *. set (tr := r_trans o) in *. split.
  - intros Hd (x & Hx) r Hr. rewrite product_ldl by auto. fold M tr.
    assert (forall t, (t < n)%nat -> z1 t = M t t * rsum n (fun c => Lx M c t * x (sigma tr c))) as E1.
    { apply (unit_lower_unique n M). intros k Hk. rewrite Z1 by auto. rewrite <- (Hx (sigma tr k)) by (apply sigma_lt; auto).
      rewrite product_ldl by (auto; apply sigma_lt; auto). fold M tr. rewrite tau_sigma. auto. }
    rewrite (rsum_ext n _ (fun t => Lx M (tau tr r) t * z1 t)).
    + rewrite Z1 by (apply tau_lt; auto). rewrite sigma_tau. auto.
    + intros t Hn. rewrite Z2 by auto. unfold small_to_zero. pose proof tiny_reg. destruct (Hd t Hn) as [E|E].
      * rewrite (E1 t Hn), E. ring.
      * destruct (Rlt_dec _ _) as [_|]; [|contradiction]. f_equal. field. intros E0. rewrite E0, Rabs_R0 in E. lra.
  - intros Hd i Hi. rewrite <- (sigma_tau tr i). apply (unit_upper_unique n M (fun c => rldlt_solve n o b (sigma tr c)) (fun _ => 0)); [|apply tau_lt; auto].
    intros t Hn. rewrite Z2 by auto. unfold small_to_zero. specialize (Hd t Hn). destruct (Rlt_dec _ _); [lra|]. symmetry. apply rsum_zero. intros; ring.
Qed.

(** ** Definiteness of the represented matrix *)
Lemma quadratic_reconstructed n o x : tr_ok n (r_trans o) ->
  quadratic n (reconstructedMatrix n o) x = qform n (ldl n (r_matrix o)) (fun i => x (sigma (r_trans o) i)).
Proof.
  intros Ht. unfold quadratic, qform. set (tr := r_trans o) in *.
  rewrite <- (reindex_tau n tr (fun r => rsum n (fun c => x (sigma tr r) * ldl n (r_matrix o) r c * x (sigma tr c)))) by auto.
  apply rsum_ext. intros r Hr. rewrite <- (reindex_tau n tr (fun c => x (sigma tr (tau tr r)) * ldl n (r_matrix o) (tau tr r) c * x (sigma tr c))) by auto.
  apply rsum_ext. intros c Hc. rewrite !sigma_tau, reconstructed_ldl by auto. auto.
Qed.
Lemma definite_pivots n o : tr_ok n (r_trans o) ->
  positive_definite n (reconstructedMatrix n o) <-> pivots n (fun d => 0 < d) o.
Proof.
  intros Ht. unfold pivots. rewrite <- pd_pivots. split.
  - intros H x (i & Hi & Hx). set (tr := r_trans o) in *.
    assert (qform n (ldl n (r_matrix o)) x = quadratic n (reconstructedMatrix n o) (fun i => x (tau tr i))) as ->.
    { rewrite quadratic_reconstructed by auto. fold tr. unfold qform. apply rsum_ext. intros r Hr. apply rsum_ext. intros c Hc. rewrite !tau_sigma. auto. }
    apply H. exists (sigma tr i). split; [apply sigma_lt; auto|]. rewrite tau_sigma. auto.
  - intros H x (i & Hi & Hx). rewrite quadratic_reconstructed by auto. apply H.
    exists (tau (r_trans o) i). split; [apply tau_lt; auto|]. rewrite sigma_tau. auto.
Qed.

(** The object with all pivots negated represents the negated matrix. *)
Definition neg_matrix (M : mat) : mat := fun r c => if (r =? c)%nat then - M r c else M r c.
Lemma ldl_neg n M r c : ldl n (neg_matrix M) r c = - ldl n M r c.
Proof.
  unfold ldl. replace (- rsum n (fun t => Lx M r t * M t t * Lx M c t)) with (-1 * rsum n (fun t => Lx M r t * M t t * Lx M c t)) by ring.
  rewrite <- rsum_scal. apply rsum_ext. intros t Ht.
  assert (forall i, Lx (neg_matrix M) i t = Lx M i t) as E.
  { intros i. unfold Lx, neg_matrix. destruct (Nat.ltb_spec t i); auto. destruct (Nat.eqb_spec i t); [lia|auto]. }
  rewrite !E. unfold neg_matrix. rewrite Nat.eqb_refl. ring.
Qed.
Lemma negative_pivots n o : tr_ok n (r_trans o) ->
  negative_definite n (reconstructedMatrix n o) <-> pivots n (fun d => d < 0) o.
Proof.
  intros Ht. set (o' := mkRldlt (neg_matrix (r_matrix o)) (r_trans o) (r_sign o) (r_regularized o)).
  assert (tr_ok n (r_trans o')) as Ht' by auto.
  assert (forall x, quadratic n (reconstructedMatrix n o') x = - quadratic n (reconstructedMatrix n o) x) as E.
  { intros x. unfold quadratic. match goal with |- _ = - ?s => replace (- s) with (-1 * s) by ring end. rewrite <- rsum_scal. apply rsum_ext. intros r Hr.
    rewrite <- rsum_scal. apply rsum_ext. intros c Hc. rewrite !reconstructed_ldl by auto. cbn [r_matrix r_trans o']. rewrite ldl_neg. ring. }
  pose proof (definite_pivots n o' Ht') as (H1 & H2). split.
  - intros H i Hi. assert (positive_definite n (reconstructedMatrix n o')) as HP by (intros x Hx; rewrite E; specialize (H x Hx); lra).
    specialize (H1 HP i Hi). cbn in H1. unfold neg_matrix in H1. rewrite Nat.eqb_refl in H1. lra.
  - intros H x Hx. assert (pivots n (fun d => 0 < d) o') as HP.
    { intros i Hi. cbn. unfold neg_matrix. rewrite Nat.eqb_refl. specialize (H i Hi). cbn beta in H. lra. }
    specialize (H2 HP x Hx). rewrite E in H2. lra.
Qed.

(** ** The result of [compute] *)
Lemma sign_loop n M : (1 <= n)%nat -> (forall i, (i < n)%nat -> M i i <> 0) ->
  match for_up n (fun s k => sign_step s (M k k)) ZeroSign with
  | PositiveSemiDef => forall i, (i < n)%nat -> 0 < M i i
  | NegativeSemiDef => forall i, (i < n)%nat -> M i i < 0
  | ZeroSign => False
  | Indefinite => (exists i, (i < n)%nat /\ M i i < 0) /\ (exists i, (i < n)%nat /\ 0 < M i i)
  end.
Proof.
  intros Hn Hd.
  pose proof (for_up_inv (fun k s => match s with
    | PositiveSemiDef => (1 <= k)%nat /\ forall i, (i < k)%nat -> 0 < M i i
    | NegativeSemiDef => (1 <= k)%nat /\ forall i, (i < k)%nat -> M i i < 0
    | ZeroSign => k = 0%nat
    | Indefinite => (exists i, (i < k)%nat /\ M i i < 0) /\ (exists i, (i < k)%nat /\ 0 < M i i)
    end) n (fun s k => sign_step s (M k k)) ZeroSign eq_refl) as H.
  match type of H with ?P -> _ => assert P as HP end.
  2:{ specialize (H HP). destruct (for_up _ _ _); intuition lia. }
  intros k s Hk. specialize (Hd k Hk). destruct s; cbn [sign_step].
  - intros (H1 & H2). destruct (Rlt_dec (M k k) 0).
    + split; [exists k; auto|exists 0%nat; split; [lia|apply H2; lia]].
    + split; [lia|]. intros i Hi. destruct (Nat.eq_dec i k) as [->|]; [lra|apply H2; lia].
  - intros (H1 & H2). destruct (Rlt_dec 0 (M k k)).
    + split; [exists 0%nat; split; [lia|apply H2; lia]|exists k; auto].
    + split; [lia|]. intros i Hi. destruct (Nat.eq_dec i k) as [->|]; [lra|apply H2; lia].
  - intros ->. destruct (Rlt_dec 0 (M 0%nat 0%nat)); [|destruct (Rlt_dec (M 0%nat 0%nat) 0); [|lra]].
    + split; auto. intros i Hi. assert (i = 0)%nat as -> by lia. auto.
    + split; auto. intros i Hi. assert (i = 0)%nat as -> by lia. auto.
  - intros ((i & Hi & H1) & j & Hj & H2). split; [exists i|exists j]; split; auto.
Qed.

Lemma compute_post n A : (1 <= n)%nat -> symmetric n A ->
  let o := compute n A in
  well_formed n o /\ pivots n (fun d => reg <= Rabs d) o /\
  exists e, same n (reconstructedMatrix n o) (fun r c => A r c + (if (r =? c)%nat then e r else 0)) /\
    (forall i, (i < n)%nat -> Rabs (e i) <= reg) /\
    ((2 <= n)%nat -> r_regularized o = false -> forall i, (i < n)%nat -> e i = 0).
Proof.
  intros Hn HA o. destruct (rldlt_ok n A Hn) as (e & P). destruct P as [P1 P2 P3 P4 P5 P6 P7 P8 P9].
  assert (tr_ok n (r_trans o)) as Ht by (split; [unfold o; cbn; lia|exact P2]).
  split; [exact Ht|]. split; [exact P4|]. exists (fun i => e (tau (r_trans o) i)). split; [|split].
  - intros r c Hr Hc. rewrite reconstructed_ldl by auto. unfold ldl. unfold o at 1 3 4. cbn [compute r_matrix].
    pose proof (tau_lt n _ r Ht Hr). pose proof (tau_lt n _ c Ht Hc). change (r_matrix o) with (lm (rldlt n A)).
    rewrite <- P3 by auto. change (ltr (rldlt n A)) with (r_trans o). rewrite !sigma_tau. f_equal.
    + destruct (le_lt_dec c r); [rewrite sym_lower by auto; auto|]. rewrite sym_comm, sym_lower by lia. apply HA; auto.
    + unfold delta. destruct (Nat.eqb_spec (tau (r_trans o) r) (tau (r_trans o) c)) as [E|E]; destruct (Nat.eqb_spec r c) as [E1|E1]; auto.
      * exfalso. apply E1. rewrite <- (sigma_tau (r_trans o) r), E, sigma_tau. auto.
      * subst. contradiction.
  - intros i Hi. apply P5. apply tau_lt; auto.
  - intros H2 Hreg i Hi. apply P7; auto; [|apply tau_lt; auto]. unfold o in Hreg. cbn in Hreg. destruct (lret (rldlt n A)); [reflexivity|discriminate].
Qed.

Lemma compute_sign n A : (1 <= n)%nat -> symmetric n A ->
  (isPositive (compute n A) = true <-> positive_definite n (reconstructedMatrix n (compute n A))) /\
  (isNegative (compute n A) = true <-> negative_definite n (reconstructedMatrix n (compute n A))).
Proof.
  intros Hn HA. destruct (compute_post n A Hn HA) as (Ht & Hp & _). change (tr_ok n (r_trans (compute n A))) in Ht.
  rewrite definite_pivots, negative_pivots by auto. set (o := compute n A) in *.
  assert (forall i, (i < n)%nat -> r_matrix o i i <> 0) as Hd.
  { intros i Hi E. specialize (Hp i Hi). cbn beta in Hp. rewrite E, Rabs_R0 in Hp. pose proof tiny_reg. lra. }
  pose proof (sign_loop n (r_matrix o) Hn Hd) as S. unfold isPositive, isNegative.
  change (r_sign o) with (for_up n (fun s k => sign_step s (r_matrix o k k)) ZeroSign).
  destruct (for_up _ _ _).
  - split; split; intros H; auto; try discriminate. exfalso. specialize (H 0%nat ltac:(lia)). specialize (S 0%nat ltac:(lia)). cbn beta in H. lra.
  - split; split; intros H; auto; try discriminate. exfalso. specialize (H 0%nat ltac:(lia)). specialize (S 0%nat ltac:(lia)). cbn beta in H. lra.
  - contradiction.
  - destruct S as ((i & Hi & H1) & j & Hj & H2). split; split; intros H; try discriminate; exfalso.
    + specialize (H i Hi). cbn beta in H. lra.
    + specialize (H j Hj). cbn beta in H. lra.
Qed.

(** ** Updates of an object *)
Lemma rank_update_exact n o w s o' : well_formed n o -> pivots n (fun d => d <> 0) o -> rankUpdate n (Some o) w s = Some o' ->
  well_formed n o' /\ same n (reconstructedMatrix n o') (plus_outer (reconstructedMatrix n o) w s).
Proof.
  intros Ht Hd E. unfold rankUpdate in E. destruct (updateInPlace _ _ _ _) as [M'|] eqn:EM; [|discriminate]. injection E as <-.
  split; [exact Ht|]. intros r c Hr Hc. unfold plus_outer. change (tr_ok n (r_trans o)) in Ht.
  rewrite !reconstructed_ldl by auto. cbn [r_matrix r_trans].
  rewrite (update_exact n _ _ _ _ Hd EM) by (apply tau_lt; auto). rewrite !perm_apply_spec, !sigma_tau. auto.
Qed.

Lemma same_definite n A B : same n A B -> positive_definite n A -> positive_definite n B.
Proof.
  intros H HA x Hx. specialize (HA x Hx). replace (quadratic n B x) with (quadratic n A x); auto.
  apply rsum_ext. intros r Hr. apply rsum_ext. intros c Hc. rewrite H by auto. auto.
Qed.

Lemma rank_update_definite n o w s : well_formed n o -> positive_definite n (reconstructedMatrix n o) ->
  (positive_definite n (plus_outer (reconstructedMatrix n o) w s) <->
   exists o', rankUpdate n (Some o) w s = Some o' /\ positive_definite n (reconstructedMatrix n o')).
Proof.
  intros Ht HP. assert (tr_ok n (r_trans o)) as Ht1 by exact Ht. apply definite_pivots in HP; auto. split.
  - intros HB. destruct (update_total n (r_matrix o) (perm_apply (r_trans o) w) s) as (M' & EM & Hp).
    + auto.
    + intros x (i & Hi & Hx). set (tr := r_trans o) in *.
      replace (qform n (fun r c => ldl n (r_matrix o) r c + s * (perm_apply tr w r * perm_apply tr w c)) x)
        with (quadratic n (plus_outer (reconstructedMatrix n o) w s) (fun i => x (tau tr i))).
      * apply HB. exists (sigma tr i). split; [apply sigma_lt; auto|]. rewrite tau_sigma. auto.
      * unfold quadratic, qform. rewrite <- (reindex_tau n tr (fun r => rsum n (fun c => x r * (ldl n (r_matrix o) r c + s * (perm_apply tr w r * perm_apply tr w c)) * x c))) by auto.
        apply rsum_ext. intros r Hr.
        rewrite <- (reindex_tau n tr (fun c => x (tau tr r) * (ldl n (r_matrix o) (tau tr r) c + s * (perm_apply tr w (tau tr r) * perm_apply tr w c)) * x c)) by auto.
        apply rsum_ext. intros c Hc. unfold plus_outer. rewrite reconstructed_ldl by auto. rewrite !perm_apply_spec, !sigma_tau. auto.
    + unfold rankUpdate. rewrite EM. eexists. split; [reflexivity|]. apply definite_pivots; auto.
  - intros (o' & E & Ho'). destruct (rank_update_exact n o w s o' Ht) as (_ & Hs); auto.
    { intros i Hi. specialize (HP i Hi). cbn beta in HP. lra. }
    apply (same_definite n _ _ Hs Ho').
Qed.

Lemma same_trans n A B C : same n A B -> same n B C -> same n A C.
Proof. intros H1 H2 r c Hr Hc. rewrite H1, H2 by auto. auto. Qed.
Lemma same_sym n A B : same n A B -> same n B A.
Proof. intros H1 r c Hr Hc. rewrite H1 by auto. auto. Qed.
Lemma plus_outer_same n A B w s : same n A B -> same n (plus_outer A w s) (plus_outer B w s).
Proof. intros H r c Hr Hc. unfold plus_outer. rewrite H by auto. auto. Qed.
Lemma plus_outers_same n l : forall A B, same n A B -> same n (plus_outers A l) (plus_outers B l).
Proof. induction l as [|[w s] l IH]; intros A B H; auto. apply IH. apply plus_outer_same. auto. Qed.

(** every partial sum is positive definite *)
Lemma updates_definite n l : forall o, well_formed n o -> positive_definite n (reconstructedMatrix n o) ->
  (forall k, (k <= length l)%nat -> positive_definite n (plus_outers (reconstructedMatrix n o) (firstn k l))) ->
  exists o', rankUpdates n o l = Some o' /\ well_formed n o' /\ pivots n (fun d => 0 < d) o' /\
    same n (reconstructedMatrix n o') (plus_outers (reconstructedMatrix n o) l).
Proof.
  induction l as [|[w s] l IH]; intros o Ht HP HK; cbn [rankUpdates plus_outers].
  - exists o. split; auto. split; auto. split; [apply definite_pivots; auto|intros r c _ _; auto].
  - pose proof (HK 1%nat ltac:(cbn; lia)) as H1. cbn in H1.
    destruct (proj1 (rank_update_definite n o w s Ht HP) H1) as (o1 & E1 & P1). rewrite E1.
    assert (pivots n (fun d => d <> 0) o) as Hd.
    { apply definite_pivots in HP; auto. intros i Hi. specialize (HP i Hi). cbn beta in HP. lra. }
    destruct (rank_update_exact n o w s o1 Ht Hd E1) as (W1 & S1).
    destruct (IH o1 W1 P1) as (o' & E' & W' & P' & S').
    + intros k Hk. apply (same_definite n (plus_outers (plus_outer (reconstructedMatrix n o) w s) (firstn k l))).
      * apply plus_outers_same. apply same_sym. auto.
      * apply (HK (S k)). cbn. lia.
    + exists o'. split; auto. split; auto. split; auto. eapply same_trans; [exact S'|]. apply plus_outers_same. auto.
Qed.

Lemma plus_outers_definite n l : (forall w s, In (w, s) l -> 0 <= s) -> forall A, positive_definite n A -> positive_definite n (plus_outers A l).
Proof.
  induction l as [|[w s] l IH]; intros Hs A HA; auto. cbn. apply IH; [intros; apply (Hs w0); right; auto|].
  assert (0 <= s) as H0 by (apply (Hs w); left; auto). intros x Hx. specialize (HA x Hx).
  replace (quadratic n (plus_outer A w s) x) with (quadratic n A x + s * (rsum n (fun i => x i * w i) * rsum n (fun i => x i * w i))).
  - apply Rplus_lt_le_0_compat; auto. apply Rmult_le_pos; auto. apply Rle_0_sqr.
  - unfold quadratic, plus_outer. rewrite <- rsum_scal_r. rewrite <- rsum_scal, <- rsum_plus. apply rsum_ext. intros r Hr.
    rewrite <- !rsum_scal, <- rsum_plus. apply rsum_ext. intros; ring.
Qed.

Lemma updates_grow n l : (forall w s, In (w, s) l -> 0 <= s) -> forall o o', well_formed n o -> pivots n (fun d => reg <= d) o ->
  rankUpdates n o l = Some o' -> pivots n (fun d => reg <= d) o'.
Proof.
  induction l as [|[w s] l IH]; intros Hs o o' Ht Hp E; cbn [rankUpdates] in E.
  - injection E as <-. auto.
  - destruct (rankUpdate n (Some o) w s) as [o1|] eqn:E1; [|discriminate]. apply (IH (fun w0 s0 H => Hs w0 s0 (or_intror H)) o1); auto.
    + unfold rankUpdate in E1. destruct (updateInPlace _ _ _ _); [|discriminate]. injection E1 as <-. exact Ht.
    + unfold rankUpdate in E1. destruct (updateInPlace _ _ _ _) as [M'|] eqn:EM; [|discriminate]. injection E1 as <-. intros i Hi. cbn.
      assert (0 <= s) as H0 by (apply (Hs w); left; auto).
      apply Rle_trans with (r_matrix o i i); [apply Hp; auto|]. apply (update_grows n _ _ _ _ H0) with (2 := EM); auto.
      intros j Hj. specialize (Hp j Hj). cbn beta in Hp. pose proof tiny_reg. lra.
Qed.

Lemma updates_solve n A l : (1 <= n)%nat -> symmetric n A -> isPositive (compute n A) = true -> (forall w s, In (w, s) l -> 0 <= s) ->
  exists o' e, rankUpdates n (compute n A) l = Some o' /\
    same n (reconstructedMatrix n o') (plus_outers (fun r c => A r c + (if (r =? c)%nat then e r else 0)) l) /\
    (forall i, (i < n)%nat -> Rabs (e i) <= reg) /\
    ((2 <= n)%nat -> r_regularized (compute n A) = false -> forall i, (i < n)%nat -> e i = 0) /\
    forall b, solves_dense n (reconstructedMatrix n o') (rldlt_solve n o' b) b.
Proof.
  intros Hn HA Hpos Hs. destruct (compute_post n A Hn HA) as (Ht & Hp & e & He & Hb & Hz).
  apply (proj1 (compute_sign n A Hn HA)) in Hpos.
  destruct (updates_definite n l (compute n A)) as (o' & E & W & P & S); auto.
  { intros k Hk. apply plus_outers_definite; auto. intros w s Hi. apply (Hs w).
    rewrite <- (firstn_skipn k l). apply in_or_app. auto. }
  exists o', e. split; auto. split; [eapply same_trans; [exact S|]; apply plus_outers_same; auto|]. split; auto. split; auto.
  intros b. apply solve_ok; [exact W|]. apply definite_pivots in Hpos; [|exact Ht].
  assert (pivots n (fun d => reg <= d) o') as G.
  { apply (updates_grow n l Hs (compute n A)); auto. intros i Hi. specialize (Hp i Hi). specialize (Hpos i Hi). cbn beta in *. rewrite Rabs_right in Hp by lra. auto. }
  intros i Hi. specialize (G i Hi). cbn beta in G. pose proof tiny_reg. rewrite Rabs_right by lra. lra.
Qed.

(** ** The first update of an object that is not initialised *)
Lemma sigma_of_trivial k n i : sigma_of (combine (seq k n) (seq k n)) i = i.
Proof. revert k. induction n as [|n IH]; intros k; cbn; auto. rewrite IH. unfold sw. destruct (Nat.eqb_spec i k); auto. Qed.
Lemma tau_of_trivial k n : forall i, tau_of (combine (seq k n) (seq k n)) i = i.
Proof. intros i. rewrite <- (sigma_of_trivial k n i) at 1. apply tau_sigma_of. Qed.

Definition zero_object (n : nat) (s : sign_matrix) : rldlt_object := mkRldlt (fun _ _ => 0) (seq 0 n) s false.

Lemma for_opt_idle n sigma l st : u_alpha st = None -> for_opt (update_step n sigma) l st = Some st.
Proof. intros H. induction l as [|j l IH]; cbn; auto. unfold update_step at 1. rewrite H. auto. Qed.

Lemma fresh_update n w sigma : (1 <= n)%nat -> sigma <> 0 ->
  exists o, rankUpdate n None w sigma = Some o /\ well_formed n o /\
    ((w 0%nat <> 0 \/ forall i, (i < n)%nat -> w i = 0) <-> same n (reconstructedMatrix n o) (plus_outer (fun _ _ => 0) w sigma)) /\
    (w 0%nat = 0 -> same n (reconstructedMatrix n o) (fun _ _ => 0)).
Proof.
  intros Hn Hs. unfold rankUpdate, updateInPlace. cbv zeta. cbn [r_matrix r_trans r_sign r_regularized].
  assert (forall i, perm_apply (seq 0 n) w i = w i) as Hw by (intros i; rewrite perm_apply_spec; unfold DenseProofs.sigma; rewrite seq_length, sigma_of_trivial; auto).
  assert (forall i, tau (seq 0 n) i = i) as Htau by (intros i; unfold tau; rewrite seq_length; apply tau_of_trivial).
  set (v := perm_apply (seq 0 n) w) in *. destruct n as [|m]; [lia|]. set (n := S m) in *. cbn [seq for_opt n]. fold n.
  set (st0 := mkUpdate (fun _ _ => 0) v (Some 1)).
  destruct (update_step n sigma st0 0) as [st|] eqn:E.
  2:{ unfold update_step, st0 in E. cbn [u_alpha] in E. destruct (Req_EM_T 1 0); [lra|discriminate]. }
  assert (u_alpha st = None) as Ea.
  { unfold update_step, st0 in E. cbn [u_alpha u_mat u_w] in E. destruct (Req_EM_T 1 0); [lra|]. cbv zeta in E. destruct (Req_EM_T 0 0); [|contradiction]. injection E as <-. auto. }
  rewrite for_opt_idle by auto. eexists. split; [reflexivity|].
  assert (tr_ok n (seq 0 n)) as Ht by (split; [rewrite seq_length; auto|intros p Hp; apply in_seq in Hp; lia]).
  split; [exact Ht|]. cbn [seq] in Ht.
  assert (forall r c, (r < n)%nat -> (c < n)%nat -> reconstructedMatrix n (mkRldlt (u_mat st) (0%nat :: seq 1 m) (if Rle_dec 0 sigma then PositiveSemiDef else NegativeSemiDef) false) r c = ldl n (u_mat st) r c) as ER.
  { intros r c Hr Hc. rewrite reconstructed_ldl by auto. cbn [r_matrix r_trans]. change (0%nat :: seq 1 m) with (seq 0 n). rewrite !Htau. auto. }
  assert (w 0%nat = 0 -> forall r c, (r < n)%nat -> (c < n)%nat -> ldl n (u_mat st) r c = 0) as HZ.
  { intros H0 r c Hr Hc. unfold ldl. apply rsum_zero. intros t Htn.
    assert (u_mat st t t = 0) as ->; [|ring].
    unfold update_step, st0 in E. cbn [u_alpha u_mat u_w] in E. destruct (Req_EM_T 1 0); [lra|]. cbv zeta in E. rewrite Hw, H0 in E.
    destruct (Req_EM_T (0 * 1 + sigma * (0 * 0)) 0) as [_|Hx]; [|exfalso; apply Hx; ring]. injection E as <-. cbn [u_mat]. unfold mset.
    destruct (_ && _)%bool; [field|auto]. }
  split; [|intros H0 r c Hr Hc; rewrite ER by auto; apply HZ; auto]. split.
  - intros H r c Hr Hc. rewrite ER by auto. unfold plus_outer. destruct (Req_EM_T (w 0%nat) 0) as [H0|H0].
    + destruct H as [H|H]; [contradiction|]. rewrite HZ by auto. rewrite (H r) by auto. ring.
    + assert (update_inv n (fun _ _ => 0) v sigma 1 st) as (HI & _).
      { apply (update_step_ok n (fun _ _ => 0) v sigma 0 st0 st); auto; [|apply update_init].
        right. left. unfold st0. cbn [u_w]. rewrite Hw. intros Hx. apply Rmult_integral in Hx as [Hx|Hx]; auto. apply Rmult_integral in Hx as [Hx|Hx]; auto. }
      specialize (HI r c Hr Hc). unfold rest in HI. rewrite Ea in HI. rewrite !Hw in HI.
      assert (ldl n (fun _ _ => 0) r c = 0) as Ez by (unfold ldl; apply rsum_zero; intros; ring). rewrite Ez in HI.
      assert (@None R <> Some 0) as Hno by discriminate. specialize (HI (or_introl Hno)). lra.
  - intros H. destruct (Req_EM_T (w 0%nat) 0) as [H0|H0]; [right|left; auto]. intros i Hi.
    specialize (H i i Hi Hi). rewrite ER in H by auto. rewrite HZ in H by auto. unfold plus_outer in H.
    assert (sigma * (w i * w i) = 0) as Hx by lra. apply Rmult_integral in Hx as [Hx|Hx]; [contradiction|]. apply Rmult_integral in Hx as [Hx|Hx]; auto.
Qed.
