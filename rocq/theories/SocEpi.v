(** Epigraphs of quadratic costs, the reduction of cost matrices, blocks of linear
    constraints. *)
From Coq Require Import List Arith Reals Lra Lia Psatz FunctionalExtensionality Bool.
From Verif Require Import Base BaseFacts DenseModel JordanModel SocModel RSum Spec_Soc Spec_SocSteps SocAlgebra SocProofs SocCone SocNewton.
Import ListNotations.
Open Scope R_scope.

(** ** Epigraphs *)

Lemma weighted_split k Q u v : weighted (S k) Q u v =
  u 0%nat * Q 0%nat 0%nat * v 0%nat + rsum k (fun j => u 0%nat * Q 0%nat (S j) * v (S j)) +
  rsum k (fun i => u (S i) * Q (S i) 0%nat * v 0%nat) + rsum k (fun i => rsum k (fun j => u (S i) * Q (S i) (S j) * v (S j))).
Proof.
  unfold weighted. rewrite rsum_first, rsum_first.
  rewrite (rsum_ext k (fun i => rsum (S k) _) (fun i => u (S i) * Q (S i) 0%nat * v 0%nat + rsum k (fun j => u (S i) * Q (S i) (S j) * v (S j)))).
  - rewrite rsum_plus. ring.
  - intros. rewrite rsum_first. auto.
Qed.

Lemma epi_weighted k Qi u v : weighted (k + 1) (epi_Q k Qi) u v = u 0%nat * v 0%nat + weighted k Qi (fun i => u (S i)) (fun i => v (S i)).
Proof.
  rewrite Nat.add_1_r, weighted_split. cbn [epi_Q].
  rewrite (rsum_zero k (fun j => u 0%nat * 0 * v (S j))) by (intros; ring).
  rewrite (rsum_zero k (fun i => u (S i) * 0 * v 0%nat)) by (intros; ring).
  unfold weighted. rewrite (rsum_ext k (fun i => rsum k _) (fun i => rsum k (fun j => u (S i) * Qi i j * v (S j)))).
  - ring.
  - intros i Hi. apply rsum_ext. intros j Hj. destruct (Nat.ltb_spec i k), (Nat.ltb_spec j k); try lia. auto.
Qed.

Lemma epi_semidefinite k Qi : semidefinite k Qi -> semidefinite (k + 1) (epi_Q k Qi).
Proof.
  intros [HS HP]. split.
  - intros [|i] [|j] Hi Hj; cbn [epi_Q]; auto. destruct (Nat.ltb_spec i k), (Nat.ltb_spec j k); try lia. cbn. auto.
  - intros v. rewrite epi_weighted. specialize (HP (fun i => v (S i))). pose proof (Rle_0_sqr (v 0%nat)) as E. unfold Rsqr in E. lra.
Qed.

Lemma epi_slack k z : slack (k + 1) (epi_A k) epi_b 1 z =
  (1 + z k / 2, fun i => match i with O => -1 + z k / 2 | S a => if (a <? k)%nat then - z a else 0 end).
Proof.
  apply pair_ext; unfold slack, epi_b; cbn [fst snd].
  - rewrite (rsum_single (k + 1) k) by (first [lia | intros i Hi Hn; cbn; destruct (Nat.eqb_spec i k); [congruence|ring]]).
    cbn. rewrite Nat.eqb_refl. field.
  - intros [|a].
    + rewrite (rsum_single (k + 1) k) by (first [lia | intros i Hi Hn; cbn; destruct (Nat.eqb_spec i k); [congruence|ring]]).
      cbn. rewrite Nat.eqb_refl. field.
    + cbn [epi_A snd]. destruct (Nat.ltb_spec a k).
      * rewrite (rsum_single (k + 1) a) by (first [lia | intros i Hi Hn; destruct (Nat.eqb_spec a i); [congruence|cbn; ring]]).
        rewrite Nat.eqb_refl. cbn. ring.
      * rewrite rsum_zero by (intros; rewrite andb_false_r; ring). ring.
Qed.

Lemma epi_cone k Qi z : semidefinite k Qi ->
  cone (form_of (k + 1) (Some (epi_Q k Qi))) (slack (k + 1) (epi_A k) epi_b 1 z) <-> weighted k Qi z z / 2 <= z k.
Proof.
  intros [HS HP]. rewrite epi_slack. unfold cone. cbn [fst snd form_of]. rewrite epi_weighted.
  replace (weighted k Qi _ _) with (weighted k Qi z z).
  - specialize (HP z). split; intros.
    + destruct H as [_ H]. lra.
    + split; [lra|]. lra.
  - unfold weighted. apply rsum_ext. intros i Hi. apply rsum_ext. intros j Hj.
    destruct (Nat.ltb_spec i k), (Nat.ltb_spec j k); try lia. ring.
Qed.
Lemma epi_interior k Qi z : semidefinite k Qi ->
  interior (form_of (k + 1) (Some (epi_Q k Qi))) (slack (k + 1) (epi_A k) epi_b 1 z) <-> weighted k Qi z z / 2 < z k.
Proof.
  intros [HS HP]. rewrite epi_slack. unfold interior. cbn [fst snd form_of]. rewrite epi_weighted.
  replace (weighted k Qi _ _) with (weighted k Qi z z).
  - specialize (HP z). split; intros.
    + destruct H as [_ H]. lra.
    + split; [lra|]. lra.
  - unfold weighted. apply rsum_ext. intros i Hi. apply rsum_ext. intros j Hj.
    destruct (Nat.ltb_spec i k), (Nat.ltb_spec j k); try lia. ring.
Qed.

(** The overriding [EvalAtQX] computes the same product. *)
Lemma epi_eval k Qi X j : (j < k + 1)%nat ->
  EEvalAtQX (k + 1) (Some (epi_Q k Qi)) X j = QEvalAtQX (k + 1) (Some (epi_Q k Qi)) (epi_A k) X j.
Proof.
  intros Hj. unfold EEvalAtQX, QEvalAtQX. rewrite QInner_form. cbn [form_of]. rewrite epi_weighted.
  replace (k + 1 - 1)%nat with k by lia. cbn [epi_A snd]. unfold weighted. destruct (Nat.ltb_spec j k) as [H|H].
  - destruct (Nat.eqb_spec j k); [lia|]. rewrite Rmult_0_l, Rplus_0_l. symmetry. rewrite (rsum_single k j (fun i => rsum k (fun l => (if (i =? j)%nat && (i <? k)%nat then 1 else 0) * Qi i l * X (S l)))); auto.
    + apply rsum_ext. intros l Hl. rewrite Nat.eqb_refl. cbn [epi_Q]. destruct (Nat.ltb_spec j k), (Nat.ltb_spec l k); try lia. cbn. ring.
    + intros i Hi Hn. apply rsum_zero. intros. destruct (Nat.eqb_spec i j); [congruence|]. cbn. ring.
  - assert (j = k) as -> by lia. rewrite Nat.eqb_refl. rewrite rsum_zero; [ring|].
    intros i Hi. apply rsum_zero. intros. destruct (Nat.eqb_spec i k); [lia|]. cbn. ring.
Qed.

Lemma epi_schur k Qi W d0 t2 t3 wn initialize old epi : semidefinite k Qi ->
  cone_block (form_of (k + 1) (Some (epi_Q k Qi))) (epi_A k) epi_b W
    (snd (QSchur (Epigraph k Qi epi W d0 t2 t3 wn) initialize old)) (if initialize then 0 else 2) old (k + 1).
Proof.
  intros M. pose proof (qc_schur_base (k + 1) (k + 1) (Some (epi_Q k Qi)) (epi_A k) epi_b W d0 t2 t3 wn initialize old (epi_semidefinite k Qi M)) as H.
  destruct epi; [|exact H]. revert H. unfold Epigraph, cone_block, QSchur, QConstruct, eval_AtQX.
  cbn [qc_n qc_Q qc_W qc_A qc_c qc_gram qc_epi snd sc_G sc_AW sc_AQc sc_wc sc_cQc].
  intros (H1 & H2 & H3 & H4 & H5). split; [|split; [|split; [|split]]]; auto.
  - intros i j Hi Hj. rewrite <- H1 by auto. rewrite !epi_eval by auto. auto.
  - intros i Hi. rewrite <- H2 by auto. rewrite !epi_eval by auto. auto.
  - intros i Hi. rewrite <- H3 by auto. rewrite !epi_eval by auto. auto.
Qed.

(** ** Linear constraints *)

Lemma linear_block_ok r m size A c w initialize old : initialize = false \/ size = m ->
  linear_block r A c w (LSchur r m size A c w initialize old) (if initialize then 0 else 1) old m.
Proof.
  intros H. unfold LSchur. assert ((initialize && negb (size =? m)%nat)%bool = false) as ->.
  { destruct H as [->| ->]; auto. rewrite Nat.eqb_refl. destruct initialize; auto. }
  unfold linear_block. cbn [sc_G sc_AW sc_AQc sc_wc sc_cQc]. rewrite !put_eq.
  split; [|split; [|split; [|split]]]; intros; repeat match goal with H : (_ < m)%nat |- _ => apply Nat.ltb_lt in H; rewrite H end;
    cbn [andb]; rewrite ?put_eq; f_equal; try (apply rsum_ext; intros; ring).
Qed.

(** ** [NonZeroSubMat] *)

Section Nz.
  Variables (n : nat) (M : mat).
  Let vars := nz_vars n M.
  Definition nz_val (a b : nat) : R := (M (nth a vars 0%nat) (nth b vars 0%nat) + M (nth b vars 0%nat) (nth a vars 0%nat)) / 2.

  Lemma nz_write_ok Y r c : let Y' := nz_write M vars Y r c in
    Y' r c = nz_val r c /\ forall a b, Y a b = nz_val a b -> Y' a b = nz_val a b.
  Proof.
    assert (nz_val c r = nz_val r c) as HS by (unfold nz_val; field).
    unfold nz_write, mset. rewrite !Nat.eqb_refl. cbn [andb].
    change ((M (nth r vars 0%nat) (nth c vars 0%nat) + M (nth c vars 0%nat) (nth r vars 0%nat)) / 2) with (nz_val r c). split.
    - destruct ((r =? c) && (c =? r))%nat; auto.
    - intros a b H. destruct (Nat.eqb_spec a c), (Nat.eqb_spec b r), (Nat.eqb_spec a r), (Nat.eqb_spec b c); cbn [andb]; subst; auto.
  Qed.

  Lemma nz_inner r l : forall Y, let Y' := fold_left (fun Y c => nz_write M vars Y r c) l Y in
    (forall c, In c l -> Y' r c = nz_val r c) /\ forall a b, Y a b = nz_val a b -> Y' a b = nz_val a b.
  Proof.
    induction l as [|c l IH]; intros Y; cbn [fold_left]; [split; [intros _ []|auto]|].
    destruct (nz_write_ok Y r c) as [H1 H2]. destruct (IH (nz_write M vars Y r c)) as [I1 I2]. split; auto.
    intros c' [->|H]; auto.
  Qed.
  Lemma nz_outer w l : forall Y, let Y' := fold_left (fun Y r => for_up w (fun Y c => nz_write M vars Y r c) Y) l Y in
    (forall r c, In r l -> (c < w)%nat -> Y' r c = nz_val r c) /\ forall a b, Y a b = nz_val a b -> Y' a b = nz_val a b.
  Proof.
    induction l as [|r l IH]; intros Y; cbn [fold_left]; [split; [intros ? ? []|auto]|].
    destruct (nz_inner r (seq 0 w) Y) as [H1 H2]. destruct (IH (for_up w (fun Y c => nz_write M vars Y r c) Y)) as [I1 I2]. split.
    - intros r' c [->|H] Hc; auto. apply I2. unfold for_up. apply H1. apply in_seq. lia.
    - intros. apply I2. unfold for_up. auto.
  Qed.
  Lemma NonZeroSubMat_ok Y a b : (a < length vars)%nat -> (b < length vars)%nat -> snd (NonZeroSubMat n M Y) a b = nz_val a b.
  Proof.
    intros Ha Hb. unfold NonZeroSubMat. cbn [snd]. fold vars. unfold for_up at 1.
    destruct (nz_outer (length vars) (seq 0 (length vars)) Y) as [H _]. apply H; auto. apply in_seq. lia.
  Qed.
End Nz.

Lemma rsum_filter (p : nat -> bool) (f : nat -> R) n :
  let l := filter p (seq 0 n) in rsum (length l) (fun a => f (nth a l 0%nat)) = rsum n (fun i => if p i then f i else 0).
Proof.
  induction n; [reflexivity|]. cbv zeta. rewrite seq_S, filter_app. cbn [filter Nat.add rsum]. rewrite <- IHn. clear IHn.
  set (l := filter p (seq 0 n)). destruct (p n).
  - rewrite app_length. cbn [length]. rewrite Nat.add_1_r. cbn [rsum]. rewrite app_nth2, Nat.sub_diag by lia. cbn [nth]. f_equal.
    apply rsum_ext. intros i Hi. rewrite app_nth1 by auto. auto.
  - rewrite app_nil_r. ring.
Qed.

Lemma psd_diag n M i : (forall v, 0 <= weighted n M v v) -> (i < n)%nat -> 0 <= M i i.
Proof.
  intros H Hi. specialize (H (fun j => if (j =? i)%nat then 1 else 0)). unfold weighted in H.
  rewrite (rsum_single n i), (rsum_single n i) in H; auto.
  - rewrite Nat.eqb_refl in H. lra.
  - intros j _ Hj. destruct (Nat.eqb_spec j i); [congruence|ring].
  - intros j _ Hj. apply rsum_zero. intros. destruct (Nat.eqb_spec j i); [congruence|ring].
Qed.

Definition basis2 (i j : nat) (t : R) : vec := fun k => if (k =? i)%nat then t else if (k =? j)%nat then 1 else 0.
Lemma rsum_basis2 n i j t f : (i < n)%nat -> (j < n)%nat -> i <> j -> rsum n (fun k => basis2 i j t k * f k) = t * f i + f j.
Proof.
  intros Hi Hj Hn.
  rewrite (rsum_ext n _ (fun k => (if (k =? i)%nat then t * f k else 0) + (if (k =? j)%nat then f k else 0))).
  - rewrite rsum_plus, (rsum_single n i), (rsum_single n j); auto.
    + rewrite !Nat.eqb_refl. auto.
    + intros k _ Hk. destruct (Nat.eqb_spec k j); congruence.
    + intros k _ Hk. destruct (Nat.eqb_spec k i); congruence.
  - intros k _. unfold basis2. destruct (Nat.eqb_spec k i), (Nat.eqb_spec k j); subst; try congruence; ring.
Qed.
Lemma weighted_basis2 n M i j t : (i < n)%nat -> (j < n)%nat -> i <> j ->
  weighted n M (basis2 i j t) (basis2 i j t) = t * t * M i i + t * (M i j + M j i) + M j j.
Proof.
  intros Hi Hj Hn. unfold weighted.
  rewrite (rsum_ext n _ (fun a => basis2 i j t a * (t * M a i + M a j))).
  - rewrite rsum_basis2 by auto. ring.
  - intros a _. rewrite (rsum_ext n _ (fun b => basis2 i j t b * (basis2 i j t a * M a b))) by (intros; ring).
    rewrite rsum_basis2 by auto. ring.
Qed.

Lemma psd_zero_row n M i j : (forall v, 0 <= weighted n M v v) -> (i < n)%nat -> (j < n)%nat -> M i i = 0 -> M i j + M j i = 0.
Proof.
  intros H Hi Hj E. destruct (Nat.eq_dec i j) as [->|Hn]; [lra|].
  destruct (Req_EM_T (M i j + M j i) 0) as [|N]; auto. exfalso.
  specialize (H (basis2 i j (- (M j j + 1) / (M i j + M j i)))). rewrite weighted_basis2, E in H by auto.
  replace (- (M j j + 1) / (M i j + M j i) * (M i j + M j i)) with (- (M j j + 1)) in H by (field; auto). lra.
Qed.

Lemma reduced_cost n M Y x : (forall v, 0 <= weighted n M v v) ->
  let '(vars, Q) := NonZeroSubMat n M Y in
  weighted (length vars) Q (fun a => x (nth a vars 0%nat)) (fun a => x (nth a vars 0%nat)) = weighted n M x x.
Proof.
  intros H. pose proof (NonZeroSubMat_ok n M Y) as HN. destruct (NonZeroSubMat n M Y) as [vars Q] eqn:E.
  assert (vars = nz_vars n M) as -> by (unfold NonZeroSubMat in E; congruence). cbn [snd] in HN.
  set (p := fun i => if Rlt_dec 0 (M i i) then true else false).
  set (g := fun i j => x i * ((M i j + M j i) / 2) * x j).
  transitivity (rsum n (fun i => rsum n (fun j => g i j))).
  - unfold weighted. transitivity (rsum (length (nz_vars n M)) (fun a => rsum (length (nz_vars n M)) (fun b => g (nth a (nz_vars n M) 0%nat) (nth b (nz_vars n M) 0%nat)))).
    + apply rsum_ext. intros a Ha. apply rsum_ext. intros b Hb. rewrite HN by auto. reflexivity.
    + unfold nz_vars. fold p.
      rewrite (rsum_filter p (fun i => rsum (length (filter p (seq 0 n))) (fun b => g i (nth b (filter p (seq 0 n)) 0%nat)))).
      assert (forall i j, (i < n)%nat -> (j < n)%nat -> p i = false \/ p j = false -> g i j = 0) as Z.
      { assert (forall i, (i < n)%nat -> p i = false -> M i i = 0) as Z0.
        { intros i Hi. unfold p. destruct (Rlt_dec 0 (M i i)); [discriminate|]. intros _. pose proof (psd_diag n M i H Hi). lra. }
        intros i j Hi Hj [K|K]; apply Z0 in K; auto; unfold g.
        - rewrite (psd_zero_row n M i j) by auto. lra.
        - rewrite (Rplus_comm (M i j)), (psd_zero_row n M j i) by auto. lra. }
      apply rsum_ext. intros i Hi. destruct (p i) eqn:Pi.
      * rewrite (rsum_filter p (fun j => g i j)). apply rsum_ext. intros j Hj. destruct (p j) eqn:Pj; auto. symmetry. auto.
      * symmetry. apply rsum_zero. intros. auto.
  - unfold g, weighted.
    rewrite (rsum_ext n _ (fun i => rsum n (fun j => / 2 * (x i * M i j * x j)) + rsum n (fun j => / 2 * (x j * M j i * x i)))).
    + rewrite rsum_plus, (rsum_swap n n (fun i j => / 2 * (x j * M j i * x i))).
      rewrite <- rsum_plus. apply rsum_ext. intros i _. rewrite <- rsum_plus. apply rsum_ext. intros. field.
    + intros i _. rewrite <- rsum_plus. apply rsum_ext. intros. field.
Qed.
