(** Eigenvalues through the minimal polynomial. *)
From Coq Require Import List Arith Reals Lra Lia Bool.
From Verif Require Import Base DenseModel RSum Spec_Hyper HyperFacts JordanModel JordanProofs JordanSchur HermBound HermPairing AlgebraModel Spec_Algebra AlgebraProofs.
Import ListNotations.
Open Scope R_scope.

Section Powers.
  Variable k d : nat.
  Hypothesis Hk : (k <= 2)%nat.
  Let L := laws_cd k.
  Let HA := assoc_cd k Hk.
  Notation A := (cd k).
  Notation co := (coords_of k).

  Lemma same_mmul_l (X Y Z : amat A) : same_matrix d X Y -> same_matrix d (mmul d X Z) (mmul d Y Z).
  Proof. intros H r c Hr Hc. unfold mmul. apply ssum_ext. intros t Ht. rewrite H by auto. auto. Qed.
  Lemma same_mmul_r (X Y Z : amat A) : same_matrix d X Y -> same_matrix d (mmul d Z X) (mmul d Z Y).
  Proof. intros H r c Hr Hc. unfold mmul. apply ssum_ext. intros t Ht. rewrite H by auto. auto. Qed.
  Lemma mmul_mid_l (X : amat A) : same_matrix d (mmul d mid X) X.
  Proof.
    intros r c Hr Hc. unfold mmul. rewrite (ssum_single A co L d r); auto.
    - unfold mid. rewrite Nat.eqb_refl. apply (mul_1_l A co L).
    - intros t Ht Hn. unfold mid. destruct (Nat.eqb_spec r t); [congruence|]. apply (mul_0_l A co L).
  Qed.
  Lemma mmul_mid_r (X : amat A) : same_matrix d (mmul d X mid) X.
  Proof.
    intros r c Hr Hc. unfold mmul. rewrite (ssum_single A co L d c); auto.
    - unfold mid. rewrite Nat.eqb_refl. apply (mul_1_r A co L).
    - intros t Ht Hn. unfold mid. destruct (Nat.eqb_spec t c); [congruence|]. apply (mul_0_r A co L).
  Qed.
  Lemma same_trans (X Y Z : amat A) : same_matrix d X Y -> same_matrix d Y Z -> same_matrix d X Z.
  Proof. intros H1 H2 r c Hr Hc. rewrite H1 by auto. auto. Qed.
  Lemma same_sym (X Y : amat A) : same_matrix d X Y -> same_matrix d Y X.
  Proof. intros H r c Hr Hc. rewrite H by auto. auto. Qed.

  Lemma power_commutes (X : amat A) j : same_matrix d (mmul d (mpower d X j) X) (mmul d X (mpower d X j)).
  Proof.
    induction j as [|j IH]; cbn [mpower].
    - eapply same_trans; [apply mmul_mid_l|]. apply same_sym. apply mmul_mid_r.
    - rewrite (mmul_assoc A co L HA). apply same_mmul_r. exact IH.
  Qed.

  Lemma jordan_power_ok x j : same_matrix d (matrix_of k (jordan_power (2 ^ k) d x j)) (mpower d (matrix_of k x) j).
  Proof.
    induction j as [|j IH]; cbn [jordan_power mpower].
    - rewrite of_identity. intros r c _ _. auto.
    - rewrite of_jordan by lia. intros r c Hr Hc. unfold mscal, madd.
      rewrite (same_mmul_l _ _ _ IH r c Hr Hc), (same_mmul_r _ _ _ IH r c Hr Hc), (power_commutes _ j r c Hr Hc).
      apply (co_sep A co L). intros i. rewrite (co_scal A co L), (co_add A co L). field.
  Qed.

  (** Real-linear combinations of matrices, seen through the model. *)
  Definition residual x (c : vec) : hyper :=
    fun i r s => rsum d (fun j => jordan_power (2 ^ k) d x j i r s * c j) + jordan_power (2 ^ k) d x d i r s.
  Definition monic (c : vec) : vec := fun j => if (j =? d)%nat then 1 else c j.

  Lemma of_sum m (f : nat -> hyper) (c : vec) r s :
    matrix_of k (fun i r s => rsum m (fun j => f j i r s * c j)) r s = ssum m (fun j => sscal (c j) (matrix_of k (f j) r s)).
  Proof.
    induction m as [|m IH]; cbn [rsum ssum].
    - unfold matrix_of. apply read_zero.
    - rewrite <- IH. unfold matrix_of. rewrite <- read_scal, <- read_add. auto.
  Qed.
  Lemma of_residual x c : same_matrix d (matrix_of k (residual x c)) (mpoly d (S d) (monic c) (matrix_of k x)).
  Proof.
    intros r s Hr Hs. unfold mpoly. cbn [ssum]. unfold monic at 2. rewrite Nat.eqb_refl.
    transitivity (sadd (matrix_of k (fun i r s => rsum d (fun j => jordan_power (2 ^ k) d x j i r s * c j)) r s) (matrix_of k (jordan_power (2 ^ k) d x d) r s)).
    - unfold matrix_of, residual. rewrite <- read_add. auto.
    - rewrite (of_sum d (jordan_power (2 ^ k) d x)). rewrite (jordan_power_ok x d r s Hr Hs). f_equal; [|lin L].
      apply ssum_ext. intros j Hj. rewrite (jordan_power_ok x j r s Hr Hs). unfold monic. destruct (Nat.eqb_spec j d); [lia|auto].
  Qed.

  Lemma minner_same (X X' Y Y' : amat A) : same_matrix d X X' -> same_matrix d Y Y' -> minner d d X Y = minner d d X' Y'.
  Proof.
    intros H1 H2. unfold minner. apply rsum_ext. intros r Hr. apply rsum_ext. intros c Hc. rewrite H1, H2 by auto. auto.
  Qed.

  (** Least squares is exact if the system has a solution. *)
  Lemma residual_exact x c : MinimalPolynomial (2 ^ k) d x c -> annihilated d (matrix_of k x) ->
    same_matrix d (mpoly d (S d) (monic c) (matrix_of k x)) (fun _ _ => s0).
  Proof.
    intros HM (p & Ep & Hp). set (X := matrix_of k x) in *. set (R := mpoly d (S d) (monic c) X) in *.
    assert (forall j, (j < d)%nat -> minner d d R (mpower d X j) = 0) as HO.
    { intros j Hj. rewrite (minner_sym k d). specialize (HM j Hj). cbv zeta in HM. rewrite of_trace in HM.
      rewrite <- HM. apply minner_same; apply same_sym; [apply jordan_power_ok|apply of_residual]. }
    apply (minner_zero k Hk d).
    assert (same_matrix d R (fun r s => ssum d (fun j => mscal (c j - p j) (mpower d X j) r s))) as ER.
    { intros r s Hr Hs. specialize (Hp r s Hr Hs). unfold R, mpoly in Hp |- *. cbn [ssum] in Hp |- *. unfold monic at 2. rewrite Nat.eqb_refl. rewrite Ep in Hp.
      transitivity (sadd (sadd (ssum d (fun j => sscal (monic c j) (mpower d X j r s))) (sscal 1 (mpower d X d r s)))
                      (sscal (-1) (sadd (ssum d (fun j => sscal (p j) (mpower d X j r s))) (sscal 1 (mpower d X d r s))))).
      { rewrite Hp. lin L. }
      transitivity (sadd (ssum d (fun j => sscal (monic c j) (mpower d X j r s))) (sscal (-1) (ssum d (fun j => sscal (p j) (mpower d X j r s))))); [lin L|].
      rewrite <- (ssum_scal A co L), <- (ssum_add A co L). apply ssum_ext. intros j Hj. unfold mscal, monic. destruct (Nat.eqb_spec j d); [lia|]. lin L. }
    rewrite (minner_same R R R _ ltac:(intros r s _ _; auto) ER). rewrite (minner_sum k d).
    apply rsum_zero. intros j Hj. rewrite (minner_scal_r k d), HO by auto. ring.
  Qed.

  (** ** Every eigenvalue is returned *)
  Lemma power_eig (X : amat A) (z : nat -> el A) l : (forall r, (r < d)%nat -> ssum d (fun c => smul (X r c) (z c)) = sscal l (z r)) ->
    forall j r, (r < d)%nat -> ssum d (fun c => smul (mpower d X j r c) (z c)) = sscal (l ^ j) (z r).
  Proof.
    intros H j. induction j as [|j IH]; intros r Hr; cbn [mpower].
    - rewrite (ssum_single A co L d r); auto.
      + unfold mid. rewrite Nat.eqb_refl. rewrite (mul_1_l A co L). cbn [pow]. lin L.
      + intros t Ht Hn. unfold mid. destruct (Nat.eqb_spec r t); [congruence|]. apply (mul_0_l A co L).
    - transitivity (ssum d (fun t => smul (X r t) (ssum d (fun c => smul (mpower d X j t c) (z c))))).
      + unfold mmul. erewrite ssum_ext by (intros; apply (ssum_mul_r A co L)). rewrite (ssum_swap A co L). apply ssum_ext. intros t Ht.
        rewrite (ssum_mul_l A co L). apply ssum_ext. intros c Hc. apply HA.
      + rewrite (ssum_ext A d _ (fun t => sscal (l ^ j) (smul (X r t) (z t)))).
        2:{ intros t Ht. rewrite IH by auto. apply (mul_scal_r A co L). }
        rewrite (ssum_scal A co L), H by auto. cbn [pow]. lin L.
  Qed.
  Lemma poly_eig (X : amat A) (z : nat -> el A) l m p : (forall r, (r < d)%nat -> ssum d (fun c => smul (X r c) (z c)) = sscal l (z r)) ->
    forall r, (r < d)%nat -> ssum d (fun c => smul (mpoly d m p X r c) (z c)) = sscal (rsum m (fun j => p j * l ^ j)) (z r).
  Proof.
    intros H r Hr. unfold mpoly. erewrite ssum_ext by (intros; apply (ssum_mul_r A co L)). rewrite (ssum_swap A co L).
    rewrite (ssum_ext A m _ (fun j => sscal (p j * l ^ j) (z r))).
    2:{ intros j Hj. erewrite ssum_ext by (intros; apply (mul_scal_l A co L)). rewrite (ssum_scal A co L), (power_eig X z l H j r Hr). lin L. }
    induction m as [|m IH]; cbn [ssum rsum]; [lin L|]. rewrite IH. lin L.
  Qed.
  Lemma scal_zero s (x : el A) : sscal s x = s0 -> x <> s0 -> s = 0.
  Proof.
    intros E Hn. destruct (Req_EM_T s 0) as [|Hs]; auto. exfalso. apply Hn.
    transitivity (sscal (/ s) (sscal s x)); [|rewrite E; lin L].
    apply (co_sep A co L). intros i. rewrite !(co_scal A co L). field. auto.
  Qed.
  Lemma eig_root (X : amat A) p l m : same_matrix d (mpoly d m p X) (fun _ _ => s0) -> eigenvalue_of k d X l -> rsum m (fun j => p j * l ^ j) = 0.
  Proof.
    intros Hp (z & (r & Hr & Hz) & H). apply (scal_zero _ (z r)); auto. rewrite <- (poly_eig X z l m p H r Hr).
    apply (ssum_0 A co L). intros c Hc. rewrite Hp by auto. apply (mul_0_l A co L).
  Qed.
End Powers.

(** ** The companion matrix *)
Lemma companion_row d c u i : (S i < d)%nat -> rsum d (fun j => companion d c i j * u j) = u (S i).
Proof.
  intros Hi. unfold companion. destruct (Nat.eqb_spec i (d - 1)); [lia|]. rewrite (rsum_single d (S i)); auto.
  - rewrite Nat.eqb_refl. ring.
  - intros j Hj Hn. destruct (Nat.eqb_spec j (S i)); [contradiction|ring].
Qed.
Lemma companion_last d c u : (0 < d)%nat -> rsum d (fun j => companion d c (d - 1)%nat j * u j) = - rsum d (fun j => c j * u j).
Proof.
  intros Hd. unfold companion. rewrite Nat.eqb_refl. replace (- rsum d (fun j => c j * u j)) with (-1 * rsum d (fun j => c j * u j)) by ring.
  rewrite <- rsum_scal. apply rsum_ext. intros. ring.
Qed.
Lemma monic_sum d c f : rsum (S d) (fun j => monic d c j * f j) = rsum d (fun j => c j * f j) + f d.
Proof.
  cbn [rsum]. unfold monic at 2. rewrite Nat.eqb_refl. rewrite Rmult_1_l. f_equal. apply rsum_ext. intros j Hj. unfold monic. destruct (Nat.eqb_spec j d); [lia|auto].
Qed.
Lemma root_companion d c l : (0 < d)%nat -> rsum (S d) (fun j => monic d c j * l ^ j) = 0 -> eig_value d (companion d c) l 0.
Proof.
  intros Hd E. rewrite (monic_sum d c (fun j => l ^ j)) in E. exists (fun j => l ^ j), (fun _ => 0). split.
  - exists 0%nat. split; auto. left. cbn. lra.
  - intros i Hi. split; [|rewrite rsum_zero; [ring|intros; ring]].
    destruct (Nat.eq_dec i (d - 1)) as [->|Hn].
    + rewrite companion_last by auto. replace (l ^ d) with (l * l ^ (d - 1)) in E by (rewrite tech_pow_Rmult; f_equal; lia). lra.
    + rewrite companion_row by lia. cbn [pow]. ring.
Qed.
Lemma eigenvalues_complete k d Q c l : (k <= 2)%nat -> annihilated d (matrix_of k Q) -> MinimalPolynomial (2 ^ k) d Q c ->
  eigenvalue_of k d (matrix_of k Q) l -> Eigenvalues (2 ^ k) d Q c l.
Proof.
  intros Hk HA HM HE. split; auto. exists 0. destruct HE as (z & (r & Hr & Hz) & H). apply root_companion; [lia|].
  apply (eig_root k d Hk (matrix_of k Q)); [|exists z; split; [exists r; auto|auto]]. apply residual_exact; auto.
Qed.

(** ** Every returned value is an eigenvalue *)
Fixpoint cpow (a b : R) (j : nat) : R * R :=
  match j with O => (1, 0) | S j' => let '(x, y) := cpow a b j' in (a * x - b * y, b * x + a * y) end.
Lemma eig_power d c a b u v : (forall i, (i < d)%nat ->
    rsum d (fun j => companion d c i j * u j) = a * u i - b * v i /\ rsum d (fun j => companion d c i j * v j) = b * u i + a * v i) ->
  forall i, (i < d)%nat -> u i = fst (cpow a b i) * u 0%nat - snd (cpow a b i) * v 0%nat /\ v i = snd (cpow a b i) * u 0%nat + fst (cpow a b i) * v 0%nat.
Proof.
  intros H. induction i as [|i IH]; intros Hi.
  - cbn. split; ring.
  - destruct (H i ltac:(lia)) as [H1 H2]. rewrite companion_row in H1, H2 by lia. rewrite H1, H2. destruct (IH ltac:(lia)) as [E1 E2]. rewrite E1, E2.
    cbn [cpow]. destruct (cpow a b i) as [x y]. cbn. split; ring.
Qed.
Lemma eig_root_complex d c a b : eig_value d (companion d c) a b ->
  rsum (S d) (fun j => monic d c j * fst (cpow a b j)) = 0 /\ rsum (S d) (fun j => monic d c j * snd (cpow a b j)) = 0.
Proof.
  intros (u & v & (i0 & Hi0 & Hn) & H). pose proof (eig_power d c a b u v H) as HP.
  destruct (H (d - 1)%nat ltac:(lia)) as [H1 H2]. rewrite companion_last in H1, H2 by lia.
  set (P := rsum (S d) (fun j => monic d c j * fst (cpow a b j))). set (N := rsum (S d) (fun j => monic d c j * snd (cpow a b j))).
  assert (P = rsum d (fun j => c j * fst (cpow a b j)) + fst (cpow a b d)) as EP by apply (monic_sum d c (fun j => fst (cpow a b j))).
  assert (N = rsum d (fun j => c j * snd (cpow a b j)) + snd (cpow a b d)) as EN by apply (monic_sum d c (fun j => snd (cpow a b j))).
  set (p := rsum d (fun j => c j * fst (cpow a b j))) in *. set (n := rsum d (fun j => c j * snd (cpow a b j))) in *.
  assert (rsum d (fun j => c j * u j) = p * u 0%nat - n * v 0%nat) as Eu.
  { unfold p, n. rewrite <- !rsum_scal_r, <- rsum_minus. apply rsum_ext. intros j Hj. destruct (HP j Hj) as [-> _]. ring. }
  assert (rsum d (fun j => c j * v j) = n * u 0%nat + p * v 0%nat) as Ev.
  { unfold p, n. rewrite <- !rsum_scal_r, <- rsum_plus. apply rsum_ext. intros j Hj. destruct (HP j Hj) as [_ ->]. ring. }
  rewrite Eu in H1. rewrite Ev in H2. destruct (HP (d - 1)%nat ltac:(lia)) as [E1 E2]. rewrite E1, E2 in H1, H2.
  replace d with (S (d - 1)) in EP, EN by lia. cbn [cpow] in EP, EN. replace (S (d - 1)) with d in * by lia.
  destruct (cpow a b (d - 1)) as [x y]. cbn [fst snd] in *.
  assert (P * u 0%nat - N * v 0%nat = 0) as Z1 by (rewrite EP, EN; lra).
  assert (N * u 0%nat + P * v 0%nat = 0) as Z2 by (rewrite EP, EN; lra).
  assert (u 0%nat * u 0%nat + v 0%nat * v 0%nat <> 0) as Hz.
  { intros E. assert (u 0%nat = 0) as Z3 by nra. assert (v 0%nat = 0) as Z4 by nra. destruct (HP i0 Hi0) as [F1 F2]. rewrite Z3, Z4 in F1, F2.
    destruct Hn as [Hn|Hn]; apply Hn; lra. }
  assert (P * (u 0%nat * u 0%nat + v 0%nat * v 0%nat) = 0) as W1.
  { transitivity (u 0%nat * (P * u 0%nat - N * v 0%nat) + v 0%nat * (N * u 0%nat + P * v 0%nat)); [ring|]. rewrite Z1, Z2. ring. }
  assert (N * (u 0%nat * u 0%nat + v 0%nat * v 0%nat) = 0) as W2.
  { transitivity (u 0%nat * (N * u 0%nat + P * v 0%nat) - v 0%nat * (P * u 0%nat - N * v 0%nat)); [ring|]. rewrite Z1, Z2. ring. }
  split; [apply Rmult_integral in W1; tauto|apply Rmult_integral in W2; tauto].
Qed.

(** Horner's scheme: [m]-th partial value for the polynomial with coefficients [c] below
    degree [d]. *)
Fixpoint horner (d : nat) (c : vec) (a b : R) (m : nat) : R * R :=
  match m with
  | O => (1, 0)
  | S m' => let '(x, y) := horner d c a b m' in (c (d - S m')%nat + (a * x - b * y), b * x + a * y)
  end.
Lemma horner_value d c a b m : (m <= d)%nat ->
  fst (horner d c a b m) = rsum m (fun t => c (d - m + t)%nat * fst (cpow a b t)) + fst (cpow a b m) /\
  snd (horner d c a b m) = rsum m (fun t => c (d - m + t)%nat * snd (cpow a b t)) + snd (cpow a b m).
Proof.
  induction m as [|m IH]; intros Hm; [cbn; split; ring|]. destruct (IH ltac:(lia)) as [E1 E2].
  rewrite !rsum_first. cbn [horner]. destruct (horner d c a b m) as [x y]. cbn [fst snd] in E1, E2 |- *. rewrite E1, E2.
  replace (d - S m + 0)%nat with (d - S m)%nat by lia.
  set (p := rsum m (fun t => c (d - m + t)%nat * fst (cpow a b t))). set (n := rsum m (fun t => c (d - m + t)%nat * snd (cpow a b t))).
  assert (rsum m (fun t => c (d - S m + S t)%nat * fst (cpow a b (S t))) = a * p - b * n) as ->.
  { unfold p, n. rewrite <- !rsum_scal, <- rsum_minus. apply rsum_ext. intros t Ht. replace (d - S m + S t)%nat with (d - m + t)%nat by lia. cbn [cpow]. destruct (cpow a b t). cbn. ring. }
  assert (rsum m (fun t => c (d - S m + S t)%nat * snd (cpow a b (S t))) = b * p + a * n) as ->.
  { unfold p, n. rewrite <- !rsum_scal, <- rsum_plus. apply rsum_ext. intros t Ht. replace (d - S m + S t)%nat with (d - m + t)%nat by lia. cbn [cpow]. destruct (cpow a b t). cbn. ring. }
  cbn [cpow]. destruct (cpow a b m) as [x' y']. cbn [fst snd]. split; ring.
Qed.
Lemma horner_end d c a b : eig_value d (companion d c) a b -> horner d c a b d = (0, 0).
Proof.
  intros H. destruct (eig_root_complex d c a b H) as [H1 H2]. rewrite (monic_sum d c (fun j => fst (cpow a b j))) in H1. rewrite (monic_sum d c (fun j => snd (cpow a b j))) in H2.
  destruct (horner_value d c a b d (le_n d)) as [E1 E2]. rewrite (surjective_pairing (horner d c a b d)). rewrite E1, E2. rewrite Nat.sub_diag. cbn [Nat.add]. f_equal; auto.
Qed.
(** The quotient by the root. *)
Definition quo_re d c a b j := fst (horner d c a b (d - 1 - j)).
Definition quo_im d c a b j := snd (horner d c a b (d - 1 - j)).
Lemma quotient_ok d c a b y : eig_value d (companion d c) a b -> (0 < d)%nat ->
  rsum d (fun j => quo_re d c a b j * y (S j)) - a * rsum d (fun j => quo_re d c a b j * y j) + b * rsum d (fun j => quo_im d c a b j * y j)
    = rsum (S d) (fun j => monic d c j * y j) /\
  rsum d (fun j => quo_im d c a b j * y (S j)) - a * rsum d (fun j => quo_im d c a b j * y j) - b * rsum d (fun j => quo_re d c a b j * y j) = 0.
Proof.
  intros He Hd. pose proof (horner_end d c a b He) as H0. rewrite (monic_sum d c y). clear He. destruct d as [|m]; [lia|]. clear Hd.
  set (f := quo_re (S m) c a b). set (g := quo_im (S m) c a b).
  assert (f m = 1 /\ g m = 0) as [Ef Eg] by (unfold f, g, quo_re, quo_im; replace (S m - 1 - m)%nat with 0%nat by lia; cbn; auto).
  assert (forall j, (j < m)%nat -> f j = c (S j) + (a * f (S j) - b * g (S j)) /\ g j = b * f (S j) + a * g (S j)) as Hs.
  { intros j Hj. unfold f, g, quo_re, quo_im. replace (S m - 1 - j)%nat with (S (S m - 1 - S j)) by lia. cbn [horner].
    destruct (horner (S m) c a b (S m - 1 - S j)) as [x z]. cbn [fst snd]. replace (S m - S (S m - 1 - S j))%nat with (S j) by lia. split; ring. }
  assert (c 0%nat + (a * f 0%nat - b * g 0%nat) = 0 /\ b * f 0%nat + a * g 0%nat = 0) as [Z1 Z2].
  { unfold f, g, quo_re, quo_im. replace (S m - 1 - 0)%nat with m by lia. cbn [horner] in H0. destruct (horner (S m) c a b m) as [x z]. cbn [fst snd].
    replace (S m - S m)%nat with 0%nat in H0 by lia. injection H0 as -> ->. auto. }
  rewrite (rsum_first m (fun j => f j * y j)), (rsum_first m (fun j => g j * y j)), (rsum_first m (fun j => c j * y j)). cbn [rsum]. rewrite Ef, Eg.
  set (F1 := rsum m (fun j => f j * y (S j))). set (G1 := rsum m (fun j => g j * y (S j))).
  set (F2 := rsum m (fun j => f (S j) * y (S j))). set (G2 := rsum m (fun j => g (S j) * y (S j))).
  assert (F1 = rsum m (fun j => c (S j) * y (S j)) + (a * F2 - b * G2)) as ->.
  { unfold F1, F2, G2. rewrite <- !rsum_scal, <- rsum_minus, <- rsum_plus. apply rsum_ext. intros j Hj. destruct (Hs j Hj) as [-> _]. ring. }
  assert (G1 = b * F2 + a * G2) as ->.
  { unfold G1, F2, G2. rewrite <- !rsum_scal, <- rsum_plus. apply rsum_ext. intros j Hj. destruct (Hs j Hj) as [_ ->]. ring. }
  split.
  - transitivity (rsum m (fun j => c (S j) * y (S j)) + y (S m) - (a * f 0%nat - b * g 0%nat) * y 0%nat); [ring|].
    replace (a * f 0%nat - b * g 0%nat) with (- c 0%nat) by lra. ring.
  - transitivity (- (b * f 0%nat + a * g 0%nat) * y 0%nat); [ring|]. rewrite Z2. ring.
Qed.

Section Sound.
  Variable k d : nat.
  Hypothesis Hk : (k <= 2)%nat.
  Let L := laws_cd k.
  Let HA := assoc_cd k Hk.
  Notation A := (cd k).
  Notation co := (coords_of k).
  Definition dot (z w : nat -> el A) : R := rsum d (fun r => sre (smul (sconj (z r)) (w r))).

  Lemma dot_sym z w : dot z w = dot w z.
  Proof.
    unfold dot. apply rsum_ext. intros r _. rewrite <- (re_conj A co L (smul (sconj (z r)) (w r))), (conj_mul A co L), (conj_conj A co L). auto.
  Qed.
  Lemma dot_lin z v w s t : dot z (fun r => sadd (sscal s (v r)) (sscal t (w r))) = s * dot z v + t * dot z w.
  Proof.
    unfold dot. rewrite <- !rsum_scal, <- rsum_plus. apply rsum_ext. intros r _.
    rewrite (mul_add_r A co L), !(mul_scal_r A co L), (re_add A co L), !(re_scal A co L). auto.
  Qed.
  Lemma dot_ext z w w' : (forall r, (r < d)%nat -> w r = w' r) -> dot z w = dot z w'.
  Proof. intros H. unfold dot. apply rsum_ext. intros r Hr. rewrite H by auto. auto. Qed.
  Lemma dot_herm (X : amat A) z w : hermitian_matrix d X ->
    dot w (fun r => ssum d (fun c => smul (X r c) (z c))) = dot z (fun r => ssum d (fun c => smul (X r c) (w c))).
  Proof.
    intros HX. unfold dot.
    rewrite (rsum_ext d _ (fun r => rsum d (fun c => sre (smul (sconj (w r)) (smul (X r c) (z c)))))).
    2:{ intros r _. rewrite (ssum_mul_l A co L), (ssum_re A co L). auto. }
    rewrite (rsum_ext d (fun r => sre (smul (sconj (z r)) (ssum d (fun c => smul (X r c) (w c))))) (fun r => rsum d (fun c => sre (smul (sconj (z r)) (smul (X r c) (w c)))))).
    2:{ intros r _. rewrite (ssum_mul_l A co L), (ssum_re A co L). auto. }
    rewrite rsum_swap. apply rsum_ext. intros c Hc. apply rsum_ext. intros r Hr.
    rewrite <- (re_conj A co L (smul (sconj (w r)) (smul (X r c) (z c)))), !(conj_mul A co L), (conj_conj A co L).
    assert (sconj (X r c) = X c r) as -> by apply (HX c r Hc Hr). rewrite HA. auto.
  Qed.
  Lemma dot_pos z : (exists r, (r < d)%nat /\ z r <> s0) -> 0 < dot z z.
  Proof.
    intros (r & Hr & Hz). unfold dot. apply Rlt_le_trans with (sre (smul (sconj (z r)) (z r))); [apply (re_pos A co L); auto|].
    apply (rsum_term d (fun r => sre (smul (sconj (z r)) (z r)))); auto. intros. apply (re_nonneg A co L).
  Qed.
  Lemma dot_nonneg z : 0 <= dot z z.
  Proof. unfold dot. apply rsum_nonneg. intros. apply (re_nonneg A co L). Qed.

  Lemma mmul_poly (X : amat A) m p r c : mmul d X (mpoly d m p X) r c = ssum m (fun j => sscal (p j) (mpower d X (S j) r c)).
  Proof.
    unfold mpoly, mmul at 1. erewrite ssum_ext by (intros; apply (ssum_mul_l A co L)). rewrite (ssum_swap A co L). apply ssum_ext. intros j Hj.
    change (mpower d X (S j) r c) with (ssum d (fun t => smul (X r t) (mpower d X j t c))). rewrite <- (ssum_scal A co L). apply ssum_ext. intros t Ht. apply (mul_scal_r A co L).
  Qed.

  Lemma co_comb i m (h : nat -> R) (P : nat -> el A) : co i (ssum m (fun j => sscal (h j) (P j))) = rsum m (fun j => h j * co i (P j)).
  Proof. rewrite (co_ssum A co L). apply rsum_ext. intros. apply (co_scal A co L). Qed.

  Lemma eigenvalues_sound Q c a : hermitian_matrix d (matrix_of k Q) -> annihilated d (matrix_of k Q) -> powers_independent d (matrix_of k Q) ->
    Eigenvalues (2 ^ k) d Q c a -> eigenvalue_of k d (matrix_of k Q) a.
  Proof.
    intros HX Ha Hi (HM & b & He). pose proof (residual_exact k d Hk Q c HM Ha) as H0. set (X := matrix_of k Q) in *.
    assert (0 < d)%nat as Hd by (destruct He as (u & v & (i & Hi0 & _) & _); lia).
    set (f := quo_re d c a b). set (g := quo_im d c a b). set (F := mpoly d d f X). set (G := mpoly d d g X).
    assert (forall r s, (r < d)%nat -> (s < d)%nat -> mmul d X F r s = sadd (sscal a (F r s)) (sscal (- b) (G r s)) /\
                                       mmul d X G r s = sadd (sscal b (F r s)) (sscal a (G r s))) as HFG.
    { intros r s Hr Hs. unfold F at 1, G at 2. rewrite !mmul_poly. unfold F, G, mpoly.
      split; apply (co_sep A co L); intros i;
        rewrite (co_add A co L), !(co_scal A co L), !co_comb;
        destruct (quotient_ok d c a b (fun j => co i (mpower d X j r s)) He Hd) as [Q1 Q2]; fold f in Q1, Q2; fold g in Q1, Q2; cbn beta in Q1, Q2.
      - specialize (H0 r s Hr Hs). unfold mpoly in H0. apply (f_equal (co i)) in H0. rewrite (co_ssum A co L), (co_0 A co L) in H0.
        rewrite (rsum_ext (S d) _ (fun t => monic d c t * co i (mpower d X t r s))) in H0 by (intros; apply (co_scal A co L)). lra.
      - lra. }
    assert (exists r s, (r < d)%nat /\ (s < d)%nat /\ F r s <> s0) as (r0 & s & Hr0 & Hs & HF).
    { destruct (Classical_Prop.classic (exists r s, (r < d)%nat /\ (s < d)%nat /\ F r s <> s0)) as [|Hn]; auto. exfalso.
      assert (f (d - 1)%nat = 0) as E.
      { apply (Hi f); [|lia]. intros r s Hr Hs. destruct (el_dec k (F r s) s0) as [E|E]; [exact E|]. exfalso. apply Hn. exists r, s. auto. }
      unfold f, quo_re in E. rewrite Nat.sub_diag in E. cbn in E. lra. }
    set (z := fun r => F r s). set (w := fun r => G r s).
    assert (forall r, (r < d)%nat -> ssum d (fun c => smul (X r c) (z c)) = sadd (sscal a (z r)) (sscal (- b) (w r))) as Hz by (intros r Hr; apply (HFG r s Hr Hs)).
    assert (forall r, (r < d)%nat -> ssum d (fun c => smul (X r c) (w c)) = sadd (sscal b (z r)) (sscal a (w r))) as Hw by (intros r Hr; apply (HFG r s Hr Hs)).
    assert (b = 0) as ->.
    { pose proof (dot_herm X z w HX) as E. rewrite (dot_ext w _ _ Hz), (dot_ext z _ _ Hw), !dot_lin in E. rewrite (dot_sym w z) in E.
      assert (0 < dot z z) by (apply dot_pos; exists r0; auto). pose proof (dot_nonneg w). nra. }
    exists z. split; [exists r0; auto|]. intros r Hr. rewrite Hz by auto. lin L.
  Qed.
End Sound.
