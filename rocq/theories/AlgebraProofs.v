(** The model of the helpers of the matrix algebras against matrices over an algebra. *)
From Coq Require Import List Arith Reals Lra Lia Bool.
From Verif Require Import Base DenseModel RSum Spec_Hyper HyperFacts JordanModel JordanProofs AlgebraModel GramSchmidt Spec_Algebra.
Import ListNotations.
Open Scope R_scope.

Lemma el_dec k : forall x y : el (cd k), {x = y} + {x <> y}.
Proof.
  induction k as [|k IH]; intros x y.
  - apply Req_EM_T.
  - destruct x as [a b], y as [c d]. destruct (IH a c) as [->|H]; [destruct (IH b d) as [->|H]|]; [left; auto| |]; right; congruence.
Qed.

(** ** Orthogonalize *)
Lemma of_column_update k rows i Q j r c : (k <= 2)%nat ->
  matrix_of k (orthogonalize_column (2 ^ k) rows i Q j) r c =
  let M := matrix_of k Q in
  if (c =? j)%nat then sadd (M r j) (smul (M r i) (sscal (-1) (cdot (cd k) rows (fun r => M r i) (fun r => M r j)))) else M r c.
Proof.
  intros Hk. pose proof (laws_cd k) as L. cbv zeta. unfold orthogonalize_column.
  destruct (Nat.eqb_spec c j) as [->|Hn].
  - transitivity (matrix_of k (Add (column Q j) (Multiply (2 ^ k) 1 (column Q i) (ScalarMultiply (Multiply (2 ^ k) rows (ConjugateTranspose (column Q i)) (column Q j)) (-1)))) r 0%nat).
    { unfold matrix_of. apply read_ext. intros l Hl. unfold set_column. rewrite Nat.eqb_refl. auto. }
    rewrite of_add, !of_multiply, of_scal, of_multiply, of_conj by lia. unfold madd, mmul at 1. cbn [ssum]. rewrite (add_0_l _ _ L).
    unfold mscal, mmul, mconj, cdot, matrix_of, column. auto.
  - unfold matrix_of. apply read_ext. intros l Hl. unfold set_column. destruct (Nat.eqb_spec c j); [contradiction|auto].
Qed.

Lemma of_columns_update k rows i Q : (k <= 2)%nat -> forall m s, (i < s)%nat -> forall r c,
  matrix_of k (fold_left (orthogonalize_column (2 ^ k) rows i) (seq s m) Q) r c =
  let M := matrix_of k Q in
  if ((s <=? c) && (c <? s + m))%nat%bool
  then sadd (M r c) (smul (M r i) (sscal (-1) (cdot (cd k) rows (fun r => M r i) (fun r => M r c)))) else M r c.
Proof.
  intros Hk m. revert Q. induction m as [|m IH]; intros Q s Hs r c; cbn [seq fold_left].
  - cbv zeta. destruct (Nat.leb_spec s c), (Nat.ltb_spec c (s + 0)); try lia; auto.
  - rewrite IH by lia. cbv zeta.
    assert (forall r, matrix_of k (orthogonalize_column (2 ^ k) rows i Q s) r i = matrix_of k Q r i) as Ei.
    { intros r0. rewrite of_column_update by auto. cbv zeta. destruct (Nat.eqb_spec i s); [lia|auto]. }
    destruct (Nat.eq_dec c s) as [->|Hc].
    + destruct (Nat.leb_spec (S s) s); [lia|]. cbn [andb]. rewrite of_column_update by auto. cbv zeta. rewrite Nat.eqb_refl.
      destruct (Nat.leb_spec s s); [|lia]. destruct (Nat.ltb_spec s (s + S m)); [|lia]. auto.
    + assert (forall r, matrix_of k (orthogonalize_column (2 ^ k) rows i Q s) r c = matrix_of k Q r c) as Ec.
      { intros r0. rewrite of_column_update by auto. cbv zeta. destruct (Nat.eqb_spec c s); [lia|auto]. }
      rewrite Ec, Ei. unfold cdot.
      rewrite (ssum_ext (cd k) rows (fun r0 => smul (sconj (matrix_of k (orthogonalize_column (2 ^ k) rows i Q s) r0 i)) (matrix_of k (orthogonalize_column (2 ^ k) rows i Q s) r0 c))
                 (fun r0 => smul (sconj (matrix_of k Q r0 i)) (matrix_of k Q r0 c))) by (intros; rewrite Ei, Ec; auto).
      destruct (Nat.leb_spec (S s) c), (Nat.leb_spec s c), (Nat.ltb_spec c (S s + m)), (Nat.ltb_spec c (s + S m)); try lia; auto.
Qed.

Lemma column_norm k rows Q i :
  TraceInnerProduct (2 ^ k) rows 1 (column Q i) (column Q i) = sre (cdot (cd k) rows (fun r => matrix_of k Q r i) (fun r => matrix_of k Q r i)).
Proof.
  rewrite of_trace. unfold minner, cdot. rewrite (ssum_re (cd k) (coords_of k) (laws_cd k)). apply rsum_ext. intros r Hr. cbn [rsum]. rewrite Rplus_0_l. auto.
Qed.

Lemma cdot_nonneg k rows u : 0 <= sre (cdot (cd k) rows u u).
Proof.
  unfold cdot. rewrite (ssum_re (cd k) (coords_of k) (laws_cd k)). apply rsum_nonneg. intros. apply (re_nonneg _ _ (laws_cd k)).
Qed.

Lemma of_step k rows cols Q i Q' : (k <= 2)%nat -> (i < cols)%nat -> orthogonalize_step (2 ^ k) rows cols Q i = Some Q' ->
  exists nu, 0 < nu /\ nu * nu = sre (cdot (cd k) rows (fun r => matrix_of k Q r i) (fun r => matrix_of k Q r i)) /\
    forall r c, matrix_of k Q' r c = gs_step (cd k) rows cols i nu (matrix_of k Q) r c.
Proof.
  intros Hk Hi E. unfold orthogonalize_step in E. rewrite column_norm in E. set (s := sre _) in E. cbv zeta in E.
  assert (0 <= s) as Hs by apply cdot_nonneg. destruct (Req_EM_T (sqrt s) 0) as [|Hn]; [discriminate|].
  set (nu := sqrt s) in *. assert (nu * nu = s) as Enu by (apply R_sqrt.sqrt_def; auto).
  assert (0 < nu) as Hnu by (destruct (R_sqrt.sqrt_pos s) as [H|H]; [exact H|exfalso; apply Hn; auto]).
  exists nu. split; auto. split; auto. set (Q1 := set_column Q i (ScalarMultiply (column Q i) (1 / nu))) in E.
  assert (E' : fold_left (orthogonalize_column (2 ^ k) rows i) (seq (S i) (cols - S i)) Q1 = Q') by congruence. clear E. intros r c. rewrite <- E'.
  rewrite of_columns_update by (auto; lia). cbv zeta.
  assert (forall r, matrix_of k Q1 r i = sscal (/ nu) (matrix_of k Q r i)) as Ei.
  { intros r0. unfold matrix_of. rewrite <- read_scal. apply read_ext. intros l Hl. unfold Q1, set_column, ScalarMultiply, column. rewrite Nat.eqb_refl. field. lra. }
  assert (forall r c, c <> i -> matrix_of k Q1 r c = matrix_of k Q r c) as En.
  { intros r0 c0 Hc. unfold matrix_of. apply read_ext. intros l Hl. unfold Q1, set_column. destruct (Nat.eqb_spec c0 i); [contradiction|auto]. }
  unfold gs_step. destruct (Nat.eqb_spec c i) as [->|Hc].
  - destruct (Nat.leb_spec (S i) i); [lia|]. cbn [andb]. apply Ei.
  - rewrite En by auto. rewrite Ei. unfold cdot.
    rewrite (ssum_ext (cd k) rows (fun r0 => smul (sconj (matrix_of k Q1 r0 i)) (matrix_of k Q1 r0 c))
               (fun r0 => smul (sconj (sscal (/ nu) (matrix_of k Q r0 i))) (matrix_of k Q r0 c))) by (intros; rewrite Ei, En by auto; auto).
    destruct (Nat.leb_spec (S i) c), (Nat.ltb_spec i c), (Nat.ltb_spec c (S i + (cols - S i))), (Nat.ltb_spec c cols); try lia; auto.
Qed.

Lemma gs_ext k rows cols Q0 i C C' : (forall r c, C r c = C' r c) -> gs (cd k) rows cols Q0 i C -> gs (cd k) rows cols Q0 i C'.
Proof.
  intros H [HO (R & R1 & R2) (X & X1 & X2)]. constructor.
  - intros a b Ha Hb. rewrite <- (HO a b Ha Hb). apply (cdot_ext (cd k)); intros; auto.
  - exists R. split; auto. intros c Hc r Hr. rewrite (R1 c Hc r Hr). apply (ssum_ext (cd k)). intros. rewrite H. auto.
  - exists X. split; auto. intros c Hc r Hr. rewrite <- H. auto.
Qed.

Lemma orthogonalize_some k rows cols Q Q' : (k <= 2)%nat ->
  for_opt (orthogonalize_step (2 ^ k) rows cols) (seq 0 cols) Q = Some Q' -> gs (cd k) rows cols (matrix_of k Q) cols (matrix_of k Q').
Proof.
  intros Hk E. pose proof (laws_cd k) as L. pose proof (assoc_cd k Hk) as HA.
  apply (for_opt_inv (fun i C => gs (cd k) rows cols (matrix_of k Q) i (matrix_of k C)) _ _ _ _ E).
  - apply (gs_init (cd k) (coords_of k) L).
  - intros i C C' Hi HC E1. destruct (of_step k rows cols C i C' Hk Hi E1) as (nu & Hnu & Enu & EC).
    apply (gs_ext k rows cols _ _ (gs_step (cd k) rows cols i nu (matrix_of k C))); [intros; symmetry; apply EC|].
    apply (gs_step_ok (cd k) (coords_of k) L HA (self_conjugate k)); auto.
Qed.

Lemma for_opt_none {St} (J : nat -> St -> Prop) (f : St -> nat -> option St) n s :
  for_opt f (seq 0 n) s = None -> J 0%nat s -> (forall i s s', (i < n)%nat -> J i s -> f s i = Some s' -> J (S i) s') ->
  exists i s, (i < n)%nat /\ J i s /\ f s i = None.
Proof.
  intros E H0 HS.
  assert (forall m a s, (a + m = n)%nat -> for_opt f (seq a m) s = None -> J a s -> exists i s, (i < n)%nat /\ J i s /\ f s i = None) as G; [|apply (G n 0%nat s); auto].
  induction m as [|m IH]; intros a s1 Ha E1 H1; cbn in E1; [discriminate|].
  destruct (f s1 a) as [s2|] eqn:E2.
  - apply (IH (S a) s2); auto; [lia|]. apply (HS a s1); auto. lia.
  - exists a, s1. split; [lia|auto].
Qed.

Lemma orthogonalize_none k rows cols Q : (k <= 2)%nat ->
  for_opt (orthogonalize_step (2 ^ k) rows cols) (seq 0 cols) Q = None -> ~ independent (cd k) rows cols (matrix_of k Q).
Proof.
  intros Hk E. pose proof (laws_cd k) as L. pose proof (assoc_cd k Hk) as HA.
  destruct (for_opt_none (fun i C => gs (cd k) rows cols (matrix_of k Q) i (matrix_of k C)) _ _ _ E) as (i & C & Hi & HC & E1).
  - apply (gs_init (cd k) (coords_of k) L).
  - intros i C C' Hi HC E1. destruct (of_step k rows cols C i C' Hk Hi E1) as (nu & Hnu & Enu & EC).
    apply (gs_ext k rows cols _ _ (gs_step (cd k) rows cols i nu (matrix_of k C))); [intros; symmetry; apply EC|].
    apply (gs_step_ok (cd k) (coords_of k) L HA (self_conjugate k)); auto.
  - apply (gs_dependent (cd k) (coords_of k) L rows cols (matrix_of k Q) i (matrix_of k C) Hi HC).
    intros r Hr. unfold orthogonalize_step in E1. rewrite column_norm in E1. cbv zeta in E1.
    destruct (Req_EM_T _ 0) as [E0|]; [|discriminate]. destruct (el_dec k (matrix_of k C r i) s0) as [|Hn]; auto. exfalso.
    pose proof (cdot_pos (cd k) (coords_of k) L rows (fun r => matrix_of k C r i) (ex_intro _ r (conj Hr Hn))) as Hp.
    apply sqrt_eq_0 in E0; lra.
Qed.

Lemma orthogonalize_ok k rows cols Q : (k <= 2)%nat ->
  (independent_columns rows cols (matrix_of k Q) <-> exists Q', Orthogonalize (2 ^ k) rows cols Q = Ok (Some Q')) /\
  forall Q', Orthogonalize (2 ^ k) rows cols Q = Ok (Some Q') ->
    unitary_columns rows cols (matrix_of k Q') /\ triangular_factor rows cols (matrix_of k Q) (matrix_of k Q').
Proof.
  intros Hk. pose proof (laws_cd k) as L. pose proof (assoc_cd k Hk) as HA. unfold Orthogonalize.
  assert ((8 <=? 2 ^ k)%nat = false) as -> by (destruct k as [|[|[|]]]; [reflexivity|reflexivity|reflexivity|lia]).
  split; [split|].
  - intros Hi. destruct (for_opt (orthogonalize_step (2 ^ k) rows cols) (seq 0 cols) Q) as [Q'|] eqn:E; [exists Q'; auto|]. exfalso. apply (orthogonalize_none k rows cols Q Hk E). exact Hi.
  - intros (Q' & E). injection E as E. apply (orthogonalize_some k rows cols Q Q' Hk) in E. apply (gs_independent (cd k) (coords_of k) L HA rows cols _ _ E).
  - intros Q' E. injection E as E. apply (orthogonalize_some k rows cols Q Q' Hk) in E. destruct E as [HO (R & R1 & R2 & _) _]. split.
    + intros a b Ha Hb. apply (HO a b Ha Hb).
    + exists R. split; auto.
Qed.

(** ** Comparisons *)
Lemma frobenius_zero d A : (forall r c, (r < d)%nat -> (c < d)%nat -> A r c = 0) -> frobenius d A = 0.
Proof.
  intros H. unfold frobenius. rewrite rsum_zero; [apply sqrt_0|]. intros c Hc. apply rsum_zero. intros r Hr. rewrite H by auto. ring.
Qed.
Lemma rsum_term n f k : (k < n)%nat -> (forall i, (i < n)%nat -> 0 <= f i) -> f k <= rsum n f.
Proof.
  intros Hk H. assert (rsum n (fun t => if (t =? k)%nat then f t else 0) = f k) as <-.
  - rewrite (rsum_single n k); auto; [rewrite Nat.eqb_refl; auto|]. intros t Ht Hn. destruct (Nat.eqb_spec t k); [contradiction|auto].
  - apply rsum_le. intros t Ht. destruct (Nat.eqb_spec t k); [lra|auto].
Qed.
Lemma frobenius_entry d A r c : (r < d)%nat -> (c < d)%nat -> Rabs (A r c) <= frobenius d A.
Proof.
  intros Hr Hc. unfold frobenius. rewrite <- (R_sqrt.sqrt_square (Rabs (A r c))) by apply Rabs_pos. apply sqrt_le_1_alt.
  apply Rle_trans with (rsum d (fun r => A r c * A r c)).
  - pose proof (Rsqr_abs (A r c)) as E; unfold Rsqr in E; rewrite <- E. apply (rsum_term d (fun r => A r c * A r c)); auto. intros. apply Rle_0_sqr.
  - apply (rsum_term d (fun c => rsum d (fun r => A r c * A r c))); auto. intros. apply rsum_nonneg. intros. apply Rle_0_sqr.
Qed.
Lemma pow10_pos m : 0 < / 10 ^ m.
Proof. apply Rinv_0_lt_compat. apply pow_lt. lra. Qed.

Lemma is_equal_ok n d x y : 
  ((forall i r c, (i < n)%nat -> (r < d)%nat -> (c < d)%nat -> x i r c = y i r c) -> IsEqual n d x y = true) /\
  (IsEqual n d x y = true -> forall i r c, (i < n)%nat -> (r < d)%nat -> (c < d)%nat -> Rabs (x i r c - y i r c) <= / 10 ^ 8).
Proof.
  unfold IsEqual. split.
  - intros H. apply forallb_forall. intros i Hi. apply in_seq in Hi. rewrite frobenius_zero by (intros; rewrite H by (auto; lia); ring).
    pose proof (pow10_pos 8). destruct (Rlt_dec _ 0); [lra|auto].
  - intros H i r c Hi Hr Hc. rewrite forallb_forall in H. specialize (H i). assert (In i (seq 0 n)) as Hin by (apply in_seq; lia). specialize (H Hin).
    destruct (Rlt_dec _ _) as [|Hn]; [discriminate|]. pose proof (frobenius_entry d (fun r c => x i r c - y i r c) r c Hr Hc) as HF. cbn beta in HF. lra.
Qed.

Lemma is_hermitian_ok n d w : (1 <= n)%nat ->
  ((forall i r c, (i < n)%nat -> (r < d)%nat -> (c < d)%nat -> ConjugateTranspose w i r c = w i r c) -> IsHermitian n d w = true) /\
  (IsHermitian n d w = true -> forall i r c, (i < n)%nat -> (r < d)%nat -> (c < d)%nat -> Rabs (w i r c - ConjugateTranspose w i r c) <= / 10 ^ 12).
Proof.
  intros Hn. unfold IsHermitian. pose proof (pow10_pos 12) as Hp. split.
  - intros H. rewrite frobenius_zero.
    2:{ intros r c Hr Hc. specialize (H 0%nat r c ltac:(lia) Hr Hc). unfold ConjugateTranspose in H. cbn [Nat.eqb] in H. lra. }
    destruct (Rlt_dec _ 0); [lra|]. apply forallb_forall. intros i Hi. apply in_seq in Hi. rewrite frobenius_zero.
    2:{ intros r c Hr Hc. specialize (H i r c ltac:(lia) Hr Hc). unfold ConjugateTranspose in H. destruct (Nat.eqb_spec i 0); [lia|lra]. }
    destruct (Rlt_dec _ 0); [lra|auto].
  - destruct (Rlt_dec _ _) as [|H0]; [discriminate|]. intros H i r c Hi Hr Hc. unfold ConjugateTranspose. destruct (Nat.eqb_spec i 0) as [->|Hne].
    + pose proof (frobenius_entry d (fun r c => w 0%nat r c - w 0%nat c r) r c Hr Hc) as HF. cbn beta in HF. lra.
    + rewrite forallb_forall in H. specialize (H i). assert (In i (seq 1 (n - 1))) as Hin by (apply in_seq; lia). specialize (H Hin).
      destruct (Rlt_dec _ _) as [|H1]; [discriminate|]. pose proof (frobenius_entry d (fun r c => w i r c + w i c r) r c Hr Hc) as HF. cbn beta in HF.
      replace (w i r c - - w i c r) with (w i r c + w i c r) by ring. lra.
Qed.
