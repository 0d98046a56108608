(** The estimate for Hermitian matrices as an instance of the abstract recurrence. *)
From Coq Require Import List Arith Reals Lra Lia FunctionalExtensionality.
From Verif Require Import Base DenseModel RSum JordanModel LanczosModel SymmetricModel Spec_Hyper Spec_Lanczos Spec_Symmetric HyperFacts JordanProofs LanczosProofs LanczosLinks.
Import ListNotations.
Open Scope R_scope.

Section Symmetric.
  Variables (k d : nat) (X : hyper).
  Hypothesis Hk : (k <= 2)%nat.
  Notation nn := (2 ^ k)%nat.
  Notation C := (cd k).
  Notation L := (laws_cd k).
  Notation col := (column k).

  Definition hdot (v u : hyper) : R := Multiply nn d (ConjugateTranspose v) u 0%nat 0%nat 0%nat.
  Lemma hdot_ip v u : hdot v u = ip C d (col v) (col u).
  Proof. exact (hinner_ip k d Hk (v, v) (u, u)). Qed.
  Lemma hdot_square v : hdot v v = squaredNorm nn d 1 v.
  Proof.
    rewrite hdot_ip. unfold squaredNorm. rewrite of_trace. unfold minner, ip. rewrite (ssum_re C _ L). apply rsum_ext. intros r Hr. cbn [rsum]. unfold column. lra.
  Qed.
  Lemma square_pos v : 0 <= squaredNorm nn d 1 v.
  Proof. unfold squaredNorm, TraceInnerProduct. rewrite for_up_sum, Rplus_0_l. apply rsum_nonneg. intros. apply rsum_nonneg. intros. apply rsum_nonneg. intros. apply Rle_0_sqr. Qed.

  Lemma loop_link todo : forall v w, symmetric_loop nn d X todo v w = lanczos_loop hyper Add ScalarMultiply hdot (Multiply nn d X) 0 todo v w.
  Proof.
    induction todo as [|todo IH]; intros v w; [reflexivity|]. cbn [symmetric_loop lanczos_loop]. rewrite hdot_square. pose proof (square_pos w) as Hp.
    destruct (Req_EM_T (squaredNorm nn d 1 w) 0) as [E0|E0]; destruct (Rlt_dec (squaredNorm nn d 1 w) 0); try lra; destruct (Rle_dec (squaredNorm nn d 1 w) 0); try lra; [reflexivity|].
    cbv zeta. rewrite IH. reflexivity.
  Qed.
  Lemma run_link r num : HSymmetricEigenvalues nn d X r num = lanczos hyper Add ScalarMultiply hdot (Multiply nn d X) (fun _ => 0) num r.
  Proof.
    unfold HSymmetricEigenvalues, lanczos. destruct num as [|todo]; [reflexivity|]. rewrite hdot_square. pose proof (square_pos r) as Hp.
    destruct (Req_EM_T (squaredNorm nn d 1 r) 0) as [E0|E0]; destruct (Rle_dec (squaredNorm nn d 1 r) 0); try lra; [reflexivity|].
    cbv zeta. rewrite loop_link. reflexivity.
  Qed.

  Lemma col_add x y : col (Add x y) = fun r => sadd (col x r) (col y r).
  Proof. unfold column. rewrite of_add. reflexivity. Qed.
  Lemma col_scale x s : col (ScalarMultiply x s) = fun r => sscal s (col x r).
  Proof. unfold column. rewrite of_scal. reflexivity. Qed.
  Lemma col_mul x : col (Multiply nn d X x) = mv C d (matrix_of k X) (col x).
  Proof. apply column_multiply. auto. Qed.

  Lemma mv_mid (z : nat -> el C) r : (r < d)%nat -> mv C d (mid (A := C)) z r = z r.
  Proof.
    intros Hr. unfold mv, mid. rewrite (ssum_single C _ L d r); [|exact Hr|].
    - rewrite Nat.eqb_refl. apply (mul_1_l C _ L).
    - intros t Ht Hn. destruct (Nat.eqb_spec r t); [congruence|]. apply (mul_0_l C _ L).
  Qed.
  Lemma form_mid (z : nat -> el C) : form d (mid (A := C)) z = ip C d z z.
  Proof. rewrite (form_ip C _ L). apply ip_ext; auto. intros. apply mv_mid. auto. Qed.

  Lemma hermitian_ritz r num al be lam : hermitian_matrix d (matrix_of k X) -> HSymmetricEigenvalues nn d X r num = Some (al, be) -> is_eigenvalue al be lam ->
    exists z, 0 < form d (mid (A := C)) z /\ form d (matrix_of k X) z = lam * form d (mid (A := C)) z.
  Proof.
    intros HX HL HE. rewrite run_link in HL.
    eapply (ritz hyper) with (P := fun _ => True) (lam := lam) in HL; auto.
    - destruct HL as (x & _ & H1 & H2 & _). exists (col x). rewrite form_mid. rewrite !hdot_ip in *. split; [auto|].
      rewrite (form_ip C _ L), <- col_mul. exact H2.
    - intros x y z _ _ _. rewrite !hdot_ip, col_add. apply (ip_plus C _ L).
    - intros x y s _ _. rewrite !hdot_ip, col_scale. apply (ip_times C _ L).
    - intros x y _ _. rewrite !hdot_ip. apply (ip_comm C _ L).
    - intros x y _ _. rewrite !hdot_ip, !col_mul. rewrite (herm_adj C _ L (assoc_cd k Hk) d) by auto. apply (ip_comm C _ L).
    - intros. lra.
  Qed.

  Lemma eigen_stops r num lam : eigenvector d (matrix_of k X) lam (col r) -> (2 <= num)%nat -> HSymmetricEigenvalues nn d X r num = None.
  Proof.
    intros [Hr HE] Hn. rewrite run_link. unfold lanczos. destruct num as [|[|m]]; [lia|lia|].
    destruct (Rle_dec (hdot r r) 0) as [|Hp]; [reflexivity|]. cbv zeta.
    assert (0 < sqrt (hdot r r)) as Hs by (apply sqrt_lt_R0; lra). assert (sqrt (hdot r r) * sqrt (hdot r r) = hdot r r) as Hss by (apply R_sqrt.sqrt_def; lra).
    set (s := sqrt (hdot r r)) in *. set (V := ScalarMultiply r (1 / s)).
    assert (forall u, hdot u (Multiply nn d X V) = lam * hdot u V) as Ea.
    { intros u. rewrite !hdot_ip, col_mul. rewrite <- (ip_times C _ L). apply ip_ext; auto. intros i Hi. unfold V. rewrite col_scale, (mv_times C _ L). 
      change (mv C d (matrix_of k X) (col r) i) with (act d (matrix_of k X) (col r) i). rewrite HE by auto.
      apply (co_sep C _ L). intros j. rewrite !(co_scal C _ L). ring. }
    assert (hdot V V = 1) as H1.
    { unfold V. rewrite hdot_ip, col_scale, (ip_times C _ L), (ip_comm C _ L), (ip_times C _ L), <- hdot_ip, <- Hss. field. lra. }
    rewrite Ea, H1, Rmult_1_r. cbn [lanczos_loop]. set (U := Add (Multiply nn d X V) (ScalarMultiply V (- lam))).
    assert (forall u, hdot u U = 0) as E0.
    { intros u. unfold U. rewrite hdot_ip, col_add, (ip_plus C _ L), col_scale, (ip_times C _ L), <- !hdot_ip, Ea. ring. }
    rewrite E0. destruct (Rlt_dec 0 0); [lra|]. destruct (Rle_dec 0 0); [reflexivity|lra].
  Qed.

  Lemma loop_count todo : forall v w als bes, symmetric_loop nn d X todo v w = Some (als, bes) -> length als = todo /\ length bes = todo.
  Proof.
    induction todo as [|todo IH]; intros v w als bes E; cbn [symmetric_loop] in E; [injection E as <- <-; auto|].
    destruct (Req_EM_T (squaredNorm nn d 1 w) 0); [discriminate|]. cbv zeta in E.
    match type of E with match ?x with _ => _ end = _ => destruct x as [[a b]|] eqn:E1; [|discriminate] end. injection E as <- <-.
    apply IH in E1 as [H1 H2]. cbn [length]. auto.
  Qed.
  Lemma run_count r num al be : HSymmetricEigenvalues nn d X r num = Some (al, be) -> length al = num /\ S (length be) = num.
  Proof.
    unfold HSymmetricEigenvalues. destruct num as [|todo]; [discriminate|]. intros E. destruct (Req_EM_T (squaredNorm nn d 1 r) 0); [discriminate|]. cbv zeta in E.
    match type of E with match ?x with _ => _ end = _ => destruct x as [[a b]|] eqn:E1; [|discriminate] end. injection E as <- <-.
    apply loop_count in E1 as [H1 H2]. cbn [length]. auto.
  Qed.
  Lemma one_step r : (exists i, (i < d)%nat /\ col r i <> s0) ->
    exists a, HSymmetricEigenvalues nn d X r 1 = Some ([a], []) /\ a * form d (mid (A := C)) (col r) = form d (matrix_of k X) (col r).
  Proof.
    intros Hr. assert (0 < hdot r r) as Hp by (rewrite hdot_ip; apply (ip_pos C _ L); auto). rewrite run_link. unfold lanczos.
    destruct (Rle_dec (hdot r r) 0); [lra|]. cbv zeta. cbn [lanczos_loop]. eexists. split; [reflexivity|].
    assert (0 < sqrt (hdot r r)) as Hs by (apply sqrt_lt_R0; lra). assert (sqrt (hdot r r) * sqrt (hdot r r) = hdot r r) as Hss by (apply R_sqrt.sqrt_def; lra).
    set (s := sqrt (hdot r r)) in *. rewrite form_mid, (form_ip C _ L), <- col_mul, <- !hdot_ip, <- Hss.
    rewrite hdot_ip, col_mul, !col_scale, (mv_times C _ L), (ip_times C _ L), (ip_comm C _ L), (ip_times C _ L), (ip_comm C _ L), <- col_mul, <- hdot_ip. field. lra.
  Qed.
  Lemma zero_stops r num : (forall i, (i < d)%nat -> col r i = s0) -> HSymmetricEigenvalues nn d X r num = None.
  Proof.
    intros Hr. rewrite run_link. unfold lanczos. destruct num; [reflexivity|]. assert (hdot r r = 0) as ->; [|destruct (Rle_dec 0 0); [reflexivity|lra]].
    rewrite hdot_ip. unfold ip. rewrite (ssum_0 C _ L); [rewrite (co_re C _ L); apply (co_0 C _ L)|]. intros i Hi. rewrite (Hr i Hi). apply (mul_0_r C _ L).
  Qed.
End Symmetric.
