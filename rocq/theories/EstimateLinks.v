(** The symmetric, the compressed and the uncompressed recurrence. *)
From Coq Require Import List Arith Reals Lra Lia FunctionalExtensionality.
From Verif Require Import Base DenseModel RSum JordanModel LanczosModel EstimateModel Spec_Hyper Spec_Lanczos Spec_Estimate HyperFacts JordanProofs
  LanczosProofs LanczosLinks LanczosFacts LanczosReports RealFactor PadeProofs EstimateProofs.
Import ListNotations.
Open Scope R_scope.

Lemma act_real d (A : mat) z i : act (A := reals) d A z i = times d A z i.
Proof. apply mv_real. Qed.

Lemma rsum_witness n (f : nat -> R) : rsum n f <> 0 -> exists i, (i < n)%nat /\ f i <> 0.
Proof.
  induction n; intros H; [contradiction H; reflexivity|]. rewrite rsum_S in H. destruct (Req_dec (f n) 0) as [E|E].
  - destruct IHn as (i & Hi & Hf); [rewrite E, Rplus_0_r in H; auto|]. exists i. auto with arith.
  - exists n. auto.
Qed.

(** ** Single columns *)
Section Symmetric.
  Variables (d : nat) (A : mat).
  Hypothesis HA : hermitian_matrix (A := reals) d A.
  Notation add := (fun (v u : vec) (i : nat) => v i + u i).
  Notation scale := (fun (v : vec) (s : R) (i : nat) => v i * s).

  Lemma dot_add x y z : dot d x (add y z) = dot d x y + dot d x z.
  Proof. unfold dot. rewrite <- rsum_plus. apply rsum_ext. intros. ring. Qed.
  Lemma dot_scale x y s : dot d x (scale y s) = s * dot d x y.
  Proof. unfold dot. rewrite <- rsum_scal. apply rsum_ext. intros. ring. Qed.
  Lemma dot_sym x y : dot d x y = dot d y x.
  Proof. unfold dot. apply rsum_ext. intros. ring. Qed.
  Lemma times_sym x y : dot d x (times d A y) = dot d y (times d A x).
  Proof.
    unfold dot, times. rewrite (rsum_ext _ _ (fun i => rsum d (fun t => A i t * x i * y t))) by (intros; rewrite <- rsum_scal; apply rsum_ext; intros; ring).
    rewrite rsum_swap. apply rsum_ext. intros i Hi. rewrite <- rsum_scal. apply rsum_ext. intros t Ht.
    specialize (HA t i Ht Hi). cbn in HA. rewrite HA. ring.
  Qed.
  Lemma dot_pos x : 0 <= dot d x x.
  Proof. apply rsum_nonneg. intros. apply Rle_0_sqr. Qed.
  Lemma dot_zero x : dot d x x = 0 -> forall i, (i < d)%nat -> x i = 0.
  Proof.
    intros H i Hi. unfold dot in H. rewrite (rsum_split_at (S i)) in H by lia. rewrite rsum_S in H.
    assert (0 <= rsum i (fun i => x i * x i)) by (apply rsum_nonneg; intros; apply Rle_0_sqr).
    assert (0 <= rsum (d - S i) (fun k => x (S i + k)%nat * x (S i + k)%nat)) by (apply rsum_nonneg; intros; apply Rle_0_sqr).
    pose proof (Rle_0_sqr (x i)) as H2. unfold Rsqr in H2. apply Rsqr_0_uniq. unfold Rsqr. lra.
  Qed.
  Lemma dot_form x : dot d x x = form (A := reals) d (mid (A := reals)) x.
  Proof.
    rewrite rform_form. unfold dot, rform. apply rsum_ext. intros i Hi. rewrite (rsum_single d i); auto; unfold mid; cbn.
    - rewrite Nat.eqb_refl. ring.
    - intros k Hk Hn. destruct (Nat.eqb_spec i k); [congruence|ring].
  Qed.
  Lemma times_form x : dot d x (times d A x) = form (A := reals) d A x.
  Proof. rewrite rform_form. unfold dot, times, rform. apply rsum_ext. intros i Hi. rewrite <- rsum_scal. apply rsum_ext. intros. ring. Qed.

  Section Run.
    Variables (r : vec) (num : nat) (al be : list R).
    Hypothesis HL : SymmetricLanczos d A r num = Some (al, be).
    Lemma symmetric_length : length al = num.
    Proof. eapply (lanczos_length vec) with (P := fun _ => True) in HL; auto. intros. apply dot_pos. Qed.
    Lemma symmetric_short : (num <= d)%nat.
    Proof.
      rewrite <- symmetric_length.
      eapply (lanczos_short vec) with (P := fun _ => True) (d := d) (fl := fun x => x) (co := fun x => x) in HL; auto using dot_add, dot_scale, dot_sym, times_sym.
      intros. lra.
    Qed.
    Lemma symmetric_ritz lam : is_eigenvalue al be lam -> exists x, 0 < dot d x x /\ dot d x (times d A x) = lam * dot d x x.
    Proof.
      intros HE. eapply (ritz vec) with (P := fun _ => True) (lam := lam) in HL; auto using dot_add, dot_scale, dot_sym, times_sym.
      - destruct HL as (x & _ & H1 & H2 & _). eauto.
      - intros. lra.
    Qed.
    Lemma symmetric_exact lam : num = d -> (is_eigenvalue al be lam <-> eigenvalue_of d A lam).
    Proof.
      intros Hn. pose proof symmetric_length as Hl.
      assert (is_eigenvalue al be lam <-> exists x, True /\ 0 < dot d x x /\ forall y, True -> dot d y (times d A x) = lam * dot d y x) as ->.
      { eapply (full_spectrum vec) with (P := fun _ => True) (d := d) (fl := fun x => x) (co := fun x => x); eauto using dot_add, dot_scale, dot_sym, times_sym, dot_pos.
        - intros. apply dot_add.
        - intros. apply dot_scale.
        - intros. lra.
        - congruence. }
      split.
      - intros (x & _ & Hp & HE). exists x. split.
        + destruct (rsum_witness d (fun i => x i * x i)) as (i & Hi & Hx); [apply Rgt_not_eq; exact Hp|]. exists i. split; auto.
          intros H0. apply Hx. rewrite H0. ring.
        + intros i Hi. rewrite act_real. set (w := fun i => times d A x i - lam * x i). assert (dot d w w = 0) as H0.
          { transitivity (dot d w (times d A x) - lam * dot d w x).
            - unfold dot. rewrite <- rsum_scal, <- rsum_minus. apply rsum_ext. intros. unfold w. ring.
            - rewrite HE by auto. ring. }
          pose proof (dot_zero w H0 i Hi) as Hw. unfold w in Hw. lra.
      - intros (z & (i & Hi & Hz) & HE). exists z. split; [auto|]. split.
        + destruct (dot_pos z) as [|H]; auto. exfalso. apply Hz. apply dot_zero; auto.
        + intros y _. unfold dot. rewrite <- rsum_scal. apply rsum_ext. intros k Hk. rewrite <- act_real, HE by auto. ring.
    Qed.
  End Run.
End Symmetric.
