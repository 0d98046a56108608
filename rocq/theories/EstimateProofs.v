(** The recurrence in a space of finite dimension: it cannot run longer than the
    dimension, and when it runs that long its tridiagonal matrix has the spectrum of
    the operator. *)
From Coq Require Import List Arith Reals Lra Lia FunctionalExtensionality.
From Verif Require Import Base DenseModel RSum LanczosModel LanczosProofs PadeProofs.
Import ListNotations.
Open Scope R_scope.

Section Finite.
  Variables (E : Type) (add : E -> E -> E) (scale : E -> R -> E) (ip : E -> E -> R) (op : E -> E) (P : E -> Prop).
  Hypothesis P_add : forall x y, P x -> P y -> P (add x y).
  Hypothesis P_scale : forall x s, P x -> P (scale x s).
  Hypothesis P_op : forall x, P x -> P (op x).
  Hypothesis ip_add : forall x y z, P x -> P y -> P z -> ip x (add y z) = ip x y + ip x z.
  Hypothesis ip_scale : forall x y s, P x -> P y -> ip x (scale y s) = s * ip x y.
  Hypothesis ip_sym : forall x y, P x -> P y -> ip x y = ip y x.
  Hypothesis op_sym : forall x y, P x -> P y -> ip x (op y) = ip y (op x).
  Hypothesis ip_pos : forall x, P x -> 0 <= ip x x.
  Variables (d : nat) (fl co : E -> vec).
  Hypothesis ip_def : forall x y, ip x y = rsum d (fun i => fl x i * co y i).
  Notation basis := (LanczosProofs.basis E ip op P).
  Notation combo := (LanczosProofs.combo E add scale).
  Notation upd := LanczosProofs.upd.
  Notation lanczos := (LanczosModel.lanczos E add scale ip op).

  Lemma orthonormal_small v m : (forall i k, (i <= m)%nat -> (k <= m)%nat -> ip (v i) (v k) = delta i k) -> (m < d)%nat.
  Proof.
    intros HO. destruct (Nat.lt_ge_cases m d) as [|Hm]; auto. exfalso.
    destruct (dependent d (fun i j => co (v j) i)) as (c & (q & Hq & Hc) & HC). apply Hc.
    transitivity (rsum (S d) (fun j => ip (v q) (v j) * c j)).
    - rewrite (rsum_single (S d) q) by (try lia; intros j Hj Hn; rewrite HO by lia; unfold delta; apply Nat.eqb_neq in Hn; rewrite Nat.eqb_sym, Hn; ring).
      rewrite HO by lia. unfold delta. rewrite Nat.eqb_refl. ring.
    - rewrite (rsum_ext _ _ (fun j => rsum d (fun i => fl (v q) i * (co (v j) i * c j)))).
      + rewrite rsum_swap. apply rsum_zero. intros i Hi. rewrite rsum_scal, HC by auto. ring.
      + intros j Hj. rewrite ip_def, <- rsum_scal_r. apply rsum_ext. intros. ring.
  Qed.

  (** An element of length zero is orthogonal to everything. *)
  Lemma null w y : P w -> P y -> ip w w = 0 -> ip y w = 0.
  Proof.
    intros Hw Hy H0. destruct (Req_dec (ip y w) 0) as [|Hn]; auto. exfalso.
    assert (forall s, 0 <= 2 * s * ip y w + ip y y) as H.
    { intros s. set (x := add (scale w s) y). assert (P x) as Hx by (unfold x; auto). pose proof (ip_pos x Hx) as H.
      assert (forall z, P z -> ip z x = s * ip z w + ip z y) as Ex by (intros; unfold x; rewrite ip_add, ip_scale by auto; auto).
      rewrite Ex in H by auto. rewrite (ip_sym x w), (ip_sym x y) in H by auto. rewrite !Ex in H by auto. rewrite H0, (ip_sym w y) in H by auto. lra. }
    specialize (H (- (ip y y + 1) / (2 * ip y w))). replace (2 * (- (ip y y + 1) / (2 * ip y w)) * ip y w) with (- (ip y y + 1)) in H by (field; auto). lra.
  Qed.

  Lemma extend v m w : (forall i, (i <= m)%nat -> P (v i)) -> (forall i k, (i <= m)%nat -> (k <= m)%nat -> ip (v i) (v k) = delta i k) ->
    P w -> (forall i, (i <= m)%nat -> ip (v i) w = 0) -> S m = d -> ip w w = 0.
  Proof.
    intros HP HO Hw H0 Hd. destruct (ip_pos w Hw) as [Hp|]; auto. exfalso.
    assert (exists s, 0 < s /\ s * s = ip w w) as (s & Hs & Hss) by (exists (sqrt (ip w w)); split; [apply sqrt_lt_R0; auto|apply R_sqrt.sqrt_def; lra]).
    set (V := scale w (1 / s)). assert (P V) as HV by (unfold V; auto).
    assert (forall i, (i <= m)%nat -> ip (v i) V = 0) as H0V by (intros; unfold V; rewrite ip_scale, H0 by auto; ring).
    assert (ip V V = 1) as H1. { unfold V at 2. rewrite ip_scale by auto. rewrite (ip_sym V w) by auto. unfold V. rewrite ip_scale by auto. rewrite <- Hss. field. lra. }
    assert (S m < d)%nat; [|lia]. apply (orthonormal_small (upd v (S m) V)). intros i k Hi Hk. unfold upd.
    destruct (Nat.eqb_spec i (S m)) as [->|Hi'], (Nat.eqb_spec k (S m)) as [->|Hk']; unfold delta.
    - rewrite Nat.eqb_refl. auto.
    - destruct (Nat.eqb_spec (S m) k); [lia|]. rewrite ip_sym by (auto; apply HP; lia). apply H0V. lia.
    - destruct (Nat.eqb_spec i (S m)); [lia|]. apply H0V. lia.
    - apply HO; lia.
  Qed.

  Lemma lanczos_short th num V al be : (forall x, P x -> 0 <= th (ip x x)) -> P V -> lanczos th num V = Some (al, be) -> (length al <= d)%nat.
  Proof.
    intros Hth HV HL. destruct (lanczos_basis E add scale ip op P P_add P_scale P_op ip_add ip_scale ip_sym op_sym _ _ _ _ _ Hth HV HL)
      as (v & a & b & U & HB & Hlen & _). rewrite Hlen. apply orthonormal_small with v. apply HB.
  Qed.

  Lemma basis_null v a b m U : basis v a b m U -> S m = d -> forall y, P y -> ip y U = 0.
  Proof. intros (HP & HU & HO & HR & _) Hd y Hy. apply null; auto. apply (extend v m); auto. Qed.

  Lemma basis_complete v a b m U x : basis v a b m U -> S m = d -> P x ->
    forall y, P y -> ip y x = ip y (combo (fun i => ip (v i) x) v m).
  Proof.
    intros HB Hd Hx y Hy. assert (forall i, (i <= m)%nat -> P (v i)) as HP by apply HB.
    assert (forall i k, (i <= m)%nat -> (k <= m)%nat -> ip (v i) (v k) = delta i k) as HO by apply HB.
    set (c := fun i => ip (v i) x). set (w := add x (scale (combo c v m) (-1))).
    assert (P (combo c v m)) as Hc by (apply combo_P; auto). assert (P w) as Hw by (unfold w; auto).
    assert (forall z, P z -> ip z w = ip z x - ip z (combo c v m)) as Ew by (intros; unfold w; rewrite ip_add, ip_scale by auto; ring).
    assert (ip w w = 0) as H0.
    { apply (extend v m); auto. intros i Hi. rewrite Ew by auto. rewrite (combo_ip E add scale ip P) by auto.
      rewrite (rsum_single (S m) i) by (try lia; intros k Hk Hn; rewrite HO by lia; unfold delta; apply Nat.eqb_neq in Hn; rewrite Nat.eqb_sym, Hn; ring).
      rewrite HO by lia. unfold delta. rewrite Nat.eqb_refl. unfold c. ring. }
    pose proof (null w y Hw Hy H0) as H. rewrite Ew in H by auto. lra.
  Qed.

  (** The eigenvalues of the tridiagonal matrix are those of the operator. *)
  Lemma full_spectrum th num V al be lam : (forall x, P x -> 0 <= th (ip x x)) -> P V -> lanczos th num V = Some (al, be) -> length al = d ->
    (is_eigenvalue al be lam <-> exists x, P x /\ 0 < ip x x /\ forall y, P y -> ip y (op x) = lam * ip y x).
  Proof.
    intros Hth HV HL Hd. destruct (lanczos_basis E add scale ip op P P_add P_scale P_op ip_add ip_scale ip_sym op_sym _ _ _ _ _ Hth HV HL)
      as (v & a & b & U & HB & Hlen & Ha & Hb & _). set (m := length be) in *. assert (S m = d) as Hm by lia.
    assert (forall i, (i <= m)%nat -> P (v i)) as HP by apply HB.
    assert (forall z i, (i < S m)%nat -> rsum (S m) (fun j => tridiagonal al be i j * z j) = rsum (S m) (fun j => tri a b i j * z j)) as ET.
    { intros z i Hi. apply rsum_ext. intros k Hk. f_equal. unfold tri, tridiagonal.
      destruct (Nat.eqb_spec i k); [rewrite Ha; auto; lia|]. destruct (Nat.eqb_spec k (S i)); [rewrite Hb; auto; lia|].
      destruct (Nat.eqb_spec i (S k)); auto. rewrite Hb; auto; lia. }
    unfold is_eigenvalue. cbv zeta. rewrite Hlen. split.
    - intros (z & (i0 & Hi0 & Hz0) & HE). assert (P (combo z v m)) as Hx by (apply combo_P; auto).
      exists (combo z v m). split; [auto|]. split.
      + erewrite (combo_norm E add scale ip op P); eauto.
        rewrite (rsum_split_at (S i0)) by lia. rewrite rsum_S.
        assert (0 <= rsum i0 (fun i => z i * z i)) by (apply rsum_nonneg; intros; apply Rle_0_sqr).
        assert (0 <= rsum (S m - S i0) (fun i => z (S i0 + i)%nat * z (S i0 + i)%nat)) by (apply rsum_nonneg; intros; apply Rle_0_sqr).
        assert (0 < z i0 * z i0) by (apply Rsqr_pos_lt; auto). lra.
      + intros y Hy. rewrite op_sym by auto. rewrite (ip_sym (combo z v m)) by auto. rewrite !(combo_ip E add scale ip P) by auto.
        rewrite (rsum_ext (S m) (fun i => z i * ip (op y) (v i)) (fun i => rsum (S m) (fun k => (tri a b k i * z i) * ip y (v k)))).
        * rewrite rsum_swap. rewrite <- rsum_scal. apply rsum_ext. intros k Hk. rewrite rsum_scal_r, <- ET, HE by auto. ring.
        * intros i Hi. rewrite (ip_sym (op y)) by (auto; apply HP; lia). rewrite (op_sym (v i)) by (auto; apply HP; lia).
          erewrite (tri_column E ip op P) by (eauto; lia). rewrite (basis_null v a b m U) by auto.
          rewrite Rmult_plus_distr_l, <- rsum_scal. replace (z i * (if (i =? m)%nat then 0 else 0)) with 0 by (destruct (i =? m)%nat; ring).
          rewrite Rplus_0_r. apply rsum_ext. intros. ring.
    - intros (x & Hx & Hp & HE). set (c := fun i => ip (v i) x).
      assert (P (combo c v m)) as Hc by (apply combo_P; auto).
      pose proof (basis_complete v a b m U x HB Hm Hx) as HX. fold c in HX. exists c. split.
      + apply Classical_Prop.NNPP. intros Hn. assert (ip x x = 0); [|lra]. rewrite HX by auto. rewrite (combo_ip E add scale ip P) by auto.
        apply rsum_zero. intros i Hi. destruct (Req_dec (c i) 0) as [->|Hci]; [ring|]. exfalso. eauto.
      + intros i Hi. rewrite ET by auto. assert (P (v i)) as Hvi by (apply HP; lia).
        transitivity (ip (op (v i)) (combo c v m)).
        * rewrite (combo_ip E add scale ip P) by auto. apply rsum_ext. intros k Hk. rewrite (ip_sym (op (v i))) by (auto; apply HP; lia).
          rewrite (op_sym (v k)) by (auto; apply HP; lia). replace (ip (v i) (op (v k))) with (tri a b i k); [ring|]. symmetry. apply HB; lia.
        * rewrite <- HX by auto. rewrite ip_sym by auto. rewrite op_sym by auto. rewrite HE by auto. unfold c. auto.
  Qed.

  (** Without a threshold the recurrence never stops early. *)
  Lemma loop_length todo : forall V U als bes, P V -> P U -> LanczosModel.lanczos_loop E add scale ip op 0 todo V U = Some (als, bes) -> length als = todo.
  Proof.
    induction todo; intros V U als bes HV HU HL; cbn [lanczos_loop] in HL; [injection HL as <- <-; auto|].
    destruct (Rlt_dec (ip U U) 0) as [H|_]; [pose proof (ip_pos U HU); lra|]. destruct (Rle_dec (ip U U) 0); [discriminate|].
    match type of HL with context [lanczos_loop _ _ _ _ _ _ _ ?a ?b] => destruct (lanczos_loop E add scale ip op 0 todo a b) as [[als1 bes1]|] eqn:E1 end; [|discriminate].
    injection HL as <- <-. cbn. f_equal. apply IHtodo in E1; auto 10.
  Qed.
  Lemma lanczos_length num V al be : P V -> lanczos (fun _ => 0) num V = Some (al, be) -> length al = num.
  Proof.
    intros HV HL. unfold LanczosModel.lanczos in HL. destruct num; [discriminate|]. destruct (Rle_dec (ip V V) 0); [discriminate|].
    match type of HL with context [lanczos_loop _ _ _ _ _ _ _ ?a ?b] => destruct (lanczos_loop E add scale ip op 0 num a b) as [[als1 bes1]|] eqn:E1 end; [|discriminate].
    injection HL as <- <-. cbn. f_equal. apply loop_length in E1; auto 10.
  Qed.
End Finite.

(** A run that does not stop early does not depend on the threshold. *)
Lemma loop_full E add scale ip op th todo : 0 <= th -> forall V U als bes,
  lanczos_loop E add scale ip op th todo V U = Some (als, bes) -> length als = todo -> lanczos_loop E add scale ip op 0 todo V U = Some (als, bes).
Proof.
  intros Hth. induction todo; intros V U als bes HL Hl; cbn [lanczos_loop] in *; [auto|].
  destruct (Rlt_dec (ip U U) th) as [|H1]; [injection HL as <- <-; discriminate|]. destruct (Rlt_dec (ip U U) 0); [lra|].
  destruct (Rle_dec (ip U U) 0); [discriminate|].
  match type of HL with context [lanczos_loop _ _ _ _ _ _ _ ?a ?b] => destruct (lanczos_loop E add scale ip op th todo a b) as [[als1 bes1]|] eqn:E1 end; [|discriminate].
  injection HL as <- <-. cbn in Hl. rewrite (IHtodo _ _ _ _ E1) by lia. auto.
Qed.
Lemma lanczos_full E add scale ip op th num V al be : (forall x, 0 <= th x) ->
  lanczos E add scale ip op th num V = Some (al, be) -> length al = num -> lanczos E add scale ip op (fun _ => 0) num V = Some (al, be).
Proof.
  intros Hth HL Hl. unfold lanczos in *. destruct num; [discriminate|]. destruct (Rle_dec (ip V V) 0); [discriminate|].
  match type of HL with context [lanczos_loop _ _ _ _ _ ?t _ ?a ?b] => destruct (lanczos_loop E add scale ip op t num a b) as [[als1 bes1]|] eqn:E1 end; [|discriminate].
  injection HL as <- <-. cbn in Hl. eapply loop_full in E1; [rewrite E1; auto|apply Hth|lia].
Qed.
