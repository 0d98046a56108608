(** The three-term recurrence computes the compression of a self-adjoint operator to
    an orthonormal basis. *)
From Coq Require Import List Arith Reals Lra Lia FunctionalExtensionality.
From Verif Require Import Base DenseModel RSum JordanModel LanczosModel.
Import ListNotations.
Open Scope R_scope.

Section Abstract.
  Variables (E : Type) (add : E -> E -> E) (scale : E -> R -> E) (ip : E -> E -> R) (op : E -> E) (P : E -> Prop).
  Hypothesis P_add : forall x y, P x -> P y -> P (add x y).
  Hypothesis P_scale : forall x s, P x -> P (scale x s).
  Hypothesis P_op : forall x, P x -> P (op x).
  Hypothesis ip_add : forall x y z, P x -> P y -> P z -> ip x (add y z) = ip x y + ip x z.
  Hypothesis ip_scale : forall x y s, P x -> P y -> ip x (scale y s) = s * ip x y.
  Hypothesis ip_sym : forall x y, P x -> P y -> ip x y = ip y x.
  Hypothesis op_sym : forall x y, P x -> P y -> ip x (op y) = ip y (op x).

  (** Entry of the tridiagonal matrix with diagonal [a] and subdiagonal [b]. *)
  Definition tri (a b : nat -> R) (i j : nat) : R :=
    if (i =? j)%nat then a i else if (j =? S i)%nat then b i else if (i =? S j)%nat then b j else 0.

  Definition delta (i j : nat) : R := if (i =? j)%nat then 1 else 0.
  (** [v 0 .. v j] is orthonormal, the operator acts on it by the tridiagonal matrix and
      [U] is the residual of the last column, orthogonal to the basis. *)
  Definition basis (v : nat -> E) (a b : nat -> R) (j : nat) (U : E) : Prop :=
    (forall i, (i <= j)%nat -> P (v i)) /\ P U /\
    (forall i k, (i <= j)%nat -> (k <= j)%nat -> ip (v i) (v k) = delta i k) /\
    (forall i, (i <= j)%nat -> ip (v i) U = 0) /\
    (forall i k, (i <= j)%nat -> (k <= j)%nat -> ip (v i) (op (v k)) = tri a b i k) /\
    (forall x i, P x -> (i < j)%nat -> ip x (op (v i)) = b i * ip x (v (S i)) + a i * ip x (v i) + match i with O => 0 | S h => b h * ip x (v h) end) /\
    (forall x, P x -> ip x (op (v j)) = ip x U + a j * ip x (v j) + match j with O => 0 | S h => b h * ip x (v h) end).

  Definition upd {T} (f : nat -> T) (j : nat) (x : T) : nat -> T := fun i => if (i =? j)%nat then x else f i.
  Lemma upd_same {T} (f : nat -> T) j x : upd f j x j = x.
  Proof. unfold upd. rewrite Nat.eqb_refl. auto. Qed.
  Lemma upd_other {T} (f : nat -> T) j x i : i <> j -> upd f j x i = f i.
  Proof. intros H. unfold upd. apply Nat.eqb_neq in H. rewrite H. auto. Qed.

  Lemma basis_step v a b j U : basis v a b j U -> 0 < ip U U ->
    let beta := sqrt (ip U U) in let V := scale U (1 / beta) in let alpha := ip V (op V) in
    basis (upd v (S j) V) (upd a (S j) alpha) (upd b j beta) (S j) (add (add (op V) (scale V (- alpha))) (scale (v j) (- beta))).
  Proof.
    intros (HP & HU & HO & HR & HT & HC & HL) Hpos beta V alpha.
    assert (0 < beta) as Hb by (apply sqrt_lt_R0; auto).
    assert (beta * beta = ip U U) as Hbb by (apply R_sqrt.sqrt_def; lra).
    assert (P V) as HV by (apply P_scale; auto).
    assert (forall x, P x -> ip x U = beta * ip x V) as EU by (intros; unfold V; rewrite ip_scale by auto; field; lra).
    assert (ip V V = 1) as HVV.
    { unfold V at 2. rewrite ip_scale by auto. rewrite (ip_sym V U) by auto. unfold V. rewrite ip_scale by auto. rewrite <- Hbb. field. lra. }
    assert (forall i, (i <= j)%nat -> ip (v i) V = 0) as HvV.
    { intros i Hi. unfold V. rewrite ip_scale by auto. rewrite HR by auto. ring. }
    set (U' := add (add (op V) (scale V (- alpha))) (scale (v j) (- beta))).
    assert (P (op V)) as HoV by auto.
    assert (P (v j)) as Hvj by auto.
    assert (P U') as HU' by (unfold U'; auto 6).
    assert (forall x, P x -> ip x U' = ip x (op V) - alpha * ip x V - beta * ip x (v j)) as EU'.
    { intros x Hx. unfold U'. rewrite !ip_add, !ip_scale by auto. ring. }
    assert (forall i, (i <= j)%nat -> ip (v i) (op V) = if (i =? j)%nat then beta else 0) as HvoV.
    { intros i Hi. rewrite op_sym by auto. destruct (Nat.eqb_spec i j) as [->|Hn].
      - rewrite HL by auto. rewrite EU by auto. rewrite HVV. rewrite (ip_sym V (v j)), HvV by auto.
        destruct j; [ring|]. rewrite (ip_sym V), HvV by auto. ring.
      - rewrite HC by (auto; lia). rewrite !(ip_sym V) by (auto; apply HP; lia). rewrite !HvV by lia.
        destruct i; [ring|]. rewrite (ip_sym V), HvV by (auto; try apply HP; lia). ring. }
    split; [|split; [|split; [|split; [|split; [|split]]]]].
    - intros i Hi. unfold upd. destruct (i =? S j)%nat eqn:E1; auto. apply Nat.eqb_neq in E1. apply HP. lia.
    - exact HU'.
    - intros i k Hi Hk. unfold upd, delta. destruct (Nat.eqb_spec i (S j)) as [->|Hi']; destruct (Nat.eqb_spec k (S j)) as [->|Hk'].
      + rewrite Nat.eqb_refl. auto.
      + assert ((S j =? k)%nat = false) as -> by (apply Nat.eqb_neq; lia). rewrite ip_sym; auto; [apply HvV; lia|apply HP; lia].
      + assert ((i =? S j)%nat = false) as -> by (apply Nat.eqb_neq; lia). apply HvV. lia.
      + apply HO; lia.
    - intros i Hi. unfold upd. destruct (Nat.eqb_spec i (S j)) as [->|Hi'].
      + rewrite EU' by auto. rewrite HVV, (ip_sym V (v j)), HvV by auto. fold alpha. ring.
      + rewrite EU' by (apply HP; lia). rewrite HvoV, HvV, HO by lia. unfold delta. destruct (i =? j)%nat; ring.
    - intros i k Hi Hk. unfold tri, upd. destruct (Nat.eqb_spec i (S j)) as [->|Hi']; destruct (Nat.eqb_spec k (S j)) as [->|Hk'].
      + rewrite Nat.eqb_refl. reflexivity.
      + assert ((S j =? k)%nat = false) as -> by (apply Nat.eqb_neq; lia).
        assert ((k =? S (S j))%nat = false) as -> by (apply Nat.eqb_neq; lia).
        rewrite op_sym by (auto; apply HP; lia). rewrite HvoV by lia. cbn [Nat.eqb]. rewrite (Nat.eqb_sym j k). auto.
        destruct (Nat.eqb_spec k j) as [->|]; auto.
      + assert ((i =? S j)%nat = false) as -> by (apply Nat.eqb_neq; lia). rewrite HvoV by lia. cbn [Nat.eqb]. rewrite (Nat.eqb_sym j i).
        destruct (Nat.eqb_spec i j) as [->|]; auto. assert ((i =? S (S j))%nat = false) as -> by (apply Nat.eqb_neq; lia). auto.
      + rewrite HT by lia. unfold tri. destruct (Nat.eqb_spec i k); auto.
        destruct (Nat.eqb_spec k (S i)). { assert ((i =? j)%nat = false) as -> by (apply Nat.eqb_neq; lia). auto. }
        destruct (Nat.eqb_spec i (S k)); auto. assert ((k =? j)%nat = false) as -> by (apply Nat.eqb_neq; lia). auto.
    - intros x i Hx Hi. unfold upd. destruct (Nat.eqb_spec i (S j)) as [->|Hi']; [lia|].
      destruct (Nat.eqb_spec (S i) (S j)) as [Ej|Hj].
      + assert (i = j) as -> by lia. rewrite Nat.eqb_refl. rewrite HL by auto. rewrite EU by auto.
        destruct j; [ring|]. assert ((j =? S (S j))%nat = false) as -> by (apply Nat.eqb_neq; lia). assert ((j =? S j)%nat = false) as -> by (apply Nat.eqb_neq; lia). ring.
      + assert ((i =? j)%nat = false) as -> by (apply Nat.eqb_neq; lia). rewrite HC by (auto; lia).
        destruct i; auto. assert ((i =? S j)%nat = false) as -> by (apply Nat.eqb_neq; lia). assert ((i =? j)%nat = false) as -> by (apply Nat.eqb_neq; lia). auto.
    - intros x Hx. rewrite !upd_same. rewrite upd_other by lia. rewrite EU' by auto. ring.
  Qed.

  (** The loop extends a basis. *)
  Lemma loop_basis th todo : forall v a b j U als bes, 0 <= th -> basis v a b j U ->
    lanczos_loop E add scale ip op th todo (v j) U = Some (als, bes) ->
    exists v' a' b' U', basis v' a' b' (j + length als) U' /\ length als = length bes /\
      (forall i, (i <= j)%nat -> v' i = v i /\ a' i = a i) /\ (forall i, (i < j)%nat -> b' i = b i) /\
      (forall i, (i < length als)%nat -> nth i als 0 = a' (S j + i)%nat /\ nth i bes 0 = b' (j + i)%nat) /\
      ((length als < todo)%nat -> ip U' U' < th).
  Proof.
    induction todo; intros v a b j U als bes Hth HB HL; cbn [lanczos_loop] in HL.
    - injection HL as <- <-. exists v, a, b, U. cbn. rewrite Nat.add_0_r. repeat split; auto; try apply HB; lia.
    - destruct (Rlt_dec (ip U U) th) as [Hs|Hs].
      { injection HL as <- <-. exists v, a, b, U. cbn. rewrite Nat.add_0_r. repeat split; auto; try apply HB; lia. }
      destruct (Rle_dec (ip U U) 0) as [|Hn]; [discriminate|]. assert (0 < ip U U) as Hpos by lra.
      pose proof (basis_step v a b j U HB Hpos) as HS. cbv zeta in HS.
      set (beta := sqrt (ip U U)) in *. set (V := scale U (1 / beta)) in *. set (alpha := ip V (op V)) in *.
      set (U1 := add (add (op V) (scale V (- alpha))) (scale (v j) (- beta))) in *.
      destruct (lanczos_loop E add scale ip op th todo V U1) as [[als1 bes1]|] eqn:HL1; [|discriminate]. injection HL as <- <-.
      rewrite <- (upd_same v (S j) V) in HL1.
      destruct (IHtodo _ _ _ _ _ _ _ Hth HS HL1) as (v' & a' & b' & U' & H1 & H2 & H3 & H4 & H5 & H6).
      exists v', a', b', U'. cbn [length]. replace (j + S (length als1))%nat with (S j + length als1)%nat by lia.
      split; [exact H1|]. split; [lia|]. split; [|split; [|split]].
      + intros i Hi. destruct (H3 i) as [E1 E2]; [lia|]. rewrite E1, E2, !upd_other by lia. auto.
      + intros i Hi. rewrite H4 by lia. rewrite upd_other by lia. auto.
      + intros i Hi. destruct i; cbn [nth].
        * rewrite !Nat.add_0_r. destruct (H3 (S j)) as [_ E2]; [lia|]. rewrite E2, upd_same. rewrite (H4 j) by lia. rewrite upd_same. auto.
        * destruct (H5 i) as [E1 E2]; [lia|]. rewrite E1, E2. split; f_equal; lia.
      + intros Hl. apply H6. lia.
  Qed.

  Lemma lanczos_basis th num V al be : (forall x, P x -> 0 <= th (ip x x)) -> P V ->
    lanczos E add scale ip op th num V = Some (al, be) ->
    exists v a b U, basis v a b (length be) U /\ length al = S (length be) /\
      (forall i, (i <= length be)%nat -> nth i al 0 = a i) /\ (forall i, (i < length be)%nat -> nth i be 0 = b i) /\
      v 0%nat = scale V (1 / sqrt (ip V V)) /\ ((length al < num)%nat -> ip U U < th (ip (op (v 0%nat)) (op (v 0%nat)))).
  Proof.
    intros Hth HV HL. unfold lanczos in HL. destruct num as [|todo]; [discriminate|].
    destruct (Rle_dec (ip V V) 0) as [|Hn]; [discriminate|]. assert (0 < ip V V) as Hpos by lra.
    set (V1 := scale V (1 / sqrt (ip V V))) in *. set (alpha := ip V1 (op V1)) in *. set (U1 := add (op V1) (scale V1 (- alpha))) in *.
    assert (P V1) as HV1 by (apply P_scale; auto). assert (P U1) as HU1 by (unfold U1; auto).
    assert (ip V1 V1 = 1) as HN.
    { unfold V1 at 2. rewrite ip_scale by auto. rewrite (ip_sym V1 V) by auto. unfold V1. rewrite ip_scale by auto.
      assert (0 < sqrt (ip V V)) by (apply sqrt_lt_R0; auto). assert (sqrt (ip V V) * sqrt (ip V V) = ip V V) as E0 by (apply R_sqrt.sqrt_def; lra).
      rewrite <- E0 at 3. field. lra. }
    assert (forall x, P x -> ip x U1 = ip x (op V1) - alpha * ip x V1) as EU by (intros; unfold U1; rewrite ip_add, ip_scale by auto; ring).
    assert (basis (fun _ => V1) (fun _ => alpha) (fun _ => 0) 0 U1) as HB.
    { split; [|split; [|split; [|split; [|split; [|split]]]]]; auto.
      - intros i k Hi Hk. assert (i = 0%nat) as -> by lia. assert (k = 0%nat) as -> by lia. exact HN.
      - intros i Hi. rewrite EU by auto. rewrite HN. fold alpha. ring.
      - intros i k Hi Hk. assert (i = 0%nat) as -> by lia. assert (k = 0%nat) as -> by lia. reflexivity.
      - intros; lia.
      - intros x Hx. rewrite EU by auto. ring. }
    destruct (lanczos_loop E add scale ip op (th (ip (op V1) (op V1))) todo V1 U1) as [[als bes]|] eqn:HL1; [|discriminate]. injection HL as <- <-.
    destruct (loop_basis _ _ _ _ _ _ _ _ _ (Hth _ (P_op _ HV1)) HB HL1) as (v' & a' & b' & U' & H1 & H2 & H3 & H4 & H5 & H6).
    exists v', a', b', U'. rewrite <- H2. cbn [Nat.add] in H1. split; [exact H1|]. split; [cbn; lia|]. split; [|split; [|split]].
    - intros i Hi. destruct i; cbn [nth]; [symmetry; apply (H3 0%nat); lia|]. apply H5. lia.
    - intros i Hi. apply H5. auto.
    - apply (H3 0%nat). lia.
    - intros Hl. destruct (H3 0%nat) as [-> _]; [lia|]. apply H6. cbn in Hl. lia.
  Qed.

  (** Linear combinations of the basis. *)
  Fixpoint combo (z : nat -> R) (v : nat -> E) (m : nat) : E :=
    match m with O => scale (v 0%nat) (z 0%nat) | S m' => add (combo z v m') (scale (v m) (z m)) end.
  Lemma combo_P z v m : (forall i, (i <= m)%nat -> P (v i)) -> P (combo z v m).
  Proof. induction m; intros H; cbn [combo]; auto. Qed.
  Lemma combo_ip z v m x : P x -> (forall i, (i <= m)%nat -> P (v i)) -> ip x (combo z v m) = rsum (S m) (fun i => z i * ip x (v i)).
  Proof.
    intros Hx. induction m; intros H; cbn [combo].
    - rewrite ip_scale by auto. cbn. ring.
    - rewrite ip_add, ip_scale, IHm by (auto using combo_P). rewrite (rsum_S (S m)). ring.
  Qed.
  Lemma combo_norm v a b m U z : basis v a b m U -> ip (combo z v m) (combo z v m) = rsum (S m) (fun i => z i * z i).
  Proof.
    intros (HP & HU & HO & _). rewrite combo_ip by (auto using combo_P). apply rsum_ext. intros i Hi. f_equal.
    rewrite ip_sym by (auto using combo_P; apply HP; lia). rewrite combo_ip by (auto; apply HP; lia).
    rewrite (rsum_single (S m) i) by (try lia; intros k Hk Hn; rewrite HO by lia; unfold delta; apply Nat.eqb_neq in Hn; rewrite Nat.eqb_sym, Hn; ring).
    rewrite HO by lia. unfold delta. rewrite Nat.eqb_refl. ring.
  Qed.
  Lemma combo_op v a b m U z : basis v a b m U ->
    ip (combo z v m) (op (combo z v m)) = rsum (S m) (fun i => z i * rsum (S m) (fun k => tri a b i k * z k)).
  Proof.
    intros (HP & HU & HO & HR & HT & _). set (x := combo z v m). assert (P x) as Hx by (apply combo_P; auto).
    rewrite ip_sym by auto. unfold x at 2. rewrite combo_ip by auto. apply rsum_ext. intros i Hi. f_equal.
    rewrite ip_sym by (auto; apply HP; lia). rewrite op_sym by (auto; apply HP; lia). rewrite ip_sym by (auto; apply P_op, HP; lia). unfold x. rewrite combo_ip by (auto; apply P_op, HP; lia). apply rsum_ext. intros k Hk.
    rewrite ip_sym by (auto; try apply P_op; apply HP; lia). rewrite op_sym by (apply HP; lia). rewrite HT by lia. ring.
  Qed.

  (** The action of the operator on the basis, tested against any element. *)
  Lemma tri_column v a b m U x i : basis v a b m U -> P x -> (i <= m)%nat ->
    ip x (op (v i)) = rsum (S m) (fun k => tri a b k i * ip x (v k)) + (if (i =? m)%nat then ip x U else 0).
  Proof.
    intros (HP & HU & HO & HR & HT & HC & HL) Hx Hi.
    assert (forall f : nat -> R, rsum (S m) (fun k => tri a b k i * f k) =
      a i * f i + (if (i <? m)%nat then b i * f (S i) else 0) + match i with O => 0 | S h => b h * f h end) as EF.
    { intros f. rewrite (rsum_ext (S m) _ (fun k => (if (k =? i)%nat then a i * f i else 0) + ((if (k =? S i)%nat then b i * f (S i) else 0)
        + match i with O => 0 | S h => if (k =? h)%nat then b h * f h else 0 end))).
      - rewrite !rsum_plus. rewrite (rsum_single (S m) i) by (try lia; intros k Hk Hn; apply Nat.eqb_neq in Hn; rewrite Hn; auto). rewrite Nat.eqb_refl.
        destruct (Nat.ltb_spec i m) as [Hm|Hm].
        + rewrite (rsum_single (S m) (S i)) by (try lia; intros k Hk Hn; apply Nat.eqb_neq in Hn; rewrite Hn; auto). rewrite Nat.eqb_refl.
          destruct i; [rewrite rsum_zero by auto; ring|]. rewrite (rsum_single (S m) i) by (try lia; intros k Hk Hn; apply Nat.eqb_neq in Hn; rewrite Hn; auto).
          rewrite Nat.eqb_refl. ring.
        + rewrite (rsum_zero (S m) (fun k => if (k =? S i)%nat then _ else _)) by (intros k Hk; assert ((k =? S i)%nat = false) as -> by (apply Nat.eqb_neq; lia); auto).
          destruct i; [rewrite rsum_zero by auto; ring|]. rewrite (rsum_single (S m) i) by (try lia; intros k Hk Hn; apply Nat.eqb_neq in Hn; rewrite Hn; auto).
          rewrite Nat.eqb_refl. ring.
      - intros k Hk. unfold tri. destruct (Nat.eqb_spec k i) as [->|Hn].
        + assert ((i =? S i)%nat = false) as -> by (apply Nat.eqb_neq; lia). destruct i; [ring|]. assert ((S i =? i)%nat = false) as -> by (apply Nat.eqb_neq; lia). ring.
        + destruct (Nat.eqb_spec i (S k)) as [->|Hn1].
          * assert ((k =? S (S k))%nat = false) as -> by (apply Nat.eqb_neq; lia). rewrite Nat.eqb_refl. ring.
          * destruct (Nat.eqb_spec k (S i)) as [->|Hn2].
            -- destruct i; [ring|]. assert ((S (S i) =? i)%nat = false) as -> by (apply Nat.eqb_neq; lia). ring.
            -- destruct i; [ring|]. assert ((k =? i)%nat = false) as -> by (apply Nat.eqb_neq; lia). ring. }
    rewrite EF. destruct (Nat.eqb_spec i m) as [->|Hn].
    - rewrite Nat.ltb_irrefl. rewrite HL by auto. destruct m; ring.
    - assert (i < m)%nat as Him by lia. rewrite HC by auto. apply Nat.ltb_lt in Him. rewrite Him. destruct i; ring.
  Qed.

  (** Every eigenvector of the tridiagonal matrix gives an element with that Rayleigh
      quotient and a small residual. *)
  Lemma ritz th num V al be lam : (forall x, P x -> 0 <= th (ip x x)) -> P V ->
    lanczos E add scale ip op th num V = Some (al, be) -> is_eigenvalue al be lam ->
    exists x, P x /\ 0 < ip x x /\ ip x (op x) = lam * ip x x /\
      ((length al < num)%nat -> let v := scale V (1 / sqrt (ip V V)) in
        let r := add (op x) (scale x (- lam)) in ip r r <= th (ip (op v) (op v)) * ip x x).
  Proof.
    intros Hth HV HL (z & (i0 & Hi0 & Hz0) & HE). destruct (lanczos_basis _ _ _ _ _ Hth HV HL) as (v & a & b & U & HB & Hlen & Ha & Hb & Hv0 & HS).
    set (m := length be) in *. rewrite Hlen in *.
    assert (forall i, (i < S m)%nat -> rsum (S m) (fun k => tri a b i k * z k) = lam * z i) as HE'.
    { intros i Hi. rewrite <- HE by auto. apply rsum_ext. intros k Hk. f_equal. unfold tri, tridiagonal.
      destruct (Nat.eqb_spec i k); [rewrite Ha; auto; lia|]. destruct (Nat.eqb_spec k (S i)); [rewrite Hb; auto; lia|].
      destruct (Nat.eqb_spec i (S k)); auto. rewrite Hb; auto; lia. }
    exists (combo z v m). assert (P (combo z v m)) as Hx by (apply combo_P; apply HB).
    assert (ip (combo z v m) (combo z v m) = rsum (S m) (fun i => z i * z i)) as EN by (eapply combo_norm; eauto).
    assert (0 < rsum (S m) (fun i => z i * z i)) as Hpos.
    { rewrite (rsum_split_at (S i0)) by lia. rewrite rsum_S. 
      assert (0 <= rsum i0 (fun i => z i * z i)) by (apply rsum_nonneg; intros; apply Rle_0_sqr).
      assert (0 <= rsum (S m - S i0) (fun i => z (S i0 + i)%nat * z (S i0 + i)%nat)) by (apply rsum_nonneg; intros; apply Rle_0_sqr).
      assert (0 < z i0 * z i0) by (apply Rsqr_pos_lt; auto). lra. }
    split; [auto|]. split; [lra|]. split.
    - rewrite EN. erewrite combo_op by eauto. rewrite <- rsum_scal. apply rsum_ext. intros i Hi. rewrite HE' by auto. ring.
    - intros Hl v1 r. assert (P r) as Hr by (unfold r; auto). assert (P U) as HU by apply HB. assert (forall i, (i <= m)%nat -> P (v i)) as HP by apply HB.
      assert (forall y, P y -> ip y r = z m * ip y U) as ER.
      { intros y Hy. unfold r. rewrite ip_add, ip_scale by auto. rewrite (op_sym y) by auto. rewrite (ip_sym (combo z v m)) by auto.
        rewrite !combo_ip by auto.
        rewrite (rsum_ext (S m) (fun i => z i * ip (op y) (v i)) (fun i => rsum (S m) (fun k => (tri a b k i * z i) * ip y (v k)) + (if (i =? m)%nat then z m * ip y U else 0))).
        - rewrite rsum_plus, rsum_swap. rewrite (rsum_single (S m) m (fun i => if (i =? m)%nat then _ else _)) by (try lia; intros k Hk Hn; apply Nat.eqb_neq in Hn; rewrite Hn; auto).
          rewrite Nat.eqb_refl. rewrite (rsum_ext (S m) (fun k => rsum (S m) _) (fun k => lam * (z k * ip y (v k)))); [rewrite rsum_scal; ring|].
          intros k Hk. rewrite rsum_scal_r, HE' by auto. ring.
        - intros i Hi. rewrite (ip_sym (op y)) by (auto; apply HP; lia). rewrite (op_sym (v i)) by (auto; apply HP; lia). erewrite tri_column by (eauto; lia).
          rewrite Rmult_plus_distr_l, <- rsum_scal. f_equal; [apply rsum_ext; intros; ring|]. destruct (Nat.eqb_spec i m) as [->|]; ring. }
      rewrite ER by auto. rewrite ip_sym by auto. rewrite ER by auto. specialize (HS Hl). rewrite Hv0 in HS. fold v1 in HS.
      assert (z m * z m <= rsum (S m) (fun i => z i * z i)) as HZ.
      { rewrite rsum_S. assert (0 <= rsum m (fun i => z i * z i)) by (apply rsum_nonneg; intros; apply Rle_0_sqr). lra. }
      rewrite EN. assert (0 <= z m * z m) by apply Rle_0_sqr. assert (0 <= th (ip (op v1) (op v1))) by (apply Hth; unfold v1; auto).
      rewrite <- Rmult_assoc. apply Rle_trans with (z m * z m * th (ip (op v1) (op v1))); [apply Rmult_le_compat_l; lra|].
      rewrite Rmult_comm. apply Rmult_le_compat_l; auto.
  Qed.

  (** The operator is bounded by its quadratic form. *)
  Lemma op_bound t x : 0 <= t -> (forall y, P y -> Rabs (ip y (op y)) <= t * ip y y) -> P x -> ip (op x) (op x) <= t * t * ip x x.
  Proof.
    intros Ht HB Hx. set (u := op x). assert (P u) as Hu by (unfold u; auto). set (q := ip x x). set (w := ip u u).
    assert (forall s e, let y := add (scale u s) (scale x e) in
      ip y (op y) = s * s * ip u (op u) + 2 * (s * e) * w + e * e * ip x (op x) /\ ip y y = s * s * w + 2 * (s * e) * ip x u + e * e * q) as HY.
    { intros s e y. assert (P y) as Hy by (unfold y; auto).
      assert (forall z, P z -> ip z y = s * ip z u + e * ip z x) as Ey by (intros; unfold y; rewrite ip_add, !ip_scale by auto; auto).
      split.
      - rewrite ip_sym by auto. rewrite Ey by auto. rewrite (ip_sym (op y) u), (ip_sym (op y) x) by auto. rewrite (op_sym u y), (op_sym x y) by auto.
        rewrite (ip_sym y (op u)), (ip_sym y (op x)) by auto. rewrite !Ey by auto. fold u. fold w. rewrite (ip_sym (op u) x) by auto. rewrite (op_sym x u) by auto.
        fold u. fold w. rewrite (ip_sym (op u) u), (ip_sym u x) by auto. ring.
      - rewrite Ey by auto. rewrite (ip_sym y u), (ip_sym y x) by auto. rewrite !Ey by auto. fold w. fold q. rewrite (ip_sym u x) by auto. ring. }
    assert (forall s, 2 * s * w <= t * (s * s * w + q)) as HS.
    { intros s. destruct (HY s 1) as [A1 A2]. destruct (HY s (-1)) as [B1 B2].
      set (y1 := add (scale u s) (scale x 1)) in *. set (y2 := add (scale u s) (scale x (-1))) in *.
      assert (P y1) as P1 by (unfold y1; auto). assert (P y2) as P2 by (unfold y2; auto).
      pose proof (HB y1 P1) as H1. pose proof (HB y2 P2) as H2. rewrite A1, A2 in H1. rewrite B1, B2 in H2.
      pose proof (Rle_abs (s * s * ip u (op u) + 2 * (s * 1) * w + 1 * 1 * ip x (op x))).
      pose proof (Rle_abs (- (s * s * ip u (op u) + 2 * (s * -1) * w + -1 * -1 * ip x (op x)))) as H3. rewrite Rabs_Ropp in H3. nra. }
    destruct Ht as [Ht|Ht].
    - specialize (HS (/ t)). assert (2 * / t * w - / t * w <= t * q) as H1.
      { replace (t * (/ t * / t * w + q)) with (/ t * w + t * q) in HS by (field; lra). lra. }
      apply Rmult_le_reg_l with (/ t); [apply Rinv_0_lt_compat; auto|]. replace (/ t * (t * t * q)) with (t * q) by (field; lra). lra.
    - subst t. specialize (HS 1). lra.
  Qed.
End Abstract.
