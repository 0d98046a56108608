(** Reconstruction, rank-one updates and solves with an [LDL^T] factorization. *)
From Coq Require Import List Arith Reals Lra Lia Bool.
From Verif Require Import Base DenseModel RSum DenseProofs RldltModel.
Import ListNotations.
Open Scope R_scope.

(** The product [L D L^T] of the stored matrix. *)
Definition ldl (n : nat) (M : mat) (r c : nat) : R := rsum n (fun t => Lx M r t * M t t * Lx M c t).

Lemma Lx_diag M r : Lx M r r = 1.
Proof. unfold Lx. rewrite Nat.ltb_irrefl, Nat.eqb_refl. auto. Qed.
Lemma Lx_low M r t : (t < r)%nat -> Lx M r t = M r t.
Proof. intros H. unfold Lx. apply Nat.ltb_lt in H. rewrite H. auto. Qed.
Lemma Lx_up M r t : (r < t)%nat -> Lx M r t = 0.
Proof. intros H. unfold Lx. destruct (Nat.ltb_spec t r); [lia|]. destruct (Nat.eqb_spec t r); [lia|auto]. Qed.

Lemma mul_L_spec n M y i : (i < n)%nat -> mul_L M y i = rsum n (fun t => Lx M i t * y t).
Proof.
  intros Hi. unfold mul_L. rewrite (rsum_trunc (S i) n) by (try lia; intros; rewrite Lx_up by lia; ring).
  rewrite rsum_S, Lx_diag. rewrite (rsum_ext i (fun t => Lx M i t * y t) (fun t => M i t * y t)) by (intros; rewrite Lx_low by auto; auto). ring.
Qed.
Lemma mul_U_spec n M y i : (i < n)%nat -> mul_U n M y i = rsum n (fun t => Lx M t i * y t).
Proof.
  intros Hi. unfold mul_U. rewrite (rsum_split_at i n) by lia. rewrite (rsum_zero i) by (intros; rewrite Lx_up by lia; ring).
  replace (n - i)%nat with (S (n - 1 - i)) by lia. rewrite rsum_first. rewrite Nat.add_0_r, Lx_diag.
  rewrite (rsum_ext (n - 1 - i) (fun k => Lx M (i + S k) i * y (i + S k)%nat) (fun t => M (S i + t)%nat i * y (S i + t)%nat)).
  - ring.
  - intros k Hk. replace (i + S k)%nat with (S i + k)%nat by lia. rewrite Lx_low by lia. auto.
Qed.

Lemma reconstructed_ldl n o r c : tr_ok n (r_trans o) -> (r < n)%nat -> (c < n)%nat ->
  reconstructedMatrix n o r c = ldl n (r_matrix o) (tau (r_trans o) r) (tau (r_trans o) c).
Proof.
  intros Ht Hr Hc. unfold reconstructedMatrix. cbv zeta. rewrite perm_apply_T_spec. pose proof (tau_lt n _ r Ht Hr) as Hr'. pose proof (tau_lt n _ c Ht Hc) as Hc'.
  rewrite (mul_L_spec n) by auto. unfold ldl. apply rsum_ext. intros t Htn. rewrite Rmult_assoc. f_equal. f_equal.
  rewrite (mul_U_spec n) by auto. rewrite (rsum_single n (tau (r_trans o) c)); auto.
  - rewrite perm_apply_spec, sigma_tau, Nat.eqb_refl. ring.
  - intros i Hi Hn. rewrite perm_apply_spec. destruct (Nat.eqb_spec (sigma (r_trans o) i) c) as [E|E]; [|ring].
    exfalso. apply Hn. rewrite <- E, tau_sigma. auto.
Qed.

(** ** Rank-one updates *)

(** What remains of the update after [j] iterations. *)
Definition rest (n j : nat) (sigma : R) (st : update_state) (r c : nat) : R :=
  match u_alpha st with
  | Some a => if ((j <=? r) && (j <=? c))%nat%bool then sigma / a * (u_w st r * u_w st c) else 0
  | None => 0
  end.
Definition update_inv (n : nat) (M : mat) (w : vec) (sigma : R) (j : nat) (st : update_state) : Prop :=
  (forall r c, (r < n)%nat -> (c < n)%nat -> u_alpha st <> Some 0 \/ (r < j /\ c < j)%nat -> ldl n (u_mat st) r c + rest n j sigma st r c = ldl n M r c + sigma * (w r * w c)) /\
  (forall r c, (j <= c)%nat -> u_mat st r c = M r c).

Lemma step_entries M M' n j : (j < n)%nat -> (forall r c, c <> j -> M' r c = M r c) ->
  forall r c, (r < n)%nat -> (c < n)%nat ->
  ldl n M' r c = ldl n M r c + (Lx M' r j * M' j j * Lx M' c j - Lx M r j * M j j * Lx M c j).
Proof.
  intros Hj HM r c Hr Hc. unfold ldl.
  assert (rsum n (fun t => Lx M' r t * M' t t * Lx M' c t - Lx M r t * M t t * Lx M c t) = Lx M' r j * M' j j * Lx M' c j - Lx M r j * M j j * Lx M c j) as E.
  { rewrite (rsum_single n j); auto. intros t Ht Hn. unfold Lx. rewrite !(HM _ t) by auto. ring. }
  rewrite rsum_minus in E. lra.
Qed.

Lemma update_step_ok n M w sigma j st st' : (j < n)%nat -> M j j <> 0 \/ (sigma * (u_w st j * u_w st j) <> 0) \/ u_alpha st = None ->
  update_inv n M w sigma j st -> update_step n sigma st j = Some st' -> update_inv n M w sigma (S j) st'.
Proof.
  intros Hj Hd (HI & HM) E. unfold update_step in E. unfold rest in HI. destruct (u_alpha st) as [a|] eqn:Ea.
  2:{ injection E as <-. split; [|intros; apply HM; lia]. intros r c Hr Hc _. unfold rest. rewrite Ea. apply HI; auto. left. discriminate. }
  destruct (Req_EM_T a 0) as [|Ha]; [discriminate|]. assert (Some a <> Some 0) as Ha' by congruence. assert (HI' := fun r c Hr Hc => HI r c Hr Hc (or_introl Ha')). clear HI. rename HI' into HI. cbv beta iota in HI. cbv zeta in E. rewrite (HM j j) in E by lia.
  set (d := M j j) in *. set (wj := u_w st j) in *. set (gamma := d * a + sigma * (wj * wj)) in *.
  assert (u_mat st j j = d) as Hdj by (apply HM; lia).
  set (w' := fun i => if ((j <? i) && (i <? n))%nat%bool then u_w st i - wj * u_mat st i j else u_w st i) in *.
  assert (forall r, (r < n)%nat -> (j < r)%nat -> u_w st r = w' r + wj * u_mat st r j) as Hw'.
  { intros r Hr Hjr. unfold w'. destruct (Nat.ltb_spec j r); [|lia]. destruct (Nat.ltb_spec r n); [|lia]. cbn. ring. }
  set (M1 := mset (u_mat st) j j (d + sigma * (wj * wj) / a)) in *.
  injection E as <-. split.
  2:{ intros r c Hc. cbn [u_mat]. destruct (Req_EM_T gamma 0).
      - unfold M1. rewrite mset_neq by lia. apply HM. lia.
      - destruct (Nat.eqb_spec c j); [lia|]. cbn. unfold M1. rewrite mset_neq by lia. apply HM. lia. }
  cbn [u_alpha]. intros r c Hr Hc Hz. rewrite <- HI by auto. cbn [u_mat].
  match goal with |- ldl n ?X r c + _ = _ => set (M2 := X) end.
  assert (forall r0 c0, c0 <> j -> M2 r0 c0 = u_mat st r0 c0) as HM2.
  { intros r0 c0 Hn. unfold M2. destruct (Req_EM_T gamma 0); [|destruct (Nat.eqb_spec c0 j); [contradiction|]; cbn]; unfold M1; apply mset_neq; auto. }
  rewrite (step_entries (u_mat st) M2 n j Hj HM2 r c Hr Hc).
  assert (M2 j j = d + sigma * (wj * wj) / a) as E2.
  { unfold M2. destruct (Req_EM_T gamma 0); [apply mset_eq|]. rewrite Nat.eqb_refl, Nat.ltb_irrefl. cbn. apply mset_eq. }
  assert (forall r0, (r0 < j)%nat -> Lx M2 r0 j = 0 /\ Lx (u_mat st) r0 j = 0) as Eup by (intros; rewrite !Lx_up by auto; auto).
  assert (forall r0, (j < r0 < n)%nat -> Lx M2 r0 j = if Req_EM_T gamma 0 then u_mat st r0 j else u_mat st r0 j + sigma * wj / gamma * w' r0) as Elow.
  { intros r0 H0. rewrite Lx_low by lia. unfold M2. destruct (Req_EM_T gamma 0).
    - unfold M1. rewrite mset_neq by lia. auto.
    - unfold w'. rewrite Nat.eqb_refl. destruct (Nat.ltb_spec j r0); [|lia]. destruct (Nat.ltb_spec r0 n); [|lia]. reflexivity. }
  rewrite Hdj, E2. unfold rest. cbn [u_alpha u_w].
  destruct (lt_eq_lt_dec r j) as [[Hrj|Hrj]|Hrj].
  { destruct (Eup r Hrj) as [-> ->]. destruct (Nat.leb_spec (S j) r); [lia|]. destruct (Nat.leb_spec j r); [lia|]. cbn. destruct (Req_EM_T d 0); ring. }
  all: destruct (lt_eq_lt_dec c j) as [[Hcj|Hcj]|Hcj].
  1, 4: destruct (Eup c Hcj) as [-> ->]; destruct (Nat.leb_spec (S j) c); [lia|]; destruct (Nat.leb_spec j c); [lia|]; rewrite !andb_false_r; destruct (Req_EM_T d 0); ring.
  all: try subst r; try subst c; rewrite ?Lx_diag, ?Elow, ?(Lx_low (u_mat st)) by lia.
  all: repeat match goal with |- context [(?x <=? ?y)%nat] => destruct (Nat.leb_spec x y); try lia end; cbn [andb].
  all: destruct (Req_EM_T gamma 0) as [Hg|Hg].
  all: try rewrite !(Hw' r) by auto; try rewrite !(Hw' c) by auto; fold wj.
  1, 2: destruct (Req_EM_T d 0); field; auto.
  all: try (exfalso; destruct (Req_EM_T d 0) as [Hd0|Hd0];
    [ unfold gamma in Hg; rewrite Hd0 in Hg; destruct Hd as [Hd|[Hd|Hd]]; [auto|apply Hd; lra|discriminate]
    | destruct Hz as [Hz|Hz]; [apply Hz; f_equal; apply Rmult_eq_reg_l with d; auto; rewrite Rmult_0_r; rewrite <- Hg; unfold gamma; field; auto | lia] ]).
  1, 2: assert (d + sigma * (wj * wj) / a = gamma / a) as E3 by (unfold gamma; field; auto); rewrite E3;
     assert (d = (gamma - sigma * (wj * wj)) / a) as E4 by (unfold gamma; field; auto); destruct (Req_EM_T d 0); rewrite E4 at 1; field; auto.
  destruct (Req_EM_T d 0) as [Hd0|Hd0].
  - assert (gamma = sigma * (wj * wj)) as Eg by (unfold gamma; rewrite Hd0; ring). rewrite Hd0. assert (wj <> 0) by (intros Hx; apply Hg; rewrite Eg, Hx; ring).
    assert (sigma <> 0) by (intros Hx; apply Hg; rewrite Eg, Hx; ring). rewrite Eg. field. auto.
  - replace (a + sigma * (wj * wj) / d) with (gamma / d) by (unfold gamma; field; auto).
    replace (d + sigma * (wj * wj) / a) with (gamma / a) by (unfold gamma; field; auto).
    assert (sigma * (wj * wj) = gamma - d * a) as Es by (unfold gamma; ring).
    apply Rminus_diag_uniq. unfold Rdiv.
    transitivity ((sigma * (wj * wj) - (gamma - d * a)) * (/ a * (u_mat st r j * u_mat st c j) * -1 + sigma * w' r * w' c * / gamma * / a)); [field; auto|].
    rewrite Es. ring.
Qed.

Lemma update_init n M w sigma : update_inv n M w sigma 0 (mkUpdate M w (Some 1)).
Proof.
  split; cbn [u_mat]; auto. intros r c _ _ _. unfold rest. cbn [u_alpha u_w Nat.leb andb]. field.
Qed.

Lemma update_exact n M w sigma M' : (forall j, (j < n)%nat -> M j j <> 0) -> updateInPlace n M w sigma = Some M' ->
  forall r c, (r < n)%nat -> (c < n)%nat -> ldl n M' r c = ldl n M r c + sigma * (w r * w c).
Proof.
  intros Hd E r c Hr Hc. unfold updateInPlace in E. destruct (for_opt _ _ _) as [st|] eqn:E1; [|discriminate]. injection E as <-.
  pose proof (for_opt_inv (update_inv n M w sigma) _ _ _ _ E1 (update_init n M w sigma)) as H.
  destruct H as (H & _).
  - intros k s s' Hk H1 H2. apply (update_step_ok n M w sigma k s s'); auto.
  - rewrite <- (H r c) by auto. unfold rest. destruct (u_alpha st); [|ring].
    destruct (Nat.leb_spec n r); [lia|]. cbn. ring.
Qed.

Lemma for_opt_total {St} (J : nat -> St -> Prop) (f : St -> nat -> option St) n s :
  J 0%nat s -> (forall k s, (k < n)%nat -> J k s -> exists s', f s k = Some s' /\ J (S k) s') ->
  exists s', for_opt f (seq 0 n) s = Some s' /\ J n s'.
Proof.
  intros H0 HS.
  assert (forall m a s, (a + m = n)%nat -> J a s -> exists s', for_opt f (seq a m) s = Some s' /\ J n s') as G; [|apply (G n 0%nat); auto].
  induction m as [|m IH]; intros a s1 Ha H1; cbn.
  - exists s1. split; auto. replace n with a by lia. auto.
  - destruct (HS a s1) as (s2 & E & H2); auto; [lia|]. rewrite E. apply IH; auto. lia.
Qed.

(** The quadratic form of [L D L^T]. *)
Definition qform (n : nat) (A : mat) (x : vec) : R := rsum n (fun r => rsum n (fun c => x r * A r c * x c)).
Lemma qform_ext n A B x : (forall r c, (r < n)%nat -> (c < n)%nat -> A r c = B r c) -> qform n A x = qform n B x.
Proof. intros H. apply rsum_ext. intros r Hr. apply rsum_ext. intros c Hc. rewrite H by auto. auto. Qed.
Lemma ldl_form n M x : qform n (ldl n M) x = rsum n (fun t => M t t * (rsum n (fun r => Lx M r t * x r) * rsum n (fun r => Lx M r t * x r))).
Proof.
  unfold qform, ldl.
  transitivity (rsum n (fun r => rsum n (fun t => rsum n (fun c => x r * (Lx M r t * M t t * Lx M c t) * x c)))).
  { apply rsum_ext. intros r Hr. rewrite rsum_swap. apply rsum_ext. intros c Hc. rewrite <- rsum_scal, <- rsum_scal_r. apply rsum_ext. intros; ring. }
  rewrite rsum_swap. apply rsum_ext. intros t Ht.
  transitivity (rsum n (fun r => Lx M r t * x r * (M t t * rsum n (fun c => Lx M c t * x c)))).
  { apply rsum_ext. intros r Hr. rewrite <- !rsum_scal. apply rsum_ext. intros; ring. }
  rewrite rsum_scal_r. ring.
Qed.

Lemma Lx_unit_lower L i t : (t <= i)%nat -> Lx L i t = unit_lower L i t.
Proof.
  intros H. unfold Lx, unit_lower. destruct (Nat.ltb_spec t i).
  - destruct (Nat.eqb_spec i t); [lia|auto].
  - assert (t = i) as -> by lia. rewrite Nat.eqb_refl. auto.
Qed.

(** A vector supported on the first [k] indices with prescribed [L^T x]. *)
Lemma transposed_onto n M y k : (k <= n)%nat -> (forall t, (k <= t)%nat -> y t = 0) ->
  let x := bwd_solve k (unit_lower M) y in
  (forall t, (t < n)%nat -> rsum n (fun r => Lx M r t * x r) = y t) /\ (forall t, (k <= t)%nat -> x t = 0).
Proof.
  intros Hk Hy x. destruct (bwd_solve_ok k (unit_lower M) y) as (B1 & B2).
  { intros i Hi. unfold unit_lower. rewrite Nat.eqb_refl. lra. }
  fold x in B1, B2. split; [|intros t Ht; rewrite B2 by auto; auto].
  intros t Ht. rewrite (rsum_trunc k n) by (auto; intros i Hi; rewrite B2 by lia; rewrite Hy by lia; ring).
  destruct (le_lt_dec k t) as [Hkt|Hkt].
  - rewrite Hy by auto. apply rsum_zero. intros i Hi. rewrite Lx_up by lia. ring.
  - rewrite (rsum_split_at t k) by lia. rewrite (rsum_zero t) by (intros; rewrite Lx_up by lia; ring).
    rewrite Rplus_0_l. rewrite <- (B1 t Hkt). apply rsum_ext. intros i Hi. rewrite Lx_unit_lower by lia. auto.
Qed.

Lemma transposed_injective n M x : (forall t, (t < n)%nat -> rsum n (fun r => Lx M r t * x r) = 0) -> forall t, (t < n)%nat -> x t = 0.
Proof.
  intros H. assert (forall k t, (n - k <= t < n)%nat -> x t = 0) as G; [|intros t Ht; apply (G n); lia].
  induction k as [|k IH]; intros t Ht; [lia|]. pose proof (H t ltac:(lia)) as E.
  rewrite (rsum_single n t) in E; [rewrite Lx_diag in E; lra|lia|].
  intros i Hi Hn. destruct (lt_eq_lt_dec i t) as [[Hc|Hc]|Hc]; [rewrite Lx_up by auto; ring|contradiction|rewrite (IH i) by lia; ring].
Qed.

Definition pd (n : nat) (A : mat) : Prop := forall x, (exists i, (i < n)%nat /\ x i <> 0) -> 0 < qform n A x.

Lemma rsum_pos n f : (forall i, (i < n)%nat -> 0 <= f i) -> (exists i, (i < n)%nat /\ 0 < f i) -> 0 < rsum n f.
Proof.
  intros H (i & Hi & Hp). apply Rlt_le_trans with (f i); auto.
  assert (rsum n (fun t => if (t =? i)%nat then f t else 0) = f i) as <-; [rewrite (rsum_single n i); auto|].
  - rewrite Nat.eqb_refl. auto.
  - intros t Ht Hn. destruct (Nat.eqb_spec t i); [contradiction|auto].
  - apply rsum_le. intros t Ht. destruct (Nat.eqb_spec t i); [lra|auto].
Qed.

Lemma pd_pivots n M : pd n (ldl n M) <-> forall t, (t < n)%nat -> 0 < M t t.
Proof.
  split.
  - intros H t Ht. set (y := fun i => if (i =? t)%nat then 1 else 0).
    destruct (transposed_onto n M y n) as (T1 & T2); auto.
    { intros i Hi. unfold y. destruct (Nat.eqb_spec i t); [lia|auto]. }
    set (x := bwd_solve n (unit_lower M) y) in *. assert (0 < qform n (ldl n M) x) as Q.
    { apply H. destruct (Nat.eq_dec 0 0) as [_|]; [|contradiction].
      assert (~ forall i, (i < n)%nat -> x i = 0) as Hn.
      { intros Hz. pose proof (T1 t Ht) as E. rewrite rsum_zero in E by (intros i Hi; rewrite Hz by auto; ring). unfold y in E. rewrite Nat.eqb_refl in E. lra. }
      clear - Hn. revert Hn. generalize n. intros m. induction m as [|m IH]; intros Hn; [exfalso; apply Hn; lia|].
      destruct (Req_EM_T (x m) 0) as [E|E]; [|exists m; auto].
      destruct IH as (i & Hi & Hx); [|exists i; auto]. intros Hz. apply Hn. intros i Hi. destruct (Nat.eq_dec i m) as [->|]; auto. apply Hz. lia. }
    rewrite ldl_form in Q. rewrite (rsum_single n t) in Q; auto.
    + rewrite T1 in Q by auto. unfold y in Q. rewrite Nat.eqb_refl in Q. lra.
    + intros i Hi Hn. rewrite T1 by auto. unfold y. destruct (Nat.eqb_spec i t); [contradiction|ring].
  - intros H x (i & Hi & Hx). rewrite ldl_form. apply rsum_pos.
    + intros t Ht. apply Rmult_le_pos; [left; auto|]. apply Rle_0_sqr.
    + assert (~ forall t, (t < n)%nat -> rsum n (fun r => Lx M r t * x r) = 0) as Hn by (intros Hz; apply Hx; apply (transposed_injective n M x Hz); auto).
      assert (exists t, (t < n)%nat /\ rsum n (fun r => Lx M r t * x r) <> 0) as (t & Ht & Hy).
      { revert Hn. generalize n at 1 3. intros m. induction m as [|m IH]; intros Hn; [exfalso; apply Hn; lia|].
        destruct (Req_EM_T (rsum n (fun r => Lx M r m * x r)) 0) as [E|E]; [|exists m; auto].
        destruct IH as (k & Hk & Hz); [|exists k; auto]. intros Hz. apply Hn. intros k Hk. destruct (Nat.eq_dec k m) as [->|]; auto. apply Hz. lia. }
      exists t. split; auto. apply Rmult_lt_0_compat; auto. apply Rsqr_pos_lt. auto.
Qed.

(** An update of a positive definite matrix succeeds if the result is positive definite. *)
Lemma update_total n M w sigma : (forall j, (j < n)%nat -> 0 < M j j) ->
  pd n (fun r c => ldl n M r c + sigma * (w r * w c)) ->
  exists M', updateInPlace n M w sigma = Some M' /\ forall j, (j < n)%nat -> 0 < M' j j.
Proof.
  intros Hd HB.
  destruct (for_opt_total (fun j st => update_inv n M w sigma j st /\ (exists a, u_alpha st = Some a /\ 0 < a) /\ forall t, (t < n)%nat -> 0 < u_mat st t t)
             (update_step n sigma) n (mkUpdate M w (Some 1))) as (st & E & _ & _ & HM).
  - split; [apply update_init|]. split; [exists 1; cbn; split; auto; lra|]. auto.
  - intros j st Hj (HI & (a & Ea & Ha) & HM).
    destruct (update_step n sigma st j) as [st'|] eqn:E.
    2:{ unfold update_step in E. rewrite Ea in E. destruct (Req_EM_T a 0); [lra|discriminate]. }
    exists st'. split; auto. assert (M j j <> 0) as Hjj by (apply Rgt_not_eq, Hd; auto).
    pose proof (update_step_ok n M w sigma j st st' Hj (or_introl Hjj) HI E) as HI'. split; auto.
    assert (u_mat st j j = M j j) as Ej by (apply (proj2 HI); lia).
    set (d := M j j) in *. set (wj := u_w st j) in *.
    assert (u_alpha st' = Some (a + sigma * (wj * wj) / d) /\ u_mat st' j j = d + sigma * (wj * wj) / a /\ forall t, t <> j -> u_mat st' t t = u_mat st t t) as (Ea' & Ed' & Eo').
    { unfold update_step in E. rewrite Ea in E. destruct (Req_EM_T a 0); [lra|]. cbv zeta in E. rewrite Ej in E. fold wj in E.
      destruct (Req_EM_T d 0); [contradiction|]. injection E as <-. cbn [u_alpha u_mat]. split; auto. split.
      - destruct (Req_EM_T _ 0); [apply mset_eq|]. rewrite Nat.eqb_refl, Nat.ltb_irrefl. cbn. apply mset_eq.
      - intros t Ht. destruct (Req_EM_T _ 0); [apply mset_neq; auto|]. destruct (Nat.eqb_spec t j); [contradiction|]. cbn. apply mset_neq; auto. }
    assert (0 < u_mat st' j j) as Hp.
    { set (y := fun i => if (i =? j)%nat then 1 else 0).
      destruct (transposed_onto n (u_mat st') y (S j)) as (T1 & T2); auto.
      { intros i Hi. unfold y. destruct (Nat.eqb_spec i j); [lia|auto]. }
      set (x := bwd_solve (S j) (unit_lower (u_mat st')) y) in *.
      assert (x j <> 0) as Hxj.
      { pose proof (T1 j Hj) as E1. rewrite (rsum_single n j) in E1; auto.
        - rewrite Lx_diag in E1. unfold y in E1. rewrite Nat.eqb_refl in E1. lra.
        - intros i Hi Hn. destruct (lt_eq_lt_dec i j) as [[Hc|Hc]|Hc]; [rewrite Lx_up by auto; ring|contradiction|rewrite T2 by lia; ring]. }
      pose proof (HB x (ex_intro _ j (conj Hj Hxj))) as Q.
      assert (qform n (fun r c => ldl n M r c + sigma * (w r * w c)) x = qform n (ldl n (u_mat st')) x) as EQ.
      { apply rsum_ext. intros r Hr. apply rsum_ext. intros c Hc.
        destruct (le_lt_dec (S j) r) as [H1|H1]; [rewrite (T2 r) by auto; ring|].
        destruct (le_lt_dec (S j) c) as [H2|H2]; [rewrite (T2 c) by auto; ring|].
        rewrite <- (proj1 HI' r c Hr Hc (or_intror (conj H1 H2))). unfold rest. rewrite Ea'.
        destruct (Nat.leb_spec (S j) r); [lia|]. cbn [andb]. ring. }
      rewrite EQ, ldl_form in Q. rewrite (rsum_single n j) in Q; auto.
      - rewrite T1 in Q by auto. unfold y in Q. rewrite Nat.eqb_refl in Q. lra.
      - intros i Hi Hn. rewrite T1 by auto. unfold y. destruct (Nat.eqb_spec i j); [contradiction|ring]. }
    split.
    + exists (a + sigma * (wj * wj) / d). split; auto. rewrite Ed' in Hp. pose proof (Hd j Hj). fold d in H.
      replace (a + sigma * (wj * wj) / d) with ((d + sigma * (wj * wj) / a) * (a / d)) by (field; lra).
      apply Rmult_lt_0_compat; auto. apply Rdiv_lt_0_compat; auto.
    + intros t Ht. destruct (Nat.eq_dec t j) as [->|Hn]; auto. rewrite Eo' by auto. auto.
  - exists (u_mat st). unfold updateInPlace. rewrite E. auto.
Qed.

(** Updates that add keep the pivots at least as large. *)
Lemma update_grows n M w sigma M' : 0 <= sigma -> (forall j, (j < n)%nat -> 0 < M j j) -> updateInPlace n M w sigma = Some M' ->
  forall j, (j < n)%nat -> M j j <= M' j j.
Proof.
  intros Hs Hd E j Hj. unfold updateInPlace in E. destruct (for_opt _ _ _) as [st|] eqn:E1; [|discriminate]. injection E as <-.
  pose proof (for_opt_inv (fun k st => (exists a, u_alpha st = Some a /\ 0 < a) /\ (forall t, (t < n)%nat -> M t t <= u_mat st t t) ) _ _ _ _ E1) as H.
  apply H; clear H; auto.
  - split; [exists 1; cbn; split; auto; lra|]. cbn. intros; lra.
  - intros k s s' Hk ((a & Ea & Ha) & HM) E. unfold update_step in E. rewrite Ea in E. destruct (Req_EM_T a 0); [lra|]. cbv zeta in E.
    pose proof (HM k Hk). pose proof (Hd k Hk). assert (0 <= sigma * (u_w s k * u_w s k)) by (apply Rmult_le_pos; auto; apply Rle_0_sqr).
    destruct (Req_EM_T (u_mat s k k) 0); [lra|]. injection E as <-. cbn [u_alpha u_mat]. split.
    + exists (a + sigma * (u_w s k * u_w s k) / u_mat s k k). split; auto. apply Rplus_lt_le_0_compat; auto. apply Rle_mult_inv_pos; lra.
    + intros t Ht. assert (0 <= sigma * (u_w s k * u_w s k) / a) by (apply Rle_mult_inv_pos; auto).
      assert (M t t <= mset (u_mat s) k k (u_mat s k k + sigma * (u_w s k * u_w s k) / a) t t) as G.
      { destruct (Nat.eq_dec t k) as [->|Hn]; [rewrite mset_eq; lra|rewrite mset_neq by auto; auto]. }
      destruct (Req_EM_T _ 0); auto. destruct (Nat.eqb_spec t k) as [->|]; [rewrite Nat.ltb_irrefl|]; cbn; auto.
Qed.
