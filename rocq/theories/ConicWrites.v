(** Coefficients written one by one (C72). *)
From Coq Require Import List Arith ZArith Reals Bool Lia Lra.
From Verif Require Import Base BaseFacts ProgramModel ApiModel Spec_Program CoeffProofs ProgramProofs ProgramRun ProgramState
  Spec_Preprocess Spec_Conex Spec_Client Spec_Conic.
Import ListNotations.
Open Scope R_scope.

Definition cols_of (o : cdata) : nat := match o with CSoc _ A _ => length A | CHerm _ _ As _ => length As | _ => 0%nat end.
Definition has_affine (o : cdata) : Prop := match o with CSoc _ _ c => c <> [] | CHerm _ _ _ C => C <> [] | _ => False end.
Definition conic_class (o : cdata) : Prop := match o with CSoc _ _ _ => True | CHerm h _ _ _ => (0 < h)%nat | _ => False end.
Definition last_col (w : write) : nat := match w_var w with Some v => Z.to_nat v + 1 | None => 0 end.

Lemma upd_some {A} (l : list A) i x : l <> [] -> upd l i x <> [].
Proof. intros H E. apply H. apply (f_equal (@length _)) in E. rewrite upd_length in E. destruct l; [auto|discriminate]. Qed.
Lemma repeat_some {A} (x : A) k : (0 < k)%nat -> repeat x k <> [].
Proof. destruct k; [lia|discriminate]. Qed.

Lemma send_cols o w o' : conic_class o -> send o w = Ok (o', SUCCESS) ->
  cols_of o' = Nat.max (cols_of o) (last_col w) /\ (w_var w = None \/ has_affine o -> has_affine o').
Proof.
  unfold send, last_col. destruct o as [|n A a|h m As C| | | |]; cbn [conic_class]; try tauto; intros HC; destruct (w_var w) as [v|]; intros E.
  - unfold UpdateLinearOperator in E. repeat (destruct (negb _) in E; [discriminate|]). destruct (_ || _) in E; [discriminate|]. injection E as <-.
    cbn [cols_of has_affine]. split.
    + unfold mset. rewrite upd_length. unfold resize_cols. rewrite app_length, repeat_length. lia.
    + intros [|]; [discriminate|auto].
  - unfold UpdateAffineTerm in E. repeat (destruct (negb _) in E; [discriminate|]). destruct (Zneg _) in E; [discriminate|]. injection E as <-.
    cbn [cols_of has_affine]. split; [lia|]. intros _. apply upd_some. destruct a; [apply repeat_some; lia|discriminate].
  - unfold UpdateLinearOperator in E. repeat (destruct (negb _) in E; [discriminate|]). destruct (Zneg v) in E; [discriminate|]. destruct (Zneg _) in E; [discriminate|].
    destruct (_ || _) in E; [discriminate|]. injection E as <-. cbn [cols_of has_affine]. split.
    + rewrite upd_length, app_length, repeat_length. lia.
    + intros [|]; [discriminate|auto].
  - unfold UpdateAffineTerm in E. repeat (destruct (negb _) in E; [discriminate|]). destruct (Zneg _) in E; [discriminate|].
    destruct (_ || _) in E; [discriminate|]. injection E as <-. cbn [cols_of has_affine]. split; [lia|]. intros _. apply upd_some. destruct C; [apply repeat_some; auto|discriminate].
Qed.

Lemma conic_class_shape o o' : same_shape o o' -> conic_class o -> conic_class o'.
Proof. destruct o, o'; cbn; try tauto. intros [-> _]. auto. Qed.

Lemma written_from o l q x : fold_left (fun acc w => match assigns o w q with Some y => y | None => acc end) l x =
  last_accepted o q (combine l (repeat SUCCESS (length l))) x.
Proof. revert x. induction l as [|w l IH]; intros x; [reflexivity|]. cbn [fold_left length repeat combine]. rewrite IH. reflexivity. Qed.

Lemma send_all_cols : forall l o o' ss, conic_class o -> send_all o l = Ok (o', ss) -> Forall (fun s => s = SUCCESS) ss ->
  cols_of o' = fold_right (fun w k => Nat.max (last_col w) k) (cols_of o) l /\ (Exists (fun w => w_var w = None) l \/ has_affine o -> has_affine o').
Proof.
  induction l as [|w l IH]; intros o o' ss HC E F; cbn [send_all] in E.
  - injection E as <- <-. split; [reflexivity|]. intros [H|H]; [inversion H|auto].
  - apply bind_ok in E as ([o1 s] & E1 & E). apply bind_ok in E as ([o2 ss'] & E2 & E). injection E as <- <-. inversion F as [|a b Hs F']; subst.
    destruct (send_cols o w o1 HC E1) as [L1 A1].
    assert (same_shape o o1) as SH. { unfold send in E1. destruct (w_var w); [apply update_lin_spec in E1|apply update_aff_spec in E1]; tauto. }
    destruct (IH o1 o2 ss' (conic_class_shape _ _ SH HC) E2 F') as [L2 A2]. split.
    + rewrite L2, L1. cbn [fold_right]. clear. induction l as [|w' l IH]; cbn [fold_right]; lia.
    + intros [H|H]; apply A2; [|right; auto]. inversion H; subst; [right; auto|left; auto].
Qed.

Lemma max_cols n l : (0 < n)%nat -> (forall w, In w l -> forall v, w_var w = Some v -> (0 <= v < Z.of_nat n)%Z) ->
  Exists (fun w => w_var w = Some (Z.of_nat n - 1)%Z) l -> fold_right (fun w k => Nat.max (last_col w) k) 0%nat l = n.
Proof.
  intros Hn HB HE.
  assert (fold_right (fun w k => Nat.max (last_col w) k) 0 l <= n)%nat as HU.
  { clear HE. induction l as [|w l IH]; [cbn; lia|]. cbn [fold_right].
    assert (fold_right (fun w k => Nat.max (last_col w) k) 0 l <= n)%nat by (apply IH; intros; eapply HB; eauto; right; auto).
    assert (last_col w <= n)%nat by (unfold last_col; destruct (w_var w) as [v|] eqn:E; [specialize (HB w (or_introl eq_refl) v E); lia|lia]). lia. }
  assert (n <= fold_right (fun w k => Nat.max (last_col w) k) 0 l)%nat; [|lia].
  clear HB HU. induction HE as [w l H|w l H IH]; cbn [fold_right]; [|lia]. unfold last_col. rewrite H. lia.
Qed.

(** What a list of accepted coefficients makes of a blank constraint. *)
Lemma send_blank n o l : (0 < n)%nat -> conic_class o -> cols_of o = 0%nat -> well_sized o -> hermitian o -> (forall q, value_at o q = 0) -> writes_ok n o l ->
  exists o' ss, send_all o l = Ok (o', ss) /\ same_shape o o' /\ well_sized o' /\ hermitian o' /\ cols_of o' = n /\ has_affine o' /\
    forall q, has_place o q -> value_at o' q = written o l q.
Proof.
  intros Hn HC H0 HW HH HV (F & E1 & E2). rewrite Forall_forall in F.
  destruct (send_all_correct l o HW) as (o' & ss & ES & FS & SH & W' & V & H').
  { apply Forall_forall. intros w Hw. apply F. auto. }
  assert (Forall (fun s => s = SUCCESS) ss) as FF.
  { clear - FS F. induction FS as [|w s l ss [_ H] FS IH]; constructor; [|apply IH; intros; apply F; right; auto]. apply H. apply F. left. auto. }
  destruct (send_all_cols l o o' ss HC ES FF) as [L A]. exists o', ss. split; auto. split; auto. split; auto. split; auto. split.
  - rewrite L, H0. apply max_cols; auto. intros w Hw v Ev. destruct (F w Hw) as (R & _ & B). destruct R as (_ & _ & _ & R). specialize (R v Ev). specialize (B v Ev). lia.
  - split; [apply A; auto|]. intros q Hq. rewrite (V q Hq), HV. unfold written. rewrite written_from. f_equal. f_equal.
    assert (length ss = length l) as HL by (clear - FS; induction FS; cbn; auto). clear - FF HL. revert l HL.
    induction FF as [|s ss -> FF IH]; intros [|w l] HL; cbn in *; try discriminate; auto. f_equal. apply IH. lia.
Qed.

(** The calls that write have the effect of [send_all]. *)
Lemma set_data_nth p i x ct : nth_error (p_eqs p) i = Some ct ->
  exists ct', nth_error (p_eqs (set_data p i x)) i = Some ct' /\ ct_data ct' = x.
Proof.
  intros H. pose proof (nth_error_lt _ _ _ H) as Hl. unfold set_data. rewrite H. cbn [p_eqs set_manager]. rewrite nth_error_upd by auto. rewrite Nat.eqb_refl. eexists. split; reflexivity.
Qed.
Lemma upd_twice {A} (l : list A) i x y : upd (upd l i x) i y = upd l i y.
Proof. revert i. induction l as [|a l IH]; intros [|i]; cbn; auto. f_equal. auto. Qed.
Lemma set_data_twice p i x y ct : nth_error (p_eqs p) i = Some ct -> set_data (set_data p i x) i y = set_data p i y.
Proof.
  intros H. pose proof (nth_error_lt _ _ _ H) as Hl. unfold set_data. rewrite H. cbn [p_eqs set_manager]. rewrite nth_error_upd by auto. rewrite Nat.eqb_refl.
  unfold set_manager. cbn. rewrite upd_twice. reflexivity.
Qed.

Lemma set_data_count p i x : NumberOfConstraints (set_data p i x) = NumberOfConstraints p.
Proof. unfold set_data. destruct (nth_error (p_eqs p) i); [|reflexivity]. unfold NumberOfConstraints. cbn. apply upd_length. Qed.

Lemma set_data_cast p i x : safer_cast (set_data p i x) = safer_cast p.
Proof.
  pose proof (set_data_rest p i x) as [H _]. pose proof (set_data_count p i x) as HN. unfold rest in H. injection H as H1 H2 _ _ _ _ _ _.
  unfold safer_cast. rewrite H1, H2, HN. reflexivity.
Qed.

Lemma write_step p i w o s ct : safer_cast p = true -> nth_error (p_eqs p) i = Some ct -> send (ct_data ct) w = Ok (o, s) ->
  api_step p (write_call (Z.of_nat i) w) = Ok (set_data p i o, mkReply s None).
Proof.
  intros HS Hi E. pose proof (nth_error_lt _ _ _ Hi) as Hl. unfold send in E. unfold write_call.
  assert (negb (Z.of_nat i <? Z.of_nat (NumberOfConstraints p))%Z = false) as HB by (apply negb_false_iff, Z.ltb_lt; unfold NumberOfConstraints; lia).
  assert (Zneg (Z.of_nat i) = false) as HZ by (unfold Zneg; apply Z.ltb_ge; lia).
  destruct (w_var w); cbn [api_step]; rewrite HS, HB; cbn [negb];
    [unfold UpdateLinearOperatorOfConstraint|unfold UpdateAffineTermOfConstraint]; rewrite HZ, Nat2Z.id, Hi, E; reflexivity.
Qed.

Lemma write_run i : forall l p o ss ct, safer_cast p = true -> nth_error (p_eqs p) i = Some ct -> send_all (ct_data ct) l = Ok (o, ss) ->
  exists rs, api_run p (map (write_call (Z.of_nat i)) l) = Ok (set_data p i o, rs) /\ map rp_return rs = ss.
Proof.
  induction l as [|w l IH]; intros p o ss ct HS Hi E; cbn [send_all] in E.
  - injection E as <- <-. cbn. rewrite (set_data_same p i ct Hi). exists []. auto.
  - apply bind_ok in E as ([o1 s] & E1 & E). apply bind_ok in E as ([o2 ss'] & E2 & E). injection E as <- <-.
    cbn [map api_run]. rewrite (write_step p i w o1 s ct HS Hi E1). cbn [bind].
    destruct (set_data_nth p i o1 ct Hi) as (ct1 & Hi1 & D1). rewrite <- D1 in E2.
    destruct (IH (set_data p i o1) o2 ss' ct1) as (rs & ER & RR); auto. { rewrite set_data_cast. auto. }
    rewrite ER. cbn [bind]. rewrite (set_data_twice p i o1 o2 ct Hi). eexists. split; [reflexivity|]. cbn. f_equal. auto.
Qed.

(** Entries of the matrix of a quadratic cost. *)
Definition cost_write (e : R * nat * nat) : write := match e with (x, r, c) => mkWrite None x (Z.of_nat r) (Z.of_nat c) 0 end.

Lemma entry_run i : forall l p, api_run p (map (entry_call i) l) = api_run p (map (write_call i) (map cost_write l)).
Proof.
  induction l as [|e l IH]; intros p; [reflexivity|]. cbn [map api_run].
  assert (api_step p (entry_call i e) = api_step p (write_call i (cost_write e))) as -> by (destruct e as [[x r] c]; reflexivity).
  destruct (api_step p (write_call i (cost_write e))) as [[q s]| | |]; cbn [bind]; auto. rewrite IH. reflexivity.
Qed.

Lemma costs_sent n : forall l Q, length Q = n -> (forall row, In row Q -> length row = n) -> Forall (fun e => (snd (fst e) < n /\ snd e < n)%nat) l ->
  exists Q' ss, send_all (CQuad Q) (map cost_write l) = Ok (CQuad Q', ss) /\ length Q' = n /\ (forall row, In row Q' -> length row = n) /\
    forall r c, entry Q' r c = fold_left (fun acc e => match e with (x, i, j) => if ((i =? r) && (j =? c))%nat then x else acc end) l (entry Q r c).
Proof.
  induction l as [|[[x r] c] l IH]; intros Q HL HR F.
  - exists Q, []. auto.
  - inversion F as [|e l' [Hr Hc] F']; subst. cbn [fst snd] in Hr, Hc. cbn [map send_all].
    assert (send (CQuad Q) (cost_write (x, r, c)) = Ok (CQuad (mset Q r c x), SUCCESS)) as ->.
    { unfold send. cbn [cost_write w_var w_val w_r w_c w_dim UpdateAffineTerm Z.eqb negb].
      assert (length (nth 0 Q []) = length Q) as -> by (apply HR, nth_In; lia).
      assert (Zlt_nat (Z.of_nat r) (length Q) = true) as -> by (unfold Zlt_nat; apply Z.ltb_lt; lia).
      assert (Zlt_nat (Z.of_nat c) (length Q) = true) as -> by (unfold Zlt_nat; apply Z.ltb_lt; lia).
      assert (Zneg (Z.of_nat r) = false) as -> by (unfold Zneg; apply Z.ltb_ge; lia).
      assert (Zneg (Z.of_nat c) = false) as -> by (unfold Zneg; apply Z.ltb_ge; lia). cbn [andb negb orb]. rewrite !Nat2Z.id. reflexivity. }
    cbn [bind]. destruct (IH (mset Q r c x)) as (Q' & ss & E & L & R' & V); auto.
    { unfold mset. apply upd_length. } { apply mset_rows; auto. }
    rewrite E. cbn [bind]. exists Q', (SUCCESS :: ss). split; auto. split; auto. split; auto.
    intros r' c'. rewrite V. cbn [fold_left]. f_equal. apply entry_mset; auto. rewrite HR by (apply nth_In; auto). auto.
Qed.
