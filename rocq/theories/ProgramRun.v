(** Invariants of runs of the program object (C19-C23, C50). *)
From Coq Require Import List Arith ZArith Reals Bool Lia Lra.
From Verif Require Import Base BaseFacts LayoutModel TriWorkspaceModel AssemblerModel Spec_Assembly
  AssemblerProofs ProgramModel PreprocessModel ApiModel Spec_Program ProgramProofs.
Import ListNotations.
Open Scope nat_scope.

(** ** Manager invariant *)
Record minv (n : nat) (p : program) : Prop := {
  mi_n : p_n p = n;
  mi_dual : concat (p_duals p) = seq n (length (concat (p_duals p)));
  mi_start : p_dual_start p = n + length (concat (p_duals p));
  mi_len : length (p_cliques p) = length (p_eqs p) /\ length (p_duals p) = length (p_eqs p);
  mi_clique : forall e, e < length (p_eqs p) -> exists pre,
     nth e (p_cliques p) [] = pre ++ nth e (p_duals p) [] /\ NoDup pre /\ (forall v, In v pre -> v < n);
  mi_vars : forall e, e < length (p_eqs p) ->
     ct_vars (nth e (p_eqs p) (mkCont (CEq [] []) 0)) = length (nth e (p_cliques p) [])
}.

Lemma minv_ext n p p' : mgr p' = mgr p -> minv n p -> minv n p'.
Proof.
  intros H I. mgr_eq H. destruct I.
  split; repeat match goal with E : _ p' = _ |- _ => rewrite E; clear E end; auto.
Qed.

Lemma good_nodup n v : good_list n v -> NoDup (map Z.to_nat v) /\ forall x, In x (map Z.to_nat v) -> x < n.
Proof.
  intros [H1 H2]. split.
  - induction v as [|a v IH]; cbn; [constructor|]. inversion H1; subst. constructor.
    + rewrite in_map_iff. intros (b & E & Hb).
      pose proof (H2 a ltac:(left; auto)). pose proof (H2 b ltac:(right; auto)).
      apply Z2Nat.inj in E; try lia. subst. auto.
    + apply IH; auto. intros; apply H2; right; auto.
  - intros x Hx. apply in_map_iff in Hx as (b & <- & Hb). pose proof (H2 b Hb). lia.
Qed.

Lemma nth_snoc {A} (l : list A) x e d : e < length (l ++ [x]) ->
  nth e (l ++ [x]) d = if e =? length l then x else nth e l d.
Proof.
  rewrite app_length; cbn. intros H. destruct (Nat.eqb_spec e (length l)) as [->|Hn].
  - rewrite app_nth2, Nat.sub_diag; auto.
  - apply app_nth1. lia.
Qed.

Lemma minv_append n p p' x v du reg : minv n p -> good_list n v ->
  du = seq (p_dual_start p) (length du) -> mappended p p' x v du reg -> minv n p'.
Proof.
  intros I Hg Hd (E1 & E2 & E3 & E4 & E5 & E6). destruct I as [I1 I2 I3 [I4 I4'] I5 I6].
  assert (length (concat (p_duals p')) = length (concat (p_duals p)) + length du) as HL.
  { rewrite E4, concat_app, app_length. cbn. rewrite app_nil_r. auto. }
  split.
  - congruence.
  - rewrite HL. rewrite E4, concat_app. cbn. rewrite app_nil_r, seq_app. f_equal; auto.
    rewrite Hd at 1. rewrite I3. auto.
  - rewrite HL, E5, I3. lia.
  - rewrite E2, E3, E4, !app_length. cbn. lia.
  - intros e He. rewrite E2 in He. rewrite app_length in He. cbn in He.
    rewrite E3, E4, !nth_snoc by (rewrite app_length; cbn; lia). rewrite I4, I4'.
    destruct (Nat.eqb_spec e (length (p_eqs p))).
    + exists (map Z.to_nat v). split; auto. apply good_nodup; auto.
    + apply I5. lia.
  - intros e He. rewrite E2 in He |- *. rewrite app_length in He. cbn in He.
    rewrite E3, !nth_snoc by (rewrite app_length; cbn; lia). rewrite I4.
    destruct (Nat.eqb_spec e (length (p_eqs p))).
    + cbn. rewrite app_length, map_length. lia.
    + apply I6. lia.
Qed.

Lemma new_duals_seq p lv x : new_duals p lv x = seq (p_dual_start p) (length (new_duals p lv x)).
Proof. destruct x, lv; cbn; auto. rewrite seq_length. auto. Qed.

Lemma minv_step n p k p' r : minv n p -> (0 < n \/ ~ sets_variables k) ->
  api_step p k = Ok (p', r) -> minv n p'.
Proof.
  intros I Hn E. apply step_effect in E. destruct E as [p' H|p' lv x vars Hg Ha _|q p' x y Ha Hb|m p' H H0 Hm|i x ct p' Hk Hi _ ->].
  - eapply minv_ext; eauto.
  - rewrite (mi_n _ _ I) in Hg. eapply minv_append; eauto. apply new_duals_seq.
  - assert (minv n q) as Iq.
    { eapply minv_append; eauto; [|apply new_duals_seq]. rewrite <- (mi_n _ _ I). apply all_variables_good. }
    eapply minv_append; eauto; [|apply new_duals_seq]. rewrite <- (mi_n _ _ Iq). apply all_variables_good.
  - pose proof (mi_n _ _ I). destruct Hn as [Hn|Hn]; [lia|tauto].
  - pose proof (set_data_mgr p i x ct Hi) as H. mgr_eq H. destruct I as [I1 I2 I3 [I4 I4'] I5 I6].
    assert (i < length (p_eqs p)) as Hl by (eapply nth_error_lt; eauto).
    split; repeat match goal with E : _ (set_data p i x) = _ |- _ => rewrite E; clear E end; auto.
    + rewrite upd_length. auto.
    + rewrite upd_length. auto.
    + intros e He. rewrite upd_length in He. rewrite nth_upd by auto.
      destruct (Nat.eqb_spec i e) as [<-|].
      * cbn. rewrite <- (I6 i Hl). rewrite (nth_error_nth _ _ (mkCont (CEq [] []) 0) Hi). auto.
      * apply I6; auto.
Qed.

Lemma run_cons p k t p2 rs : api_run p (k :: t) = Ok (p2, rs) ->
  exists p1 r rs', api_step p k = Ok (p1, r) /\ api_run p1 t = Ok (p2, rs') /\ rs = r :: rs'.
Proof.
  cbn. intros E. apply bind_ok in E as ([p1 r] & E1 & E). apply bind_ok in E as ([p3 rs'] & E2 & E).
  injection E as <- <-. eauto 10.
Qed.

Lemma run_app p k1 k2 p2 rs : api_run p (k1 ++ k2) = Ok (p2, rs) ->
  exists p1 r1 r2, api_run p k1 = Ok (p1, r1) /\ api_run p1 k2 = Ok (p2, r2) /\ rs = r1 ++ r2.
Proof.
  revert p rs. induction k1 as [|k t IH]; intros p rs E.
  - exists p, [], rs. auto.
  - cbn [app] in E. apply run_cons in E as (q & r & rs' & E1 & E2 & ->).
    apply IH in E2 as (p1 & r1 & r2 & E2 & E3 & ->). exists p1, (r :: r1), r2.
    cbn. rewrite E1. cbn [bind]. rewrite E2. auto.
Qed.

Lemma minv_run n : forall ks p p' rs, minv n p -> (0 < n \/ Forall (fun k => ~ sets_variables k) ks) ->
  api_run p ks = Ok (p', rs) -> minv n p'.
Proof.
  induction ks as [|k t IH]; intros p p' rs I Hn E.
  - cbn in E. injection E as <- <-. auto.
  - apply run_cons in E as (p1 & r & rs' & E1 & E2 & ->).
    eapply IH; [| |exact E2].
    + eapply minv_step; eauto. destruct Hn as [Hn|Hn]; auto. inversion Hn; auto.
    + destruct Hn as [Hn|Hn]; auto. inversion Hn; auto.
Qed.

Lemma minv_new n : minv n (new_program n).
Proof. split; cbn; auto; intros; lia. Qed.

Lemma fold_add_acc {A} (f : A -> nat) l : forall a, fold_left (fun s x => s + f x) l a = a + fold_left (fun s x => s + f x) l 0.
Proof. induction l as [|x t IH]; cbn; intros a; [lia|]. rewrite IH, (IH (f x)). lia. Qed.

Lemma fold_lengths (l : list (list nat)) : fold_left (fun s dv => s + length dv) l 0 = length (concat l).
Proof.
  induction l as [|x t IH]; cbn; auto. rewrite fold_add_acc, IH, app_length. auto.
Qed.

Lemma minv_kkt n p : minv n p -> SizeOfKKTSystem p = n + length (concat (p_duals p)).
Proof. intros I. unfold SizeOfKKTSystem. rewrite (mi_n _ _ I), fold_lengths. auto. Qed.

Lemma minv_dual_ge n p e v : minv n p -> In v (nth e (p_duals p) []) -> n <= v < SizeOfKKTSystem p.
Proof.
  intros I H. rewrite (minv_kkt _ _ I).
  assert (In v (concat (p_duals p))) as Hc.
  { apply in_concat. exists (nth e (p_duals p) []). split; auto.
    destruct (Nat.lt_ge_cases e (length (p_duals p))); [apply nth_In; auto|].
    rewrite nth_overflow in H by auto. destruct H. }
  rewrite (mi_dual _ _ I) in Hc. apply in_seq in Hc. lia.
Qed.

Lemma concat_nodup_nth {A} (l : list (list A)) e : NoDup (concat l) -> NoDup (nth e l []).
Proof.
  revert e. induction l as [|x t IH]; cbn; intros e H.
  - destruct e; constructor.
  - apply NoDup_app_inv in H as (H1 & H2 & H3). destruct e; auto.
Qed.

Lemma concat_nodup_disjoint {A} (l : list (list A)) e f v : NoDup (concat l) ->
  In v (nth e l []) -> In v (nth f l []) -> e = f.
Proof.
  revert e f. induction l as [|x t IH]; cbn; intros e f H He Hf.
  - destruct e; destruct He.
  - apply NoDup_app_inv in H as (H1 & H2 & H3).
    assert (forall g, In v (nth g t []) -> In v (concat t)) as Hg.
    { intros g Hg. apply in_concat. exists (nth g t []). split; auto.
      destruct (Nat.lt_ge_cases g (length t)); [apply nth_In; auto|].
      rewrite nth_overflow in Hg by auto. destruct Hg. }
    destruct e, f; auto.
    + exfalso. eapply H3; eauto.
    + exfalso. eapply H3; eauto.
Qed.

Lemma minv_nodup n p : minv n p -> NoDup (concat (p_duals p)).
Proof. intros I. rewrite (mi_dual _ _ I). apply seq_NoDup. Qed.

Lemma nodup_app {A} (a b : list A) : NoDup a -> NoDup b -> (forall x, In x a -> ~ In x b) -> NoDup (a ++ b).
Proof.
  induction a as [|x a IH]; cbn; intros Ha Hb Hd; auto. inversion Ha; subst. constructor.
  - rewrite in_app_iff. intros [H|H]; [auto|]. eapply Hd; eauto.
  - apply IH; auto.
Qed.

Lemma minv_clique_nodup n p : minv n p -> forall c, In c (p_cliques p) -> NoDup c.
Proof.
  intros I. destruct (mi_len _ _ I) as [HL1 HL2].
    intros c Hc. apply (In_nth _ _ []) in Hc as (e & He & <-). rewrite HL1 in He.
    destruct (mi_clique _ _ I e He) as (pre & -> & Hp & Hlt).
    apply nodup_app; auto.
    + apply concat_nodup_nth. eapply minv_nodup; eauto.
    + intros v Hv Hd. apply Hlt in Hv. eapply minv_dual_ge in Hd; eauto. lia.
Qed.

Lemma minv_admissible n p : minv n p -> nth 0 (p_cliques p) [] <> [] -> admissible (p_cliques p) (p_duals p).
Proof.
  intros I H0. destruct (mi_len _ _ I) as [HL1 HL2]. split; auto.
  - eapply minv_clique_nodup; eauto.
  - congruence.
  - intros e He. rewrite HL1 in He. destruct (mi_clique _ _ I e He) as (pre & E & _). eauto.
Qed.

Lemma minv_range n p c v : minv n p -> In c (p_cliques p) -> In v c -> v < SizeOfKKTSystem p.
Proof.
  intros I Hc Hv. apply (In_nth _ _ []) in Hc as (e & He & <-). rewrite (proj1 (mi_len _ _ I)) in He.
  destruct (mi_clique _ _ I e He) as (pre & E & Hp & Hlt). rewrite E in Hv.
  apply in_app_or in Hv as [Hv|Hv].
  - apply Hlt in Hv. rewrite (minv_kkt _ _ I). lia.
  - eapply minv_dual_ge; eauto.
Qed.

(** ** What later calls preserve (C20) *)

Lemma same_shape_refl o : same_shape o o.
Proof. destruct o; cbn; auto. Qed.

Lemma same_shape_trans a b c : same_shape a b -> same_shape b c -> same_shape a c.
Proof.
  destruct a, b; cbn; try tauto; destruct c; cbn; try tauto; intros; intuition congruence.
Qed.

Ltac tests E := repeat match type of E with (if ?b then _ else _) = _ =>
  let H := fresh "T" in destruct b eqn:H; try discriminate end.

Lemma update_lin_spec o val v r c d x s : UpdateLinearOperator o val v r c d = Ok (x, s) ->
  same_shape o x /\ (s = SUCCESS \/ (s = FAILURE /\ x = o)).
Proof.
  unfold UpdateLinearOperator. destruct o; intros E; tests E; injection E as <- <-;
    try (split; [apply same_shape_refl|auto]; fail); cbn; split; auto.
  split; auto. unfold mset. rewrite upd_length. auto.
Qed.

Lemma update_aff_spec o val r c d x s : UpdateAffineTerm o val r c d = Ok (x, s) ->
  same_shape o x /\ (s = SUCCESS \/ (s = FAILURE /\ x = o)).
Proof.
  unfold UpdateAffineTerm. destruct o; intros E; tests E; injection E as <- <-;
    try (split; [apply same_shape_refl|auto]; fail); cbn; split; auto.
  unfold mset. rewrite upd_length. auto.
Qed.

Record kept (touched : nat -> Prop) (p p' : program) : Prop := {
  kp_count : length (p_eqs p) <= length (p_eqs p');
  kp_clique : forall i c, nth_error (p_cliques p) i = Some c -> nth_error (p_cliques p') i = Some c;
  kp_dual : forall i c, nth_error (p_duals p) i = Some c -> nth_error (p_duals p') i = Some c;
  kp_con : exists l, p_constraints p' = p_constraints p ++ l;
  kp_data : forall i ct, nth_error (p_eqs p) i = Some ct -> exists ct',
     nth_error (p_eqs p') i = Some ct' /\ ct_vars ct' = ct_vars ct /\
     same_shape (ct_data ct) (ct_data ct') /\ (touched i \/ ct' = ct)
}.

Lemma kept_refl (T : nat -> Prop) p p' : mgr p' = mgr p -> kept T p p'.
Proof.
  intros H. mgr_eq H.
  split; repeat match goal with E : _ p' = _ |- _ => rewrite E; clear E end; auto.
  - exists []. rewrite app_nil_r. auto.
  - intros i ct Hi. exists ct. split; auto. split; auto. split; auto. apply same_shape_refl.
Qed.

Lemma kept_trans (T U : nat -> Prop) p q r : kept T p q -> kept U q r -> kept (fun i => T i \/ U i) p r.
Proof.
  intros [A1 A2 A3 [l1 A4] A5] [B1 B2 B3 [l2 B4] B5]. split; auto.
  - lia.
  - exists (l1 ++ l2). rewrite B4, A4, app_assoc. auto.
  - intros i ct H. destruct (A5 i ct H) as (c1 & H1 & H2 & H3 & H4).
    destruct (B5 i c1 H1) as (c2 & H5 & H6 & H7 & H8). exists c2. split; auto. split; [congruence|].
    split; [eapply same_shape_trans; eauto|].
    destruct H4; auto. destruct H8; auto. right. congruence.
Qed.

Lemma nth_error_snoc {A} (l : list A) x i a : nth_error l i = Some a -> nth_error (l ++ [x]) i = Some a.
Proof. intros H. rewrite nth_error_app1; auto. eapply nth_error_lt; eauto. Qed.

Lemma kept_append T p p' x v du reg : mappended p p' x v du reg -> kept T p p'.
Proof.
  intros (E1 & E2 & E3 & E4 & E5 & E6). split.
  - rewrite E2, app_length. cbn. lia.
  - intros. rewrite E3. apply nth_error_snoc; auto.
  - intros. rewrite E4. apply nth_error_snoc; auto.
  - eauto.
  - intros i ct H. exists ct. rewrite E2. split; [apply nth_error_snoc; auto|]. split; auto.
    split; auto. apply same_shape_refl.
Qed.

Lemma nth_error_upd {A} (l : list A) i a j : i < length l ->
  nth_error (upd l i a) j = if i =? j then Some a else nth_error l j.
Proof.
  revert i j. induction l as [|x t IH]; cbn; intros i j H; [lia|].
  destruct i, j; cbn; auto. apply IH. lia.
Qed.

Lemma step_kept p k p' r : api_step p k = Ok (p', r) -> kept (fun i => names i k) p p'.
Proof.
  intros E. apply step_effect in E.
  destruct E as [p' H|p' lv x vars Hg Ha _|q p' x y Ha Hb|m p' H H0 Hm|i x ct p' Hk Hi Hu ->].
  - apply kept_refl; auto.
  - eapply kept_append; eauto.
  - assert (kept (fun i => names i k \/ names i k) p p') as [K1 K2 K3 K4 K5].
    { eapply kept_trans; eapply kept_append; eauto. }
    split; auto. intros i ct Hi. destruct (K5 i ct Hi) as (c' & ? & ? & ? & ?). exists c'. tauto.
  - mgr_eq Hm. split; repeat match goal with E : _ p' = _ |- _ => rewrite E; clear E end; auto.
    + exists []. rewrite app_nil_r. auto.
    + intros i ct Hi. exists ct. split; auto. split; auto. split; auto. apply same_shape_refl.
  - pose proof (set_data_mgr p i x ct Hi) as H. mgr_eq H.
    assert (i < length (p_eqs p)) as Hl by (eapply nth_error_lt; eauto).
    split; repeat match goal with E : _ (set_data p i x) = _ |- _ => rewrite E; clear E end; auto.
    + rewrite upd_length. auto.
    + exists []. rewrite app_nil_r. auto.
    + intros j cj Hj. rewrite nth_error_upd by auto. destruct (Nat.eqb_spec i j) as [<-|Hn].
      * exists (mkCont x (ct_vars ct)). rewrite Hi in Hj. injection Hj as <-. cbn.
        split; auto. split; auto. split; auto.
        destruct Hu as (s & [(val & v & r0 & c & d & Hu)|(val & r0 & c & d & Hu)]).
        -- eapply update_lin_spec; eauto.
        -- eapply update_aff_spec; eauto.
      * exists cj. split; auto. split; auto. split; auto. apply same_shape_refl.
Qed.

Lemma run_kept : forall ks p p' rs, api_run p ks = Ok (p', rs) ->
  kept (fun i => Exists (names i) ks) p p'.
Proof.
  induction ks as [|k t IH]; intros p p' rs E.
  - cbn in E. injection E as <- <-. apply kept_refl; auto.
  - apply run_cons in E as (p1 & r & rs' & E1 & E2 & ->).
    pose proof (kept_trans _ _ _ _ _ (step_kept _ _ _ _ E1) (IH _ _ _ E2)) as [K1 K2 K3 K4 K5].
    split; auto. intros i ct Hi. destruct (K5 i ct Hi) as (c' & H1 & H2 & H3 & H4).
    exists c'. split; auto. split; auto. split; auto.
    destruct H4 as [[H4|H4]|H4]; auto.
Qed.

Lemma upd_same {A} (l : list A) i a : nth_error l i = Some a -> upd l i a = l.
Proof.
  revert i. induction l as [|x t IH]; cbn; intros [|i] H; try discriminate; auto.
  - injection H as <-. auto.
  - f_equal. auto.
Qed.

Lemma set_data_same p i ct : nth_error (p_eqs p) i = Some ct -> set_data p i (ct_data ct) = p.
Proof.
  intros H. unfold set_data. rewrite H. destruct ct as [x v]. cbn. rewrite upd_same by auto.
  destruct p; reflexivity.
Qed.

Lemma update_lin_fail p i val v r c d p' s :
  UpdateLinearOperatorOfConstraint p i val v r c d = Ok (p', s) -> s <> SUCCESS -> p' = p.
Proof.
  unfold UpdateLinearOperatorOfConstraint. intros E Hs. destruct (Zneg i).
  { injection E as <- <-. auto. }
  destruct (nth_error (p_eqs p) (Z.to_nat i)) as [ct|] eqn:Hn; [|injection E as <- <-; auto].
  apply bind_ok in E as ([x s'] & E1 & E). injection E as <- <-.
  apply update_lin_spec in E1 as (_ & [H|[_ ->]]); [congruence|]. apply set_data_same; auto.
Qed.

Lemma update_aff_fail p i val r c d p' s :
  UpdateAffineTermOfConstraint p i val r c d = Ok (p', s) -> s <> SUCCESS -> p' = p.
Proof.
  unfold UpdateAffineTermOfConstraint. intros E Hs. destruct (Zneg i).
  { injection E as <- <-. auto. }
  destruct (nth_error (p_eqs p) (Z.to_nat i)) as [ct|] eqn:Hn; [|injection E as <- <-; auto].
  apply bind_ok in E as ([x s'] & E1 & E). injection E as <- <-.
  apply update_aff_spec in E1 as (_ & [H|[_ ->]]); [congruence|]. apply set_data_same; auto.
Qed.

(** A failing call changes nothing. *)
Lemma step_failure p k p' r : returns_status k -> api_step p k = Ok (p', r) ->
  rp_return r <> SUCCESS -> p' = p.
Proof.
  intros Hk E Hr. destruct k; cbn [api_step] in E; try (cbn in Hk; tauto);
    repeat match type of E with (if ?b then _ else _) = _ =>
      destruct b; [injection E as <- <-; auto; fail|] end.
  - injection E as <- <-. cbn in Hr. congruence.
  - apply bind_ok in E as ([q s] & E1 & E). injection E as <- <-. cbn in Hr. congruence.
  - apply bind_ok in E as ([q s] & E1 & E). injection E as <- <-. cbn in Hr.
    apply add_cases in E1 as [(-> & _)|(_ & H & _)]; [congruence|auto].
  - apply bind_ok in E as ([q s] & E1 & E). injection E as <- <-. cbn in Hr.
    unfold AddQuadraticCost_all in E1. destruct (negb _) in E1; [injection E1 as <- <-; auto|].
    unfold AddQuadraticCost in E1. apply bind_ok in E1 as ([q' s'] & _ & E1). injection E1 as <- <-.
    cbn in Hr. unfold SUCCESS in Hr. congruence.
  - apply bind_ok in E as ([vs Q] & _ & E). apply bind_ok in E as ([q s] & E1 & E). injection E as <- <-.
    cbn in Hr. unfold AddQuadraticCost in E1. apply bind_ok in E1 as ([q' s'] & _ & E1). injection E1 as <- <-.
    cbn in Hr. unfold SUCCESS in Hr. congruence.
  - apply bind_ok in E as ([q s] & E1 & E). injection E as <- <-. cbn in Hr. congruence.
  - apply bind_ok in E as ([q s] & E1 & E). injection E as <- <-. eapply update_lin_fail; eauto.
  - apply bind_ok in E as ([q s] & E1 & E). injection E as <- <-. eapply update_aff_fail; eauto.
  - apply bind_ok in E as ([q s] & E1 & E). injection E as <- <-. eapply update_aff_fail; eauto.
  - apply bind_ok in E as ([q s] & E1 & E). injection E as <- <-. cbn in Hr.
    apply add_cases in E1 as [(-> & _)|(_ & H & _)]; [congruence|auto].
Qed.

(** ** Lengths *)
Definition lens (p : program) : Prop :=
  length (p_cliques p) = length (p_eqs p) /\ length (p_duals p) = length (p_eqs p).

Lemma lens_append p p' x v du reg : lens p -> mappended p p' x v du reg -> lens p'.
Proof.
  unfold lens. intros [H1 H2] (E1 & E2 & E3 & E4 & E5 & E6). rewrite E2, E3, E4, !app_length. cbn. lia.
Qed.

Lemma lens_step p k p' r : lens p -> api_step p k = Ok (p', r) -> lens p'.
Proof.
  intros I E. apply step_effect in E.
  destruct E as [p' H|p' lv x vars Hg Ha _|q p' x y Ha Hb|m p' H H0 Hm|i x ct p' Hk Hi _ ->].
  - mgr_eq H. unfold lens in *. congruence.
  - eapply lens_append; eauto.
  - eapply lens_append; [|eauto]. eapply lens_append; eauto.
  - mgr_eq Hm. unfold lens in *. congruence.
  - pose proof (set_data_mgr p i x ct Hi) as H. mgr_eq H. unfold lens in *.
    repeat match goal with E : _ (set_data p i x) = _ |- _ => rewrite E; clear E end. rewrite upd_length. auto.
Qed.

Lemma lens_run : forall ks p p' rs, lens p -> api_run p ks = Ok (p', rs) -> lens p'.
Proof.
  induction ks as [|k t IH]; intros p p' rs I E.
  - cbn in E. injection E as <- <-. auto.
  - apply run_cons in E as (p1 & r & rs' & E1 & E2 & ->). eauto using lens_step.
Qed.

(** ** Identifiers (C22) *)
Lemma last_id_snoc (p p' : program) c : p_eqs p' = p_eqs p ++ [c] -> last_id p' = Z.of_nat (NumberOfConstraints p).
Proof. intros E. unfold last_id, NumberOfConstraints. rewrite E, app_length. cbn. lia. Qed.

Lemma appended_new p p' x v du reg : lens p -> mappended p p' x v du reg ->
  nth_error (p_eqs p') (NumberOfConstraints p) = Some (mkCont x (length du + length v)) /\
  nth_error (p_cliques p') (NumberOfConstraints p) = Some (map Z.to_nat v ++ du) /\
  NumberOfConstraints p' = S (NumberOfConstraints p).
Proof.
  intros [H1 H2] (E1 & E2 & E3 & E4 & E5 & E6). unfold NumberOfConstraints.
  rewrite E2, E3. rewrite !nth_error_app2 by lia. rewrite H1, Nat.sub_diag. cbn.
  rewrite app_length. cbn. repeat split; auto. lia.
Qed.

Lemma identifier_new p k x p' r i : lens p -> creates (p_n p) k = Some x ->
  api_step p k = Ok (p', r) -> identifier k r = Some i ->
  (forall n As C v, k = AAddSparseLMI n As C v -> good_list (p_n p) v) ->
  exists j, i = Z.of_nat j /\ j = NumberOfConstraints p /\ NumberOfConstraints p' = S j /\
    nth_error (p_eqs p') j = Some (mkCont x (length (created_on (p_n p) k))) /\
    nth_error (p_cliques p') j = Some (map Z.to_nat (created_on (p_n p) k)).
Proof.
  intros HL Hc E Hi Hs.
  assert (forall (lv : bool) y vars s, (forall A b, y = CEq A b -> False) -> AddConstraint p lv y vars = Ok (p', s) ->
            good_list (p_n p) (list_of p vars) -> s = SUCCESS /\
            mappended p p' y (list_of p vars) [] true) as HA.
  { intros lv y vars s Hy EA HG. apply add_cases in EA as [(-> & _ & Ha)|(_ & _ & v & -> & Hv)]; [|tauto].
    split; auto. apply appended_m in Ha.
    assert (new_duals p lv y = [] /\ registered lv y = true) as [<- <-].
    { destruct y; cbn; auto. exfalso. eapply Hy; eauto. }
    auto. }
  assert (forall y vars reg, mappended p p' y vars [] reg ->
            NumberOfConstraints p' = S (NumberOfConstraints p) /\ last_id p' = Z.of_nat (NumberOfConstraints p) /\
            nth_error (p_eqs p') (NumberOfConstraints p) = Some (mkCont y (length vars)) /\
            nth_error (p_cliques p') (NumberOfConstraints p) = Some (map Z.to_nat vars)) as HN.
  { intros y vars reg HM. destruct (appended_new _ _ _ _ _ _ HL HM) as (N1 & N2 & N3).
    rewrite app_nil_r in N2. split; auto. split; auto. apply (last_id_snoc p p' _ (proj1 (proj2 HM))). }
  assert (good_list (p_n p) (list_of p None)) as GA by apply all_variables_good.
  destruct k; try discriminate; cbn [api_step] in E; cbn [creates] in Hc; injection Hc as <-;
    cbn [created_on]; cbn [identifier] in Hi;
    repeat match type of E with (if ?b then _ else _) = _ =>
      destruct b; [injection E as <- <-; discriminate|] end.
  - apply bind_ok in E as ([q s] & EA & E). injection E as <- <-. cbn in Hi. injection Hi as <-.
    apply HA in EA as [-> HM]; auto; [|discriminate]. apply HN in HM as (N1 & N2 & N3 & N4). eexists. eauto 10.
  - apply bind_ok in E as ([q s] & EA & E). injection E as <- <-. cbn in Hi. injection Hi as <-.
    apply HA in EA as [-> HM]; auto; [|discriminate]. apply HN in HM as (N1 & N2 & N3 & N4). eexists. eauto 10.
  - apply bind_ok in E as ([q s] & EA & E). injection E as <- <-. cbn in Hi. injection Hi as <-.
    unfold AddQuadraticCost_all, zeros in EA. rewrite (repeat_length (repeat 0%R (p_n p)) (p_n p)) in EA.
    rewrite Nat.eqb_refl in EA. cbn [negb] in EA.
    unfold AddQuadraticCost in EA. apply bind_ok in EA as ([q' s'] & EA & E). injection E as <- <-.
    apply add_cases in EA as [(-> & _ & Ha)|(_ & _ & v & EV & Hv)].
    2: { injection EV as <-. destruct Hv. exact (all_variables_good p). }
    apply appended_m in Ha. apply HN in Ha as (N1 & N2 & N3 & N4). eexists. eauto 10.
  - apply bind_ok in E as ([q s] & EA & E). injection E as <- <-. cbn in Hi. injection Hi as <-.
    apply HA in EA as [-> HM]; auto; [|discriminate]. apply HN in HM as (N1 & N2 & N3 & N4). eexists. eauto 10.
  - apply bind_ok in E as ([q s] & EA & E). injection E as <- <-. cbn in Hi. injection Hi as <-.
    apply HA in EA as [-> HM]; auto; [|discriminate]. apply HN in HM as (N1 & N2 & N3 & N4). eexists. eauto 10.
  - apply bind_ok in E as ([q s] & EA & E). injection E as <- <-. cbn in Hi. injection Hi as <-.
    apply HA in EA as [-> HM]; [|discriminate|cbn; eapply Hs; eauto].
    apply HN in HM as (N1 & N2 & N3 & N4). eexists. eauto 10.
  - apply bind_ok in E as ([q s] & EA & E). injection E as <- <-. cbn in Hi. injection Hi as <-.
    apply HA in EA as [-> HM]; auto; [|discriminate]. apply HN in HM as (N1 & N2 & N3 & N4). eexists. eauto 10.
Qed.

(** ** State outside the manager (C21, C23) *)
Lemma add_rest p lv x vars p' s : AddConstraint p lv x vars = Ok (p', s) ->
  rest p' = rest p /\ p_cost p' = p_cost p /\ p_quadratic p' = p_quadratic p.
Proof.
  intros E. apply add_cases in E as [(_ & _ & Ha)|(_ & -> & _)]; auto. eapply appended_rest; eauto.
Qed.

Lemma quad_rest p Q v p' s : AddQuadraticCost p Q v = Ok (p', s) -> rest p' = rest p /\ p_cost p' = p_cost p.
Proof.
  unfold AddQuadraticCost. intros E. apply bind_ok in E as ([q s'] & E1 & E). injection E as <- <-.
  apply add_rest in E1 as (H1 & H2 & _). auto.
Qed.

Lemma set_data_rest p i x : rest (set_data p i x) = rest p /\ p_cost (set_data p i x) = p_cost p.
Proof. unfold set_data. destruct (nth_error _ _); auto. Qed.

Lemma update_lin_rest p i val v r c d p' s :
  UpdateLinearOperatorOfConstraint p i val v r c d = Ok (p', s) -> rest p' = rest p /\ p_cost p' = p_cost p.
Proof.
  unfold UpdateLinearOperatorOfConstraint. destruct (Zneg i).
  { intros E. injection E as <- <-. auto. }
  destruct (nth_error _ _); intros E; [|injection E as <- <-; auto].
  apply bind_ok in E as ([x s'] & _ & E). injection E as <- <-. apply set_data_rest.
Qed.
Lemma update_aff_rest p i val r c d p' s :
  UpdateAffineTermOfConstraint p i val r c d = Ok (p', s) -> rest p' = rest p /\ p_cost p' = p_cost p.
Proof.
  unfold UpdateAffineTermOfConstraint. destruct (Zneg i).
  { intros E. injection E as <- <-. auto. }
  destruct (nth_error _ _); intros E; [|injection E as <- <-; auto].
  apply bind_ok in E as ([x s'] & _ & E). injection E as <- <-. apply set_data_rest.
Qed.

Definition cost_call (k : call) : Prop :=
  match k with PAddLinearCost _ | PClearLinearCosts | AMaximize _ _ _ => True | _ => False end.

Lemma step_rest p k p' r : api_step p k = Ok (p', r) ->
  (~ is_solve k -> rest p' = rest p) /\ (~ cost_call k -> (p_n p <> 0 \/ ~ sets_variables k) -> p_cost p' = p_cost p).
Proof.
  intros E. destruct k; cbn [api_step] in E;
    repeat match type of E with (if ?b then _ else _) = _ =>
      let T := fresh "T" in destruct b eqn:T; [injection E as <- <-; auto; fail|] end.
  - injection E as <- <-. split; auto. intros _ [H|H]; [|destruct H; cbn; auto].
    apply negb_false_iff, Nat.eqb_eq in T1. congruence.
  - apply bind_ok in E as ([q s] & EA & E). injection E as <- <-. apply add_rest in EA. tauto.
  - apply bind_ok in E as ([q s] & EA & E). injection E as <- <-. apply add_rest in EA. tauto.
  - apply bind_ok in E as ([q s] & EA & E). injection E as <- <-.
    unfold AddQuadraticCost_all in EA. destruct (negb _) in EA; [injection EA as <- <-; auto|].
    apply quad_rest in EA. tauto.
  - apply bind_ok in E as ([vs Q] & _ & E). apply bind_ok in E as ([q s] & EA & E). injection E as <- <-.
    apply quad_rest in EA. tauto.
  - apply bind_ok in E as ([q s] & EA & E). injection E as <- <-. apply add_rest in EA. tauto.
  - apply bind_ok in E as ([q s] & EA & E). injection E as <- <-. apply update_lin_rest in EA. tauto.
  - apply bind_ok in E as ([q s] & EA & E). injection E as <- <-. apply update_aff_rest in EA. tauto.
  - apply bind_ok in E as ([q s] & EA & E). injection E as <- <-. apply update_aff_rest in EA. tauto.
  - apply bind_ok in E as ([q s] & EA & E). injection E as <- <-. apply add_rest in EA. tauto.
  - apply bind_ok in E as ([q s] & EA & E). injection E as <- <-. apply add_rest in EA. tauto.
  - apply bind_ok in E as ([q s] & EA & E). injection E as <- <-. apply add_rest in EA. tauto.
  - destruct (PreprocessLinearInequality rows) as [sp|]; [|discriminate].
    apply bind_ok in E as ([p1 s1] & E1 & E). apply bind_ok in E as ([p2 s2] & E2 & E).
    injection E as <- <-.
    assert (rest p1 = rest p /\ p_cost p1 = p_cost p) as [H1 H2].
    { destruct (0 <? length (sp_ineq sp)); [apply add_rest in E1; tauto|injection E1 as <- <-; auto]. }
    assert (rest p2 = rest p1 /\ p_cost p2 = p_cost p1) as [H3 H4].
    { destruct (0 <? length (sp_eq sp)); [apply add_rest in E2; tauto|injection E2 as <- <-; auto]. }
    split; intros; congruence.
  - injection E as <- <-. auto.
  - split; cbn; tauto.
  - split; [cbn; tauto|]. apply bind_ok in E as ([q s] & EA & E). injection E as <- <-.
    apply Solve_program_mgr in EA as (_ & H & _). auto.
  - apply bind_ok in E as ([q s] & EA & E). injection E as <- <-. apply add_rest in EA. tauto.
  - split; [|cbn; tauto]. unfold AddLinearCost in E. destruct (negb _) in E; injection E as <- <-; auto.
  - split; [|cbn; tauto]. injection E as <- <-. auto.
  - apply bind_ok in E as ([q s] & EA & E). injection E as <- <-. apply quad_rest in EA. tauto.
Qed.
