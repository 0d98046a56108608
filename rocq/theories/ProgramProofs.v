(** Proofs about the program object (C18-C25). *)
From Coq Require Import List Arith ZArith Reals Bool Lia Lra.
From Verif Require Import Base BaseFacts LayoutModel TriWorkspaceModel AssemblerModel Spec_Assembly
  ProgramModel PreprocessModel ApiModel Spec_Program.
Import ListNotations.
Open Scope nat_scope.

(** ** Variable lists *)

(** Count vector after the indices [seen]. *)
Definition counts (N : nat) (seen : list Z) (y : list nat) : Prop :=
  length y = N /\ forall i, i < N ->
    nth i y 0 = if in_dec Z.eq_dec (Z.of_nat i) seen then 1 else 0.

Lemma counts_step N seen y xi : counts N seen y -> (0 <= xi < Z.of_nat N)%Z -> ~ In xi seen ->
  counts N (seen ++ [xi]) (upd y (Z.to_nat xi) (S (nth (Z.to_nat xi) y 0))).
Proof.
  intros [Hl Hc] Hx Hn. split; [rewrite upd_length; auto|]. intros i Hi.
  destruct (Nat.eq_dec (Z.to_nat xi) i) as [<-|Hne].
  - rewrite nth_upd_eq by lia. rewrite Hc by lia. rewrite Z2Nat.id by lia.
    destruct (in_dec Z.eq_dec xi seen); [tauto|].
    destruct (in_dec Z.eq_dec xi (seen ++ [xi])) as [|H]; auto.
    exfalso; apply H. apply in_or_app. right; left; auto.
  - rewrite nth_upd_neq by auto. rewrite Hc by auto.
    destruct (in_dec Z.eq_dec (Z.of_nat i) seen) as [H1|H1];
      destruct (in_dec Z.eq_dec (Z.of_nat i) (seen ++ [xi])) as [H2|H2]; auto.
    + exfalso; apply H2, in_or_app; auto.
    + apply in_app_or in H2 as [H2|[H2|[]]]; [tauto|]. exfalso. apply Hne. lia.
Qed.

Lemma good_snoc N seen xi : good_list N seen -> (0 <= xi < Z.of_nat N)%Z -> ~ In xi seen ->
  good_list N (seen ++ [xi]).
Proof.
  intros [H1 H2] Hx Hn. split.
  - apply NoDup_rev in H1. rewrite <- (rev_involutive (seen ++ [xi])). apply NoDup_rev.
    rewrite rev_app_distr. cbn. constructor; auto. rewrite <- in_rev. auto.
  - intros v Hv. apply in_app_or in Hv as [Hv|[Hv|[]]]; [apply H2; auto|lia].
Qed.

Lemma good_app_l N a b : good_list N (a ++ b) -> good_list N a.
Proof.
  intros [H1 H2]. apply NoDup_app_inv in H1 as (H1 & _). split; auto.
  intros; apply H2, in_or_app; auto.
Qed.

(** The three outcomes of the loop, characterised together. *)
Inductive unique_outcome (N : nat) (x : list Z) : res bool -> Prop :=
| uo_true : good_list N x -> unique_outcome N x (Ok true)
| uo_false pre z post : x = pre ++ z :: post -> good_list N pre ->
    ((Z.of_nat N <= z)%Z \/ ((0 <= z)%Z /\ In z pre)) -> unique_outcome N x (Ok false)
| uo_ub pre z post : x = pre ++ z :: post -> good_list N pre -> (z < 0)%Z -> unique_outcome N x UB.

Lemma is_unique_loop_outcome N x : forall seen y, good_list N seen -> counts N seen y ->
  unique_outcome N (seen ++ x) (is_unique_loop N y x).
Proof.
  induction x as [|xi t IH]; intros seen y Hg Hc; cbn [is_unique_loop].
  - rewrite app_nil_r. constructor; auto.
  - destruct (Z.leb_spec (Z.of_nat N) xi) as [H|H].
    { eapply uo_false; eauto. }
    destruct (Z.ltb_spec xi 0) as [H0|H0].
    { eapply uo_ub; eauto. }
    destruct Hc as [Hl Hcc]. pose proof (Hcc (Z.to_nat xi) ltac:(lia)) as Hn.
    rewrite Z2Nat.id in Hn by lia. rewrite Hn.
    destruct (in_dec Z.eq_dec xi seen) as [Hin|Hin].
    + cbn. eapply uo_false; eauto.
    + change (1 <? 1) with false. cbv iota.
      replace (seen ++ xi :: t) with ((seen ++ [xi]) ++ t) by (rewrite <- app_assoc; auto).
      apply IH.
      * apply good_snoc; auto; lia.
      * pose proof (counts_step N seen y xi (conj Hl Hcc) ltac:(lia) Hin) as Hs.
        rewrite Hn in Hs. destruct (in_dec Z.eq_dec xi seen); [tauto|]. exact Hs.
Qed.

Lemma is_unique_outcome N x : unique_outcome N x (IsUnique N x).
Proof.
  apply (is_unique_loop_outcome N x []).
  - split; [constructor|intros v []].
  - split; [apply repeat_length|]. intros i Hi. rewrite nth_repeat_any.
    destruct (in_dec _ _ _) as [[]|]; auto.
Qed.

Lemma good_not_false N pre z post : good_list N (pre ++ z :: post) ->
  ((Z.of_nat N <= z)%Z \/ ((0 <= z)%Z /\ In z pre)) -> False.
Proof.
  intros [H1 H2] [H|[_ H]].
  - specialize (H2 z ltac:(apply in_or_app; right; left; auto)). lia.
  - apply NoDup_remove_2 in H1. apply H1, in_or_app; auto.
Qed.

Lemma is_unique_good N x : good_list N x -> IsUnique N x = Ok true.
Proof.
  intros Hg. destruct (is_unique_outcome N x); auto.
  - exfalso. subst. eapply good_not_false; eauto.
  - exfalso. subst. destruct Hg as [_ H2].
    specialize (H2 z ltac:(apply in_or_app; right; left; auto)). lia.
Qed.

Lemma is_unique_true N x : IsUnique N x = Ok true -> good_list N x.
Proof. intros E. destruct (is_unique_outcome N x); try discriminate; auto. Qed.

Lemma is_unique_nonneg N x : (forall v, In v x -> (0 <= v)%Z) ->
  exists b, IsUnique N x = Ok b /\ (b = true <-> good_list N x).
Proof.
  intros Hn. destruct (is_unique_outcome N x) as [H|pre z post E Hg Hz|pre z post E Hg Hz].
  - exists true. tauto.
  - exists false. split; auto. split; [discriminate|]. intros Hx. exfalso. subst.
    eapply good_not_false; eauto.
  - exfalso. subst. specialize (Hn z ltac:(apply in_or_app; right; left; auto)). lia.
Qed.

Lemma is_unique_ub N x : IsUnique N x = UB <->
  exists pre z post, x = pre ++ z :: post /\ good_list N pre /\ (z < 0)%Z.
Proof.
  split.
  - intros E. destruct (is_unique_outcome N x) as [| |pre z post]; try discriminate.
    exists pre, z, post. auto.
  - intros (pre & z & post & -> & Hg & Hz).
    destruct (is_unique_outcome N (pre ++ z :: post)) as [H|pre' z' post' E Hg' Hz'|]; auto.
    + exfalso. destruct H as [_ H]. specialize (H z ltac:(apply in_or_app; right; left; auto)). lia.
    + exfalso.
      (* The element that stops the loop cannot come before [z]. *)
      destruct (le_lt_dec (length pre) (length pre')) as [Hle|Hlt].
      * destruct (Nat.eq_dec (length pre) (length pre')) as [He|Hne].
        -- apply app_inj_len in E as [_ E]; [|exact He]. injection E as -> _.
           destruct Hz' as [Hz'|[Hz' _]]; lia.
        -- assert (In z pre') as Hin.
           { assert (nth (length pre) (pre' ++ z' :: post') 0%Z = z) as Hnth.
             { rewrite <- E. rewrite app_nth2 by lia. rewrite Nat.sub_diag. auto. }
             rewrite app_nth1 in Hnth by lia. rewrite <- Hnth. apply nth_In. lia. }
           destruct Hg' as [_ Hg']. specialize (Hg' _ Hin). lia.
      * assert (exists q, pre = pre' ++ z' :: q) as [q Hq].
        { exists (skipn (S (length pre')) pre).
          assert (firstn (length pre') pre = pre') as H1.
          { assert (firstn (length pre') (pre ++ z :: post) = firstn (length pre') (pre' ++ z' :: post')) as H by (rewrite E; auto).
            rewrite firstn_app, firstn_app, Nat.sub_diag, firstn_all in H. cbn in H.
            replace (length pre' - length pre) with 0 in H by lia. cbn in H.
            rewrite !app_nil_r in H. auto. }
          assert (nth (length pre') pre 0%Z = z') as H2.
          { assert (nth (length pre') (pre ++ z :: post) 0%Z = nth (length pre') (pre' ++ z' :: post') 0%Z) as H by (rewrite E; auto).
            rewrite app_nth1 in H by lia. rewrite H, app_nth2, Nat.sub_diag by lia. auto. }
          rewrite <- (firstn_skipn (length pre') pre) at 1. rewrite H1. f_equal.
          rewrite <- H2.
          clear - Hlt. revert Hlt. generalize (length pre'). intros n. revert pre.
          induction n; intros [|a pre] H; cbn in *; try lia; auto. apply IHn. lia. }
        subst. eapply good_not_false; eauto.
Qed.

Lemma all_variables_good p : good_list (p_n p) (all_variables p).
Proof.
  unfold all_variables. split.
  - apply FinFun.Injective_map_NoDup; [intros a b H; lia|apply seq_NoDup].
  - intros v Hv. apply in_map_iff in Hv as (i & <- & Hi). apply in_seq in Hi. lia.
Qed.

Lemma all_unique p : IsUnique (p_n p) (all_variables p) = Ok true.
Proof. apply is_unique_good, all_variables_good. Qed.

(** ** Adding constraints *)

(** The state after an accepted addition. *)
Definition appended (p p' : program) (x : cdata) (vars : list Z) (du : list nat) (reg : bool) : Prop :=
  p_n p' = p_n p /\ p_eqs p' = p_eqs p ++ [mkCont x (length du + length vars)] /\
  p_cliques p' = p_cliques p ++ [map Z.to_nat vars ++ du] /\ p_duals p' = p_duals p ++ [du] /\
  p_dual_start p' = p_dual_start p + length du /\
  p_constraints p' = p_constraints p ++ (if reg then [length (p_eqs p)] else []) /\
  p_cost p' = p_cost p /\ p_quadratic p' = p_quadratic p /\ p_init p' = p_init p /\
  p_workspaces p' = p_workspaces p /\ p_buffer p' = p_buffer p /\ p_stats p' = p_stats p /\
  p_kkt p' = p_kkt p /\ p_solver p' = p_solver p /\ p_sys p' = p_sys p /\ p_status p' = p_status p.

(** The multipliers an addition creates: only equality constraints passed as
    rvalues get any. *)
Definition new_duals (p : program) (lvalue : bool) (x : cdata) : list nat :=
  match x, lvalue with CEq A _, false => seq (p_dual_start p) (length A) | _, _ => [] end.
Definition registered (lvalue : bool) (x : cdata) : bool :=
  match x, lvalue with CEq _ _, false => false | _, _ => true end.

Definition list_of (p : program) (vars : option (list Z)) : list Z :=
  match vars with Some v => v | None => all_variables p end.

Lemma add_some_reg p lvalue x v : registered lvalue x = true ->
  AddConstraint p lvalue x (Some v) =
  ('(p', result) <- manager_AddConstraint p x v ;;
   if (result =? SUCCESS)%Z then Ok (push_constraint p', result) else Ok (p', result)).
Proof. destruct x, lvalue; cbn; auto; discriminate. Qed.

Lemma add_none_reg p lvalue x : registered lvalue x = true ->
  AddConstraint p lvalue x None =
  ('(p', result) <- manager_AddConstraint_all p x ;;
   if (result =? SUCCESS)%Z then Ok (push_constraint p', result) else Ok (p', result)).
Proof. destruct x, lvalue; cbn; auto; discriminate. Qed.

Lemma add_accept p lvalue x vars : IsUnique (p_n p) (list_of p vars) = Ok true ->
  exists p', AddConstraint p lvalue x vars = Ok (p', SUCCESS) /\
    appended p p' x (list_of p vars) (new_duals p lvalue x) (registered lvalue x).
Proof.
  intros HU. destruct (registered lvalue x) eqn:Hr.
  - assert (new_duals p lvalue x = []) as -> by (destruct x, lvalue; cbn in *; auto; discriminate).
    destruct vars as [v|]; [rewrite add_some_reg by auto|rewrite add_none_reg by auto];
      unfold manager_AddConstraint_all, manager_AddConstraint; cbn [list_of] in HU |- *; rewrite HU;
      cbn -[all_variables]; (eexists; split; [reflexivity|]);
      unfold appended; cbn -[all_variables]; rewrite ?app_nil_r, ?app_length; cbn -[all_variables];
      repeat split; auto; f_equal; f_equal; lia.
  - destruct x; destruct lvalue; try discriminate. cbn [AddConstraint new_duals].
    destruct vars as [v|]; unfold manager_AddEquality_all, manager_AddEquality; cbn [list_of] in HU |- *;
      rewrite HU; cbn -[all_variables]; (eexists; split; [reflexivity|]);
      unfold appended; cbn -[all_variables]; rewrite ?app_nil_r, ?seq_length; repeat split; auto.
Qed.

Lemma add_reject p lvalue x v : IsUnique (p_n p) v = Ok false ->
  AddConstraint p lvalue x (Some v) = Ok (p, FAILURE).
Proof.
  intros HU. destruct (registered lvalue x) eqn:Hr.
  - rewrite add_some_reg by auto. unfold manager_AddConstraint. rewrite HU. reflexivity.
  - destruct x; destruct lvalue; try discriminate. cbn. unfold manager_AddEquality. rewrite HU. auto.
Qed.

Lemma add_ub p lvalue x v : IsUnique (p_n p) v = UB -> AddConstraint p lvalue x (Some v) = UB.
Proof.
  intros HU. destruct (registered lvalue x) eqn:Hr.
  - rewrite add_some_reg by auto. unfold manager_AddConstraint. rewrite HU. reflexivity.
  - destruct x; destruct lvalue; try discriminate. cbn. unfold manager_AddEquality. rewrite HU. auto.
Qed.

(** All cases of an addition that returns. *)
Lemma add_cases p lvalue x vars p' s : AddConstraint p lvalue x vars = Ok (p', s) ->
  (s = SUCCESS /\ good_list (p_n p) (list_of p vars) /\
   appended p p' x (list_of p vars) (new_duals p lvalue x) (registered lvalue x)) \/
  (s = FAILURE /\ p' = p /\ exists v, vars = Some v /\ ~ good_list (p_n p) v).
Proof.
  intros E. destruct (IsUnique (p_n p) (list_of p vars)) as [b| | |] eqn:HU.
  - destruct b.
    + left. destruct (add_accept p lvalue x vars HU) as (p'' & E' & Ha).
      rewrite E in E'. injection E' as <- ->. split; auto. split; auto. apply is_unique_true; auto.
    + right. destruct vars as [v|].
      * cbn [list_of] in HU. rewrite (add_reject p lvalue x v HU) in E. injection E as <- <-.
        split; auto. split; auto. exists v. split; auto. intros Hg.
        rewrite (is_unique_good _ _ Hg) in HU. discriminate.
      * cbn [list_of] in HU. rewrite all_unique in HU. discriminate.
  - destruct (is_unique_outcome (p_n p) (list_of p vars)); discriminate.
  - destruct vars as [v|]; cbn [list_of] in HU.
    + rewrite add_ub in E by auto. discriminate.
    + rewrite all_unique in HU. discriminate.
  - destruct (is_unique_outcome (p_n p) (list_of p vars)); discriminate.
Qed.

Lemma add_all p lvalue x :
  exists p', AddConstraint p lvalue x None = Ok (p', SUCCESS) /\
    appended p p' x (all_variables p) (new_duals p lvalue x) (registered lvalue x).
Proof. apply (add_accept p lvalue x None). apply all_unique. Qed.

(** ** Effect of a call *)

(** The constraint manager's part and the solver's part of the state. *)
Definition mgr (p : program) :=
  (p_n p, p_dual_start p, p_eqs p, p_cliques p, p_duals p, p_constraints p).
Definition rest (p : program) :=
  (p_init p, p_workspaces p, p_buffer p, p_stats p, p_kkt p, p_solver p, p_sys p, p_status p).

Definition mappended (p p' : program) (x : cdata) (vars : list Z) (du : list nat) (reg : bool) : Prop :=
  p_n p' = p_n p /\ p_eqs p' = p_eqs p ++ [mkCont x (length du + length vars)] /\
  p_cliques p' = p_cliques p ++ [map Z.to_nat vars ++ du] /\ p_duals p' = p_duals p ++ [du] /\
  p_dual_start p' = p_dual_start p + length du /\
  p_constraints p' = p_constraints p ++ (if reg then [length (p_eqs p)] else []).

Lemma appended_m p p' x v du reg : appended p p' x v du reg -> mappended p p' x v du reg.
Proof. unfold appended, mappended. tauto. Qed.
Lemma appended_rest p p' x v du reg : appended p p' x v du reg ->
  rest p' = rest p /\ p_cost p' = p_cost p /\ p_quadratic p' = p_quadratic p.
Proof.
  unfold appended, rest. intros (?&?&?&?&?&?&?&?&?&?&?&?&?&?&?&?). split; [congruence|auto].
Qed.

Inductive effect (k : call) (p : program) : program -> Prop :=
| ef_same p' : mgr p' = mgr p -> effect k p p'
| ef_add p' lvalue x vars : good_list (p_n p) (list_of p vars) ->
    mappended p p' x (list_of p vars) (new_duals p lvalue x) (registered lvalue x) ->
    (lvalue = true -> registered false x = true \/ exists v, k = PAddConstraint true x v) -> effect k p p'
| ef_add2 q p' x y :
    mappended p q x (all_variables p) (new_duals p false x) (registered false x) ->
    mappended q p' y (all_variables q) (new_duals q false y) (registered false y) -> effect k p p'
| ef_vars n p' : sets_variables k -> p_n p = 0 ->
    mgr p' = (n, n, p_eqs p, p_cliques p, p_duals p, p_constraints p) -> effect k p p'
| ef_data i x ct p' : names i k -> nth_error (p_eqs p) i = Some ct ->
    (exists s, (exists val v r c d, UpdateLinearOperator (ct_data ct) val v r c d = Ok (x, s)) \/
               (exists val r c d, UpdateAffineTerm (ct_data ct) val r c d = Ok (x, s))) ->
    p' = set_data p i x -> effect k p p'.

Lemma Initialize_mgr p cold it p' : Initialize p cold it = Ok p' ->
  mgr p' = mgr p /\ p_cost p' = p_cost p /\ p_quadratic p' = p_quadratic p.
Proof.
  unfold Initialize. destruct (negb (p_init p) || cold).
  - intros E. apply bind_ok in E as (b & _ & E). injection E as <-. auto.
  - intros E. injection E as <-. auto.
Qed.

Lemma Solve_program_mgr p c o p' s : Solve_program p c o = Ok (p', s) ->
  mgr p' = mgr p /\ p_cost p' = p_cost p /\ p_quadratic p' = p_quadratic p.
Proof.
  unfold Solve_program. destruct (negb (quadratic_precondition p c)).
  { intros E. injection E as <- <-. auto. }
  destruct (NumberOfConstraints p =? 0).
  { intros E. injection E as <- <-. auto. }
  intros E. apply bind_ok in E as (p2 & E2 & E). injection E as <- <-.
  apply Initialize_mgr in E2 as (H1 & H2 & H3).
  unfold mgr in *. cbn in *. auto.
Qed.

Lemma good_list_ext p q v : p_n p = p_n q -> good_list (p_n p) v -> good_list (p_n q) v.
Proof. intros ->. auto. Qed.

Lemma update_lin_effect p i val v r c d p' s k : (k = AUpdateLinearOperator i val v r c d) ->
  UpdateLinearOperatorOfConstraint p i val v r c d = Ok (p', s) -> effect k p p'.
Proof.
  unfold UpdateLinearOperatorOfConstraint. intros -> E. destruct (Zneg i) eqn:Hi.
  { injection E as <- <-. apply ef_same; auto. }
  destruct (nth_error (p_eqs p) (Z.to_nat i)) as [ct|] eqn:Hn.
  - apply bind_ok in E as ([x s'] & E1 & E). injection E as <- <-.
    eapply ef_data; eauto.
    + cbn. unfold Zneg in Hi. apply Z.ltb_ge in Hi. lia.
    + eexists. left. eauto 10.
  - injection E as <- <-. apply ef_same; auto.
Qed.

Lemma update_aff_effect p i val r c d p' s k : (0 <= i -> names (Z.to_nat i) k)%Z ->
  UpdateAffineTermOfConstraint p i val r c d = Ok (p', s) -> effect k p p'.
Proof.
  unfold UpdateAffineTermOfConstraint. intros Hk E. destruct (Zneg i) eqn:Hi.
  { injection E as <- <-. apply ef_same; auto. }
  destruct (nth_error (p_eqs p) (Z.to_nat i)) as [ct|] eqn:Hn.
  - apply bind_ok in E as ([x s'] & E1 & E). injection E as <- <-.
    eapply ef_data; eauto.
    + apply Hk. unfold Zneg in Hi. apply Z.ltb_ge in Hi. lia.
    + eexists. right. eauto 10.
  - injection E as <- <-. apply ef_same; auto.
Qed.

Lemma add_effect k p lvalue x vars p' s : AddConstraint p lvalue x vars = Ok (p', s) ->
  (lvalue = true -> registered false x = true \/ exists v, k = PAddConstraint true x v) -> effect k p p'.
Proof.
  intros E Hk. apply add_cases in E as [(-> & Hg & Ha)|(-> & -> & _)].
  - eapply ef_add; eauto using appended_m.
  - apply ef_same; auto.
Qed.

Lemma quad_effect k p Q v p' s : AddQuadraticCost p Q v = Ok (p', s) -> effect k p p'.
Proof.
  unfold AddQuadraticCost. intros E. apply bind_ok in E as ([q s'] & E1 & E). injection E as <- <-.
  apply add_cases in E1 as [(-> & Hg & Ha)|(-> & -> & _)].
  - apply appended_m in Ha. eapply ef_add with (vars := Some v) (lvalue := false) (x := CQuad Q); [exact Hg|exact Ha|discriminate].
  - apply ef_same. auto.
Qed.

Lemma step_effect p k p' r : api_step p k = Ok (p', r) -> effect k p p'.
Proof.
  intros E. destruct k; cbn [api_step] in E.
  - destruct (negb (1 <=? n)%Z); [injection E as <- <-; apply ef_same; auto|].
    destruct (negb (safer_cast p)); [injection E as <- <-; apply ef_same; auto|].
    destruct (negb (p_n p =? 0)) eqn:Hn; [injection E as <- <-; apply ef_same; auto|].
    injection E as <- <-. apply negb_false_iff, Nat.eqb_eq in Hn.
    eapply ef_vars; cbn; eauto. reflexivity.
  - repeat match type of E with (if ?b then _ else _) = _ =>
      destruct b; [injection E as <- <-; apply ef_same; auto; fail|] end.
    apply bind_ok in E as ([q s] & E1 & E). injection E as <- <-. eapply add_effect; eauto; intros; first [discriminate|left; reflexivity|right; subst; eauto].
  - repeat match type of E with (if ?b then _ else _) = _ =>
      destruct b; [injection E as <- <-; apply ef_same; auto; fail|] end.
    apply bind_ok in E as ([q s] & E1 & E). injection E as <- <-. eapply add_effect; eauto; intros; first [discriminate|left; reflexivity|right; subst; eauto].
  - repeat match type of E with (if ?b then _ else _) = _ =>
      destruct b; [injection E as <- <-; apply ef_same; auto; fail|] end.
    apply bind_ok in E as ([q s] & E1 & E). injection E as <- <-.
    unfold AddQuadraticCost_all in E1. destruct (negb _) in E1.
    + injection E1 as <- <-. apply ef_same; auto.
    + eapply quad_effect; eauto.
  - repeat match type of E with (if ?b then _ else _) = _ =>
      destruct b; [injection E as <- <-; apply ef_same; auto; fail|] end.
    apply bind_ok in E as ([vs Q] & _ & E).
    apply bind_ok in E as ([q s] & E1 & E). injection E as <- <-. eapply quad_effect; eauto.
  - repeat match type of E with (if ?b then _ else _) = _ =>
      destruct b; [injection E as <- <-; apply ef_same; auto; fail|] end.
    apply bind_ok in E as ([q s] & E1 & E). injection E as <- <-. eapply add_effect; eauto; intros; first [discriminate|left; reflexivity|right; subst; eauto].
  - repeat match type of E with (if ?b then _ else _) = _ =>
      destruct b; [injection E as <- <-; apply ef_same; auto; fail|] end.
    apply bind_ok in E as ([q s] & E1 & E). injection E as <- <-. eapply update_lin_effect; eauto.
  - repeat match type of E with (if ?b then _ else _) = _ =>
      destruct b; [injection E as <- <-; apply ef_same; auto; fail|] end.
    apply bind_ok in E as ([q s] & E1 & E). injection E as <- <-.
    eapply update_aff_effect; [|exact E1]. cbn. intros; lia.
  - repeat match type of E with (if ?b then _ else _) = _ =>
      destruct b; [injection E as <- <-; apply ef_same; auto; fail|] end.
    apply bind_ok in E as ([q s] & E1 & E). injection E as <- <-.
    eapply update_aff_effect; [|exact E1]. cbn. intros; lia.
  - apply bind_ok in E as ([q s] & E1 & E). injection E as <- <-. eapply add_effect; eauto; intros; first [discriminate|left; reflexivity|right; subst; eauto].
  - apply bind_ok in E as ([q s] & E1 & E). injection E as <- <-. eapply add_effect; eauto; intros; first [discriminate|left; reflexivity|right; subst; eauto].
  - apply bind_ok in E as ([q s] & E1 & E). injection E as <- <-. eapply add_effect; eauto; intros; first [discriminate|left; reflexivity|right; subst; eauto].
  - destruct (PreprocessLinearInequality rows) as [sp|]; [|discriminate].
    apply bind_ok in E as ([p1 s1] & E1 & E). apply bind_ok in E as ([p2 s2] & E2 & E).
    injection E as <- <-.
    destruct (0 <? length (sp_ineq sp)) eqn:H1, (0 <? length (sp_eq sp)) eqn:H2.
    + apply add_cases in E1 as [(-> & _ & Ha)|(_ & _ & v & Hv & _)]; [|discriminate].
      apply add_cases in E2 as [(-> & _ & Hb)|(_ & _ & v & Hv & _)]; [|discriminate].
      eapply ef_add2; eauto using appended_m.
    + injection E2 as <- <-. eapply add_effect; eauto; intros; first [discriminate|left; reflexivity|right; subst; eauto].
    + injection E1 as <- <-. eapply add_effect; eauto; intros; first [discriminate|left; reflexivity|right; subst; eauto].
    + injection E1 as <- <-. injection E2 as <- <-. apply ef_same; auto.
  - injection E as <- <-. apply ef_same; auto.
  - destruct (AddLinearCost (ClearLinearCosts p) (map Ropp b)) as [p1 s1] eqn:Ec.
    apply bind_ok in E as ([q s] & E1 & E). injection E as <- <-.
    apply Solve_program_mgr in E1 as (H1 & _ & _). apply ef_same. rewrite H1.
    unfold AddLinearCost in Ec. destruct (negb _) in Ec; injection Ec as <- <-; auto.
  - apply bind_ok in E as ([q s] & E1 & E). injection E as <- <-.
    apply Solve_program_mgr in E1 as (H1 & _ & _). apply ef_same. auto.
  - apply bind_ok in E as ([q s] & E1 & E). injection E as <- <-. eapply add_effect; eauto; intros; first [discriminate|left; reflexivity|right; subst; eauto].
  - destruct (AddLinearCost p b) as [p1 s1] eqn:Ec. injection E as <- <-. apply ef_same.
    unfold AddLinearCost in Ec. destruct (negb _) in Ec; injection Ec as <- <-; auto.
  - injection E as <- <-. apply ef_same. auto.
  - apply bind_ok in E as ([q s] & E1 & E). injection E as <- <-. eapply quad_effect; eauto.
Qed.

(** Manager fields after an update. *)
Lemma set_data_mgr p i x ct : nth_error (p_eqs p) i = Some ct ->
  mgr (set_data p i x) =
  (p_n p, p_dual_start p, upd (p_eqs p) i (mkCont x (ct_vars ct)), p_cliques p, p_duals p, p_constraints p).
Proof. intros H. unfold set_data. rewrite H. reflexivity. Qed.

Ltac mgr_eq H := unfold mgr in H; cbn in H;
  repeat match type of H with (_, _) = (_, _) => apply pair_equal_spec in H as [H ?] end.
