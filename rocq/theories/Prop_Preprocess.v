(** Property C40: preprocessing of [lb <= A x <= ub]. *)
From Coq Require Import List Arith ZArith Reals Bool Lia Lra.
From Verif Require Import Base ProgramModel PreprocessModel ApiModel Spec_Linear Spec_Preprocess Spec_Program Spec_Conex PreprocessProofs.
Import ListNotations.
Open Scope R_scope.

Theorem C40_same_solutions : forall rows s y, PreprocessLinearInequality rows = Some s ->
  (kept_bounds_hold rows y <-> upper_rows (sp_ineq s) y /\ equal_rows (sp_eq s) y).
Proof.
  intros rows s y H. pose proof (preprocess_ok rows _ s y H) as HS. cbn in HS. rewrite HS.
  assert (upper_rows [] y /\ equal_rows [] y) as H0 by (split; intros a b []). tauto.
Qed.

(** No bound is dropped if upper bounds are below [10^8] and lower bounds above
    [-10^8]. *)
Theorem C40_moderate_bounds : forall rows s y, PreprocessLinearInequality rows = Some s ->
  (forall a lb ub, In (a, lb, ub) rows -> - 10 ^ 8 < lb /\ ub < 10 ^ 8) ->
  (bounds_hold rows y <-> upper_rows (sp_ineq s) y /\ equal_rows (sp_eq s) y).
Proof.
  intros rows s y H HB. rewrite <- (C40_same_solutions rows s y H). unfold bounds_hold, kept_bounds_hold. split.
  - intros G a lb ub Hin. specialize (G a lb ub Hin). repeat split; intros; subst; lra.
  - intros G a lb ub Hin. destruct (G a lb ub Hin) as (G1 & G2 & G3). destruct (HB a lb ub Hin). destruct (Req_EM_T lb ub) as [E|E]; [specialize (G1 E); lra|].
    auto.
Qed.

(** A large upper bound is dropped: points above it are accepted. *)
Theorem C40_large_bound_refuted : exists rows s y, PreprocessLinearInequality rows = Some s /\
  upper_rows (sp_ineq s) y /\ equal_rows (sp_eq s) y /\ ~ bounds_hold rows y.
Proof.
  exists [([1], - 10 ^ 8, 10 ^ 8)], (mkSplit [] []), [10 ^ 9]. split; [|split; [intros a b []|split; [intros a b []|]]].
  - unfold PreprocessLinearInequality, preprocess, preprocess_row. destruct (Req_EM_T _ _); [lra|]. destruct (Rlt_dec _ _); [lra|].
    destruct (Rlt_dec _ _); [lra|]. reflexivity.
  - intros H. specialize (H [1] _ _ (or_introl eq_refl)). unfold product, total in H. cbn -[pow] in H. lra.
Qed.

(** The result consists of numbers exactly if no row that is used is zero
    together with its bound; its rows (with the bound) then have norm 1. *)
Theorem C40_finite : forall rows,
  (exists s, PreprocessLinearInequality rows = Some s) <->
  (forall a lb ub, In (a, lb, ub) rows ->
     (lb = ub \/ ub < 10 ^ 8 -> nonzero_row a ub) /\ (lb <> ub -> - 10 ^ 8 < lb -> nonzero_row a lb)).
Proof. intros rows. apply preprocess_some. Qed.

Theorem C40_unit_rows : forall rows s a b, PreprocessLinearInequality rows = Some s ->
  In (a, b) (sp_ineq s) \/ In (a, b) (sp_eq s) -> total (fun x => x * x) a + b * b = 1.
Proof.
  intros rows s a b H Hin. assert (rows_ok unit_row s) as [H1 H2].
  { apply (preprocess_forall _ rows (mkSplit [] [])); [|split; constructor|exact H]. intros. apply scaled_unit; auto. }
  rewrite Forall_forall in H1, H2. destruct Hin as [Hin|Hin]; [apply (H1 _ Hin)|apply (H2 _ Hin)].
Qed.

(** The call of the C interface adds exactly the kept bounds to the program. *)
Theorem C40_added : forall p cols rows p' r y, length (p_cliques p) = length (p_eqs p) ->
  (forall a lb ub, In (a, lb, ub) rows -> (length a <= p_n p)%nat) ->
  api_step p (AAddLinearInequalities cols rows) = Ok (p', r) ->
  (feasible p' y <-> feasible p y /\ kept_bounds_hold rows y).
Proof. exact add_inequalities_feasible. Qed.

(** [-1 <= x0 <= 2], [x0 + x1 = 3] and an upper bound that is dropped. *)
Definition mixed_rows : list (list R * R * R) := [([1; 0], -1, 2); ([1; 1], 3, 3); ([0; 1], - 10 ^ 9, 10 ^ 9)].
Lemma mixed_some : exists s, PreprocessLinearInequality mixed_rows = Some s.
Proof.
  apply C40_finite. intros a lb ub [[= <- <- <-]|[[= <- <- <-]|[[= <- <- <-]|[]]]]; split; intros; try (left; lra).
Qed.
Example C40_example : exists s, PreprocessLinearInequality mixed_rows = Some s /\
  upper_rows (sp_ineq s) [1; 2] /\ equal_rows (sp_eq s) [1; 2] /\ ~ (upper_rows (sp_ineq s) [5; -2] /\ equal_rows (sp_eq s) [5; -2]).
Proof.
  destruct mixed_some as (s & E). exists s. split; auto.
  assert (kept_bounds_hold mixed_rows [1; 2]) as H1.
  { intros a lb ub [[= <- <- <-]|[[= <- <- <-]|[[= <- <- <-]|[]]]]; unfold product, total; cbn -[pow]; repeat split; intros; lra. }
  apply (C40_same_solutions _ _ _ E) in H1 as [H1 H2]. split; auto. split; auto. rewrite <- (C40_same_solutions _ _ _ E). intros H.
  destruct (H [1; 0] (-1) 2 (or_introl eq_refl)) as (_ & H3 & _). unfold product, total in H3. cbn -[pow] in H3. lra.
Qed.
Example C40_moderate_example : exists rows s, rows = [([2; 0], -1, 2); ([1; 1], 3, 3)] /\ PreprocessLinearInequality rows = Some s /\
  forall a lb ub, In (a, lb, ub) rows -> - 10 ^ 8 < lb /\ ub < 10 ^ 8.
Proof.
  exists [([2; 0], -1, 2); ([1; 1], 3, 3)]. match goal with |- exists s, ?r = _ /\ _ => assert (exists s, PreprocessLinearInequality r = Some s) as (s & E) end.
  { apply C40_finite. intros a lb ub [[= <- <- <-]|[[= <- <- <-]|[]]]; split; intros; left; lra. }
  exists s. split; auto. split; auto. intros a lb ub [[= <- <- <-]|[[= <- <- <-]|[]]]; lra.
Qed.
Example C40_added_example : exists p' r, api_step (new_program 2) (AAddLinearInequalities 2 mixed_rows) = Ok (p', r) /\
  length (p_eqs p') = 2%nat /\ forall a lb ub, In (a, lb, ub) mixed_rows -> (length a <= p_n (new_program 2))%nat.
Proof.
  destruct mixed_some as (s & E). cbn [api_step]. rewrite E.
  assert (length (sp_ineq s) = 2%nat /\ length (sp_eq s) = 1%nat) as [L1 L2].
  { unfold PreprocessLinearInequality, mixed_rows in E. cbn [preprocess] in E. unfold preprocess_row at 1 in E. destruct (Req_EM_T (-1) 2); [lra|].
    destruct (Rlt_dec 2 100000000); [|lra]. destruct (Rlt_dec (-100000000) (-1)); [|lra]. destruct (row_scale _ 2); [|discriminate]. destruct (row_scale _ (-1)); [|discriminate].
    unfold preprocess_row at 1 in E. destruct (Req_EM_T 3 3); [|lra]. destruct (row_scale _ 3); [|discriminate].
    unfold preprocess_row in E. destruct (Req_EM_T _ _); [lra|]. destruct (Rlt_dec _ _); [lra|]. destruct (Rlt_dec _ _); [lra|]. injection E as <-. auto. }
  rewrite L1, L2. cbn. eexists _, _. split; [reflexivity|]. split; [reflexivity|].
  intros a lb ub [[= <- <- <-]|[[= <- <- <-]|[[= <- <- <-]|[]]]]; cbn; lia.
Qed.

Print Assumptions C40_same_solutions.
Print Assumptions C40_moderate_bounds.
Print Assumptions C40_large_bound_refuted.
Print Assumptions C40_finite.
Print Assumptions C40_unit_rows.
Print Assumptions C40_added.
