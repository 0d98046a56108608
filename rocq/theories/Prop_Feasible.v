(** C67: the objective handed out for tests and warm starts. *)
From Coq Require Import List Arith ZArith Reals Bool Lia Lra.
From Verif Require Import Base BaseFacts LayoutModel SupernodeModel TriWorkspaceModel AssemblerModel KktModel
  ProgramModel ApiModel SolveModel LinearModel ConcreteBackend FeasibleModel Spec_Linear Spec_Assembly Spec_Program Spec_Conex Spec_Feasible
  SolveProofs SolveFacts SolveStats ConexFacts ConexKkt ConexTotal ConexRun FeasibleProofs FeasibleRun.
Import ListNotations.
Open Scope R_scope.

(** The returned vector is the sum over all constraints of their coefficients
    applied to one half of the identity; it has an entry for every unknown of the
    linear system. *)
Theorem C67_feasible_objective : forall nf p n,
  well_built p -> consistent p -> listed p -> rectangular p ->
  exists p2 n2 v, GetFeasibleObjective nf p n = Ok (p2, n2, v) /\ Initialize p true 25 = Ok p2 /\
    length v = SizeOfKKTSystem p /\ forall u, nth u v 0 = gradient p (half p) [] 0 u.
Proof. exact feasible_objective. Qed.

(** These dual variables are in the interior of all cones. *)
Theorem C67_interior : forall p, consistent p -> interior_duals p (half p).
Proof. exact half_interior. Qed.

(** The objective is bounded on the feasible set. *)
Theorem C67_bounded : forall nf p n p2 n2 v z,
  well_built p -> consistent p -> listed p -> rectangular p ->
  GetFeasibleObjective nf p n = Ok (p2, n2, v) -> feasible p z ->
  value v z <= dual_value p (half p).
Proof.
  intros nf p n p2 n2 v z H1 H2 H3 H4 E HF. destruct (feasible_objective nf p n H1 H2 H3 H4) as (p2' & n2' & v' & E' & _ & L & G).
  rewrite E in E'. injection E' as <- <- <-. unfold value. rewrite L, (RhsProofs.total_ext _ (fun u => gradient p (half p) [] 0 u * nth u z 0)) by (intros; rewrite G; auto).
  apply bounded_by_duals; auto using half_interior.
Qed.

Example C67_example : forall nf n, exists p2 n2,
  GetFeasibleObjective nf mixed_program n = Ok (p2, n2, [5 / 2; 9 / 2; 0]) /\ feasible mixed_program [1; 0] /\
  forall z, feasible mixed_program z -> 5 / 2 * nth 0 z 0 + 9 / 2 * nth 1 z 0 <= 35 / 2.
Proof.
  intros nf n. destruct (feasible_objective nf mixed_program n mixed_well mixed_consistent mixed_listed mixed_rectangular) as (p2 & n2 & v & E & _ & L & G).
  change (SizeOfKKTSystem mixed_program) with 3%nat in L.
  assert (v = [5 / 2; 9 / 2; 0]) as ->.
  { clear E. destruct v as [|a [|b [|c [|]]]]; try discriminate L. pose proof (G 0%nat) as G0. pose proof (G 1%nat) as G1. pose proof (G 2%nat) as G2.
    rewrite mixed_gradient in G0, G1, G2. cbn in G0, G1, G2. subst. reflexivity. }
  exists p2, n2. split; auto. split.
  - clear E L G. unfold feasible; mixed. intros [|[|[|[|[|]]]]] co Hc; try discriminate; injection Hc as <-; cbn [ct_data].
    + intros [|[|k]] Hk; unfold row_value, total; cbn in *; try lra. lia.
    + unfold lorentz, cone_slack, column_value, total. cbn. lra.
    + exists 0%nat. split; [lia|]. split; [reflexivity|]. apply mixed_slack.
    + intros [|k] Hk; unfold row_value, total; cbn in *; [lra|lia].
  - intros z Hz. pose proof (C67_bounded nf mixed_program n p2 n2 _ z mixed_well mixed_consistent mixed_listed mixed_rectangular E Hz) as HB. clear E L G.
    unfold value, dual_value, half in HB; mixed. unfold total, herm_inner, total, component, listed_matrix, mget in HB. cbn in HB. lra.
Qed.

(** Without equality constraints the vector becomes the objective of a solve that is
    called with it: the cost to be minimised is its negative. *)
Theorem C67_objective_set : forall nf p n p2 n2 v,
  well_built p -> consistent p -> listed p -> rectangular p ->
  GetFeasibleObjective nf p n = Ok (p2, n2, v) ->
  SizeOfKKTSystem p = p_n p -> length (p_cost p) = p_n p ->
  p_cost (set_objective p2 v) = map Ropp v.
Proof. exact objective_set. Qed.

Example C67_set_example : forall nf b n, exists p2 n2,
  GetFeasibleObjective nf (line_program b) n = Ok (p2, n2, [1 / 2]) /\ p_cost (set_objective p2 [1 / 2]) = [- (1 / 2)].
Proof.
  intros nf b n. destruct (feasible_objective nf (line_program b) n (line_well b) (line_consistent b) (line_listed b) (line_rectangular b)) as (p2 & n2 & v & E & _ & L & G).
  assert (v = [1 / 2]) as ->.
  { clear E. change (SizeOfKKTSystem (line_program b)) with 1%nat in L. destruct v as [|a [|]]; try discriminate L. specialize (G 0%nat). cbn in G. subst a. f_equal. lra. }
  exists p2, n2. split; auto. apply (C67_objective_set nf _ n p2 n2 [1 / 2] (line_well b) (line_consistent b) (line_listed b) (line_rectangular b) E); reflexivity.
Qed.

(** With equality constraints the vector is longer than the cost vector: the solve
    drops it and minimises the cost zero, whatever cost the program had. *)
Theorem C67_objective_dropped : forall nf p n p2 n2 v,
  well_built p -> consistent p -> listed p -> rectangular p ->
  GetFeasibleObjective nf p n = Ok (p2, n2, v) -> SizeOfKKTSystem p <> p_n p ->
  p_cost (set_objective p2 v) = repeat 0 (length (p_cost p)).
Proof. exact objective_dropped. Qed.

Theorem C67_objective_used_refuted : exists nf p n p2 n2 v,
  well_built p /\ consistent p /\ listed p /\ rectangular p /\
  GetFeasibleObjective nf p n = Ok (p2, n2, v) /\ v = [5 / 2; 9 / 2; 0] /\ p_cost p = [0 + 1; 0 + 1] /\
  p_cost (set_objective p2 v) = [0; 0].
Proof.
  destruct (C67_example some_env (mkNum (mkCst [] (fun _ => 0) None (mkRhs [] [] 0 0) 0%nat) [])) as (p2 & n2 & E & _).
  exists some_env, mixed_program, (mkNum (mkCst [] (fun _ => 0) None (mkRhs [] [] 0 0) 0%nat) []), p2, n2, [5 / 2; 9 / 2; 0].
  split; [apply mixed_well|]. split; [apply mixed_consistent|]. split; [apply mixed_listed|]. split; [apply mixed_rectangular|].
  split; auto. split; auto. split; [reflexivity|].
  apply (C67_objective_dropped some_env mixed_program _ p2 n2 _ mixed_well mixed_consistent mixed_listed mixed_rectangular E). discriminate.
Qed.

Print Assumptions C67_feasible_objective.
Print Assumptions C67_interior.
Print Assumptions C67_bounded.
Print Assumptions C67_objective_set.
Print Assumptions C67_objective_dropped.
Print Assumptions C67_objective_used_refuted.
