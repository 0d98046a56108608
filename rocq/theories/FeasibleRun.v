(** A program with two variables, two inequalities, a second-order cone, a real
    semidefinite constraint of order 2 and an equality. *)
From Coq Require Import List Arith ZArith Reals Bool Lia Lra.
From Verif Require Import Base BaseFacts LayoutModel SupernodeModel TriWorkspaceModel AssemblerModel KktModel
  ProgramModel ApiModel SolveModel LinearModel ConcreteBackend FeasibleModel Spec_Linear Spec_Assembly Spec_Program Spec_Conex Spec_Feasible FeasibleProofs.
From Verif Require Spec_Hyper.
Import ListNotations.
Open Scope R_scope.

Notation mixed_lin := (CLinear 2 [[1; 2]; [-1; 3]] [4; 5]).
Notation mixed_soc := (CSoc 2 [[2; 1; 0]] [3; 0; 1]).
Notation mixed_psd := (CHerm 1 2 [[[[1; 1]; [1; 4]]]] [[[10; 0]; [0; 10]]]).
Notation mixed_eq := (CEq [[1; 1]] [1]).
Definition mixed_calls : list call :=
  [PAddConstraint false mixed_lin None; PAddConstraint false mixed_soc (Some [1%Z]); PAddConstraint false mixed_psd (Some [0%Z]);
   PAddConstraint false mixed_eq None; PAddLinearCost [1; 1]].
Definition mixed_program : program :=
  match api_run (new_program 2) mixed_calls with Ok (p, _) => p | _ => new_program 0 end.

Ltac mixed :=
  change (p_cliques mixed_program) with [[0; 1]; [1]; [0]; [0; 1; 2]]%nat in *; change (p_duals mixed_program) with [[]; []; []; [2%nat]] in *;
  change (p_eqs mixed_program) with [mkCont mixed_lin 2; mkCont mixed_soc 1; mkCont mixed_psd 1; mkCont mixed_eq 3] in *;
  change (p_constraints mixed_program) with [0; 1; 2]%nat in *; change (p_cost mixed_program) with [0 + 1; 0 + 1] in *;
  change (SizeOfKKTSystem mixed_program) with 3%nat in *.

Lemma mixed_well : well_built mixed_program.
Proof.
  assert (forall v, covered [[0; 1]; [1]; [0]; [0; 1; 2]]%nat v <-> (v < 3)%nat) as HC.
  { intros v. split; [intros (c & [<-|[<-|[<-|[<-|[]]]]] & Hv); cbn in Hv; lia|]. intros Hv.
    exists [0; 1; 2]%nat. split; [cbn; auto|]. destruct v as [|[|[|]]]; cbn; auto. lia. }
  constructor; mixed.
  - constructor; cbn; [|discriminate|auto|].
    + intros c [<-|[<-|[<-|[<-|[]]]]]; repeat constructor; cbn; intuition lia.
    + intros [|[|[|[|e]]]] He; [exists [0; 1]%nat|exists [1%nat]|exists [0%nat]|exists [0; 1]%nat|lia]; auto.
  - auto.
  - intros [|[|[|[|[|]]]]] c Hc; try discriminate; injection Hc as <-; reflexivity.
  - exact HC.
  - intros [|[|[|[|[|]]]]] j v; cbn; try tauto. intros [<-|[]]. destruct j as [|[|[|[|[|]]]]]; cbn; auto; lia.
  - intros [|[|[|[|[|]]]]] v; cbn; try tauto. lia.
  - intros d o bs E. vm_compute in E. injection E as <- <- <-.
    intros b Hb _. cbn in Hb. repeat destruct Hb as [<-|Hb]; cbn; intuition discriminate.
Qed.
Lemma mixed_consistent : consistent mixed_program.
Proof.
  unfold consistent; mixed. intros [|[|[|[|[|]]]]] c Hc; try discriminate; injection Hc as <-; cbn [ct_data ct_vars].
  - split; [discriminate|]. cbn. lia.
  - cbn. split; [lia|]. split; [auto|discriminate].
  - split; [lia|]. split; [auto|]. split; [reflexivity|].
    repeat apply Forall_cons; try apply Forall_nil; (split; [reflexivity|]; split; [repeat apply Forall_cons; try apply Forall_nil; (split; [reflexivity|repeat constructor])|]);
      intros [|t] [|[|r]] [|[|c]] H1 H2 H3; try lia; unfold component; cbn; lra.
  - cbn. lia.
Qed.
Lemma mixed_listed : listed mixed_program.
Proof.
  unfold listed; mixed. split; [intros i Hi; cbn in *; lia|].
  split; [|split]; intros [|[|[|[|[|]]]]] c; intros; repeat match goal with H : nth_error _ _ = Some _ |- _ => cbn in H; try discriminate H; injection H as <- end; try discriminate; cbn; auto.
Qed.
Lemma mixed_rectangular : rectangular mixed_program.
Proof.
  unfold rectangular; mixed. intros [|[|[|[|[|]]]]] c cols A b Hc; try discriminate; injection Hc as <-; try discriminate.
  intros [= <- <- <-]. repeat constructor.
Qed.

Lemma mixed_gradient u : gradient mixed_program (half mixed_program) [] 0 u = nth u [5 / 2; 9 / 2; 0] 0.
Proof.
  unfold gradient, contribution, half; mixed. cbn [length seq].
  destruct u as [|[|[|[|u]]]]; unfold total, placed, herm_inner, component, listed_matrix, row_value, mget, total; cbn; lra.
Qed.

(** The slack of the semidefinite constraint at [y0 = 1]. *)
Lemma mixed_slack : Spec_Hyper.possemidef 2 (Spec_Hyper.matrix_of 0 (herm_slack [[[[1; 1]; [1; 4]]]] [[[10; 0]; [0; 10]]] [0%nat] [1; 0])).
Proof.
  set (M := Spec_Hyper.matrix_of 0 _).
  assert (M 0%nat 0%nat = 9 /\ M 0%nat 1%nat = -1 /\ M 1%nat 0%nat = -1 /\ M 1%nat 1%nat = 6) as (E1 & E2 & E3 & E4).
  { unfold M, Spec_Hyper.matrix_of, herm_slack, component, total, mget. cbn. repeat split; lra. }
  clearbody M. split.
  - intros [|[|r]] [|[|c]] Hr Hc; try lia; unfold Spec_Hyper.mconj; cbn [Spec_Hyper.cd Spec_Hyper.sconj Spec_Hyper.reals]; congruence.
  - intros z. unfold Spec_Hyper.form, Spec_Hyper.ssum. cbn. cbn in z. rewrite E1, E2, E3, E4.
    change (Spec_Hyper.el (Spec_Hyper.cd 0)) with R in *. set (a := z 0%nat). set (b := z 1%nat). pose proof (Rle_0_sqr (a - b)). unfold Rsqr in *.
    pose proof (Rle_0_sqr a). pose proof (Rle_0_sqr b). unfold Rsqr in *. lra.
Qed.
