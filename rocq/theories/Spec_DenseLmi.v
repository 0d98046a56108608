(** Specification vocabulary for real linear matrix inequalities (property C68): the
    data, and the histories of calls considered. *)
From Coq Require Import List Arith Reals.
From Verif Require Import DenseModel JordanModel Spec_Hyper Spec_Lanczos DenseLmiModel.
Import ListNotations.
Open Scope R_scope.

(** All data matrices are symmetric. *)
Definition lmi_data (o : dense_lmi) : Prop :=
  (forall X, In X (dl_mats o) -> hermitian_matrix (A := reals) (dl_n o) X) /\ hermitian_matrix (A := reals) (dl_n o) (dl_affine o).
(** [y_0 A_0 + ... - k C]. *)
Definition combination (m : nat) (As : nat -> amat reals) (C : amat reals) (k : R) (y : nat -> R) : amat reals :=
  fun r c => ssum (A := reals) m (fun i => y i * As i r c) - k * C r c.

(** Histories: from the identity, any sequence of resets, assemblies of the Newton
    system, queries of the slack eigenvalues, prepared directions, and steps, where a
    step follows the preparation directly and its size times the operator norm of the
    direction is at most [sqrt 2].  The index is the negative slack of a preparation
    that has just been made. *)
Inductive lmi_history (o0 : dense_lmi) : option mat -> dense_lmi -> Prop :=
  | LStart : lmi_history o0 None (DSetIdentity o0)
  | LReset : forall b o, lmi_history o0 b o -> lmi_history o0 None (DSetIdentity o)
  | LAssemble : forall b o initialize sys, lmi_history o0 b o -> lmi_history o0 None (snd (DSchur o initialize sys))
  | LQuery : forall b o y c_weight, lmi_history o0 b o -> lmi_history o0 None (fst (DWeightedSlack o y c_weight))
  | LPrepare : forall b o opt y, lmi_history o0 b o -> so_affine opt = false ->
      lmi_history o0 (Some (DNegativeSlack o (so_c_weight opt) y)) (fst (DPrepareStep o opt y))
  | LTake : forall S o opt nu o', lmi_history o0 (Some S) o -> DTakeStep o opt o' ->
      norm_at_most (A := reals) (dl_n o) (dl_W o) S (so_e_weight opt) nu -> Rabs (so_step_size opt) * nu <= sqrt 2 ->
      lmi_history o0 None o'.
