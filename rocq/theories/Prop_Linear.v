(** Properties of the factorizations, the KKT solve and the right-hand sides
    (C11-C17, C49), over the reals. *)
From Coq Require Import List Arith ZArith Reals Lra Lia Psatz Bool.
From Verif Require Import Base BaseFacts SupernodeModel TriWorkspaceModel AssemblerModel DenseModel BlockModel KktModel
  Spec_Block Spec_Assembly Spec_Linear AssemblerProofs BlockLdlt RhsProofs LinearFacts Prop_Symbolic Prop_Assembly.
Import ListNotations.
Open Scope R_scope.

Notation ToDenseR := (ToDense R 0).

(** ** C11 *)
Theorem C11_block_cholesky_exact : forall rows size w ss m m',
  fill_closed rows size -> TriWS_make rows size = Ok w -> seperator_diagonal w = Ok ss ->
  BlockCholeskyInPlace w ss m = Ok (Some m') ->
  exists A L : nat -> nat -> R,
    (forall r c, (c <= r < dim size)%nat ->
       ToDenseR w rows m r c = Ok (A r c) /\ ToDenseR w rows m' r c = Ok (L r c)) /\
    (forall r c, (r < c)%nat -> L r c = 0) /\
    (forall r c, (c <= r < dim size)%nat -> L r c <> 0 ->
       exists k, (k < length rows)%nat /\ in_block size k c /\ stored_row rows k r) /\
    (forall c, (c < dim size)%nat -> 0 < L c c) /\
    (forall r c, (c <= r < dim size)%nat -> A r c = total (fun t => L r t * L c t) (seq 0 (dim size))).
Proof. exact block_cholesky_exact. Qed.
Print Assumptions C11_block_cholesky_exact.

(** The factorization never accesses memory out of bounds. *)
Theorem C11_block_cholesky_total : forall rows size w ss m,
  fill_closed rows size -> TriWS_make rows size = Ok w -> seperator_diagonal w = Ok ss ->
  exists r, BlockCholeskyInPlace w ss m = Ok r.
Proof. exact cholesky_never_faults. Qed.
Print Assumptions C11_block_cholesky_total.

(** ** C49: success is equivalent to positive definiteness. *)
Theorem C49_cholesky_iff_positive_definite : forall rows size w ss m A,
  fill_closed rows size -> (0 < length rows)%nat ->
  TriWS_make rows size = Ok w -> seperator_diagonal w = Ok ss ->
  (forall r c, (c <= r < dim size)%nat -> ToDenseR w rows m r c = Ok (A r c)) ->
  ((exists m', BlockCholeskyInPlace w ss m = Ok (Some m')) <-> positive_definite (dim size) (from_lower A)).
Proof. exact cholesky_iff_pd. Qed.
Print Assumptions C49_cholesky_iff_positive_definite.

(** The same for the KKT solver, in the original variable order. *)
Theorem C49_factor_iff_positive_definite : forall cliques dual_vars n d o bs,
  admissible cliques dual_vars -> build cliques dual_vars = Ok (d, o, bs) ->
  (forall v, covered cliques v <-> (v < n)%nat) -> (forall dv, In dv dual_vars -> dv = []) ->
  forall m iters M, (forall u v, (u < n)%nat -> (v < n)%nat -> KKTMatrixR o d m u v = Ok (M u v)) ->
  ((exists FK, Factor o d dual_vars iters m = Ok (Some FK)) <-> positive_definite n M).
Proof. exact factor_cholesky_iff_pd. Qed.
Print Assumptions C49_factor_iff_positive_definite.

(** ** C12 *)
Theorem C12_cholesky_kkt_solve : forall cliques dual_vars n d o bs,
  admissible cliques dual_vars -> build cliques dual_vars = Ok (d, o, bs) ->
  (forall v, covered cliques v <-> (v < n)%nat) -> (forall dv, In dv dual_vars -> dv = []) ->
  forall m iters FK, Factor o d dual_vars iters m = Ok (Some FK) ->
  exists M, (forall u v, (u < n)%nat -> (v < n)%nat -> KKTMatrixR o d m u v = Ok (M u v)) /\
    (forall u v, M u v = M v u) /\ nonsingular n M /\
    forall b, exists x, SolveInPlace o d FK iters n b = Ok x /\ solves n M x b.
Proof. exact cholesky_kkt_solve. Qed.
Print Assumptions C12_cholesky_kkt_solve.

(** Factoring never throws, never accesses memory out of bounds (with or without
    multipliers). *)
Theorem C12_factor_total : forall cliques dual_vars n d o bs,
  admissible cliques dual_vars -> build cliques dual_vars = Ok (d, o, bs) ->
  (forall v, covered cliques v <-> (v < n)%nat) ->
  forall m iters, exists r, Factor o d dual_vars iters m = Ok r.
Proof. exact factor_total. Qed.
Print Assumptions C12_factor_total.

(** End to end: assemble, factor, solve; the solution solves the system whose
    matrix is the sum of the scattered constraint blocks (guard of C08). *)
Theorem C12_assemble_factor_solve : forall cliques dual_vars n d o bs,
  admissible cliques dual_vars -> build cliques dual_vars = Ok (d, o, bs) ->
  (forall v, covered cliques v <-> (v < n)%nat) -> (forall dv, In dv dual_vars -> dv = []) ->
  (forall b, In b bs -> direct_update b = true -> ~ In (-1)%Z (b_sn b)) ->
  forall (G : nat -> nat -> nat -> R) m iters,
  positive_definite n (sum_of_blocks R 0 Rplus cliques G) ->
  exists FK, Factor o d dual_vars iters (AssembleR bs (d_order d) G m) = Ok (Some FK) /\
  forall b, exists x, SolveInPlace o d FK iters n b = Ok x /\
    solves n (sum_of_blocks R 0 Rplus cliques G) x b /\
    forall x', solves n (sum_of_blocks R 0 Rplus cliques G) x' b -> forall u, (u < n)%nat -> x' u = x u.
Proof.
  intros cliques dual_vars n d o bs AD EB HC HD HG G m iters PD.
  assert (forall u v, (u < n)%nat -> (v < n)%nat ->
    KKTMatrixR o d (AssembleR bs (d_order d) G m) u v = Ok (sum_of_blocks R 0 Rplus cliques G u v)) as HK.
  { intros u v Hu Hv. eapply C08_kkt_is_sum_of_blocks; eauto; apply HC; auto. }
  destruct (proj2 (factor_cholesky_iff_pd _ _ _ _ _ _ AD EB HC HD _ iters _ HK) PD) as (FK & EF).
  exists FK. split; auto. intros b.
  destruct (cholesky_kkt_solve _ _ _ _ _ _ AD EB HC HD _ _ _ EF) as (M & HM & _ & NS & HS).
  destruct (HS b) as (x & Ex & Hx).
  assert (forall y c, solves n (sum_of_blocks R 0 Rplus cliques G) y c <-> solves n M y c) as HE.
  { intros y c. unfold solves, row_times.
    assert (forall u, (u < n)%nat -> total (fun v => sum_of_blocks R 0 Rplus cliques G u v * y v) (seq 0 n) = total (fun v => M u v * y v) (seq 0 n)) as K.
    { intros u Hu. apply total_ext. intros v Hv. apply in_seq in Hv. specialize (HM u v Hu ltac:(lia)). rewrite HK in HM by lia.
      injection HM as ->. auto. }
    split; intros H u Hu; [rewrite <- K|rewrite K]; auto. }
  exists x. split; auto. split; [apply HE; auto|].
  intros x' Hx' u Hu. apply HE in Hx'.
  assert (solves n M (fun i => x' i - x i) (fun _ => 0)) as H0.
  { intros v Hv. specialize (Hx v Hv). specialize (Hx' v Hv). rewrite !row_times_mv in *. rewrite KktProofs.mv_minus. lra. }
  specialize (NS _ H0 u Hu). cbv beta in NS. lra.
Qed.
Print Assumptions C12_assemble_factor_solve.

(** Example for C11, C12, C49: two overlapping constraints with blocks
    [[2,1],[1,2]]; the sum is tridiagonal and positive definite. *)
Definition lin_cliques := [[0;1];[1;2]]%nat.
Definition lin_duals := [[];[]] : list (list nat).
Definition lin_G (k i j : nat) : R := if (i =? j)%nat then 2 else 1.
Example C12_example : admissible lin_cliques lin_duals /\
  (forall v, covered lin_cliques v <-> (v < 3)%nat) /\
  positive_definite 3 (sum_of_blocks R 0 Rplus lin_cliques lin_G) /\
  exists d o bs, build lin_cliques lin_duals = Ok (d, o, bs) /\
    (forall b, In b bs -> direct_update b = true -> ~ In (-1)%Z (b_sn b)) /\
    exists FK, Factor o d lin_duals 1 (AssembleR bs (d_order d) lin_G (fun _ => 7)) = Ok (Some FK).
Proof.
  assert (admissible lin_cliques lin_duals) as AD.
  { constructor; try discriminate; auto.
    + intros c Hc. cbn in Hc. repeat (destruct Hc as [<-|Hc]; [repeat constructor; cbn; lia|]). destruct Hc.
    + intros e He. cbn in He. exists (nth e lin_cliques []). do 2 (destruct e as [|e]; [reflexivity|]). lia. }
  assert (forall v, covered lin_cliques v <-> (v < 3)%nat) as HC.
  { intros v. split.
    - intros (c & [<-|[<-|[]]] & Hv); cbn in Hv; lia.
    - intros Hv. do 3 (destruct v as [|v]; [first [exists [0;1]%nat; cbn; tauto|exists [1;2]%nat; cbn; tauto]|]). lia. }
  assert (positive_definite 3 (sum_of_blocks R 0 Rplus lin_cliques lin_G)) as PD.
  { intros x (u & Hu & Hx). cbv -[Rplus Rmult Rlt R0 R1 IZR].
    set (a := x 0%nat). set (b := x 1%nat). set (c := x 2%nat).
    match goal with |- 0 < ?e => replace e with (Rsqr a + Rsqr (a + b) + 2 * Rsqr b + Rsqr (b + c) + Rsqr c) by (unfold Rsqr; ring) end.
    pose proof (Rle_0_sqr a). pose proof (Rle_0_sqr (a + b)). pose proof (Rle_0_sqr b). pose proof (Rle_0_sqr (b + c)). pose proof (Rle_0_sqr c).
    do 3 (destruct u as [|u]; [apply Rsqr_pos_lt in Hx; fold a b c in Hx; lra|]). lia. }
  split; auto. split; auto. split; auto.
  eexists _, _, _. split; [vm_compute; reflexivity|].
  match goal with |- ?P /\ _ => assert P as HG end.
  { intros b Hb. cbn in Hb.
    repeat (destruct Hb as [<-|Hb]; [cbn; intros; try discriminate; intuition discriminate|]). destruct Hb. }
  split; auto.
  edestruct C12_assemble_factor_solve with (cliques := lin_cliques) (dual_vars := lin_duals) (iters := 1%nat) (m := fun _ : addr => 7)
    as (FK & EF & _); eauto.
  - vm_compute. reflexivity.
  - intros dv [<-|[<-|[]]]; auto.
Qed.

Example C11_example : exists rows size w ss m m',
  fill_closed rows size /\ (0 < length rows)%nat /\ TriWS_make rows size = Ok w /\ seperator_diagonal w = Ok ss /\
  BlockCholeskyInPlace w ss m = Ok (Some m').
Proof.
  destruct C12_example as (AD & HC & PD & d & o & bs & EB & HG & FK & EF).
  pose proof (build_fun _ _ _ _ _ AD EB) as BP. pose proof (bp_an _ _ _ _ _ BP) as HA.
  pose proof (an_fill _ _ _ _ _ _ _ _ _ HA) as FC.
  unfold Factor in EF. apply bind_ok in EF as (K & _ & EF). apply bind_ok in EF as (ss & Es & EF).
  change (use_cholesky lin_duals) with true in EF. cbv iota in EF.
  apply bind_ok in EF as ([m'|] & E & HN); [clear HN|discriminate].
  exists (d_cliques d), (d_supernode_size d), o, ss. eexists _, m'.
  split; auto. split; [|split; [apply (bp_make _ _ _ _ _ BP)|eauto]].
  rewrite (an_rows _ _ _ _ _ _ _ _ _ HA). cbn. lia.
Qed.

(** ** C13 *)
Theorem C13_rldlt : forall n A, (1 <= n)%nat ->
  let st := rldlt n A in
  exists (s : nat -> nat) (e : nat -> R),
    permutes n s /\ (forall y i, perm_apply (ltr st) y i = y (s i)) /\
    (forall r c, (r < n)%nat -> (c < n)%nat ->
       from_lower A (s r) (s c) + (if (r =? c)%nat then e r else 0) =
       total (fun t => unit_from_lower (lm st) r t * lm st t t * unit_from_lower (lm st) c t) (seq 0 n)) /\
    (forall i, (i < n)%nat -> / 1000000000 <= Rabs (lm st i i)) /\
    (forall i, (i < n)%nat -> Rabs (e i) <= / 1000000000) /\
    (forall i, (i < n)%nat -> / 1000000000 < Rabs (lm st i i) -> e i = 0) /\
    ((2 <= n)%nat -> lret st = true -> forall i, (i < n)%nat -> e i = 0) /\
    ((2 <= n)%nat -> lret st = false -> exists i, (i < n)%nat /\ Rabs (lm st i i - e i) <= / 1000000000) /\
    (n = 1%nat -> lret st = true).
Proof. exact rldlt_spec. Qed.
Print Assumptions C13_rldlt.

(** Order 1: the flag says "no regularization" although the matrix was changed. *)
Theorem C13_flag_order_one_refuted : exists A : nat -> nat -> R,
  lret (rldlt 1 A) = true /\ lm (rldlt 1 A) 0%nat 0%nat <> A 0%nat 0%nat.
Proof.
  exists (fun _ _ => 0). split; [reflexivity|]. cbn. unfold mset, small_pivot. cbn.
  rewrite Rabs_R0. destruct (Rlt_dec 0 reg) as [|H]; [|exfalso; apply H; unfold reg; lra].
  destruct (Rlt_dec 0 0); unfold reg; lra.
Qed.
Print Assumptions C13_flag_order_one_refuted.

(** A regular matrix of order 2 that needs pivoting: the flag is true. *)
Example C13_example : let A := fun i j => if ((i =? 1) && (j =? 1))%nat%bool then 2 else if (i =? j)%nat then 0 else 1 in
  lret (rldlt 2 A) = true /\ nth 0 (ltr (rldlt 2 A)) 0%nat = 1%nat /\ lm (rldlt 2 A) 1%nat 1%nat = - / 2.
Proof.
  cbv zeta. cbv -[Rplus Rminus Rmult Rdiv Rinv Ropp IZR Rlt_dec Rabs reg].
  assert (Rabs 0 < Rabs 2) as H1 by (rewrite Rabs_R0, Rabs_right; lra).
  destruct (Rlt_dec (Rabs 0) (Rabs 2)) as [_|]; [|contradiction].
  cbv -[Rplus Rminus Rmult Rdiv Rinv Ropp IZR Rlt_dec Rabs reg].
  assert (reg < Rabs (2 - 0)) as H2 by (unfold reg; rewrite Rabs_right; lra).
  destruct (Rlt_dec reg (Rabs (2 - 0))) as [_|]; [|contradiction].
  match goal with |- context [Rlt_dec reg (Rabs ?t)] => replace t with (- / 2) by field end.
  assert (reg < Rabs (- / 2)) as H3 by (unfold reg; rewrite Rabs_Ropp, Rabs_right; lra).
  destruct (Rlt_dec reg (Rabs (- / 2))) as [_|]; [|contradiction]. auto.
Qed.

(** ** C14 *)
Theorem C14_ldlt_kkt_solve : forall cliques dual_vars n d o bs,
  admissible cliques dual_vars -> build cliques dual_vars = Ok (d, o, bs) ->
  (forall v, covered cliques v <-> (v < n)%nat) -> (exists dv, In dv dual_vars /\ dv <> []) ->
  forall m iters, exists M m' fs K E,
    (forall u v, (u < n)%nat -> (v < n)%nat -> KKTMatrixR o d m u v = Ok (M u v)) /\
    Factor o d dual_vars iters m = Ok (Some (FLdlt m' fs (existsb f_reg fs), K)) /\
    length fs = length cliques /\
    (* the perturbation of the diagonal *)
    (forall u, (u < n)%nat -> Rabs (E u) <= 2 / 1000000000) /\
    (forall k i, (k < length cliques)%nat -> (i < nth k (d_supernode_size d) 0)%nat ->
       (0 < i)%nat \/ k = 0%nat \/ (0 < nth (k - 1) (d_supernode_size d) 0)%nat \/
         / 1000000000 <= Rabs (schur_at (d_cliques d) (d_supernode_size d) m m' fs
                                 (offset (d_supernode_size d) k + i) (offset (d_supernode_size d) k)) ->
       ((2 <= nth k (d_supernode_size d) 0)%nat /\ f_reg (nth k fs (mkFact [] true)) = false) \/
       (forall j, (j < nth k (d_supernode_size d) 0)%nat -> / 1000000000 < Rabs (m' (ADiag k j j))) ->
       E (nth (offset (d_supernode_size d) k + i) (d_perm_inv d) 0%nat) = 0) /\
    (* a single solve is exact for the perturbed matrix *)
    (forall b, exists y, apply_solver o d (FLdlt m' fs (existsb f_reg fs)) b = Ok y /\
       forall u, (u < n)%nat -> row_times n M y u + E u * y u = b u) /\
    (* the in-place solve *)
    (forall b, exists x, SolveInPlace o d (FLdlt m' fs (existsb f_reg fs), K) iters n b = Ok x /\
       ((forall u, (u < n)%nat -> E u = 0) -> solves n M x b) /\
       (iters = 0%nat -> forall u, (u < n)%nat -> row_times n M x u + E u * x u = b u) /\
       ((0 < iters)%nat -> exists r s, apply_solver o d (FLdlt m' fs (existsb f_reg fs)) r = Ok s /\
          forall u, (u < n)%nat -> b u - row_times n M x u = E u * s u)).
Proof. exact ldlt_kkt_solve. Qed.
Print Assumptions C14_ldlt_kkt_solve.

(** No pivot regularized: the computed solution is exact.  Every pivot is above
    the threshold (or the block has order >= 2 and reports so), and for a
    supernode that follows an empty one (whose factorization looks at the next
    stored entry) the first diagonal entry left after eliminating the earlier
    columns is not below the threshold. *)
Theorem C14_ldlt_exact_when_not_regularized : forall cliques dual_vars n d o bs,
  admissible cliques dual_vars -> build cliques dual_vars = Ok (d, o, bs) ->
  (forall v, covered cliques v <-> (v < n)%nat) -> (exists dv, In dv dual_vars /\ dv <> []) ->
  forall m iters, exists M m' fs K,
    (forall u v, (u < n)%nat -> (v < n)%nat -> KKTMatrixR o d m u v = Ok (M u v)) /\
    Factor o d dual_vars iters m = Ok (Some (FLdlt m' fs (existsb f_reg fs), K)) /\
    ((forall k, (k < length cliques)%nat ->
        ((2 <= nth k (d_supernode_size d) 0)%nat /\ f_reg (nth k fs (mkFact [] true)) = false) \/
        (forall j, (j < nth k (d_supernode_size d) 0)%nat -> / 1000000000 < Rabs (m' (ADiag k j j)))) ->
     (forall k, (k < length cliques)%nat -> (0 < nth k (d_supernode_size d) 0)%nat ->
        k = 0%nat \/ (0 < nth (k - 1) (d_supernode_size d) 0)%nat \/
        / 1000000000 <= Rabs (schur_at (d_cliques d) (d_supernode_size d) m m' fs
                                (offset (d_supernode_size d) k + 0) (offset (d_supernode_size d) k))) ->
     forall b, exists x, SolveInPlace o d (FLdlt m' fs (existsb f_reg fs), K) iters n b = Ok x /\ solves n M x b).
Proof.
  intros cliques dual_vars n d o bs AD EB HC HD m iters.
  destruct (ldlt_kkt_solve _ _ _ _ _ _ AD EB HC HD m iters) as (M & m' & fs & K & E & HM & EF & _ & _ & HE & _ & HS).
  exists M, m', fs, K. split; auto. split; auto. intros HP HNE b. destruct (HS b) as (x & Ex & Hx & _). exists x. split; auto.
  apply Hx. intros u Hu.
  exact (column_by_column _ _ _ _ _ _ E
    (fun k => ((2 <= nth k (d_supernode_size d) 0)%nat /\ f_reg (nth k fs (mkFact [] true)) = false) \/
              (forall j, (j < nth k (d_supernode_size d) 0)%nat -> / 1000000000 < Rabs (m' (ADiag k j j))))
    (fun k r => / 1000000000 <= Rabs (schur_at (d_cliques d) (d_supernode_size d) m m' fs r (offset (d_supernode_size d) k)))
    AD EB HC HNE HE HP u Hu).
Qed.
Print Assumptions C14_ldlt_exact_when_not_regularized.

(** Example and refutation: variable 0 and the equality multiplier 2 around
    variable 1.  The matrix diag(0, 1, 1) is singular, the factorization
    reports that nothing was regularized, and the solve returns normally. *)
Definition eq_duals := [[];[2]]%nat : list (list nat).
Definition sing_mem (a : addr) : R := match a with ADiag 1 i j => if (i =? j)%nat then 1 else 0 | _ => 0 end.
Lemma eq_admissible : admissible lin_cliques eq_duals.
Proof.
  constructor; try discriminate; auto.
  + intros c Hc. cbn in Hc. repeat (destruct Hc as [<-|Hc]; [repeat constructor; cbn; lia|]). destruct Hc.
  + intros e He. cbn in He. destruct e as [|[|e]]; [exists [0;1]%nat; reflexivity|exists [1]%nat; reflexivity|lia].
Qed.
Lemma eq_covered : forall v, covered lin_cliques v <-> (v < 3)%nat.
Proof. apply C12_example. Qed.
Theorem C14_flag_refuted : exists cliques dual_vars n d o bs m M m' fs K b x,
  admissible cliques dual_vars /\ build cliques dual_vars = Ok (d, o, bs) /\
  (forall v, covered cliques v <-> (v < n)%nat) /\
  (forall u v, (u < n)%nat -> (v < n)%nat -> KKTMatrixR o d m u v = Ok (M u v)) /\
  Factor o d dual_vars 0 m = Ok (Some (FLdlt m' fs false, K)) /\
  SolveInPlace o d (FLdlt m' fs false, K) 0 n b = Ok x /\
  ~ solves n M x b.
Proof.
  destruct (admissible_build _ _ eq_admissible) as (d & o & bs & EB & _).
  destruct (ldlt_kkt_solve _ _ 3 _ _ _ eq_admissible EB eq_covered ltac:(exists [2]%nat; split; [right; left; auto|discriminate]) sing_mem 0)
    as (M & m' & fs & K & E & HM & EF & _ & _ & _ & _ & HS).
  assert (existsb f_reg fs = false) as Efs.
  { assert (match build lin_cliques eq_duals with
      | Ok (d,o,bs) => match Factor o d eq_duals 0 sing_mem with Ok (Some (FLdlt _ _ r, _)) => r = false | _ => False end
      | _ => False end) as H.
    { vm_compute build. cbv -[Rplus Rminus Rmult Rdiv Rinv Ropp IZR Rlt_dec Rabs reg small_pivot].
      replace (1 - (0 + small_pivot 0 * ((0 - 0) / 1 / small_pivot 0) * ((0 - 0) / 1 / small_pivot 0))) with 1 by (unfold Rdiv; ring).
      assert (H1 : ~ Rabs 1 < Rabs 1) by lra.
      destruct (Rlt_dec (Rabs 1) (Rabs 1)); [contradiction|].
      cbv -[Rplus Rminus Rmult Rdiv Rinv Ropp IZR Rlt_dec Rabs reg small_pivot].
      assert (H2 : reg < Rabs (1 - 0)) by (unfold reg; rewrite Rabs_right; lra).
      destruct (Rlt_dec reg (Rabs (1 - 0))); [|contradiction].
      match goal with |- context [Rlt_dec reg (Rabs ?t)] => replace t with (1 - 0) by field end.
      destruct (Rlt_dec reg (Rabs (1 - 0))); [auto|contradiction]. }
    rewrite EB in H. rewrite EF in H. exact H. }
  rewrite Efs in *.
  destruct (HS (fun u => if (u =? 0)%nat then 1 else 0)) as (x & Ex & _).
  exists lin_cliques, eq_duals, 3%nat, d, o, bs, sing_mem, M, m', fs, K. eexists _, x.
  split; [exact eq_admissible|]. split; [exact EB|]. split; [exact eq_covered|]. split; [exact HM|]. split; [exact EF|]. split; [exact Ex|].
  intros Hs. specialize (Hs 0%nat ltac:(lia)). cbn in Hs.
  assert (forall v, (v < 3)%nat -> M 0%nat v = 0) as HZ.
  { intros v Hv. assert (match build lin_cliques eq_duals with Ok (d,o,bs) => KKTMatrixR o d sing_mem 0 v = Ok 0 | _ => False end) as H.
    { do 3 (destruct v as [|v]; [vm_compute build; reflexivity|]). lia. }
    rewrite EB in H. rewrite HM in H by lia. congruence. }
  unfold row_times in Hs. cbn in Hs. rewrite !HZ in Hs by lia. lra.
Qed.
Print Assumptions C14_flag_refuted.

(** Hypotheses of C14 are met, and no supernode is empty. *)
Example C14_example : admissible lin_cliques eq_duals /\ (exists dv, In dv eq_duals /\ dv <> []) /\
  exists d o bs, build lin_cliques eq_duals = Ok (d, o, bs) /\
  forall k, (k < length lin_cliques)%nat -> (0 < nth k (d_supernode_size d) 0)%nat.
Proof.
  split; [exact eq_admissible|]. split; [exists [2]%nat; split; [right; left; auto|discriminate]|].
  eexists _, _, _. split; [vm_compute; reflexivity|]. cbn. intros k Hk. destruct k as [|[|k]]; lia.
Qed.

(** ** C15 *)
Theorem C15_refinement_residuals : forall n K (S : vec -> res vec) b iters y y',
  refine n K S b iters y = Ok y' ->
  exists r t : nat -> nat -> R,
    (forall i, r 0%nat i = b i - row_times n K y i) /\
    (forall k, (k < iters)%nat -> S (r k) = Ok (t k) /\
       forall i, r (Datatypes.S k) i = r k i - row_times n K (t k) i) /\
    (forall i, b i - row_times n K y' i = r iters i) /\
    (forall i, y' i = y i + total (fun k => t k i) (seq 0 iters)).
Proof. exact refinement_residuals. Qed.
Print Assumptions C15_refinement_residuals.

Theorem C15_refinement_keeps_exact_solution : forall n K (S : vec -> res vec) b,
  (forall r, (forall i, (i < n)%nat -> r i = 0) -> exists t, S r = Ok t /\ forall i, (i < n)%nat -> t i = 0) ->
  forall iters y, solves n K y b ->
  exists y', refine n K S b iters y = Ok y' /\ forall i, (i < n)%nat -> y' i = y i.
Proof. exact refinement_keeps_exact. Qed.
Print Assumptions C15_refinement_keeps_exact_solution.

(** With the Cholesky factor, any number of refinement steps gives the same
    solution as none. *)
Theorem C15_cholesky_refinement_is_identity : forall cliques dual_vars n d o bs,
  admissible cliques dual_vars -> build cliques dual_vars = Ok (d, o, bs) ->
  (forall v, covered cliques v <-> (v < n)%nat) -> (forall dv, In dv dual_vars -> dv = []) ->
  forall m iters FK FK0 b x x0,
  Factor o d dual_vars iters m = Ok (Some FK) -> Factor o d dual_vars 0 m = Ok (Some FK0) ->
  SolveInPlace o d FK iters n b = Ok x -> SolveInPlace o d FK0 0 n b = Ok x0 ->
  forall u, (u < n)%nat -> x u = x0 u.
Proof.
  intros cliques dual_vars n d o bs AD EB HC HD m iters FK FK0 b x x0 E1 E2 S1 S2 u Hu.
  destruct (cholesky_kkt_solve _ _ _ _ _ _ AD EB HC HD _ _ _ E1) as (M & HM & _ & NS & H1).
  destruct (cholesky_kkt_solve _ _ _ _ _ _ AD EB HC HD _ _ _ E2) as (M0 & HM0 & _ & _ & H0).
  destruct (H1 b) as (y & Ey & Hy). destruct (H0 b) as (y0 & Ey0 & Hy0).
  rewrite S1 in Ey. injection Ey as <-. rewrite S2 in Ey0. injection Ey0 as <-.
  assert (solves n M (fun i => x i - x0 i) (fun _ => 0)) as Hd.
  { intros v Hv. specialize (Hy v Hv). specialize (Hy0 v Hv). rewrite !row_times_mv in *. rewrite KktProofs.mv_minus.
    rewrite (KktProofs.mv_ext_mat n M M0 x0) ; [lra|]. intros j Hj. specialize (HM v j Hv Hj). rewrite HM0 in HM by auto. congruence. }
  specialize (NS _ Hd u Hu). cbv beta in NS. lra.
Qed.
Print Assumptions C15_cholesky_refinement_is_identity.

(** A scalar system 2 x = 4 with the approximate solver r / 4: two steps from
    x = 1 give x = 7/4. *)
Example C15_example : exists y', refine 1 (fun _ _ => 2) (fun r => Ok (fun i => r i / 4)) (fun _ => 4) 2 (fun _ => 1) = Ok y' /\ y' 0%nat = 7 / 4.
Proof. eexists. split; [reflexivity|]. cbn. field. Qed.

(** ** C16 *)
Theorem C16_residuals_are_sums : forall n cliques eqs,
  length cliques = length eqs ->
  (forall c v, In c cliques -> In v c -> (v < n)%nat) ->
  (forall i ci, nth_error eqs i = Some ci ->
     (length (nth i cliques []) <= length (r_AW ci))%nat /\ (length (nth i cliques []) <= length (r_AQc ci))%nat) ->
  exists s, AssembleSchurComplementResiduals n cliques eqs = Ok s /\
    length (r_AW s) = n /\ length (r_AQc s) = n /\
    (forall v, nth v (r_AW s) 0 =
       total (fun i => placed (nth i cliques []) (fun a => nth a (r_AW (nth i eqs (mkRhs [] [] 0 0))) 0) v) (seq 0 (length eqs))) /\
    (forall v, nth v (r_AQc s) 0 =
       total (fun i => placed (nth i cliques []) (fun a => nth a (r_AQc (nth i eqs (mkRhs [] [] 0 0))) 0) v) (seq 0 (length eqs))) /\
    r_wc s = total r_wc eqs /\ r_cQc s = total r_cQc eqs.
Proof. exact residuals_ok. Qed.
Print Assumptions C16_residuals_are_sums.

(** The three-argument [Assemble] of the KKT solver gives the same vectors and
    rejects output vectors of the wrong size. *)
Theorem C16_assembled_rhs_are_sums : forall cliques dual_vars n d o bs eqs,
  admissible cliques dual_vars -> build cliques dual_vars = Ok (d, o, bs) ->
  (forall v, covered cliques v <-> (v < n)%nat) ->
  length cliques = length eqs ->
  (forall i ci, nth_error eqs i = Some ci ->
     (length (nth i cliques []) <= length (r_AW ci))%nat /\ (length (nth i cliques []) <= length (r_AQc ci))%nat) ->
  (exists aw aq, AssembleRhs d cliques eqs n n = Ok (aw, aq, total r_wc eqs) /\
    length aw = n /\ length aq = n /\
    (forall v, nth v aw 0 =
       total (fun i => placed (nth i cliques []) (fun a => nth a (r_AW (nth i eqs (mkRhs [] [] 0 0))) 0) v) (seq 0 (length eqs))) /\
    (forall v, nth v aq 0 =
       total (fun i => placed (nth i cliques []) (fun a => nth a (r_AQc (nth i eqs (mkRhs [] [] 0 0))) 0) v) (seq 0 (length eqs)))) /\
  (forall p q, p <> n \/ q <> n -> AssembleRhs d cliques eqs p q = Throw).
Proof.
  intros cliques dual_vars n d o bs eqs AD EB HC HL HS. pose proof (covered_N _ _ _ _ _ _ AD EB HC) as EN. subst n. split.
  - apply (assemble_rhs_ok _ _ _ _ _ _ AD EB); auto. intros c v H1 H2. apply HC. exists c. auto.
  - intros p q H. unfold AssembleRhs. destruct (Nat.eqb_spec p (d_N d)), (Nat.eqb_spec q (d_N d)); auto. lia.
Qed.
Print Assumptions C16_assembled_rhs_are_sums.

Example C16_example :
  AssembleSchurComplementResiduals 3 lin_cliques [mkRhs [1;2] [3;4] 5 6; mkRhs [10;20] [30;40] 50 60] =
    Ok (mkRhs [0+1; 0+2+10; 0+20] [0+3; 0+4+30; 0+40] (0+5+50) (0+6+60)).
Proof. reflexivity. Qed.

(** ** C17 *)
Theorem C17_solve_dimension_check : forall cliques dual_vars d o bs,
  admissible cliques dual_vars -> build cliques dual_vars = Ok (d, o, bs) ->
  forall n, (forall v, covered cliques v -> (v < n)%nat) ->
  (forall FK iters b, (exists v, (v < n)%nat /\ ~ covered cliques v) -> SolveInPlace o d FK iters n b = Throw) /\
  ((forall v, (v < n)%nat -> covered cliques v) ->
     forall m iters FK b, Factor o d dual_vars iters m = Ok (Some FK) -> exists x, SolveInPlace o d FK iters n b = Ok x).
Proof. exact solve_dimension_check. Qed.
Print Assumptions C17_solve_dimension_check.

(** Four variables, two constraints that miss variable 3. *)
Example C17_dimension_example : exists d o bs, build lin_cliques lin_duals = Ok (d, o, bs) /\
  (forall v, covered lin_cliques v -> (v < 4)%nat) /\ (exists v, (v < 4)%nat /\ ~ covered lin_cliques v).
Proof.
  eexists _, _, _. split; [vm_compute; reflexivity|]. split.
  - intros v Hv. apply eq_covered in Hv. lia.
  - exists 3%nat. split; [lia|]. intros H. apply eq_covered in H. lia.
Qed.
