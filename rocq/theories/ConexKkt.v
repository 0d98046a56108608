(** The linear system of one iteration. *)
From Coq Require Import List Arith ZArith Reals Bool Lia Lra.
From Verif Require Import Base BaseFacts LayoutModel SupernodeModel TriWorkspaceModel AssemblerModel DenseModel BlockModel KktModel
  ProgramModel ApiModel DivergenceModel SolveModel LinearModel ConcreteBackend Spec_Linear Spec_Assembly RhsProofs Spec_Program Spec_Solve Spec_Conex
  Spec_Block BlockProofs BlockLdlt LinearFacts Prop_Assembly Prop_Linear SolveProofs SolveFacts ConexFacts ConexStep.
From Verif Require SocLinks.
Import ListNotations.
Open Scope R_scope.

(** ** Sums *)
Lemma total_plus {A} (f g : A -> R) l : total (fun a => f a + g a) l = total f l + total g l.
Proof. unfold total. induction l as [|a l IH]; cbn; [lra|]. rewrite IH. lra. Qed.
Lemma total_swap {A B} (f : A -> B -> R) la lb :
  total (fun a => total (fun b => f a b) lb) la = total (fun b => total (fun a => f a b) la) lb.
Proof.
  induction la as [|a la IH].
  - symmetry. apply total_zero. auto.
  - change (total (fun a => total (fun b => f a b) lb) (a :: la)) with (total (fun b => f a b) lb + total (fun a => total (fun b => f a b) lb) la).
    rewrite IH, <- total_plus. reflexivity.
Qed.
Lemma total_scale_r {A} (f : A -> R) k l : total (fun a => f a * k) l = total f l * k.
Proof. rewrite (total_ext _ (fun a => k * f a)) by (intros; lra). rewrite total_scale. lra. Qed.
Lemma total_delta n k (f : nat -> R) : (k < n)%nat -> total (fun v => if (k =? v)%nat then f v else 0) (seq 0 n) = f k.
Proof.
  intros H. assert (seq 0 n = seq 0 k ++ k :: seq (S k) (n - S k)) as ->.
  { replace n with (k + S (n - S k))%nat at 1 by lia. rewrite seq_app. f_equal. }
  rewrite total_app. unfold total at 2. cbn [fold_right]. fold (total (fun v => if (k =? v)%nat then f v else 0) (seq (S k) (n - S k))).
  rewrite !total_zero; [rewrite Nat.eqb_refl; lra| |]; intros v Hv; apply in_seq in Hv; destruct (Nat.eqb_spec k v); auto; lia.
Qed.
Lemma total_if {A} (f : A -> R) (b : bool) l : total (fun a => if b then f a else 0) l = if b then total f l else 0.
Proof. destruct b; auto. apply total_zero. auto. Qed.
Lemma placed_ext c f g v : (forall a, (a < length c)%nat -> f a = g a) -> placed c f v = placed c g v.
Proof. intros H. unfold placed. apply total_ext. intros a Ha. apply in_seq in Ha. rewrite H by lia. auto. Qed.
Lemma placed_plus c f g v : placed c (fun a => f a + g a) v = placed c f v + placed c g v.
Proof. unfold placed. rewrite <- total_plus. apply total_ext. intros a _. destruct (_ =? _)%nat; lra. Qed.
Lemma placed_scale c f k v : placed c (fun a => k * f a) v = k * placed c f v.
Proof. unfold placed. rewrite <- total_scale. apply total_ext. intros a _. destruct (_ =? _)%nat; lra. Qed.
(** Pairing with a vector. *)
Lemma placed_pair n c f (x : nat -> R) : (forall a, (a < length c)%nat -> (nth a c 0 < n)%nat) ->
  total (fun v => placed c f v * x v) (seq 0 n) = total (fun a => f a * x (nth a c 0%nat)) (seq 0 (length c)).
Proof.
  intros H. unfold placed. rewrite (total_ext _ (fun v => total (fun a => (if (nth a c 0 =? v)%nat then f a else 0) * x v) (seq 0 (length c)))).
  2:{ intros v _. rewrite total_scale_r. auto. }
  rewrite total_swap. apply total_ext. intros a Ha. apply in_seq in Ha.
  rewrite (total_ext _ (fun v => if (nth a c 0 =? v)%nat then f a * x v else 0)).
  2:{ intros v _. destruct (_ =? _)%nat; lra. }
  apply (total_delta n (nth a c 0%nat) (fun v => f a * x v)). apply H. lia.
Qed.

(** A row of a scattered block times a vector. *)
Lemma row_times_scattered n c G x u : (forall a, (a < length c)%nat -> (nth a c 0 < n)%nat) ->
  row_times n (scattered R 0 Rplus c G) x u =
  placed c (fun a => total (fun b => G (Nat.max a b) (Nat.min a b) * x (nth b c 0%nat)) (seq 0 (length c))) u.
Proof.
  intros H. unfold row_times, scattered. change (@msum R 0 Rplus nat) with (@total nat).
  rewrite (total_ext _ (fun v => total (fun a => total (fun b =>
      (if ((nth a c 0 =? u) && (nth b c 0 =? v))%nat then G (Nat.max a b) (Nat.min a b) else 0) * x v) (seq 0 (length c))) (seq 0 (length c)))).
  2:{ intros v _. rewrite <- total_scale_r. apply total_ext. intros a _. rewrite <- total_scale_r. auto. }
  rewrite total_swap. unfold placed. apply total_ext. intros a Ha. rewrite total_swap.
  rewrite <- total_if. apply total_ext. intros b Hb. apply in_seq in Hb.
  destruct (nth a c 0 =? u)%nat; cbn [andb].
  - rewrite (total_ext _ (fun v => if (nth b c 0 =? v)%nat then G (Nat.max a b) (Nat.min a b) * x v else 0)).
    2:{ intros v _. destruct (_ =? _)%nat; lra. }
    apply (total_delta n (nth b c 0%nat) (fun v => G (Nat.max a b) (Nat.min a b) * x v)). apply H. lia.
  - apply total_zero. intros; lra.
Qed.

Lemma row_times_blocks n cliques G x u : (forall c v, In c cliques -> In v c -> (v < n)%nat) ->
  row_times n (sum_of_blocks R 0 Rplus cliques G) x u =
  total (fun i => placed (nth i cliques []) (fun a => total (fun b =>
      G i (Nat.max a b) (Nat.min a b) * x (nth b (nth i cliques []) 0%nat)) (seq 0 (length (nth i cliques [])))) u) (seq 0 (length cliques)).
Proof.
  intros H. unfold row_times at 1, sum_of_blocks. change (@msum R 0 Rplus nat) with (@total nat).
  rewrite (total_ext _ (fun v => total (fun i => scattered R 0 Rplus (nth i cliques []) (G i) u v * x v) (seq 0 (length cliques)))).
  2:{ intros v _. rewrite <- total_scale_r. auto. }
  rewrite total_swap. apply total_ext. intros i Hi. apply in_seq in Hi.
  apply (row_times_scattered n (nth i cliques []) (G i) x u).
  intros a Ha. apply (H (nth i cliques [])); apply nth_In; lia.
Qed.

(** ** Assembling, factoring, solving *)

Record ready (p : program) : Prop := {
  rd_built : well_built p;
  rd_solver : p_solver p = Some (p_cliques p, p_duals p);
  rd_sys : p_sys p = SizeOfKKTSystem p
}.

Lemma initialized_ready p c it p2 : well_built p -> up_to_date p c ->
  Initialize (clear p) (initialization_mode c =? 0)%Z it = Ok p2 -> ready p2.
Proof.
  intros [W1 W2 W3 W4 W6 W7 W5] Hu E.
  destruct (Initialize_fields _ _ _ _ E) as (_ & F2 & _ & F4 & F5 & F6 & F7 & F8 & F9).
  assert (SizeOfKKTSystem p2 = SizeOfKKTSystem p) as ES by (unfold SizeOfKKTSystem; rewrite F6, F8; reflexivity).
  cbn [clear set_status p_eqs p_cliques p_duals p_n p_cost] in *.
  constructor.
  - constructor; rewrite ?F2, ?F4, ?F5, ?F6, ?ES; auto.
  - destruct (negb (p_init (clear p)) || (initialization_mode c =? 0)%Z) eqn:Ei.
    + destruct F9 as (_ & _ & _ & F9 & _). rewrite F9, F5, F6. auto.
    + subst p2. destruct Hu as [[Hu|Hu]|[Hu _]]; auto.
      * cbn in Ei. rewrite Hu in Ei. discriminate.
      * rewrite Hu, orb_true_r in Ei. discriminate.
  - destruct (negb (p_init (clear p)) || (initialization_mode c =? 0)%Z) eqn:Ei.
    + destruct F9 as (_ & _ & F9 & _). rewrite F9, ES. auto.
    + subst p2. destruct Hu as [[Hu|Hu]|[_ Hu]]; auto.
      * cbn in Ei. rewrite Hu in Ei. discriminate.
      * rewrite Hu, orb_true_r in Ei. discriminate.
Qed.

Lemma ready_range p c v : ready p -> In c (p_cliques p) -> In v c -> (v < SizeOfKKTSystem p)%nat.
Proof. intros [W _ _] Hc Hv. apply (wb_covered _ W). exists c. auto. Qed.

Lemma nth_in_cliques p i : ready p -> (i < length (p_eqs p))%nat -> In (nth i (p_cliques p) []) (p_cliques p).
Proof. intros [W _ _] H. apply nth_In. rewrite (wb_lengths _ W). auto. Qed.

Definition qdef : cstate * schur := (SOther, mkSchur (fun _ _ => 0) (mkRhs [] [] 0 0)).

(** The blocks of an assembly. *)
Definition blocks_of (p : program) (st : cst) (q : list (cstate * schur)) : Prop :=
  length q = length (p_eqs p) /\
  forall i c, nth_error (p_eqs p) i = Some c -> exists s, nth_error (ct_cons st) i = Some s /\ con_schur c s = Ok (nth i q qdef).

Definition matrix_of (p : program) (q : list (cstate * schur)) : nat -> nat -> R :=
  sum_of_blocks R 0 Rplus (p_cliques p) (fun i => sc_G (snd (nth i q qdef))).

(** Sizes of the vectors of one constraint. *)
Lemma con_schur_sizes c s s' q : con_schur c s = Ok (s', q) ->
  (ct_vars c <= length (r_AW (sc_rhs q)))%nat /\ (ct_vars c <= length (r_AQc (sc_rhs q)))%nat.
Proof.
  unfold con_schur. destruct (ct_data c) as [cols A b| | | | |Q|A b]; destruct s; try discriminate; intros H.
  - apply bind_ok in H as ([w' q'] & E & H). injection H as _ <-. unfold linear_schur in E.
    apply bind_ok in E as (W & _ & E). apply bind_ok in E as (WA & _ & E). apply bind_ok in E as (WC & _ & E).
    destruct (Nat.ltb_spec (ct_vars c) cols); [discriminate|]. injection E as _ <-. cbn. unfold pad.
    rewrite !app_length, !repeat_length. unfold tmul. rewrite !map_length, !seq_length. lia.
  - apply bind_ok in H as (o & Eo & H). apply bind_ok in H as (q' & E & H). injection H as _ <-.
    destruct (SocLinks.soc_block _ _ _ _ _ _ _ Eo E) as (W & _ & _ & _ & _ & _ & _ & _ & L1 & L2 & _). lia.
  - apply bind_ok in H as (o & Eo & H). injection H as _ <-. cbn. rewrite !map_length, seq_length. lia.
  - apply bind_ok in H as (q' & E & H). injection H as _ <-. unfold quadratic_schur in E.
    destruct (_ || _); [discriminate|]. injection E as <-. cbn. rewrite !repeat_length. lia.
  - apply bind_ok in H as (q' & E & H). injection H as _ <-. unfold equality_schur in E.
    destruct ((_ || _) || _) eqn:Eb; [discriminate|]. injection E as <-. cbn. rewrite app_length, !repeat_length.
    apply orb_false_iff in Eb as [Eb E2]. apply orb_false_iff in Eb as [E1 _].
    apply negb_false_iff, Nat.eqb_eq in E2. apply Nat.ltb_ge in E1. lia.
Qed.

Lemma assembled p st st0 : ready p -> con_assemble p st = Ok st0 ->
  exists q, blocks_of p st q /\ ct_cons st0 = map fst q /\
    length (r_AW (ct_sys st0)) = SizeOfKKTSystem p /\ length (r_AQc (ct_sys st0)) = SizeOfKKTSystem p /\
    (forall v, nth v (r_AW (ct_sys st0)) 0 = total (fun i => placed (nth i (p_cliques p) [])
       (fun a => nth a (r_AW (sc_rhs (snd (nth i q qdef)))) 0) v) (seq 0 (length (p_eqs p)))) /\
    (forall v, nth v (r_AQc (ct_sys st0)) 0 = total (fun i => placed (nth i (p_cliques p) [])
       (fun a => nth a (r_AQc (sc_rhs (snd (nth i q qdef)))) 0) v) (seq 0 (length (p_eqs p)))) /\
    r_wc (ct_sys st0) = total (fun i => r_wc (sc_rhs (snd (nth i q qdef)))) (seq 0 (length (p_eqs p))) /\
    r_cQc (ct_sys st0) = total (fun i => r_cQc (sc_rhs (snd (nth i q qdef)))) (seq 0 (length (p_eqs p))) /\
    forall d o bs, build (p_cliques p) (p_duals p) = Ok (d, o, bs) -> forall u v, (u < SizeOfKKTSystem p)%nat -> (v < SizeOfKKTSystem p)%nat ->
      KKTMatrixR o d (ct_mem st0) u v = Ok (matrix_of p q u v).
Proof.
  intros R H. destruct R as [W RS RZ] eqn:ER. pose proof (ready_range p) as RR.
  apply (con_assemble_ok (Refine 0) some_env) in H as (cl & du & d & o & bs & q & Es & Eb & Hl & Hq & Ea & Hc & Hm & _).
  rewrite RS in Es. injection Es as <- <-. exists q. split; [split; auto|]. split; auto.
  rewrite RZ in Ea.
  destruct (residuals_ok (SizeOfKKTSystem p) (p_cliques p) (map (fun x => sc_rhs (snd x)) q)) as (s & E & S1 & S2 & S3 & S4 & S5 & S6).
  - rewrite map_length, (wb_lengths _ W). auto.
  - intros c v. apply RR. auto.
  - intros i ci Hi. rewrite nth_error_map in Hi. destruct (nth_error q i) as [[s' sc]|] eqn:Eq; [|discriminate]. injection Hi as <-.
    pose proof (nth_error_lt _ _ _ Eq) as Hlt. destruct (nth_error (p_eqs p) i) as [c|] eqn:Ec; [|apply nth_error_None in Ec; lia].
    destruct (Hq i c Ec) as (s & _ & E). rewrite (nth_error_nth_eq _ _ _ _ Eq) in E.
    rewrite <- (wb_vars _ W i c Ec). cbn. eapply con_schur_sizes; eauto.
  - rewrite Ea in E. injection E as <-. rewrite map_length, Hl in *.
    assert (forall i, sc_rhs (snd (nth i q qdef)) = nth i (map (fun x => sc_rhs (snd x)) q) (mkRhs [] [] 0 0)) as HN.
    { intros i. change (mkRhs [] [] 0 0) with ((fun x : cstate * schur => sc_rhs (snd x)) qdef). rewrite map_nth. reflexivity. }
    split; auto. split; auto.
    split. { intros v. rewrite S3. apply total_ext. intros i _. apply placed_ext. intros a _. rewrite HN. auto. }
    split. { intros v. rewrite S4. apply total_ext. intros i _. apply placed_ext. intros a _. rewrite HN. auto. }
    split. { rewrite S5. rewrite (total_nth _ _ (mkRhs [] [] 0 0)), map_length, Hl. apply total_ext. intros i _. rewrite HN. auto. }
    split. { rewrite S6. rewrite (total_nth _ _ (mkRhs [] [] 0 0)), map_length, Hl. apply total_ext. intros i _. rewrite HN. auto. }
    intros d' o' bs' E u v Hu Hv. rewrite Eb in E. injection E as <- <- <-. rewrite Hm.
    apply (C08_kkt_is_sum_of_blocks (p_cliques p) (p_duals p) d o bs); auto.
    + apply W.
    + eapply wb_direct; eauto.
    + apply W. auto.
    + apply W. auto.
Qed.

(** Guards for an exact factorization. *)
Definition no_multipliers (p : program) : Prop := forall dv, In dv (p_duals p) -> dv = [].

Lemma multipliers_dec p : no_multipliers p \/ exists dv, In dv (p_duals p) /\ dv <> [].
Proof.
  unfold no_multipliers. induction (p_duals p) as [|x l IH]; [left; intros dv []|].
  destruct x as [|v x]; [|right; exists (v :: x); split; [left; auto|discriminate]].
  destruct IH as [H|(dv & H1 & H2)]; [left|right; exists dv; split; [right|]; auto].
  intros dv [<-|Hd]; auto.
Qed.

(** All pivots of an LDL^T factorization are above the threshold, no supernode
    is empty. *)
Definition pivots_large (p : program) (f : option factorization) : Prop :=
  forall d o bs, build (p_cliques p) (p_duals p) = Ok (d, o, bs) ->
  match f with
  | Some (Blocks (FLdlt m fs _, _)) => forall k, (k < length (p_cliques p))%nat -> (0 < nth k (d_supernode_size d) 0)%nat /\
      forall j, (j < nth k (d_supernode_size d) 0)%nat -> / 1000000000 < Rabs (m (ADiag k j j))
  | _ => True
  end.

Lemma dense_kkt_entry o d m K u v : dense_kkt o d m = Ok K -> (u < d_N d)%nat -> (v < d_N d)%nat -> KKTMatrixR o d m u v = Ok (K u v).
Proof.
  unfold dense_kkt. intros H Hu Hv. apply bind_ok in H as (rows & E & H). injection H as <-.
  destruct (mapM_nth _ _ _ u u E) as (row & E1 & E2). { rewrite (nth_error_nth' _ 0%nat) by (rewrite seq_length; lia). rewrite seq_nth by lia. auto. }
  rewrite (nth_error_nth_eq _ _ _ _ E1).
  destruct (mapM_nth _ _ _ v v E2) as (x & E3 & E4). { rewrite (nth_error_nth' _ 0%nat) by (rewrite seq_length; lia). rewrite seq_nth by lia. auto. }
  rewrite (nth_error_nth_eq _ _ _ _ E3). exact E4.
Qed.

Lemma exact_solve_ok n K f r y : exact_solve n K f r = Ok y ->
  y = map (f (fun i => nth i r 0)) (seq 0 (length r)) /\ forall u, (u < n)%nat -> row_times n K (f (fun i => nth i r 0)) u = nth u r 0.
Proof.
  unfold exact_solve. destruct (forallb _ _) eqn:E; [|discriminate]. intros H. injection H as <-. split; auto.
  intros u Hu. rewrite forallb_forall in E. specialize (E u). destruct (Req_EM_T _ _) as [H|H]; [|discriminate E; apply in_seq; lia].
  rewrite <- H. unfold row_times. apply total_rsum.
Qed.
Lemma exact_solve_total n K f r : (forall u, (u < n)%nat -> row_times n K (f (fun i => nth i r 0)) u = nth u r 0) ->
  exists y, exact_solve n K f r = Ok y.
Proof.
  intros H. unfold exact_solve. destruct (forallb _ _) eqn:E; [eauto|]. exfalso. apply Bool.not_true_iff_false in E. apply E.
  apply forallb_forall. intros u Hu. apply in_seq in Hu. destruct (Req_EM_T _ _) as [H1|H1]; auto. destruct H1.
  rewrite <- (H u) by lia. unfold row_times. symmetry. apply total_rsum.
Qed.

Lemma matrix_of_sym p q u v : matrix_of p q u v = matrix_of p q v u.
Proof.
  unfold matrix_of, sum_of_blocks. change (@msum R 0 Rplus nat) with (@total nat). apply total_ext. intros i _. unfold scattered.
  change (@msum R 0 Rplus nat) with (@total nat). rewrite total_swap. apply total_ext. intros a _. apply total_ext. intros b _.
  rewrite andb_comm, Nat.max_comm, Nat.min_comm. reflexivity.
Qed.

(** In QR mode. *)
Lemma solved_dense f p st st0 q st1 : ready p -> con_assemble p st = Ok st0 -> blocks_of p st q ->
  (forall d o bs, build (p_cliques p) (p_duals p) = Ok (d, o, bs) -> forall u v, (u < SizeOfKKTSystem p)%nat -> (v < SizeOfKKTSystem p)%nat ->
      KKTMatrixR o d (ct_mem st0) u v = Ok (matrix_of p q u v)) ->
  con_factor (Qr f) p st0 = Ok (st1, true) ->
  (forall st2 r y, ct_fact st2 = ct_fact st1 -> con_solve (Qr f) p st2 r = Ok y ->
       length r = SizeOfKKTSystem p /\ length y = SizeOfKKTSystem p /\
       forall u, (u < SizeOfKKTSystem p)%nat ->
          row_times (SizeOfKKTSystem p) (matrix_of p q) (fun i => nth i y 0) u = nth u r 0) /\
  exists K, (forall u v, (u < SizeOfKKTSystem p)%nat -> (v < SizeOfKKTSystem p)%nat -> K u v = matrix_of p q u v) /\
    forall st2 r, ct_fact st2 = ct_fact st1 -> length r = SizeOfKKTSystem p ->
      solves (SizeOfKKTSystem p) K (f (SizeOfKKTSystem p) K (fun i => nth i r 0)) (fun i => nth i r 0) ->
      exists y, con_solve (Qr f) p st2 r = Ok y.
Proof.
  intros R Ha Hq HK Hf. destruct R as [W RS RZ] eqn:ER. set (n := SizeOfKKTSystem p) in *.
  unfold con_factor, with_solver in Hf. rewrite RS in Hf. apply bind_ok in Hf as ([[d o] bs] & Eb & Hf). apply bind_ok in Hf as (K & EK & Hf).
  injection Hf as <-. cbn [ct_fact].
  pose proof (wb_admissible _ W) as AD. pose proof (wb_covered _ W) as HC. fold n in HC. pose proof (covered_N _ _ _ _ _ _ AD Eb HC) as EN.
  specialize (HK d o bs Eb). rewrite EN in *.
  assert (forall u v, (u < n)%nat -> (v < n)%nat -> K u v = matrix_of p q u v) as HM.
  { intros u v Hu Hv. pose proof (dense_kkt_entry _ _ _ _ u v EK ltac:(lia) ltac:(lia)) as H. rewrite HK in H by auto. injection H as ->. auto. }
  split.
  - intros st2 r y Hst Hs. unfold con_solve, with_solver in Hs. rewrite RS, Eb in Hs. cbn [bind] in Hs. rewrite Hst in Hs. rewrite ?EN in Hs.
    destruct (Nat.eqb_spec (length r) n) as [Hl|]; [|discriminate]. apply exact_solve_ok in Hs as [-> Hs]. rewrite map_length, seq_length. split; auto. split; auto.
    intros u Hu. rewrite <- (Hs u Hu). unfold row_times. apply total_ext. intros v Hv. apply in_seq in Hv.
    rewrite (nth_map_lt _ _ _ 0 0%nat) by (rewrite seq_length; lia). rewrite seq_nth by lia. rewrite HM by (auto; lia). auto.
  - exists K. split; auto. intros st2 r Hst Hl HS. unfold con_solve, with_solver. rewrite RS, Eb. cbn [bind]. rewrite Hst, Hl, ?EN, Nat.eqb_refl.
    apply exact_solve_total. exact HS.
Qed.

Lemma solved_system iters p st st0 q st1 : ready p -> con_assemble p st = Ok st0 -> blocks_of p st q ->
  (forall d o bs, build (p_cliques p) (p_duals p) = Ok (d, o, bs) -> forall u v, (u < SizeOfKKTSystem p)%nat -> (v < SizeOfKKTSystem p)%nat ->
      KKTMatrixR o d (ct_mem st0) u v = Ok (matrix_of p q u v)) ->
  con_factor iters p st0 = Ok (st1, true) ->
  exists E : nat -> R, (forall u, Rabs (E u) <= 2 / 1000000000) /\
    (no_multipliers p -> forall u, E u = 0) /\
    (pivots_large p (ct_fact st1) -> forall u, E u = 0) /\
    (forall f, iters = Qr f -> forall u, E u = 0) /\
    (forall st2 r y, ct_fact st2 = ct_fact st1 -> con_solve iters p st2 r = Ok y ->
       length r = SizeOfKKTSystem p /\ length y = SizeOfKKTSystem p /\
       (iters = 0%nat \/ (forall u, E u = 0) ->
        forall u, (u < SizeOfKKTSystem p)%nat ->
          row_times (SizeOfKKTSystem p) (matrix_of p q) (fun i => nth i y 0) u + E u * nth u y 0 = nth u r 0)) /\
    ((forall f, iters = Qr f -> nonsingular (SizeOfKKTSystem p) (matrix_of p q) /\ qr_solves f) ->
     forall st2 r, ct_fact st2 = ct_fact st1 -> length r = SizeOfKKTSystem p -> exists y, con_solve iters p st2 r = Ok y).
Proof.
  intros R Ha Hq HK Hf. destruct iters as [iters|f].
  2: { destruct (solved_dense f p st st0 q st1 R Ha Hq HK Hf) as (S1 & K & S2 & S3). exists (fun _ => 0).
    split; [intros; rewrite Rabs_R0; lra|]. split; [auto|]. split; [auto|]. split; [auto|]. split.
    - intros st2 r y H1 H2. destruct (S1 st2 r y H1 H2) as (H3 & H4 & H5). split; auto. split; auto. intros _ u Hu. rewrite (H5 u Hu). lra.
    - intros HQ st2 r H1 H2. destruct (HQ f eq_refl) as [PD HS]. apply S3; auto. apply HS.
      { intros u v Hu Hv. rewrite !S2 by auto. apply matrix_of_sym. }
      intros x Hx. apply PD. intros u Hu. rewrite <- (Hx u Hu). unfold row_times. apply total_ext. intros v Hv. apply in_seq in Hv.
      rewrite S2 by lia. auto. }
  destruct R as [W RS RZ] eqn:ER. set (n := SizeOfKKTSystem p) in *.
  unfold con_factor, with_solver in Hf. rewrite RS in Hf. apply bind_ok in Hf as ([[d o] bs] & Eb & Hf). apply bind_ok in Hf as (r & EF & Hf).
  destruct r as [FK|]; [|discriminate]. injection Hf as <-. cbn [ct_fact].
  pose proof (wb_admissible _ W) as AD. pose proof (wb_covered _ W) as HC. fold n in HC. pose proof (covered_N _ _ _ _ _ _ AD Eb HC) as EN.
  specialize (HK d o bs Eb).
  assert (forall M, (forall u v, (u < n)%nat -> (v < n)%nat -> KKTMatrixR o d (ct_mem st0) u v = Ok (M u v)) ->
    forall x u, (u < n)%nat -> row_times n (matrix_of p q) x u = row_times n M x u) as HM.
  { intros M HM x u Hu. unfold row_times. apply total_ext. intros v Hv. apply in_seq in Hv.
    specialize (HM u v Hu ltac:(lia)). rewrite HK in HM by (auto; lia). injection HM as ->. auto. }
  assert (forall x u, (u < n)%nat -> row_times n (matrix_of p q) (fun i => nth i (map x (seq 0 n)) 0) u = row_times n (matrix_of p q) x u) as HX.
  { intros x u Hu. unfold row_times. apply total_ext. intros v Hv. apply in_seq in Hv.
    rewrite (nth_map_lt _ _ _ 0 0%nat) by (rewrite seq_length; lia). rewrite seq_nth by lia. auto. }
  assert (forall x u, (u < n)%nat -> nth u (map x (seq 0 n)) 0 = x u) as HX'.
  { intros x u Hu. rewrite (nth_map_lt _ _ _ 0 0%nat) by (rewrite seq_length; lia). rewrite seq_nth by lia. auto. }
  assert (forall st2 r y, ct_fact st2 = Some (Blocks FK) -> con_solve iters p st2 r = Ok y ->
    length r = n /\ exists x, SolveInPlace o d FK iters n (fun i => nth i r 0) = Ok x /\ y = map x (seq 0 n)) as HS.
  { intros st2 r y Hst Hs. unfold con_solve, with_solver in Hs. rewrite RS, Eb in Hs. cbn [bind] in Hs. rewrite Hst in Hs.
    apply bind_ok in Hs as (x & Ex & Hs). injection Hs as <-.
    assert (length r = n) as Hl. { unfold SolveInPlace in Ex. destruct (Nat.eqb_spec (length r) (d_N d)); [lia|discriminate]. }
    rewrite Hl in *. eauto. }
  assert (forall st2 r, ct_fact st2 = Some (Blocks FK) -> length r = n -> (exists x, SolveInPlace o d FK iters n (fun i => nth i r 0) = Ok x) ->
    exists y, con_solve iters p st2 r = Ok y) as HT.
  { intros st2 r Hst Hl (x & Ex). unfold con_solve, with_solver. rewrite RS, Eb. cbn [bind]. rewrite Hst, Hl, Ex. cbn. eauto. }
  destruct (multipliers_dec p) as [HD|HD].
  - destruct (cholesky_kkt_solve _ _ _ _ _ _ AD Eb HC HD _ _ _ EF) as (M & M1 & M2 & M3 & M4).
    exists (fun _ => 0). split; [intros; rewrite Rabs_R0; lra|]. split; [auto|]. split; [auto|]. split; [auto|]. split.
    + intros st2 r y Hst Hs. destruct (HS _ _ _ Hst Hs) as (Hl & x & Ex & ->). split; auto. split; [rewrite map_length, seq_length; auto|].
      intros _ u Hu. rewrite HX by auto. destruct (M4 (fun i => nth i r 0)) as (x' & Ex' & Hx'). rewrite Ex in Ex'. injection Ex' as <-.
      rewrite (HM M M1) by auto. rewrite (Hx' u Hu). lra.
    + intros _ st2 r Hst Hl. apply (HT _ _ Hst Hl). destruct (M4 (fun i => nth i r 0)) as (x' & Ex' & _). eauto.
  - destruct (ldlt_kkt_solve _ _ _ _ _ _ AD Eb HC HD (ct_mem st0) iters) as (M & m' & fs & K & E & M1 & EF' & M3 & M4 & M5 & M6 & M7).
    rewrite EF in EF'. injection EF' as ->.
    exists (fun u => if (u <? n)%nat then E u else 0).
    split. { intros u. destruct (Nat.ltb_spec u n); [auto|rewrite Rabs_R0; lra]. }
    split. { intros HD'. destruct HD as (dv & D1 & D2). destruct D2. auto. }
    split.
    { intros HP u. destruct (Nat.ltb_spec u n) as [Hu|]; auto. specialize (HP d o bs Eb). cbn in HP.
      assert (forall k, (k < length (p_cliques p))%nat -> (0 < nth k (d_supernode_size d) 0)%nat ->
        k = 0%nat \/ (0 < nth (k - 1) (d_supernode_size d) 0)%nat \/
        / 1000000000 <= Rabs (schur_at (d_cliques d) (d_supernode_size d) (ct_mem st0) m' fs (offset (d_supernode_size d) k + 0) (offset (d_supernode_size d) k))) as HNE.
      { intros k Hk _. destruct k; [left; auto|right; left]. apply HP. lia. }
      exact (column_by_column _ _ _ _ _ _ E
        (fun k => (2 <= nth k (d_supernode_size d) 0)%nat /\ f_reg (nth k fs (mkFact [] true)) = false \/
              (forall j, (j < nth k (d_supernode_size d) 0)%nat -> / 1000000000 < Rabs (m' (ADiag k j j))))
        (fun k r => / 1000000000 <= Rabs (schur_at (d_cliques d) (d_supernode_size d) (ct_mem st0) m' fs r (offset (d_supernode_size d) k)))
        AD Eb HC HNE M5 (fun k Hk => or_intror (proj2 (HP k Hk))) u Hu). }
    split; [discriminate|]. split.
    + intros st2 r y Hst Hs. destruct (HS _ _ _ Hst Hs) as (Hl & x & Ex & ->). split; auto. split; [rewrite map_length, seq_length; auto|].
      intros Hor u Hu. rewrite HX by auto. destruct (M7 (fun i => nth i r 0)) as (x' & Ex' & X1 & X2 & _). rewrite Ex in Ex'. injection Ex' as <-.
      rewrite (HM M M1) by auto. rewrite HX' by auto. destruct (Nat.ltb_spec u n); [|lia].
      destruct Hor as [Hor|Hor]; [apply X2; auto; injection Hor; auto|].
      assert (forall u, (u < n)%nat -> E u = 0) as HE.
      { intros w Hw. specialize (Hor w). destruct (Nat.ltb_spec w n); [auto|lia]. }
      rewrite (X1 HE u Hu), (HE u Hu). lra.
    + intros _ st2 r Hst Hl. apply (HT _ _ Hst Hl). destruct (M7 (fun i => nth i r 0)) as (x' & Ex' & _). eauto.
Qed.

(** One solve is a solve without refinement iterations. *)
Lemma solve_once_zero p st b : (exists y, con_solve 0 p st b = Ok y) -> con_solve_once p st b = con_solve 0 p st b.
Proof.
  unfold con_solve_once, con_solve, with_solver. intros (y & H). destruct (p_solver p) as [[cl du]|]; [|discriminate].
  destruct (build cl du) as [[[d o] bs]| | |]; try discriminate. cbn [bind] in *. destruct (ct_fact st) as [[FK|K f]|]; [|discriminate|discriminate].
  unfold SolveInPlace in *. destruct (length b =? d_N d)%nat; [|discriminate]. destruct (apply_solver o d (fst FK) _); reflexivity.
Qed.
Lemma solved_once iters p st0 st1 b y : con_factor iters p st0 = Ok (st1, true) -> con_solve_once p st1 b = Ok y ->
  exists mode st1', (mode = Refine 0 \/ exists f, iters = Qr f /\ mode = Qr f) /\
    con_factor mode p st0 = Ok (st1', true) /\ con_solve mode p st1' b = Ok y.
Proof.
  intros H1 H2. destruct iters as [iters|f].
  2: { exists (Qr f), st1. split; [eauto|]. split; auto. revert H1 H2.
    unfold con_factor, con_solve_once, con_solve, with_solver. destruct (p_solver p) as [[cl du]|]; [|discriminate].
    destruct (build cl du) as [[[d o] bs]| | |]; try discriminate. cbn [bind]. intros H1.
    apply bind_ok in H1 as (K & _ & H1). injection H1 as <-. cbn [ct_fact]. destruct (length b =? d_N d)%nat; [auto|discriminate]. }
  exists (Refine 0). revert H1 H2.
  unfold con_factor, con_solve_once, con_solve, with_solver. destruct (p_solver p) as [[cl du]|]; [|discriminate].
  destruct (build cl du) as [[[d o] bs]| | |]; try discriminate. cbn [bind]. intros H1 H2.
  apply bind_ok in H1 as (f & Hf & H1). destruct f as [f|]; [|discriminate]. injection H1 as <-. cbn [ct_fact] in H2.
  assert (exists K, Factor o d du 0 (ct_mem st0) = Ok (Some (fst f, K))) as (K & EK).
  { unfold Factor in *. apply bind_ok in Hf as (K & _ & Hf). cbn [Nat.ltb Nat.leb bind]. apply bind_ok in Hf as (ss & -> & Hf). cbn [bind].
    exists (fun _ _ => 0). destruct (use_cholesky du).
    - apply bind_ok in Hf as (r & -> & Hf). cbn [bind]. destruct r; [|discriminate]. injection Hf as <-. reflexivity.
    - apply bind_ok in Hf as ([[m' fs] nr] & -> & Hf). injection Hf as <-. reflexivity. }
  rewrite EK. cbn [bind]. eexists. split; [auto|]. split; [reflexivity|]. cbn [ct_fact]. unfold SolveInPlace. cbn [fst].
  destruct (length b =? d_N d)%nat; [|discriminate]. destruct (apply_solver o d (fst f) _); try discriminate. exact H2.
Qed.
