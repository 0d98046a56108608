(** A small executable backend, used for the examples and counterexamples about
    the solve loop.  One constraint on one variable, all right-hand sides zero;
    every constraint reports the norm [d] and the line search the bound [t]. *)
From Coq Require Import List Arith ZArith Reals Bool Lia Lra.
From Verif Require Import Base BaseFacts LayoutModel AssemblerModel DenseModel KktModel ProgramModel ApiModel DivergenceModel
  SolveModel Spec_Solve SolveProofs SolveFacts.
Import ListNotations.
Open Scope R_scope.

Definition toy (ok : bool) (d t : R) : backend := {|
  bk_state := unit;
  bk_initialize := fun _ s => s;
  bk_rank := fun _ _ => 0%nat;
  bk_identity := fun _ s _ => s;
  bk_prepare := fun _ s _ _ _ => Ok (s, (d, 0));
  bk_take := fun _ s _ _ => Ok s;
  bk_search := fun _ s _ _ _ _ => Ok (s, Some (t, t));
  bk_spectrum := fun _ s _ _ _ => Ok (s, (1, 1, 1, 1));
  bk_assemble := fun _ s => Ok s;
  bk_sys := fun _ => mkRhs [0] [0] 0 0;
  bk_factor := fun _ s => Ok (s, ok);
  bk_solve := fun _ _ r => Ok r;
  bk_solve_once := fun _ _ r => Ok r;
  bk_not_finite := fun _ _ => 0
|}.

Definition toy_config (mode N : Z) : config := {|
  prepare_dual_variables := 0; initialization_mode := mode; inv_sqrt_mu_max := 1000;
  minimum_mu := 0; maximum_mu := 10000; divergence_upper_bound := 1; enable_line_search := 1;
  dinf_upper_bound := 1; final_centering_steps := 0; final_centering_tolerance := / 100;
  initial_centering_steps_warmstart := 0; initial_centering_steps_coldstart := 0;
  warmstart_abort_threshold := 2; max_iterations := N; iterative_refinement_iterations := 0;
  infeasibility_threshold := 100000; kkt_error_tolerance := 10000000000; enable_rescaling := 0;
  kkt_solver := 0 |}.

Definition toy_program : program :=
  match AddConstraint (new_program 1) false (CLinear 1 [[1]] [1]) None with Ok (p, _) => p | _ => new_program 0 end.

Record toy_shaped (p : program) : Prop := {
  ts_eqs : length (p_eqs p) = 1%nat;
  ts_cliques : p_cliques p = [[0%nat]];
  ts_cons : p_constraints p = [0%nat];
  ts_quad : p_quadratic p = false
}.

Lemma floor_small mode N : 0 < floor_of (toy_config mode N) < 1.
Proof.
  unfold floor_of. cbn [maximum_mu toy_config]. assert (0 < / 10 ^ 15) by (apply Rinv_0_lt_compat, pow_lt; lra).
  assert (0 < 1 / (/ 10 ^ 15 + 10000)) by (apply Rdiv_lt_0_compat; lra).
  split; [apply sqrt_lt_R0; auto|]. apply Rlt_le_trans with (sqrt 1); [|rewrite sqrt_1; lra]. apply sqrt_lt_1; try lra.
Qed.

Lemma toy_lower mode N : lower_limit (toy_config mode N) = Ok (floor_of (toy_config mode N)).
Proof.
  unfold lower_limit. cbn [maximum_mu toy_config]. assert (0 < / 10 ^ 15) by (apply Rinv_0_lt_compat, pow_lt; lra).
  destruct (Rltb_spec 0 (/ 10 ^ 15 + 10000)); [auto|lra].
Qed.

Lemma DBL_MAX_big : 10000 < DBL_MAX.
Proof.
  unfold DBL_MAX. assert (2 ^ 14 <= 2 ^ 1023) by (apply Rle_pow; [lra|lia]). assert (2 ^ 14 = 16384) by ring.
  assert (/ 2 ^ 52 < 1). { rewrite <- Rinv_1. apply Rinv_1_lt_contravar; [lra|]. apply Rlt_pow_R1; [lra|lia]. }
  nra.
Qed.

(** The centering parameter after clamping. *)
Definition toy_ism (t : R) : R := if Rlt_dec 1000 t then 1000 else t.

Lemma toy_ism_eq mode N t : 1 <= t -> ApplyLimits t (floor_of (toy_config mode N)) 1000 = toy_ism t.
Proof.
  intros Ht. pose proof (floor_small mode N). rewrite ApplyLimits_spec. unfold toy_ism.
  destruct (Rlt_dec 1000 (floor_of (toy_config mode N))); [lra|]. destruct (Rlt_dec 1000 t).
  - rewrite Rmin_right, Rmax_right; lra.
  - rewrite Rmin_left, Rmax_right; lra.
Qed.

Lemma toy_prepare p ok d t o y : toy_shaped p -> 0 <= d -> length y = 1%nat ->
  PrepareStep (toy ok d t) p tt o y = Ok (tt, (d, 0 + 0)).
Proof.
  intros [E1 E2 E3 E4] Hd Hy. unfold PrepareStep, NumberOfConstraints. rewrite E1. cbn [seq foldM]. rewrite E2.
  destruct y as [|y0 [|]]; try discriminate. cbn. destruct (Rltb_spec (-1) d); [auto|lra].
Qed.

Lemma toy_search p ok d t : toy_shaped p -> 1 <= t <= 10000 -> forall AQc b AW, length AQc = 1%nat -> length b = 1%nat -> length AW = 1%nat ->
  forall cs, ComputeMuFromLineSearch (toy ok d t) p tt 1 AQc cs b AW = Ok (tt, t).
Proof.
  intros [E1 E2 E3 E4] Ht AQc b AW H1 H2 H3 cs. unfold ComputeMuFromLineSearch, NumberOfConstraints. rewrite E1.
  destruct AQc as [|x [|]], b as [|y [|]], AW as [|z [|]]; try discriminate. cbn. rewrite E2. cbn.
  pose proof DBL_MAX_big.
  destruct (Rltb_spec (- DBL_MAX) t); [|lra]. destruct (Rltb_spec t DBL_MAX); [|lra]. destruct (Rleb_spec t t); [auto|lra].
Qed.

(** One iteration. *)
Lemma toy_iteration p d t mode N M i (s : lstate (bk_state (toy true d t))) a bs cs b :
  toy_shaped p -> 1 <= t <= 10000 -> 0 <= d < 2 -> nm_area (l_num s) = a -> nm_bk (l_num s) = tt -> l_max s = 1000 -> l_ism s < 1000 ->
  xgt (l_kkt_error s) 10000000000 = false -> (Z.of_nat i < N)%Z ->
  get_cell a (b_cell M) = Ok bs -> get_cell a (c_cell M) = Ok cs -> b = 0 ->
  exists s' : lstate (bk_state (toy true d t)), iteration (toy true d t) p (toy_config mode N) M 0 [b] 0 i s =
    Ok (if (length a <=? i)%nat then VOverflow i
        else if Rleb 1000 (toy_ism t) && Rleb d (/ 100) then VBreak s' false else VNext s') /\
    nm_area (l_num s') = upd a i (Some (toy_ism t)) /\ nm_bk (l_num s') = tt /\ l_max s' = 1000 /\ l_ism s' = toy_ism t /\
    l_kkt_error s' = XNaN /\
    l_log s' = mkEntry i (floor_of (toy_config mode N)) 1000 (toy_ism t) d (step_size d) false :: l_log s /\
    l_num_iter s' = Some (S i) /\ (exists y, l_y s' = Some [y]) /\ l_step s' = step_size d.
Proof.
  intros Hp Ht Hd Ea Eb Em Ei Ek HN Gb Gc Hb0.
  assert (quotient (Rabs ((2 * 0 + vdot [0] [toy_ism t * (bs * b + cs * 0) - 2 * 0] - toy_ism t * 0 * cs) / (toy_ism t * bs)
     - vdot [b] [toy_ism t * (bs * b + cs * 0) - 2 * 0] / (toy_ism t * cs)
     - 1 / toy_ism t * (1 / toy_ism t) * (INR 0 - sqrt (Rabs (0 + 0)) * sqrt (Rabs (0 + 0))) / (bs * cs)))
     (1 / toy_ism t * (1 / toy_ism t) * (INR 0 - sqrt (Rabs (0 + 0)) * sqrt (Rabs (0 + 0))) / (bs * cs)) = XNaN) as EQ.
  { rewrite Rplus_0_l, Rabs_R0, sqrt_0. cbn [vdot INR]. rewrite Hb0. unfold Rdiv.
    match goal with |- quotient (Rabs ?x) ?y = _ => replace x with 0 by ring; replace y with 0 by ring end.
    rewrite Rabs_R0. unfold quotient. destruct (Req0_spec 0); [auto|lra]. }
  unfold iteration. rewrite Em, Eb, Ea. cbn [toy_config initialization_mode kkt_error_tolerance max_iterations final_centering_steps enable_rescaling].
  replace (0 <=? Z.of_nat i)%Z with true by (symmetry; apply Z.leb_le; lia).
  destruct (Rleb_spec 1000 (l_ism s)); [lra|]. rewrite Ek. replace (N - 0 <=? Z.of_nat i)%Z with false by (symmetry; apply Z.leb_gt; lia).
  cbn [orb andb negb]. rewrite orb_true_r. cbn [Z.eqb negb]. rewrite andb_false_r. cbn [bk_assemble toy bind bk_factor negb orb].
  rewrite Gb, Gc. cbn [bind].
  assert (update_mu (toy true d t) p (toy_config mode N) tt [b] bs cs 0 (l_ism s) = Ok (Some (tt, t))) as Eu.
  { unfold update_mu. cbn [toy_config enable_line_search Z.eqb negb dinf_upper_bound].
    change (bk_sys (toy true d t) tt) with (mkRhs [0] [0] 0 0). cbn [r_AQc r_AW].
    rewrite (toy_search p true d t Hp Ht) by reflexivity. cbn [bind].
    destruct (Rltb_spec t 0); [lra|]. destruct (Rltb_spec t 0); [lra|]. destruct (Rltb_spec 0 t); [auto|lra]. }
  cbn [toy] in Eu. fold (toy true d t) in *. rewrite Eu. cbn [bind].
  unfold finish_iteration. cbn [toy_config initialization_mode]. fold (toy_config mode N). rewrite toy_lower. cbn [bind].
  rewrite Gb, Gc. cbn [bind]. rewrite toy_ism_eq by lra. change (bk_sys (toy true d t) tt) with (mkRhs [0] [0] 0 0). cbn [r_AQc r_AW r_wc r_cQc].
  cbn [vscale map vplus vminus zip_ bind bk_solve toy]. fold (toy true d t).
  rewrite toy_prepare by (auto; lra). cbn [bind]. cbn [toy_config warmstart_abort_threshold final_centering_tolerance].
  destruct (Rleb_spec 2 d); [lra|]. rewrite andb_false_r. unfold TakeStep. rewrite (ts_cons _ Hp). cbn [foldM bk_take toy bind].
  rewrite (ts_quad _ Hp). rewrite EQ. rewrite (Rabs_pos_eq d) by lra. cbn [orb].
  match goal with |- context [VNext ?x] => match x with mkL _ _ _ _ _ _ _ _ _ _ _ _ _ => exists x end end.
  split; [destruct (length a <=? i)%nat; [reflexivity|]; destruct (Rleb 1000 (toy_ism t) && Rleb d (/ 100)); reflexivity|].
  cbn [l_num nm_area nm_bk l_max l_ism l_kkt_error l_log l_num_iter l_y l_step]; repeat split; eauto.
Qed.

(** ** Runs *)
Definition toy_ready : program :=
  match Initialize (clear toy_program) true 1 with Ok p => p | _ => new_program 0 end.

(** The program object after a first solve with iteration limit one. *)
Definition toy_solved_once : program :=
  set_status (set_num_iter toy_ready (Some 1%nat)) (mkStatus false 1 false false).

Lemma toy_mu t : 1 <= t <= 1000 -> mu_exceeds t 100000 = false.
Proof.
  intros H. apply mu_exceeds_spec. split; [lra|]. apply (Rmult_le_reg_r (t * t)); [nra|].
  unfold Rdiv. rewrite Rmult_1_l, Rinv_l by nra. nra.
Qed.

Lemma toy_finish p d t0 t mode N M m b (s : lstate (bk_state (toy true d t0))) k bs cs reached : nm_bk (l_num s) = tt -> l_num_iter s = Some k -> l_ism s = t -> 1 <= t <= 1000 ->
  (exists y, l_y s = Some [y]) -> get_cell (nm_area (l_num s)) (b_cell M) = Ok bs -> get_cell (nm_area (l_num s)) (c_cell M) = Ok cs ->
  exists yv, finish (toy true d t0) p (toy_config mode N) M m b s reached =
    Ok (mkRet (toy true d t0) (set_status (set_num_iter p (Some k)) (mkStatus (negb reached) k false false))
         (mkNum tt (nm_area (l_num s))) (if reached then 0 else 1)%Z yv (l_log s)).
Proof.
  intros Hk Hn Hi Ht [y Hy] Gb Gc. unfold finish. rewrite Hn, Hi, Hy. cbn [toy_config prepare_dual_variables infeasibility_threshold Z.eqb negb bind].
  rewrite (toy_mu t Ht). cbn [andb negb bind]. rewrite Gc. cbn [bind]. rewrite Hk. eexists. destruct reached; reflexivity.
Qed.

(** [Solve] in terms of its loop. *)
Lemma Solve_by_loop B p n c p2 ss v : quadratic_precondition p c = true -> (0 < NumberOfConstraints p)%nat ->
  Initialize (clear p) (initialization_mode c =? 0)%Z (Z.to_nat (max_iterations c)) = Ok p2 -> p_stats p2 = Some ss ->
  loop B p2 c (ss_max_iter ss) (steps_of c) (cost_vector p2) (Rank B p2) (Z.to_nat (max_iterations c)) 0
       (start B (clear p) p2 n c ss) = Ok v ->
  Solve B p n c =
    match v with
    | VNext _ => UB
    | VBreak s reached => r <- finish B p2 c (ss_max_iter ss) (length (p_cost p2)) (cost_vector p2) s reached ;; Ok (Returned B r)
    | VReturn s k => Ok (Returned B (mkRet B (set_num_iter p2 (l_num_iter s)) (l_num s) k YUntouched (l_log s)))
    | VOverflow i => Ok (Overflow B i)
    end.
Proof.
  intros Hq Hn Ei Es El. unfold Solve. rewrite Hq. cbn [negb]. destruct (Nat.eqb_spec (NumberOfConstraints p) 0); [lia|].
  fold (clear p). rewrite Ei. cbn [bind]. rewrite Es. rewrite map_length. fold (cost_vector p2). fold (steps_of c). fold (start B (clear p) p2 n c ss).
  rewrite El. cbn [bind]. auto.
Qed.

Definition toy_entry (mode N : Z) (d t : R) (i : nat) : entry :=
  mkEntry i (floor_of (toy_config mode N)) 1000 t d (step_size d) false.

Lemma toy_shaped_ready : toy_shaped toy_ready.
Proof. constructor; reflexivity. Qed.
Lemma toy_shaped_again : toy_shaped (clear toy_solved_once).
Proof. constructor; reflexivity. Qed.

Lemma toy_ism_two : toy_ism 2 = 2.
Proof. unfold toy_ism. destruct (Rlt_dec 1000 2); lra. Qed.
Lemma toy_ism_big : toy_ism 2000 = 1000.
Proof. unfold toy_ism. destruct (Rlt_dec 1000 2000); lra. Qed.

Lemma toy_not_finite : xgt XNaN 10000000000 = false.
Proof. reflexivity. Qed.
Lemma toy_zero_error : xgt (XFin 0) 10000000000 = false.
Proof. cbn. destruct (Rltb_spec 10000000000 0); [lra|auto]. Qed.

Lemma toy_no_break : Rleb 1000 (toy_ism 2) && Rleb 1 (/ 100) = false.
Proof. rewrite toy_ism_two. destruct (Rleb_spec 1000 2); [lra|auto]. Qed.
Lemma toy_break : Rleb 1000 (toy_ism 2000) && Rleb 0 (/ 100) = true.
Proof. rewrite toy_ism_big. destruct (Rleb_spec 1000 1000); [|lra]. destruct (Rleb_spec 0 (/ 100)); [auto|lra]. Qed.

(** A converging solve: one iteration, solved. *)
Lemma toy_converges : exists y, Solve (toy true 0 2000) toy_program (mkNum tt []) (toy_config 0 1) =
  Ok (Returned _ (mkRet (toy true 0 2000) (set_status (set_num_iter toy_ready (Some 1%nat)) (mkStatus true 1 false false))
       (mkNum tt [Some 1000; None; Some 1; Some 1]) 1 y [toy_entry 0 1 0 1000 0])).
Proof.
  set (s0 := start (toy true 0 2000) (clear toy_program) toy_ready (mkNum tt []) (toy_config 0 1) (mkStats 1 None)).
  destruct (toy_iteration toy_ready 0 2000 0 1 1 0 s0 [None; None; Some 1; Some 1] 1 1 (-0)) as (s & E & Ea & Eb & Em & Ei & Ek & El & En & Ey & Es);
    try reflexivity; try lra; [apply toy_shaped_ready|cbn; lra|apply toy_zero_error|].
  rewrite toy_break in E. cbn [length Nat.leb] in E. rewrite toy_ism_big in *.
  destruct (toy_finish toy_ready 0 2000 1000 0 1 1 1 (cost_vector toy_ready) s 1 1 1 false Eb En Ei) as (y & Ef); auto; [lra|rewrite Ea; reflexivity|rewrite Ea; reflexivity|].
  exists y. rewrite (Solve_by_loop _ _ _ _ toy_ready (mkStats 1 None) (VBreak s false)); try reflexivity; [| |].
  - cbn [ss_max_iter]. change (length (p_cost toy_ready)) with 1%nat. rewrite Ef. cbn [bind]. rewrite Ea, El. reflexivity.
  - cbn; lia.
  - change (Z.to_nat (max_iterations (toy_config 0 1))) with 1%nat. cbn [loop]. fold s0.
    change (cost_vector toy_ready) with [-0]. change (Rank (toy true 0 2000) toy_ready) with 0%nat. change (steps_of (toy_config 0 1)) with 0%Z.
    cbn [ss_max_iter]. rewrite E. reflexivity.
Qed.

(** A solve that runs into the iteration limit. *)
Lemma toy_first : exists y, Solve (toy true 1 2) toy_program (mkNum tt []) (toy_config 0 1) =
  Ok (Returned _ (mkRet (toy true 1 2) toy_solved_once (mkNum tt [Some 2; None; Some 1; Some 1]) 0 y [toy_entry 0 1 1 2 0])).
Proof.
  set (s0 := start (toy true 1 2) (clear toy_program) toy_ready (mkNum tt []) (toy_config 0 1) (mkStats 1 None)).
  destruct (toy_iteration toy_ready 1 2 0 1 1 0 s0 [None; None; Some 1; Some 1] 1 1 (-0)) as (s & E & Ea & Eb & Em & Ei & Ek & El & En & Ey & Es);
    try reflexivity; try lra; [apply toy_shaped_ready|cbn; lra|apply toy_zero_error|].
  rewrite toy_no_break in E. cbn [length Nat.leb] in E. rewrite toy_ism_two in *.
  destruct (toy_finish toy_ready 1 2 2 0 1 1 1 (cost_vector toy_ready) s 1 1 1 true Eb En Ei) as (y & Ef); auto; [lra|rewrite Ea; reflexivity|rewrite Ea; reflexivity|].
  exists y. rewrite (Solve_by_loop _ _ _ _ toy_ready (mkStats 1 None) (VBreak s true)); try reflexivity; [| |].
  - cbn [ss_max_iter]. change (length (p_cost toy_ready)) with 1%nat. rewrite Ef. cbn [bind]. rewrite Ea, El. reflexivity.
  - cbn; lia.
  - change (Z.to_nat (max_iterations (toy_config 0 1))) with 1%nat. cbn [loop]. fold s0.
    change (cost_vector toy_ready) with [-0]. change (Rank (toy true 1 2) toy_ready) with 0%nat. change (steps_of (toy_config 0 1)) with 0%Z.
    cbn [ss_max_iter]. rewrite E. reflexivity.
Qed.

Definition toy_memory : numeric unit := mkNum tt [Some 2; None; Some 1; Some 1].

(** Warm start with a limit of three: iteration 2 overwrites the stored cost
    scaling. *)
Lemma toy_warm_three : exists y p', Solve (toy true 1 2) toy_solved_once toy_memory (toy_config 1 3) =
  Ok (Returned _ (mkRet (toy true 1 2) p' (mkNum tt [Some 2; Some 2; Some 2; Some 1]) 0 y
       [toy_entry 1 3 1 2 2; toy_entry 1 3 1 2 1; toy_entry 1 3 1 2 0])).
Proof.
  pose proof toy_shaped_again as Hsh.
  set (p := clear toy_solved_once) in *.
  set (s0 := start (toy true 1 2) p p toy_memory (toy_config 1 3) (mkStats 1 (Some 1%nat))).
  destruct (toy_iteration p 1 2 1 3 1 0 s0 [Some 2; None; Some 1; Some 1] 1 1 (-0)) as (s1 & E1 & A1 & B1 & C1 & D1 & K1 & L1 & N1 & Y1 & _);
    try reflexivity; try lra; auto; [cbn; lra|apply toy_zero_error|].
  rewrite toy_no_break, toy_ism_two in *. cbn [length Nat.leb upd] in *.
  destruct (toy_iteration p 1 2 1 3 1 1 s1 _ 1 1 (-0) Hsh ltac:(lra) ltac:(lra) A1 B1 C1) as (s2 & E2 & A2 & B2 & C2 & D2 & K2 & L2 & N2 & Y2 & _);
    try reflexivity; try lra; [rewrite K1; reflexivity|].
  rewrite toy_no_break, toy_ism_two in *. cbn [length Nat.leb upd] in *.
  destruct (toy_iteration p 1 2 1 3 1 2 s2 _ 1 1 (-0) Hsh ltac:(lra) ltac:(lra) A2 B2 C2) as (s3 & E3 & A3 & B3 & C3 & D3 & K3 & L3 & N3 & Y3 & _);
    try reflexivity; try lra; [rewrite K2; reflexivity|].
  rewrite toy_no_break, toy_ism_two in *. cbn [length Nat.leb upd] in *.
  destruct (toy_finish p 1 2 2 1 3 1 1 (cost_vector p) s3 3 1 2 true B3 N3 D3) as (y & Ef); auto; [lra|rewrite A3; reflexivity|rewrite A3; reflexivity|].
  exists y. eexists. rewrite (Solve_by_loop _ _ _ _ p (mkStats 1 (Some 1%nat)) (VBreak s3 true)); try reflexivity; [| |].
  - cbn [ss_max_iter]. change (length (p_cost p)) with 1%nat. rewrite Ef. cbn [bind]. rewrite A3, L3, L2, L1. reflexivity.
  - cbn; lia.
  - change (Z.to_nat (max_iterations (toy_config 1 3))) with 3%nat. cbn [loop]. fold p. fold s0.
    change (cost_vector p) with [-0]. change (Rank (toy true 1 2) p) with 0%nat. change (steps_of (toy_config 1 3)) with 0%Z.
    cbn [ss_max_iter]. rewrite E1. cbn [bind]. rewrite E2. cbn [bind]. rewrite E3. reflexivity.
Qed.

(** Warm start with a limit of five: iteration 4 writes behind the area. *)
Lemma toy_warm_five : Solve (toy true 1 2) toy_solved_once toy_memory (toy_config 1 5) = Ok (Overflow _ 4).
Proof.
  pose proof toy_shaped_again as Hsh.
  set (p := clear toy_solved_once) in *.
  set (s0 := start (toy true 1 2) p p toy_memory (toy_config 1 5) (mkStats 1 (Some 1%nat))).
  destruct (toy_iteration p 1 2 1 5 1 0 s0 [Some 2; None; Some 1; Some 1] 1 1 (-0)) as (s1 & E1 & A1 & B1 & C1 & D1 & K1 & L1 & N1 & Y1 & _);
    try reflexivity; try lra; auto; [cbn; lra|apply toy_zero_error|].
  rewrite toy_no_break, toy_ism_two in *. cbn [length Nat.leb upd] in *.
  destruct (toy_iteration p 1 2 1 5 1 1 s1 _ 1 1 (-0) Hsh ltac:(lra) ltac:(lra) A1 B1 C1) as (s2 & E2 & A2 & B2 & C2 & D2 & K2 & L2 & N2 & Y2 & _);
    try reflexivity; try lra; [rewrite K1; reflexivity|].
  rewrite toy_no_break, toy_ism_two in *. cbn [length Nat.leb upd] in *.
  destruct (toy_iteration p 1 2 1 5 1 2 s2 _ 1 1 (-0) Hsh ltac:(lra) ltac:(lra) A2 B2 C2) as (s3 & E3 & A3 & B3 & C3 & D3 & K3 & L3 & N3 & Y3 & _);
    try reflexivity; try lra; [rewrite K2; reflexivity|].
  rewrite toy_no_break, toy_ism_two in *. cbn [length Nat.leb upd] in *.
  destruct (toy_iteration p 1 2 1 5 1 3 s3 _ 1 2 (-0) Hsh ltac:(lra) ltac:(lra) A3 B3 C3) as (s4 & E4 & A4 & B4 & C4 & D4 & K4 & L4 & N4 & Y4 & _);
    try reflexivity; try lra; [rewrite K3; reflexivity|].
  rewrite toy_no_break, toy_ism_two in *. cbn [length Nat.leb upd] in *.
  destruct (toy_iteration p 1 2 1 5 1 4 s4 _ 2 2 (-0) Hsh ltac:(lra) ltac:(lra) A4 B4 C4) as (s5 & E5 & _);
    try reflexivity; try lra; [rewrite K4; reflexivity|].
  cbn [length Nat.leb upd] in *.
  rewrite (Solve_by_loop _ _ _ _ p (mkStats 1 (Some 1%nat)) (VOverflow 4)); try reflexivity.
  - cbn; lia.
  - change (Z.to_nat (max_iterations (toy_config 1 5))) with 5%nat. cbn [loop]. fold p. fold s0.
    change (cost_vector p) with [-0]. change (Rank (toy true 1 2) p) with 0%nat. change (steps_of (toy_config 1 5)) with 0%Z.
    cbn [ss_max_iter]. rewrite E1. cbn [bind]. rewrite E2. cbn [bind]. rewrite E3. cbn [bind]. rewrite E4. cbn [bind]. rewrite E5. reflexivity.
Qed.
