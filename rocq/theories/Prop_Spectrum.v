(** Property C64: the spectrum of the scaled slacks of a whole program and the
    centering parameter chosen from it. *)
From Coq Require Import List Arith ZArith Reals Bool Lia Lra.
From Verif Require Import Base BaseFacts AssemblerModel KktModel ProgramModel ApiModel DivergenceModel SolveModel LinearModel ConcreteBackend Spec_Divergence Spec_Conex Spec_Spectrum
  ConexFacts ConexSpectrum ToyBackend ConexRun.
Import ListNotations.
Open Scope R_scope.

(** The four numbers gathered over all constraints are the sum of squares, the sum,
    the least and the greatest of the eigenvalues of all scaled slacks; the start
    values 30000 and -30000 of the last two take part. *)
Theorem C64_spectrum : forall iters nf p st y k st' s, rectangular p -> no_matrices p -> interior st ->
  GetWeightedSlackEigenvalues (conex iters nf) p st y k = Ok (st', s) ->
  exists ls, slack_eigenvalues p st y k ls /\
    frobenius_norm_squared s = total (fun x => x * x) (concat ls) /\ trace s = total (fun x => x) (concat ls) /\
    least (concat ls) 30000 (lambda_min s) /\ greatest (concat ls) (-30000) (lambda_max s).
Proof. exact spectrum_reported. Qed.

(** With an eigenvalue on the right side of each start value this is the summary
    that the centering rule needs. *)
Theorem C64_summary : forall s l r,
  frobenius_norm_squared s = total (fun x => x * x) l -> trace s = total (fun x => x) l ->
  least l 30000 (lambda_min s) -> greatest l (-30000) (lambda_max s) ->
  (exists x, In x l /\ x <= 30000) -> (exists x, In x l /\ -30000 <= x) -> r = length l ->
  summarises (mkSpectrum (frobenius_norm_squared s) (trace s) (lambda_min s) (lambda_max s) (INR r)) l.
Proof. exact reported_summary. Qed.

(** The number of eigenvalues is the rank that the solver uses, for the programs
    that calls can build. *)
Theorem C64_rank : forall n ks q rs p iters nf st y k ls, api_run (new_program n) ks = Ok (q, rs) ->
  p_eqs p = p_eqs q -> p_constraints p = p_constraints q -> length (ct_cons st) = length (p_eqs p) ->
  slack_eigenvalues p st y k ls -> length (concat ls) = Rank (conex iters nf) p.
Proof. exact rank_eigenvalues. Qed.

(** Without line search the new centering parameter is that of property C52 for the
    eigenvalues of the scaled slacks at the solution [y] of the KKT system for
    the right hand side [A Q c - b]. *)
Theorem C64_parameter : forall iters nf p c st b bs cs rankK ism st' t,
  rectangular p -> no_matrices p -> interior st -> 0 < divergence_upper_bound c ->
  enable_line_search c = 0%Z -> update_mu (conex iters nf) p c st b bs cs rankK ism = Ok (Some (st', t)) ->
  exists r y ls, vminus (vscale cs (r_AQc (ct_sys st))) (vscale bs b) = Ok r /\ bk_solve (conex iters nf) p st r = Ok y /\
    slack_eigenvalues p st y cs ls /\
    (length (concat ls) = rankK -> Forall (fun x => 0 < x) (concat ls) -> (exists x, In x (concat ls) /\ x <= 30000) ->
     0 < t /\ (forall M, distance_from_one t (concat ls) M -> M < 1) /\
     let bound := divergence_upper_bound c * INR rankK in
     ((divergence_is t (concat ls) bound /\ forall z, 0 < z -> divergence_is z (concat ls) bound -> z <= t) \/
      ((forall z, 0 < z -> ~ divergence_is z (concat ls) bound) /\
       forall M z Mz, distance_from_one t (concat ls) M -> distance_from_one z (concat ls) Mz -> M <= Mz))).
Proof. exact update_reported. Qed.

(** ** Examples *)

(** Two rows and the disk [|y| <= 2]: the rows have slacks 1 and 4 and weights 1 and 2. *)
Definition two_rows : cdata := CLinear 1 [[1]; [-1]] [2; 3].
Definition half_line : cdata := CSoc 1 [[0; 1]] [2; 0].
Definition both : program :=
  match api_run (new_program 1) [PAddConstraint false two_rows None; PAddConstraint false half_line None] with Ok (p, _) => p | _ => new_program 0 end.
Definition both_state : cst :=
  mkCst [SLinear (mkLin (Some [1; 2]) None None); SSoc (mkSocWs 1 (Some (1, fun _ => 0)) None)] (fun _ => 0) None (mkRhs [] [] 0 0) 0.

Lemma both_fields : p_eqs both = [mkCont two_rows 1; mkCont half_line 1] /\ p_cliques both = [[0%nat]; [0%nat]] /\ p_constraints both = [0%nat; 1%nat].
Proof. repeat split; reflexivity. Qed.
Lemma both_rectangular : rectangular both.
Proof.
  intros i co cols A b Hi Hd. rewrite (proj1 both_fields) in Hi. destruct i as [|[|[|]]]; try discriminate; injection Hi as <-; [|discriminate].
  injection Hd as <- <- <-. repeat constructor.
Qed.
Lemma both_matrices : no_matrices both.
Proof. intros i co h n As C Hi. rewrite (proj1 both_fields) in Hi. destruct i as [|[|[|]]]; try discriminate; injection Hi as <-; discriminate. Qed.
Lemma both_interior : interior both_state.
Proof.
  intros i s Hi. destruct i as [|[|[|]]]; try discriminate; injection Hi as <-; cbn.
  - intros W [= <-]. repeat constructor; lra.
  - intros W [= <-]. apply SocProofs.one_interior with (n := 1%nat). apply SocAlgebra.euclid_form.
Qed.

Lemma rows_report w : lw_W w = Some [1; 2] -> exists w', 
  linear_spectrum 1 [[1]; [-1]] [2; 3] w [1] 1 = Ok (w', (1, 8, 65, 9)).
Proof.
  intros Hw. eexists. unfold linear_spectrum. rewrite Hw. unfold ComputeNegativeSlack. 
  assert (vminus (map (fun a => vdot a (firstn 1 [1])) [[1]; [-1]]) (vscale 1 [2; 3]) = Ok [-1; -4]) as E.
  { cbn. do 2 f_equal; [ring|]. f_equal. ring. }
  cbn [written bind length Nat.ltb Nat.leb]. rewrite E. cbn [bind zip_]. replace (1 * -1) with (-1) by ring. replace (2 * -4) with (-8) by ring.
  unfold minCoeff, maxCoeff. cbn [fold_left bind]. rewrite Rmin_right, Rmax_left by lra.
  match goal with |- Ok (?w', (?a, ?b, ?c, ?d)) = _ => replace a with 1 by lra; replace b with 8 by lra; replace c with 65 by (cbn; lra); replace d with 9 by (cbn; lra) end.
  reflexivity.
Qed.

(** The report exists, and the rows have the eigenvalues 1 and 8. *)
Example C64_example : forall nf, exists st' s, GetWeightedSlackEigenvalues (conex 0 nf) both both_state [1] 1 = Ok (st', s) /\
  lambda_min s <= 1 /\ 8 <= lambda_max s.
Proof.
  intros nf. destruct both_fields as (F1 & F2 & F3). unfold GetWeightedSlackEigenvalues, NumberOfConstraints. rewrite F1, F2.
  cbn [length seq foldM at_ nth_error bind Vars mapM idx bk_spectrum conex]. unfold con_spectrum at 1, get_con. rewrite F1. cbn [nth_error both_state ct_cons bind ct_data two_rows].
  destruct (rows_report (mkLin (Some [1; 2]) None None) eq_refl) as (w' & ->). cbn [bind]. unfold con_spectrum, get_con. rewrite F1. cbn [nth_error both_state ct_cons bind ct_data half_line set_con upd].
  destruct (SocLinks.soc_spectrum_total 1 [[0; 1]] [2; 0] (mkSocWs 1 (Some (1, fun _ => 0)) None) [1] 1 (1, fun _ => 0) eq_refl ltac:(lia) eq_refl eq_refl ltac:(discriminate))
    as (o & r & -> & E2); [apply SocProofs.one_interior with (n := 1%nat); apply SocAlgebra.euclid_form|].
  cbn [bind]. rewrite E2. destruct r as [[[lo hi] frob] tr]. cbn [bind]. eexists _, _. split; [reflexivity|].
  cbn [lambda_min lambda_max]. unfold Rltb. destruct (Rlt_dec 1 30000) as [_|?]; [|lra]. destruct (Rlt_dec (-30000) 8) as [_|?]; [|lra]. repeat match goal with |- context [Rlt_dec ?a ?b] => destruct (Rlt_dec a b) end; lra.
Qed.

(** The rank of this program is four. *)
Example C64_rank_example : exists rs, api_run (new_program 1) [PAddConstraint false two_rows None; PAddConstraint false half_line None] = Ok (both, rs) /\
  length (ct_cons both_state) = length (p_eqs both) /\ Rank (conex 0 silent) both = 4%nat.
Proof. eexists. split; [reflexivity|]. split; [rewrite (proj1 both_fields); reflexivity|]. reflexivity. Qed.

(** [maximise y / 2] subject to [y <= 1] from the identity: [y] is 1/2, and the
    only eigenvalue is 1/2. *)
Definition no_search : config := {|
  prepare_dual_variables := 0; initialization_mode := 0; inv_sqrt_mu_max := 1000;
  minimum_mu := 0; maximum_mu := 10000; divergence_upper_bound := 1; enable_line_search := 0;
  dinf_upper_bound := 1; final_centering_steps := 5; final_centering_tolerance := 1 / 100;
  initial_centering_steps_warmstart := 0; initial_centering_steps_coldstart := 0;
  warmstart_abort_threshold := 2; max_iterations := 25; iterative_refinement_iterations := 0;
  infeasibility_threshold := 100000; kkt_error_tolerance := 10000000000; enable_rescaling := 0;
  kkt_solver := 0 |}.

Example C64_parameter_example : forall nf, exists p st st' t, rectangular p /\ no_matrices p /\ interior st /\ 0 < divergence_upper_bound no_search /\ enable_line_search no_search = 0%Z /\
  update_mu (conex 0 nf) p no_search st [1 / 2] 1 1 1 1 = Ok (Some (st', t)) /\
  bk_solve (conex 0 nf) p st [1 / 2] = Ok [1 / 2] /\ slack_eigenvalues p st [1 / 2] 1 [[1 / 2]].
Proof.
  intros nf. set (b := 1 / 2).
  destruct (line_system b 1 (mkCst (line_state 1 None None) (fun _ => 0) None (mkRhs [] [] 0 0) 0) 1 None None ltac:(lra) eq_refl)
    as (st0 & st & _ & _ & (t1 & Hst) & HS & _ & Hsol).
  destruct (ready_fields b 1) as (F1 & F2 & F3 & F4 & F5 & F6 & F7).
  assert (con_solve 0 (line_ready b 1) st [1 / 2] = Ok [1 / 2]) as Y. { rewrite Hsol by auto. do 2 f_equal. field. }
  exists (line_ready b 1), st.
  assert (exists st' t, update_mu (conex 0 nf) (line_ready b 1) no_search st [b] 1 1 1 1 = Ok (Some (st', t))) as (st' & t & E).
  { unfold update_mu. cbn [enable_line_search no_search Z.eqb negb bind]. unfold Rltb at 1. destruct (Rlt_dec (-1) 0) as [_|?]; [|lra].
    rewrite F6. cbn [bk_sys conex]. rewrite HS. unfold ComputeMuFromDivergence. cbn [r_AQc vscale map vminus zip_ bind bk_solve conex].
    replace (1 * (1 * 1) - 1 * b) with (1 / 2) by (unfold b; field). rewrite Y. cbn [bind]. unfold GetWeightedSlackEigenvalues, NumberOfConstraints. rewrite F1, F2.
    cbn [line_program AddLinearCost toy_program p_eqs length seq foldM at_ nth_error bind Vars mapM idx bk_spectrum conex].
    change (length (p_eqs (line_program b))) with 1%nat. cbn [seq foldM at_ nth_error bind Vars mapM idx]. unfold con_spectrum, get_con. rewrite F1, Hst.
    cbn -[mu_from_spectrum Rltb]. eexists _, _. reflexivity. }
  exists st', t. split; [unfold rectangular; rewrite F1; apply line_rectangular|].
  split; [unfold no_matrices; rewrite F1; intros [|[|]] co h m As C Hc; try discriminate; injection Hc as <-; discriminate|].
  split; [intros [|[|i]] s Hs; rewrite Hst in Hs; try discriminate; injection Hs as <-; cbn; intros W [= <-]; repeat constructor; lra|].
  split; [cbn; lra|]. split; [reflexivity|]. split; [exact E|]. split; [exact Y|]. split; [rewrite F1; reflexivity|].
  intros [|[|i]] co s Hc Hs; rewrite F1 in Hc; try discriminate. injection Hc as <-. rewrite Hst in Hs. injection Hs as <-. rewrite F2. cbn.
  exists [1]. split; auto. unfold Spec_Conex.row_value, Spec_Linear.total. cbn. f_equal. unfold b. lra.
Qed.

(** If all eigenvalues exceed 30000 the reported least one is 30000, which is
    none of them: the start value wins. *)
Theorem C64_sentinel_refuted : exists iters nf p st y k st' s l, rectangular p /\ no_matrices p /\ interior st /\
  GetWeightedSlackEigenvalues (conex iters nf) p st y k = Ok (st', s) /\ slack_eigenvalues p st y k [l] /\
  l = [40000; 50000] /\ lambda_min s = 30000.
Proof.
  set (x := CLinear 1 [[0]; [0]] [1; 1]).
  set (p := match api_run (new_program 1) [PAddConstraint false x None] with Ok (p, _) => p | _ => new_program 0 end).
  assert (p_eqs p = [mkCont x 1]) as F1 by reflexivity. assert (p_cliques p = [[0%nat]]) as F2 by reflexivity.
  exists 0%nat, silent, p, (mkCst [SLinear (mkLin (Some [40000; 50000]) None None)] (fun _ => 0) None (mkRhs [] [] 0 0) 0), [0], 1.
  eexists _, _, [40000; 50000]. split.
  { intros [|[|i]] co cols A b Hi Hd; rewrite F1 in Hi; try discriminate. injection Hi as <-. injection Hd as <- <- <-. repeat constructor. }
  split. { intros [|[|i]] co h m As C Hi; rewrite F1 in Hi; try discriminate. injection Hi as <-. discriminate. }
  split. { intros [|[|i]] s Hs; try discriminate; injection Hs as <-; cbn; intros W [= <-]; repeat constructor; lra. }
  split; [|split; [|split; [reflexivity|]]].
  - unfold GetWeightedSlackEigenvalues, NumberOfConstraints. rewrite F1, F2. cbn [length seq foldM at_ nth_error bind Vars mapM idx bk_spectrum conex].
    unfold con_spectrum, get_con. rewrite F1. cbn -[Rltb]. reflexivity.
  - split; [rewrite F1; reflexivity|]. intros [|[|i]] co s Hc Hs; rewrite F1 in Hc; try discriminate. injection Hc as <-. injection Hs as <-. rewrite F2. cbn.
    exists [40000; 50000]. split; auto. unfold Spec_Conex.row_value. cbn. f_equal; [ring|]. f_equal. ring.
  - cbn [lambda_min]. rewrite Rmax_left by lra. unfold Rltb. destruct (Rlt_dec _ _); lra.
Qed.

Print Assumptions C64_spectrum.
Print Assumptions C64_summary.
Print Assumptions C64_rank.
Print Assumptions C64_parameter.
Print Assumptions C64_sentinel_refuted.
