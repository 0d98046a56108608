(** The line search (C38). *)
From Coq Require Import List Arith ZArith Reals Bool Lia Lra.
From Verif Require Import Base BaseFacts LayoutModel SupernodeModel TriWorkspaceModel AssemblerModel DenseModel BlockModel KktModel
  ProgramModel ApiModel DivergenceModel SolveModel LinearModel ConcreteBackend Spec_Linear RhsProofs Spec_Program Spec_Solve Spec_Conex
  SolveProofs SolveFacts Prop_Solve ToyBackend ConexFacts.
Import ListNotations.
Open Scope R_scope.

Definition inside (l u : ext) (t : R) : Prop := ele l (Fin t) /\ ele (Fin t) u.
Definition number (x : ext) : Prop := x <> NaN.

Lemma elt_ele a b : number a -> number b -> elt a b = true -> forall t, ~ (ele b (Fin t) /\ ele (Fin t) a).
Proof.
  unfold number, elt. intros Ha Hb H t [H1 H2]. destruct a, b; cbn in *; try tauto; try discriminate.
  destruct (Rltb_spec r r0); [lra|discriminate].
Qed.

Lemma elt_max l l' t : number l -> number l' ->
  (ele (if elt l l' then l' else l) (Fin t) <-> ele l (Fin t) /\ ele l' (Fin t)).
Proof.
  unfold number, elt. intros Hl Hl'. destruct l, l'; cbn; try tauto. destruct (Rltb_spec r r0); cbn; lra.
Qed.
Lemma elt_min u u' t : number u -> number u' ->
  (ele (Fin t) (if elt u' u then u' else u) <-> ele (Fin t) u /\ ele (Fin t) u').
Proof.
  unfold number, elt. intros Hl Hl'. destruct u, u'; cbn; try tauto. destruct (Rltb_spec r0 r); cbn; lra.
Qed.

(** The bounds of one component. *)
Lemma one_component dinf x d : 0 <= dinf -> ~ (d = 0 /\ Rabs x = dinf) ->
  let u := ediv (dinf - x) d in let l := ediv (- dinf - x) d in
  let '(l, u) := if elt u l then (u, l) else (l, u) in
  number l /\ number u /\ forall t, inside l u t <-> Rabs (x + t * d) <= dinf.
Proof.
  intros H0 Hn. unfold ediv. destruct (Req_EM_T d 0) as [->|Hd].
  - assert (dinf - x = 0 -> False) as H1. { intros E. apply Hn. split; auto. replace dinf with x in * by lra. apply Rabs_pos_eq. lra. }
    assert (- dinf - x = 0 -> False) as H2. { intros E. apply Hn. split; auto. replace x with (- dinf) by lra. rewrite Rabs_Ropp. apply Rabs_pos_eq. lra. }
    assert (forall t, x + t * 0 = x) as Ex by (intros; lra).
    destruct (Rlt_dec 0 (dinf - x)); destruct (Rlt_dec 0 (- dinf - x)); cbn [elt].
    + split; [discriminate|]. split; [discriminate|]. intros t. rewrite Ex. unfold inside; cbn. split; [tauto|]. intros H.
      unfold Rabs in H. destruct (Rcase_abs x); lra.
    + destruct (Rlt_dec (- dinf - x) 0); [|lra]. cbn. split; [discriminate|]. split; [discriminate|]. intros t. rewrite Ex.
      unfold inside; cbn. split; [|tauto]. intros _. apply Rabs_le. lra.
    + lra.
    + destruct (Rlt_dec (dinf - x) 0); [|lra]. destruct (Rlt_dec (- dinf - x) 0); [|lra]. cbn. split; [discriminate|]. split; [discriminate|].
      intros t. rewrite Ex. unfold inside; cbn. split; [tauto|]. intros H. unfold Rabs in H. destruct (Rcase_abs x); lra.
  - set (u := (dinf - x) / d). set (l := (- dinf - x) / d).
    assert (u * d = dinf - x) as Eu by (unfold u; field; auto). assert (l * d = - dinf - x) as El by (unfold l; field; auto).
    clearbody u l. cbn [elt].
    assert (forall t, Rabs (x + t * d) <= dinf <-> (l * d <= t * d <= u * d)) as Hin.
    { intros t. split.
      - intros H. unfold Rabs in H. destruct (Rcase_abs (x + t * d)); lra.
      - intros H. apply Rabs_le. lra. }
    destruct (Rltb_spec u l) as [H|H]; (split; [discriminate|]; split; [discriminate|]); intros t; rewrite Hin; unfold inside; cbn.
    + assert (d < 0) as Hs by (destruct (Rlt_dec d 0); auto; exfalso; nra). split; intros [G1 G2]; split; nra.
    + assert (0 < d \/ (d < 0 /\ u = l)) as [Hs|[Hs E]].
      { destruct (Rlt_dec 0 d); auto. right. assert (d < 0) by lra. split; auto. nra. }
      * split; intros [G1 G2]; split; nra.
      * split; intros [G1 G2]; split; nra.
Qed.

Lemma search_step_ok dinf first lower upper x d : 0 <= dinf -> ~ (d = 0 /\ Rabs x = dinf) ->
  (first = false -> number lower /\ number upper) ->
  let '(l, u) := search_step dinf first lower upper x d in
  number l /\ number u /\
  forall t, inside l u t <-> (first = false -> inside lower upper t) /\ Rabs (x + t * d) <= dinf.
Proof.
  intros H0 Hn Hb. unfold search_step. pose proof (one_component dinf x d H0 Hn) as H. cbv zeta in H.
  destruct (if elt _ _ then _ else _) as [l u]. destruct H as (N1 & N2 & H).
  destruct first.
  - rewrite !orb_true_r. split; auto. split; auto. intros t. rewrite H. intuition discriminate.
  - rewrite !orb_false_r. destruct (Hb eq_refl) as [B1 B2].
    split; [destruct (elt lower l); auto|]. split; [destruct (elt u upper); auto|].
    intros t. unfold inside in *. rewrite (elt_max lower l), (elt_min upper u) by auto. specialize (H t). tauto.
Qed.

Definition tie_free (dinf : R) (d0 delta : list R) : Prop :=
  forall k, (k < length d0)%nat -> ~ (nth k delta 0 = 0 /\ Rabs (nth k d0 0) = dinf).

Lemma FindMinimumMu_loop_ok dinf : 0 <= dinf -> forall d0 delta first lower upper l u,
  tie_free dinf d0 delta -> (first = false -> number lower /\ number upper) ->
  FindMinimumMu_loop dinf first d0 delta lower upper = Ok (l, u) ->
  length delta = length d0 /\
  (d0 <> [] -> number l /\ number u /\
    forall t, inside l u t <-> (first = false -> inside lower upper t) /\
                               forall k, (k < length d0)%nat -> Rabs (nth k d0 0 + t * nth k delta 0) <= dinf) /\
  (d0 = [] -> l = lower /\ u = upper).
Proof.
  intros H0. induction d0 as [|x d0 IH]; intros [|z delta] first lower upper l u Ht Hb H; cbn in H; try discriminate.
  - injection H as <- <-. split; auto. split; [congruence|auto].
  - pose proof (Ht 0%nat ltac:(cbn; lia)) as Ht0. cbn in Ht0.
    pose proof (search_step_ok dinf first lower upper x z H0 Ht0 Hb) as Hs.
    destruct (search_step dinf first lower upper x z) as [l1 u1]. destruct Hs as (N1 & N2 & Hs).
    apply IH in H; [|intros k Hk; apply (Ht (S k)); cbn; lia|auto]. destruct H as (L & H1 & H2).
    split; [cbn; lia|]. split; [|congruence]. intros _.
    destruct d0 as [|x1 d0].
    + destruct (H2 eq_refl) as [-> ->]. split; auto. split; auto. intros t. rewrite Hs. split.
      * intros [G1 G2]. split; auto. intros [|k] Hk; cbn in *; [auto|lia].
      * intros [G1 G2]. split; auto. apply (G2 0%nat). cbn. lia.
    + destruct (H1 ltac:(discriminate)) as (M1 & M2 & H3). split; auto. split; auto. intros t. rewrite H3, Hs. split.
      * intros [G1 G2]. specialize (G1 eq_refl). split; [tauto|]. intros [|k] Hk; cbn [nth]; [tauto|]. apply G2. cbn in *. lia.
      * intros [G1 G2]. split; [intros _; split; auto; apply (G2 0%nat); cbn; lia|]. intros k Hk. apply (G2 (S k)). cbn in *. lia.
Qed.

Lemma FindMinimumMu_ok d0 delta dinf r : 0 <= dinf -> tie_free dinf d0 delta -> d0 <> [] ->
  FindMinimumMu d0 delta dinf = Ok r ->
  length delta = length d0 /\
  (match r with Some (l, u) => number l /\ number u | None => True end) /\
  forall t, (forall k, (k < length d0)%nat -> Rabs (nth k d0 0 + t * nth k delta 0) <= dinf) <->
            match r with Some (l, u) => inside l u t | None => False end.
Proof.
  intros H0 Ht Hd H. unfold FindMinimumMu in H. apply bind_ok in H as ([l u] & E & H). injection H as <-.
  apply FindMinimumMu_loop_ok in E as (L & E & _); auto; [|discriminate]. destruct (E Hd) as (N1 & N2 & E').
  split; auto. destruct (elt u l) eqn:Eq.
  - split; auto. intros t. split; [|tauto]. intros Hk. apply (elt_ele u l N2 N1 Eq t). apply E'. split; [discriminate|auto].
  - split; auto. intros t. rewrite E'. intuition discriminate.
Qed.

(** ** One constraint *)

Lemma linear_search_ok cols A b w params y0 y1 w' r :
  linear_search cols A b w params y0 y1 = Ok (w', r) ->
  exists W d0 d1, lw_W w = Some W /\ lw_W w' = Some W /\ (cols <= length y0)%nat /\ (cols <= length y1)%nat /\
    length W = length A /\ length d0 = length A /\ length d1 = length A /\
    (forall k, (k < length A)%nat ->
       nth k d0 0 = nth k W 0 * (vdot (nth k A []) (firstn cols y0) - ln_c0 params * nth k b 0) + 1 /\
       nth k d1 0 = nth k W 0 * (vdot (nth k A []) (firstn cols y1) - ln_c1 params * nth k b 0) + 1 - nth k d0 0) /\
    FindMinimumMu d0 d1 (ln_dinf params) = Ok r.
Proof.
  unfold linear_search. intros H. apply bind_ok in H as (W & EW & H). apply written_ok in EW.
  apply bind_ok in H as (s0 & E0 & H). apply bind_ok in H as (e0 & F0 & H). apply bind_ok in H as (s1 & E1 & H).
  apply bind_ok in H as (e1 & F1 & H). apply bind_ok in H as (d1 & Ed & H). apply bind_ok in H as (x & Ex & H). injection H as <- <-.
  apply slack_ok in E0 as (A1 & A2 & A3 & A4). apply slack_ok in E1 as (B1 & B2 & B3 & B4).
  apply zip_ok in F0 as (C1 & C2 & C3). apply zip_ok in F1 as (D1 & D2 & D3). apply zip_ok in Ed as (G1 & G2 & G3).
  rewrite map_length in *.
  exists W, (map (fun x => x + 1) e0), d1. rewrite map_length. cbn. repeat split; auto; try lia.
  - rewrite (nth_map_lt _ _ _ 0 0) by lia. rewrite C3, A4 by lia. lra.
  - rewrite G3 by lia. rewrite (nth_map_lt _ e1 _ 0 0) by lia. rewrite D3, B4 by lia. lra.
Qed.

(** Bounds as numbers within the range of the caller. *)
Lemma lower_number_ok l t : number l -> - DBL_MAX <= t <= DBL_MAX -> (lower_number l <= t <-> ele l (Fin t)).
Proof. unfold number. destruct l; cbn; intros; try tauto; lra. Qed.
Lemma upper_number_ok u t : number u -> - DBL_MAX <= t <= DBL_MAX -> (t <= upper_number u <-> ele (Fin t) u).
Proof. unfold number. destruct u; cbn; intros; try tauto; lra. Qed.

(** Rows of constraint [i]. *)
Definition rows_of (p : program) (st : cst) (i : nat) (P : R -> list R -> list nat -> R -> Prop) : Prop :=
  forall co cols A b w W k, nth_error (p_eqs p) i = Some co -> ct_data co = CLinear cols A b ->
    nth_error (ct_cons st) i = Some (SLinear w) -> lw_W w = Some W -> (k < length A)%nat ->
    P (nth k W 0) (nth k A []) (nth i (p_cliques p) []) (nth k b 0).
Lemma each_row_of p st P : each_row p st P <-> forall i, rows_of p st i P.
Proof. unfold each_row, rows_of. split; intros H; intros; eapply H; eauto. Qed.

Lemma rows_of_weights p st st' i P : weights st' = weights st -> rows_of p st i P -> rows_of p st' i P.
Proof.
  intros E H co cols A b w W k H1 H2 H3 H4 H5.
  assert (nth_error (weights st) i = Some (Some (WLin W))) as Hw.
  { rewrite <- E. unfold weights. rewrite nth_error_map, H3. cbn. rewrite H4. reflexivity. }
  unfold weights in Hw. rewrite nth_error_map in Hw. destruct (nth_error (ct_cons st) i) as [s|] eqn:Es; [|discriminate].
  cbn in Hw. destruct s as [w0| | |w0|w0|]; try discriminate; cbn in Hw.
  - destruct (lw_W w0) eqn:E0; [|discriminate]. eapply H; eauto. cbn in Hw. congruence.
  - destruct (sw_W w0); discriminate.
Qed.

Section Loop.
  Variable p : program.
  Variable dinf : R.
  Variables y0 y1 : list R.
  Variables c0 c1 : R.
  Hypothesis H0 : 0 <= dinf.
  Hypothesis HR : rectangular p.
  Hypothesis HNC : no_cones p.

  Definition row_inside (t : R) : R -> list R -> list nat -> R -> Prop := fun w a vars b =>
    Rabs (direction w a vars b y0 c0 + t * (direction w a vars b y1 c1 - direction w a vars b y0 c0)) <= dinf.
  Definition row_tie_free : R -> list R -> list nat -> R -> Prop := fun w a vars b =>
    ~ (direction w a vars b y1 c1 = direction w a vars b y0 c0 /\ Rabs (direction w a vars b y0 c0) = dinf).

  Lemma con_search_ok st i clique z0 z1 st' r :
    nth_error (p_cliques p) i = Some clique -> Vars y0 clique = Ok z0 -> Vars y1 clique = Ok z1 ->
    rows_of p st i row_tie_free ->
    con_search p st i (mkLine c0 c1 dinf) z0 z1 = Ok (st', r) ->
    forall t, - DBL_MAX <= t <= DBL_MAX ->
      (rows_of p st i (row_inside t) <-> match r with Some (l, u) => l <= t <= u | None => False end).
  Proof.
    intros Hc E0 E1 Ht H t Hr. unfold con_search in H. apply bind_ok in H as ([co s] & E & H). apply get_con_ok in E as [G1 G2].
    destruct (ct_data co) as [cols A b|n A b|h n As C| | | |A b] eqn:Ed; destruct s as [w|l| |w|w|]; try discriminate.
    2:{ exfalso. eapply (proj1 (HNC _ _ G1)); eauto. }
    2:{ exfalso. eapply (proj2 (HNC _ _ G1)); eauto. }
    2:{ injection H as _ <-. split; [lra|]. intros _ co' cols A b w W k X1 X2. congruence. }
    2:{ injection H as _ <-. split; [lra|]. intros _ co' cols A' b' w W k X1 X2. congruence. }
    apply bind_ok in H as ([w' x] & E & H). injection H as _ <-.
    apply linear_search_ok in E as (W & d0 & d1 & S1 & S2 & S3 & S4 & S5 & S6 & S7 & S8 & S9). cbn [ln_c0 ln_c1 ln_dinf] in *.
    assert (forall k, (k < length A)%nat ->
      nth k d0 0 = direction (nth k W 0) (nth k A []) clique (nth k b 0) y0 c0 /\
      nth k d1 0 = direction (nth k W 0) (nth k A []) clique (nth k b 0) y1 c1 - direction (nth k W 0) (nth k A []) clique (nth k b 0) y0 c0) as HD.
    { intros k Hk. destruct (S8 k Hk) as [Q1 Q2].
      assert (length (nth k A []) = cols) as Hl by (pose proof (HR _ _ _ _ _ G1 Ed) as X; unfold has_cols in X; rewrite Forall_forall in X; apply X; apply nth_In; auto).
      rewrite (slack_row cols _ clique y0 z0) in Q1 by auto. rewrite (slack_row cols _ clique y1 z1) in Q2 by auto.
      unfold direction. split; [auto|]. rewrite Q2, Q1. lra. }
    assert (rows_of p st i (row_inside t) <-> forall k, (k < length d0)%nat -> Rabs (nth k d0 0 + t * nth k d1 0) <= dinf) as ->.
    { split.
      - intros X k Hk. rewrite S6 in Hk. destruct (HD k Hk) as [-> ->].
        specialize (X _ _ _ _ _ _ k G1 Ed G2 S1 Hk). unfold row_inside in X. rewrite (nth_error_nth_eq _ _ _ [] Hc) in X. exact X.
      - intros X co' cols' A' b' w'' W' k Y1 Y2 Y3 Y4 Hk. rewrite G1 in Y1. injection Y1 as <-. rewrite Ed in Y2. injection Y2 as <- <- <-.
        rewrite G2 in Y3. injection Y3 as <-. rewrite S1 in Y4. injection Y4 as <-. unfold row_inside. rewrite (nth_error_nth_eq _ _ _ [] Hc).
        specialize (X k ltac:(lia)). destruct (HD k Hk) as [Z1 Z2]. rewrite Z1, Z2 in X. exact X. }
    assert (tie_free dinf d0 d1) as HT.
    { intros k Hk [X1 X2]. rewrite S6 in Hk. destruct (HD k Hk) as [Z1 Z2]. apply (Ht _ _ _ _ _ _ k G1 Ed G2 S1 Hk).
      rewrite (nth_error_nth_eq _ _ _ [] Hc). split; [lra|]. congruence. }
    destruct d0 as [|x0 d0].
    - destruct d1; [|cbn in *; lia]. cbn in S9. unfold FindMinimumMu in S9. cbn in S9. unfold Rltb in S9.
      destruct (Rlt_dec DBL_MAX (- DBL_MAX)) as [X|X]; [lra|]. injection S9 as <-. cbn. split; [auto|]. intros _ k Hk. lia.
    - destruct (FindMinimumMu_ok (x0 :: d0) d1 dinf x H0 HT ltac:(discriminate) S9) as (_ & N & X). rewrite X.
      destruct x as [[l u]|]; [|tauto]. destruct N as [N1 N2]. unfold inside.
      rewrite <- (lower_number_ok l t), <- (upper_number_ok u t) by auto. tauto.
  Qed.

  Variables (iters : solver_mode) (nf : environment).

  Lemma search_loop_ok es : forall st lo up st' r,
    (forall i, In i es -> rows_of p st i row_tie_free) ->
    - DBL_MAX <= lo -> up <= DBL_MAX ->
    search_loop (conex iters nf) p st (mkLine c0 c1 dinf) y0 y1 es lo up = Ok (st', r) ->
    match r with
    | Some (l, u) => - DBL_MAX <= l /\ u <= DBL_MAX /\
        forall t, (l <= t <= u <-> lo <= t <= up /\ forall i, In i es -> rows_of p st i (row_inside t))
    | None => forall t, - DBL_MAX <= t <= DBL_MAX -> ~ forall i, In i es -> rows_of p st i (row_inside t)
    end.
  Proof.
    induction es as [|i es IH]; intros st lo up st' r Ht Hlo Hup H; cbn in H.
    - injection H as _ <-. split; auto. split; auto. intros t. split; [intros; split; auto; intros i []|tauto].
    - apply bind_ok in H as (cl & Ecl & H). apply at_ok in Ecl. apply bind_ok in H as (z0 & Ez0 & H). apply bind_ok in H as (z1 & Ez1 & H).
      apply bind_ok in H as ([s1 x] & Es & H). cbn [bk_search conex] in Es.
      pose proof (con_search_ok st i cl z0 z1 s1 x Ecl Ez0 Ez1 (Ht i (or_introl eq_refl)) Es) as Hi.
      apply con_search_core in Es. pose proof (sm_weights _ _ Es) as Ew.
      destruct x as [[li ui]|].
      + apply IH in H.
        2:{ intros k Hk. apply (rows_of_weights p st); auto. apply Ht. right. auto. }
        2:{ destruct (Rltb_spec lo li); lra. }
        2:{ destruct (Rltb_spec ui up); lra. }
        destruct r as [[l u]|].
        * destruct H as (K1 & K2 & H). split; auto. split; auto. intros t. rewrite H.
          assert ((if Rltb lo li then li else lo) <= t <= (if Rltb ui up then ui else up) <-> lo <= t <= up /\ li <= t <= ui) as ->.
          { destruct (Rltb_spec lo li), (Rltb_spec ui up); lra. }
          split.
          -- intros [[X1 X2] X3]. split; auto. intros k [<-|Hk]; [apply Hi; auto; lra|].
             apply (rows_of_weights p s1); auto.
          -- intros [X1 X2]. split; [split; auto; apply Hi; [lra|apply X2; left; auto]|].
             intros k Hk. apply (rows_of_weights p st); auto. apply X2. right. auto.
        * intros t Hr X. apply (H t Hr). intros k Hk. apply (rows_of_weights p st); auto. apply X. right. auto.
      + injection H as _ <-. intros t Hr X. apply (Hi t Hr). apply X. left. auto.
  Qed.
End Loop.

Lemma line_search_ok iters nf p st dinf AQc cs b AW st' v : 0 <= dinf -> rectangular p -> no_cones p ->
  length (ct_cons st) = length (p_eqs p) ->
  ComputeMuFromLineSearch (conex iters nf) p st dinf AQc cs b AW = Ok (st', v) ->
  exists y0 y1 r0 r1, con_solve iters p st (vscale (-2) AW) = Ok y0 /\
    vplus AQc b = Ok r0 /\ vminus r0 (vscale 2 AW) = Ok r1 /\ con_solve iters p st r1 = Ok y1 /\
    (no_tie p st y0 y1 0 cs dinf ->
     (v = -1 /\ (forall t, - DBL_MAX <= t <= DBL_MAX -> ~ within p st y0 y1 0 cs dinf t)) \/
     (- DBL_MAX <= v <= DBL_MAX /\ within p st y0 y1 0 cs dinf v /\
      forall t, - DBL_MAX <= t <= DBL_MAX -> within p st y0 y1 0 cs dinf t -> t <= v)).
Proof.
  intros H0 HR HNC Hlen H. unfold ComputeMuFromLineSearch in H. cbn [bk_solve conex] in H.
  apply bind_ok in H as (y0 & E0 & H). apply bind_ok in H as (r0 & F0 & H). apply bind_ok in H as (r1 & F1 & H).
  apply bind_ok in H as (y1 & E1 & H). apply bind_ok in H as ([st1 r] & Es & H).
  exists y0, y1, r0, r1. split; auto. split; auto. split; auto. split; auto. intros Hn.
  replace (cs * 0) with 0 in Es by lra. replace (cs * 1) with cs in Es by lra.
  pose proof DBL_MAX_big as HD.
  unfold no_tie in Hn. rewrite each_row_of in Hn.
  apply (search_loop_ok p dinf y0 y1 0 cs H0 HR HNC) in Es; [|intros; apply Hn|lra|lra].
  assert (forall t, within p st y0 y1 0 cs dinf t <-> forall i, In i (seq 0 (NumberOfConstraints p)) -> rows_of p st i (row_inside dinf y0 y1 0 cs t)) as HW.
  { intros t. unfold within. rewrite each_row_of. split; [auto|]. intros X i co cols A bb w W k Y1. apply (X i); auto.
    apply in_seq. apply nth_error_lt in Y1. unfold NumberOfConstraints. lia. }
  destruct r as [[l u]|].
  - destruct Es as (B1 & B2 & Es). injection H as _ <-. unfold Rleb. destruct (Rle_dec l u) as [Hlu|Hlu].
    + right. destruct (proj1 (Es u)) as [X1 X2]; [lra|]. split; auto. split; [apply HW; auto|].
      intros t Hr Ht. apply Es. split; [lra|]. apply HW. auto.
    + left. split; auto. intros t Hr Ht. assert (l <= t <= u); [|lra]. apply Es. split; [lra|]. apply HW. auto.
  - injection H as _ <-. left. split; auto. intros t Hr Ht. apply (Es t Hr). apply HW. auto.
Qed.

(** Second-order cones and Hermitian constraints have no line search: the whole
    search fails. *)
Definition unsearched (x : cdata) : Prop := match x with CSoc _ _ _ | CHerm _ _ _ _ => True | _ => False end.
Lemma search_cone iters nf p params y0 y1 i co : nth_error (p_eqs p) i = Some co -> unsearched (ct_data co) ->
  forall es st lo up st' r, In i es -> search_loop (conex iters nf) p st params y0 y1 es lo up = Ok (st', r) -> r = None.
Proof.
  intros Hi Hd. induction es as [|k es IH]; intros st lo up st' r Hin H; [destruct Hin|]. cbn in H.
  apply bind_ok in H as (cl & _ & H). apply bind_ok in H as (z0 & _ & H). apply bind_ok in H as (z1 & _ & H).
  apply bind_ok in H as ([s1 x] & Es & H). cbn [bk_search conex] in Es. destruct Hin as [->|Hin].
  - unfold con_search in Es. apply bind_ok in Es as ([co' s] & E & Es). apply get_con_ok in E as [E _]. rewrite Hi in E. injection E as <-.
    destruct (ct_data co); destruct Hd; destruct s; try discriminate; injection Es as _ <-; injection H as _ <-; reflexivity.
  - destruct x as [[l u]|]; [eapply IH; eauto|]. injection H as _ <-. reflexivity.
Qed.
Lemma line_search_cone iters nf p st dinf AQc cs b AW st' v i co : nth_error (p_eqs p) i = Some co -> unsearched (ct_data co) ->
  ComputeMuFromLineSearch (conex iters nf) p st dinf AQc cs b AW = Ok (st', v) -> v = -1.
Proof.
  intros Hi Hd H. unfold ComputeMuFromLineSearch in H.
  apply bind_ok in H as (y0 & E0 & H). apply bind_ok in H as (r0 & F0 & H). apply bind_ok in H as (r1 & F1 & H).
  apply bind_ok in H as (y1 & E1 & H). apply bind_ok in H as ([st1 r] & Es & H).
  apply (search_cone _ _ _ _ _ _ _ _ Hi Hd) in Es; [subst r; injection H as _ <-; reflexivity|].
  apply in_seq. unfold NumberOfConstraints. apply nth_error_lt in Hi. lia.
Qed.

(** ** The centering parameter without line search *)

Section NoSearch.
  Variable B : backend.
  Variable p : program.
  Variable c : config.
  Variable max_iter rankK : nat.
  Variable initial_steps : Z.
  Variable b : list R.
  Hypothesis Hls : enable_line_search c <> 0%Z.
  Hypothesis Hfail : forall st dinf AQc cs v AW st' t, ComputeMuFromLineSearch B p st dinf AQc cs v AW = Ok (st', t) -> t < 0.

  Definition stuck (s : lstate (bk_state B)) : Prop :=
    (l_ism s = 0 \/ l_ism s = floor_of c /\ 0 < floor_of c) /\ forall e, In e (l_log s) -> en_ism e = floor_of c /\ 0 < floor_of c.

  Lemma limits_stuck x m : x = 0 \/ x = floor_of c -> 0 < floor_of c -> ApplyLimits x (floor_of c) m = floor_of c.
  Proof.
    intros Hx Hf. unfold ApplyLimits. destruct (Rltb_spec m x); [destruct (Rltb_spec m (floor_of c))|destruct (Rltb_spec x (floor_of c))]; destruct Hx; lra.
  Qed.

  Lemma completed_stuck i s s' e : stuck s -> completed B p c max_iter b rankK i s s' e -> stuck s'.
  Proof.
    intros [H1 H2] H. destruct H as [st0 a0 ismax st1 st2 ism0 initial steps mn bs cs r1 r2 y st3 n nsq st4 Ea Er Ef Eb Ec Eu El ism sys E1 E2 Ey Ep abort Et Hl by_ cx sx kkt e0].
    assert (mn = floor_of c) as ->. { unfold lower_limit in El. destruct (Rltb 0 _); [|discriminate]. injection El as <-. reflexivity. }
    pose proof (lower_limit_pos _ _ El) as Hf.
    assert (ism0 = 0 \/ ism0 = floor_of c) as Hi.
    { destruct Eu as [[Eu _]|(_ & -> & _)]; [|destruct H1 as [->|[-> _]]; auto].
      unfold update_mu in Eu. destruct (Z.eqb_spec (enable_line_search c) 0); [contradiction|]. cbn [negb] in Eu.
      apply bind_ok in Eu as ([st5 t1] & E5 & Eu). apply bind_ok in E5 as ([st6 t] & E6 & E5). apply Hfail in E6.
      destruct (Rltb_spec t 0); [|lra]. injection E5 as <- <-.
      destruct (Rltb_spec (l_ism s) 0); [destruct H1; lra|].
      destruct (Rltb_spec 0 (l_ism s)); injection Eu as _ <-; destruct H1 as [E|[E F]]; rewrite E in *; auto; try lra; left; lra. }
    assert (ism = floor_of c) as HI by (apply limits_stuck; auto).
    split; cbn; [right; auto|]. intros e' [<-|He]; [split; [exact HI|auto]|auto].
  Qed.

  Lemma record_stuck s s' : stuck s -> same_record B s s' -> stuck s'.
  Proof. intros [H1 H2] (_ & _ & E3 & _ & _ & _ & _ & E8 & _). unfold stuck. rewrite E3, E8. auto. Qed.

  Lemma loop_stuck todo s v : stuck s -> loop B p c max_iter initial_steps b rankK todo 0 s = Ok v ->
    match v with VBreak s' _ | VReturn s' _ => stuck s' | _ => True end.
  Proof.
    intros H0 H. apply (loop_inv B p c max_iter initial_steps b rankK (fun _ => stuck)) in H; auto.
    - destruct H as (j & s'' & _ & Hs & [[_ ->]|(_ & O & _)]); auto. inversion O; subst; eauto using completed_stuck, record_stuck.
    - intros i s1 s2 Hs O. inversion O; subst; eauto using completed_stuck, record_stuck.
  Qed.
End NoSearch.

Lemma cone_stuck nf p n c r i co : starts p c -> enable_line_search c <> 0%Z ->
  nth_error (p_eqs p) i = Some co -> unsearched (ct_data co) -> ConexSolve nf p n c = Ok (Returned _ r) ->
  forall e, In e (rt_log _ r) -> en_ism e = floor_of c /\ 0 < floor_of c.
Proof.
  intros Hst Hls Hi Hd H. unfold ConexSolve in H. set (B := conex (mode_of nf c) nf) in *.
  assert (quadratic_precondition p c = true /\ (0 < NumberOfConstraints p)%nat) as [H1 H2] by (apply Prop_Solve.starts_iff; auto).
  destruct (Solve_run B p n c _ H1 H2 H) as (p2 & ss & v & Ei & Es & El & Hv).
  destruct (Initialize_fields _ _ _ _ Ei) as (_ & _ & _ & F1 & _).
  eapply loop_stuck in El; [|exact Hls| |].
  - destruct v as [s|s k|s k|k]; try tauto.
    + destruct Hv as (r' & Er & [= ->]). apply finish_spec in Er as (k' & _ & _ & -> & _). apply El.
    + injection Hv as ->. apply El.
    + discriminate.
  - intros st dinf AQc cs w AW st' t E. eapply (line_search_cone _ _ p2) in E; [lra| |exact Hd]. rewrite F1. exact Hi.
  - split; [left; reflexivity|intros e []].
Qed.
