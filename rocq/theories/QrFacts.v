(** Facts about the QR mode of the solver, and elimination without pivoting, which
    solves every positive definite system. *)
From Coq Require Import List Arith ZArith Reals Bool Lia Lra.
From Verif Require Import Base BaseFacts LayoutModel SupernodeModel TriWorkspaceModel AssemblerModel DenseModel BlockModel KktModel
  ProgramModel ApiModel DivergenceModel SolveModel LinearModel ConcreteBackend Spec_Linear Spec_Assembly Spec_Program Spec_Solve Spec_Conex
  SymbolicFacts RSum PosDef KktProofs LinearFacts SolveProofs SolveFacts ConexFacts ConexStep ConexKkt ConexBlocks ConexNewton ConexResult ConexOutcome Prop_Assembly Prop_Linear.
Import ListNotations.
Open Scope R_scope.

(** ** Elimination *)
Fixpoint eliminate (n : nat) (K : mat) (b : vec) : vec :=
  match n with
  | O => fun _ => 0
  | S m =>
      let c := K 0%nat 0%nat in
      let z := eliminate m (fun i j => K (S i) (S j) - K (S i) 0%nat * K 0%nat (S j) / c) (fun i => b (S i) - K (S i) 0%nat * b 0%nat / c) in
      fun i => match i with O => (b 0%nat - rsum m (fun j => K 0%nat (S j) * z j)) / c | S i' => z i' end
  end.

Definition pd_form (n : nat) (K : mat) : Prop :=
  forall x, (exists u, (u < n)%nat /\ x u <> 0) -> 0 < rsum n (fun u => x u * rsum n (fun v => K u v * x v)).

Lemma pd_form_iff n K : positive_definite n K <-> pd_form n K.
Proof.
  unfold positive_definite, pd_form. assert (forall x, total (fun u => x u * row_times n K x u) (seq 0 n) = rsum n (fun u => x u * rsum n (fun v => K u v * x v))) as E.
  { intros x. rewrite total_rsum. apply rsum_ext. intros u _. unfold row_times. rewrite total_rsum. auto. }
  split; intros H x Hx; specialize (H x Hx); [rewrite <- E|rewrite E]; auto.
Qed.

Lemma eliminate_solves : forall n K b, pd_form n K -> forall u, (u < n)%nat -> rsum n (fun v => K u v * eliminate n K b v) = b u.
Proof.
  induction n as [|n IH]; intros K b HP u Hu; [lia|].
  set (c := K 0%nat 0%nat).
  assert (0 < c) as Hc.
  { specialize (HP (fun i => if (i =? 0)%nat then 1 else 0) ltac:(exists 0%nat; split; [lia|cbn; lra])).
    rewrite rsum_first in HP. rewrite rsum_first in HP. cbn [Nat.eqb] in HP.
    rewrite (rsum_zero n) in HP by (intros; ring). rewrite (rsum_zero n) in HP by (intros; ring). fold c in HP. lra. }
  set (K' := fun i j => K (S i) (S j) - K (S i) 0%nat * K 0%nat (S j) / c).
  assert (pd_form n K') as HP'.
  { intros z (i & Hi & Hz). set (s := rsum n (fun j => K 0%nat (S j) * z j)).
    specialize (HP (fun i => match i with O => - s / c | S j => z j end) ltac:(exists (S i); split; [lia|auto])).
    rewrite rsum_first in HP. rewrite rsum_first in HP. fold c s in HP.
    replace (c * (- s / c) + s) with 0 in HP by (field; lra). rewrite Rmult_0_r, Rplus_0_l in HP.
    erewrite rsum_ext; [exact HP|]. intros j _. cbv beta. f_equal. rewrite rsum_first. unfold K'.
    rewrite (rsum_ext n _ (fun v => K (S j) (S v) * z v + - (K (S j) 0%nat / c) * (K 0%nat (S v) * z v))) by (intros; field; lra).
    rewrite rsum_plus, rsum_scal. fold s. field. lra. }
  set (b' := fun i => b (S i) - K (S i) 0%nat * b 0%nat / c). specialize (IH K' b' HP').
  set (z := eliminate n K' b') in *. set (s := rsum n (fun j => K 0%nat (S j) * z j)).
  rewrite rsum_first. cbn [eliminate]. fold c K' b' z s.
  destruct u as [|u].
  - fold c. change (rsum n (fun v => K 0%nat (S v) * z v)) with s. field. lra.
  - specialize (IH u ltac:(lia)). unfold K' in IH.
    rewrite (rsum_ext n _ (fun v => K (S u) (S v) * z v + - (K (S u) 0%nat / c) * (K 0%nat (S v) * z v))) in IH by (intros; field; lra).
    rewrite rsum_plus, rsum_scal in IH. fold s in IH. unfold b' in IH.
    replace (rsum n (fun v => K (S u) (S v) * z v)) with (b (S u) - K (S u) 0%nat * b 0%nat / c + K (S u) 0%nat / c * s) by lra. field. lra.
Qed.

(** The normal equations of a nonsingular symmetric system, solved by elimination. *)
Definition normal_solve (n : nat) (K : mat) (b : vec) : vec :=
  eliminate n (fun i j => rsum n (fun k => K k i * K k j)) (fun i => rsum n (fun k => K k i * b k)).

Lemma rsum_squares n f : 0 <= rsum n (fun k => f k * f k) /\ (rsum n (fun k => f k * f k) = 0 -> forall k, (k < n)%nat -> f k = 0).
Proof.
  induction n as [|n [I1 I2]]; cbn [rsum]; [split; [lra|intros; lia]|]. pose proof (Rle_0_sqr (f n)) as S. unfold Rsqr in S. split; [lra|].
  intros E k Hk. destruct (Nat.eq_dec k n) as [->|]; [|apply I2; lra || lia]. apply Rsqr_0_uniq. unfold Rsqr. lra.
Qed.

Lemma normal_exact : qr_solves normal_solve.
Proof.
  intros n K b HS HN.
  assert (forall x, (forall u, (u < n)%nat -> rsum n (fun v => K u v * x v) = 0) -> forall u, (u < n)%nat -> x u = 0) as HN'.
  { intros x Hx. apply HN. intros u Hu. unfold row_times. rewrite total_rsum. auto. }
  assert (forall x y, rsum n (fun u => x u * rsum n (fun v => rsum n (fun k => K k u * K k v) * y v)) =
    rsum n (fun k => rsum n (fun u => K k u * x u) * rsum n (fun v => K k v * y v))) as HQ.
  { intros x y.
    rewrite (rsum_ext n _ (fun u => rsum n (fun k => (K k u * x u) * rsum n (fun v => K k v * y v)))).
    2: { intros u _. rewrite (rsum_ext n _ (fun v => rsum n (fun k => K k u * K k v * y v))) by (intros; rewrite rsum_scal_r; auto).
      rewrite rsum_swap. rewrite <- rsum_scal. apply rsum_ext. intros k _. rewrite <- !rsum_scal. apply rsum_ext. intros. ring. }
    rewrite rsum_swap. apply rsum_ext. intros k _. rewrite rsum_scal_r. auto. }
  assert (pd_form n (fun i j => rsum n (fun k => K k i * K k j))) as HP.
  { intros x (u & Hu & Hx). rewrite HQ. destruct (rsum_squares n (fun k => rsum n (fun u => K k u * x u))) as [[H|H] H0]; auto.
    exfalso. apply Hx. apply HN'; auto. }
  pose proof (eliminate_solves n _ (fun i => rsum n (fun k => K k i * b k)) HP) as HE. fold (normal_solve n K b) in HE.
  set (x := normal_solve n K b) in *. set (r := fun k => rsum n (fun v => K k v * x v) - b k).
  assert (forall u, (u < n)%nat -> r u = 0) as Hr.
  { apply HN'. intros u Hu. unfold r. rewrite (rsum_ext n _ (fun k => K k u * rsum n (fun v => K k v * x v) + -1 * (K k u * b k))) by (intros k Hk; rewrite (HS u k) by auto; ring).
    rewrite rsum_plus, rsum_scal, <- (HE u Hu).
    rewrite (rsum_ext n (fun v => rsum n (fun k => K k u * K k v) * x v) (fun v => rsum n (fun k => K k u * K k v * x v))) by (intros; rewrite rsum_scal_r; auto).
    rewrite (rsum_swap n n (fun v k => K k u * K k v * x v)).
    rewrite (rsum_ext n (fun j => rsum n (fun i => K j u * K j i * x i)) (fun k => K k u * rsum n (fun v => K k v * x v))).
    2: { intros k _. rewrite <- rsum_scal. apply rsum_ext. intros. ring. } lra. }
  intros u Hu. unfold row_times. rewrite total_rsum. specialize (Hr u Hu). unfold r in Hr. lra.
Qed.

(** ** Factoring and solving *)
Lemma qr_factor_total qr p st : well_built p -> p_solver p = Some (p_cliques p, p_duals p) ->
  exists st1, con_factor (Qr qr) p st = Ok (st1, true).
Proof.
  intros W RS. unfold con_factor, with_solver. rewrite RS.
  destruct (kkt_dimension _ _ (wb_admissible _ W)) as (d & o & bs & Eb & _). rewrite Eb. cbn [bind].
  pose proof (wb_covered _ W) as HCV. rewrite <- (covered_N _ _ _ _ _ _ (wb_admissible _ W) Eb HCV) in HCV.
  destruct (dense_kkt_ok _ _ _ _ _ (wb_admissible _ W) Eb HCV (ct_mem st)) as (K & -> & _). cbn [bind]. eauto.
Qed.

Lemma qr_factor_solve qr p st0 st1 ok d o bs : well_built p -> p_solver p = Some (p_cliques p, p_duals p) ->
  build (p_cliques p) (p_duals p) = Ok (d, o, bs) -> con_factor (Qr qr) p st0 = Ok (st1, ok) ->
  let n := SizeOfKKTSystem p in
  ok = true /\ exists K, (forall u v, (u < n)%nat -> (v < n)%nat -> KKTMatrixR o d (ct_mem st0) u v = Ok (K u v)) /\
    forall r, (length r <> n -> con_solve (Qr qr) p st1 r = Throw) /\ (length r = n -> con_solve_once p st1 r = con_solve (Qr qr) p st1 r) /\
      (length r = n -> forall x, x = qr n K (fun i => nth i r 0) ->
         (solves n K x (fun i => nth i r 0) -> con_solve (Qr qr) p st1 r = Ok (map x (seq 0 n))) /\
         (~ solves n K x (fun i => nth i r 0) -> con_solve (Qr qr) p st1 r = UB)).
Proof.
  intros W RS Eb Hf n. pose proof (wb_admissible _ W) as AD. pose proof (wb_covered _ W) as HC. fold n in HC.
  pose proof (covered_N _ _ _ _ _ _ AD Eb HC) as EN.
  unfold con_factor, with_solver in Hf. rewrite RS, Eb in Hf. cbn [bind] in Hf. apply bind_ok in Hf as (K & EK & Hf). injection Hf as <- <-.
  split; auto. exists K. split; [intros u v Hu Hv; apply dense_kkt_entry; auto; lia|].
  intros r. unfold con_solve, con_solve_once, with_solver. rewrite RS, Eb. cbn [bind ct_fact]. rewrite EN.
  split; [|split].
  - intros H. apply Nat.eqb_neq in H. rewrite H. auto.
  - intros H. apply Nat.eqb_eq in H. rewrite H. auto.
  - intros H x ->. rewrite H, Nat.eqb_refl. unfold exact_solve. rewrite H.
    match goal with |- context [forallb ?f ?l] => destruct (forallb f l) eqn:E end.
    + split; auto. intros HN. destruct HN. intros u Hu. rewrite forallb_forall in E. specialize (E u ltac:(apply in_seq; lia)).
      destruct (Req_EM_T _ _) as [E1|]; [|discriminate]. unfold row_times. rewrite total_rsum. exact E1.
    + split; auto. intros HS. exfalso. apply Bool.not_true_iff_false in E. apply E. apply forallb_forall. intros u Hu. apply in_seq in Hu.
      destruct (Req_EM_T _ _) as [|E1]; auto. destruct E1. specialize (HS u ltac:(lia)). unfold row_times in HS. rewrite total_rsum in HS. exact HS.
Qed.

(** ** Vectors handed back *)
Lemma qr_pivots nf p n c r y e : handed_back nf p n c r y e -> kkt_solver c = 2%Z -> prepare_dual_variables c = 0%Z -> exact_pivots p (nm_bk (rt_num _ r)).
Proof.
  intros H Hk Hd.
  destruct (handed nf p n c r y e H) as (p2 & M & k & st & bs & cs & q & E & y0 & st2 & st3 & st4 & norm & nsq & D & cx & by_ & F & Hs & Hn).
  rewrite (Hn Hd). pose proof (fn_newton _ _ _ _ _ _ _ _ _ _ _ _ _ _ _ _ _ _ _ _ _ _ F) as N.
  destruct (fn_take _ _ _ _ _ _ _ _ _ _ _ _ _ _ _ _ _ _ _ _ _ _ F) as (nf0 & ab & stp & Et).
  assert (keeps_eq st3 st4) as [KF _].
  { destruct ab; [injection Et as <-; apply identity_keeps_eq|]. eapply take_keeps_eq; eauto. }
  destruct (nw_factor _ _ _ _ _ _ _ _ _ _ _ _ _ _ _ N) as (st0 & st1 & _ & Ef & EF).
  unfold mode_of in Ef. rewrite Hk in Ef. cbn [Z.eqb] in Ef. change (2 =? 2)%Z with true in Ef. cbn iota in Ef.
  right. intros d o b0 _. rewrite KF, EF. unfold con_factor, with_solver in Ef. destruct (p_solver p2) as [[cl du]|]; [|discriminate].
  apply bind_ok in Ef as ([[d' o'] bs'] & _ & Ef). apply bind_ok in Ef as (K & _ & Ef). injection Ef as <-. exact I.
Qed.
