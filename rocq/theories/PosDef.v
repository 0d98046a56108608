(** Block Cholesky succeeds exactly on positive definite matrices. *)
From Coq Require Import List Arith Reals Lra Lia Bool.
From Verif Require Import Base BaseFacts TriWorkspaceModel AssemblerModel DenseModel BlockModel
  Spec_Block TriWorkspaceProofs AssemblerProofs RSum DenseProofs BlockProofs BlockFactor.
Import ListNotations.
Open Scope R_scope.

Definition quad (n : nat) (A : mat) (u : vec) : R :=
  rsum n (fun r => rsum n (fun s => A r s * u r * u s)).

Lemma quad_ext n A B u : (forall r s, (r < n)%nat -> (s < n)%nat -> A r s = B r s) -> quad n A u = quad n B u.
Proof. intros H. apply rsum_ext. intros r Hr. apply rsum_ext. intros s Hs. rewrite H; auto. Qed.

(** [u^T G G^T u] is a sum of squares. *)
Lemma quad_gram n q G u :
  quad n (fun r s => rsum q (fun t => G r t * G s t)) u = rsum q (fun t => Rsqr (rsum n (fun r => G r t * u r))).
Proof.
  unfold quad.
  rewrite (rsum_ext n _ (fun r => rsum q (fun t => G r t * u r * rsum n (fun s => G s t * u s)))).
  - rewrite rsum_swap. apply rsum_ext. intros t Ht. unfold Rsqr. rewrite rsum_scal_r. auto.
  - intros r Hr.
    rewrite (rsum_ext n _ (fun s => rsum q (fun t => G r t * u r * (G s t * u s)))).
    + rewrite rsum_swap. apply rsum_ext. intros t Ht. rewrite rsum_scal. auto.
    + intros s Hs. rewrite Rmult_assoc, Rmult_comm, <- rsum_scal. apply rsum_ext. intros. ring.
Qed.

Lemma quad_trunc c n A u : (c <= n)%nat -> (forall r, (c <= r < n)%nat -> u r = 0) -> quad n A u = quad c A u.
Proof.
  intros Hc Hu. unfold quad. rewrite (rsum_trunc c n); auto.
  - apply rsum_ext. intros r Hr. apply rsum_trunc; auto. intros s Hs. rewrite (Hu s) by auto. ring.
  - intros r Hr. apply rsum_zero. intros s Hs. rewrite (Hu r) by auto. ring.
Qed.

(** A pivot [x] at column [c] is the value of the quadratic form at some nonzero
    vector. *)
Lemma pivot_direction n c A G x : (c < n)%nat ->
  (forall r s, (s <= r <= c)%nat -> A r s = rsum c (fun t => G r t * G s t) + (if ((r =? c) && (s =? c))%nat%bool then x else 0)) ->
  (forall r s, A r s = A s r) ->
  (forall r t, (r < t < c)%nat -> G r t = 0) -> (forall t, (t < c)%nat -> G t t <> 0) ->
  exists u, u c = 1 /\ quad n A u = x.
Proof.
  intros Hc HA HS HL HD.
  pose proof (bwd_solve_ok c G (fun t => - G c t) HD) as H. cbv zeta in H. destruct H as [H1 _].
  set (z := bwd_solve c G (fun t => - G c t)) in *.
  exists (fun r => if (r <? c)%nat then z r else if (r =? c)%nat then 1 else 0).
  set (u := fun r => _). assert (u c = 1) as Huc by (unfold u; rewrite Nat.ltb_irrefl, Nat.eqb_refl; auto).
  split; auto.
  rewrite (quad_trunc (S c) n) by (auto; intros r Hr; unfold u; destruct (Nat.ltb_spec r c), (Nat.eqb_spec r c); try lia; auto).
  transitivity (quad (S c) (fun r s => rsum c (fun t => G r t * G s t)) u + x * u c).
  - unfold quad.
    transitivity (rsum (S c) (fun r => rsum (S c) (fun s => rsum c (fun t => G r t * G s t) * u r * u s) + (if (r =? c)%nat then x * u c else 0))).
    + apply rsum_ext. intros r Hr.
      transitivity (rsum (S c) (fun s => rsum c (fun t => G r t * G s t) * u r * u s + (if ((r =? c) && (s =? c))%nat%bool then x * u c else 0))).
      * apply rsum_ext. intros s Hs.
        assert (A r s = rsum c (fun t => G r t * G s t) + (if ((r =? c) && (s =? c))%nat%bool then x else 0)) as ->.
        { destruct (Nat.le_ge_cases s r); [apply HA; lia|]. rewrite HS, HA by lia.
          rewrite (andb_comm (s =? c)%nat). f_equal. apply rsum_ext. intros. ring. }
        destruct (Nat.eqb_spec r c) as [->|], (Nat.eqb_spec s c) as [->|]; cbn [andb]; try ring.
        rewrite Huc. ring.
      * rewrite rsum_plus. f_equal. destruct (Nat.eqb_spec r c) as [->|]; cbn [andb].
        -- rewrite (rsum_single (S c) c); [rewrite Nat.eqb_refl; auto|lia|].
           intros i Hi Hn. destruct (Nat.eqb_spec i c); [lia|auto].
        -- apply rsum_zero. auto.
    + rewrite rsum_plus. f_equal. rewrite (rsum_single (S c) c); [rewrite Nat.eqb_refl; auto|lia|].
      intros i Hi Hn. destruct (Nat.eqb_spec i c); [lia|auto].
  - rewrite quad_gram. rewrite (rsum_zero c); [rewrite Huc; ring|]. intros t Ht.
    assert (rsum (S c) (fun r => G r t * u r) = 0) as ->; [|unfold Rsqr; lra].
    rewrite rsum_S, Huc.
    rewrite (rsum_split_at t c) by lia. rewrite (rsum_zero t) by (intros r Hr; rewrite HL by lia; ring).
    specialize (H1 t Ht). unfold vec in *.
    rewrite (rsum_ext (c - t) _ (fun i => G (t + i)%nat t * z (t + i)%nat)).
    + rewrite H1. lra.
    + intros i Hi. unfold u. destruct (Nat.ltb_spec (t + i) c); [auto|lia].
Qed.

Lemma for_opt_none {St} (f : St -> nat -> option St) n s : for_opt f (seq 0 n) s = None ->
  exists k s', (k < n)%nat /\ for_opt f (seq 0 k) s = Some s' /\ f s' k = None.
Proof.
  induction n as [|n IH]; [discriminate|]. rewrite seq_S. intros H.
  destruct (for_opt f (seq 0 n) s) as [s'|] eqn:E.
  - exists n, s'. split; [lia|]. split; auto.
    assert (forall l s0, for_opt f (l ++ [n]) s0 = match for_opt f l s0 with Some s1 => f s1 n | None => None end) as K.
    { induction l as [|a l IHl]; intros s0; cbn; [destruct (f s0 n); auto|]. destruct (f s0 a); auto. }
    cbn [Nat.add] in H. rewrite K, E in H. auto.
  - destruct IH as (k & s' & H1 & H2); auto. exists k, s'. split; [lia|auto].
Qed.

Section PD.
  Variables (rows : list (list nat)) (size : list nat).
  Hypothesis FC : fill_closed rows size.
  Variable w : TriWS.
  Hypothesis HW : ws_ok rows size w.
  Variable ss : list (list addr).
  Hypothesis HSS : seperator_diagonal w = Ok ss.
  Notation n := (length rows).
  Notation N := (dim size).
  Notation off := (offset size).
  Notation sz k := (nth k size 0%nat).
  Notation view := (view rows size).
  Notation owner := (owner rows size).

  Lemma GL_upper m r t : (t < N)%nat -> (r < t)%nat -> GL rows size m r t = 0.
  Proof.
    intros Ht Hr. destruct (owner_decomp _ _ FC t Ht) as (Hk & i & Hi & Et).
    destruct (owner_decomp _ _ FC r ltac:(lia)) as (Hk' & i' & Hi' & Er).
    destruct (Nat.eq_dec (owner r) (owner t)) as [E|E].
    - rewrite E in *. generalize dependent (owner t). intros k Hk Hi Et E Er Hk' Hi'. subst t r. unfold GL. rewrite Gof_diag by (auto; lia). unfold chol_gd.
      destruct (Nat.leb_spec i i'); auto. lia.
    - apply (Gof_upper _ _ FC); auto. pose proof (owner_le _ _ FC (owner r) t ltac:(lia) Ht) as K. assert (owner r <= owner t)%nat by (apply K; lia). lia.
  Qed.

  Lemma chol_fail_step A m k : (k < n)%nat -> chol_inv rows size A k m -> chol_block w ss m k = Ok None ->
    exists u c, (c < N)%nat /\ u c = 1 /\ quad N (sym (view A)) u <= 0.
  Proof.
    intros Hk ((IE1 & IE2) & IP) E. unfold chol_block in E. rewrite (sizeof_eq _ _ w HW) in E.
    destruct (Nat.ltb_spec 0 (sz k * sz k)) as [Hs|Hs].
    2:{ destruct (0 <? _)%nat; [|discriminate]. apply bind_ok in E as (s_s & _ & E). apply bind_ok in E as (m3 & _ & E). discriminate. }
    destruct (llt (sz k) (diag_of m k)) as [L|] eqn:EL.
    { destruct (0 <? sz k * length (sepsof w k))%nat; [|discriminate].
      apply bind_ok in E as (s_s & _ & E). apply bind_ok in E as (m3 & _ & E). discriminate. }
    clear E. unfold llt in EL. apply for_opt_none in EL as (j & L & Hj & EL & EF).
    destruct (llt_prefix _ _ _ _ (Nat.lt_le_incl _ _ Hj) EL) as (A1 & A2 & A3).
    unfold llt_step in EF. destruct (Rle_dec _ 0) as [Hx|]; [|discriminate].
    set (x := L j j - rsum j (fun t => L j t * L j t)) in *.
    pose proof (off_mono size (S k) n) as Hdim. rewrite off_S in Hdim. specialize (Hdim ltac:(lia)).
    assert (off n = N) as EN by (unfold dim; rewrite (fc_len _ _ FC); auto).
    set (G := fun r t => if (t <? off k)%nat then GL rows size m r t
                         else if ((off k <=? r) && (t <=? r))%nat%bool then L (r - off k)%nat (t - off k)%nat else 0).
    destruct (pivot_direction N (off k + j) (sym (view A)) G x) as (u & Hu & HQ).
    - lia.
    - intros r s Hr. rewrite sym_lower by lia.
      destruct (Nat.lt_ge_cases s (off k)) as [Hs'|Hs'].
      + specialize (IE1 r s ltac:(lia) Hs'). unfold delta in IE1.
        replace (if (r =? s)%nat then 0 else 0) with 0 in IE1 by (destruct (r =? s)%nat; auto).
        rewrite Rplus_0_r in IE1. rewrite IE1.
        replace ((r =? off k + j) && (s =? off k + j))%nat%bool with false
          by (symmetry; apply andb_false_iff; right; apply Nat.eqb_neq; lia).
        rewrite Rplus_0_r. rewrite (rsum_trunc (off k) (off k + j)); [|lia|].
        * unfold gdg. apply rsum_ext. intros t Ht. unfold G, ones. cbn [Nat.add].
          destruct (Nat.ltb_spec t (off k)); [ring|lia].
        * intros t Ht. unfold G. destruct (Nat.ltb_spec t (off k)); [lia|].
          destruct (Nat.leb_spec (off k) s); [lia|]. cbn [andb]. ring.
      + specialize (IE2 r s ltac:(lia) ltac:(lia)). unfold delta in IE2.
        replace (if (r =? s)%nat then 0 else 0) with 0 in IE2 by (destruct (r =? s)%nat; auto).
        rewrite Rplus_0_r in IE2. rewrite IE2. rewrite (rsum_split (off k) j). rewrite Rplus_assoc. f_equal.
        * unfold gdg. apply rsum_ext. intros t Ht. unfold G, ones. cbn [Nat.add].
          destruct (Nat.ltb_spec t (off k)); [ring|lia].
        * replace r with (off k + (r - off k))%nat by lia. replace s with (off k + (s - off k))%nat by lia.
          set (i := (r - off k)%nat) in *. set (i' := (s - off k)%nat) in *.
          assert (i' <= i <= j)%nat as Hi by lia. clearbody i i'. clear IE2 Hr Hs' r s.
          unfold BlockProofs.view. rewrite Gof_diag by (auto; lia).
          assert (forall a t, (t < j)%nat -> G (off k + a)%nat (off k + t)%nat = if (t <=? a)%nat then L a t else 0) as HG.
          { intros a t Ht. unfold G. destruct (Nat.ltb_spec (off k + t) (off k)); [lia|].
            destruct (Nat.leb_spec (off k) (off k + a)); [|lia]. cbn [andb].
            destruct (Nat.leb_spec (off k + t) (off k + a)), (Nat.leb_spec t a); try lia; auto. f_equal; lia. }
          destruct (Nat.eq_dec i' j) as [Ei|Ei].
          -- assert (i = j) as -> by lia. subst i'. rewrite Nat.eqb_refl. cbn [andb].
             assert (diag_of m k j j = L j j) as ->. { symmetry. apply A3. left; lia. }
             rewrite (rsum_ext j _ (fun t => L j t * L j t)).
             ++ unfold x. lra.
             ++ intros t Ht. rewrite HG by auto. destruct (Nat.leb_spec t j); [auto|lia].
          -- replace ((off k + i =? off k + j) && (off k + i' =? off k + j))%nat%bool with false
               by (symmetry; apply andb_false_iff; right; apply Nat.eqb_neq; lia).
             rewrite Rplus_0_r, (A1 i i') by lia. rewrite (rsum_trunc (S i') j); [|lia|].
             ++ apply rsum_ext. intros t Ht. rewrite !HG by lia.
                destruct (Nat.leb_spec t i), (Nat.leb_spec t i'); try lia. auto.
             ++ intros t Ht. rewrite !HG by lia. destruct (Nat.leb_spec t i'); [lia|]. ring.
    - intros. apply sym_comm.
    - intros r t Ht. unfold G. destruct (Nat.ltb_spec t (off k)).
      + apply GL_upper; lia.
      + destruct (Nat.leb_spec t r); [lia|]. rewrite andb_false_r. auto.
    - intros t Ht. unfold G. destruct (Nat.ltb_spec t (off k)) as [H|H].
      + destruct (owner_decomp _ _ FC t ltac:(lia)) as (Hk' & i & Hi & Et).
        assert (owner t < k)%nat as Hok.
        { destruct (Nat.lt_ge_cases (owner t) k); auto. pose proof (off_mono size k (owner t)). lia. }
        rewrite Et. unfold GL. rewrite Gof_diag by auto. unfold chol_gd. rewrite Nat.leb_refl.
        apply Rgt_not_eq. apply IP; auto.
      + destruct (Nat.leb_spec (off k) t), (Nat.leb_spec t t); try lia. cbn [andb].
        apply Rgt_not_eq. apply A2. lia.
    - exists u, (off k + j)%nat. split; [lia|]. split; auto. rewrite HQ. auto.
  Qed.

  Lemma chol_inv_0 A : chol_inv rows size A 0 A.
  Proof.
    split; [|intros; lia]. split.
    - intros r c _ H. cbn in H. lia.
    - intros r c Hc Hr. unfold gdg. cbn [offset rsum]. unfold delta. destruct (r =? c)%nat; lra.
  Qed.

  Lemma chol_loop_fail A : forall len k m, (k + len = n)%nat -> chol_inv rows size A k m ->
    chol_loop w ss (seq k len) m = Ok None ->
    exists u c, (c < N)%nat /\ u c = 1 /\ quad N (sym (view A)) u <= 0.
  Proof.
    induction len as [|len IH]; intros k m Hk HI E; cbn in E; [discriminate|].
    apply bind_ok in E as (r & EB & E). destruct r as [m1|].
    - apply (IH (S k) m1); auto; [lia|]. eapply chol_block_step; eauto. lia.
    - eapply chol_fail_step; eauto. lia.
  Qed.

  (** Failure exhibits a direction of non-positive curvature. *)
  Lemma chol_fail A : BlockCholeskyInPlace w ss A = Ok None ->
    exists u c, (c < N)%nat /\ u c = 1 /\ quad N (sym (view A)) u <= 0.
  Proof.
    unfold BlockCholeskyInPlace. rewrite (len_snodes _ _ _ HW). intros E.
    apply (chol_loop_fail A n 0 A); auto. apply chol_inv_0.
  Qed.

  (** Success certifies a non-negative form. *)
  Lemma chol_success_quad A m u : BlockCholeskyInPlace w ss A = Ok (Some m) ->
    quad N (sym (view A)) u = rsum N (fun t => Rsqr (rsum N (fun r => GL rows size m r t * u r))).
  Proof.
    intros E. destruct (chol_fact _ _ FC w HW ss HSS A m E) as (HF & _). rewrite <- quad_gram.
    apply quad_ext. intros r s Hr Hs. destruct (Nat.le_ge_cases s r).
    - rewrite sym_lower by auto. apply HF. lia.
    - rewrite sym_comm, sym_lower by auto. rewrite HF by lia. apply rsum_ext. intros; ring.
  Qed.
End PD.
