(** Triangular block solves. *)
From Coq Require Import List Arith Reals Lra Lia Bool Permutation.
From Verif Require Import Base BaseFacts TriWorkspaceModel AssemblerModel Spec_Block TriWorkspaceProofs SupernodeProofs AssemblerProofs
  DenseModel BlockModel RSum DenseProofs BlockProofs BlockFactor.
Import ListNotations.
Open Scope R_scope.

Lemma put_seg_in y a s v i : (i < s)%nat -> put_seg y a s v (a + i)%nat = v i.
Proof.
  intros H. unfold put_seg. destruct (Nat.leb_spec a (a + i)); [|lia]. destruct (Nat.ltb_spec (a + i) (a + s)); [|lia].
  cbn. f_equal. lia.
Qed.
Lemma put_seg_out y a s v i : (i < a \/ a + s <= i)%nat -> put_seg y a s v i = y i.
Proof.
  intros H. unfold put_seg. destruct (Nat.leb_spec a i); [|auto]. destruct (Nat.ltb_spec i (a + s)); [lia|]. auto.
Qed.

Lemma fold_sub_spec (f : nat -> R) l : forall (y : vec) r,
  fold_left (fun y (p : nat * nat) => vset y (snd p) (y (snd p) - f (fst p))) l y r =
  y r - lsum (fun p => if (snd p =? r)%nat then f (fst p) else 0) l.
Proof.
  induction l as [|[a b] l IH]; intros y r; cbn [fold_left lsum fst snd]; [lra|].
  rewrite IH. unfold vset. destruct (Nat.eqb_spec r b) as [->|Hn].
  - rewrite Nat.eqb_refl. lra.
  - destruct (Nat.eqb_spec b r); [congruence|]. lra.
Qed.

Lemma lsum_combine_seq (g : nat -> nat -> R) l : forall a,
  lsum (fun p => g (fst p) (snd p)) (combine (seq a (length l)) l) =
  rsum (length l) (fun j => g (a + j)%nat (nth j l 0%nat)).
Proof.
  induction l as [|x l IH]; intros a; cbn [length seq combine lsum]; auto.
  rewrite rsum_first. cbn [nth fst snd]. rewrite IH. rewrite Nat.add_0_r. f_equal.
  apply rsum_ext. intros j _. f_equal. lia.
Qed.

Section Slv.
  Variables (rows : list (list nat)) (size : list nat).
  Hypothesis FC : fill_closed rows size.
  Variable w : TriWS.
  Hypothesis HW : ws_ok rows size w.
  Notation n := (length rows).
  Notation N := (dim size).
  Notation off := (offset size).
  Notation sz k := (nth k size 0%nat).
  Notation sepof := (sepof rows size).
  Notation owner := (owner rows size).
  Notation Gof := (Gof rows size).
  Notation sepn k j := (nth j (sepof k) 0%nat).
  Notation inter := (inter rows size).

  (** ** Forward elimination of one block *)
  Lemma sub_sep_ok y s X yi sep r :
    sub_sep y s X yi sep r =
    y r - rsum (length sep) (fun j => if (nth j sep 0 =? r)%nat then rsum s (fun t => X t j * yi t) else 0).
  Proof.
    unfold sub_sep. refine (eq_trans (fold_sub_spec (fun j => rsum s (fun t => X t j * yi t)) _ _ _) _). f_equal.
    refine (eq_trans (lsum_combine_seq (fun j x => if (x =? r)%nat then rsum s (fun t => X t j * yi t) else 0) sep 0) _).
    reflexivity.
  Qed.

  Lemma sub_sep_G gd m y k r : (k < n)%nat ->
    let y' := sub_sep y (sz k) (off_of m k) (seg y (off k)) (sepof k) in
    ((off (S k) <= r < N)%nat -> y' r = y r - rsum (sz k) (fun t => Gof gd m r (off k + t)%nat * y (off k + t)%nat)) /\
    ((r < off (S k))%nat -> y' r = y r).
  Proof.
    intros Hk y'. unfold y'. rewrite sub_sep_ok. split; intros Hr.
    - f_equal. assert (owner r <> k) as Ho.
      { pose proof (proj1 (owner_le _ _ FC (S k) r ltac:(lia) ltac:(lia)) ltac:(lia)). lia. }
      rewrite (rsum_ext (sz k) _ (fun t => rsum (length (sepof k)) (fun j => (if (sepn k j =? r)%nat then m (AOff k t j) else 0) * y (off k + t)%nat))).
      2:{ intros t Ht. rewrite (Gof_sum _ _ FC) by auto. rewrite rsum_scal_r. auto. }
      rewrite rsum_swap. apply rsum_ext. intros j Hj. destruct (sepn k j =? r)%nat.
      + apply rsum_ext. intros. reflexivity.
      + symmetry. apply rsum_zero. intros. lra.
    - rewrite rsum_zero; [lra|]. intros j Hj. destruct (Nat.eqb_spec (sepn k j) r); auto.
      destruct (sep_in _ _ FC k j Hk Hj). lia.
  Qed.

  Lemma no_sep_G gd m k r t : (k < n)%nat -> (t < sz k)%nat -> length (sepof k) = 0%nat -> (off (S k) <= r < N)%nat ->
    Gof gd m r (off k + t)%nat = 0.
  Proof.
    intros Hk Ht HL Hr. rewrite (Gof_sum _ _ FC); auto.
    - rewrite HL. reflexivity.
    - pose proof (proj1 (owner_le _ _ FC (S k) r ltac:(lia) ltac:(lia)) ltac:(lia)). lia.
  Qed.

  (** The conditional update used by both solvers. *)
  Lemma fwd_sub_step gd m b y k : (k < n)%nat -> 
    fwd_mid size (Gof gd m) b y k ->
    fwd_inv size (Gof gd m) b
      (if (0 <? sizeof w k * length (sepsof w k))%nat
       then sub_sep y (sizeof w k) (off_of m k) (seg y (off k)) (sepsof w k) else y) (S k).
  Proof.
    intros Hk HM. rewrite (sizeof_eq _ _ w HW), (sepsof_eq _ _ w HW) by auto.
    destruct (Nat.ltb_spec 0 (sz k * length (sepof k))) as [H|H].
    - eapply fwd_update_step; eauto; intros r Hr; apply (sub_sep_G gd m y k r Hk); auto.
    - eapply fwd_update_step; eauto; intros r Hr; auto.
      rewrite rsum_zero; [lra|]. intros t Ht. rewrite no_sep_G; auto; [lra|nia].
  Qed.

  (** ** Backward substitution of one block *)
  Lemma sub_cols_ok m j rstart rsize start pairs : forall y,
    (forall pr, In pr pairs -> (start + fst pr < rstart \/ rstart + rsize <= start + fst pr)%nat) ->
    (forall t, (t < rsize)%nat -> sub_cols m j rstart rsize start pairs y (rstart + t)%nat =
       y (rstart + t)%nat - lsum (fun pr => m (AOff j t (snd pr)) * y (start + fst pr)%nat) pairs) /\
    (forall r, (r < rstart \/ rstart + rsize <= r)%nat -> sub_cols m j rstart rsize start pairs y r = y r).
  Proof.
    induction pairs as [|pr pairs IH]; intros y H.
    - cbn. split; intros; [lra|auto].
    - set (y1 := put_seg y rstart rsize (fun t => seg y rstart t - off_of m j t (snd pr) * seg y start (fst pr))).
      destruct (IH y1) as (I1 & I2); [intros; apply H; cbn; auto|].
      change (sub_cols m j rstart rsize start (pr :: pairs) y) with (sub_cols m j rstart rsize start pairs y1).
      split.
      + intros t Ht. rewrite I1 by auto. unfold y1 at 1. rewrite put_seg_in by auto. unfold seg, off_of. cbn [lsum].
        assert (lsum (fun pr0 => m (AOff j t (snd pr0)) * y1 (start + fst pr0)%nat) pairs =
                lsum (fun pr0 => m (AOff j t (snd pr0)) * y (start + fst pr0)%nat) pairs) as ->; [|lra].
        apply lsum_ext. intros p Hp. unfold y1. rewrite put_seg_out; auto. apply H. cbn; auto.
      + intros r Hr. rewrite I2 by auto. unfold y1. apply put_seg_out. auto.
  Qed.

  Lemma inter_sum gd m y j s t : (j < s)%nat -> (s < n)%nat -> (t < sz j)%nat ->
    rsum (sz s) (fun a => Gof gd m (off s + a)%nat (off j + t)%nat * y (off s + a)%nat) =
    lsum (fun pr => m (AOff j t (snd pr)) * y (off s + fst pr)%nat) (inter j s).
  Proof.
    intros Hj Hs Ht. unfold TriWorkspaceProofs.inter. rewrite lsum_map, lsum_filter, <- rsum_lsum.
    rewrite (rsum_ext (sz s) _ (fun a => rsum (length (sepof j)) (fun i => (if (sepn j i =? off s + a)%nat then m (AOff j t i) else 0) * y (off s + a)%nat))).
    2:{ intros a Ha. rewrite (Gof_sum _ _ FC); auto; [|lia|rewrite own; auto; lia]. rewrite rsum_scal_r. auto. }
    rewrite rsum_swap. apply rsum_ext. intros i Hi. cbn [fst snd].
    destruct (sep_in _ _ FC j i ltac:(lia) Hi) as [Hb Ho].
    destruct (owner_decomp _ _ FC (sepn j i) ltac:(lia)) as (_ & p & Hp & Ep).
    destruct (Nat.eqb_spec (owner (sepn j i)) s) as [E|E].
    - rewrite E in Hp, Ep. rewrite (rsum_single (sz s) p); auto.
      + destruct (Nat.eqb_spec (sepn j i) (off s + p)) as [E1|]; [|lia]. f_equal. f_equal. lia.
      + intros a Ha Hn. destruct (Nat.eqb_spec (sepn j i) (off s + a)); [lia|lra].
    - apply rsum_zero. intros a Ha. destruct (Nat.eqb_spec (sepn j i) (off s + a)) as [E1|]; [|lra].
      exfalso. apply E. rewrite E1. apply own; auto.
  Qed.

  Lemma inter_range j s pr : (s < n)%nat -> (j < n)%nat -> In pr (inter j s) -> (off s <= off s + fst pr < off (S s))%nat.
  Proof.
    intros Hs Hj Hin. unfold TriWorkspaceProofs.inter in Hin. apply in_map_iff in Hin as (i & <- & Hi).
    apply filter_In in Hi as [Hi Ho]. apply in_seq in Hi. apply Nat.eqb_eq in Ho. cbn [fst].
    destruct (sep_in _ _ FC j i ltac:(lia) ltac:(lia)) as [Hb _].
    destruct (owner_block _ _ FC (sepn j i) ltac:(lia)) as [_ [H1 H2]]. rewrite Ho in *. lia.
  Qed.

  Lemma iter_down_ok cnt : forall a, (cnt <= a)%nat -> iter_down w cnt (a, off a) = ((a - cnt)%nat, off (a - cnt)%nat).
  Proof.
    induction cnt as [|cnt IH]; intros a Ha; cbn [iter_down fst snd].
    - rewrite Nat.sub_0_r. auto.
    - rewrite (sizeof_eq _ _ w HW).
      replace (off a - sz (a - 1))%nat with (off (a - 1))%nat.
      + rewrite IH by lia. replace (a - 1 - cnt)%nat with (a - S cnt)%nat by lia. auto.
      + destruct a; [lia|]. replace (S a - 1)%nat with a by lia. rewrite off_S. lia.
  Qed.

  Lemma iter_set_ok a j : (j <= a)%nat -> iter_set w j (a, off a) = (j, off j).
  Proof. intros H. unfold iter_set. cbn [fst]. rewrite iter_down_ok by lia. replace (a - (a - j))%nat with j by lia. auto. Qed.

  Lemma iter_reset_ok : (0 < n)%nat -> iter_reset w = ((n - 1)%nat, off (n - 1)).
  Proof.
    intros H. unfold iter_reset. rewrite (wk_size _ _ _ HW), (wk_N _ _ _ HW), (sizeof_eq _ _ w HW), (fc_len _ _ FC).
    f_equal. rewrite <- (off_n _ _ FC). destruct n as [|q] eqn:E; [lia|].
    replace (S q - 1)%nat with q by lia. rewrite off_S. lia.
  Qed.

  Fixpoint descending (l : list nat) : Prop :=
    match l with [] => True | a :: t => (forall b, In b t -> (b < a)%nat) /\ descending t end.

  Lemma sub_column_loop gd m s ips : (s < n)%nat -> forall l p y a,
    descending l -> (forall j, In j l -> (j < s)%nat) -> (forall j, In j l -> (j <= a)%nat) ->
    (forall q, (q < length l)%nat -> nth_error ips (p + q) = Some (inter (nth q l 0%nat) s)) ->
    exists y' it,
      foldM (fun st jc =>
       let '(y, it) := st in
       let it' := iter_set w (fst jc) it in
       pairs <- idx ips (snd jc) ;;
       Ok (sub_cols m (fst jc) (snd it') (sizeof w (fst it')) (off s) pairs y, it'))
       (y, (a, off a)) (combine l (seq p (length l))) = Ok (y', it) /\
      (forall c, (c < off s)%nat -> y' c = y c - (if in_dec Nat.eq_dec (owner c) l
           then rsum (sz s) (fun b => Gof gd m (off s + b)%nat c * y (off s + b)%nat) else 0)) /\
      (forall c, (off s <= c)%nat -> y' c = y c).
  Proof.
    intros Hs. induction l as [|j l IH]; intros p y a HD HL HA HI.
    - cbn. do 2 eexists. split; [reflexivity|]. split; intros; [lra|auto].
    - cbn [length seq combine foldM fst snd]. rewrite iter_set_ok by (apply HA; cbn; auto). cbn [fst snd].
      unfold idx at 1. pose proof (HI 0%nat ltac:(cbn; lia)) as H0. rewrite Nat.add_0_r in H0. rewrite H0. cbn [bind].
      cbn [nth]. rewrite (sizeof_eq _ _ w HW).
      set (y1 := sub_cols m j (off j) (sz j) (off s) (inter j s) y).
      assert (j < s)%nat as Hjs by (apply HL; cbn; auto).
      destruct (sub_cols_ok m j (off j) (sz j) (off s) (inter j s) y) as (C1 & C2).
      { intros pr Hp. right. pose proof (inter_range j s pr Hs ltac:(lia) Hp).
        pose proof (off_mono size (S j) s ltac:(lia)). rewrite off_S in H1. lia. }
      fold y1 in C1, C2.
      assert (forall c, (off s <= c)%nat -> y1 c = y c) as C3.
      { intros c Hc. apply C2. right. pose proof (off_mono size (S j) s ltac:(lia)). rewrite off_S in H. lia. }
      destruct HD as [HD1 HD2].
      destruct (IH (S p) y1 j) as (y' & it & E & R1 & R2); auto.
      + intros; apply HL; cbn; auto.
      + intros b Hb. specialize (HD1 b Hb). lia.
      + intros q Hq. specialize (HI (S q) ltac:(cbn; lia)). cbn [nth] in HI. rewrite <- HI. f_equal. lia.
      + exists y', it. split; [exact E|]. split.
        * intros c Hc. rewrite R1 by auto.
          assert (c < N)%nat as HcN by (pose proof (off_le_dim _ _ FC s ltac:(lia)); lia).
          destruct (owner_decomp _ _ FC c HcN) as (_ & t & Ht & Ec).
          assert (rsum (sz s) (fun b => Gof gd m (off s + b)%nat c * y1 (off s + b)%nat) =
                  rsum (sz s) (fun b => Gof gd m (off s + b)%nat c * y (off s + b)%nat)) as ->.
          { apply rsum_ext. intros b Hb. rewrite C3 by lia. auto. }
          destruct (in_dec Nat.eq_dec (owner c) (j :: l)) as [Hin|Hin].
          -- destruct Hin as [Hj|Hin].
             ++ destruct (in_dec Nat.eq_dec (owner c) l) as [Hin|_]; [rewrite <- Hj in Hin; specialize (HD1 j Hin); lia|].
                rewrite <- Hj in Ht, Ec. rewrite Ec. rewrite C1 by auto. rewrite <- (inter_sum gd) by auto. lra.
             ++ destruct (in_dec Nat.eq_dec (owner c) l) as [_|Hn]; [|tauto].
                rewrite C2; auto. assert (owner c < j)%nat as Hlt by (apply HD1; auto).
                left. pose proof (off_mono size (S (owner c)) j ltac:(lia)) as Hm. rewrite off_S in Hm. lia.
          -- destruct (in_dec Nat.eq_dec (owner c) l) as [Hn|_]; [exfalso; apply Hin; cbn; auto|].
             rewrite C2; auto. 
             destruct (Nat.lt_ge_cases c (off j)); auto. right.
             destruct (Nat.lt_ge_cases c (off j + sz j)) as [Hl|]; auto. exfalso. apply Hin. left. symmetry.
             apply (owner_spec _ _); [lia|]. split; cbn; lia.
        * intros c Hc. rewrite R2 by auto. auto.
  Qed.

  Lemma descending_rev_filter p : forall len a, descending (rev (filter p (seq a len))).
  Proof.
    intros len. induction len as [|len IH]; intros a; [exact I|].
    rewrite seq_S, filter_app, rev_app_distr. cbn [filter]. destruct (p (a + len)%nat); cbn [rev app]; auto.
    split; auto. intros b Hb. apply in_rev, filter_In in Hb as [Hb _]. apply in_seq in Hb. lia.
  Qed.

  Lemma meeting_lt s j : (s < n)%nat -> In j (blocks_meeting rows size s) -> (j < s)%nat.
  Proof.
    intros Hs H. unfold blocks_meeting in H. apply filter_In in H as [Hj Hm]. apply in_seq in Hj.
    unfold meets in Hm. apply negb_true_iff, Nat.eqb_neq in Hm.
    destruct (inter j s) as [|pr l] eqn:E; [cbn in Hm; lia|].
    assert (In pr (inter j s)) as Hin by (rewrite E; cbn; auto).
    unfold TriWorkspaceProofs.inter in Hin. apply in_map_iff in Hin as (i & _ & Hi).
    apply filter_In in Hi as [Hi Ho]. apply in_seq in Hi. apply Nat.eqb_eq in Ho.
    destruct (sep_in _ _ FC j i ltac:(lia) ltac:(lia)) as [_ H]. lia.
  Qed.

  Lemma sub_column_ok gd m i y : (S i < n)%nat ->
    exists y', sub_column w m i (off (S i)) y = Ok y' /\
      (forall c, (c < off (S i))%nat -> y' c = y c -
          rsum (sz (S i)) (fun b => Gof gd m (off (S i) + b)%nat c * y (off (S i) + b)%nat)) /\
      (forall c, (off (S i) <= c)%nat -> y' c = y c).
  Proof.
    intros Hi. unfold sub_column.
    assert (nth_error (ws_colint w) i = Some (rev (blocks_meeting rows size (S i)))) as E1.
    { rewrite <- (wk_ci _ _ _ HW) by lia. apply nth_error_nth'. rewrite (wk_ci_len _ _ _ HW). lia. }
    assert (nth_error (ws_intpos w) i = Some (map (fun k => inter k (S i)) (rev (blocks_meeting rows size (S i))))) as E2.
    { rewrite <- (wk_ip _ _ _ HW) by lia. apply nth_error_nth'. rewrite (wk_ip_len _ _ _ HW). lia. }
    unfold idx at 1. rewrite E1. cbn [bind]. unfold idx at 1. rewrite E2. cbn [bind].
    rewrite iter_reset_ok by lia.
    set (l := rev (blocks_meeting rows size (S i))).
    destruct (sub_column_loop gd m (S i) (map (fun k => inter k (S i)) l) Hi l 0 y (n - 1)) as (y' & it & E & R1 & R2).
    - apply descending_rev_filter.
    - intros j Hj. apply in_rev in Hj. apply meeting_lt; auto.
    - intros j Hj. apply in_rev in Hj. apply meeting_lt in Hj; auto. lia.
    - intros q Hq. cbn [Nat.add]. rewrite nth_error_map. rewrite (nth_error_nth' l 0%nat Hq). reflexivity.
    - cbv zeta in E. rewrite E. cbn [bind]. exists y'. split; auto. split; auto.
      intros c Hc. rewrite R1 by auto.
      destruct (in_dec Nat.eq_dec (owner c) l) as [Hin|Hin]; auto.
      assert (c < N)%nat as HcN by (pose proof (off_le_dim _ _ FC (S i) ltac:(lia)); lia).
      destruct (owner_decomp _ _ FC c HcN) as (Ho & t & Ht & Ec). f_equal.
      assert (owner c < S i)%nat as Hlt.
      { destruct (Nat.lt_ge_cases (owner c) (S i)) as [|Hge]; auto. apply (owner_le _ _ FC) in Hge; lia. }
      rewrite Ec. rewrite inter_sum by auto.
      assert (inter (owner c) (S i) = []) as ->; [|reflexivity].
      destruct (inter (owner c) (S i)) eqn:E3; auto. exfalso. apply Hin. unfold l. apply -> in_rev.
      unfold blocks_meeting. apply filter_In. split; [apply in_seq; lia|]. unfold meets. rewrite E3. auto.
  Qed.

  (** ** Cholesky *)
  Section Chol.
    Variable m : rmem.
    Hypothesis HP : forall k i, (k < n)%nat -> (i < sz k)%nat -> 0 < m (ADiag k i i).
    Notation G := (GL rows size m).

    Lemma chol_fwd_diag b y k : (k < n)%nat -> fwd_inv size G b y k ->
      fwd_mid size G b (put_seg y (off k) (sz k) (fwd_solve (sz k) (diag_of m k) (seg y (off k)))) k.
    Proof.
      intros Hk HI. destruct (fwd_solve_ok (sz k) (diag_of m k) (seg y (off k))) as (F1 & _).
      { intros i Hi. specialize (HP k i Hk Hi). unfold diag_of. lra. }
      eapply fwd_solve_step; eauto.
      - intros r t Ht Ho. apply (Gof_upper _ _ FC); auto.
      - intros i Hi. rewrite (rsum_split_at (S i) (sz k)) by lia. rewrite (rsum_zero (sz k - S i)).
        2:{ intros t Ht. unfold GL. rewrite Gof_diag by (auto; lia). unfold chol_gd. destruct (Nat.leb_spec (S i + t) i); [lia|]. lra. }
        rewrite Rplus_0_r. change (y (off k + i)%nat) with (seg y (off k) i). rewrite <- F1 by auto.
        apply rsum_ext. intros t Ht. unfold GL. rewrite Gof_diag by (auto; lia). rewrite put_seg_in by lia.
        unfold chol_gd. destruct (Nat.leb_spec t i); [|lia]. reflexivity.
      - intros r Hr. rewrite off_S in Hr. apply put_seg_out. lia.
    Qed.

    Lemma chol_bwd_diag z y k : (k < n)%nat -> bwd_inv size G z y (S k) ->
      bwd_mid size G z (put_seg y (off k) (sz k) (bwd_solve (sz k) (diag_of m k) (seg y (off k)))) k.
    Proof.
      intros Hk HI. destruct (bwd_solve_ok (sz k) (diag_of m k) (seg y (off k))) as (F1 & _).
      { intros i Hi. specialize (HP k i Hk Hi). unfold diag_of. lra. }
      eapply bwd_solve_step; eauto.
      - intros r t Ht Ho. apply (Gof_upper _ _ FC); auto.
      - intros i Hi. rewrite (rsum_split_at i (sz k)) by lia. rewrite (rsum_zero i).
        2:{ intros t Ht. unfold GL. rewrite Gof_diag by (auto; lia). unfold chol_gd. destruct (Nat.leb_spec i t); [lia|]. lra. }
        rewrite Rplus_0_l. change (y (off k + i)%nat) with (seg y (off k) i). rewrite <- F1 by auto.
        apply rsum_ext. intros t Ht. unfold GL. rewrite Gof_diag by (auto; lia). rewrite put_seg_in by lia.
        unfold chol_gd. destruct (Nat.leb_spec i (i + t)); [|lia]. reflexivity.
      - intros r Hr. rewrite off_S in Hr. apply put_seg_out. lia.
    Qed.

    Lemma chol_fwd_block b y k : (k < n)%nat -> fwd_inv size G b y k ->
      exists y', fwd_block w m (y, off k) k = (y', off (S k)) /\ fwd_inv size G b y' (S k).
    Proof.
      intros Hk HI. unfold fwd_block. rewrite (sizeof_eq _ _ w HW). rewrite off_S.
      destruct (Nat.eqb_spec (sz k * sz k) 0) as [H|H].
      - exists y. split; auto. assert (sz k = 0)%nat as Hz by nia.
        assert (off (S k) = off k) as E by (rewrite off_S; lia). unfold fwd_inv. rewrite E. exact HI.
      - eexists. split; [reflexivity|]. pose proof (chol_fwd_diag b y k Hk HI) as HM.
        pose proof (fwd_sub_step (chol_gd m) m b _ k Hk HM) as HF. rewrite (sizeof_eq _ _ w HW) in HF. exact HF.
    Qed.

    Lemma chol_fwd b : (0 < n)%nat -> exists z, ApplyBlockInverseInPlace w m b = Ok z /\
      forall r, (r < N)%nat -> rsum N (fun t => G r t * z t) = b r.
    Proof.
      intros Hn. unfold ApplyBlockInverseInPlace. rewrite (len_snodes _ _ _ HW). assert (exists n1, n = S n1) as (n1 & En) by (exists (n - 1)%nat; lia). rewrite En.
      assert (exists y1, for_up n1 (fwd_block w m) (b, 0%nat) = (y1, off n1) /\ fwd_inv size G b y1 n1) as (y1 & E & HI).
      { pose proof (for_up_inv (fun k st => exists y, st = (y, off k) /\ fwd_inv size G b y k) n1 (fwd_block w m) (b, 0%nat)) as H.
        destruct H as (y1 & E & HI).
        - exists b. split; auto. split; intros r Hr; [cbn in Hr; lia|]. cbn. lra.
        - intros k st Hk (y & -> & HI). destruct (chol_fwd_block b y k ltac:(lia) HI) as (y' & E' & HI'). exists y'. auto.
        - exists y1. auto. }
      rewrite E, (sizeof_eq _ _ w HW). eexists. split; [reflexivity|].
      destruct (chol_fwd_diag b y1 n1 ltac:(lia) HI) as (HM & _).
      intros r Hr. pose proof (off_n _ _ FC) as Ho. rewrite En in Ho. rewrite Ho in HM. apply HM. auto.
    Qed.

    Lemma bwd_same z y k : sz k = 0%nat -> bwd_inv size G z y (S k) -> bwd_inv size G z y k.
    Proof.
      intros Hz HI. assert (off (S k) = off k) as E by (rewrite off_S; lia).
      unfold bwd_inv, tailsum in *. rewrite E in HI. exact HI.
    Qed.

    Lemma chol_bwd_block z y i : (S i < n)%nat -> bwd_inv size G z y (S (S i)) ->
      exists y', bwd_block w m (y, off (S i)) i = Ok (y', off i) /\ bwd_inv size G z y' (S i).
    Proof.
      intros Hi HI. unfold bwd_block. rewrite !(sizeof_eq _ _ w HW).
      assert (off (S i) - sz i = off i)%nat as Eo by (rewrite off_S; lia).
      destruct (Nat.eqb_spec (sz (S i) * sz (S i)) 0) as [H|H].
      - exists y. rewrite Eo. split; auto. apply bwd_same; auto. nia.
      - pose proof (chol_bwd_diag z y (S i) Hi HI) as HM.
        set (y1 := put_seg y (off (S i)) (sz (S i)) (bwd_solve (sz (S i)) (diag_of m (S i)) (seg y (off (S i))))) in *.
        destruct (sub_column_ok (chol_gd m) m i y1 Hi) as (y2 & E & R1 & R2).
        rewrite E. cbn [bind]. rewrite Eo. exists y2. split; auto.
        eapply bwd_update_step; eauto. intros r Hr. apply R2. lia.
    Qed.

    Lemma chol_bwd z : (0 < n)%nat -> exists x, ApplyBlockInverseOfTransposeInPlace w m z = Ok x /\
      forall t, (t < N)%nat -> rsum N (fun r => G r t * x r) = z t.
    Proof.
      intros Hn. unfold ApplyBlockInverseOfTransposeInPlace. rewrite (len_snodes _ _ _ HW).
      rewrite iter_reset_ok by auto. cbn [snd]. assert (exists n1, n = S n1) as (n1 & En) by (exists (n - 1)%nat; lia). rewrite En.
      replace (S n1 - 1)%nat with n1 by lia.
      assert (forall q y, (q <= n1)%nat -> bwd_inv size G z y (S q) ->
        exists y1, foldM (bwd_block w m) (y, off q) (rev (seq 0 q)) = Ok (y1, 0%nat) /\ bwd_inv size G z y1 1) as HL.
      { induction q as [|q IH]; intros y Hq HI.
        - cbn. exists y. auto.
        - rewrite seq_S, rev_app_distr. cbn [rev app Nat.add foldM].
          destruct (chol_bwd_block z y q ltac:(lia) HI) as (y' & E & HI'). rewrite E. cbn [bind].
          apply IH; auto. lia. }
      destruct (HL n1 z ltac:(lia)) as (y1 & E & HI).
      { pose proof (off_n _ _ FC) as Ho. rewrite En in Ho. unfold bwd_inv, tailsum. rewrite Ho, Nat.sub_diag.
        split; intros; [lia|]. cbn. lra. }
      rewrite E. cbn [bind]. rewrite (sizeof_eq _ _ w HW).
      assert (forall y, bwd_inv size G z y 0 -> forall t, (t < N)%nat -> rsum N (fun r => G r t * y r) = z t) as HF.
      { intros y (H1 & _) t Ht. specialize (H1 t). cbn in H1. unfold tailsum in H1. rewrite <- H1 by lia.
        cbn [offset]. rewrite Nat.sub_0_r. reflexivity. }
      destruct (Nat.ltb_spec 0 (sz 0 * sz 0)) as [H|H].
      - eexists. split; [reflexivity|]. pose proof (chol_bwd_diag z y1 0 ltac:(lia) HI) as (H1 & H2).
        apply HF. split; auto. intros t Ht. cbn in Ht. lia.
      - eexists. split; [reflexivity|]. apply HF. apply bwd_same; auto. nia.
    Qed.
  End Chol.
End Slv.
