(** Right-hand sides are sums of scattered contributions. *)
From Coq Require Import List Arith Reals Lra Lia Bool Permutation.
From Verif Require Import Base BaseFacts SupernodeModel TriWorkspaceModel AssemblerModel DenseModel BlockModel KktModel
  Spec_Block Spec_Assembly Spec_Linear TriWorkspaceProofs AssemblerProofs.
Import ListNotations.
Open Scope R_scope.

Lemma total_app {A} (f : A -> R) l1 l2 : total f (l1 ++ l2) = total f l1 + total f l2.
Proof. unfold total. induction l1; cbn; lra. Qed.
Lemma total_ext {A} (f g : A -> R) l : (forall a, In a l -> f a = g a) -> total f l = total g l.
Proof. unfold total. induction l; cbn; intros H; auto. rewrite IHl, H; auto. Qed.
Lemma total_perm {A} (f : A -> R) l l' : Permutation l l' -> total f l = total f l'.
Proof. unfold total. induction 1; cbn; lra. Qed.
Lemma total_map {A B} (f : B -> R) (g : A -> B) l : total f (map g l) = total (fun a => f (g a)) l.
Proof. unfold total. induction l; cbn; auto. rewrite IHl. auto. Qed.
Lemma total_zero {A} (f : A -> R) l : (forall a, In a l -> f a = 0) -> total f l = 0.
Proof. unfold total. induction l; cbn; intros H; auto. rewrite IHl, H; auto. lra. Qed.

Lemma total_nth {A} (f : A -> R) l d : total f l = total (fun i => f (nth i l d)) (seq 0 (length l)).
Proof.
  rewrite <- (total_map f (fun i => nth i l d)). f_equal.
  apply nth_ext with (d := d) (d' := d); [rewrite map_length, seq_length; auto|].
  intros q Hq. rewrite nth_map_lt with (d' := 0%nat) by (rewrite seq_length; lia). rewrite seq_nth by lia. reflexivity.
Qed.

Lemma scatter_add_ok c src dst : (length c <= length src)%nat -> (forall v, In v c -> (v < length dst)%nat) ->
  exists dst', scatter_add c src dst = Ok dst' /\ length dst' = length dst /\
    forall v, nth v dst' 0 = nth v dst 0 + placed c (fun a => nth a src 0) v.
Proof.
  intros Hl Hb. unfold scatter_add, placed.
  assert (combine (seq 0 (length c)) c = map (fun a => (a, nth a c 0%nat)) (seq 0 (length c))) as EC.
  { apply nth_ext with (d := (0%nat, 0%nat)) (d' := (0%nat, 0%nat)).
    + rewrite map_length, combine_length, seq_length. lia.
    + intros q Hq. rewrite combine_length, seq_length in Hq.
      rewrite nth_map_lt with (d' := 0%nat) by (rewrite seq_length; lia).
      rewrite combine_nth by (rewrite seq_length; auto). rewrite !seq_nth by lia. reflexivity. }
  rewrite EC. clear EC.
  assert (forall a, In a (seq 0 (length c)) -> (a < length src)%nat /\ (nth a c 0%nat < length dst)%nat) as HB.
  { intros a Ha. apply in_seq in Ha. split; [lia|]. apply Hb, nth_In. lia. }
  revert dst Hb HB. generalize (seq 0 (length c)) as l. induction l as [|a l IH]; intros dst Hb HB; cbn [map foldM].
  - exists dst. split; auto. split; auto. intros v. cbn. lra.
  - cbn [fst snd]. destruct (HB a) as [B1 B2]; [left; auto|].
    rewrite (idx_lt src a 0) by auto. cbn [bind]. rewrite (idx_lt dst _ 0) by auto. cbn [bind].
    rewrite set_idx_lt by auto. cbn [bind].
    match goal with |- context [foldM _ ?D _] => set (dst1 := D) end.
    assert (length dst1 = length dst) as L1 by (unfold dst1; apply upd_length).
    destruct (IH dst1) as (dst' & E & L & H).
    { intros v Hv. rewrite L1. auto. } { intros q Hq. rewrite L1. apply HB. right; auto. }
    exists dst'. split; auto. split; [congruence|]. intros v. rewrite H. unfold dst1. rewrite nth_upd by auto.
    cbn [total fold_right]. unfold total. destruct (Nat.eqb_spec (nth a c 0%nat) v) as [->|]; lra.
Qed.

(** A left fold that accumulates [f] over the positions of a list. *)
Lemma residuals_ok n cliques eqs :
  length cliques = length eqs ->
  (forall c v, In c cliques -> In v c -> (v < n)%nat) ->
  (forall i ci, nth_error eqs i = Some ci ->
     (length (nth i cliques []) <= length (r_AW ci))%nat /\ (length (nth i cliques []) <= length (r_AQc ci))%nat) ->
  exists s, AssembleSchurComplementResiduals n cliques eqs = Ok s /\
    length (r_AW s) = n /\ length (r_AQc s) = n /\
    (forall v, nth v (r_AW s) 0 =
       total (fun i => placed (nth i cliques []) (fun a => nth a (r_AW (nth i eqs (mkRhs [] [] 0 0))) 0) v) (seq 0 (length eqs))) /\
    (forall v, nth v (r_AQc s) 0 =
       total (fun i => placed (nth i cliques []) (fun a => nth a (r_AQc (nth i eqs (mkRhs [] [] 0 0))) 0) v) (seq 0 (length eqs))) /\
    r_wc s = total r_wc eqs /\ r_cQc s = total r_cQc eqs.
Proof.
  intros HL HB HS. unfold AssembleSchurComplementResiduals.
  set (d0 := mkRhs [] [] 0 0).
  assert (combine (seq 0 (length eqs)) eqs = map (fun i => (i, nth i eqs d0)) (seq 0 (length eqs))) as EC.
  { apply nth_ext with (d := (0%nat, d0)) (d' := (0%nat, d0)).
    + rewrite map_length, combine_length, seq_length. lia.
    + intros q Hq. rewrite combine_length, seq_length in Hq.
      rewrite nth_map_lt with (d' := 0%nat) by (rewrite seq_length; lia).
      rewrite combine_nth by (rewrite seq_length; auto). rewrite !seq_nth by lia. reflexivity. }
  rewrite EC. clear EC.
  pose proof (total_nth r_wc eqs d0) as E1. pose proof (total_nth r_cQc eqs d0) as E2.
  rewrite E1, E2. clear E1 E2.
  destruct (foldM_inv (fun s (p : nat * rhs) => let '(i, ci) := p in
           c <- at_ cliques i ;;
           aw <- scatter_add c (r_AW ci) (r_AW s) ;;
           aq <- scatter_add c (r_AQc ci) (r_AQc s) ;;
           Ok (mkRhs aw aq (r_wc s + r_wc ci) (r_cQc s + r_cQc ci)))
    (fun pre s => length (r_AW s) = n /\ length (r_AQc s) = n /\
       (forall v, nth v (r_AW s) 0 = total (fun p => placed (nth (fst p) cliques []) (fun a => nth a (r_AW (snd p)) 0) v) pre) /\
       (forall v, nth v (r_AQc s) 0 = total (fun p => placed (nth (fst p) cliques []) (fun a => nth a (r_AQc (snd p)) 0) v) pre) /\
       r_wc s = total (fun p => r_wc (snd p)) pre /\ r_cQc s = total (fun p => r_cQc (snd p)) pre)
    (map (fun i => (i, nth i eqs d0)) (seq 0 (length eqs))) (mkRhs (repeat 0 n) (repeat 0 n) 0 0))
    as (s & E & I1 & I2 & I3 & I4 & I5 & I6).
  - cbn. rewrite repeat_length. repeat split; auto; intros v; rewrite nth_repeat; auto.
  - intros pre [i ci] post s Ep (I1 & I2 & I3 & I4 & I5 & I6).
    assert (In (i, ci) (map (fun i => (i, nth i eqs d0)) (seq 0 (length eqs)))) as Hin.
    { rewrite Ep. apply in_app_iff. right. left. auto. }
    apply in_map_iff in Hin as (i' & Ei & Hi). injection Ei as -> <-. apply in_seq in Hi.
    rewrite (at_lt _ i []) by lia. cbn [bind].
    destruct (HS i (nth i eqs d0)) as [S1 S2]. { apply nth_error_nth'. lia. }
    assert (In (nth i cliques []) cliques) as Hc by (apply nth_In; lia).
    destruct (scatter_add_ok (nth i cliques []) (r_AW (nth i eqs d0)) (r_AW s)) as (aw & Ea & La & Ha); auto.
    { rewrite I1. intros. eapply HB; eauto. }
    rewrite Ea. cbn [bind].
    destruct (scatter_add_ok (nth i cliques []) (r_AQc (nth i eqs d0)) (r_AQc s)) as (aq & Eq & Lq & Hq); auto.
    { rewrite I2. intros. eapply HB; eauto. }
    rewrite Eq. cbn [bind]. eexists. split; [reflexivity|]. cbn [r_AW r_AQc r_wc r_cQc].
    repeat split; try congruence; try (intros v); rewrite total_app; cbn [total fold_right fst snd].
    + rewrite Ha, I3. lra.
    + rewrite Hq, I4. lra.
    + rewrite I5. lra.
    + rewrite I6. lra.
  - exists s. rewrite E. split; auto. split; auto. split; auto.
    split; [|split; [|split]].
    + intros v. rewrite I3, total_map. auto.
    + intros v. rewrite I4, total_map. auto.
    + rewrite I5, total_map. auto.
    + rewrite I6, total_map. auto.
Qed.

Lemma assemble_rhs_ok cliques dual_vars d o bs eqs :
  admissible cliques dual_vars -> build cliques dual_vars = Ok (d, o, bs) ->
  length cliques = length eqs ->
  (forall c v, In c cliques -> In v c -> (v < d_N d)%nat) ->
  (forall i ci, nth_error eqs i = Some ci ->
     (length (nth i cliques []) <= length (r_AW ci))%nat /\ (length (nth i cliques []) <= length (r_AQc ci))%nat) ->
  exists aw aq, AssembleRhs d cliques eqs (d_N d) (d_N d) = Ok (aw, aq, total r_wc eqs) /\
    length aw = d_N d /\ length aq = d_N d /\
    (forall v, nth v aw 0 =
       total (fun i => placed (nth i cliques []) (fun a => nth a (r_AW (nth i eqs (mkRhs [] [] 0 0))) 0) v) (seq 0 (length eqs))) /\
    (forall v, nth v aq 0 =
       total (fun i => placed (nth i cliques []) (fun a => nth a (r_AQc (nth i eqs (mkRhs [] [] 0 0))) 0) v) (seq 0 (length eqs))).
Proof.
  intros AD EB HL HB HS. pose proof (build_fun _ _ _ _ _ AD EB) as BP.
  pose proof (an_order _ _ _ _ _ _ _ _ _ (bp_an _ _ _ _ _ BP)) as PO.
  pose proof (Permutation_length PO) as LO. rewrite seq_length in LO.
  unfold AssembleRhs. rewrite Nat.eqb_refl. cbn [negb orb].
  set (d0 := mkRhs [] [] 0 0).
  destruct (foldM_inv (fun s e =>
             let '(aw, aq, ip) := s in
             i <- at_ (d_order d) e ;;
             ci <- at_ eqs i ;;
             c <- at_ cliques i ;;
             aw' <- scatter_add c (r_AW ci) aw ;;
             aq' <- scatter_add c (r_AQc ci) aq ;;
             Ok (aw', aq', ip + r_wc ci))
    (fun pre s => let '(aw, aq, ip) := s in length aw = d_N d /\ length aq = d_N d /\
       (forall v, nth v aw 0 = total (fun e => let i := nth e (d_order d) 0%nat in placed (nth i cliques []) (fun a => nth a (r_AW (nth i eqs d0)) 0) v) pre) /\
       (forall v, nth v aq 0 = total (fun e => let i := nth e (d_order d) 0%nat in placed (nth i cliques []) (fun a => nth a (r_AQc (nth i eqs d0)) 0) v) pre) /\
       ip = total (fun e => r_wc (nth (nth e (d_order d) 0%nat) eqs d0)) pre)
    (rev (seq 0 (length cliques))) (repeat 0 (d_N d), repeat 0 (d_N d), 0))
    as ([[aw aq] ip] & E & I1 & I2 & I3 & I4 & I5).
  - cbn. rewrite repeat_length. repeat split; auto; intros v; rewrite nth_repeat; auto.
  - intros pre e post [[aw aq] ip] Ep (I1 & I2 & I3 & I4 & I5).
    assert (In e (rev (seq 0 (length cliques)))) as Hin.
    { rewrite Ep. apply in_app_iff. right. left. auto. }
    apply in_rev, in_seq in Hin.
    rewrite (at_lt _ e 0%nat) by lia. cbn [bind].
    pose proof (order_lt _ _ _ _ _ e BP ltac:(lia)) as Hi. set (i := nth e (d_order d) 0%nat) in *.
    rewrite (at_lt _ i d0) by lia. cbn [bind]. rewrite (at_lt _ i []) by lia. cbn [bind].
    destruct (HS i (nth i eqs d0)) as [S1 S2]. { apply nth_error_nth'. lia. }
    assert (In (nth i cliques []) cliques) as Hc by (apply nth_In; lia).
    destruct (scatter_add_ok (nth i cliques []) (r_AW (nth i eqs d0)) aw) as (aw' & Ea & La & Ha); auto.
    { rewrite I1. intros. eapply HB; eauto. }
    rewrite Ea. cbn [bind].
    destruct (scatter_add_ok (nth i cliques []) (r_AQc (nth i eqs d0)) aq) as (aq' & Eq & Lq & Hq); auto.
    { rewrite I2. intros. eapply HB; eauto. }
    rewrite Eq. cbn [bind]. eexists. split; [reflexivity|]. cbn beta iota.
    repeat split; try congruence; try (intros v); rewrite total_app; cbn [total fold_right]; fold i.
    + rewrite Ha, I3. cbv zeta. lra.
    + rewrite Hq, I4. cbv zeta. lra.
    + rewrite I5. lra.
  - rewrite E. cbv zeta in *.
    assert (forall f : nat -> R, total (fun e => f (nth e (d_order d) 0%nat)) (rev (seq 0 (length cliques))) = total f (seq 0 (length eqs))) as HP.
    { intros f. rewrite (total_perm _ _ (seq 0 (length cliques))) by (apply Permutation_sym, Permutation_rev).
      rewrite <- HL, <- (total_perm f _ _ PO).
      rewrite (total_nth f (d_order d) 0%nat), LO. auto. }
    exists aw, aq. split; [|split; [|split; [|split]]]; auto.
    + f_equal. f_equal. rewrite I5. rewrite (HP (fun i => r_wc (nth i eqs d0))).
      symmetry. apply total_nth.
    + intros v. rewrite I3. rewrite (HP (fun i => placed (nth i cliques []) (fun a => nth a (r_AW (nth i eqs d0)) 0) v)). auto.
    + intros v. rewrite I4. rewrite (HP (fun i => placed (nth i cliques []) (fun a => nth a (r_AQc (nth i eqs d0)) 0) v)). auto.
Qed.
