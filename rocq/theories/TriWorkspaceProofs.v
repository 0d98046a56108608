(** Proofs about TriWorkspaceModel.v. *)
From Coq Require Import List Arith Bool Lia Sorting.Sorted Permutation.
From Verif Require Import Base BaseFacts TriWorkspaceModel Spec_Block CliqueProofs SupernodeProofs.
Import ListNotations.

Lemma seq_prefix a k : forall pre i post, seq a k = pre ++ i :: post ->
  pre = seq a (i - a) /\ a <= i < a + k.
Proof.
  revert a. induction k; intros a pre i post E.
  - destruct pre; discriminate.
  - destruct pre as [|x pre]; cbn in E; injection E as <- E.
    + rewrite Nat.sub_diag. split; auto; lia.
    + destruct (IHk _ _ _ _ E) as [-> ?]. split; [|lia].
      replace (i - a) with (S (i - S a)) by lia. auto.
Qed.

(** Induction over a [for (i = 0; i < k; i++)] loop. *)
Lemma foldM_seq_inv {St} (f : St -> nat -> res St) (J : nat -> St -> Prop) k s :
  J 0 s -> (forall i s, i < k -> J i s -> exists s', f s i = Ok s' /\ J (S i) s') ->
  exists s', foldM f s (seq 0 k) = Ok s' /\ J k s'.
Proof.
  intros H0 HS.
  destruct (foldM_inv f (fun pre s => J (length pre) s) (seq 0 k) s) as (s' & E & HJ); auto.
  - intros pre i post s1 Hs HJ. apply seq_prefix in Hs as [-> Hi]. rewrite seq_length in HJ.
    rewrite Nat.sub_0_r in HJ. destruct (HS i s1) as (s2 & E2 & HJ2); [lia|auto|].
    exists s2. split; auto. rewrite app_length, seq_length, Nat.sub_0_r. cbn.
    replace (i + 1) with (S i) by lia. auto.
  - rewrite seq_length in HJ. eauto.
Qed.

Lemma upd_seq_fill (l : list nat) d i x : i < length l -> 
  (forall j, nth j (upd l i x) d = if j =? i then x else nth j l d).
Proof.
  intros H j. rewrite nth_upd by auto. rewrite Nat.eqb_sym. auto.
Qed.

Section WS.
  Variables (rows : list (list nat)) (size : list nat).
  Hypothesis FC : fill_closed rows size.
  Notation n := (length rows).
  Notation off := (offset size).
  Notation sz k := (nth k size 0).

  Definition sepof (k : nat) : list nat := skipn (sz k) (nth k rows []).

  Lemma rows_split k : k < n -> nth k rows [] = seq (off k) (sz k) ++ sepof k /\
    SSorted (sepof k) /\ (forall x, In x (sepof k) -> off (S k) <= x < dim size).
  Proof.
    intros Hk. destruct (fc_shape _ _ FC k Hk) as (sep & E & S1 & R).
    assert (sepof k = sep) as Es.
    { unfold sepof. rewrite E, skipn_app, skipn_all2 by (rewrite seq_length; lia).
      rewrite seq_length, Nat.sub_diag. auto. }
    rewrite Es. auto.
  Qed.

  Lemma off_le_dim k : k <= n -> off k <= dim size.
  Proof. intros. unfold dim. apply offset_le. rewrite (fc_len _ _ FC). auto. Qed.

  (** owner of a column *)
  Fixpoint owner_from (k c : nat) : nat :=
    match k with
    | 0 => 0
    | S j => if off j <=? c then j else owner_from j c
    end.
  Definition owner (c : nat) : nat :=
    (fix go k := match k with 0 => 0 | S j => if (off j <=? c) && (c <? off (S j)) then j else go j end) n.

  Lemma owner_spec k c : k < n -> in_block size k c -> owner c = k.
  Proof.
    intros Hk H. unfold owner. 
    assert (forall m, k < m -> (fix go k := match k with 0 => 0 | S j => if (off j <=? c) && (c <? off (S j)) then j else go j end) m = k) as G.
    { induction m as [|m IH]; [lia|]. intros Hm.
      destruct (Nat.leb_spec (off m) c), (Nat.ltb_spec c (off (S m))); cbn [andb].
      - eapply offset_lt_inv; eauto. split; auto.
      - destruct (Nat.eq_dec k m) as [->|]; [destruct H; lia|apply IH; lia].
      - destruct (Nat.eq_dec k m) as [->|]; [destruct H; lia|apply IH; lia].
      - destruct (Nat.eq_dec k m) as [->|]; [destruct H; lia|apply IH; lia]. }
    apply G; auto.
  Qed.

  Lemma owner_block c : c < dim size -> owner c < n /\ in_block size (owner c) c.
  Proof.
    intros Hc. destruct (in_block_ex size c Hc) as (k & Hk & Hb). rewrite (fc_len _ _ FC) in Hk.
    rewrite (owner_spec k c Hk Hb). auto.
  Qed.

  Lemma owner_unique k c : c < dim size -> in_block size k c -> k < n -> owner c = k.
  Proof. intros; apply owner_spec; auto. Qed.

  Lemma sep_owner_gt k x : k < n -> In x (sepof k) -> k < owner x < n.
  Proof.
    intros Hk Hx. destruct (rows_split k Hk) as (_ & _ & R). specialize (R x Hx).
    destruct (owner_block x ltac:(lia)) as [H1 H2]. split; auto.
    destruct (Nat.le_gt_cases (owner x) k) as [H|]; auto.
    pose proof (offset_le size (S (owner x)) (S k) ltac:(lia)). unfold in_block in H2. lia.
  Qed.

  (** ** Supernodes and variable lookup tables *)
  Lemma build_snodes_ok :
    exists sns v2sn v2pos, build_snodes rows size (dim size) = Ok (sns, v2sn, v2pos, dim size) /\
      sns = map (fun k => seq (off k) (sz k)) (seq 0 n) /\
      length v2sn = dim size /\ length v2pos = dim size /\
      (forall c, c < dim size -> nth c v2sn 0 = owner c /\ nth c v2pos 0 = c - off (owner c)).
  Proof.
    unfold build_snodes.
    pose (J := fun (k : nat) (st : list (list nat) * list nat * list nat * nat) =>
      let '(sns, v2sn, v2pos, var) := st in
      sns = map (fun k => seq (off k) (sz k)) (seq 0 k) /\ var = off k /\
      length v2sn = dim size /\ length v2pos = dim size /\
      (forall c, c < off k -> nth c v2sn 0 = owner c /\ nth c v2pos 0 = c - off (owner c))).
    match goal with |- context [foldM ?f ?s (seq 0 n)] =>
      destruct (foldM_seq_inv f J n s) as (((( sns & v2sn) & v2pos) & var) & E & HJ) end.
    - cbn. rewrite !repeat_length. repeat split; auto; lia.
    - intros k (((sns & v2sn) & v2pos) & var) Hk (-> & -> & L1 & L2 & H).
      rewrite (at_lt size k 0) by (rewrite (fc_len _ _ FC); auto). cbn [bind].
      destruct (rows_split k Hk) as (Er & _ & _).
      assert (off (S k) <= dim size) as Hd by (apply off_le_dim; lia). cbn in Hd.
      pose (J2 := fun (i : nat) (st : list nat * list nat * list nat * nat) =>
        let '(si, v2sn', v2pos', var) := st in
        length si = sz k /\ (forall a, a < i -> nth a si 0 = off k + a) /\ var = off k + i /\
        length v2sn' = dim size /\ length v2pos' = dim size /\
        (forall c, c < off k + i -> nth c v2sn' 0 = owner c /\ nth c v2pos' 0 = c - off (owner c))).
      destruct (foldM_seq_inv (fill_snode (nth k rows []) k) J2 (sz k) (repeat 0 (sz k), v2sn, v2pos, off k))
        as ((((si & v2sn') & v2pos') & var') & E & HJ2).
      + cbn. rewrite repeat_length. repeat split; auto; try lia; intros; apply H; lia.
      + intros i (((si & v2sn1) & v2pos1) & var1) Hi (A1 & A2 & -> & A4 & A5 & A6).
        unfold fill_snode. 
        rewrite (at_lt (nth k rows []) i 0) by (rewrite Er, app_length, seq_length; lia). cbn [bind].
        rewrite set_at_lt by lia. cbn [bind]. rewrite set_idx_lt by lia. cbn [bind].
        rewrite set_idx_lt by lia. cbn [bind]. eexists; split; [reflexivity|].
        cbn. rewrite !upd_length. repeat split; auto; try lia.
        * intros a Ha. rewrite upd_seq_fill by lia. destruct (Nat.eqb_spec a i) as [->|].
          -- rewrite Er, app_nth1 by (rewrite seq_length; auto). apply seq_nth; auto.
          -- apply A2. lia.
        * assert (in_block size k (off k + i)) as Hb by (split; cbn; lia).
          rewrite upd_seq_fill by lia. destruct (Nat.eqb_spec c (off k + i)) as [->|].
          -- symmetry. apply owner_spec; auto.
          -- apply A6. lia.
        * assert (in_block size k (off k + i)) as Hb by (split; cbn; lia).
          rewrite upd_seq_fill by lia. destruct (Nat.eqb_spec c (off k + i)) as [->|].
          -- rewrite (owner_spec k) by auto. lia.
          -- apply A6. lia.
      + cbn in HJ2. destruct HJ2 as (B1 & B2 & -> & B4 & B5 & B6).
        assert (si = seq (off k) (sz k)) as Esi.
        { apply nth_ext with (d := 0) (d' := 0); [rewrite seq_length; auto|].
          intros a Ha. rewrite seq_nth by lia. apply B2. lia. }
        destruct (Nat.ltb_spec 0 (sz k)) as [Hs|Hs].
        * rewrite (at_lt rows k []) by auto. cbn [bind]. rewrite E. cbn [bind].
          eexists; split; [reflexivity|]. cbn -[seq]. rewrite Esi.
          rewrite seq_S, map_app. cbn. repeat split; auto; apply B6; auto.
        * assert (sz k = 0) as E0 by lia. rewrite E0 in *. cbn [bind]. cbn in E. injection E as <- <- <- _.
          cbn [seq foldM repeat bind].
          eexists; split; [reflexivity|]. cbn -[seq]. rewrite E0.
          rewrite seq_S, map_app. cbn. rewrite E0. repeat split; auto; try lia; apply B6; lia.
    - exists sns, v2sn, v2pos. cbn in HJ. destruct HJ as (-> & -> & L1 & L2 & H).
      assert (off n = dim size) as En by (unfold dim; rewrite (fc_len _ _ FC); auto).
      rewrite En in *. split; auto.
  Qed.

  (** ** Separators and intersection tables *)
  Definition inter (k s : nat) : list (nat * nat) :=
    map (fun i => (nth i (sepof k) 0 - off s, i))
        (filter (fun i => owner (nth i (sepof k) 0) =? s) (seq 0 (length (sepof k)))).
  Definition meets (s k : nat) : bool := negb (length (inter k s) =? 0).
  Definition blocks_meeting (s : nat) : list nat := filter (meets s) (seq 0 n).

  Definition inter_upto (k s i : nat) : list (nat * nat) :=
    map (fun i => (nth i (sepof k) 0 - off s, i))
        (filter (fun i => owner (nth i (sepof k) 0) =? s) (seq 0 i)).

  Lemma inter_upto_S k s i : inter_upto k s (S i) =
    inter_upto k s i ++ (if owner (nth i (sepof k) 0) =? s then [(nth i (sepof k) 0 - off s, i)] else []).
  Proof.
    unfold inter_upto. rewrite seq_S, filter_app, map_app. cbn.
    destruct (_ =? s); auto.
  Qed.

  Definition ci_upto (k i s : nat) : list nat :=
    filter (meets s) (seq 0 k) ++ (if length (inter_upto k s i) =? 0 then [] else [k]).
  Definition ip_upto (k i s : nat) : list (list (nat * nat)) :=
    map (fun k => inter k s) (filter (meets s) (seq 0 k)) ++
    (if length (inter_upto k s i) =? 0 then [] else [inter_upto k s i]).

  Lemma ci_upto_end k s : ci_upto k (length (sepof k)) s = ci_upto (S k) 0 s.
  Proof.
    unfold ci_upto. change (inter_upto (S k) s 0) with (@nil (nat * nat)). cbn [length Nat.eqb].
    change (inter_upto k s (length (sepof k))) with (inter k s).
    rewrite seq_S, filter_app. cbn [filter Nat.add]. rewrite app_nil_r. unfold meets at 3.
    f_equal. destruct (length (inter k s) =? 0); auto.
  Qed.
  Lemma ip_upto_end k s : ip_upto k (length (sepof k)) s = ip_upto (S k) 0 s.
  Proof.
    unfold ip_upto. change (inter_upto (S k) s 0) with (@nil (nat * nat)). cbn [length Nat.eqb].
    change (inter_upto k s (length (sepof k))) with (inter k s).
    rewrite seq_S, filter_app, map_app. cbn [filter Nat.add]. rewrite app_nil_r. unfold meets at 3.
    f_equal. destruct (length (inter k s) =? 0); auto.
  Qed.

  Lemma last_filter_lt k s l : (forall x, In x l -> x < k) ->
    ((length (filter (meets s) l) =? 0) || negb (last (filter (meets s) l) 0 =? k)) = true.
  Proof.
    intros H. destruct (filter (meets s) l) as [|a t] eqn:E; auto.
    assert (In (last (a :: t) 0) l) as Hin.
    { assert (In (last (a :: t) 0) (filter (meets s) l)).
      { rewrite E. rewrite (app_removelast_last (l := a :: t) 0) at 2 by discriminate. apply in_elt. }
      apply filter_In in H0. tauto. }
    cbn [length Nat.eqb orb]. apply H in Hin. destruct (Nat.eqb_spec (last (a :: t) 0) k); auto. lia.
  Qed.

  Lemma build_seps_ok v2sn v2pos :
    length v2sn = dim size -> length v2pos = dim size ->
    (forall c, c < dim size -> nth c v2sn 0 = owner c /\ nth c v2pos 0 = c - off (owner c)) ->
    exists ci ip, build_seps rows size v2sn v2pos = Ok (map sepof (seq 0 n), ci, ip) /\
      length ci = n - 1 /\ length ip = n - 1 /\
      (forall j, j < n - 1 -> nth j ci [] = blocks_meeting (S j) /\
                 nth j ip [] = map (fun k => inter k (S j)) (blocks_meeting (S j))).
  Proof.
    intros L1 L2 HV. unfold build_seps.
    pose (J := fun (k : nat) (st : list (list nat) * list (list nat) * list (list (list (nat * nat)))) =>
      let '(seps, ci, ip) := st in
      seps = map sepof (seq 0 k) /\ length ci = n - 1 /\ length ip = n - 1 /\
      (forall j, j < n - 1 -> nth j ci [] = ci_upto k 0 (S j) /\ nth j ip [] = ip_upto k 0 (S j))).
    match goal with |- context [foldM ?f ?s (seq 0 n)] =>
      destruct (foldM_seq_inv f J n s) as (((seps & ci) & ip) & E & HJ) end.
    - cbn. rewrite !repeat_length. repeat split; auto; rewrite nth_repeat_any; auto.
    - intros k ((seps & ci) & ip) Hk (-> & Lc & Li & H).
      rewrite (at_lt rows k []), (at_lt size k 0) by (rewrite ?(fc_len _ _ FC); auto). cbn [bind].
      destruct (rows_split k Hk) as (Er & Ss & Rs).
      assert (length (nth k rows []) = sz k + length (sepof k)) as Lr.
      { rewrite Er at 1. rewrite app_length, seq_length. auto. }
      destruct (Nat.ltb_spec (length (nth k rows [])) (sz k)); [lia|].
      replace (length (nth k rows []) - sz k) with (length (sepof k)) by lia.
      pose (J2 := fun (i : nat) (st : list nat * list (list nat) * list (list (list (nat * nat)))) =>
        let '(sep, ci, ip) := st in
        sep = firstn i (sepof k) /\ length ci = n - 1 /\ length ip = n - 1 /\
        (forall j, j < n - 1 -> nth j ci [] = ci_upto k i (S j) /\ nth j ip [] = ip_upto k i (S j))).
      destruct (foldM_seq_inv (add_intersection (nth k rows []) k (sz k) v2sn v2pos) J2
        (length (sepof k)) ([], ci, ip)) as (((sep & ci') & ip') & E & HJ2).
      + cbn. auto.
      + intros i ((sep & ci1) & ip1) Hi (-> & Lc1 & Li1 & H1).
        set (x := nth i (sepof k) 0).
        assert (In x (sepof k)) as Hx by (apply nth_In; auto).
        pose proof (Rs x Hx) as Rx. pose proof (sep_owner_gt k x Hk Hx) as Ho.
        destruct (owner_block x ltac:(lia)) as [_ Hb].
        unfold add_intersection.
        rewrite (at_lt (nth k rows []) (i + sz k) 0) by lia. cbn [bind].
        assert (nth (i + sz k) (nth k rows []) 0 = x) as Ex.
        { rewrite Er. rewrite app_nth2; rewrite seq_length; [|lia]. unfold x. f_equal. lia. }
        rewrite Ex. destruct (HV x ltac:(lia)) as [V1 V2].
        rewrite (idx_lt v2sn x 0), (idx_lt v2pos x 0) by lia. cbn [bind]. rewrite V1, V2.
        destruct (owner x) as [|s] eqn:Eo; [lia|].
        destruct (H1 s ltac:(lia)) as [H2 H3].
        rewrite (idx_lt ci1 s []), (idx_lt ip1 s []) by lia. cbn [bind].
        rewrite H2, H3. rewrite !set_idx_lt by lia. cbn [bind].
        eexists; split; [reflexivity|]. cbn [J2]. unfold J2. rewrite !upd_length.
        split. { rewrite firstn_S_snoc with (d := 0) by auto. reflexivity. }
        split; auto. split; auto.
        intros j Hj. rewrite !nth_upd by lia. destruct (H1 j Hj) as [H4 H5].
        assert (owner (nth i (sepof k) 0) = S s) as Eo' by exact Eo.
        destruct (Nat.eqb_spec s j) as [<-|Hne].
        * assert (inter_upto k (S s) (S i) = inter_upto k (S s) i ++ [(x - off (S s), i)]) as EI.
          { rewrite inter_upto_S, Eo', Nat.eqb_refl. auto. }
          assert (length (inter_upto k (S s) (S i)) =? 0 = false) as EL.
          { rewrite EI, app_length. apply Nat.eqb_neq. cbn. lia. }
          unfold ci_upto, ip_upto. rewrite EL.
          destruct (Nat.eqb_spec (length (inter_upto k (S s) i)) 0) as [E0|E0].
          -- rewrite !app_nil_r. rewrite last_filter_lt by (intros y Hy; apply in_seq in Hy; lia).
             apply length_zero_iff_nil in E0. rewrite EI, E0. auto.
          -- rewrite last_last. rewrite Nat.eqb_refl. cbn [negb]. rewrite orb_false_r.
             assert (length (filter (meets (S s)) (seq 0 k) ++ [k]) =? 0 = false) as ->.
             { rewrite app_length. apply Nat.eqb_neq. cbn. lia. }
             rewrite last_last, removelast_last, EI. auto.
        * rewrite H4, H5. 
          assert (inter_upto k (S j) (S i) = inter_upto k (S j) i) as EI.
          { rewrite inter_upto_S, Eo'. destruct (Nat.eqb_spec (S s) (S j)); [lia|]. apply app_nil_r. }
          unfold ci_upto, ip_upto. rewrite EI. auto.
      + rewrite E. cbn [bind]. eexists; split; [reflexivity|].
        cbn in HJ2. destruct HJ2 as (-> & Lc2 & Li2 & H2).
        cbn -[seq]. rewrite firstn_all. rewrite seq_S, map_app. cbn -[ci_upto ip_upto].
        repeat split; auto; rewrite <- ?ci_upto_end, <- ?ip_upto_end; apply H2; auto.
    - cbn in HJ. destruct HJ as (-> & Lc & Li & H). exists ci, ip. split; auto. split; auto. split; auto.
      intros j Hj. destruct (H j Hj) as [H1 H2]. rewrite H1, H2. unfold ci_upto, ip_upto, blocks_meeting. cbn.
      rewrite !app_nil_r. auto.
  Qed.

  Record ws_ok (w : TriWS) : Prop := {
    wk_N : ws_N w = dim size;
    wk_size : ws_size w = size;
    wk_snodes : ws_snodes w = map (fun k => seq (off k) (sz k)) (seq 0 n);
    wk_seps : ws_seps w = map sepof (seq 0 n);
    wk_v2sn_len : length (ws_v2sn w) = dim size;
    wk_v2pos_len : length (ws_v2pos w) = dim size;
    wk_v2 : forall c, c < dim size -> nth c (ws_v2sn w) 0 = owner c /\
              nth c (ws_v2pos w) 0 = c - off (owner c);
    wk_ci_len : length (ws_colint w) = n - 1;
    wk_ip_len : length (ws_intpos w) = n - 1;
    wk_ci : forall j, j < n - 1 -> nth j (ws_colint w) [] = rev (blocks_meeting (S j));
    wk_ip : forall j, j < n - 1 ->
              nth j (ws_intpos w) [] = map (fun k => inter k (S j)) (rev (blocks_meeting (S j)))
  }.

  Lemma TriWS_make_ok : exists w, TriWS_make rows size = Ok w /\ ws_ok w.
  Proof.
    unfold TriWS_make. rewrite <- dim_sum.
    destruct build_snodes_ok as (sns & v2sn & v2pos & E & Es & L1 & L2 & HV).
    rewrite E. cbn [bind].
    destruct (build_seps_ok v2sn v2pos L1 L2 HV) as (ci & ip & E2 & Lc & Li & H).
    rewrite E2. cbn [bind]. eexists; split; [reflexivity|].
    constructor; cbn [ws_N ws_size ws_snodes ws_seps ws_v2sn ws_v2pos ws_colint ws_intpos]; auto; try rewrite map_length; auto.
    - intros j Hj. change (@nil nat) with (rev (@nil nat)). rewrite map_nth. f_equal. apply H; auto.
    - intros j Hj. change (@nil (list (nat * nat))) with (rev (@nil (list (nat * nat)))).
      rewrite map_nth. rewrite map_rev. f_equal. apply H; auto.
  Qed.

  (** ** Entry addresses *)
  Variable w : TriWS.
  Hypothesis HW : ws_ok w.

  Lemma nth_seps k : k < n -> nth k (ws_seps w) [] = sepof k.
  Proof.
    intros Hk. rewrite (wk_seps _ HW).
    rewrite nth_indep with (d' := sepof 0) by (rewrite map_length, seq_length; auto).
    rewrite map_nth, seq_nth by auto. auto.
  Qed.
  Lemma nth_snodes k : k < n -> nth k (ws_snodes w) [] = seq (off k) (sz k).
  Proof.
    intros Hk. rewrite (wk_snodes _ HW).
    rewrite nth_indep with (d' := seq (off 0) (sz 0)) by (rewrite map_length, seq_length; auto).
    rewrite (map_nth (fun k => seq (off k) (sz k))), seq_nth by auto. auto.
  Qed.
  Lemma len_snodes : length (ws_snodes w) = n.
  Proof. rewrite (wk_snodes _ HW), map_length, seq_length. auto. Qed.
  Lemma len_seps : length (ws_seps w) = n.
  Proof. rewrite (wk_seps _ HW), map_length, seq_length. auto. Qed.

  Lemma sep_pos_spec r s : forall c, match sep_pos r s c with
    | Some i => c <= i < c + length s /\ nth (i - c) s 0 = r
    | None => ~ In r s end.
  Proof.
    induction s as [|a s IH]; intros c; cbn [sep_pos]; auto.
    destruct (Nat.eqb_spec a r) as [->|Hne].
    - cbn. split; [lia|]. rewrite Nat.sub_diag. auto.
    - specialize (IH (S c)). destruct (sep_pos r s (S c)) as [i|].
      + destruct IH as [H1 H2]. cbn [length]. split; [lia|].
        replace (i - c) with (S (i - S c)) by lia. auto.
      + cbn. tauto.
  Qed.

  Lemma sep_pos_nth s i : NoDup s -> i < length s -> sep_pos (nth i s 0) s 0 = Some i.
  Proof.
    intros ND Hi. pose proof (sep_pos_spec (nth i s 0) s 0) as H.
    destruct (sep_pos (nth i s 0) s 0) as [j|].
    - destruct H as [H1 H2]. rewrite Nat.sub_0_r in H2. f_equal.
      apply (proj1 (NoDup_nth s 0) ND); auto. lia.
    - exfalso. apply H, nth_In; auto.
  Qed.

  Lemma sep_nodup k : k < n -> NoDup (sepof k).
  Proof. intros Hk. apply ssorted_nodup. apply rows_split; auto. Qed.

  (** The address of a stored entry. *)
  Definition address (r c : nat) : addr :=
    if owner r =? owner c then ADiag (owner c) (r - off (owner c)) (c - off (owner c))
    else match sep_pos r (sepof (owner c)) 0 with
         | Some i => AOff (owner c) (c - off (owner c)) i
         | None => AOff 0 0 0
         end.

  Definition stored (r c : nat) : Prop :=
    c <= r /\ r < dim size /\ stored_row rows (owner c) r.

  Lemma stored_cases r c : stored r c ->
    (owner r = owner c) \/ (owner r <> owner c /\ In r (sepof (owner c))).
  Proof.
    intros (Hcr & Hr & Hs). destruct (owner_block c ltac:(lia)) as [Hk Hb].
    unfold stored_row in Hs. destruct (rows_split _ Hk) as (Er & _ & R). rewrite Er, in_app_iff in Hs.
    destruct Hs as [Hs|Hs].
    - left. apply in_seq in Hs. apply owner_spec; [auto|]. split; cbn; lia.
    - right. split; auto. pose proof (sep_owner_gt _ r Hk Hs). lia.
  Qed.

  Lemma LookupAddress_ok r c : stored r c -> LookupAddress w r c = Ok (address r c).
  Proof.
    intros Hs. pose proof Hs as (Hcr & Hr & _). unfold LookupAddress, address.
    destruct (wk_v2 _ HW c ltac:(lia)) as [C1 C2]. destruct (wk_v2 _ HW r Hr) as [R1 R2].
    pose proof (wk_v2sn_len _ HW). pose proof (wk_v2pos_len _ HW).
    rewrite (idx_lt _ c 0), (idx_lt _ r 0), (idx_lt _ c 0) by lia. cbn [bind].
    rewrite C1, R1, C2. rewrite (Nat.eqb_sym (owner r)).
    destruct (Nat.eqb_spec (owner c) (owner r)) as [E|E].
    - rewrite (idx_lt _ r 0) by lia. cbn [bind]. rewrite R2, E. auto.
    - destruct (owner_block c ltac:(lia)) as [Hk _].
      rewrite (idx_lt _ (owner c) []) by (rewrite len_seps; auto). cbn [bind]. rewrite nth_seps by auto.
      destruct (stored_cases r c Hs) as [|[_ Hin]]; [congruence|].
      pose proof (sep_pos_spec r (sepof (owner c)) 0) as H1. destruct (sep_pos r _ 0); tauto.
  Qed.

  Lemma sep_stored k r c : k < n -> In r (sepof k) -> In c (sepof k) -> c <= r -> stored r c.
  Proof.
    intros Hk Hr Hc Hcr. destruct (rows_split k Hk) as (Er & _ & R).
    pose proof (R r Hr). pose proof (R c Hc). destruct (owner_block c ltac:(lia)) as [Ho Hb].
    split; auto. split; [lia|].
    apply (fc_closed _ _ FC k (owner c) r c); auto; unfold stored_row; rewrite Er, in_app_iff; auto.
  Qed.

  Lemma sorted_nth_le s i j : SSorted s -> i <= j -> j < length s -> nth i s 0 <= nth j s 0.
  Proof.
    revert i j. induction s as [|a s IH]; intros i j H Hij Hj; cbn in Hj; [lia|].
    apply ssorted_cons_inv in H as [H1 H2]. destruct i as [|i], j as [|j]; cbn; auto; try lia.
    - assert (In (nth j s 0) s) by (apply nth_In; lia). apply H2 in H. lia.
    - apply IH; auto; lia.
  Qed.

  Lemma lower_pairs_in m i j : In (i, j) (lower_pairs m) <-> j <= i < m.
  Proof.
    unfold lower_pairs. rewrite in_flat_map. split.
    - intros (j' & Hj & Hin). apply in_map_iff in Hin as (i' & E & Hi). injection E as <- <-.
      apply in_seq in Hj. apply in_seq in Hi. lia.
    - intros H. exists j. split; [apply in_seq; lia|]. apply in_map_iff. exists i. split; auto.
      apply in_seq. lia.
  Qed.

  (** The scatter pointers of every separator exist: the lookup never fails. *)
  Lemma S_S_ok k : k < n -> S_S w k =
    Ok (map (fun ij => address (nth (fst ij) (sepof k) 0) (nth (snd ij) (sepof k) 0))
            (lower_pairs (length (sepof k)))).
  Proof.
    intros Hk. unfold S_S. rewrite (at_lt _ k []) by (rewrite len_seps; auto). cbn [bind].
    rewrite nth_seps by auto. apply mapM_total. intros (i, j) Hin. apply lower_pairs_in in Hin.
    cbn [fst snd]. rewrite (idx_lt _ i 0), (idx_lt _ j 0) by lia. cbn [bind].
    apply LookupAddress_ok. apply sep_stored with k; auto; try (apply nth_In; lia).
    apply sorted_nth_le; try lia. apply rows_split; auto.
  Qed.

  Lemma seperator_diagonal_ok : exists sd, seperator_diagonal w = Ok sd /\ length sd = n /\
    forall k, k < n -> nth k sd [] =
       map (fun ij => address (nth (fst ij) (sepof k) 0) (nth (snd ij) (sepof k) 0))
            (lower_pairs (length (sepof k))).
  Proof.
    unfold seperator_diagonal. rewrite len_snodes.
    erewrite mapM_total. 2:{ intros k Hk. apply in_seq in Hk. apply S_S_ok. lia. }
    eexists; split; [reflexivity|]. rewrite map_length, seq_length. split; auto.
    intros k Hk. match goal with |- nth _ (map ?f _) _ = _ => rewrite nth_indep with (d' := f 0) by (rewrite map_length, seq_length; auto); rewrite (map_nth f) end.
    rewrite seq_nth by auto. auto.
  Qed.

  Lemma address_in_block r c : stored r c -> addr_in_block w (address r c) = true.
  Proof.
    intros Hs. pose proof Hs as (Hcr & Hr & _). unfold address.
    destruct (owner_block c ltac:(lia)) as [Hk [B1 B2]]. cbn in B2.
    destruct (Nat.eqb_spec (owner r) (owner c)) as [E|E].
    - destruct (owner_block r Hr) as [_ [B3 B4]]. rewrite E in B3, B4. cbn in B4.
      cbn. rewrite (wk_size _ HW), len_snodes.
      repeat (apply andb_true_iff; split); apply Nat.ltb_lt; lia.
    - destruct (stored_cases r c Hs) as [|[_ Hin]]; [congruence|].
      pose proof (sep_pos_spec r (sepof (owner c)) 0) as H1. destruct (sep_pos r _ 0) as [i|]; [|tauto].
      cbn. rewrite (wk_size _ HW), len_snodes, nth_seps by auto.
      repeat (apply andb_true_iff; split); apply Nat.ltb_lt; lia.
  Qed.

  Lemma address_inj r c r' c' : stored r c -> stored r' c' -> address r c = address r' c' -> r = r' /\ c = c'.
  Proof.
    intros Hs Hs' E. pose proof Hs as (Hcr & Hr & _). pose proof Hs' as (Hcr' & Hr' & _).
    destruct (owner_block c ltac:(lia)) as [Hk [B1 B2]]. destruct (owner_block c' ltac:(lia)) as [Hk' [B1' B2']].
    unfold address in E.
    destruct (Nat.eqb_spec (owner r) (owner c)) as [F|F], (Nat.eqb_spec (owner r') (owner c')) as [F'|F'].
    - injection E as E1 E2 E3. destruct (owner_block r Hr) as [_ [B3 B4]]. destruct (owner_block r' Hr') as [_ [B3' B4']].
      rewrite F in B3. rewrite F' in B3'. rewrite E1 in *. lia.
    - destruct (sep_pos r' _ 0); discriminate.
    - destruct (sep_pos r _ 0); discriminate.
    - destruct (stored_cases r c Hs) as [|[_ Hin]]; [congruence|].
      destruct (stored_cases r' c' Hs') as [|[_ Hin']]; [congruence|].
      pose proof (sep_pos_spec r (sepof (owner c)) 0) as H1. destruct (sep_pos r _ 0) as [i|]; [|tauto].
      pose proof (sep_pos_spec r' (sepof (owner c')) 0) as H2. destruct (sep_pos r' _ 0) as [i'|]; [|tauto].
      injection E as E1 E2 E3. subst i'. rewrite E1 in *. destruct H1 as [_ H1], H2 as [_ H2]. split; [congruence|lia].
  Qed.

  (** ** Buffer offsets *)
  Lemma size_aligned_ge m : m <= get_size_aligned m.
  Proof. unfold get_size_aligned. destruct (m mod 4 =? 0); lia. Qed.

  Lemma size_aligned_even m : Nat.even (get_size_aligned m) = true.
  Proof.
    unfold get_size_aligned. pose proof (Nat.div_mod m 4 ltac:(lia)) as H.
    pose proof (Nat.mod_upper_bound m 4 ltac:(lia)).
    apply Nat.even_spec. destruct (Nat.eqb_spec (m mod 4) 0).
    - exists (2 * (m / 4)). lia.
    - exists (2 * (m / 4) + 2). lia.
  Qed.

  Lemma block_start_even k : Nat.even (block_start w k) = true.
  Proof.
    induction k; cbn [block_start]; auto. rewrite !Nat.even_add, IHk.
    unfold SizeOfSupernode, SizeOfSeparator. rewrite !size_aligned_even. auto.
  Qed.

  Lemma block_start_mono j k : j <= k -> block_start w j <= block_start w k.
  Proof. intros H. induction H; cbn; lia. Qed.

  Lemma block_start_total : block_start w n = SizeOf_ws w.
  Proof.
    unfold SizeOf_ws. rewrite len_snodes, len_seps.
    generalize n as m. induction m as [|m IH]; [reflexivity|].
    cbn [block_start]. rewrite seq_S, !map_app, !sum_list_app, IH. cbn. unfold sum_list at 2 4. cbn. lia.
  Qed.

  Lemma addr_offset_lt a : addr_in_block w a = true -> addr_offset w a < SizeOf_ws w.
  Proof.
    intros H. rewrite <- block_start_total.
    destruct a as [k i j|k i j]; cbn in H; apply andb_true_iff in H as [H H3]; apply andb_true_iff in H as [H1 H2];
      apply Nat.ltb_lt in H1, H2, H3; rewrite len_snodes in H1;
      pose proof (block_start_mono (S k) n H1) as HM; cbn [block_start] in HM; cbn [addr_offset];
      unfold off_offset, diag_offset.
    - assert (i + j * nth k (ws_size w) 0 < SizeOfSupernode w k).
      { unfold SizeOfSupernode. pose proof (size_aligned_ge (nth k (ws_size w) 0 * nth k (ws_size w) 0)). nia. }
      lia.
    - assert (i + j * nth k (ws_size w) 0 < SizeOfSeparator w k).
      { unfold SizeOfSeparator. pose proof (size_aligned_ge (nth k (ws_size w) 0 * length (nth k (ws_seps w) []))). nia. }
      lia.
  Qed.

  Lemma addr_offset_inj a b : addr_in_block w a = true -> addr_in_block w b = true ->
    addr_offset w a = addr_offset w b -> a = b.
  Proof.
    intros Ha Hb.
    assert (forall a, addr_in_block w a = true -> exists k x y s, 
       (a = ADiag k x y \/ a = AOff k x y) /\ s = nth k (ws_size w) 0 /\ x < s /\
       match a with ADiag _ _ _ => x + y * s < SizeOfSupernode w k
                  | AOff _ _ _ => x + y * s < SizeOfSeparator w k end) as G.
    { clear. intros a H. destruct a as [k i j|k i j]; cbn in H; apply andb_true_iff in H as [H H3]; apply andb_true_iff in H as [H1 H2];
      apply Nat.ltb_lt in H1, H2, H3; exists k, i, j, (nth k (ws_size w) 0); (split; [auto|]); (split; [auto|]); (split; [auto|]).
      - unfold SizeOfSupernode. pose proof (size_aligned_ge (nth k (ws_size w) 0 * nth k (ws_size w) 0)). nia.
      - unfold SizeOfSeparator. pose proof (size_aligned_ge (nth k (ws_size w) 0 * length (nth k (ws_seps w) []))). nia. }
    assert (forall x y x' y' s : nat, x < s -> x' < s -> x + y * s = x' + y' * s -> x = x' /\ y = y') as U.
    { intros x y x' y' s Hx Hx' E. assert (y = y') by nia. subst. split; lia. }
    destruct (G a Ha) as (k & x & y & s & [->| ->] & -> & Hx & Hy);
    destruct (G b Hb) as (k' & x' & y' & s' & [->| ->] & -> & Hx' & Hy'); cbn [addr_offset];
      unfold diag_offset, off_offset; intros E;
      (destruct (Nat.lt_trichotomy k k') as [Hl|[Hl|Hl]];
       [pose proof (block_start_mono (S k) k' Hl) as HM; cbn [block_start] in HM; exfalso; lia
       | subst k'
       | pose proof (block_start_mono (S k') k Hl) as HM; cbn [block_start] in HM; exfalso; lia]);
      try (exfalso; lia).
    - destruct (U x y x' y' _ Hx Hx' ltac:(lia)) as [-> ->]. auto.
    - destruct (U x y x' y' _ Hx Hx' ltac:(lia)) as [-> ->]. auto.
  Qed.

  (** ** Dense read-out *)
  Lemma path_pos_spec r s : forall c, match path_pos r s c with
    | Some i => c <= i < c + length s /\ nth (i - c) s 0 = r
    | None => ~ In r s end.
  Proof.
    induction s as [|a s IH]; intros c; cbn [path_pos]; auto.
    destruct (Nat.eqb_spec r a) as [->|Hne].
    - cbn. split; [lia|]. rewrite Nat.sub_diag. auto.
    - specialize (IH (S c)). destruct (path_pos r s (S c)) as [i|].
      + destruct IH as [H1 H2]. cbn [length]. split; [lia|].
        replace (i - c) with (S (i - S c)) by lia. auto.
      + cbn. intuition.
  Qed.

  Lemma LookupSuperNode_ok c : c < dim size -> LookupSuperNode w c = Ok (owner c).
  Proof.
    intros Hc. unfold LookupSuperNode. rewrite len_snodes.
    destruct (owner_block c Hc) as [Hk [B1 B2]].
    assert (forall m, owner c < m -> m <= n -> lookup_sn_from (ws_snodes w) c m = Ok (owner c)) as G.
    { induction m as [|m IH]; [lia|]. intros H1 H2. cbn [lookup_sn_from].
      rewrite (nth_error_nth' _ []) by (rewrite len_snodes; lia).
      rewrite nth_snodes by lia.
      destruct (Nat.eq_dec (owner c) m) as [E|E].
      - rewrite E in *. cbn in B2. destruct (sz m) as [|s]; [lia|]. cbn [seq].
        destruct (Nat.leb_spec (off m) c); [auto|lia].
      - pose proof (offset_le size (S (owner c)) m ltac:(lia)).
        destruct (seq (off m) (sz m)) as [|f t] eqn:Es; [apply IH; lia|].
        assert (f = off m) as -> by (destruct (sz m); [discriminate|cbn in Es; congruence]).
        destruct (Nat.leb_spec (off m) c); [lia|]. apply IH; lia. }
    apply G; auto.
  Qed.

  Lemma stored_dec r c : c <= r -> r < dim size -> {stored r c} + {~ stored r c}.
  Proof.
    intros H1 H2. destruct (in_dec Nat.eq_dec r (nth (owner c) rows [])) as [H|H].
    - left. repeat split; auto.
    - right. intros (_ & _ & H3). auto.
  Qed.

  Lemma Get_addr_ok r c : c <= r -> r < dim size ->
    (stored r c -> Get_addr w rows r c = Ok (Some (address r c))) /\
    (~ stored r c -> Get_addr w rows r c = Ok None).
  Proof.
    intros Hcr Hr. unfold Get_addr. destruct (Nat.ltb_spec r c); [lia|].
    rewrite LookupSuperNode_ok by lia. cbn [bind].
    destruct (owner_block c ltac:(lia)) as [Hk [B1 B2]].
    destruct (rows_split _ Hk) as (Er & _ & R).
    rewrite (at_lt rows _ []) by auto. cbn [bind].
    cbn in B2.
    assert (nth 0 (nth (owner c) rows []) 0 = off (owner c)) as E0.
    { rewrite Er. destruct (sz (owner c)); [lia|reflexivity]. }
    rewrite (at_lt _ 0 0) by (rewrite Er, app_length, seq_length; lia). cbn [bind]. rewrite E0.
    rewrite (at_lt _ _ 0) by (rewrite (wk_size _ HW), (fc_len _ _ FC); auto). cbn [bind].
    rewrite (wk_size _ HW).
    destruct (Nat.ltb_spec (r - off (owner c)) (sz (owner c))) as [H1|H1];
      (destruct (Nat.ltb_spec (c - off (owner c)) (sz (owner c))); [|lia]); cbn [andb].
    - assert (owner r = owner c) as Eo by (apply owner_spec; auto; split; cbn; lia).
      split.
      + intros _. unfold address. rewrite Eo, Nat.eqb_refl. auto.
      + intros Hn. exfalso. apply Hn. split; auto. split; auto. unfold stored_row. rewrite Er, in_app_iff.
        left. apply in_seq. lia.
    - fold (sepof (owner c)). pose proof (path_pos_spec r (sepof (owner c)) 0) as HP.
      split.
      + intros Hs. destruct (stored_cases r c Hs) as [Eo|[Eo Hin]].
        { destruct (owner_block r Hr) as [_ [B3 B4]]. rewrite Eo in *. cbn in B4. lia. }
        destruct (path_pos r (sepof (owner c)) 0) as [i|]; [|tauto].
        destruct HP as [HP1 HP2]. rewrite Nat.sub_0_r in HP2.
        unfold address. destruct (Nat.eqb_spec (owner r) (owner c)); [congruence|].
        rewrite <- HP2. rewrite sep_pos_nth; auto; [apply sep_nodup; auto|lia].
      + intros Hn. destruct (path_pos r (sepof (owner c)) 0) as [i|]; auto.
        exfalso. apply Hn. split; auto. split; auto. unfold stored_row. rewrite Er, in_app_iff.
        right. destruct HP as [HP1 HP2]. rewrite <- HP2. apply nth_In. lia.
  Qed.
End WS.
