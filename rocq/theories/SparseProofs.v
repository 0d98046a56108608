(** Correctness of the sparse triangular operations (property C69). *)
From Coq Require Import List Arith Reals Lra Lia Bool.
From Verif Require Import Base BaseFacts TriWorkspaceModel AssemblerModel Spec_Block TriWorkspaceProofs SupernodeProofs AssemblerProofs
  DenseModel BlockModel RSum DenseProofs BlockProofs Spec_Linear PosDef KktProofs LinearFacts SparseModel.
Import ListNotations.
Open Scope R_scope.

Lemma nth_map_seq {A} (f : nat -> A) a q d j : (j < q)%nat -> nth j (map f (seq a q)) d = f (a + j)%nat.
Proof.
  intros Hj. rewrite (nth_indep _ d (f 0%nat)) by (rewrite map_length, seq_length; auto). rewrite map_nth, seq_nth by auto. reflexivity.
Qed.

Lemma foldM_from {St} (f : St -> nat -> res St) (J : nat -> St -> Prop) q : forall a s,
  J a s -> (forall i s, (a <= i < a + q)%nat -> J i s -> exists s', f s i = Ok s' /\ J (S i) s') ->
  exists s', foldM f s (seq a q) = Ok s' /\ J (a + q)%nat s'.
Proof.
  induction q as [|q IH]; intros a s H0 HS; cbn [seq foldM].
  - exists s. rewrite Nat.add_0_r. auto.
  - destruct (HS a s ltac:(lia) H0) as (s1 & E1 & H1). rewrite E1. cbn [bind].
    destruct (IH (S a) s1 H1) as (s' & E' & H').
    + intros i s2 Hi. apply HS. lia.
    + exists s'. split; auto. replace (a + S q)%nat with (S a + q)%nat by lia. auto.
Qed.
Lemma foldM_down {St} (f : St -> nat -> res St) (J : nat -> St -> Prop) q : forall s,
  J q s -> (forall i s, (i < q)%nat -> J (S i) s -> exists s', f s i = Ok s' /\ J i s') ->
  exists s', foldM f s (rev (seq 0 q)) = Ok s' /\ J 0%nat s'.
Proof.
  induction q as [|q IH]; intros s H0 HS; [exists s; auto|]. rewrite seq_S, rev_app_distr. cbn [rev app Nat.add foldM].
  destruct (HS q s ltac:(lia) H0) as (s1 & E1 & H1). rewrite E1. cbn [bind]. apply IH; auto.
Qed.

(** ** Triangular factors of dense matrices *)
(** [A = L L^T], lower triangles. *)
Definition factors (m : nat) (A L : mat) : Prop :=
  (forall c, (c < m)%nat -> 0 < L c c) /\ forall r c, (c <= r < m)%nat -> A r c = rsum (S c) (fun t => L r t * L c t).

Lemma factors_same m A L L' : factors m A L -> factors m A L' -> forall t r, (t <= r < m)%nat -> L r t = L' r t.
Proof.
  intros [P H] [P' H']. induction t as [t IH] using lt_wf_ind. intros r Hr.
  assert (forall q, (t <= q < m)%nat -> L q t * L t t = L' q t * L' t t) as E.
  { intros q Hq. pose proof (H q t Hq) as E1. pose proof (H' q t Hq) as E2. rewrite E1 in E2. rewrite !rsum_S in E2.
    rewrite (rsum_ext t _ (fun u => L' q u * L' t u)) in E2 by (intros u Hu; rewrite !(IH u Hu) by lia; reflexivity). lra. }
  pose proof (E t ltac:(lia)) as Et. pose proof (P t ltac:(lia)) as P1. pose proof (P' t ltac:(lia)) as P2.
  assert (L t t = L' t t) as Ed by nra. specialize (E r Hr). rewrite Ed in E. apply Rmult_eq_reg_r in E; lra.
Qed.

(** A matrix with a factor is positive definite. *)
Lemma factors_definite m A L : factors m A L -> positive_definite m (from_lower A).
Proof.
  intros [P H] x (u & Hu & Hx). rewrite LinearFacts.quad_total.
  set (M := fun r t => if (t <=? r)%nat then L r t else 0).
  rewrite (quad_ext _ _ (fun r c => rsum m (fun t => M r t * M c t))).
  2: { intros r c Hr Hc. unfold from_lower. rewrite H by lia. rewrite (rsum_trunc (S (Nat.min r c)) m).
       - apply rsum_ext. intros t Ht. unfold M. destruct (Nat.leb_spec t r); [|lia]. destruct (Nat.leb_spec t c); [|lia].
         destruct (Nat.max_spec r c) as [[? ->]|[? ->]], (Nat.min_spec r c) as [[? ->]|[? ->]]; try lia; ring.
       - lia.
       - intros t Ht. unfold M. destruct (Nat.leb_spec t r); [|ring]. destruct (Nat.leb_spec t c); [lia|ring]. }
  rewrite quad_gram. set (g := fun t => rsum m (fun r => M r t * x r)).
  assert (0 <= rsum m (fun t => Rsqr (g t))) as H0 by (apply rsum_nonneg; intros; apply Rle_0_sqr).
  destruct H0 as [H0|H0]; auto. exfalso. apply Hx.
  assert (forall t, (t < m)%nat -> g t = 0) as Hg by (apply KktProofs.sum_squares_zero; symmetry; exact H0).
  assert (forall q t, (t < m)%nat -> (m - t <= q)%nat -> x t = 0) as K; [|apply (K m); lia].
  induction q as [|q IH]; intros t Ht Hq; [lia|]. specialize (Hg t Ht). unfold g in Hg.
  rewrite (rsum_single _ t) in Hg; auto.
  - unfold M in Hg. rewrite Nat.leb_refl in Hg. pose proof (P t Ht). apply Rmult_integral in Hg as [|]; lra.
  - intros i Hi Hne. unfold M. destruct (Nat.leb_spec t i); [|ring]. rewrite (IH i) by lia. ring.
Qed.

(** Columns below [k] are finished, the others hold the remainder. *)
Definition eliminated (m : nat) (A : mat) (k : nat) (L : mat) : Prop :=
  (forall c, (c < k)%nat -> 0 < L c c) /\
  (forall r c, (c <= r < m)%nat -> (c < k)%nat -> A r c = rsum (S c) (fun t => L r t * L c t)) /\
  (forall r c, (c <= r < m)%nat -> (k <= c)%nat -> A r c = rsum k (fun t => L r t * L c t) + L r c).
(** Column [k] is scaled but not yet subtracted. *)
Definition scaled (m : nat) (A : mat) (k : nat) (L : mat) : Prop :=
  (forall c, (c <= k)%nat -> 0 < L c c) /\
  (forall r c, (c <= r < m)%nat -> (c <= k)%nat -> A r c = rsum (S c) (fun t => L r t * L c t)) /\
  (forall r c, (c <= r < m)%nat -> (k < c)%nat -> A r c = rsum k (fun t => L r t * L c t) + L r c).

Lemma scale_step m A k L L' : (k < m)%nat -> eliminated m A k L -> 0 < L k k ->
  (forall r c, (c <= r < m)%nat -> L' r c = if (c =? k)%nat then L r c * (1 / sqrt (L k k)) else L r c) -> scaled m A k L'.
Proof.
  intros Hk (E1 & E2 & E3) Hd HL.
  assert (0 < sqrt (L k k)) as Hq by (apply sqrt_lt_R0; auto). pose proof (sqrt_def (L k k) ltac:(lra)) as Hqq.
  assert (forall r t, (t <= r < m)%nat -> (t < k)%nat -> L' r t = L r t) as Eo by (intros r t Hr Ht; rewrite HL by auto; destruct (Nat.eqb_spec t k); [lia|auto]).
  assert (forall r, (k <= r < m)%nat -> L' r k = L r k * (1 / sqrt (L k k))) as Ek by (intros r Hr; rewrite HL by auto; rewrite Nat.eqb_refl; auto).
  split; [|split].
  - intros c Hc. destruct (Nat.eq_dec c k) as [->|]; [rewrite Ek by lia|rewrite Eo by lia; apply E1; lia].
    apply Rmult_lt_0_compat; auto. unfold Rdiv. rewrite Rmult_1_l. apply Rinv_0_lt_compat; auto.
  - intros r c Hr Hc. destruct (Nat.eq_dec c k) as [->|].
    + rewrite E3 by lia. rewrite rsum_S. rewrite !Ek by lia. f_equal.
      * apply rsum_ext. intros t Ht. rewrite !Eo by lia. reflexivity.
      * set (q := sqrt (L k k)) in *. replace (L k k) with (q * q) by exact Hqq. field. lra.
    + rewrite E2 by lia. apply rsum_ext. intros t Ht. rewrite !Eo by lia. reflexivity.
  - intros r c Hr Hc. rewrite E3 by lia. f_equal; [apply rsum_ext; intros t Ht; rewrite !Eo by lia; reflexivity|].
    rewrite HL by lia. destruct (Nat.eqb_spec c k); [lia|auto].
Qed.

Lemma subtract_step m A k L L' : (k < m)%nat -> scaled m A k L ->
  (forall r c, (c <= r < m)%nat -> L' r c = if (k <? c)%nat then L r c - L r k * L c k else L r c) -> eliminated m A (S k) L'.
Proof.
  intros Hk (E1 & E2 & E3) HL.
  assert (forall r t, (t <= r < m)%nat -> (t <= k)%nat -> L' r t = L r t) as Eo by (intros r t Hr Ht; rewrite HL by auto; destruct (Nat.ltb_spec k t); [lia|auto]).
  split; [|split].
  - intros c Hc. rewrite Eo by lia. apply E1. lia.
  - intros r c Hr Hc. rewrite E2 by lia. apply rsum_ext. intros t Ht. rewrite !Eo by lia. reflexivity.
  - intros r c Hr Hc. rewrite E3 by lia. rewrite rsum_S, (HL r c) by lia. destruct (Nat.ltb_spec k c); [|lia]. rewrite !Eo by lia.
    rewrite (rsum_ext k _ (fun t => L' r t * L' c t)) by (intros t Ht; rewrite !Eo by lia; reflexivity). ring.
Qed.

(** The next pivot of a definite matrix is positive. *)
Lemma pivot_positive m A k L L0 : (k < m)%nat -> eliminated m A k L -> factors m A L0 -> 0 < L k k.
Proof.
  intros Hk (E1 & E2 & E3) [P H].
  assert (forall t r, (t < k)%nat -> (t <= r < m)%nat -> L r t = L0 r t) as Es.
  { induction t as [t IH] using lt_wf_ind. intros r Ht Hr.
    assert (forall q, (t <= q < m)%nat -> L q t * L t t = L0 q t * L0 t t) as E.
    { intros q Hq. pose proof (E2 q t Hq Ht) as F1. pose proof (H q t Hq) as F2. rewrite F1 in F2. rewrite !rsum_S in F2.
      rewrite (rsum_ext t _ (fun u => L0 q u * L0 t u)) in F2 by (intros u Hu; rewrite !(IH u Hu) by lia; reflexivity). lra. }
    pose proof (E t ltac:(lia)) as Et. pose proof (P t ltac:(lia)) as P1. pose proof (E1 t Ht) as P2.
    assert (L t t = L0 t t) as Ed by nra. specialize (E r Hr). rewrite Ed in E. apply Rmult_eq_reg_r in E; lra. }
  pose proof (E3 k k ltac:(lia) ltac:(lia)) as F1. pose proof (H k k ltac:(lia)) as F2. rewrite F1 in F2. rewrite rsum_S in F2.
  rewrite (rsum_ext k _ (fun t => L0 k t * L0 k t)) in F2 by (intros t Ht; rewrite !Es by lia; reflexivity).
  pose proof (P k Hk). nra.
Qed.

Section Sp.
  Variables (rows : list (list nat)) (size : list nat).
  Hypothesis FC : fill_closed rows size.
  Notation n := (length rows).
  Notation N := (dim size).
  Notation off := (offset size).
  Notation sz k := (nth k size 0%nat).
  Notation sepof := (sepof rows size).
  Notation owner := (owner rows size).
  Notation stored := (stored rows size).
  Notation address := (address rows size).
  Notation view := (view rows size).
  Hypothesis Hn : (0 < n)%nat.
  Hypothesis full : forall k, (k < n)%nat -> (0 < sz k)%nat.
  Variable w : TriWS.
  Hypothesis HW : ws_ok rows size w.

  Definition shape (s : sparse) : Prop := sp_path s = rows /\ sp_ws s = w.
  Definition V (s : sparse) : mat := view (sp_mem s).

  Lemma shape_with s m : shape s -> shape (with_mem s m).
  Proof. intros H. exact H. Qed.

  Lemma N_pos : (0 < N)%nat.
  Proof. pose proof (off_in _ _ FC 0 0 Hn (full 0%nat Hn)). cbn in H. lia. Qed.

  Lemma first_row k : (k < n)%nat -> at_ rows k = Ok (nth k rows []) /\ at_ (nth k rows []) 0 = Ok (off k).
  Proof.
    intros Hk. split; [apply at_lt; auto|]. destruct (rows_split _ _ FC k Hk) as (E & _). rewrite E.
    pose proof (full k Hk). destruct (sz k) as [|q]; [lia|]. reflexivity.
  Qed.

  Lemma lookup_ok s c : shape s -> (c < N)%nat -> LookupPath s c = Ok (owner c).
  Proof.
    intros (EP & _) Hc. unfold LookupPath. rewrite EP. destruct (owner_block _ _ FC c Hc) as [Hk [B1 B2]].
    assert (forall m, (owner c < m)%nat -> (m <= n)%nat -> lookup_path_from rows c m = Ok (owner c)) as G; [|apply G; auto].
    induction m as [|m IH]; [lia|]. intros H1 H2. cbn [lookup_path_from]. destruct (first_row m ltac:(lia)) as [E1 E2]. rewrite E1. cbn [bind]. rewrite E2. cbn [bind].
    destruct (Nat.eq_dec (owner c) m) as [E|E].
    - rewrite <- E. destruct (Nat.leb_spec (off (owner c)) c); [auto|lia].
    - pose proof (offset_le size (S (owner c)) m ltac:(lia)). destruct (Nat.leb_spec (off m) c); [lia|]. apply IH; lia.
  Qed.

  Lemma in_storage_ok a : addr_in_block w a = true -> in_storage w a = Ok a.
  Proof.
    intros H. unfold in_storage. rewrite H.
    assert ((match a with ADiag k _ _ => k | AOff k _ _ => k end < length (ws_snodes w))%nat) as Hk.
    { destruct a; cbn in H; apply andb_true_iff in H as [H _]; apply andb_true_iff in H as [H _]; apply Nat.ltb_lt; auto. }
    rewrite (at_lt _ _ []) by exact Hk. reflexivity.
  Qed.

  Lemma locate_ok s r c : shape s -> (c <= r)%nat -> (r < N)%nat ->
    (stored r c -> locate s (owner c) r c = Ok (Some (address r c))) /\ (~ stored r c -> locate s (owner c) r c = Ok None).
  Proof.
    intros (EP & EW) Hcr Hr. destruct (Get_addr_ok _ _ FC w HW r c Hcr Hr) as [G1 G2].
    unfold Get_addr in G1, G2. destruct (Nat.ltb_spec r c); [lia|]. rewrite (LookupSuperNode_ok _ _ FC w HW) in G1, G2 by lia. cbn [bind] in G1, G2.
    unfold locate. rewrite EP, EW. pose proof (address_in_block _ _ FC w HW r c) as HB.
    destruct (at_ rows (owner c)) as [p| | |]; cbn [bind] in *; try (split; intros H'; [specialize (G1 H')|specialize (G2 H')]; discriminate).
    destruct (at_ p 0) as [f| | |]; cbn [bind] in *; try (split; intros H'; [specialize (G1 H')|specialize (G2 H')]; discriminate).
    destruct (at_ (ws_size w) (owner c)) as [q| | |]; cbn [bind] in *; try (split; intros H'; [specialize (G1 H')|specialize (G2 H')]; discriminate).
    destruct ((r - f <? q)%nat && (c - f <? q)%nat)%bool.
    - split; intros H'; [specialize (G1 H')|specialize (G2 H'); discriminate]. injection G1 as E. rewrite E, in_storage_ok; auto.
    - destruct (path_pos r (skipn q p) 0); (split; intros H'; [specialize (G1 H')|specialize (G2 H')]); try discriminate; auto.
      injection G1 as E. rewrite E, in_storage_ok; auto.
  Qed.

  Lemma get_ok s r c : shape s -> (c <= r)%nat -> (r < N)%nat -> Get s r c = Ok (V s r c).
  Proof.
    intros Hs Hcr Hr. unfold Get. destruct (Nat.ltb_spec r c); [lia|]. rewrite lookup_ok by (auto; lia). cbn [bind].
    destruct (locate_ok s r c Hs Hcr Hr) as [L1 L2]. destruct (stored_dec rows size r c Hcr Hr) as [S|S].
    - rewrite L1 by auto. cbn [bind]. unfold V. rewrite (view_stored _ _ FC) by auto. reflexivity.
    - rewrite L2 by auto. cbn [bind]. unfold V. rewrite (view_unstored _ _ FC) by auto. reflexivity.
  Qed.

  Lemma increment_ok s v r c : shape s -> stored r c -> exists s', Increment s v r c = Ok s' /\ shape s' /\ sp_N s' = sp_N s /\
    V s' r c = V s r c + v /\ forall r' c', (c' <= r')%nat -> (r' < N)%nat -> r' <> r \/ c' <> c -> V s' r' c' = V s r' c'.
  Proof.
    intros Hs S. pose proof S as (Hcr & Hr & _). unfold Increment. destruct (Req_EM_T v 0) as [->|Hv].
    - exists s. repeat split; auto; try apply Hs. ring.
    - rewrite lookup_ok by (auto; lia). cbn [bind]. destruct (locate_ok s r c Hs Hcr Hr) as [L1 _]. rewrite L1 by auto. cbn [bind].
      eexists. split; [reflexivity|]. split; [apply shape_with; auto|]. split; [reflexivity|]. unfold V, with_mem. cbn [sp_mem]. split.
      + rewrite !(view_stored _ _ FC) by auto. unfold mem_set. destruct (addr_eqb_spec (address r c) (address r c)); congruence.
      + intros r' c' H1 H2 H3. destruct (stored_dec rows size r' c' H1 H2) as [S'|S'].
        * rewrite !(view_stored _ _ FC) by auto. unfold mem_set. destruct (addr_eqb_spec (address r c) (address r' c')) as [E|]; auto.
          apply (address_inj _ _ FC) in E; auto. lia.
        * rewrite !(view_unstored _ _ FC) by auto. reflexivity.
  Qed.

  (** ** Columns *)
  Definition cursor_at (i : nat) : cursor := mkCursor (owner i) (sz (owner i) - (i - off (owner i))) i (i - off (owner i)).

  Lemma owner_bounds i : (i < N)%nat -> (owner i < n)%nat /\ (off (owner i) <= i < off (owner i) + sz (owner i))%nat.
  Proof. intros Hi. destruct (owner_block _ _ FC i Hi) as [H1 [H2 H3]]. cbn in H3. lia. Qed.

  Lemma at_size k : (k < n)%nat -> at_ size k = Ok (sz k).
  Proof. intros Hk. apply at_lt. rewrite (fc_len _ _ FC). auto. Qed.

  Lemma first_ok s : shape s -> first_column s = Ok (cursor_at 0).
  Proof.
    intros (_ & EW). unfold first_column. rewrite EW, (wk_size _ _ _ HW), at_size by auto. cbn [bind].
    assert (owner 0 = 0%nat) as E by (pose proof (own _ _ 0 0 Hn (full 0%nat Hn)); auto).
    unfold cursor_at. rewrite E. cbn. rewrite Nat.sub_0_r. reflexivity.
  Qed.

  Lemma next_ok s i : shape s -> (S i < N)%nat -> NextColumn s (cursor_at i) = Ok (cursor_at (S i)).
  Proof.
    intros (_ & EW) Hi. destruct (owner_bounds i ltac:(lia)) as [Hk Ho]. unfold NextColumn. cbn [cursor_at cu_node cu_sncol cu_column cu_dense].
    rewrite EW, (wk_size _ _ _ HW), at_size by auto. cbn [bind]. destruct (Nat.leb_spec (sz (owner i)) (S (i - off (owner i)))) as [H|H].
    - assert (S i = off (S (owner i)) + 0)%nat as E by (cbn; lia).
      assert (S (owner i) < n)%nat as Hk'.
      { destruct (Nat.lt_ge_cases (S (owner i)) n); auto. assert (S (owner i) = n) as En by lia. pose proof (off_n _ _ FC). rewrite En in E. lia. }
      pose proof (own _ _ (S (owner i)) 0 Hk' (full _ Hk')) as Eo. rewrite <- E in Eo.
      rewrite at_size by auto. cbn [bind]. unfold cursor_at. rewrite Eo. f_equal. f_equal; lia.
    - assert (owner (S i) = owner i) as Eo.
      { pose proof (own _ _ (owner i) (S (i - off (owner i))) Hk H) as E. replace (off (owner i) + S (i - off (owner i)))%nat with (S i) in E by lia. auto. }
      unfold cursor_at. rewrite Eo. f_equal. f_equal; lia.
  Qed.

  Lemma diag_stored i : (i < N)%nat -> stored i i /\ address i i = ADiag (owner i) (i - off (owner i)) (i - off (owner i)).
  Proof.
    intros Hi. destruct (owner_bounds i Hi) as [Hk Ho]. destruct (rows_split _ _ FC _ Hk) as (Er & _). split.
    - split; auto. split; auto. unfold stored_row. rewrite Er, in_app_iff. left. apply in_seq. lia.
    - unfold TriWorkspaceProofs.address. rewrite Nat.eqb_refl. reflexivity.
  Qed.

  Lemma diag_ok s i : shape s -> (i < N)%nat -> Diagonal s (cursor_at i) = Ok (V s i i).
  Proof.
    intros (_ & EW) Hi. destruct (diag_stored i Hi) as [S E]. unfold Diagonal. cbn [cursor_at cu_node cu_sncol]. rewrite EW, <- E.
    rewrite in_storage_ok by (apply (address_in_block _ _ FC w HW); auto). cbn [bind]. unfold V. rewrite (view_stored _ _ FC) by auto. reflexivity.
  Qed.

  Lemma rescale_ok s i f : shape s -> (i < N)%nat -> exists s', Rescale s (cursor_at i) f = Ok s' /\ shape s' /\ sp_N s' = sp_N s /\
    forall r c, (c <= r)%nat -> (r < N)%nat -> V s' r c = if (c =? i)%nat then V s r c * f else V s r c.
  Proof.
    intros Hs Hi. pose proof Hs as (_ & EW). destruct (diag_stored i Hi) as [S E]. unfold Rescale. cbn [cursor_at cu_node cu_sncol]. rewrite EW, <- E.
    rewrite in_storage_ok by (apply (address_in_block _ _ FC w HW); auto). cbn [bind]. eexists. split; [reflexivity|]. split; [apply shape_with; auto|]. split; [reflexivity|].
    intros r c Hcr Hr. unfold V, with_mem. cbn [sp_mem]. destruct (stored_dec rows size r c Hcr Hr) as [S'|S'].
    2: { rewrite !(view_unstored _ _ FC) by auto. destruct (c =? i)%nat; ring. }
    rewrite !(view_stored _ _ FC) by auto. destruct (owner_bounds i Hi) as [Hk Ho]. destruct (owner_bounds c ltac:(lia)) as [Hk' Ho'].
    assert (((owner c =? owner i) && (c - off (owner c) =? i - off (owner i)))%nat%bool = (c =? i)%nat) as Eb.
    { destruct (Nat.eqb_spec c i) as [->|Hne]; [rewrite !Nat.eqb_refl; reflexivity|].
      destruct (Nat.eqb_spec (owner c) (owner i)) as [Eo|]; auto. rewrite Eo in *. apply Nat.eqb_neq. lia. }
    unfold TriWorkspaceProofs.address. destruct (Nat.eqb_spec (owner r) (owner c)) as [Eo|Eo]; [rewrite Eb; reflexivity|].
    destruct (stored_cases _ _ FC r c S') as [|[_ Hin]]; [congruence|].
    pose proof (sep_pos_spec r (sepof (owner c)) 0) as HP. destruct (sep_pos r (sepof (owner c)) 0); [|tauto]. rewrite Eb. reflexivity.
  Qed.

  Lemma sep_at k i : (k < n)%nat -> (i < length (sepof k))%nat -> at_ (nth k rows []) (sz k + i)%nat = Ok (nth i (sepof k) 0%nat).
  Proof.
    intros Hk Hi. destruct (rows_split _ _ FC k Hk) as (Er & _). rewrite Er at 1. rewrite (at_lt _ _ 0%nat) by (rewrite app_length, seq_length; lia).
    rewrite app_nth2 by (rewrite seq_length; lia). rewrite seq_length. f_equal. f_equal. lia.
  Qed.

  Lemma nonzero_ok s i : shape s -> (i < N)%nat -> exists I, NonzeroRows s (cursor_at i) = Ok I /\
    (forall r, In r I <-> (i < r)%nat /\ stored r i) /\ forall j k, (j < k < length I)%nat -> (nth j I 0 < nth k I 0)%nat.
  Proof.
    intros (EP & EW) Hi. destruct (owner_bounds i Hi) as [Hk Ho]. unfold NonzeroRows. cbn [cursor_at cu_node cu_sncol cu_column cu_dense].
    rewrite EW, EP, (wk_size _ _ _ HW), at_size by auto. cbn [bind].
    rewrite (at_lt _ _ []) by (rewrite (len_seps _ _ w HW); auto). cbn [bind]. rewrite (nth_seps _ _ w HW) by auto.
    rewrite (mapM_total _ (fun j => nth j (sepof (owner i)) 0%nat)).
    2: { intros j Hj. apply in_seq in Hj. destruct (first_row (owner i) Hk) as [-> _]. cbn [bind]. apply sep_at; auto. lia. }
    cbn [bind]. eexists. split; [reflexivity|].
    assert (map (fun j => nth j (sepof (owner i)) 0%nat) (seq 0 (length (sepof (owner i)))) = sepof (owner i)) as ->.
    { generalize (sepof (owner i)). intros l. apply (nth_ext _ _ 0%nat 0%nat); [rewrite map_length, seq_length; auto|]. intros j Hj. rewrite map_length, seq_length in Hj.
      rewrite nth_map_seq by auto. reflexivity. }
    set (q := (sz (owner i) - (i - off (owner i)) - 1)%nat).
    assert (map (fun j => (i + j)%nat) (seq 1 q) = seq (S i) q) as ->.
    { apply (nth_ext _ _ 0%nat 0%nat); [rewrite map_length, !seq_length; auto|]. intros j Hj. rewrite map_length, seq_length in Hj.
      rewrite nth_map_seq, seq_nth by auto. lia. }
    destruct (rows_split _ _ FC _ Hk) as (Er & SS & R). split.
    - intros r. rewrite in_app_iff, in_seq. split.
      + intros [H|H].
        * assert (r < N)%nat by (pose proof (off_mono size (S (owner i)) n ltac:(lia)) as M; rewrite (off_n _ _ FC) in M; cbn in M; lia).
          split; [lia|]. split; [lia|]. split; [auto|]. unfold stored_row. rewrite Er, in_app_iff. left. apply in_seq. lia.
        * pose proof (R r H) as Hr. cbn in Hr. split; [lia|]. split; [lia|]. split; [lia|]. unfold stored_row. rewrite Er, in_app_iff. auto.
      + intros (H1 & _ & _ & H2). unfold stored_row in H2. rewrite Er, in_app_iff in H2. destruct H2 as [H2|H2]; [left; apply in_seq in H2; lia|auto].
    - intros j k Hjk. rewrite app_length, seq_length in Hjk.
      destruct (Nat.lt_ge_cases k q).
      + rewrite !app_nth1 by (rewrite seq_length; lia). rewrite !seq_nth by lia. lia.
      + rewrite (app_nth2 _ _ _ (n := k)) by (rewrite seq_length; lia). rewrite seq_length.
        assert (In (nth (k - q) (sepof (owner i)) 0%nat) (sepof (owner i))) as Hin by (apply nth_In; lia).
        destruct (Nat.lt_ge_cases j q).
        * rewrite app_nth1 by (rewrite seq_length; lia). rewrite seq_nth by lia. pose proof (R _ Hin) as Hr. cbn in Hr. lia.
        * rewrite app_nth2 by (rewrite seq_length; lia). rewrite seq_length.
          pose proof (sorted_nth_le (sepof (owner i)) (j - q) (k - q) SS ltac:(lia) ltac:(lia)) as H2.
          assert (nth (j - q) (sepof (owner i)) 0%nat <> nth (k - q) (sepof (owner i)) 0%nat); [|lia].
          intros E. apply (NoDup_nth _ 0%nat) in E; try lia. apply (sep_nodup _ _ FC); auto.
  Qed.

  Lemma subtract_ok s i I : shape s -> (i < N)%nat -> (forall r, In r I <-> (i < r)%nat /\ stored r i) ->
    (forall j k, (j < k < length I)%nat -> (nth j I 0 < nth k I 0)%nat) ->
    exists s', subtract_column s i I = Ok s' /\ shape s' /\ sp_N s' = sp_N s /\
      forall r c, (c <= r < N)%nat -> V s' r c = if (i <? c)%nat then V s r c - V s r i * V s c i else V s r c.
  Proof.
    intros Hs Hi HI HO. set (x := V s). set (len := length I). set (e := fun k => nth k I 0%nat).
    assert (forall k, (k < len)%nat -> (i < e k)%nat /\ stored (e k) i) as He by (intros k Hk; apply HI; apply nth_In; auto).
    assert (forall k, (k < len)%nat -> (e k < N)%nat) as HeN by (intros k Hk; destruct (He k Hk) as (_ & _ & ? & _); auto).
    assert (forall j k, (k <= j < len)%nat -> stored (e j) (e k)) as Hst.
    { intros j k Hjk. destruct (He j ltac:(lia)) as (Hj & _ & Hjn & Hj'). destruct (He k ltac:(lia)) as (Hk & _ & Hkn & Hk').
      destruct (owner_bounds i Hi) as [Ho _]. destruct (owner_block _ _ FC (e k) Hkn) as [Ho' Hb].
      assert (e k <= e j)%nat as Hle by (destruct (Nat.eq_dec k j) as [->|]; [lia|]; pose proof (HO k j ltac:(fold len; lia)) as Hlt; unfold e; lia).
      split; auto. split; auto. apply (fc_closed _ _ FC (owner i) (owner (e k)) (e j) (e k)); auto. }
    set (term := fun r c k t => if ((c =? e k) && (r =? e t))%nat%bool then x r i * x c i else 0).
    assert (forall r k t, (k < len)%nat -> term r i k t = 0) as Tz.
    { intros r k t Hk. unfold term. destruct (He k Hk) as [? _]. destruct (Nat.eqb_spec i (e k)); [lia|reflexivity]. }
    unfold subtract_column. fold len.
    destruct (foldM_from
      (fun s k => rk <- at_ I k ;; g <- Get s rk i ;; foldM (fun s j => rj <- at_ I j ;; v <- Get s rj i ;; Increment s (- g * v) rj rk) s (seq k (len - k)))
      (fun k s1 => shape s1 /\ sp_N s1 = sp_N s /\ forall r c, (c <= r < N)%nat -> V s1 r c = x r c - rsum k (fun q => rsum (len - q) (fun t => term r c q (q + t)%nat)))
      len 0%nat s) as (s' & E & H1 & H2 & H3).
    - split; [auto|]. split; [auto|]. intros r c Hr. cbn. unfold x. ring.
    - intros k s0 Hk (S0 & N0 & V0). rewrite (at_lt _ _ 0%nat) by (fold len; lia). cbn [bind]. fold (e k).
      destruct (He k ltac:(lia)) as (Hki & _). pose proof (HeN k ltac:(lia)) as HkN.
      assert (forall r, (i <= r < N)%nat -> V s0 r i = x r i) as Vi0.
      { intros r Hr. rewrite V0 by lia. rewrite rsum_zero; [ring|]. intros q Hq. apply rsum_zero. intros t Ht. apply Tz. lia. }
      rewrite get_ok by (auto; lia). cbn [bind]. rewrite Vi0 by lia.
      destruct (foldM_from (fun s j => rj <- at_ I j ;; v <- Get s rj i ;; Increment s (- x (e k) i * v) rj (e k))
        (fun j s1 => shape s1 /\ sp_N s1 = sp_N s /\ forall r c, (c <= r < N)%nat -> V s1 r c = V s0 r c - rsum (j - k) (fun t => term r c k (k + t)%nat))
        (len - k) k s0) as (s1 & E1 & S1 & N1 & V1).
      + split; [auto|]. split; [auto|]. intros r c Hr. rewrite Nat.sub_diag. cbn. ring.
      + intros j s1 Hj (S1 & N1 & V1). rewrite (at_lt _ _ 0%nat) by (fold len; lia). cbn [bind]. fold (e j).
        destruct (He j ltac:(lia)) as (Hji & _). pose proof (HeN j ltac:(lia)) as HjN.
        rewrite get_ok by (auto; lia). cbn [bind].
        assert (V s1 (e j) i = x (e j) i) as ->.
        { rewrite V1, Vi0 by lia. rewrite rsum_zero; [ring|]. intros t Ht. apply Tz. lia. }
        destruct (increment_ok s1 (- x (e k) i * x (e j) i) (e j) (e k) S1 (Hst j k ltac:(lia))) as (s2 & E2 & S2 & N2 & V2 & V3).
        exists s2. split; [exact E2|]. split; [auto|]. split; [congruence|]. intros r c Hr.
        replace (S j - k)%nat with (S (j - k)) by lia. rewrite rsum_S. replace (k + (j - k))%nat with j by lia.
        destruct (Nat.eq_dec r (e j)) as [->|Hr']; [destruct (Nat.eq_dec c (e k)) as [->|Hc']|].
        * rewrite V2, V1 by lia. unfold term at 3. rewrite !Nat.eqb_refl. cbn [andb]. ring.
        * rewrite V3, V1 by lia. unfold term at 3. destruct (Nat.eqb_spec c (e k)); [lia|]. cbn [andb]. ring.
        * rewrite V3, V1 by lia. unfold term at 3. destruct (Nat.eqb_spec r (e j)); [lia|]. rewrite andb_false_r. ring.
      + exists s1. split; [exact E1|]. split; [auto|]. split; [auto|]. intros r c Hr. rewrite V1, V0 by lia. rewrite rsum_S. replace (k + (len - k) - k)%nat with (len - k)%nat by lia. ring.
    - exists s'. split; [exact E|]. split; [auto|]. split; [auto|]. intros r c Hr. rewrite H3 by auto. cbn [Nat.add]. fold x.
      assert (forall k, (k < len)%nat -> forall t, (k < t < len)%nat -> (e k < e t)%nat) as Hlt by (intros k Hk t Ht; apply HO; fold len; lia).
      destruct (in_dec Nat.eq_dec c I) as [Ic|Ic]; [destruct (in_dec Nat.eq_dec r I) as [Ir|Ir]|].
      + apply (In_nth _ _ 0%nat) in Ic as (k & Hk & Ek). apply (In_nth _ _ 0%nat) in Ir as (j & Hj & Ej). fold len in Hk, Hj. fold (e k) in Ek. fold (e j) in Ej.
        assert (k <= j)%nat as Hkj. { destruct (Nat.le_gt_cases k j); auto. pose proof (Hlt j Hj k ltac:(lia)). lia. }
        assert (forall a b, (a < len)%nat -> (b < len)%nat -> e a = e b -> a = b) as Hinj.
        { intros a b Ha Hb Eab. destruct (lt_eq_lt_dec a b) as [[?|?]|?]; auto; [pose proof (Hlt a Ha b ltac:(lia))|pose proof (Hlt b Hb a ltac:(lia))]; lia. }
        rewrite (rsum_single _ k); auto.
        2: { intros q Hq Hne. apply rsum_zero. intros t Ht. unfold term. destruct (Nat.eqb_spec c (e q)) as [Eq|]; auto. exfalso. apply Hne. apply Hinj; auto. congruence. }
        rewrite (rsum_single _ (j - k)); [|lia|].
        2: { intros t Ht Hne. unfold term. destruct (Nat.eqb_spec r (e (k + t)%nat)) as [Eq|]; [|rewrite andb_false_r; auto]. exfalso. apply Hne.
             assert (j = k + t)%nat by (apply Hinj; try lia; congruence). lia. }
        replace (k + (j - k))%nat with j by lia. unfold term. rewrite Ek, Ej, !Nat.eqb_refl. cbn [andb]. destruct (Nat.ltb_spec i c); [reflexivity|]. destruct (He k Hk). lia.
      + rewrite rsum_zero.
        2: { intros q Hq. apply rsum_zero. intros t Ht. unfold term. destruct (Nat.eqb_spec r (e (q + t)%nat)) as [Eq|]; [|rewrite andb_false_r; auto].
             exfalso. apply Ir. rewrite Eq. apply nth_In. fold len. lia. }
        destruct (Nat.ltb_spec i c); [|ring]. assert (x r i = 0) as ->; [|ring]. unfold x, V. apply (view_unstored _ _ FC); [lia|lia|]. intros S. apply Ir. apply HI. split; [lia|auto].
      + rewrite rsum_zero.
        2: { intros q Hq. apply rsum_zero. intros t Ht. unfold term. destruct (Nat.eqb_spec c (e q)) as [Eq|]; [|auto].
             exfalso. apply Ic. rewrite Eq. apply nth_In. fold len. lia. }
        destruct (Nat.ltb_spec i c); [|ring]. assert (x c i = 0) as ->; [|ring]. unfold x, V. apply (view_unstored _ _ FC); [lia|lia|]. intros S. apply Ic. apply HI. split; [lia|auto].
  Qed.

  Lemma scale_ok A s k : shape s -> (k < N)%nat -> eliminated N A k (V s) ->
    exists r, scale_column s (cursor_at k) = Ok r /\
    match r with Some s' => shape s' /\ sp_N s' = sp_N s /\ scaled N A k (V s') | None => V s k k <= 0 end.
  Proof.
    intros Hs Hk HE. unfold scale_column. rewrite diag_ok by auto. cbn [bind]. destruct (Rlt_dec 0 (V s k k)) as [Hd|Hd].
    - destruct (rescale_ok s k (1 / sqrt (V s k k)) Hs Hk) as (s' & E & S' & N' & V'). rewrite E. cbn [bind]. eexists. split; [reflexivity|].
      split; [auto|]. split; [auto|]. apply (scale_step N A k (V s)); auto. intros r c Hr. apply V'; lia.
    - eexists. split; [reflexivity|]. cbn. lra.
  Qed.

  (** The outcome of the factorization: the factor, or a matrix that has none. *)
  Lemma cholesky_ok s : shape s -> sp_N s = N -> exists r, CholeskyInPlace s = Ok r /\
    match r with
    | Some s' => shape s' /\ sp_N s' = N /\ factors N (V s) (V s')
    | None => forall L, ~ factors N (V s) L
    end.
  Proof.
    intros Hs HN. pose proof N_pos as Np. set (A := V s).
    assert (eliminated N A 0 (V s)) as H0.
    { split; [lia|]. split; [lia|]. intros r c Hr _. cbn. unfold A. ring. }
    assert (forall k s1, (k < N)%nat -> eliminated N A k (V s1) -> V s1 k k <= 0 -> forall L, ~ factors N A L) as Hfail.
    { intros k s1 Hk HE Hle L HL. pose proof (pivot_positive N A k (V s1) L Hk HE HL). lra. }
    unfold CholeskyInPlace. rewrite first_ok by auto. cbn [bind].
    destruct (scale_ok A s 0 Hs Np H0) as ([s1|] & E1 & H1); rewrite E1; cbn [bind].
    2: { exists None. split; [reflexivity|]. cbn. apply (Hfail 0%nat s); auto. }
    destruct H1 as (S1 & N1 & C1). rewrite HN.
    destruct (foldM_from chol_column (fun k st => match st with
        | Some (cu, s2) => cu = cursor_at k /\ shape s2 /\ sp_N s2 = N /\ scaled N A k (V s2)
        | None => forall L, ~ factors N A L end) (N - 1) 0%nat (Some (cursor_at 0, s1))) as (st & E & HJ).
    - split; [auto|]. split; [auto|]. split; [congruence|auto].
    - intros k st Hk HJ. destruct st as [[cu s2]|]; [|exists None; split; auto]. destruct HJ as (-> & S2 & N2 & C2). cbn [chol_column].
      destruct (nonzero_ok s2 k S2 ltac:(lia)) as (I & EI & HI & HO). rewrite EI. cbn [bind].
      destruct (subtract_ok s2 k I S2 ltac:(lia) HI HO) as (s3 & E3 & S3 & N3 & V3). rewrite E3. cbn [bind].
      rewrite next_ok by (auto; lia). cbn [bind].
      assert (eliminated N A (S k) (V s3)) as HE by (apply (subtract_step N A k (V s2)); auto; lia).
      destruct (scale_ok A s3 (S k) S3 ltac:(lia) HE) as ([s4|] & E4 & H4); rewrite E4; cbn [bind]; eexists; (split; [reflexivity|]).
      + destruct H4 as (S4 & N4 & C4). split; [auto|]. split; [auto|]. split; [congruence|auto].
      + cbn. apply (Hfail (S k) s3); auto. lia.
    - rewrite E. cbn [bind]. destruct st as [[cu s2]|]; (eexists; split; [reflexivity|]); auto.
      destruct HJ as (_ & S2 & N2 & C2 & C3 & _). split; [auto|]. split; [auto|]. split; [intros c Hc; apply C2; lia|]. intros r c Hr. apply C3; lia.
  Qed.

  (** ** Solves *)
  Lemma subtract_weighted_ok s i b y : shape s -> (i < N)%nat -> exists b', SubtractWeightedColumn s (cursor_at i) N b y = Ok b' /\
    forall r, (r < N)%nat -> b' r = if (i <=? r)%nat then b r - y * V s r i else b r.
  Proof.
    intros (EP & EW) Hi. destruct (owner_bounds i Hi) as [Hk Ho]. set (k := owner i) in *. unfold SubtractWeightedColumn.
    cbn [cursor_at cu_node cu_sncol cu_column cu_dense]. fold k. rewrite EW, EP, (wk_size _ _ _ HW), at_size by auto. cbn [bind].
    rewrite (at_lt _ _ []) by (rewrite (len_snodes _ _ w HW); auto). cbn [bind].
    assert (off k + sz k <= N)%nat as HkN by (pose proof (off_mono size (S k) n ltac:(lia)) as M; rewrite (off_n _ _ FC) in M; cbn in M; lia).
    set (q := (i - off k)%nat) in *. set (ds := (sz k - q)%nat).
    destruct (Nat.leb_spec (i + ds) N); [|unfold ds, q in *; lia]. destruct (Nat.ltb_spec q (sz k)); [|unfold q in *; lia]. destruct (Nat.leb_spec ds (sz k)); [|unfold ds in *; lia]. cbn [andb].
    rewrite (at_lt _ _ []) by (rewrite (len_seps _ _ w HW); auto). cbn [bind]. rewrite (nth_seps _ _ w HW) by auto.
    match goal with |- context [foldM _ ?B _] => set (b1 := B) end.
    assert (forall r, b1 r = if ((i <=? r) && (r <? i + ds))%nat%bool then b r - y * sp_mem s (ADiag k (r - off k) q) else b r) as HB.
    { apply (for_up_inv (fun t (b1 : vec) => forall r, b1 r = if ((i <=? r) && (r <? i + t))%nat%bool then b r - y * sp_mem s (ADiag k (r - off k) q) else b r)).
      - intros r. destruct (Nat.leb_spec i r); [|reflexivity]. destruct (Nat.ltb_spec r (i + 0)); [lia|reflexivity].
      - intros t b0 Ht Hb r. unfold vset. destruct (Nat.eqb_spec r (i + t)) as [->|Hne].
        + rewrite Hb. destruct (Nat.leb_spec i (i + t)); [|lia]. destruct (Nat.ltb_spec (i + t) (i + t)); [lia|]. destruct (Nat.ltb_spec (i + t) (i + S t)); [|lia]. cbn [andb].
          replace (sz k - ds + t)%nat with (i + t - off k)%nat by (unfold ds, q in *; lia). reflexivity.
        + rewrite Hb. destruct (Nat.leb_spec i r); [|reflexivity]. destruct (Nat.ltb_spec r (i + t)), (Nat.ltb_spec r (i + S t)); try lia; reflexivity. }
    clearbody b1. destruct (rows_split _ _ FC k Hk) as (Er & SS & R).
    destruct (foldM_from (fun b i0 => p <- at_ rows k ;; row <- at_ p (sz k + i0)%nat ;; if (row <? N)%nat then Ok (vset b row (b row - y * sp_mem s (AOff k q i0))) else UB)
      (fun t b2 => (forall j, (j < t)%nat -> b2 (nth j (sepof k) 0%nat) = b1 (nth j (sepof k) 0%nat) - y * sp_mem s (AOff k q j)) /\
         forall r, (forall j, (j < t)%nat -> r <> nth j (sepof k) 0%nat) -> b2 r = b1 r)
      (length (sepof k)) 0%nat b1) as (b2 & E & H1' & H2').
    - split; [lia|auto].
    - intros t b2 Ht (HA & HB'). destruct (first_row k Hk) as [E1 _]. rewrite E1. cbn [bind]. rewrite sep_at by (auto; lia). cbn [bind].
      destruct (sep_in _ _ FC k t Hk ltac:(lia)) as [Hr _]. destruct (Nat.ltb_spec (nth t (sepof k) 0%nat) N); [|lia]. eexists. split; [reflexivity|].
      assert (forall j, (j < length (sepof k))%nat -> nth j (sepof k) 0%nat = nth t (sepof k) 0%nat -> j = t) as Hinj.
      { intros j Hj Ej. apply (NoDup_nth (sepof k) 0%nat); auto; [apply (sep_nodup _ _ FC); auto|lia]. }
      split.
      + intros j Hj. unfold vset. destruct (Nat.eqb_spec (nth j (sepof k) 0%nat) (nth t (sepof k) 0%nat)) as [Ej|Ej].
        * apply Hinj in Ej; [|lia]. subst j. rewrite HB'; [reflexivity|]. intros j Hj' Ej. symmetry in Ej. apply Hinj in Ej; lia.
        * apply HA. destruct (Nat.eq_dec j t) as [->|]; [congruence|lia].
      + intros r Hr'. unfold vset. destruct (Nat.eqb_spec r (nth t (sepof k) 0%nat)) as [->|]; [exfalso; apply (Hr' t); auto|]. apply HB'. intros j Hj. apply Hr'. lia.
    - exists b2. split; [exact E|]. cbn [Nat.add] in H1', H2'. intros r Hr.
      assert (i = off k + q)%nat as Ei by (unfold q; lia).
      destruct (Nat.lt_ge_cases r (off k + sz k)) as [Hlt|Hge].
      + rewrite H2', HB by (intros j Hj Ej; pose proof (R r ltac:(rewrite Ej; apply nth_In; auto)) as Hb; cbn in Hb; lia).
        destruct (Nat.leb_spec i r); [|reflexivity]. destruct (Nat.ltb_spec r (i + ds)); [|unfold ds, q in *; lia]. cbn [andb]. unfold V, BlockProofs.view.
        replace (Gof rows size (diag_of (sp_mem s)) (sp_mem s) r i) with (Gof rows size (diag_of (sp_mem s)) (sp_mem s) (off k + (r - off k))%nat (off k + q)%nat) by (f_equal; lia).
        rewrite Gof_diag by lia. reflexivity.
      + destruct (Nat.leb_spec i r); [|lia]. destruct (in_dec Nat.eq_dec r (sepof k)) as [Ir|Ir].
        * apply (In_nth _ _ 0%nat) in Ir as (j & Hj & Ej). subst r. rewrite H1' by auto. rewrite HB.
          destruct (Nat.ltb_spec (nth j (sepof k) 0%nat) (i + ds)); [unfold ds, q in *; lia|]. rewrite andb_false_r. unfold V, BlockProofs.view.
          rewrite Ei. rewrite (Gof_off _ _ FC) by (auto; lia). reflexivity.
        * rewrite H2', HB by (intros j Hj Ej; apply Ir; rewrite Ej; apply nth_In; auto).
          destruct (Nat.ltb_spec r (i + ds)); [unfold ds, q in *; lia|]. rewrite andb_false_r. unfold V, BlockProofs.view. rewrite Ei. rewrite (Gof_none _ _); auto; [ring|].
          intros Eo. destruct (owner_bounds r Hr) as [_ Hb]. rewrite Eo in Hb. lia.
  Qed.

  Lemma quotient_spec a d : (d <> 0 -> quotient a d = Some (a / d)) /\ (d = 0 -> quotient a d = None).
  Proof. unfold quotient. destruct (Req_EM_T d 0); split; intros; auto; congruence. Qed.

  Lemma forward_ok s b : shape s -> exists r, ApplyInverse s N b = Ok r /\
    match r with
    | Some y => (forall c, (c < N)%nat -> V s c c <> 0) /\ forall r, (r < N)%nat -> rsum (S r) (fun c => V s r c * y c) = b r
    | None => exists c, (c < N)%nat /\ V s c c = 0
    end.
  Proof.
    intros Hs. pose proof N_pos as Np. unfold ApplyInverse. rewrite first_ok by auto. cbn [bind]. destruct (Nat.eqb_spec N 0); [lia|].
    rewrite diag_ok by auto. cbn [bind]. unfold quotient at 1. destruct (Req_EM_T (V s 0%nat 0%nat) 0) as [Ez|Ez].
    - eexists. split; [reflexivity|]. exists 0%nat. auto.
    - destruct (foldM_from (forward_column s N) (fun i st => match st with
        | Some (cu, re, y) => cu = cursor_at (i - 1) /\ (forall c, (c < i)%nat -> V s c c <> 0) /\
            (forall r, (i <= r < N)%nat -> re r = b r - rsum (i - 1) (fun c => V s r c * y c)) /\
            forall r, (r < i)%nat -> rsum (S r) (fun c => V s r c * y c) = b r
        | None => exists c, (c < N)%nat /\ V s c c = 0 end) (N - 1) 1%nat (Some (cursor_at 0, b, vset (fun _ => 0) 0 (b 0%nat / V s 0%nat 0%nat)))) as (st & E & HJ).
      + split; [auto|]. split; [intros c Hc; replace c with 0%nat by lia; auto|]. split; [intros r Hr; cbn; ring|].
        intros r Hr. replace r with 0%nat by lia. cbn. unfold vset. cbn. field. auto.
      + intros i st Hi HJ. destruct st as [[[cu re] y]|]; [|exists None; auto]. destruct HJ as (-> & HD & HR & HY). cbn [forward_column].
        destruct (subtract_weighted_ok s (i - 1) re (y (i - 1)%nat) Hs ltac:(lia)) as (re' & E' & Hre). rewrite E'. cbn [bind].
        rewrite next_ok by (auto; lia). cbn [bind]. replace (S (i - 1)) with i by lia. rewrite diag_ok by (auto; lia). cbn [bind].
        assert (forall r, (i <= r < N)%nat -> re' r = b r - rsum i (fun c => V s r c * y c)) as HR'.
        { intros r Hr. rewrite Hre by lia. destruct (Nat.leb_spec (i - 1) r); [|lia]. rewrite HR by lia. replace (rsum i (fun c => V s r c * y c)) with (rsum (S (i - 1)) (fun c => V s r c * y c)) by (f_equal; lia). rewrite rsum_S. ring. }
        unfold quotient. destruct (Req_EM_T (V s i i) 0) as [Ei|Ei]; (eexists; split; [reflexivity|]); cbn beta iota.
        * exists i. split; [lia|auto].
        * split; [f_equal; lia|]. split; [intros c Hc; destruct (Nat.eq_dec c i) as [->|]; auto; apply HD; lia|].
          assert (forall r m, (m <= i)%nat -> rsum m (fun c => V s r c * vset y i (re' i / V s i i) c) = rsum m (fun c => V s r c * y c)) as Ey.
          { intros r m Hm. apply rsum_ext. intros c Hc. rewrite vset_neq by lia. reflexivity. }
          split.
          -- intros r Hr. rewrite HR' by lia. replace (S i - 1)%nat with i by lia. rewrite Ey by lia. reflexivity.
          -- intros r Hr. destruct (Nat.eq_dec r i) as [->|].
             ++ rewrite rsum_S, Ey, vset_eq, HR' by lia. field. auto.
             ++ rewrite Ey by lia. apply HY. lia.
      + rewrite E. cbn [bind]. destruct st as [[[cu re] y]|]; (eexists; split; [reflexivity|]); auto. replace (1 + (N - 1))%nat with N in HJ by lia.
        destruct HJ as (_ & HD & _ & HY). auto.
  Qed.

  (** [sum over t >= c]. *)
  Definition above (s : sparse) (y : vec) (i c : nat) : R := rsum (N - i) (fun t => V s (i + t)%nat c * y (i + t)%nat).
  Lemma above_S s y i c : (i < N)%nat -> above s y i c = V s i c * y i + above s y (S i) c.
  Proof.
    intros Hi. unfold above. replace (N - i)%nat with (S (N - S i)) by lia. rewrite rsum_first, !Nat.add_0_r. f_equal.
    apply rsum_ext. intros t Ht. replace (i + S t)%nat with (S i + t)%nat by lia. reflexivity.
  Qed.

  Lemma backward_ok s b : shape s -> exists r, ApplyInverseOfTranspose s N b = Ok r /\
    match r with
    | Some y => (forall c, (c < N)%nat -> V s c c <> 0) /\ forall c, (c < N)%nat -> above s y c c = b c
    | None => exists c, (c < N)%nat /\ V s c c = 0
    end.
  Proof.
    intros Hs. pose proof N_pos as Np. unfold ApplyInverseOfTranspose. destruct (Nat.eqb_spec N 0); [lia|].
    rewrite get_ok by (auto; lia). cbn [bind]. unfold quotient at 1. destruct (Req_EM_T (V s (N - 1)%nat (N - 1)%nat) 0) as [Ez|Ez].
    - eexists. split; [reflexivity|]. exists (N - 1)%nat. split; [lia|auto].
    - assert (forall y c, above s y N c = 0) as AN by (intros; unfold above; rewrite Nat.sub_diag; reflexivity).
      destruct (foldM_down (backward_column s) (fun i st => match st with
        | Some (re, y) => (forall c, (i <= c < N)%nat -> V s c c <> 0) /\
            (forall c, (c <= i)%nat -> re c = b c - above s y (S i) c) /\ forall c, (i <= c < N)%nat -> above s y c c = b c
        | None => exists c, (c < N)%nat /\ V s c c = 0 end) (N - 1) (Some (b, vset (fun _ => 0) (N - 1)%nat (b (N - 1)%nat / V s (N - 1)%nat (N - 1)%nat)))) as (st & E & HJ).
      + replace (S (N - 1)) with N by lia. split; [intros c Hc; replace c with (N - 1)%nat by lia; auto|]. split; [intros c Hc; rewrite AN; ring|].
        intros c Hc. replace c with (N - 1)%nat by lia. rewrite above_S by lia. replace (S (N - 1)) with N by lia. rewrite AN, vset_eq. field. auto.
      + intros i st Hi HJ. destruct st as [[re y]|]; [|exists None; auto]. destruct HJ as (HD & HR & HY). cbn [backward_column]. replace (i + 1)%nat with (S i) by lia.
        destruct (foldM_from (fun re j => g <- Get s (S i) j ;; Ok (vset re j (re j - g * y (S i))))
          (fun t re' => forall c, re' c = if (c <? t)%nat then re c - V s (S i) c * y (S i) else re c) (S i) 0%nat re) as (re' & E' & Hre).
        * intros c. reflexivity.
        * intros t re1 Ht H1. rewrite get_ok by (auto; lia). cbn [bind]. eexists. split; [reflexivity|]. intros c. unfold vset. destruct (Nat.eqb_spec c t) as [->|Hne].
          -- destruct (Nat.ltb_spec t (S t)); [|lia]. rewrite H1. destruct (Nat.ltb_spec t t); [lia|reflexivity].
          -- rewrite H1. destruct (Nat.ltb_spec c t), (Nat.ltb_spec c (S t)); try lia; reflexivity.
        * rewrite E'. cbn [bind]. rewrite get_ok by (auto; lia). cbn [bind]. cbn [Nat.add] in Hre.
          assert (forall c, (c <= i)%nat -> re' c = b c - above s y (S i) c) as HR'.
          { intros c Hc. rewrite Hre. destruct (Nat.ltb_spec c (S i)); [|lia]. rewrite HR by lia. rewrite (above_S _ _ (S i)) by lia. ring. }
          assert (forall v c j, (i < j)%nat -> above s (vset y i v) j c = above s y j c) as Ey.
          { intros v c j Hj. apply rsum_ext. intros t Ht. rewrite vset_neq by lia. reflexivity. }
          unfold quotient. destruct (Req_EM_T (V s i i) 0) as [Ei|Ei]; (eexists; split; [reflexivity|]); cbn beta iota.
          -- exists i. split; [lia|auto].
          -- split; [intros c Hc; destruct (Nat.eq_dec c i) as [->|]; auto; apply HD; lia|]. split.
             ++ intros c Hc. rewrite Ey by lia. apply HR'. auto.
             ++ intros c Hc. destruct (Nat.eq_dec c i) as [->|]; [|rewrite Ey by lia; apply HY; lia]. rewrite above_S, Ey, vset_eq, HR' by lia. field. auto.
      + rewrite E. cbn [bind]. destruct st as [[re y]|]; (eexists; split; [reflexivity|]); auto. destruct HJ as (HD & _ & HY). split; intros; [apply HD|apply HY]; lia.
  Qed.
End Sp.
