(** Proofs about AssemblerModel.v: the assembled matrix. *)
From Coq Require Import List Arith ZArith Bool Lia Sorting.Sorted Permutation.
From Verif Require Import Base BaseFacts TreeModel CliqueModel SupernodeModel TriWorkspaceModel AssemblerModel
  Spec_Block Spec_Assembly CliqueProofs SupernodeProofs TriWorkspaceProofs.
Import ListNotations.

Lemma addr_eqb_spec a b : reflect (a = b) (addr_eqb a b).
Proof.
  destruct a as [n i j|n i j], b as [n' i' j'|n' i' j']; cbn; try (constructor; congruence);
    destruct (Nat.eqb_spec n n'), (Nat.eqb_spec i i'), (Nat.eqb_spec j j'); cbn; constructor; congruence.
Qed.

(** ** The bindings produced by the constructor and [DoBind] *)
Record build_post (cliques dual_vars : list (list nat)) (d : MatrixData) (o : TriWS)
  (bs : list binding) : Prop := {
  bp_an : analysis_ok cliques (d_order d) (d_cliques d) (d_supernode_size d) (d_perm d) (d_perm_inv d) (d_N d)
      (d_sn_labels d) (d_sep_labels d);
  bp_ws : ws_ok (d_cliques d) (d_supernode_size d) o;
  bp_make : TriWS_make (d_cliques d) (d_supernode_size d) = Ok o;
  bp_len : length bs = length cliques;
  bp_bs : forall k, k < length cliques ->
       let j := nth k (d_order d) 0 in
       let c := nth j cliques [] in let dv := nth j dual_vars [] in
       let names := firstn (length c - length dv) c ++ dv in
       nth_error bs k = Some (mkBind k
         (ReplaceWithPosition (nth k (d_sn_labels d) []) names)
         (ReplaceWithPosition (nth k (d_sep_labels d) []) names)
         (map (fun ij => address (d_cliques d) (d_supernode_size d)
                          (nth (fst ij) (sepof (d_cliques d) (d_supernode_size d) k) 0)
                          (nth (snd ij) (sepof (d_cliques d) (d_supernode_size d) k) 0))
            (lower_pairs (length (sepof (d_cliques d) (d_supernode_size d) k))))
         (length c))
}.

Lemma build_ok cliques dual_vars :
  (forall c, In c cliques -> NoDup c) ->
  nth 0 cliques [] <> [] -> length dual_vars = length cliques ->
  (forall e, length (nth e dual_vars []) <= length (nth e cliques [])) ->
  exists d o bs, build cliques dual_vars = Ok (d, o, bs) /\ build_post cliques dual_vars d o bs.
Proof.
  intros ND H0 L Hd. unfold build.
  destruct (kkt_analyze_ok cliques dual_vars ND H0 L Hd) as (d & labels & E & HA & LL & HL).
  rewrite E. cbn [bind].
  pose proof (an_fill _ _ _ _ _ _ _ _ _ HA) as FC.
  destruct (TriWS_make_ok _ _ FC) as (o & Eo & HW). rewrite Eo. cbn [bind].
  destruct (seperator_diagonal_ok _ _ FC o HW) as (ss & Es & Ls & Hs). rewrite Es. cbn [bind].
  eexists d, o, _. split; [reflexivity|]. constructor; auto.
  - unfold make_bindings. rewrite map_length, seq_length. auto.
  - intros k Hk. cbn. unfold make_bindings.
    rewrite nth_error_map. erewrite nth_error_nth' with (d := 0) by (rewrite seq_length; auto).
    rewrite seq_nth by auto. cbn [option_map]. cbn [Nat.add].
    pose proof (HL k Hk) as Hk'. cbv zeta in Hk'. rewrite Hk'.
    rewrite Hs by (rewrite (an_rows _ _ _ _ _ _ _ _ _ HA); auto). reflexivity.
Qed.

Section Mem.
  Variable F : Type.
  Variable F0 : F.
  Variable Fadd : F -> F -> F.
  Notation mem := (mem F).

  (** Writing a list of (address, value) pairs, last wins. *)
  Lemma fold_set_other {A} (adr : A -> addr) (val : mem -> A -> F) l : forall (m : mem) a,
    (forall x, In x l -> adr x <> a) ->
    fold_left (fun m x => mem_set F m (adr x) (val m x)) l m a = m a.
  Proof.
    induction l as [|x l IH]; intros m a H; cbn; auto.
    rewrite IH by (intros; apply H; right; auto). unfold mem_set.
    destruct (addr_eqb_spec (adr x) a); auto. exfalso. apply (H x); auto. left; auto.
  Qed.

  (** Writing values that only depend on the item or on the old content of the
      same address, at pairwise distinct addresses. *)
  Lemma fold_set_hit {A} (adr : A -> addr) (val : F -> A -> F) l : forall (m : mem) x,
    NoDup (map adr l) -> In x l ->
    fold_left (fun m x => mem_set F m (adr x) (val (m (adr x)) x)) l m (adr x) = val (m (adr x)) x.
  Proof.
    induction l as [|y l IH]; intros m x ND Hx; [destruct Hx|].
    cbn in ND. inversion ND as [|? ? Hn ND']; subst. cbn [fold_left].
    destruct Hx as [->|Hx].
    - rewrite (fold_set_other adr (fun m x => val (m (adr x)) x)).
      + unfold mem_set. destruct (addr_eqb_spec (adr x) (adr x)); congruence.
      + intros z Hz E. apply Hn. rewrite <- E. apply in_map. auto.
    - rewrite IH by auto. f_equal. unfold mem_set.
      destruct (addr_eqb_spec (adr y) (adr x)) as [E|]; auto.
      exfalso. apply Hn. rewrite E. apply in_map; auto.
  Qed.

  Lemma fold_left_flat {A B} (g : A -> list B) (f : mem -> B -> mem) l : forall m,
    fold_left (fun m a => fold_left f (g a) m) l m = fold_left f (flat_map g l) m.
  Proof.
    induction l as [|a l IH]; intros m; cbn; auto. rewrite IH, fold_left_app. auto.
  Qed.

  Lemma fold_left_map {A B} (g : A -> B) (f : mem -> B -> mem) l : forall m,
    fold_left f (map g l) m = fold_left (fun m a => f m (g a)) l m.
  Proof. induction l as [|a l IH]; intros m; cbn; auto. Qed.

  (** Set a full rectangle column by column. *)
  Definition rect (rows cols : nat) : list (nat * nat) :=
    flat_map (fun j => map (fun i => (i, j)) (seq 0 rows)) (seq 0 cols).

  Lemma rect_in r c i j : In (i, j) (rect r c) <-> i < r /\ j < c.
  Proof.
    unfold rect. rewrite in_flat_map. split.
    - intros (j' & Hj & Hin). apply in_map_iff in Hin as (i' & E & Hi). injection E as <- <-.
      apply in_seq in Hj. apply in_seq in Hi. lia.
    - intros H. exists j. split; [apply in_seq; lia|]. apply in_map_iff. exists i. split; auto. apply in_seq; lia.
  Qed.

  Lemma rect_fold (adr : nat -> nat -> addr) (v : nat -> nat -> F) r c (m : mem) :
    fold_left (fun m j => fold_left (fun m i => mem_set F m (adr i j) (v i j)) (seq 0 r) m) (seq 0 c) m =
    fold_left (fun m ij => mem_set F m (adr (fst ij) (snd ij)) (v (fst ij) (snd ij))) (rect r c) m.
  Proof.
    unfold rect. rewrite <- fold_left_flat with (g := fun j => map (fun i => (i, j)) (seq 0 r)).
    generalize (seq 0 c). intros l. revert m. induction l as [|a l IH]; intros m; cbn; auto.
    rewrite fold_left_map. cbn. apply IH.
  Qed.

  Lemma nodup_map_inj {A B} (g : A -> B) l : NoDup l -> (forall x y, In x l -> In y l -> g x = g y -> x = y) ->
    NoDup (map g l).
  Proof.
    induction 1 as [|x l Hn ND IH]; intros Hi; cbn; constructor.
    - intros Hin. apply in_map_iff in Hin as (y & E & Hy). apply Hi in E; [|right; auto|left; auto]. subst; auto.
    - apply IH. intros; apply Hi; auto; right; auto.
  Qed.

  Lemma nodup_flat_cols (f : nat -> list nat) l : NoDup l -> (forall j, NoDup (f j)) ->
    NoDup (flat_map (fun j => map (fun i => (i, j)) (f j)) l).
  Proof.
    intros ND Hf. induction ND as [|a l Hn ND IH]; cbn; [constructor|].
    apply NoDup_app_inv. split; [|split; auto].
    - apply nodup_map_inj; auto. intros ? ? _ _ E. congruence.
    - intros (i, j) H1 H2. apply in_map_iff in H1 as (i' & E & _). injection E as <- <-.
      apply in_flat_map in H2 as (j' & Hj & H2). apply in_map_iff in H2 as (i'' & E & _). injection E as <- <-. auto.
  Qed.

  Lemma rect_nodup r c : NoDup (rect r c).
  Proof. apply nodup_flat_cols; intros; apply seq_NoDup. Qed.
  Lemma lower_pairs_nodup n : NoDup (lower_pairs n).
  Proof. apply (nodup_flat_cols (fun j => seq j (n - j))); intros; apply seq_NoDup. Qed.

  (** Result of the individual steps. *)
  Lemma rect_result (adr : nat -> nat -> addr) (v : nat -> nat -> F) r c (m : mem) :
    (forall i j i' j', adr i j = adr i' j' -> i = i' /\ j = j') ->
    let m' := fold_left (fun m j => fold_left (fun m i => mem_set F m (adr i j) (v i j)) (seq 0 r) m) (seq 0 c) m in
    (forall i j, i < r -> j < c -> m' (adr i j) = v i j) /\
    (forall a, (forall i j, i < r -> j < c -> adr i j <> a) -> m' a = m a).
  Proof.
    intros Hi. cbn. split.
    - intros i j Hi' Hj'. rewrite rect_fold.
      refine (eq_trans (fold_set_hit (fun ij => adr (fst ij) (snd ij)) (fun _ ij => v (fst ij) (snd ij)) (rect r c) m (i, j) _ _) _); auto.
      + apply nodup_map_inj; [apply rect_nodup|]. intros (a,b) (a',b') _ _ E. apply Hi in E as [E1 E2]. cbn in *. congruence.
      + apply rect_in; auto.
    - intros a Ha. rewrite rect_fold.
      apply (fold_set_other (fun ij => adr (fst ij) (snd ij)) (fun _ ij => v (fst ij) (snd ij))).
      intros (i,j) Hin. apply rect_in in Hin as [? ?]. cbn. auto.
  Qed.

  Notation UB := (UpdateBlocks F F0 Fadd).

  Definition coefsn (G : block F) (b : binding) i j :=
    GetCoeff F F0 G (nth i (b_sn b) (-1)%Z) (nth j (b_sn b) (-1)%Z).
  Definition coefoff (G : block F) (b : binding) i j :=
    GetCoeff F F0 G (nth i (b_sn b) (-1)%Z) (nth j (b_sep b) (-1)%Z).
  Definition coefsep (G : block F) (b : binding) i j :=
    GetCoeff F F0 G (nth i (b_sep b) (-1)%Z) (nth j (b_sep b) (-1)%Z).

  Lemma SetLowerTri_result m G b :
    let m' := SetLowerTri F F0 m G b in
    (forall i j, j <= i < length (b_sn b) -> m' (ADiag (b_pos b) i j) = coefsn G b i j) /\
    (forall a, (forall i j, a <> ADiag (b_pos b) i j) -> m' a = m a).
  Proof.
    cbn. unfold SetLowerTri. split.
    - intros i j H.
      refine (eq_trans (fold_set_hit (fun ij => ADiag (b_pos b) (fst ij) (snd ij)) (fun _ ij => coefsn G b (fst ij) (snd ij)) _ m (i, j) _ _) _); auto.
      + apply nodup_map_inj; [apply lower_pairs_nodup|]. intros (?,?) (?,?) _ _ E. cbn in E. congruence.
      + apply lower_pairs_in; auto.
    - intros a Ha.
      apply (fold_set_other (fun ij => ADiag (b_pos b) (fst ij) (snd ij)) (fun _ ij => coefsn G b (fst ij) (snd ij))).
      intros (i,j) _ E. apply (Ha i j). auto.
  Qed.

  Lemma Scatter_result m G b (adr : nat -> nat -> addr) :
    b_ss b = map (fun ij => adr (fst ij) (snd ij)) (lower_pairs (length (b_sep b))) ->
    (forall i j i' j', j <= i < length (b_sep b) -> j' <= i' < length (b_sep b) ->
        adr i j = adr i' j' -> i = i' /\ j = j') ->
    let m' := Scatter F F0 Fadd m G b in
    (forall i j, j <= i < length (b_sep b) -> m' (adr i j) = Fadd (m (adr i j)) (coefsep G b i j)) /\
    (forall a, (forall i j, j <= i < length (b_sep b) -> a <> adr i j) -> m' a = m a).
  Proof.
    intros E Hi. cbn. unfold Scatter. rewrite E.
    set (L := lower_pairs (length (b_sep b))).
    assert (combine L (map (fun ij => adr (fst ij) (snd ij)) L) = map (fun ij => (ij, adr (fst ij) (snd ij))) L) as EC.
    { clear. induction L; cbn; auto. f_equal; auto. }
    rewrite EC, fold_left_map.
    assert (forall l m, fold_left (fun (m : mem) a => let '(i, j, a0) := (a, adr (fst a) (snd a)) in
        mem_set F m a0 (Fadd (m a0) (GetCoeff F F0 G (nth i (b_sep b) (-1)%Z) (nth j (b_sep b) (-1)%Z)))) l m =
      fold_left (fun m ij => mem_set F m (adr (fst ij) (snd ij)) (Fadd (m (adr (fst ij) (snd ij))) (coefsep G b (fst ij) (snd ij)))) l m) as EF.
    { clear. induction l as [|(i,j) l IH]; intros m; cbn; auto. }
    rewrite EF. split.
    - intros i j H.
      refine (eq_trans (fold_set_hit (fun ij => adr (fst ij) (snd ij)) (fun x ij => Fadd x (coefsep G b (fst ij) (snd ij))) L m (i, j) _ _) _); auto.
      + apply nodup_map_inj; [apply lower_pairs_nodup|].
        intros (a,b') (a',b'') H1 H2 E'. apply lower_pairs_in in H1, H2. apply Hi in E'; auto. cbn in E'.
        destruct E'; congruence.
      + apply lower_pairs_in; auto.
    - intros a Ha.
      apply (fold_set_other (fun ij => adr (fst ij) (snd ij)) (fun m ij => Fadd (m (adr (fst ij) (snd ij))) (coefsep G b (fst ij) (snd ij)))).
      intros (i,j) Hin E'. apply lower_pairs_in in Hin. eapply Ha; eauto.
  Qed.

  (** ** One constraint *)
  Definition agree_low (G1 G2 : block F) : Prop := forall i j, j <= i -> G1 i j = G2 i j.

  Lemma GetCoeff_agree G1 G2 i j : agree_low G1 G2 -> GetCoeff F F0 G1 i j = GetCoeff F F0 G2 i j.
  Proof.
    intros H. unfold GetCoeff. destruct (Z.ltb_spec i 0), (Z.ltb_spec j 0); cbn; auto.
    destruct (Z.leb_spec j i); apply H; lia.
  Qed.

  Lemma GetCoeff_sym G i j : GetCoeff F F0 G i j = GetCoeff F F0 G j i.
  Proof.
    unfold GetCoeff. destruct (Z.ltb_spec i 0), (Z.ltb_spec j 0); cbn; auto.
    destruct (Z.leb_spec j i), (Z.leb_spec i j); auto; try lia. replace j with i by lia. auto.
  Qed.

  Section Build.
    Variables (cliques dual_vars : list (list nat)) (d : MatrixData) (o : TriWS) (bs : list binding).
    Hypothesis BP : build_post cliques dual_vars d o bs.
    Hypothesis ND : forall c, In c cliques -> NoDup c.
    Notation n := (length cliques).
    Notation rows := (d_cliques d).
    Notation size := (d_supernode_size d).
    Notation off := (offset size).
    Notation HA := (bp_an _ _ _ _ _ BP).
    Notation FC := (an_fill _ _ _ _ _ _ _ _ _ HA).
    Notation sepof := (sepof rows size).
    Notation owner := (owner rows size).
    Notation stored := (stored rows size).
    Notation address := (address rows size).

    Lemma rows_n : length rows = n. Proof. apply (an_rows _ _ _ _ _ _ _ _ _ HA). Qed.

    Definition names (k : nat) : list nat :=
      let j := nth k (d_order d) 0 in
      let c := nth j cliques [] in let dv := nth j dual_vars [] in
      firstn (length c - length dv) c ++ dv.
    Definition lab (k c : nat) : Z :=
      match find_pos (nth c (d_perm_inv d) 0) (names k) 0 with
      | Some i => Z.of_nat i | None => (-1)%Z end.

    Lemma binding_at k : k < n -> exists b, nth_error bs k = Some b /\
      b_pos b = k /\ length (b_sn b) = nth k size 0 /\ length (b_sep b) = length (sepof k) /\
      (forall i, i < nth k size 0 -> nth i (b_sn b) (-1)%Z = lab k (off k + i)) /\
      (forall j, j < length (sepof k) -> nth j (b_sep b) (-1)%Z = lab k (nth j (sepof k) 0)) /\
      b_ss b = map (fun ij => address (nth (fst ij) (sepof k) 0) (nth (snd ij) (sepof k) 0))
                   (lower_pairs (length (b_sep b))) /\
      b_nvars b = length (nth (nth k (d_order d) 0) cliques []).
    Proof.
      intros Hk. pose proof (bp_bs _ _ _ _ _ BP k Hk) as E. cbv zeta in E. fold (names k) in E.
      destruct (an_labels _ _ _ _ _ _ _ _ _ HA k Hk) as [L1 L2].
      destruct (rows_split _ _ FC k ltac:(rewrite rows_n; auto)) as (Er & _ & _).
      assert (nth k (d_sn_labels d) [] = map (fun i => nth i (d_perm_inv d) 0) (seq (off k) (nth k size 0)) /\
              nth k (d_sep_labels d) [] = map (fun i => nth i (d_perm_inv d) 0) (sepof k)) as [E1 E2].
      { rewrite Er, map_app in L2.
        assert (length (nth k (d_sn_labels d) []) = length (map (fun i => nth i (d_perm_inv d) 0) (seq (off k) (nth k size 0)))) as L3
          by (rewrite map_length, seq_length; auto).
        apply app_inj_len; auto. }
      eexists. split; [exact E|]. cbn [b_pos b_sn b_sep b_ss b_nvars].
      unfold ReplaceWithPosition. rewrite !map_length. rewrite L1. rewrite E2, map_length.
      split; auto. split; auto. split; auto. split; [|split].
      - intros i Hi. rewrite E1, map_map.
        rewrite nth_map_lt with (d' := 0) by (rewrite seq_length; auto). rewrite seq_nth by auto. reflexivity.
      - intros j Hj. rewrite map_map. rewrite nth_map_lt with (d' := 0) by auto. reflexivity.
      - auto.
    Qed.

    (** Entry addresses in terms of block positions. *)
    Lemma address_diag k i j : k < n -> i < nth k size 0 -> j < nth k size 0 ->
      address (off k + i) (off k + j) = ADiag k i j.
    Proof.
      intros Hk Hi Hj. unfold TriWorkspaceProofs.address.
      rewrite !(owner_spec _ _ k) by (rewrite ?rows_n; auto; split; cbn; lia).
      rewrite Nat.eqb_refl. f_equal; lia.
    Qed.

    Lemma address_off k i j : k < n -> i < nth k size 0 -> j < length (sepof k) ->
      address (nth j (sepof k) 0) (off k + i) = AOff k i j.
    Proof.
      intros Hk Hi Hj. unfold TriWorkspaceProofs.address.
      rewrite !(owner_spec _ _ k (off k + i)) by (rewrite ?rows_n; auto; split; cbn; lia).
      pose proof (sep_owner_gt _ _ FC k (nth j (sepof k) 0) ltac:(rewrite rows_n; auto) ltac:(apply nth_In; auto)).
      destruct (Nat.eqb_spec (owner (nth j (sepof k) 0)) k); [lia|].
      rewrite sep_pos_nth; auto; [|apply (sep_nodup _ _ FC); rewrite rows_n; auto].
      f_equal. lia.
    Qed.

    (** Shape of stored entries in block column [k]. *)
    Lemma stored_in_column r c : stored r c -> exists k i, k < n /\ owner c = k /\ i < nth k size 0 /\ c = off k + i /\
      ((exists i', i <= i' < nth k size 0 /\ r = off k + i') \/
       (exists j, j < length (sepof k) /\ r = nth j (sepof k) 0)).
    Proof.
      intros Hs. pose proof Hs as (H1 & H2 & H3).
      destruct (owner_block _ _ FC c ltac:(lia)) as [Hk [B1 B2]]. rewrite rows_n in Hk. cbn in B2.
      exists (owner c), (c - off (owner c)). split; auto. split; auto. split; [lia|]. split; [lia|].
      destruct (stored_cases _ _ FC r c Hs) as [E|[E Hin]].
      - left. destruct (owner_block _ _ FC r H2) as [_ [B3 B4]]. rewrite E in *. cbn in B4.
        exists (r - off (owner c)). split; lia.
      - right. apply (In_nth _ _ 0) in Hin as (j & Hj & Ej). exists j. auto.
    Qed.

    Definition coef (G : nat -> block F) (k r c : nat) : F :=
      GetCoeff F F0 (G (nth k (d_order d) 0)) (lab k r) (lab k c).

    (** A strictly increasing label list. *)
    Lemma strictly_increasing_sorted l : strictly_increasing l = true ->
      forall i j, i < j < length l -> (nth i l (-1) < nth j l (-1))%Z.
    Proof.
      induction l as [|a l IH]; intros H i j Hij; cbn in Hij; [lia|].
      destruct l as [|b t]; [cbn in Hij; lia|].
      cbn [strictly_increasing] in H. apply andb_true_iff in H as [H1 H2].
      apply negb_true_iff, Z.leb_gt in H1.
      destruct j as [|j]; [lia|]. destruct i as [|i].
      - cbn [nth]. destruct j as [|j]; [cbn; lia|].
        specialize (IH H2 0 (S j)). cbn [nth length] in *. specialize (IH ltac:(lia)). lia.
      - apply (IH H2). cbn in *. lia.
    Qed.

    Lemma find_pos_spec x l : forall i0, match find_pos x l i0 with
      | Some i => i0 <= i < i0 + length l /\ nth (i - i0) l 0 = x | None => ~ In x l end.
    Proof.
      induction l as [|a l IH]; intros i0; cbn [find_pos]; auto.
      destruct (Nat.eqb_spec x a) as [->|Hn].
      - cbn. split; [lia|]. rewrite Nat.sub_diag. auto.
      - specialize (IH (S i0)). destruct (find_pos x l (S i0)) as [i|].
        + destruct IH as [H1 H2]. cbn [length]. split; [lia|]. replace (i - i0) with (S (i - S i0)) by lia. auto.
        + cbn. intuition.
    Qed.

    Lemma lab_range k c : (-1 <= lab k c < Z.of_nat (length (names k)) \/ lab k c = -1)%Z.
    Proof.
      unfold lab. pose proof (find_pos_spec (nth c (d_perm_inv d) 0) (names k) 0) as H.
      destruct (find_pos _ _ 0); lia.
    Qed.
    Lemma lab_nonneg k c : (0 <= lab k c)%Z ->
      Z.to_nat (lab k c) < length (names k) /\ nth (Z.to_nat (lab k c)) (names k) 0 = nth c (d_perm_inv d) 0.
    Proof.
      unfold lab. pose proof (find_pos_spec (nth c (d_perm_inv d) 0) (names k) 0) as H.
      destruct (find_pos _ _ 0) as [i|]; [|lia]. intros _. rewrite Nat2Z.id. rewrite Nat.sub_0_r in H. split; [lia|tauto].
    Qed.

    Definition clean (k : nat) : Prop := forall b, nth_error bs k = Some b ->
      direct_update b = true -> ~ In (-1)%Z (b_sn b).

    Hypothesis dual_le : forall e, length (nth e dual_vars []) <= length (nth e cliques []).

    Lemma names_length k : k < n -> length (names k) = length (nth (nth k (d_order d) 0) cliques []).
    Proof.
      intros Hk. unfold names. rewrite app_length, firstn_length. specialize (dual_le (nth k (d_order d) 0)). lia.
    Qed.

    Lemma pinv_inj c c' : c < d_N d -> c' < d_N d -> nth c (d_perm_inv d) 0 = nth c' (d_perm_inv d) 0 -> c = c'.
    Proof.
      intros H1 H2 E. destruct (an_pinv _ _ _ _ _ _ _ _ _ HA c H1) as [_ E1].
      destruct (an_pinv _ _ _ _ _ _ _ _ _ HA c' H2) as [_ E2]. rewrite <- E1, <- E2, E. auto.
    Qed.

    (** In direct mode with no fill-in label, labels are the positions. *)
    Lemma direct_labels k b : k < n -> nth_error bs k = Some b -> direct_update b = true ->
      ~ In (-1)%Z (b_sn b) ->
      b_nvars b = nth k size 0 /\ (forall i, i < nth k size 0 -> lab k (off k + i) = Z.of_nat i) /\
      (forall j, j < length (sepof k) -> lab k (nth j (sepof k) 0) = (-1)%Z).
    Proof.
      intros Hk Eb Hd Hc. destruct (binding_at k Hk) as (b' & Eb' & B1 & B2 & B3 & B4 & B5 & B6 & B7).
      assert (b' = b) by congruence. subst b'.
      unfold direct_update in Hd. apply andb_true_iff in Hd as [Hd Hs]. apply andb_true_iff in Hd as [Hd0 Hd].
      apply Nat.eqb_eq in Hd. apply Nat.ltb_lt in Hd0. rewrite B2 in Hd, Hd0.
      pose proof (strictly_increasing_sorted _ Hs) as Hinc. rewrite B2 in Hinc.
      assert (forall i, i < nth k size 0 -> (0 <= nth i (b_sn b) (-1))%Z) as Hpos.
      { intros i Hi. destruct (Z.leb_spec 0 (nth i (b_sn b) (-1)%Z)); auto. exfalso. apply Hc.
        assert (nth i (b_sn b) (-1)%Z = (-1)%Z) as <-.
        { rewrite B4 by auto. destruct (lab_range k (off k + i)); auto. rewrite B4 in H by auto. lia. }
        apply nth_In. lia. }
      assert (length (names k) = nth k size 0) as Ln by (rewrite names_length by auto; rewrite <- B7; auto).
      assert (forall i, i < nth k size 0 -> (Z.of_nat i <= nth i (b_sn b) (-1))%Z) as Hlow.
      { induction i; intros Hi; [apply Hpos; auto|]. specialize (IHi ltac:(lia)).
        specialize (Hinc i (S i) ltac:(lia)). lia. }
      assert (forall t i, i + t = nth k size 0 - 1 -> i < nth k size 0 -> (nth i (b_sn b) (-1) <= Z.of_nat i)%Z) as Hup.
      { induction t; intros i Hit Hi.
        - rewrite B4 by auto. destruct (lab_range k (off k + i)); lia.
        - specialize (IHt (S i) ltac:(lia) ltac:(lia)). specialize (Hinc i (S i) ltac:(lia)). lia. }
      assert (forall i, i < nth k size 0 -> lab k (off k + i) = Z.of_nat i) as Hlab.
      { intros i Hi. rewrite <- B4 by auto. specialize (Hlow i Hi). specialize (Hup (nth k size 0 - 1 - i) i ltac:(lia) Hi). lia. }
      split; auto. split; auto.
      intros j Hj. destruct (lab_range k (nth j (sepof k) 0)) as [[H1 H2]|]; auto.
      destruct (Z.eq_dec (lab k (nth j (sepof k) 0)) (-1)) as [|Hne]; auto. exfalso.
      destruct (lab_nonneg k (nth j (sepof k) 0) ltac:(lia)) as [L1 L2].
      set (i := Z.to_nat (lab k (nth j (sepof k) 0))) in *.
      assert (i < nth k size 0) as Hi by lia.
      destruct (lab_nonneg k (off k + i) ltac:(rewrite Hlab; lia)) as [_ L3].
      rewrite Hlab, Nat2Z.id in L3 by auto. rewrite L2 in L3.
      destruct (rows_split _ _ FC k ltac:(rewrite rows_n; auto)) as (_ & _ & R).
      specialize (R (nth j (sepof k) 0) ltac:(apply nth_In; auto)). cbn in R.
      rewrite <- (an_N _ _ _ _ _ _ _ _ _ HA) in R.
      apply pinv_inj in L3; lia.
    Qed.

    Lemma address_owner r c : stored r c -> exists i j,
      address r c = ADiag (owner c) i j \/ address r c = AOff (owner c) i j.
    Proof.
      intros Hs. destruct (stored_in_column r c Hs) as (k & i & Hk & -> & Hi & -> & [(i' & Hi' & ->)|(j & Hj & ->)]).
      - rewrite address_diag by (auto; lia). eauto.
      - rewrite address_off by auto. eauto.
    Qed.

    Lemma sep_lower_stored k i j : k < n -> j <= i < length (sepof k) ->
      stored (nth i (sepof k) 0) (nth j (sepof k) 0).
    Proof.
      intros Hk H. apply (sep_stored _ _ FC k); try (apply nth_In; lia); [rewrite rows_n; auto|].
      apply sorted_nth_le; try lia. eapply (rows_split _ _ FC k). rewrite rows_n; auto.
    Qed.

    Lemma sep_pair_inj k i j i' j' : k < n -> j <= i < length (sepof k) -> j' <= i' < length (sepof k) ->
      address (nth i (sepof k) 0) (nth j (sepof k) 0) = address (nth i' (sepof k) 0) (nth j' (sepof k) 0) ->
      i = i' /\ j = j'.
    Proof.
      intros Hk H H' E. apply (address_inj _ _ FC) in E as [E1 E2]; try (apply sep_lower_stored; auto).
      assert (NoDup (sepof k)) as N1 by (apply (sep_nodup _ _ FC); rewrite rows_n; auto).
      split; apply (proj1 (NoDup_nth _ 0) N1); auto; lia.
    Qed.

    Lemma sep_owner_ne k x : k < n -> In x (sepof k) -> k < owner x.
    Proof. intros Hk Hx. apply (sep_owner_gt _ _ FC k x); auto. rewrite rows_n; auto. Qed.

    Lemma UpdateBlocks_result k b (G : block F) m : k < n -> nth_error bs k = Some b ->
      let m' := UB m G b in
      (* block column [k] is overwritten *)
      (forall i j, j <= i < nth k size 0 ->
         m' (ADiag k i j) = if direct_update b then G i j
                            else GetCoeff F F0 G (lab k (off k + i)) (lab k (off k + j))) /\
      (forall i j, i < nth k size 0 -> j < length (sepof k) ->
         m' (AOff k i j) = if direct_update b then F0
                           else GetCoeff F F0 G (lab k (nth j (sepof k) 0)) (lab k (off k + i))) /\
      (* later columns are incremented at the separator pairs *)
      (forall r c, stored r c -> k < owner c ->
         (In r (sepof k) -> In c (sepof k) ->
            m' (address r c) = if direct_update b then m (address r c)
                               else Fadd (m (address r c)) (GetCoeff F F0 G (lab k r) (lab k c))) /\
         (~ (In r (sepof k) /\ In c (sepof k)) -> m' (address r c) = m (address r c))).
    Proof.
      intros Hk Eb. destruct (binding_at k Hk) as (b' & Eb' & B1 & B2 & B3 & B4 & B5 & B6 & B7).
      assert (b' = b) by congruence. subst b'. cbv zeta.
      assert (forall r c, stored r c -> k < owner c -> forall i j, address r c <> ADiag k i j /\ address r c <> AOff k i j) as Hother.
      { intros r c Hs Hne i j. destruct (address_owner r c Hs) as (i' & j' & [E|E]); rewrite E;
          split; intros E'; try discriminate; injection E' as E' _ _; lia. }
      unfold UpdateBlocks. destruct (direct_update b) eqn:Hd.
      - (* direct *)
        assert (b_nvars b = nth k size 0) as En.
        { unfold direct_update in Hd. apply andb_true_iff in Hd as [Hd _]. apply andb_true_iff in Hd as [_ Hd].
          apply Nat.eqb_eq in Hd. lia. }
        unfold Set_off, write_direct. rewrite B1, B2, B3, En.
        match goal with |- context [fold_left ?f (seq 0 (length (sepof k))) ?m1] => set (m2 := m1) end.
        destruct (rect_result (fun i j => AOff k i j) (fun _ _ => F0) (nth k size 0) (length (sepof k)) m2) as [R1 R2].
        { intros. split; congruence. }
        destruct (rect_result (fun i j => ADiag k i j) G (nth k size 0) (nth k size 0) m) as [D1 D2].
        { intros. split; congruence. }
        cbv zeta in *. fold m2 in D1, D2.
        split; [|split].
        + intros i j Hij. rewrite R2 by (intros; congruence). apply D1; lia.
        + intros i j Hi Hj. apply R1; auto.
        + intros r c Hs Hne. split.
          * intros _ _. rewrite R2 by (intros; apply not_eq_sym, Hother; auto).
            apply D2. intros; apply not_eq_sym, Hother; auto.
          * intros _. rewrite R2 by (intros; apply not_eq_sym, Hother; auto).
            apply D2. intros; apply not_eq_sym, Hother; auto.
      - destruct (SetLowerTri_result m G b) as [D1 D2].
        set (m1 := SetLowerTri F F0 m G b) in *.
        destruct (rect_result (fun i j => AOff (b_pos b) i j) (coefoff G b) (length (b_sn b)) (length (b_sep b)) m1) as [R1 R2].
        { intros. split; congruence. }
        cbv zeta in *.
        set (m2 := Set_off F m1 (fun i j => GetCoeff F F0 G (nth i (b_sn b) (-1)%Z) (nth j (b_sep b) (-1)%Z)) b) in *.
        change (fold_left _ (seq 0 (length (b_sep b))) m1) with m2 in R1, R2.
        destruct (Scatter_result m2 G b (fun i j => address (nth i (sepof k) 0) (nth j (sepof k) 0)) B6) as [S1 S2].
        { intros i j i' j'. rewrite B3. apply sep_pair_inj; auto. }
        cbv zeta in *. rewrite B1, B2, B3 in *.
        assert (forall i j x y, j <= i < length (sepof k) ->
           ADiag k x y <> address (nth i (sepof k) 0) (nth j (sepof k) 0) /\
           AOff k x y <> address (nth i (sepof k) 0) (nth j (sepof k) 0)) as Hss.
        { intros i j x y Hij. split; apply not_eq_sym, Hother; try (apply sep_lower_stored; auto);
            (apply sep_owner_ne; [auto|apply nth_In; lia]). }
        split; [|split].
        + intros i j Hij. rewrite S2 by (intros; apply Hss; auto).
          rewrite R2 by (intros; congruence). rewrite D1 by auto.
          unfold coefsn. rewrite !B4 by lia. auto.
        + intros i j Hi Hj. rewrite S2 by (intros; apply Hss; auto). rewrite R1 by auto.
          unfold coefoff. rewrite B4, B5 by auto. apply GetCoeff_sym.
        + intros r c Hs Hne.
          assert (m2 (address r c) = m (address r c)) as Em.
          { rewrite R2 by (intros; apply not_eq_sym, Hother; auto). apply D2. intros; apply Hother; auto. }
          split.
          * intros Hr Hc. apply (In_nth _ _ 0) in Hr as (i & Hi & <-). apply (In_nth _ _ 0) in Hc as (j & Hj & <-).
            assert (j <= i).
            { destruct Hs as [Hs _]. destruct (Nat.le_gt_cases j i); auto. exfalso.
              pose proof (sorted_nth_lt (sepof k) i j ltac:(eapply (rows_split _ _ FC k); rewrite rows_n; auto) ltac:(auto) ltac:(auto)). lia. }
            rewrite S1 by lia. rewrite Em. unfold coefsep. rewrite !B5 by auto. auto.
          * intros Hno. rewrite S2; auto. intros i j Hij E. apply Hno.
            apply (address_inj _ _ FC) in E as [-> ->]; auto; [|apply sep_lower_stored; auto].
            split; apply nth_In; lia.
    Qed.

    (** ** Assembly: value of every stored entry *)
    Notation Asm := (Assemble F F0 Fadd bs (d_order d)).

    Definition step (G : nat -> block F) (m : mem) (e : nat) : mem :=
      match nth_error bs e with
      | Some b => UB m (G (nth e (d_order d) 0)) b
      | None => m
      end.
    Lemma Assemble_step G m : Asm G m = fold_left (step G) (rev (seq 0 n)) m.
    Proof. unfold Assemble, step. rewrite (bp_len _ _ _ _ _ BP). auto. Qed.

    Lemma fold_down (J : nat -> mem -> Prop) G m : J n m ->
      (forall e m, e < n -> J (S e) m -> J e (step G m e)) -> J 0 (Asm G m).
    Proof.
      rewrite Assemble_step. intros Hn HS.
      assert (forall k m, k <= n -> J k m -> J 0 (fold_left (step G) (rev (seq 0 k)) m)) as H.
      { clear m Hn. induction k as [|k IH]; intros m Hk HJ; auto.
        rewrite seq_S, rev_app_distr. cbn. apply IH; [lia|]. apply HS; auto. }
      apply H; auto.
    Qed.

    (** The stored entries after assembly do not depend on the previous memory
        nor on the upper triangles (no proviso). *)
    Lemma fold_down2 (J : nat -> mem -> mem -> Prop) G1 G2 m1 m2 : J n m1 m2 ->
      (forall e m1 m2, e < n -> J (S e) m1 m2 -> J e (step G1 m1 e) (step G2 m2 e)) -> J 0 (Asm G1 m1) (Asm G2 m2).
    Proof.
      rewrite !Assemble_step. intros Hn HS.
      assert (forall k m1 m2, k <= n -> J k m1 m2 ->
         J 0 (fold_left (step G1) (rev (seq 0 k)) m1) (fold_left (step G2) (rev (seq 0 k)) m2)) as H.
      { clear m1 m2 Hn. induction k as [|k IH]; intros m1 m2 Hk HJ; auto.
        rewrite seq_S, rev_app_distr. cbn. apply IH; [lia|]. apply HS; auto. }
      apply H; auto.
    Qed.

    Lemma Assemble_history G1 G2 m1 m2 :
      (forall j, agree_low (G1 j) (G2 j)) ->
      forall r c, stored r c -> Asm G1 m1 (address r c) = Asm G2 m2 (address r c).
    Proof.
      intros HG.
      pose (J := fun e (m1 m2 : mem) => forall r c, stored r c -> e <= owner c -> m1 (address r c) = m2 (address r c)).
      assert (J 0 (Asm G1 m1) (Asm G2 m2)) as H; [|intros r c Hs; apply H; auto; lia].
      apply fold_down2.
      - intros r c Hs Hn. destruct Hs as (H1 & H2 & _). destruct (owner_block _ _ FC c ltac:(lia)) as [H _].
        rewrite rows_n in H. lia.
      - intros e k1 k2 He HJ r c Hs Ho. unfold step.
        destruct (binding_at e He) as (b & Eb & _). rewrite Eb.
        destruct (UpdateBlocks_result e b (G1 (nth e (d_order d) 0)) k1 He Eb) as (A1 & A2 & A3).
        destruct (UpdateBlocks_result e b (G2 (nth e (d_order d) 0)) k2 He Eb) as (B1 & B2 & B3).
        cbv zeta in *.
        destruct (Nat.eq_dec (owner c) e) as [Eo|].
        + destruct (stored_in_column r c Hs) as (k & i & Hk & Ek & Hi & -> & [(i' & Hi' & ->)|(j & Hj & ->)]).
          * assert (k = e) by congruence. subst k. rewrite address_diag by (auto; lia).
            rewrite A1, B1 by auto. destruct (direct_update b); [apply HG; lia|apply GetCoeff_agree; auto].
          * assert (k = e) by congruence. subst k. rewrite address_off by auto.
            rewrite A2, B2 by auto. destruct (direct_update b); auto. apply GetCoeff_agree; auto.
        + assert (e < owner c) as Hlt by lia.
          destruct (A3 r c Hs Hlt) as [A4 A5]. destruct (B3 r c Hs Hlt) as [B4 B5].
          destruct (in_dec Nat.eq_dec r (sepof e)), (in_dec Nat.eq_dec c (sepof e));
            try (rewrite A5, B5 by tauto; apply HJ; auto).
          rewrite A4, B4 by auto. rewrite (HJ r c) by auto.
          destruct (direct_update b); auto. f_equal. apply GetCoeff_agree; auto.
    Qed.

    Hypothesis CM : comm_monoid F F0 Fadd.
    Notation msum := (msum F F0 Fadd).

    Lemma cm_zero_r a : Fadd a F0 = a.
    Proof. rewrite (cm_comm _ _ _ CM). apply (cm_zero _ _ _ CM). Qed.

    Lemma msum_cons {A} (f : A -> F) a l : msum f (a :: l) = Fadd (f a) (msum f l).
    Proof. reflexivity. Qed.
    Lemma msum_zero {A} (f : A -> F) l : (forall x, In x l -> f x = F0) -> msum f l = F0.
    Proof.
      induction l as [|a l IH]; intros H; auto. rewrite msum_cons, H by (left; auto).
      rewrite (cm_zero _ _ _ CM). apply IH. intros; apply H; right; auto.
    Qed.
    Lemma msum_ext {A} (f g : A -> F) l : (forall x, In x l -> f x = g x) -> msum f l = msum g l.
    Proof.
      induction l as [|a l IH]; intros H; auto. rewrite !msum_cons. f_equal; [apply H; left; auto|apply IH; intros; apply H; right; auto].
    Qed.
    Lemma msum_perm {A} (f : A -> F) l l' : Permutation l l' -> msum f l = msum f l'.
    Proof.
      induction 1 as [|x l l' _ IH|x y l|l l' l'' _ IH1 _ IH2].
      - auto.
      - rewrite !msum_cons, IH. auto.
      - rewrite !msum_cons, !(cm_assoc _ _ _ CM). f_equal. apply (cm_comm _ _ _ CM).
      - congruence.
    Qed.
    Lemma msum_map {A B} (f : B -> F) (g : A -> B) l : msum f (map g l) = msum (fun a => f (g a)) l.
    Proof. induction l; auto. cbn [map]. rewrite !msum_cons. f_equal; auto. Qed.
    Lemma msum_app {A} (f : A -> F) l l' : msum f (l ++ l') = Fadd (msum f l) (msum f l').
    Proof.
      induction l as [|a l IH]; cbn [app]; [symmetry; apply (cm_zero _ _ _ CM)|].
      rewrite !msum_cons, IH. apply (cm_assoc _ _ _ CM).
    Qed.
    Lemma msum_single {A} (f : A -> F) l x : NoDup l -> In x l -> (forall y, In y l -> y <> x -> f y = F0) ->
      msum f l = f x.
    Proof.
      induction 1 as [|a l Hn N IH]; intros Hx Hz; [destruct Hx|]. rewrite msum_cons.
      destruct Hx as [->|Hx].
      - rewrite msum_zero; [apply cm_zero_r|]. intros y Hy. apply Hz; [right; auto|]. intros ->; auto.
      - rewrite Hz; [|left; auto|intros ->; auto]. rewrite (cm_zero _ _ _ CM). apply IH; auto.
        intros; apply Hz; auto; right; auto.
    Qed.

    Hypothesis names_incl : forall k, k < n -> forall v, In v (names k) -> In v (nth (nth k (d_order d) 0) cliques []).

    (** A column with a proper label is a row of that clique. *)
    Lemma lab_stored k c : k < n -> c < d_N d -> lab k c <> (-1)%Z -> stored_row rows k c.
    Proof.
      intros Hk Hc Hl.
      assert (0 <= lab k c)%Z as H0 by (destruct (lab_range k c); lia).
      destruct (lab_nonneg k c H0) as [L1 L2].
      assert (In (nth c (d_perm_inv d) 0) (names k)) as Hin by (rewrite <- L2; apply nth_In; auto).
      apply names_incl in Hin; auto.
      pose proof (an_cover _ _ _ _ _ _ _ _ _ HA k _ Hk Hin) as H.
      destruct (an_pinv _ _ _ _ _ _ _ _ _ HA c Hc) as [_ E]. rewrite E in H. auto.
    Qed.

    Lemma coef_zero G k r c : k < n -> r < d_N d -> c < d_N d ->
      ~ (stored_row rows k r /\ stored_row rows k c) -> coef G k r c = F0.
    Proof.
      intros Hk Hr Hc Hn. unfold coef, GetCoeff.
      destruct (Z.eq_dec (lab k r) (-1)) as [->|H1]; auto.
      destruct (Z.eq_dec (lab k c) (-1)) as [->|H2]; [rewrite orb_true_r; auto|].
      exfalso. apply Hn. split; apply lab_stored; auto.
    Qed.

    Lemma stored_row_cases k r : k < n -> stored_row rows k r -> in_block size k r \/ In r (sepof k).
    Proof.
      intros Hk H. destruct (rows_split _ _ FC k ltac:(rewrite rows_n; auto)) as (Er & _ & _).
      unfold stored_row in H. rewrite Er, in_app_iff, in_seq in H. destruct H; auto.
    Qed.

    Lemma Assemble_entries G m : (forall k, k < n -> clean k) ->
      forall r c, stored r c -> Asm G m (address r c) = msum (fun e => coef G e r c) (seq 0 n).
    Proof.
      intros HC.
      pose (J := fun e (m : mem) => forall r c, stored r c -> e <= owner c ->
                   m (address r c) = msum (fun e => coef G e r c) (seq e (n - e))).
      assert (J 0 (Asm G m)) as H.
      2:{ intros r c Hs. specialize (H r c Hs). rewrite Nat.sub_0_r in H. apply H. lia. }
      pose proof (an_N _ _ _ _ _ _ _ _ _ HA) as EN.
      apply fold_down.
      - intros r c Hs Hn. destruct Hs as (H1 & H2 & _). destruct (owner_block _ _ FC c ltac:(lia)) as [H _].
        rewrite rows_n in H. lia.
      - intros e k He HJ r c Hs Ho. unfold step.
        destruct (binding_at e He) as (b & Eb & _). rewrite Eb.
        destruct (UpdateBlocks_result e b (G (nth e (d_order d) 0)) k He Eb) as (A1 & A2 & A3). cbv zeta in *.
        replace (n - e) with (S (n - S e)) by lia. cbn [seq]. rewrite msum_cons.
        pose proof Hs as (Hcr & Hr & _).
        destruct (Nat.eq_dec (owner c) e) as [Eo|].
        + rewrite msum_zero, cm_zero_r.
          2:{ intros e' He'. apply in_seq in He'. apply coef_zero; try lia. intros [_ Hst].
              destruct (owner_block _ _ FC c ltac:(lia)) as [_ [B1 B2]]. rewrite Eo in B1, B2.
              pose proof (offset_le size (S e) e' ltac:(lia)).
              apply stored_row_cases in Hst; [|lia]. destruct Hst as [Hst|Hst].
              - destruct Hst. lia.
              - destruct (rows_split _ _ FC e' ltac:(rewrite rows_n; lia)) as (_ & _ & R). specialize (R c Hst).
                pose proof (offset_le size e' (S e') ltac:(lia)). lia. }
          destruct (stored_in_column r c Hs) as (k' & i & Hk & Ek & Hi & -> & [(i' & Hi' & ->)|(j & Hj & ->)]).
          * assert (k' = e) by congruence. subst k'. rewrite address_diag by (auto; lia).
            rewrite A1 by auto. unfold coef. destruct (direct_update b) eqn:Hd; auto.
            destruct (direct_labels e b He Eb Hd (HC e He b Eb Hd)) as (_ & L1 & _).
            rewrite !L1 by lia. unfold GetCoeff.
            destruct (Z.ltb_spec (Z.of_nat i') 0), (Z.ltb_spec (Z.of_nat i) 0); cbn [orb]; try lia.
            destruct (Z.leb_spec (Z.of_nat i) (Z.of_nat i')); [|lia]. rewrite !Nat2Z.id. auto.
          * assert (k' = e) by congruence. subst k'. rewrite address_off by auto.
            rewrite A2 by auto. unfold coef. destruct (direct_update b) eqn:Hd; auto.
            destruct (direct_labels e b He Eb Hd (HC e He b Eb Hd)) as (_ & _ & L2).
            rewrite L2 by auto. reflexivity.
        + assert (e < owner c) as Hlt by lia. destruct (A3 r c Hs Hlt) as [A4 A5].
          rewrite <- (HJ r c Hs ltac:(lia)). rewrite (cm_comm _ _ _ CM).
          destruct (in_dec Nat.eq_dec r (sepof e)) as [I1|I1], (in_dec Nat.eq_dec c (sepof e)) as [I2|I2].
          * rewrite A4 by auto. destruct (direct_update b) eqn:Hd; auto.
            destruct (direct_labels e b He Eb Hd (HC e He b Eb Hd)) as (_ & _ & L2).
            apply (In_nth _ _ 0) in I1 as (i & Hi & <-). unfold coef. rewrite L2 by auto. cbn.
            symmetry. apply cm_zero_r.
          * rewrite A5 by tauto. rewrite coef_zero, cm_zero_r; auto; try lia. intros [_ Hst].
            apply stored_row_cases in Hst as [Hst|Hst]; auto.
            apply (owner_spec rows size) in Hst; [lia|rewrite rows_n; auto].
          * rewrite A5 by tauto. rewrite coef_zero, cm_zero_r; auto; try lia. intros [Hst _].
            apply stored_row_cases in Hst as [Hst|Hst]; auto.
            destruct Hst as [S1 S2]. destruct (owner_block _ _ FC c ltac:(lia)) as [_ [B1 B2]].
            pose proof (offset_le size (S e) (owner c) ltac:(lia)). lia.
          * rewrite A5 by tauto. rewrite coef_zero, cm_zero_r; auto; try lia. intros [_ Hst].
            apply stored_row_cases in Hst as [Hst|Hst]; auto.
            apply (owner_spec rows size) in Hst; [lia|rewrite rows_n; auto].
    Qed.

    (** The dense read-out. *)
    Lemma ToDense_value m i j : j <= i -> i < d_N d ->
      (stored i j -> ToDense F F0 o rows m i j = Ok (m (address i j))) /\
      (~ stored i j -> ToDense F F0 o rows m i j = Ok F0).
    Proof.
      intros Hji Hi. unfold ToDense. rewrite (an_N _ _ _ _ _ _ _ _ _ HA) in Hi.
      destruct (Get_addr_ok _ _ FC o (bp_ws _ _ _ _ _ BP) i j Hji Hi) as [H1 H2].
      split; intros Hs; [rewrite H1 by auto|rewrite H2 by auto]; reflexivity.
    Qed.

    Lemma coef_sym G k r c : coef G k r c = coef G k c r.
    Proof. apply GetCoeff_sym. Qed.

    Lemma unstored_coef G k r c : c <= r -> r < d_N d -> ~ stored r c -> k < n -> coef G k r c = F0.
    Proof.
      intros Hcr Hr Hns Hk. apply coef_zero; auto; [lia|]. intros [S1 S2]. apply Hns.
      split; auto. rewrite <- (an_N _ _ _ _ _ _ _ _ _ HA). split; auto.
      destruct (owner_block _ _ FC c) as [Ho Hb]; [rewrite <- (an_N _ _ _ _ _ _ _ _ _ HA); lia|].
      apply (fc_closed _ _ FC k (owner c) r c); auto; rewrite rows_n; auto.
    Qed.

    Definition occurs_var (v : nat) : Prop := exists c, In c cliques /\ In v c.

    Lemma KKT_value G m u v : (forall k, k < n -> clean k) -> occurs_var u -> occurs_var v ->
      KKTMatrix F F0 o d (Asm G m) u v =
      Ok (msum (fun e => coef G e (nth u (d_perm d) 0) (nth v (d_perm d) 0)) (seq 0 n)).
    Proof.
      intros HC Hu Hv. unfold KKTMatrix.
      destruct (an_max _ _ _ _ _ _ _ _ _ HA) as [HM _].
      rewrite (at_lt _ u 0), (at_lt _ v 0) by (apply HM; auto). cbn [bind].
      destruct (an_p _ _ _ _ _ _ _ _ _ HA u Hu) as [Pu _]. destruct (an_p _ _ _ _ _ _ _ _ _ HA v Hv) as [Pv _].
      set (i := nth u (d_perm d) 0) in *. set (j := nth v (d_perm d) 0) in *.
      assert (forall a b, b <= a -> a < d_N d -> ToDense F F0 o rows (Asm G m) a b =
               Ok (msum (fun e => coef G e a b) (seq 0 n))) as K.
      { intros a b Hba Ha. destruct (ToDense_value (Asm G m) a b Hba Ha) as [T1 T2].
        destruct (stored_dec rows size a b Hba) as [Hs|Hs].
        - rewrite <- (an_N _ _ _ _ _ _ _ _ _ HA). auto.
        - rewrite T1 by auto. f_equal. apply Assemble_entries; auto.
        - rewrite T2 by auto. f_equal. symmetry. apply msum_zero. intros e He. apply in_seq in He.
          apply unstored_coef; auto; lia. }
      destruct (Nat.leb_spec j i).
      - apply K; auto.
      - rewrite K by lia. f_equal. apply msum_ext. intros; apply coef_sym.
    Qed.

    (** From column labels to variable names. *)
    Lemma coef_scattered G k u v : k < n -> occurs_var u -> occurs_var v ->
      NoDup (names k) ->
      coef G k (nth u (d_perm d) 0) (nth v (d_perm d) 0) =
      scattered F F0 Fadd (names k) (G (nth k (d_order d) 0)) u v.
    Proof.
      intros Hk Hu Hv Nn.
      destruct (an_p _ _ _ _ _ _ _ _ _ HA u Hu) as [_ Pu]. destruct (an_p _ _ _ _ _ _ _ _ _ HA v Hv) as [_ Pv].
      unfold coef, lab. rewrite Pu, Pv. unfold scattered.
      pose proof (find_pos_spec u (names k) 0) as Fu. pose proof (find_pos_spec v (names k) 0) as Fv.
      destruct (find_pos u (names k) 0) as [a|].
      - destruct Fu as [Fu1 Fu2]. rewrite Nat.sub_0_r in Fu2.
        rewrite (msum_single _ _ a); [|apply seq_NoDup|apply in_seq; lia|].
        2:{ intros y Hy Hne. apply in_seq in Hy. apply msum_zero. intros b _.
            destruct (Nat.eqb_spec (nth y (names k) 0) u) as [E|]; auto.
            exfalso. apply Hne. apply (proj1 (NoDup_nth _ 0) Nn); try lia. }
        destruct (find_pos v (names k) 0) as [b|].
        + destruct Fv as [Fv1 Fv2]. rewrite Nat.sub_0_r in Fv2.
          rewrite (msum_single _ _ b); [|apply seq_NoDup|apply in_seq; lia|].
          2:{ intros y Hy Hne. apply in_seq in Hy.
              destruct (Nat.eqb_spec (nth y (names k) 0) v) as [E|]; [|rewrite andb_false_r; auto].
              exfalso. apply Hne. apply (proj1 (NoDup_nth _ 0) Nn); try lia. }
          rewrite Fu2, Fv2, !Nat.eqb_refl. cbn [andb]. unfold GetCoeff.
          destruct (Z.ltb_spec (Z.of_nat a) 0), (Z.ltb_spec (Z.of_nat b) 0); try lia. cbn [orb].
          rewrite !Nat2Z.id. destruct (Z.leb_spec (Z.of_nat b) (Z.of_nat a)).
          * rewrite Nat.max_l, Nat.min_r by lia. auto.
          * rewrite Nat.max_r, Nat.min_l by lia. auto.
        + rewrite msum_zero. { unfold GetCoeff. rewrite orb_true_r. auto. }
          intros b Hb. apply in_seq in Hb. destruct (Nat.eqb_spec (nth b (names k) 0) v) as [E|]; [|rewrite andb_false_r; auto].
          exfalso. apply Fv. rewrite <- E. apply nth_In. lia.
      - rewrite msum_zero. { reflexivity. }
        intros y Hy. apply in_seq in Hy. apply msum_zero. intros b _.
        destruct (Nat.eqb_spec (nth y (names k) 0) u) as [E|]; auto.
        exfalso. apply Fu. rewrite <- E. apply nth_In. lia.
    Qed.
  End Build.
End Mem.

(** ** Statements about the public pipeline *)
Lemma admissible_dual_le cliques dual_vars : admissible cliques dual_vars ->
  forall e, length (nth e dual_vars []) <= length (nth e cliques []).
Proof.
  intros [_ _ L H] e. destruct (Nat.lt_ge_cases e (length cliques)) as [He|He].
  - destruct (H e He) as (pre & ->). rewrite app_length. lia.
  - rewrite (nth_overflow dual_vars) by lia. cbn. lia.
Qed.

Lemma admissible_build cliques dual_vars : admissible cliques dual_vars ->
  exists d o bs, build cliques dual_vars = Ok (d, o, bs) /\ build_post cliques dual_vars d o bs.
Proof.
  intros AD. apply build_ok; try apply AD. apply admissible_dual_le; auto.
Qed.

Lemma build_fun cliques dual_vars d o bs : admissible cliques dual_vars ->
  build cliques dual_vars = Ok (d, o, bs) -> build_post cliques dual_vars d o bs.
Proof.
  intros AD E. destruct (admissible_build _ _ AD) as (d' & o' & bs' & E' & BP). rewrite E in E'.
  injection E' as <- <- <-. auto.
Qed.

Lemma names_clique cliques dual_vars d k : admissible cliques dual_vars ->
  nth k (d_order d) 0 < length cliques ->
  names cliques dual_vars d k = nth (nth k (d_order d) 0) cliques [].
Proof.
  intros AD Hk. unfold names. destruct (ad_dual _ _ AD _ Hk) as (pre & E). rewrite E at 2.
  rewrite E. rewrite app_length, Nat.add_sub, firstn_app, Nat.sub_diag, firstn_all. cbn. rewrite app_nil_r. auto.
Qed.

Lemma order_lt cliques dual_vars d o bs k : build_post cliques dual_vars d o bs -> k < length cliques ->
  nth k (d_order d) 0 < length cliques.
Proof.
  intros BP Hk. pose proof (an_order _ _ _ _ _ _ _ _ _ (bp_an _ _ _ _ _ BP)) as P.
  assert (In (nth k (d_order d) 0) (seq 0 (length cliques))) as H.
  { eapply Permutation_in; [exact P|]. apply nth_In. rewrite (Permutation_length P), seq_length. auto. }
  apply in_seq in H. lia.
Qed.

Lemma assembled_kkt F F0 Fadd cliques dual_vars d o bs :
  comm_monoid F F0 Fadd -> admissible cliques dual_vars ->
  build cliques dual_vars = Ok (d, o, bs) ->
  (forall b, In b bs -> direct_update b = true -> ~ In (-1)%Z (b_sn b)) ->
  forall G m u v, covered cliques u -> covered cliques v ->
  KKTMatrix F F0 o d (Assemble F F0 Fadd bs (d_order d) G m) u v =
    Ok (sum_of_blocks F F0 Fadd cliques G u v).
Proof.
  intros CM AD E HC G m u v Hu Hv. pose proof (build_fun _ _ _ _ _ AD E) as BP.
  pose proof (fun k Hk => names_clique cliques dual_vars d k AD (order_lt _ _ _ _ _ k BP Hk)) as HN.
  assert (length (d_order d) = length cliques) as Lo.
  { rewrite (Permutation_length (an_order _ _ _ _ _ _ _ _ _ (bp_an _ _ _ _ _ BP))). apply seq_length. }
  rewrite (KKT_value F F0 Fadd cliques dual_vars d o bs BP); auto.
  - f_equal. unfold sum_of_blocks.
    rewrite <- (msum_perm F F0 Fadd CM (fun j => scattered F F0 Fadd (nth j cliques []) (G j) u v) _ _ (an_order _ _ _ _ _ _ _ _ _ (bp_an _ _ _ _ _ BP))).
    assert (d_order d = map (fun k => nth k (d_order d) 0) (seq 0 (length cliques))) as EO.
    { rewrite <- Lo. apply nth_ext with (d := 0) (d' := 0); [rewrite map_length, seq_length; auto|].
      intros i Hi. rewrite nth_map_lt with (d' := 0) by (rewrite seq_length; auto). rewrite seq_nth by auto. auto. }
    rewrite EO at 1. rewrite msum_map by auto. apply msum_ext; auto. intros k Hk. apply in_seq in Hk.
    rewrite (coef_scattered F F0 Fadd cliques dual_vars d o bs BP); auto; try lia.
    + rewrite HN by lia. auto.
    + rewrite HN by lia. apply (ad_nodup _ _ AD). apply nth_In. apply (order_lt _ _ _ _ _ k BP). lia.
  - apply admissible_dual_le; auto.
  - intros k Hk w. rewrite HN by auto. auto.
  - intros k Hk b Eb. apply HC. eapply nth_error_In; eauto.
Qed.

Lemma assemble_history F F0 Fadd cliques dual_vars d o bs :
  admissible cliques dual_vars -> build cliques dual_vars = Ok (d, o, bs) ->
  forall G1 G2 m1 m2, (forall k i j, j <= i -> G1 k i j = G2 k i j) ->
  forall u v, covered cliques u -> covered cliques v ->
  KKTMatrix F F0 o d (Assemble F F0 Fadd bs (d_order d) G1 m1) u v =
  KKTMatrix F F0 o d (Assemble F F0 Fadd bs (d_order d) G2 m2) u v.
Proof.
  intros AD E G1 G2 m1 m2 HG u v Hu Hv. pose proof (build_fun _ _ _ _ _ AD E) as BP.
  pose proof (bp_an _ _ _ _ _ BP) as HA.
  unfold KKTMatrix. destruct (an_max _ _ _ _ _ _ _ _ _ HA) as [HM _].
  rewrite (at_lt _ u 0), (at_lt _ v 0) by (apply HM; auto). cbn [bind].
  destruct (an_p _ _ _ _ _ _ _ _ _ HA u Hu) as [Pu _]. destruct (an_p _ _ _ _ _ _ _ _ _ HA v Hv) as [Pv _].
  assert (forall a b, b <= a -> a < d_N d ->
    ToDense F F0 o (d_cliques d) (Assemble F F0 Fadd bs (d_order d) G1 m1) a b =
    ToDense F F0 o (d_cliques d) (Assemble F F0 Fadd bs (d_order d) G2 m2) a b) as K.
  { intros a b Hba Ha.
    destruct (ToDense_value F F0 cliques dual_vars d o bs BP (Assemble F F0 Fadd bs (d_order d) G1 m1) a b Hba Ha) as [T1 T2].
    destruct (ToDense_value F F0 cliques dual_vars d o bs BP (Assemble F F0 Fadd bs (d_order d) G2 m2) a b Hba Ha) as [T3 T4].
    destruct (stored_dec (d_cliques d) (d_supernode_size d) a b Hba) as [Hs|Hs].
    - rewrite <- (an_N _ _ _ _ _ _ _ _ _ HA). auto.
    - rewrite T1, T3 by auto. f_equal. apply (Assemble_history F F0 Fadd cliques dual_vars d o bs BP); auto.
    - rewrite T2, T4 by auto. auto. }
  destruct (Nat.leb_spec (nth v (d_perm d) 0) (nth u (d_perm d) 0)); apply K; auto; lia.
Qed.

Lemma assemble_history_storage F F0 Fadd cliques dual_vars d o bs :
  admissible cliques dual_vars -> build cliques dual_vars = Ok (d, o, bs) ->
  forall G m1 m2 k i j,
  k < length cliques -> i < nth k (d_supernode_size d) 0 ->
  (j <= i -> Assemble F F0 Fadd bs (d_order d) G m1 (ADiag k i j) = Assemble F F0 Fadd bs (d_order d) G m2 (ADiag k i j)) /\
  (nth k (d_supernode_size d) 0 + j < length (nth k (d_cliques d) []) ->
   Assemble F F0 Fadd bs (d_order d) G m1 (AOff k i j) = Assemble F F0 Fadd bs (d_order d) G m2 (AOff k i j)).
Proof.
  intros AD E G m1 m2 k i j Hk Hi. pose proof (build_fun _ _ _ _ _ AD E) as BP.
  pose proof (bp_an _ _ _ _ _ BP) as HA. pose proof (an_fill _ _ _ _ _ _ _ _ _ HA) as FC.
  pose proof (an_rows _ _ _ _ _ _ _ _ _ HA) as Hn.
  destruct (rows_split _ _ FC k ltac:(lia)) as (Er & _ & R).
  set (off := offset (d_supernode_size d)) in *. set (rows := d_cliques d) in *. set (size := d_supernode_size d) in *.
  pose proof (off_le_dim _ _ FC (S k) ltac:(lia)) as Hd. cbn in Hd. fold off in Hd.
  assert (TriWorkspaceProofs.owner rows size (off k + i) = k) as Ho.
  { apply owner_spec; [lia|]. split; cbn; fold off; lia. }
  assert (forall a, agree_low F (G a) (G a)) as HG by (intros ? ? ? ?; auto).
  split; intros Hj.
  - rewrite <- (address_diag cliques dual_vars d o bs BP k i j) by (fold size; auto; lia).
    apply (Assemble_history F F0 Fadd cliques dual_vars d o bs BP); auto.
    assert (TriWorkspaceProofs.owner rows size (off k + j) = k) as Ho'.
    { apply owner_spec; [lia|]. split; cbn; fold off; lia. }
    split; [fold size off; lia|]. split; [fold size off; lia|].
    fold rows size off. rewrite Ho'. unfold stored_row. rewrite Er, in_app_iff, in_seq. left. lia.
  - assert (j < length (sepof rows size k)) as Hj'.
    { rewrite Er, app_length, seq_length in Hj. lia. }
    rewrite <- (address_off cliques dual_vars d o bs BP k i j) by auto.
    apply (Assemble_history F F0 Fadd cliques dual_vars d o bs BP); auto.
    assert (In (nth j (sepof rows size k) 0) (sepof rows size k)) as Hin by (apply nth_In; auto).
    pose proof (R _ Hin) as HR. cbn in HR. fold off in HR.
    split; [fold rows size off; lia|]. split; [fold rows size off; lia|].
    fold rows size off. rewrite Ho. unfold stored_row. rewrite Er, in_app_iff. auto.
Qed.

Lemma no_fill_clean cliques dual_vars d o bs :
  admissible cliques dual_vars -> build cliques dual_vars = Ok (d, o, bs) ->
  (forall k, k < length cliques ->
     let c := nth (nth k (d_order d) 0) cliques [] in
     let sn := nth k (d_sn_labels d) [] in
     length sn = length c -> incl sn c) ->
  forall b, In b bs -> direct_update b = true -> ~ In (-1)%Z (b_sn b).
Proof.
  intros AD E H b Hb Hd Hin. pose proof (build_fun _ _ _ _ _ AD E) as BP.
  apply In_nth_error in Hb as (k & Eb).
  assert (k < length cliques) as Hk.
  { rewrite <- (bp_len _ _ _ _ _ BP). apply nth_error_Some. congruence. }
  pose proof (bp_bs _ _ _ _ _ BP k Hk) as Eb'. cbv zeta in Eb'. rewrite Eb in Eb'. injection Eb' as ->.
  fold (names cliques dual_vars d k) in *.
  rewrite (names_clique _ _ _ _ AD (order_lt _ _ _ _ _ k BP Hk)) in *.
  cbn [b_sn] in Hin. unfold direct_update in Hd. cbn [b_sn b_nvars] in Hd.
  apply andb_true_iff in Hd as [Hd _]. apply andb_true_iff in Hd as [_ Hd]. apply Nat.eqb_eq in Hd.
  unfold ReplaceWithPosition in Hd, Hin. rewrite map_length in Hd.
  specialize (H k Hk). cbv zeta in H. specialize (H (eq_sym Hd)).
  apply in_map_iff in Hin as (x & Ex & Hx). apply H in Hx.
  pose proof (find_pos_spec nat 0 Nat.add x (nth (nth k (d_order d) 0) cliques []) 0) as HF.
  destruct (find_pos x _ 0); [lia|auto].
Qed.
