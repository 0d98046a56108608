(** Breadth-first search finds the components. *)
From Coq Require Import List Arith Bool Lia Permutation.
From Verif Require Import ComponentModel Spec_Component.
Import ListNotations.

Lemma existsb_in x l : existsb (Nat.eqb x) l = true <-> In x l.
Proof. rewrite existsb_exists. split; [intros (y & Hy & E); apply Nat.eqb_eq in E; subst; auto|intros H; exists x; rewrite Nat.eqb_refl; auto]. Qed.
Lemma existsb_out x l : existsb (Nat.eqb x) l = false <-> ~ In x l.
Proof. rewrite <- existsb_in. destruct (existsb _ _); split; congruence. Qed.

Lemma nodup_parts {T} (a b : list T) : NoDup (a ++ b) <-> NoDup a /\ NoDup b /\ forall x, In x a -> ~ In x b.
Proof.
  induction a as [|x a IH]; cbn [app].
  - split; [intros; repeat split; auto; constructor|tauto].
  - rewrite !NoDup_cons_iff, IH, in_app_iff. split.
    + intros (H1 & H2 & H3 & H4). repeat split; auto. intros y [<-|Hy]; auto.
    + intros ((H1 & H2) & H3 & H4). repeat split; auto; [|intros; apply H4; right; auto]. intros [H|H]; auto. apply (H4 x); auto. left; auto.
Qed.

Section Graph.
  Variables (N : nat) (A : nat -> nat -> bool).
  Definition edge (v w : nat) : Prop := A v w = true \/ A w v = true.
  Lemma neighbors_in v u : In u (neighbors N A v) <-> u < N /\ u <> v /\ edge v u.
  Proof.
    unfold neighbors, edge. rewrite filter_In, in_seq, andb_true_iff, orb_true_iff, negb_true_iff, Nat.eqb_neq. split; intros; intuition lia.
  Qed.
  Lemma joined_lt u v : joined N A u v -> u < N /\ v < N.
  Proof. induction 1; auto. destruct IHjoined; auto. Qed.
  Lemma joined_trans u v w : joined N A u v -> joined N A v w -> joined N A u w.
  Proof. intros H. induction 1; auto. econstructor; eauto. Qed.
  Lemma joined_sym u v : joined N A u v -> joined N A v u.
  Proof.
    intros H. pose proof (joined_lt _ _ H) as [Hu _]. induction H as [|v w H IH Hw E]; [constructor; auto|].
    apply joined_trans with v; auto. destruct (joined_lt _ _ H). apply Step with w; [constructor; auto|auto|tauto].
  Qed.

  Definition closed (l : list nat) : Prop := forall v u, In v l -> u < N -> edge v u -> In u l.
  Lemma closed_joined l u v : closed l -> In u l -> joined N A u v -> In v l.
  Proof. intros Hc Hu. induction 1; auto. apply (Hc v); auto. Qed.

  Lemma fits (l : list nat) : NoDup l -> (forall x, In x l -> x < N) -> length l <= N.
  Proof. intros H1 H2. rewrite <- (seq_length N 0). apply NoDup_incl_length; auto. intros x Hx. apply in_seq. specialize (H2 x Hx). lia. Qed.

  Section Grow.
    Variables (d0 : list nat) (n0 : nat).
    Record state (mem : list nat) (ptr : nat) : Prop := {
      st_nodup : NoDup (d0 ++ mem);
      st_range : forall x, In x (d0 ++ mem) -> x < N;
      st_start : In n0 mem;
      st_joined : forall x, In x mem -> joined N A n0 x;
      st_done : forall i v u, i < ptr -> nth_error mem i = Some v -> u < N -> edge v u -> In u (d0 ++ mem);
      st_ptr : ptr <= length mem }.
    Lemma grow_ok fuel : forall mem ptr, state mem ptr -> N < fuel + ptr ->
      exists mem', grow fuel N A (d0 ++ mem) mem ptr = Some (d0 ++ mem', mem') /\ state mem' (length mem').
    Proof.
      induction fuel as [|fuel IH]; intros mem ptr S Hf.
      - exfalso. assert (length mem <= N) by (apply fits; [apply st_nodup in S; apply nodup_parts in S; tauto|intros; apply (st_range _ _ S); apply in_app_iff; auto]). destruct S. lia.
      - cbn [grow]. destruct (nth_error mem ptr) as [v|] eqn:E.
        + set (fresh := filter _ _). rewrite <- app_assoc. 
          assert (forall x, In x fresh <-> (x < N /\ x <> v /\ edge v x) /\ ~ In x (d0 ++ mem)) as HF.
          { intros x. unfold fresh. rewrite filter_In, neighbors_in, negb_true_iff, existsb_out. tauto. }
          assert (joined N A n0 v) as Hv by (apply (st_joined _ _ S); eapply nth_error_In; eauto).
          apply IH; [|lia]. destruct S as [S1 S2 S3 S4 S5 S6]. constructor.
          * rewrite app_assoc. apply nodup_parts. split; [auto|]. split.
            -- unfold fresh, neighbors. apply NoDup_filter, NoDup_filter, seq_NoDup.
            -- intros x H1 H2. apply HF in H2. tauto.
          * intros x. rewrite app_assoc, in_app_iff. intros [H|H]; auto. apply HF in H. tauto.
          * apply in_app_iff. auto.
          * intros x. rewrite in_app_iff. intros [H|H]; auto. apply HF in H. econstructor; eauto; apply H.
          * intros i w u Hi Hw Hu He. rewrite app_assoc. apply in_app_iff.
            assert (i < length mem) as Hl by (assert (ptr < length mem) by (apply nth_error_Some; congruence); lia).
            rewrite nth_error_app1 in Hw by auto. destruct (Nat.eq_dec i ptr) as [->|Hn].
            -- assert (w = v) as -> by congruence. destruct (in_dec Nat.eq_dec u (d0 ++ mem)) as [|Ho]; [auto|]. right. apply HF. repeat split; auto.
               intros ->. apply Ho. apply in_app_iff. right. eapply nth_error_In; eauto.
            -- left. apply (S5 i w); auto. lia.
          * rewrite app_length. assert (ptr < length mem) by (apply nth_error_Some; congruence). lia.
        + exists mem. split; auto. apply nth_error_None in E. destruct S as [S1 S2 S3 S4 S5 S6]. assert (ptr = length mem) as -> by lia. constructor; auto.
    Qed.
    Lemma grown_class mem : closed d0 -> state mem (length mem) -> closed (d0 ++ mem) /\ forall u v, In u mem -> (In v mem <-> joined N A u v).
    Proof.
      intros Hc [S1 S2 S3 S4 S5 S6].
      assert (closed (d0 ++ mem)) as Hall.
      { intros v u Hv Hu He. apply in_app_iff in Hv as [Hv|Hv]; [apply in_app_iff; left; eauto|].
        apply In_nth_error in Hv as (i & Hi). apply (S5 i v u); auto. apply nth_error_Some. congruence. }
      split; auto. intros u v Hu. split.
      - intros Hv. apply joined_trans with n0; auto using joined_sym.
      - intros H. assert (In v (d0 ++ mem)) as Hv by (apply (closed_joined _ u); auto; apply in_app_iff; auto).
        apply in_app_iff in Hv as [Hv|Hv]; auto. exfalso. assert (In u d0) as Hd by (apply (closed_joined d0 v); auto using joined_sym).
        apply nodup_parts in S1 as (_ & _ & S1). apply (S1 u); auto.
    Qed.
  End Grow.

  Record found (disc : list nat) (ms : list (list nat)) : Prop := {
    fo_concat : disc = concat ms;
    fo_nodup : NoDup disc;
    fo_range : forall x, In x disc -> x < N;
    fo_closed : closed disc;
    fo_class : forall m u v, In m ms -> In u m -> (In v m <-> joined N A u v);
    fo_nonempty : forall m, In m ms -> m <> [] }.
  Lemma loop_ok l : forall disc ms, found disc ms -> (forall x, In x l -> x < N) ->
    exists disc' ms', components_loop N A l disc ms = Some ms' /\ found disc' ms' /\ incl disc disc' /\ incl l disc'.
  Proof.
    induction l as [|n l IH]; intros disc ms F Hl; cbn [components_loop].
    - exists disc, ms. split; auto. split; auto. split; [apply incl_refl|intros x []].
    - destruct (existsb (Nat.eqb n) disc) eqn:E.
      + apply existsb_in in E. destruct (IH disc ms F) as (d' & m' & H1 & H2 & H3 & H4); [intros; apply Hl; right; auto|]. exists d', m'. split; auto. split; auto. split; auto.
        apply incl_cons; auto.
      + apply existsb_out in E. assert (n < N) as Hn by (apply Hl; left; auto).
        destruct (grow_ok disc n (S N) [n] 0) as (mem & G & S); [|lia|].
        { destruct F as [F1 F2 F3 F4 F5 F6]. constructor.
          - apply nodup_parts. split; auto. split; [constructor; [auto|constructor]|]. intros x Hx [<-|[]]. auto.
          - intros x. rewrite in_app_iff. intros [H|[<-|[]]]; auto.
          - left; auto.
          - intros x [<-|[]]. constructor. auto.
          - intros. lia.
          - cbn. lia. }
        rewrite G. destruct (grown_class disc n mem (fo_closed _ _ F) S) as [C1 C2].
        destruct (IH (disc ++ mem) (ms ++ [mem])) as (d' & m' & H1 & H2 & H3 & H4).
        { destruct F as [F1 F2 F3 F4 F5 F6]. destruct S as [S1 S2 S3 S4 S5 S6]. constructor; auto.
          - rewrite concat_app, <- F1. cbn. rewrite app_nil_r. auto.
          - intros m u v Hm. apply in_app_iff in Hm as [Hm|[<-|[]]]; auto.
          - intros m Hm. apply in_app_iff in Hm as [Hm|[<-|[]]]; auto. intros ->. destruct S3. }
        { intros; apply Hl; right; auto. }
        exists d', m'. split; auto. split; auto. split; [intros x Hx; apply H3, in_app_iff; auto|].
        apply incl_cons; auto. apply H3, in_app_iff. right. apply (st_start _ _ _ _ S).
  Qed.
End Graph.

Lemma insert_perm m l : Permutation (insert_size m l) (m :: l).
Proof. induction l as [|x l IH]; cbn; auto. destruct (length m <=? length x); auto. rewrite IH. apply perm_swap. Qed.
Lemma sort_perm l : Permutation (sort_size l) l.
Proof. induction l as [|x l IH]; cbn; auto. rewrite insert_perm. auto. Qed.
Lemma insert_ascending m l : ascending l -> ascending (insert_size m l).
Proof.
  induction l as [|x l IH]; intros H; cbn [insert_size]; [exact I|]. destruct (Nat.leb_spec (length m) (length x)); [cbn [ascending]; split; auto|].
  assert (ascending l) as Hl by (destruct l; [exact I|apply H]). specialize (IH Hl). destruct l as [|y l]; [cbn; split; [lia|auto]|].
  cbn [insert_size] in *. destruct (Nat.leb_spec (length m) (length y)); cbn [ascending] in *; (split; [destruct H; lia|auto]).
Qed.
Lemma sort_ascending l : ascending (sort_size l).
Proof. induction l; cbn; auto. apply insert_ascending. auto. Qed.
Lemma concat_perm {T} (a b : list (list T)) : Permutation a b -> Permutation (concat a) (concat b).
Proof.
  induction 1; cbn; [constructor|apply Permutation_app_head; auto| |etransitivity; eauto].
  rewrite !app_assoc. apply Permutation_app_tail, Permutation_app_comm.
Qed.

Lemma conncomp_ok N A : exists ms, conncomp N A = Some ms /\ Permutation (concat ms) (seq 0 N) /\ ascending ms /\
  (forall m, In m ms -> m <> []) /\ forall m u v, In m ms -> In u m -> (In v m <-> joined N A u v).
Proof.
  destruct (loop_ok N A (seq 0 N) [] []) as (d & ms & E & F & _ & Hi).
  { constructor; auto; try constructor; try contradiction. intros v u []. }
  { intros x Hx. apply in_seq in Hx. lia. }
  unfold conncomp. rewrite E. cbn [option_map]. exists (sort_size ms). split; auto. destruct F as [F1 F2 F3 F4 F5 F6].
  split; [|split; [apply sort_ascending|split]].
  - rewrite (concat_perm _ _ (sort_perm ms)), <- F1. apply NoDup_Permutation; auto using seq_NoDup. intros x. split; [intros H; apply in_seq; apply F3 in H; lia|auto].
  - intros m Hm. apply F6. eapply Permutation_in; [apply sort_perm|auto].
  - intros m u v Hm. apply F5. eapply Permutation_in; [apply sort_perm|auto].
Qed.

Section Completion.
  Variables (d : nat) (M : nat -> nat -> bool).
  Hypothesis sym : forall i j, i < d -> j < d -> M i j = M j i.
  Notation rows := (used_rows d M).
  Definition inner i j := M (nth i rows 0) (nth j rows 0).
  Lemma rows_in x : In x rows <-> x < d /\ exists c, c < d /\ M x c = true.
  Proof.
    unfold used_rows. rewrite filter_In, in_seq, existsb_exists. split.
    - intros (H1 & c & H2 & H3). apply in_seq in H2. split; [lia|]. exists c. split; [lia|auto].
    - intros (H1 & c & H2 & H3). split; [lia|]. exists c. split; auto. apply in_seq. lia.
  Qed.
  Lemma rows_nodup : NoDup rows.
  Proof. apply NoDup_filter, seq_NoDup. Qed.
  Lemma lift i j : joined (length rows) inner i j -> joined d M (nth i rows 0) (nth j rows 0).
  Proof.
    induction 1 as [Hi|v w H IH Hw E].
    - constructor. apply rows_in, nth_In. auto.
    - econstructor; [exact IH| |exact E]. apply rows_in, nth_In. auto.
  Qed.
  Lemma lower i v : i < length rows -> joined d M (nth i rows 0) v -> exists j, j < length rows /\ nth j rows 0 = v /\ joined (length rows) inner i j.
  Proof.
    intros Hi. induction 1 as [_|v w H IH Hw E]; [exists i; repeat split; auto; constructor; auto|].
    destruct IH as (j & Hj & <- & Hij). assert (nth j rows 0 < d) as Hd by (apply rows_in, nth_In; auto).
    assert (In w rows) as Hin. { apply rows_in. split; auto. exists (nth j rows 0). split; auto. destruct E as [E|E]; auto. rewrite sym; auto. }
    apply (In_nth _ _ 0) in Hin as (k & Hk & <-). exists k. repeat split; auto. econstructor; eauto.
  Qed.
  Lemma map_rows : map (fun i => nth i rows 0) (seq 0 (length rows)) = rows.
  Proof.
    apply nth_ext with 0 0; [rewrite map_length, seq_length; auto|]. intros k Hk. rewrite map_length, seq_length in Hk.
    rewrite (nth_indep _ 0 (nth 0 rows 0)) by (rewrite map_length, seq_length; auto). rewrite map_nth with (f := fun i => nth i rows 0). rewrite seq_nth; auto.
  Qed.
  Lemma completion_ok : exists M' q, BinaryPsdCompletion d M = Some (M', q) /\ Permutation (concat q) rows /\ ascending q /\
    (forall m u v, In m q -> In u m -> (In v m <-> joined d M u v)) /\
    (forall i j, M' i j = true <-> M i j = true \/ exists m, In m q /\ In i m /\ In j m).
  Proof.
    unfold BinaryPsdCompletion. destruct (Nat.eqb_spec (length rows) 0) as [E0|E0].
    - exists M, []. split; auto. destruct rows as [|] eqn:E; [|discriminate]. split; [constructor|]. split; [exact I|]. split; [intros m u v []|].
      intros i j. split; [auto|]. intros [H|(m & [] & _)]. auto.
    - destruct (conncomp_ok (length rows) inner) as (ms & E & P & S & NE & C). fold inner. rewrite E. eexists _, _. split; [reflexivity|].
      assert (forall m, In m ms -> forall i, In i m -> i < length rows) as Hlt.
      { intros m Hm i Hi. assert (In i (seq 0 (length rows))) as H by (eapply Permutation_in; [exact P|]; apply in_concat; eauto). apply in_seq in H. lia. }
      split; [|split; [|split]].
      + rewrite <- concat_map. transitivity (map (fun i => nth i rows 0) (seq 0 (length rows))); [apply Permutation_map; exact P|]. rewrite map_rows. apply Permutation_refl.
      + clear - S. induction ms as [|x [|y l] IH]; try exact I. destruct S as [S1 S2]. split; [rewrite !map_length; exact S1|]. exact (IH S2).
      + intros m u v Hm Hu. apply in_map_iff in Hm as (m0 & <- & Hm). apply in_map_iff in Hu as (i & <- & Hi). rewrite in_map_iff. split.
        * intros (j & <- & Hj). apply lift. apply (C m0); auto.
        * intros H. apply lower in H as (j & Hj & <- & H); [|eapply Hlt; eauto]. exists j. split; auto. apply (C m0 i); auto.
      + intros i j. rewrite orb_true_iff, existsb_exists. split; (intros [H|(m & Hm & H)]; [auto|right; exists m]).
        * apply andb_true_iff in H as [H1 H2]. apply existsb_in in H1, H2. auto.
        * split; auto. apply andb_true_iff. rewrite !existsb_in. auto.
  Qed.
End Completion.
