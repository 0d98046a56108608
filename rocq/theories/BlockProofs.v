(** Correctness of the block factorizations and solves. *)
From Coq Require Import List Arith Reals Lra Lia Bool Permutation.
From Verif Require Import Base BaseFacts TriWorkspaceModel AssemblerModel Spec_Block TriWorkspaceProofs SupernodeProofs AssemblerProofs
  DenseModel BlockModel RSum DenseProofs.
Import ListNotations.
Open Scope R_scope.

Section Blk.
  Variables (rows : list (list nat)) (size : list nat).
  Hypothesis FC : fill_closed rows size.
  Notation n := (length rows).
  Notation N := (dim size).
  Notation off := (offset size).
  Notation sz k := (nth k size 0%nat).
  Notation sepof := (sepof rows size).
  Notation owner := (owner rows size).
  Notation stored := (stored rows size).
  Notation address := (address rows size).

  Lemma off_S k : off (S k) = (off k + sz k)%nat.
  Proof. reflexivity. Qed.

  Lemma off_n : off n = N.
  Proof. unfold dim. rewrite (fc_len _ _ FC). auto. Qed.

  Lemma off_mono j k : (j <= k)%nat -> (off j <= off k)%nat.
  Proof. apply offset_le. Qed.

  Lemma own k i : (k < n)%nat -> (i < sz k)%nat -> owner (off k + i) = k.
  Proof. intros Hk Hi. apply (owner_spec _ _ ); auto. split; cbn; lia. Qed.

  Lemma off_in k i : (k < n)%nat -> (i < sz k)%nat -> (off k + i < N)%nat.
  Proof. intros Hk Hi. rewrite <- off_n. pose proof (off_mono (S k) n Hk). rewrite off_S in H. lia. Qed.

  Lemma owner_le k c : (k <= n)%nat -> (c < N)%nat -> (off k <= c)%nat <-> (k <= owner c)%nat.
  Proof.
    intros Hk Hc. destruct (owner_block _ _ FC c Hc) as [Ho [H1 H2]]. split; intros H.
    - destruct (Nat.le_gt_cases k (owner c)); auto. pose proof (off_mono (S (owner c)) k ltac:(lia)). lia.
    - pose proof (off_mono k (owner c) H). lia.
  Qed.

  Lemma owner_decomp c : (c < N)%nat -> (owner c < n)%nat /\ exists i, (i < sz (owner c))%nat /\ c = (off (owner c) + i)%nat.
  Proof.
    intros Hc. destruct (owner_block _ _ FC c Hc) as [Ho [H1 H2]]. split; auto.
    exists (c - off (owner c))%nat. rewrite off_S in H2. lia.
  Qed.

  Lemma sep_in k j : (k < n)%nat -> (j < length (sepof k))%nat ->
    (off (S k) <= nth j (sepof k) 0%nat < N)%nat /\ (k < owner (nth j (sepof k) 0%nat))%nat.
  Proof.
    intros Hk Hj. pose proof (nth_In _ 0%nat Hj) as Hin.
    destruct (rows_split _ _ FC k Hk) as (_ & _ & R). split; [apply R; auto|].
    apply (sep_owner_gt _ _ FC k); auto.
  Qed.

  (** Dense matrix of a block column structure with diagonal blocks [gd] and
      off-diagonal blocks taken from the storage. *)
  Definition Gof (gd : nat -> mat) (m : rmem) : mat := fun r c =>
    let k := owner c in
    if (owner r =? k)%nat then gd k (r - off k)%nat (c - off k)%nat
    else match sep_pos r (sepof k) 0 with
         | Some j => m (AOff k (c - off k)%nat j)
         | None => 0
         end.
  Definition view (m : rmem) : mat := Gof (diag_of m) m.

  Lemma Gof_diag gd m k i j : (k < n)%nat -> (i < sz k)%nat -> (j < sz k)%nat ->
    Gof gd m (off k + i)%nat (off k + j)%nat = gd k i j.
  Proof.
    intros. unfold Gof. rewrite !own by auto. rewrite Nat.eqb_refl. f_equal; lia.
  Qed.

  Lemma Gof_off gd m k i j : (k < n)%nat -> (i < sz k)%nat -> (j < length (sepof k))%nat ->
    Gof gd m (nth j (sepof k) 0%nat) (off k + i)%nat = m (AOff k i j).
  Proof.
    intros Hk Hi Hj. unfold Gof. rewrite own by auto. destruct (sep_in k j Hk Hj) as [_ Ho].
    destruct (Nat.eqb_spec (owner (nth j (sepof k) 0%nat)) k); [lia|].
    rewrite sep_pos_nth; auto; [|apply (sep_nodup _ _ FC); auto].
    f_equal. f_equal. lia.
  Qed.

  Lemma Gof_none gd m k i r : (k < n)%nat -> (i < sz k)%nat -> owner r <> k -> ~ In r (sepof k) ->
    Gof gd m r (off k + i)%nat = 0.
  Proof.
    intros Hk Hi Ho Hr. unfold Gof. rewrite own by auto. destruct (Nat.eqb_spec (owner r) k); [lia|].
    pose proof (sep_pos_spec r (sepof k) 0) as H. destruct (sep_pos r (sepof k) 0) as [j|]; auto.
    exfalso. apply Hr. destruct H as [H1 H2]. rewrite <- H2. apply nth_In. lia.
  Qed.

  Lemma Gof_upper gd m r c : (c < N)%nat -> (owner r < owner c)%nat -> Gof gd m r c = 0.
  Proof.
    intros Hc Ho. destruct (owner_decomp c Hc) as (Hk & i & Hi & Ec). rewrite Ec.
    apply Gof_none; auto; [lia|]. intros Hin. apply (sep_owner_gt _ _ FC) in Hin; auto. lia.
  Qed.

  (** [Gof] as a sum over the separator. *)
  Lemma Gof_sum gd m k i r : (k < n)%nat -> (i < sz k)%nat -> owner r <> k ->
    Gof gd m r (off k + i)%nat =
    rsum (length (sepof k)) (fun j => if (nth j (sepof k) 0%nat =? r)%nat then m (AOff k i j) else 0).
  Proof.
    intros Hk Hi Ho. destruct (in_dec Nat.eq_dec r (sepof k)) as [Hin|Hin].
    - apply (In_nth _ _ 0%nat) in Hin as (j & Hj & Ej). subst r.
      rewrite Gof_off by auto. rewrite (rsum_single _ j); auto.
      + rewrite Nat.eqb_refl. auto.
      + intros j' Hj' Hn. destruct (Nat.eqb_spec (nth j' (sepof k) 0%nat) (nth j (sepof k) 0%nat)) as [E|]; auto.
        exfalso. apply Hn. eapply NoDup_nth; eauto. apply (sep_nodup _ _ FC); auto.
    - rewrite Gof_none by auto. symmetry. apply rsum_zero. intros j Hj.
      destruct (Nat.eqb_spec (nth j (sepof k) 0%nat) r) as [E|]; auto. exfalso. apply Hin. rewrite <- E. apply nth_In. auto.
  Qed.

  Lemma view_stored m r c : stored r c -> view m r c = m (address r c).
  Proof.
    intros Hs. unfold view, Gof, TriWorkspaceProofs.address.
    destruct (Nat.eqb_spec (owner r) (owner c)); auto.
    destruct (stored_cases _ _ FC r c Hs) as [|[_ Hin]]; [congruence|].
    pose proof (sep_pos_spec r (sepof (owner c)) 0) as H1. destruct (sep_pos r _ 0) as [j|]; [reflexivity|tauto].
  Qed.

  Lemma view_unstored m r c : (c <= r)%nat -> (r < N)%nat -> ~ stored r c -> view m r c = 0.
  Proof.
    intros Hcr Hr Hs. destruct (owner_decomp c ltac:(lia)) as (Hk & i & Hi & Ec). rewrite Ec at 1.
    assert (stored_row rows (owner c) r -> False) as Hns by (intros H; apply Hs; split; auto).
    destruct (rows_split _ _ FC _ Hk) as (Er & _ & _). unfold stored_row in Hns. rewrite Er in Hns.
    apply Gof_none; auto.
    - intros E. apply Hns. apply in_app_iff. left. apply in_seq.
      destruct (owner_block _ _ FC r Hr) as [_ [H1 H2]]. rewrite E in *. rewrite off_S in H2. lia.
    - intros H. apply Hns. apply in_app_iff. auto.
  Qed.

  (** Rows of a block column. *)
  Lemma row_cases k r : (k < n)%nat -> (off k <= r < N)%nat ->
    (exists i, (i < sz k)%nat /\ r = off k + i)%nat \/ (off (S k) <= r)%nat.
  Proof.
    intros Hk Hr. rewrite off_S. destruct (Nat.lt_ge_cases r (off k + sz k)); [left|right; auto].
    exists (r - off k)%nat. lia.
  Qed.

  (** ** Elimination *)
  Definition gdg (G : mat) (d : vec) (a len r c : nat) : R :=
    rsum len (fun t => G r (a + t)%nat * d (a + t)%nat * G c (a + t)%nat).

  Definition elim_inv (A : mat) (G : mat) (d E : vec) (V : mat) (k : nat) : Prop :=
    (forall r c, (c <= r < N)%nat -> (c < off k)%nat -> A r c + delta r c (E r) = gdg G d 0 (off k) r c) /\
    (forall r c, (off k <= c <= r)%nat -> (r < N)%nat ->
       A r c + delta r c (E r) = gdg G d 0 (off k) r c + V r c).

  Lemma elim_step A G G' d d' E E' V V' k (f e : vec) : (k < n)%nat ->
    (forall r t, (r < N)%nat -> (t < off k)%nat -> G' r t = G r t) ->
    (forall t, (t < off k)%nat -> d' t = d t) ->
    (forall r t, (t < N)%nat -> (owner r < owner t)%nat -> G' r t = 0) ->
    (forall r, (r < off k)%nat -> E' r = E r) ->
    (forall r, (off k <= r < off (S k))%nat -> E' r = E r + f r) ->
    (forall r, (off (S k) <= r < N)%nat -> E' r = E r + e r) ->
    (forall r c, (off k <= c < off (S k))%nat -> (c <= r < N)%nat ->
        V r c + delta r c (f r) = gdg G' d' (off k) (sz k) r c) ->
    (forall r c, (off (S k) <= c <= r)%nat -> (r < N)%nat ->
        V r c + delta r c (e r) = V' r c + gdg G' d' (off k) (sz k) r c) ->
    elim_inv A G d E V k -> elim_inv A G' d' E' V' (S k).
  Proof.
    intros Hk HG Hd HU E1 E2 E3 H1 H3 (IA & IB).
    assert (forall r c, (r < N)%nat -> (c < N)%nat ->
              gdg G' d' 0 (off (S k)) r c = gdg G d 0 (off k) r c + gdg G' d' (off k) (sz k) r c) as HS.
    { intros r c Hr Hc. unfold gdg. rewrite off_S, rsum_split. f_equal.
      apply rsum_ext. intros t Ht. cbn [Nat.add]. rewrite !HG, Hd by auto. auto. }
    split.
    - intros r c Hr Hc. rewrite HS by lia. destruct (Nat.lt_ge_cases c (off k)) as [Hck|Hck].
      + assert (delta r c (E' r) = delta r c (E r)) as ->.
        { unfold delta. destruct (Nat.eqb_spec r c); auto. apply E1. lia. }
        rewrite IA by auto. unfold gdg at 3. rewrite rsum_zero; [lra|].
        intros t Ht. rewrite (HU c (off k + t)%nat); [lra|apply off_in; auto|].
        rewrite own by auto. destruct (Nat.lt_ge_cases (owner c) k) as [|Hge]; auto.
        apply owner_le in Hge; lia.
      + rewrite <- H1 by lia. rewrite <- Rplus_assoc, <- IB by lia.
        unfold delta. destruct (Nat.eqb_spec r c) as [->|]; [rewrite E2 by lia; lra|lra].
    - intros r c Hc Hr. rewrite HS by lia. specialize (H3 r c Hc Hr).
      assert (off k <= off (S k))%nat by (apply off_mono; lia).
      specialize (IB r c ltac:(lia) Hr). unfold delta in *.
      destruct (Nat.eqb_spec r c) as [->|]; [rewrite E3 by lia; lra|lra].
  Qed.

  Lemma elim_start A : elim_inv A (fun _ _ => 0) (fun _ => 0) (fun _ => 0) A 0.
  Proof.
    split; intros r c H; cbn; try lia. intros _. unfold delta, gdg. cbn.
    destruct (r =? c)%nat; lra.
  Qed.

  (** ** Solves *)
  Definition fwd_inv (G : mat) (b y : vec) (k : nat) : Prop :=
    (forall r, (r < off k)%nat -> rsum (off k) (fun t => G r t * y t) = b r) /\
    (forall r, (off k <= r < N)%nat -> y r = b r - rsum (off k) (fun t => G r t * y t)).
  (** after the solve with block [k], before the update of later rows *)
  Definition fwd_mid (G : mat) (b y : vec) (k : nat) : Prop :=
    (forall r, (r < off (S k))%nat -> rsum (off (S k)) (fun t => G r t * y t) = b r) /\
    (forall r, (off (S k) <= r < N)%nat -> y r = b r - rsum (off k) (fun t => G r t * y t)).

  Definition low_zero (G : mat) : Prop := forall r t, (t < N)%nat -> (owner r < owner t)%nat -> G r t = 0.

  Lemma fwd_solve_step G b y y' k : (k < n)%nat -> low_zero G -> fwd_inv G b y k ->
    (forall i, (i < sz k)%nat -> rsum (sz k) (fun t => G (off k + i)%nat (off k + t)%nat * y' (off k + t)%nat) = y (off k + i)%nat) ->
    (forall r, (r < off k \/ off (S k) <= r)%nat -> y' r = y r) ->
    fwd_mid G b y' k.
  Proof.
    intros Hk HU (IA & IB) H1 H2.
    assert (forall r, rsum (off k) (fun t => G r t * y' t) = rsum (off k) (fun t => G r t * y t)) as HE.
    { intros r. apply rsum_ext. intros t Ht. rewrite H2 by auto. auto. }
    assert (off (S k) <= N)%nat as HN by (apply (off_le_dim _ _ FC); lia).
    split.
    - intros r Hr. rewrite off_S, rsum_split, HE. destruct (Nat.lt_ge_cases r (off k)) as [Hrk|Hrk].
      + rewrite IA by auto. rewrite rsum_zero; [lra|]. intros t Ht. rewrite HU; [lra|apply off_in; auto|].
        rewrite own by auto. destruct (Nat.lt_ge_cases (owner r) k) as [|Hge]; auto.
        apply owner_le in Hge; lia.
      + destruct (row_cases k r Hk ltac:(lia)) as [(i & Hi & ->)|]; [|lia].
        rewrite H1 by auto. rewrite (IB (off k + i)%nat) by (rewrite off_S in *; lia). lra.
    - intros r Hr. rewrite H2 by lia. rewrite HE. apply IB. rewrite off_S in Hr. lia.
  Qed.

  Lemma fwd_update_step G b y y' k : (k < n)%nat -> fwd_mid G b y k ->
    (forall r, (off (S k) <= r < N)%nat ->
        y' r = y r - rsum (sz k) (fun t => G r (off k + t)%nat * y (off k + t)%nat)) ->
    (forall r, (r < off (S k))%nat -> y' r = y r) ->
    fwd_inv G b y' (S k).
  Proof.
    intros Hk (IA & IB) H1 H2.
    assert (forall r, rsum (off (S k)) (fun t => G r t * y' t) = rsum (off (S k)) (fun t => G r t * y t)) as HE.
    { intros r. apply rsum_ext. intros t Ht. rewrite H2 by auto. auto. }
    split; intros r Hr; rewrite HE.
    - auto.
    - rewrite H1, IB by auto. rewrite off_S, rsum_split. lra.
  Qed.

  Definition tailsum (G : mat) (y : vec) (k t : nat) : R :=
    rsum (N - off k) (fun a => G (off k + a)%nat t * y (off k + a)%nat).

  Definition bwd_inv (G : mat) (z y : vec) (k : nat) : Prop :=
    (forall t, (off k <= t < N)%nat -> tailsum G y k t = z t) /\
    (forall t, (t < off k)%nat -> y t = z t - tailsum G y k t).
  Definition bwd_mid (G : mat) (z y : vec) (k : nat) : Prop :=
    (forall t, (off k <= t < N)%nat -> tailsum G y k t = z t) /\
    (forall t, (t < off k)%nat -> y t = z t - tailsum G y (S k) t).

  Lemma tailsum_split G y k t : (k < n)%nat ->
    tailsum G y k t = rsum (sz k) (fun a => G (off k + a)%nat t * y (off k + a)%nat) + tailsum G y (S k) t.
  Proof.
    intros Hk. unfold tailsum. assert (off (S k) <= N)%nat as HN by (apply (off_le_dim _ _ FC); lia).
    rewrite off_S in *. replace (N - off k)%nat with (sz k + (N - (off k + sz k)))%nat by lia.
    rewrite rsum_split. f_equal. apply rsum_ext. intros a Ha. rewrite Nat.add_assoc. auto.
  Qed.

  Lemma bwd_solve_step G z y y' k : (k < n)%nat -> low_zero G -> bwd_inv G z y (S k) ->
    (forall i, (i < sz k)%nat -> rsum (sz k) (fun a => G (off k + a)%nat (off k + i)%nat * y' (off k + a)%nat) = y (off k + i)%nat) ->
    (forall r, (r < off k \/ off (S k) <= r)%nat -> y' r = y r) ->
    bwd_mid G z y' k.
  Proof.
    intros Hk HU (IA & IB) H1 H2.
    assert (forall t, tailsum G y' (S k) t = tailsum G y (S k) t) as HE.
    { intros t. apply rsum_ext. intros a Ha. rewrite H2 by lia. auto. }
    assert (off (S k) <= N)%nat as HN by (apply (off_le_dim _ _ FC); lia).
    split.
    - intros t Ht. rewrite tailsum_split, HE by auto.
      destruct (row_cases k t Hk Ht) as [(i & Hi & ->)|Hge].
      + rewrite H1 by auto. rewrite IB by (rewrite off_S; lia). lra.
      + rewrite IA by lia. rewrite rsum_zero; [lra|]. intros a Ha.
        rewrite HU; [lra|lia|]. rewrite own by auto. apply owner_le in Hge; lia.
    - intros t Ht. rewrite H2 by auto. rewrite HE. apply IB. rewrite off_S. lia.
  Qed.

  Lemma bwd_update_step G z y y' k : (k < n)%nat -> bwd_mid G z y k ->
    (forall t, (t < off k)%nat -> y' t = y t - rsum (sz k) (fun a => G (off k + a)%nat t * y (off k + a)%nat)) ->
    (forall r, (off k <= r < N)%nat -> y' r = y r) ->
    bwd_inv G z y' k.
  Proof.
    intros Hk (IA & IB) H1 H2.
    assert (forall t, tailsum G y' k t = tailsum G y k t) as HE.
    { intros t. apply rsum_ext. intros a Ha. rewrite H2 by lia. auto. }
    split; intros t Ht; rewrite HE; auto.
    rewrite H1, IB by auto. rewrite (tailsum_split G y k) by auto. lra.
  Qed.

  (** Solving with both factors solves the product. *)
  Lemma solve_product A G d b z x :
    (forall r c, (r < N)%nat -> (c < N)%nat -> sym A r c = gdg G d 0 N r c) ->
    (forall t, (t < N)%nat -> d t <> 0) ->
    (forall r, (r < N)%nat -> rsum N (fun t => G r t * z t) = b r) ->
    (forall t, (t < N)%nat -> rsum N (fun r => G r t * x r) = / d t * z t) ->
    forall r, (r < N)%nat -> rsum N (fun c => sym A r c * x c) = b r.
  Proof.
    intros HA Hd Hz Hx r Hr.
    rewrite (rsum_ext N _ (fun c => rsum N (fun t => G r t * d t * (G c t * x c)))).
    2:{ intros c Hc. rewrite HA by auto. unfold gdg. cbn [Nat.add]. rewrite <- rsum_scal_r.
        apply rsum_ext. intros. ring. }
    rewrite rsum_swap. rewrite <- Hz by auto. apply rsum_ext. intros t Ht.
    rewrite rsum_scal, Hx by auto. field. auto.
  Qed.
End Blk.
