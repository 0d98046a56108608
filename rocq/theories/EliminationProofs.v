(** Proofs about EliminationModel. *)
From Coq Require Import List Arith ZArith Bool Lia Permutation.
From Verif Require Import Base BaseFacts EliminationModel Spec_Elimination.
Import ListNotations.

(** ** Maximum cardinality search *)

Definition linked (A : zmatrix) (u x : nat) : bool := negb (u =? x) && negb (A u x =? 0)%Z.
Definition weight (A : zmatrix) (l : list nat) (u : nat) : nat := length (filter (linked A u) l).

Lemma update_weights_gen : forall A v is W, NoDup is -> (forall i, In i is -> i < length W) ->
  let W' := fold_left (fun W i => if (i =? v) then W
                        else if (A i v =? 0)%Z then W else upd W i (nth i W 0 + 1)) is W in
  length W' = length W /\
  forall i, nth i W' 0 = nth i W 0 + (if existsb (Nat.eqb i) is then if linked A i v then 1 else 0 else 0).
Proof.
  intros A v. induction is as [|j is IH]; intros W ND HL; cbn [fold_left existsb].
  - split; auto.
  - inversion_clear ND as [|? ? Hnin ND'].
    set (W1 := if (j =? v) then W else if (A j v =? 0)%Z then W else upd W j (nth j W 0 + 1)).
    assert (length W1 = length W) as L1. { unfold W1. destruct (j =? v); auto. destruct (_ =? _)%Z; auto. apply upd_length. }
    assert (forall i, nth i W1 0 = nth i W 0 + (if i =? j then if linked A i v then 1 else 0 else 0)) as N1.
    { intros i. unfold W1, linked. destruct (Nat.eqb_spec i j).
      - subst i. destruct (j =? v); cbn; [lia|]. destruct (A j v =? 0)%Z; cbn; [lia|]. rewrite nth_upd_eq; auto. apply HL. left; auto.
      - destruct (j =? v); [lia|]. destruct (A j v =? 0)%Z; [lia|]. rewrite nth_upd_neq by auto. lia. }
    destruct (IH W1 ND') as [L2 N2]. { intros i Hi. rewrite L1. apply HL. right; auto. }
    split; [congruence|]. intros i. rewrite N2, N1. destruct (Nat.eqb_spec i j); cbn [orb]; [|lia].
    subst i. assert (existsb (Nat.eqb j) is = false) as ->; [|lia].
    apply not_true_is_false. intros E. apply existsb_exists in E as (y & Hy & Ey). apply Nat.eqb_eq in Ey. subst; auto.
Qed.
Lemma existsb_seq : forall i N, existsb (Nat.eqb i) (seq 0 N) = (i <? N).
Proof.
  intros i N. apply eq_true_iff_eq. rewrite existsb_exists, Nat.ltb_lt. split.
  - intros (x & Hx & E). apply Nat.eqb_eq in E. apply in_seq in Hx. lia.
  - intros H. exists i. split; [apply in_seq; lia|apply Nat.eqb_refl].
Qed.
Lemma update_weights : forall A N v W, length W = N ->
  length (UpdateWeights A N v W) = N /\
  forall i, i < N -> nth i (UpdateWeights A N v W) 0 = nth i W 0 + (if linked A i v then 1 else 0).
Proof.
  intros A N v W HW. unfold UpdateWeights. destruct (update_weights_gen A v (seq 0 N) W) as [L H].
  - apply seq_NoDup.
  - intros i Hi. apply in_seq in Hi. lia.
  - split; [congruence|]. intros i Hi. rewrite H, existsb_seq. apply Nat.ltb_lt in Hi. rewrite Hi. auto.
Qed.

Lemma argmax_gen : forall s k,
  let r := fold_left (fun acc i =>
          let '(pos, max) := (acc : option nat * Z) in
          if nth i (mc_left s) false && (max <=? Z.of_nat (nth i (mc_W s) 0%nat))%Z
          then (Some i, Z.of_nat (nth i (mc_W s) 0%nat)) else (pos, max)) (seq 0 k) (None, (-1)%Z) in
  match fst r with
  | None => snd r = (-1)%Z /\ forall i, i < k -> nth i (mc_left s) false = false
  | Some p => p < k /\ nth p (mc_left s) false = true /\ snd r = Z.of_nat (nth p (mc_W s) 0) /\
              forall i, i < k -> nth i (mc_left s) false = true -> nth i (mc_W s) 0 <= nth p (mc_W s) 0
  end.
Proof.
  intros s. induction k as [|k IH]; cbn zeta.
  - cbn. split; auto. intros; lia.
  - rewrite seq_S, fold_left_app. cbn [fold_left Nat.add]. cbn zeta in IH. destruct (fold_left _ (seq 0 k) _) as [pos max].
    cbn [fst snd] in IH |- *. destruct (nth k (mc_left s) false) eqn:EL; cbn [andb].
    + destruct (Z.leb_spec max (Z.of_nat (nth k (mc_W s) 0))) as [H|H]; cbn [fst snd].
      * repeat split; auto. intros i Hi Hl. destruct (Nat.eq_dec i k); [subst; auto|].
        destruct pos as [p|].
        { destruct IH as (_ & _ & E & IH). assert (nth i (mc_W s) 0 <= nth p (mc_W s) 0) by (apply IH; auto; lia). lia. }
        { destruct IH as [_ IH]. rewrite IH in Hl by lia. discriminate. }
      * destruct pos as [p|].
        { destruct IH as (Hp & Hl & E & IH). repeat split; auto. intros i Hi Hi2. destruct (Nat.eq_dec i k); [subst; lia|]. apply IH; auto; lia. }
        { destruct IH as [E _]. lia. }
    + cbn [fst snd]. destruct pos as [p|].
      * destruct IH as (Hp & Hl & E & IH). repeat split; auto. intros i Hi Hi2. destruct (Nat.eq_dec i k); [subst; congruence|]. apply IH; auto; lia.
      * destruct IH as [E IH]. split; auto. intros i Hi. destruct (Nat.eq_dec i k); [subst; auto|]. apply IH; lia.
Qed.
Lemma argmax_some : forall s N p, ArgMaxWeight N s = Some p ->
  p < N /\ nth p (mc_left s) false = true /\
  forall i, i < N -> nth i (mc_left s) false = true -> nth i (mc_W s) 0 <= nth p (mc_W s) 0.
Proof. intros s N p H. unfold ArgMaxWeight in H. pose proof (argmax_gen s N) as G. cbn zeta in G. rewrite H in G. tauto. Qed.
Lemma argmax_none : forall s N, ArgMaxWeight N s = None -> forall i, i < N -> nth i (mc_left s) false = false.
Proof. intros s N H. unfold ArgMaxWeight in H. pose proof (argmax_gen s N) as G. cbn zeta in G. rewrite H in G. tauto. Qed.

Lemma missing_vertex : forall N l, NoDup l -> length l < N -> exists i, i < N /\ ~ In i l.
Proof.
  intros N l ND HL. destruct (existsb (fun i => negb (existsb (Nat.eqb i) l)) (seq 0 N)) eqn:E.
  - apply existsb_exists in E as (i & Hi & E). apply in_seq in Hi. exists i. split; [lia|]. intros Hin.
    apply negb_true_iff in E. assert (existsb (Nat.eqb i) l = true); [|congruence]. apply existsb_exists. exists i. split; auto. apply Nat.eqb_refl.
  - exfalso. assert (incl (seq 0 N) l) as HI.
    { intros i Hi. destruct (existsb (Nat.eqb i) l) eqn:E2.
      - apply existsb_exists in E2 as (y & Hy & Ey). apply Nat.eqb_eq in Ey. subst; auto.
      - assert (existsb (fun i => negb (existsb (Nat.eqb i) l)) (seq 0 N) = true); [|congruence].
        apply existsb_exists. exists i. rewrite E2. auto. }
    apply NoDup_incl_length in HI; [|apply seq_NoDup]. rewrite seq_length in HI. lia.
Qed.

(** Each vertex was chosen with maximal weight. *)
Definition greedy (A : zmatrix) (N : nat) (order : list nat) : Prop :=
  forall l1 v l2, order = l1 ++ v :: l2 -> forall u, u < N -> ~ In u (v :: l2) -> weight A l2 u <= weight A l2 v.

Lemma weight_cons : forall A v l i, weight A (v :: l) i = weight A l i + (if linked A i v then 1 else 0).
Proof. intros. unfold weight. cbn [filter]. destruct (linked A i v); cbn [length]; lia. Qed.

Lemma order_loop_ok : forall A N k s v rest,
  length (mc_W s) = N -> length (mc_left s) = N -> v < N -> NoDup (v :: rest) -> (forall i, In i rest -> i < N) ->
  (forall i, i < N -> (nth i (mc_left s) false = true <-> ~ In i rest)) ->
  (forall i, i < N -> nth i (mc_W s) 0 = weight A rest i) ->
  greedy A N (v :: rest) -> length (v :: rest) + k = N ->
  exists order, order_loop A N k s v (v :: rest) = Ok order /\ NoDup order /\ length order = N /\
    (forall i, In i order -> i < N) /\ greedy A N order /\ (exists l, order = l ++ v :: rest).
Proof.
  intros A N. induction k as [|k IH]; intros s v rest HW HL Hv ND HR Hleft Hw HG Hlen.
  - exists (v :: rest). cbn [order_loop]. split; auto. split; auto. split; [lia|]. split; [|split; auto; exists []; auto].
    intros i [<-|Hi]; auto.
  - cbn [order_loop]. assert ((N <=? v) = false) as -> by (apply Nat.leb_gt; auto).
    set (s' := mkMcs (UpdateWeights A N v (mc_W s)) (upd (mc_left s) v false)). cbn zeta.
    destruct (update_weights A N v (mc_W s) HW) as [LW' HW'].
    assert (forall i, i < N -> (nth i (mc_left s') false = true <-> ~ In i (v :: rest))) as Hleft'.
    { intros i Hi. cbn [s' mc_left]. destruct (Nat.eq_dec i v).
      - subst i. rewrite nth_upd_eq by lia. split; [discriminate|]. intros H. destruct H. left; auto.
      - rewrite nth_upd_neq by auto. rewrite Hleft by auto. cbn [In]. intuition. }
    assert (forall i, i < N -> nth i (mc_W s') 0 = weight A (v :: rest) i) as Hw'.
    { intros i Hi. cbn [s' mc_W]. rewrite HW', Hw, weight_cons; auto. }
    destruct (ArgMaxWeight N s') as [p|] eqn:EA.
    + apply argmax_some in EA as (Hp & Hpl & Hmax).
      pose proof (proj1 (Hleft' p Hp) Hpl) as Hpn.
      destruct (IH s' p (v :: rest)) as (order & E & ND' & L' & HB & HG' & (l & El)).
      * exact LW'.
      * cbn [s' mc_left]. rewrite upd_length. auto.
      * auto.
      * constructor; auto.
      * intros i [<-|Hi]; auto.
      * exact Hleft'.
      * exact Hw'.
      * intros l1 x l2 Ex u Hu Hun. destruct l1 as [|y l1]; cbn [app] in Ex.
        { injection Ex as <- <-. rewrite <- !Hw' by auto. apply Hmax; auto. apply Hleft'; auto. intros Hin. apply Hun. right; auto. }
        { injection Ex as <- Ex. exact (HG l1 x l2 Ex u Hu Hun). }
      * cbn [length] in Hlen |- *. lia.
      * exists order. split; auto. split; auto. split; auto. split; auto. split; auto. exists (l ++ [p]). rewrite <- app_assoc. auto.
    + exfalso. destruct (missing_vertex N (v :: rest) ND) as (i & Hi & Hn). { cbn [length] in *. lia. }
      pose proof (argmax_none _ _ EA i Hi) as E. apply Hleft' in Hn; auto. congruence.
Qed.

Lemma nth_repeat_lt : forall {T} (x d : T) n i, i < n -> nth i (repeat x n) d = x.
Proof. intros T x d n. induction n; intros i Hi; [lia|]. destruct i; cbn; auto. apply IHn; lia. Qed.

Lemma find_order_ok : forall A N v, v < N ->
  exists order, FindOrderFrom A N v = Ok order /\ vertex_order N order /\ greedy A N order /\ (exists l, order = l ++ [v]).
Proof.
  intros A N v Hv. unfold FindOrderFrom. destruct (N =? 0) eqn:E0; [apply Nat.eqb_eq in E0; lia|].
  destruct (order_loop_ok A N (N - 1) (mcs_init N) v []) as (order & E & ND & L & HB & HG & HE); cbn [mcs_init mc_W mc_left].
  - apply repeat_length.
  - apply repeat_length.
  - auto.
  - constructor; auto. constructor.
  - intros i [].
  - intros i Hi. rewrite nth_repeat_lt by auto. split; auto.
  - intros i Hi. rewrite nth_repeat_lt by auto. auto.
  - intros l1 x l2 Ex. destruct l1 as [|y [|]]; try discriminate. injection Ex as <- <-. cbn. lia.
  - cbn. lia.
  - exists order. split; auto. split; auto. apply NoDup_Permutation_bis; auto.
    + rewrite seq_length. lia.
    + intros i Hi. apply in_seq. apply HB in Hi. lia.
Qed.

Lemma max_degree_gen : forall A N l a m, (forall i, In i l -> i < N) -> a < N ->
  fst (fold_left (fun acc i => let '(argmax, max) := (acc : nat * Z) in
                  if (max <? Degree A N i)%Z then (i, Degree A N i) else (argmax, max)) l (a, m)) < N.
Proof.
  intros A N l. induction l as [|i l IH]; intros a m HL Ha; cbn [fold_left]; auto.
  destruct (m <? Degree A N i)%Z; apply IH; auto; try (intros; apply HL; right; auto; fail). apply HL; left; auto.
Qed.
Lemma max_degree_lt : forall A N, N <> 0 -> exists v, MaxDegreeVertex A N = Ok v /\ v < N.
Proof.
  intros A N HN. unfold MaxDegreeVertex. destruct (N =? 0) eqn:E; [apply Nat.eqb_eq in E; lia|].
  eexists. split; [reflexivity|]. apply max_degree_gen; [|lia]. intros i Hi. apply in_seq in Hi. lia.
Qed.
Lemma elimination_ok : forall A N, N <> 0 ->
  exists order, EliminationOrdering A N = Ok order /\ vertex_order N order /\ greedy A N order.
Proof.
  intros A N HN. destruct (max_degree_lt A N HN) as (v & E & Hv). destruct (find_order_ok A N v Hv) as (order & EO & HO & HG & _).
  exists order. split; auto. unfold EliminationOrdering, FindOrder. rewrite E. exact EO.
Qed.
