(** Coefficient updates (C24). *)
From Coq Require Import List Arith ZArith Reals Bool Lia Lra.
From Verif Require Import Base BaseFacts ProgramModel ApiModel Spec_Program.
Import ListNotations.
Open Scope nat_scope.

Definition entry (M : matrix) (r c : nat) : R := nth c (nth r M []) 0%R.

Lemma entry_mset M r c v r' c' : r < length M -> c < length (nth r M []) ->
  entry (mset M r c v) r' c' = if (r =? r') && (c =? c') then v else entry M r' c'.
Proof.
  intros Hr Hc. unfold entry, mset. rewrite nth_upd by auto.
  destruct (Nat.eqb_spec r r') as [<-|]; cbn [andb]; auto. rewrite nth_upd by auto. auto.
Qed.

Lemma mset_rows M r c v (n : nat) : r < length M -> (forall row, In row M -> length row = n) ->
  forall row, In row (mset M r c v) -> length row = n.
Proof.
  intros Hr H row Hin. apply (In_nth _ _ []) in Hin as (i & Hi & <-). unfold mset in *.
  rewrite upd_length in Hi. rewrite nth_upd by auto. destruct (Nat.eqb_spec r i) as [<-|].
  - rewrite upd_length. apply H, nth_In. auto.
  - apply H, nth_In. auto.
Qed.

Lemma entry_zeros a b r c : entry (zeros a b) r c = 0%R.
Proof.
  unfold entry, zeros. destruct (Nat.lt_ge_cases r a) as [H|H].
  - rewrite nth_repeat_lt by auto. apply nth_repeat_any.
  - replace (nth r (repeat (repeat 0%R b) a) []) with (@nil R)
      by (symmetry; apply nth_overflow; rewrite repeat_length; auto). destruct c; auto.
Qed.

Lemma nth_pad {A} (l : list A) x n i d : nth i (l ++ repeat x n) d =
  if i <? length l then nth i l d else if i <? length l + n then x else d.
Proof.
  destruct (Nat.ltb_spec i (length l)).
  - apply app_nth1; auto.
  - rewrite app_nth2 by auto. destruct (Nat.ltb_spec i (length l + n)).
    + apply nth_repeat_lt. lia.
    + apply nth_overflow. rewrite repeat_length. lia.
Qed.

Lemma in_pad {A} (l : list A) x n y : In y (l ++ repeat x n) -> In y l \/ y = x.
Proof. intros H. apply in_app_or in H as [H|H]; auto. apply repeat_spec in H. auto. Qed.

Lemma zeros_rows a b : length (zeros a b) = a /\ forall row, In row (zeros a b) -> length row = b.
Proof.
  unfold zeros. split; [apply repeat_length|]. intros row H. apply repeat_spec in H. subst. apply repeat_length.
Qed.

(** *** Hermitian matrices *)
Definition hwell (h rk : nat) (M : list matrix) : Prop :=
  length M = h /\ forall X, In X M -> length X = rk /\ forall row, In row X -> length row = rk.

Lemma hzero_well h rk : hwell h rk (hzero h rk).
Proof.
  unfold hzero. split; [apply repeat_length|]. intros X H. apply repeat_spec in H. subst. apply zeros_rows.
Qed.

Definition hentry (M : list matrix) (d r c : nat) : R := entry (nth d M []) r c.

Lemma hentry_nil d r c : hentry [] d r c = 0%R.
Proof. unfold hentry, entry. destruct d, r, c; auto. Qed.

Lemma hentry_zero h rk d r c : hentry (hzero h rk) d r c = 0%R.
Proof.
  unfold hentry, hzero. destruct (Nat.lt_ge_cases d h) as [H|H].
  - rewrite nth_repeat_lt by auto. apply entry_zeros.
  - replace (nth d (repeat (zeros rk rk) h) []) with (@nil (list R))
      by (symmetry; apply nth_overflow; rewrite repeat_length; auto). unfold entry. destruct r, c; auto.
Qed.

Lemma square_row (X : matrix) rk r : length X = rk -> (forall row, In row X -> length row = rk) -> r < rk ->
  length (nth r X []) = rk.
Proof. intros H1 H2 Hr. apply H2, nth_In. lia. Qed.

Lemma herm_set_entry X rk r c d v r' c' : length X = rk -> (forall row, In row X -> length row = rk) ->
  r < rk -> c < rk ->
  entry (herm_set X r c d v) r' c' =
  if (r =? c') && (c =? r') then (if d =? 0 then v else - v)%R
  else if (r =? r') && (c =? c') then v else entry X r' c'.
Proof.
  intros H1 H2 Hr Hc. unfold herm_set.
  assert (c < length (mset X r c v)) as L1 by (unfold mset; rewrite upd_length; lia).
  assert (r < length (nth c (mset X r c v) [])) as L2.
  { rewrite (mset_rows X r c v rk); auto; [lia|]. apply nth_In. auto. }
  assert (c < length (nth r X [])) as L3 by (rewrite (square_row X rk); auto).
  destruct (d =? 0); rewrite entry_mset, entry_mset by (auto; lia);
    rewrite (andb_comm (r =? c') (c =? r')); auto.
Qed.

Lemma herm_set_well X rk r c d v : length X = rk -> (forall row, In row X -> length row = rk) ->
  r < rk -> c < rk ->
  length (herm_set X r c d v) = rk /\ forall row, In row (herm_set X r c d v) -> length row = rk.
Proof.
  intros H1 H2 Hr Hc. unfold herm_set.
  assert (length (mset X r c v) = rk) as L by (unfold mset; rewrite upd_length; auto).
  destruct (d =? 0); (split; [unfold mset at 1; rewrite upd_length; auto|]);
    apply mset_rows; try lia; apply mset_rows; auto; lia.
Qed.

Lemma hset_entry M h rk r c d v d' r' c' : hwell h rk M -> r < rk -> c < rk -> d < h ->
  hentry (upd M d (herm_set (nth d M []) r c d v)) d' r' c' =
  if (d =? d') && ((r =? c') && (c =? r')) then (if d =? 0 then v else - v)%R
  else if (d =? d') && ((r =? r') && (c =? c')) then v else hentry M d' r' c'.
Proof.
  intros [H1 H2] Hr Hc Hd. unfold hentry. rewrite nth_upd by lia.
  destruct (Nat.eqb_spec d d') as [<-|]; cbn [andb]; auto.
  destruct (H2 (nth d M []) ltac:(apply nth_In; lia)) as [H3 H4].
  apply (herm_set_entry _ rk); auto.
Qed.

Lemma hset_well M h rk r c d v : hwell h rk M -> r < rk -> c < rk -> d < h ->
  hwell h rk (upd M d (herm_set (nth d M []) r c d v)).
Proof.
  intros [H1 H2] Hr Hc Hd. split; [rewrite upd_length; auto|]. intros X HX.
  apply (In_nth _ _ []) in HX as (i & Hi & <-). rewrite upd_length in Hi. rewrite (nth_upd M d i) by lia.
  destruct (Nat.eqb_spec d i).
  - destruct (H2 (nth d M []) ltac:(apply nth_In; lia)). apply herm_set_well; auto.
  - apply H2, nth_In; auto.
Qed.

(** *** One request *)
Record sent (o : cdata) (w : write) (o' : cdata) (s : Z) : Prop := {
  sn_status : s = SUCCESS \/ s = FAILURE;
  sn_iff : s = SUCCESS <-> acceptable o w;
  sn_noop : s = FAILURE -> o' = o;
  sn_sized : well_sized o';
  sn_shape : same_shape o o';
  sn_value : s = SUCCESS -> forall q, has_place o q ->
     value_at o' q = match assigns o w q with Some x => x | None => value_at o q end
}.

Lemma sent_reject o w : well_sized o -> same_shape o o -> ~ acceptable o w -> sent o w o FAILURE.
Proof.
  intros W S H. split; auto.
  - split; [discriminate|tauto].
  - discriminate.
Qed.

Lemma sent_accept o w o' : acceptable o w -> well_sized o' -> same_shape o o' ->
  (forall q, has_place o q -> value_at o' q = match assigns o w q with Some x => x | None => value_at o q end) ->
  sent o w o' SUCCESS.
Proof. intros H1 H2 H3 H4. split; auto; [tauto|discriminate]. Qed.

Lemma shape_refl o : same_shape o o.
Proof. destruct o; cbn; auto. Qed.

Ltac zb := unfold Zlt_nat, Zneg in *;
  repeat match goal with
  | H : negb _ = true |- _ => apply negb_true_iff in H
  | H : negb _ = false |- _ => apply negb_false_iff in H
  | H : (_ =? _)%Z = true |- _ => apply Z.eqb_eq in H
  | H : (_ =? _)%Z = false |- _ => apply Z.eqb_neq in H
  | H : (_ <? _)%Z = true |- _ => apply Z.ltb_lt in H
  | H : (_ <? _)%Z = false |- _ => apply Z.ltb_ge in H
  | H : (_ <=? _)%Z = true |- _ => apply Z.leb_le in H
  | H : (_ <=? _)%Z = false |- _ => apply Z.leb_gt in H
  | H : (_ || _)%bool = false |- _ => apply orb_false_iff in H as [? ?]
  | H : (_ || _)%bool = true |- _ => apply orb_true_iff in H as [?|?]
  | H : (_ && _)%bool = true |- _ => apply andb_true_iff in H as [? ?]
  end.

Lemma send_linear m A b w : well_sized (CLinear m A b) -> in_range (CLinear m A b) w ->
  exists o' s, send (CLinear m A b) w = Ok (o', s) /\ sent (CLinear m A b) w o' s.
Proof.
  intros [W1 W2] (Hr & Hc & Hd & Hv). unfold send. destruct w as [[v|] val r c d]; cbn in *.
  - destruct (Hv v eq_refl) as [Hv1 Hv2].
    destruct (negb (d =? 0)%Z) eqn:T1.
    { eexists _, _; split; [reflexivity|]. apply sent_reject; cbn; auto. unfold acceptable, has_place, named; cbn. zb. lia. }
    destruct (negb (c =? 0)%Z) eqn:T2.
    { eexists _, _; split; [reflexivity|]. apply sent_reject; cbn; auto. unfold acceptable, has_place, named; cbn. zb. lia. }
    destruct (negb (Zlt_nat r (length A))) eqn:T3.
    { eexists _, _; split; [reflexivity|]. apply sent_reject; cbn; auto. unfold acceptable, has_place, named; cbn. zb. lia. }
    destruct (Zneg v || Zneg r) eqn:T4; [exfalso; zb; lia|].
    destruct (negb (Zlt_nat v m)) eqn:T5; [exfalso; zb; lia|].
    eexists _, _; split; [reflexivity|]. zb. subst d c.
    assert (Z.to_nat r < length A) as Lr by lia. assert (Z.to_nat v < m) as Lv by lia.
    apply sent_accept; cbn.
    + split; auto. cbn. repeat split; auto; lia.
    + split; [apply mset_rows; auto|]. unfold mset. rewrite upd_length. auto.
    + unfold mset. rewrite upd_length. auto.
    + intros [[v'|] r' c' d']; unfold has_place, value_at, assigns, named; cbn.
      * intros (H1 & H2 & -> & ->). change (nth v' (nth r' (mset A (Z.to_nat r) (Z.to_nat v) val) []) 0%R) with (entry (mset A (Z.to_nat r) (Z.to_nat v) val) r' v').
        rewrite entry_mset; auto; [|rewrite W1; auto; apply nth_In; auto].
        destruct (Z.to_nat v =? v'), (Z.to_nat r =? r'); cbn; auto.
      * auto.
  - destruct (negb (d =? 0)%Z) eqn:T1.
    { eexists _, _; split; [reflexivity|]. apply sent_reject; cbn; auto. unfold acceptable, has_place, named; cbn. zb. lia. }
    destruct (negb (c =? 0)%Z) eqn:T2.
    { eexists _, _; split; [reflexivity|]. apply sent_reject; cbn; auto. unfold acceptable, has_place, named; cbn. zb. lia. }
    destruct (negb (Zlt_nat r (length A))) eqn:T3.
    { eexists _, _; split; [reflexivity|]. apply sent_reject; cbn; auto. unfold acceptable, has_place, named; cbn. zb. lia. }
    destruct (Zneg r) eqn:T4; [exfalso; zb; lia|].
    destruct (negb (Zlt_nat r (length b))) eqn:T5; [exfalso; zb; lia|].
    eexists _, _; split; [reflexivity|]. zb. subst d c.
    apply sent_accept; cbn; auto.
    + split; auto. cbn. repeat split; auto; lia.
    + split; auto. rewrite upd_length. auto.
    + intros [[v'|] r' c' d']; unfold has_place, value_at, assigns, named; cbn; auto.
      intros (H2 & -> & ->). rewrite nth_upd by lia. destruct (Z.to_nat r =? r'); auto.
Qed.

Lemma send_soc n A a w : well_sized (CSoc n A a) -> in_range (CSoc n A a) w ->
  exists o' s, send (CSoc n A a) w = Ok (o', s) /\ sent (CSoc n A a) w o' s.
Proof.
  intros [W1 W2] (Hr & Hc & Hd & Hv). unfold send. destruct w as [[v|] val r c d]; cbn in *.
  - destruct (Hv v eq_refl) as [Hv1 _].
    destruct (negb (d =? 0)%Z) eqn:T1.
    { eexists _, _; split; [reflexivity|]. apply sent_reject; cbn; auto. unfold acceptable, has_place, named; cbn. zb. lia. }
    destruct (negb (c =? 0)%Z) eqn:T2.
    { eexists _, _; split; [reflexivity|]. apply sent_reject; cbn; auto. unfold acceptable, has_place, named; cbn. zb. lia. }
    destruct (negb (r <=? Z.of_nat n)%Z) eqn:T3.
    { eexists _, _; split; [reflexivity|]. apply sent_reject; cbn; auto. unfold acceptable, has_place, named; cbn. zb. lia. }
    destruct (Zneg v || Zneg r) eqn:T4; [exfalso; zb; lia|].
    eexists _, _; split; [reflexivity|]. zb. subst d c.
    set (A' := resize_cols A (Z.to_nat v) (n + 1)).
    assert (forall col, In col A' -> length col = n + 1) as WA.
    { intros col Hin. apply in_pad in Hin as [Hin| ->]; auto. apply repeat_length. }
    assert (Z.to_nat v < length A') as LA.
    { unfold A', resize_cols. rewrite app_length, repeat_length. lia. }
    apply sent_accept; cbn.
    + split; auto. cbn. repeat split; auto; lia.
    + split; auto. apply mset_rows; auto.
    + auto.
    + intros [[v'|] r' c' d']; unfold has_place, value_at, assigns, named; cbn.
      * intros (H2 & -> & ->).
        change (nth r' (nth v' (mset A' (Z.to_nat v) (Z.to_nat r) val) []) 0%R)
          with (entry (mset A' (Z.to_nat v) (Z.to_nat r) val) v' r').
        rewrite entry_mset; auto; [|rewrite WA; [lia|apply nth_In; auto]].
        destruct (Nat.eqb_spec (Z.to_nat v) v') as [E|E], (Nat.eqb_spec (Z.to_nat r) r') as [E2|E2]; cbn; auto;
          unfold entry, A', resize_cols; rewrite nth_pad;
          (destruct (Nat.ltb_spec v' (length A)); [auto|]; rewrite (nth_overflow A) by auto;
           destruct (_ <? _); [rewrite nth_repeat_any; destruct r'; auto|auto]).
      * auto.
  - destruct (negb (d =? 0)%Z) eqn:T1.
    { eexists _, _; split; [reflexivity|]. apply sent_reject; cbn; auto. unfold acceptable, has_place, named; cbn. zb. lia. }
    destruct (negb (c =? 0)%Z) eqn:T2.
    { eexists _, _; split; [reflexivity|]. apply sent_reject; cbn; auto. unfold acceptable, has_place, named; cbn. zb. lia. }
    destruct (negb (r <=? Z.of_nat n)%Z) eqn:T3.
    { eexists _, _; split; [reflexivity|]. apply sent_reject; cbn; auto. unfold acceptable, has_place, named; cbn. zb. lia. }
    destruct (Zneg r) eqn:T4; [exfalso; zb; lia|].
    eexists _, _; split; [reflexivity|]. zb. subst d c.
    set (a' := match a with [] => repeat 0%R (n + 1) | _ => a end).
    assert (length a' = n + 1) as La.
    { unfold a'. destruct a; [apply repeat_length|]. destruct W2; [discriminate|auto]. }
    apply sent_accept; cbn; auto.
    + split; auto. cbn. repeat split; auto; lia.
    + split; auto. right. rewrite upd_length. auto.
    + intros [[v'|] r' c' d']; unfold has_place, value_at, assigns, named; cbn; auto.
      intros (H2 & -> & ->). rewrite nth_upd by lia. destruct (Z.to_nat r =? r'); cbn; auto.
      unfold a'. destruct a; auto. rewrite nth_repeat_any. destruct r'; auto.
Qed.

Lemma send_quad Q w : well_sized (CQuad Q) -> in_range (CQuad Q) w ->
  exists o' s, send (CQuad Q) w = Ok (o', s) /\ sent (CQuad Q) w o' s.
Proof.
  intros W (Hr & Hc & Hd & Hv). cbn in W. unfold send. destruct w as [[v|] val r c d]; cbn in *.
  - eexists _, _; split; [reflexivity|]. apply sent_reject; cbn; auto. unfold acceptable, has_place; cbn. tauto.
  - destruct (negb (d =? 0)%Z) eqn:T1.
    { eexists _, _; split; [reflexivity|]. apply sent_reject; cbn; auto. unfold acceptable, has_place, named; cbn. zb. lia. }
    assert (0 < length Q -> length (nth 0 Q []) = length Q) as L0 by (intros; apply W, nth_In; auto).
    destruct (negb (Zlt_nat r (length Q) && Zlt_nat c (length (nth 0 Q [])))) eqn:T2.
    { eexists _, _; split; [reflexivity|]. apply sent_reject; cbn; auto. unfold acceptable, has_place, named; cbn.
      intros [[H1 [H2 _]] _]. apply negb_true_iff, andb_false_iff in T2. zb. destruct T2; zb; lia. }
    destruct (Zneg r || Zneg c) eqn:T4; [exfalso; zb; lia|].
    eexists _, _; split; [reflexivity|]. zb. subst d.
    apply sent_accept; cbn; auto.
    + split; auto. cbn. repeat split; auto; lia.
    + intros row Hin. assert (length (mset Q (Z.to_nat r) (Z.to_nat c) val) = length Q) as -> by (unfold mset; apply upd_length).
      revert row Hin. apply mset_rows; auto. lia.
    + unfold mset. rewrite upd_length. auto.
    + intros [[v'|] r' c' d']; unfold has_place, value_at, assigns, named; cbn; [tauto|].
      intros (P1 & P2 & ->).
      change (nth c' (nth r' (mset Q (Z.to_nat r) (Z.to_nat c) val) []) 0%R) with (entry (mset Q (Z.to_nat r) (Z.to_nat c) val) r' c').
      rewrite entry_mset; [|lia|rewrite W; [lia|apply nth_In; lia]].
      destruct (_ && _); auto.
Qed.

Lemma herm_demands_iff h rk As C v val r c d : (0 <= r)%Z -> (0 <= c)%Z -> (0 <= d)%Z ->
  herm_demands h rk val r c d = true <-> acceptable (CHerm h rk As C) (mkWrite v val r c d).
Proof.
  intros Hr Hc Hd. unfold herm_demands, acceptable, has_place, named; cbn. split.
  - intros H. zb. split.
    + destruct v; cbn; lia.
    + intros -> Hd'. destruct (Req_EM_T val 0); auto. exfalso.
      cbn in H0. rewrite Z.eqb_refl in H0. cbn in H0. zb. lia.
  - intros [H1 H2].
    assert (Z.to_nat r < rk /\ Z.to_nat c < rk /\ Z.to_nat d < h) as (Q1 & Q2 & Q3) by (destruct v; auto).
    unfold Zlt_nat. rewrite !andb_true_iff, !Z.ltb_lt, negb_true_iff. split; [lia|].
    destruct (Req_EM_T val 0) as [|Hv]; cbn; auto. apply andb_false_iff.
    destruct (Z.eqb_spec r c) as [->|]; auto. right. apply Z.ltb_ge.
    destruct (Z.eq_dec d 0); [lia|]. exfalso. auto.
Qed.

Lemma send_herm h rk As C w : well_sized (CHerm h rk As C) -> in_range (CHerm h rk As C) w ->
  exists o' s, send (CHerm h rk As C) w = Ok (o', s) /\ sent (CHerm h rk As C) w o' s.
Proof.
  intros W (Hr & Hc & Hd & Hv). unfold send. destruct w as [[v|] val r c d]; cbn in *.
  - destruct (Hv v eq_refl) as [Hv1 _].
    pose proof (herm_demands_iff h rk As C (Some v) val r c d Hr Hc Hd) as HD.
    destruct (herm_demands h rk val r c d) eqn:T1; cbn [negb].
    2: { eexists _, _; split; [reflexivity|]. apply sent_reject; cbn; auto. rewrite <- HD. discriminate. }
    destruct (Zneg v) eqn:T2; [exfalso; zb; lia|].
    destruct (Zneg d) eqn:T3; [exfalso; zb; lia|].
    destruct (Zneg r || Zneg c) eqn:T4; [exfalso; zb; lia|].
    eexists _, _; split; [reflexivity|].
    assert (Z.to_nat r < rk /\ Z.to_nat c < rk /\ Z.to_nat d < h) as (Lr & Lc & Ld).
    { apply proj1 in HD. destruct (HD eq_refl) as [HP _]. cbn in HP. auto. }
    set (As' := As ++ repeat (hzero h rk) (Z.to_nat v + 1 - length As)).
    assert (Z.to_nat v < length As') as LA by (unfold As'; rewrite app_length, repeat_length; lia).
    assert (forall M, In M As' -> hwell h rk M) as WA.
    { intros M H. apply in_pad in H as [H| ->]; [apply W; auto|apply hzero_well]. }
    pose proof (WA _ (nth_In _ [] LA)) as WV.
    apply sent_accept; cbn.
    + apply HD; auto.
    + intros M [H|[-> H]]; [|apply W; auto].
      apply (In_nth _ _ []) in H as (i & Hi & <-). rewrite upd_length in Hi. rewrite nth_upd by auto.
      destruct (Nat.eqb_spec (Z.to_nat v) i); [apply (hset_well _ h rk); auto|apply WA, nth_In; auto].
    + auto.
    + intros [[v'|] r' c' d']; unfold has_place, value_at, assigns, named; cbn -[Nat.eqb]; auto.
      intros (H1 & H2 & H3). rewrite nth_upd by auto.
      assert (forall i, hentry (nth i As' []) d' r' c' = hentry (nth i As []) d' r' c') as HE.
      { intros i. unfold As'. rewrite nth_pad. destruct (Nat.ltb_spec i (length As)); auto.
        rewrite (nth_overflow As) by auto. destruct (i <? _); auto.
        rewrite hentry_zero, hentry_nil. auto. }
      destruct (Nat.eqb_spec (Z.to_nat v) v') as [<-|Hne].
      * match goal with |- nth c' (nth r' (nth d' ?M []) []) 0%R = _ => change (hentry M d' r' c' = match (if true && (Z.to_nat d =? d') then if (Z.to_nat r =? c') && (Z.to_nat c =? r') then Some (if Z.to_nat d =? 0 then val else (- val)%R) else if (Z.to_nat r =? r') && (Z.to_nat c =? c') then Some val else None else None) with Some x => x | None => hentry (nth (Z.to_nat v) As []) d' r' c' end) end.
        rewrite (hset_entry _ h rk) by auto. rewrite HE.
        destruct (Z.to_nat d =? d'); cbn [andb]; auto.
        destruct (_ && _); auto. destruct (_ && _); auto.
      * cbn [andb]. apply HE.
  - pose proof (herm_demands_iff h rk As C None val r c d Hr Hc Hd) as HD.
    destruct (herm_demands h rk val r c d) eqn:T1; cbn [negb].
    2: { eexists _, _; split; [reflexivity|]. apply sent_reject; cbn; auto. rewrite <- HD. discriminate. }
    destruct (Zneg d) eqn:T3; [exfalso; zb; lia|].
    destruct (Zneg r || Zneg c) eqn:T4; [exfalso; zb; lia|].
    eexists _, _; split; [reflexivity|].
    assert (Z.to_nat r < rk /\ Z.to_nat c < rk /\ Z.to_nat d < h) as (Lr & Lc & Ld).
    { apply proj1 in HD. destruct (HD eq_refl) as [HP _]. cbn in HP. auto. }
    set (C0 := match C with [] => hzero h rk | _ => C end).
    assert (hwell h rk C0) as WC.
    { unfold C0. destruct C; [apply hzero_well|]. apply W. right. split; auto. discriminate. }
    apply sent_accept; cbn.
    + apply HD; auto.
    + intros M [H|[-> H]]; [apply W; auto|]. apply (hset_well _ h rk); auto.
    + auto.
    + intros [[v'|] r' c' d']; unfold has_place, value_at, assigns, named; cbn -[Nat.eqb]; auto.
      intros (H1 & H2 & H3).
      match goal with |- nth c' (nth r' (nth d' ?M []) []) 0%R = _ => change (hentry M d' r' c' = match (if (Z.to_nat d =? d') then if (Z.to_nat r =? c') && (Z.to_nat c =? r') then Some (if Z.to_nat d =? 0 then val else (- val)%R) else if (Z.to_nat r =? r') && (Z.to_nat c =? c') then Some val else None else None) with Some x => x | None => hentry C d' r' c' end) end.
      rewrite (hset_entry _ h rk) by auto.
      assert (hentry C0 d' r' c' = hentry C d' r' c') as ->.
      { unfold C0. destruct C; auto. rewrite hentry_zero, hentry_nil. auto. }
      destruct (Z.to_nat d =? d'); cbn [andb]; auto.
      destruct (_ && _); auto. destruct (_ && _); auto.
Qed.

Lemma send_correct o w : well_sized o -> in_range o w ->
  exists o' s, send o w = Ok (o', s) /\ sent o w o' s.
Proof.
  intros W H. destruct o; [apply send_linear|apply send_soc|apply send_herm|apply send_quad| | |]; auto;
    unfold send; destruct (w_var w) as [v|] eqn:E; cbn; eexists _, _; (split; [reflexivity|]);
    (apply sent_reject; [auto|apply shape_refl|]); unfold acceptable, has_place, named; cbn; tauto.
Qed.

(** *** Sequences *)
Lemma in_range_shape o o' w : same_shape o o' -> in_range o w -> in_range o' w.
Proof.
  unfold in_range. destruct o, o'; cbn; try tauto; intros HS (H1 & H2 & H3 & H4); repeat split; auto;
    try (apply (proj1 (H4 v H))). destruct HS as [-> _]. apply (proj2 (H4 v H)).
Qed.

Lemma has_place_shape o o' q : same_shape o o' -> has_place o q <-> has_place o' q.
Proof.
  unfold has_place. destruct o, o'; cbn; try tauto; destruct (pl_var q); try tauto.
  - intros [-> ->]. tauto.
  - intros [-> ->]. tauto.
  - intros ->. tauto.
  - intros ->. tauto.
  - intros [-> ->]. tauto.
  - intros [-> ->]. tauto.
  - intros ->. tauto.
Qed.

Lemma acceptable_shape o o' w : same_shape o o' -> acceptable o w <-> acceptable o' w.
Proof.
  intros HS. unfold acceptable. rewrite (has_place_shape o o' _ HS). destruct o, o'; cbn in HS; try tauto.
Qed.

Lemma assigns_shape o o' w q : same_shape o o' -> assigns o w q = assigns o' w q.
Proof. unfold assigns. destruct o, o'; cbn; tauto. Qed.

Lemma shape_trans a b c : same_shape a b -> same_shape b c -> same_shape a c.
Proof. destruct a, b; cbn; try tauto; destruct c; cbn; try tauto; intros; intuition congruence. Qed.

Lemma last_accepted_shape o o' q l : same_shape o o' -> forall x, last_accepted o q l x = last_accepted o' q l x.
Proof.
  intros HS. unfold last_accepted. induction l as [|w t IH]; cbn; auto. intros x.
  rewrite (assigns_shape o o' (fst w) q HS). apply IH.
Qed.

Lemma send_hermitian o w o' s : in_range o w -> sent o w o' s -> hermitian o -> hermitian o'.
Proof.
  intros (R1 & R2 & _) S H. destruct (sn_status _ _ _ _ S) as [E|E].
  2: { rewrite (sn_noop _ _ _ _ S E). auto. }
  pose proof (sn_value _ _ _ _ S E) as V. pose proof (proj1 (sn_iff _ _ _ _ S) E) as [HP HA].
  pose proof (sn_shape _ _ _ _ S) as SH.
  destruct o, o'; cbn in SH; try tauto; cbn [hermitian]; auto. destruct SH as [<- <-]. clear S.
  intros v r c d Hr Hc Hd.
  assert (forall r c, r < rank -> c < rank -> has_place (CHerm hdim rank As C) (mkPlace v r c d)) as HPL.
  { intros. unfold has_place; cbn. destruct v; auto. }
  rewrite !V by (apply HPL; auto). pose proof (H v r c d Hr Hc Hd) as Hrc.
  unfold assigns, named; cbn [pl_var pl_dim pl_r pl_c].
  destruct (same_var _ _); cbn [andb]; auto.
  destruct (Nat.eqb_spec (Z.to_nat (w_dim w)) d) as [<-|]; auto.
  assert (Z.to_nat (w_r w) = Z.to_nat (w_c w) -> Z.to_nat (w_dim w) <> 0 -> w_val w = 0%R) as HA'.
  { intros. apply HA; lia. }
  destruct (Nat.eqb_spec (Z.to_nat (w_r w)) r) as [E1|E1], (Nat.eqb_spec (Z.to_nat (w_c w)) c) as [E2|E2],
           (Nat.eqb_spec (Z.to_nat (w_r w)) c) as [E3|E3], (Nat.eqb_spec (Z.to_nat (w_c w)) r) as [E4|E4];
    cbn [andb]; auto; destruct (Nat.eqb_spec (Z.to_nat (w_dim w)) 0); auto; rewrite ?Ropp_involutive; auto.
  all: rewrite HA' by lia; lra.
Qed.

Lemma send_all_correct : forall l o, well_sized o -> Forall (in_range o) l ->
  exists o' ss, send_all o l = Ok (o', ss) /\
    Forall2 (fun w s => (s = SUCCESS \/ s = FAILURE) /\ (s = SUCCESS <-> acceptable o w)) l ss /\
    same_shape o o' /\ well_sized o' /\
    (forall q, has_place o q -> value_at o' q = last_accepted o q (combine l ss) (value_at o q)) /\
    (hermitian o -> hermitian o').
Proof.
  induction l as [|w t IH]; intros o W H.
  - exists o, []. cbn. repeat split; auto using shape_refl.
  - inversion H; subst. destruct (send_correct o w W H2) as (o1 & s & E1 & S).
    pose proof (sn_shape _ _ _ _ S) as SH.
    destruct (IH o1 (sn_sized _ _ _ _ S)) as (o2 & ss & E2 & HF & SH2 & W2 & HV & HH).
    { eapply Forall_impl; [|exact H3]. intros. eapply in_range_shape; eauto. }
    exists o2, (s :: ss). cbn [send_all combine]. rewrite E1. cbn [bind]. rewrite E2. cbn [bind].
    split; auto. split; [|split; [eapply shape_trans; eauto|split; [auto|split]]].
    + constructor.
      * split; [apply (sn_status _ _ _ _ S)|apply (sn_iff _ _ _ _ S)].
      * clear - HF SH. induction HF; constructor; auto. destruct H. split; auto.
        rewrite (acceptable_shape o o1 x SH). auto.
    + intros q Hq. rewrite HV by (apply (has_place_shape o o1); auto).
      rewrite <- (last_accepted_shape o o1 q _ SH).
      assert (forall x, last_accepted o q ((w, s) :: combine t ss) x = last_accepted o q (combine t ss)
                (if (s =? 0)%Z then match assigns o w q with Some y => y | None => x end else x)) as -> by reflexivity.
      f_equal. destruct (sn_status _ _ _ _ S) as [->| ->]; cbn.
      * apply (sn_value _ _ _ _ S); auto.
      * rewrite (sn_noop _ _ _ _ S); auto.
    + intros Ho. apply HH. eapply send_hermitian; eauto.
Qed.

(** Requests outside the range. *)
Lemma linear_out_of_columns m A b val v r : (Z.of_nat m <= v)%Z -> (0 <= r < Z.of_nat (length A))%Z ->
  UpdateLinearOperator (CLinear m A b) val v r 0 0 = UB.
Proof.
  intros Hv Hr. cbn. unfold Zlt_nat, Zneg.
  destruct (Z.ltb_spec r (Z.of_nat (length A))); [|lia]. cbn.
  destruct (Z.ltb_spec v 0); [lia|]. destruct (Z.ltb_spec r 0); [lia|]. cbn.
  destruct (Z.ltb_spec v (Z.of_nat m)); [lia|]. auto.
Qed.

Lemma quad_negative Q val r c : (r < Z.of_nat (length Q))%Z -> (c < Z.of_nat (length (nth 0 Q [])))%Z ->
  (r < 0 \/ c < 0)%Z -> UpdateAffineTerm (CQuad Q) val r c 0 = UB.
Proof.
  intros H1 H2 H3. cbn. unfold Zlt_nat, Zneg.
  destruct (Z.ltb_spec r (Z.of_nat (length Q))); [|lia].
  destruct (Z.ltb_spec c (Z.of_nat (length (nth 0 Q [])))); [|lia]. cbn.
  destruct (Z.ltb_spec r 0), (Z.ltb_spec c 0); cbn; auto; lia.
Qed.

Lemma herm_negative_entry h rk As C val v r c d : (0 <= v)%Z -> (0 <= d < Z.of_nat h)%Z ->
  (r < Z.of_nat rk)%Z -> (c < Z.of_nat rk)%Z -> r <> c -> (r < 0 \/ c < 0)%Z ->
  UpdateLinearOperator (CHerm h rk As C) val v r c d = UB.
Proof.
  intros Hv Hd Hr Hc Hne Hn. cbn. unfold herm_demands, Zlt_nat, Zneg.
  destruct (Z.ltb_spec d (Z.of_nat h)); [|lia]. destruct (Z.ltb_spec r (Z.of_nat rk)); [|lia].
  destruct (Z.ltb_spec c (Z.of_nat rk)); [|lia]. destruct (Z.eqb_spec r c); [lia|].
  rewrite andb_false_r. cbn. destruct (Z.ltb_spec v 0); [lia|]. destruct (Z.ltb_spec d 0); [lia|].
  destruct (Z.ltb_spec r 0), (Z.ltb_spec c 0); cbn; auto; lia.
Qed.
