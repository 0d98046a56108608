(** Proofs about the workspace layout (C26) and the statistics area (C27, C28). *)
From Coq Require Import List Arith ZArith Bool Lia.
From Verif Require Import Base BaseFacts LayoutModel Spec_Layout.
Import ListNotations.

Lemma aligned_spec n : exists k, get_size_aligned n = 4 * k /\ n <= 4 * k < n + 4.
Proof.
  unfold get_size_aligned. pose proof (Nat.div_mod n 4 ltac:(lia)) as H.
  pose proof (Nat.mod_upper_bound n 4 ltac:(lia)).
  destruct (Nat.eqb_spec (n mod 4) 0); cbn [negb].
  - exists (n / 4). lia.
  - exists (S (n / 4)). lia.
Qed.

Definition soc_ok (w : ws) : Prop := match w with WSoc n => 1 <= n | _ => True end.

Ltac aligned := repeat match goal with
  | H : context [get_size_aligned ?n] |- _ =>
      let k := fresh "k" in destruct (aligned_spec n) as (k & ? & ?);
      let g := fresh "g" in set (g := get_size_aligned n) in *; clearbody g
  | |- context [get_size_aligned ?n] =>
      let k := fresh "k" in destruct (aligned_spec n) as (k & ? & ?);
      let g := fresh "g" in set (g := get_size_aligned n) in *; clearbody g
  end.

Lemma pieces_in w data p : soc_ok w -> In p (ws_pieces w data) ->
  data <= pc_start p /\ pc_start p + pc_len p <= data + ws_size w.
Proof.
  intros Hs H. destruct w; cbn in H; cbn [ws_size soc_ok] in *.
  - repeat (destruct H as [<-|H]); try (destruct H); cbn [pc_start pc_len]; aligned; lia.
  - repeat (destruct H as [<-|H]); try (destruct H); cbn [pc_start pc_len]; aligned; lia.
  - repeat (destruct H as [<-|H]); try (destruct H); cbn [pc_start pc_len]; aligned; lia.
  - destruct H.
  - destruct residual_only; cbn in H;
      repeat (destruct H as [<-|H]); try (destruct H); cbn [pc_start pc_len]; aligned; lia.
  - repeat (destruct H as [<-|H]); try (destruct H); cbn [pc_start pc_len]; lia.
Qed.

Lemma size_even w : Nat.even (ws_size w) = true.
Proof.
  apply Nat.even_spec. destruct w; cbn [ws_size]; aligned; subst.
  - exists (2 * (3 * k + k0)). lia.
  - exists (2 * (5 * k)). lia.
  - exists (2 * (3 * k)). lia.
  - exists 0. lia.
  - destruct residual_only; aligned; subst; [exists (2 * (2 * k))|exists (2 * (2 * k + k0))]; lia.
  - exists (max_iter + 1). lia.
Qed.

Lemma pieces_even w data p : Nat.even data = true -> In p (ws_pieces w data) -> pc_map p = true ->
  Nat.even (pc_start p) = true.
Proof.
  intros Hd H Hm. apply Nat.even_spec in Hd as [e ->]. apply Nat.even_spec.
  destruct w; cbn in H.
  - repeat (destruct H as [<-|H]); try (destruct H); cbn [pc_start]; aligned; subst.
    + exists e; lia. + exists (e + 2 * k); lia. + exists (e + 4 * k); lia. + exists (e + 6 * k); lia.
  - repeat (destruct H as [<-|H]); try (destruct H); cbn [pc_start]; aligned; subst.
    + exists e; lia. + exists (e + 2 * k); lia. + exists (e + 4 * k); lia. + exists (e + 6 * k); lia. + exists (e + 8 * k); lia.
  - repeat (destruct H as [<-|H]); try (destruct H); cbn [pc_start]; aligned; subst.
    + exists e; lia. + exists (e + 2 * k); lia. + exists (e + 4 * k); lia.
  - destruct H.
  - destruct residual_only; cbn in H; repeat (destruct H as [<-|H]); try (destruct H); cbn [pc_start]; aligned; subst.
    + exists e; lia. + exists (e + 2 * k); lia. + exists e; lia. + exists (e + 2 * k); lia. + exists (e + 4 * k); lia.
  - repeat (destruct H as [<-|H]); try (destruct H); cbn [pc_start pc_map] in *; discriminate.
Qed.

Lemma pieces_disjoint w data a b p q o : nth_error (ws_pieces w data) a = Some p ->
  nth_error (ws_pieces w data) b = Some q -> inside p o -> inside q o -> a = b.
Proof.
  unfold inside. intros Ha Hb Hp Hq.
  destruct w; cbn [ws_pieces] in *.
  - destruct a as [|[|[|[|a]]]]; destruct b as [|[|[|[|b]]]]; cbn in Ha, Hb; try (destruct a; discriminate); try (destruct b; discriminate);
      auto; injection Ha as <-; injection Hb as <-; cbn [pc_start pc_len] in *; aligned; lia.
  - destruct a as [|[|[|[|[|a]]]]]; destruct b as [|[|[|[|[|b]]]]]; cbn in Ha, Hb; try (destruct a; discriminate); try (destruct b; discriminate);
      auto; injection Ha as <-; injection Hb as <-; cbn [pc_start pc_len] in *; aligned; lia.
  - destruct a as [|[|[|a]]]; destruct b as [|[|[|b]]]; cbn in Ha, Hb; try (destruct a; discriminate); try (destruct b; discriminate);
      auto; injection Ha as <-; injection Hb as <-; cbn [pc_start pc_len] in *; aligned; lia.
  - destruct a; discriminate.
  - destruct residual_only; destruct a as [|[|[|a]]]; destruct b as [|[|[|b]]]; cbn in Ha, Hb; try (destruct a; discriminate); try (destruct b; discriminate); try discriminate;
      auto; injection Ha as <-; injection Hb as <-; cbn [pc_start pc_len] in *; aligned; lia.
  - destruct a as [|[|[|[|a]]]]; destruct b as [|[|[|[|b]]]]; cbn in Ha, Hb; try (destruct a; discriminate); try (destruct b; discriminate);
      auto; injection Ha as <-; injection Hb as <-; cbn [pc_start pc_len] in *; lia.
Qed.

Fixpoint total (l : list ws) : nat := match l with [] => 0 | w :: t => ws_size w + total t end.

Lemma ws_total_eq l : ws_total l = total l.
Proof.
  unfold ws_total. assert (forall a, fold_left (fun y w => y + ws_size w) l a = a + total l) as H.
  { induction l as [|w t IH]; cbn; intros a; [lia|]. rewrite IH. lia. }
  rewrite H. auto.
Qed.

Lemma layout_in : forall l data i ps p, (forall w, In w l -> soc_ok w) ->
  nth_error (ws_layout l data) i = Some ps -> In p ps ->
  data <= pc_start p /\ pc_start p + pc_len p <= data + total l.
Proof.
  induction l as [|w t IH]; intros data i ps p Hs Hi Hp; cbn in Hi.
  - destruct i; discriminate.
  - destruct i as [|i]; cbn in Hi.
    + injection Hi as <-. apply pieces_in in Hp; [|apply Hs; left; auto]. cbn [total]. lia.
    + eapply IH in Hi; eauto; [|intros; apply Hs; right; auto]. cbn [total]. lia.
Qed.

Lemma layout_even : forall l data i ps p, Nat.even data = true ->
  nth_error (ws_layout l data) i = Some ps -> In p ps -> pc_map p = true -> Nat.even (pc_start p) = true.
Proof.
  induction l as [|w t IH]; intros data i ps p Hd Hi Hp Hm; cbn in Hi.
  - destruct i; discriminate.
  - destruct i as [|i]; cbn in Hi.
    + injection Hi as <-. eapply pieces_even; eauto.
    + eapply IH; [|eauto..]. rewrite Nat.even_add, Hd, size_even. auto.
Qed.

Lemma layout_disjoint : forall l data i j ps qs a b p q o, (forall w, In w l -> soc_ok w) ->
  nth_error (ws_layout l data) i = Some ps -> nth_error ps a = Some p ->
  nth_error (ws_layout l data) j = Some qs -> nth_error qs b = Some q ->
  inside p o -> inside q o -> i = j /\ a = b.
Proof.
  induction l as [|w t IH]; intros data i j ps qs a b p q o Hs Hi Ha Hj Hb Hp Hq; cbn in Hi, Hj.
  - destruct i; discriminate.
  - assert (forall m rs c r, nth_error (ws_layout t (data + ws_size w)) m = Some rs -> nth_error rs c = Some r ->
              inside r o -> data + ws_size w <= o) as HT.
    { intros m rs c r H1 H2 H3. apply nth_error_In in H2.
      eapply layout_in in H1; eauto; [|intros; apply Hs; right; auto]. unfold inside in H3. lia. }
    assert (forall rs c r, ws_pieces w data = rs -> nth_error rs c = Some r -> inside r o -> o < data + ws_size w) as HH.
    { intros rs c r <- H2 H3. apply nth_error_In in H2. apply pieces_in in H2; [|apply Hs; left; auto]. unfold inside in H3. lia. }
    destruct i as [|i], j as [|j]; cbn in Hi, Hj.
    + split; auto. injection Hi as <-. injection Hj as <-. eapply pieces_disjoint; eauto.
    + exfalso. injection Hi as Hi. specialize (HH _ _ _ Hi Ha Hp). specialize (HT _ _ _ _ Hj Hb Hq). lia.
    + exfalso. injection Hj as Hj. specialize (HH _ _ _ Hj Hb Hq). specialize (HT _ _ _ _ Hi Ha Hp). lia.
    + assert (i = j /\ a = b) as [-> ->]; auto.
      eapply (IH (data + ws_size w)); eauto. intros; apply Hs; right; auto.
Qed.

Lemma soc_orders_ok l : soc_orders l -> forall w, In w l -> soc_ok w.
Proof. intros H [] Hw; cbn; auto. Qed.

Lemma partition l : soc_orders l ->
  (forall i a p, piece_at l i a p -> pc_start p + pc_len p <= ws_total l /\ (pc_map p = true -> Nat.even (pc_start p) = true)) /\
  (forall i a p j b q o, piece_at l i a p -> piece_at l j b q -> inside p o -> inside q o -> i = j /\ a = b).
Proof.
  intros Hs. pose proof (soc_orders_ok _ Hs) as Hok. split.
  - intros i a p (ps & Hi & Ha). apply nth_error_In in Ha. rewrite ws_total_eq. split.
    + destruct (layout_in l 0 i ps p Hok Hi Ha); lia.
    + intros Hm. exact (layout_even l 0 i ps p eq_refl Hi Ha Hm).
  - intros i a p j b q o (ps & Hi & Ha) (qs & Hj & Hb) Hp Hq. exact (layout_disjoint l 0 i j ps qs a b p q o Hok Hi Ha Hj Hb Hp Hq).
Qed.
