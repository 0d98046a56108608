(** Property C69: the column-wise sparse triangular operations. *)
From Coq Require Import List Arith Reals Lra Lia Bool.
From Verif Require Import Base BaseFacts TriWorkspaceModel AssemblerModel Spec_Block TriWorkspaceProofs SupernodeProofs AssemblerProofs
  DenseModel BlockModel RSum BlockProofs Spec_Linear PosDef KktProofs LinearFacts SparseModel SparseProofs.
Import ListNotations.
Open Scope R_scope.

(** Every supernode has a column. *)
Definition no_empty_block (size : list nat) : Prop := forall k, (k < length size)%nat -> (0 < nth k size 0)%nat.

Lemma made rows size m s : fill_closed rows size -> make_sparse (dim size) rows size m = Ok s ->
  exists w, TriWS_make rows size = Ok w /\ ws_ok rows size w /\ s = mkSparse (dim size) rows w m.
Proof.
  intros FC E. unfold make_sparse in E. destruct (TriWS_make_ok _ _ FC) as (w & EW & HW). rewrite EW in E. cbn [bind] in E.
  destruct (seperator_diagonal w); try discriminate. cbn [bind] in E. injection E as <-. exists w. auto.
Qed.
Lemma full_of rows size : fill_closed rows size -> no_empty_block size -> forall k, (k < length rows)%nat -> (0 < nth k size 0)%nat.
Proof. intros FC H k Hk. apply H. rewrite (fc_len _ _ FC). auto. Qed.
Lemma read_view rows size w s : fill_closed rows size -> TriWS_make rows size = Ok w -> shape rows w s ->
  forall r c, (c <= r < dim size)%nat -> SpToDense s r c = Ok (V rows size s r c).
Proof. intros FC EW (E1 & E2) r c Hr. unfold SpToDense. rewrite E1, E2. apply (dense_view _ _ _ _ FC EW); auto. Qed.

Lemma total_from a n (f : nat -> R) : total f (seq a n) = rsum n (fun i => f (a + i)%nat).
Proof. rewrite <- lsum_seq. induction (seq a n) as [|x l IH]; cbn; [auto|]. rewrite <- IH. auto. Qed.

(** The matrix can always be built and read, and [SetConstant] sets all entries of the
    pattern. *)
Theorem C69_read : forall rows size m, fill_closed rows size ->
  exists s, make_sparse (dim size) rows size m = Ok s /\
  (forall r c, (c <= r < dim size)%nat -> exists x, SpToDense s r c = Ok x) /\
  forall val r c k, (c <= r < dim size)%nat -> (k < length rows)%nat -> in_block size k c ->
    (stored_row rows k r -> SpToDense (SetConstant s val) r c = Ok val) /\ (~ stored_row rows k r -> SpToDense (SetConstant s val) r c = Ok 0).
Proof.
  intros rows size m FC. destruct (TriWS_make_ok _ _ FC) as (w & EW & HW). destruct (seperator_diagonal_ok _ _ FC w HW) as (sd & ES & _).
  exists (mkSparse (dim size) rows w m). unfold make_sparse. rewrite EW. cbn [bind]. rewrite ES. cbn [bind]. split; [reflexivity|]. split.
  - intros r c Hr. eexists. apply (read_view rows size w); auto. split; auto.
  - intros val r c k Hr Hk Hb. rewrite (read_view rows size w) by (auto; split; auto).
    assert (owner rows size c = k) as Eo by (apply owner_spec; auto). unfold V. split; intros H.
    + rewrite (view_stored _ _ FC); [reflexivity|]. split; [lia|]. split; [lia|]. rewrite Eo. auto.
    + rewrite (view_unstored _ _ FC); [reflexivity|lia|lia|]. intros (_ & _ & H'). rewrite Eo in H'. auto.
Qed.

(** [Increment] adds to one entry of the pattern and rejects entries outside of it. *)
Theorem C69_increment : forall rows size m s val r c k, fill_closed rows size -> rows <> [] -> no_empty_block size ->
  make_sparse (dim size) rows size m = Ok s -> (c <= r < dim size)%nat -> (k < length rows)%nat -> in_block size k c ->
  (stored_row rows k r -> exists s', Increment s val r c = Ok s' /\
     forall r' c' x, (c' <= r' < dim size)%nat -> SpToDense s r' c' = Ok x ->
       SpToDense s' r' c' = Ok (if ((r' =? r) && (c' =? c))%nat%bool then x + val else x)) /\
  (~ stored_row rows k r -> val <> 0 -> Increment s val r c = Throw).
Proof.
  intros rows size m s val r c k FC Hne HF E Hr Hk Hb. destruct (made _ _ _ _ FC E) as (w & EW & HW & ->). set (s := mkSparse (dim size) rows w m).
  assert (shape rows w s) as Hs by (split; auto). assert (owner rows size c = k) as Eo by (apply owner_spec; auto).
  assert (0 < length rows)%nat as Hn by lia. pose proof (full_of _ _ FC HF) as Hf.
  split; intros H.
  - assert (stored rows size r c) as Hst by (split; [lia|split; [lia|rewrite Eo; auto]]).
    destruct (increment_ok _ _ FC Hn Hf w HW s val r c Hs Hst) as (s' & E' & Hs' & _ & V1 & V2). exists s'. split; auto.
    intros r' c' x Hr' Hx. rewrite (read_view rows size w) in Hx |- * by auto. injection Hx as <-. f_equal.
    destruct (Nat.eqb_spec r' r) as [->|Hn1], (Nat.eqb_spec c' c) as [->|Hn2]; cbn [andb]; [exact V1| | |]; apply V2; auto; lia.
  - intros Hv. unfold Increment. destruct (Req_EM_T val 0); [contradiction|].
    rewrite (lookup_ok _ _ FC Hn Hf w s c Hs) by lia. cbn [bind].
    destruct (locate_ok _ _ FC Hn w HW s r c Hs) as [_ L2]; [lia|lia|]. rewrite L2; [reflexivity|].
    intros (_ & _ & H'). rewrite Eo in H'. auto.
Qed.

(** The Cholesky factorization returns exactly when the matrix is positive definite,
    and then leaves the factor. *)
Theorem C69_cholesky : forall rows size m s, fill_closed rows size -> rows <> [] -> no_empty_block size ->
  make_sparse (dim size) rows size m = Ok s ->
  exists A res, (forall r c, (c <= r < dim size)%nat -> SpToDense s r c = Ok (A r c)) /\
    CholeskyInPlace s = Ok res /\ ((exists s', res = Some s') <-> positive_definite (dim size) (from_lower A)) /\
    forall s', res = Some s' -> sp_N s' = sp_N s /\ sp_path s' = sp_path s /\ sp_ws s' = sp_ws s /\
      exists L : nat -> nat -> R, (forall r c, (c <= r < dim size)%nat -> SpToDense s' r c = Ok (L r c)) /\
        (forall c, (c < dim size)%nat -> 0 < L c c) /\
        (forall r c, (c <= r < dim size)%nat -> A r c = total (fun t => L r t * L c t) (seq 0 (S c))).
Proof.
  intros rows size m s FC Hne HF E. destruct (made _ _ _ _ FC E) as (w & EW & HW & ->). set (s := mkSparse (dim size) rows w m) in *.
  assert (0 < length rows)%nat as Hn by (destruct rows; [congruence|cbn; lia]). assert (shape rows w s) as Hs by (split; auto).
  destruct (cholesky_ok rows size FC Hn (full_of _ _ FC HF) w HW s Hs eq_refl) as (res & EC & HC).
  exists (V rows size s), res. split; [apply (read_view rows size w); auto|]. split; [exact EC|]. split; [split|].
  - intros (s' & ->). destruct HC as (_ & _ & HC). apply (factors_definite _ _ _ HC).
  - intros PD. destruct res as [s'|]; [eauto|]. exfalso. destruct (seperator_diagonal_ok _ _ FC w HW) as (ss & ES & _).
    destruct (proj2 (cholesky_iff_pd rows size w ss m (V rows size s) FC Hn EW ES (fun r c Hr => read_view rows size w s FC EW Hs r c Hr)) PD) as (m' & EB).
    destruct (block_cholesky_exact _ _ _ _ _ _ FC EW ES EB) as (A & L & HR & HU & _ & HP & HL). apply (HC L). split; [exact HP|].
    intros r c Hr. destruct (HR r c Hr) as [EA _]. pose proof (read_view rows size w s FC EW Hs r c Hr) as EV. unfold SpToDense, s in EV. cbn [sp_ws sp_path sp_mem] in EV. rewrite EA in EV. injection EV as EV.
    fold s in EV. rewrite <- EV, HL by auto. rewrite total_rsum. apply rsum_trunc; [lia|]. intros t Ht. rewrite (HU c t) by lia. ring.
  - intros s' ->. destruct HC as ((E1 & E2) & E3 & HP & HL). split; [auto|]. split; [auto|]. split; [auto|]. exists (V rows size s'). split; [apply (read_view rows size w); auto; split; auto|].
    split; [exact HP|]. intros r c Hr. rewrite total_rsum. auto.
Qed.

(** It succeeds together with the block factorization and gives the same factor. *)
Theorem C69_same_as_block : forall rows size m s ss, fill_closed rows size -> rows <> [] -> no_empty_block size ->
  make_sparse (dim size) rows size m = Ok s -> seperator_diagonal (sp_ws s) = Ok ss ->
  ((exists s', CholeskyInPlace s = Ok (Some s')) <-> (exists m', BlockCholeskyInPlace (sp_ws s) ss m = Ok (Some m'))) /\
  forall s' m', CholeskyInPlace s = Ok (Some s') -> BlockCholeskyInPlace (sp_ws s) ss m = Ok (Some m') ->
    forall r c, (c <= r < dim size)%nat -> SpToDense s' r c = SpToDense (with_mem s m') r c.
Proof.
  intros rows size m s ss FC Hne HF E ES. destruct (made _ _ _ _ FC E) as (w & EW & HW & Es). pose proof E as E0. subst s. cbn [sp_ws] in *.
  assert (0 < length rows)%nat as Hn by (destruct rows; [congruence|cbn; lia]).
  destruct (C69_cholesky rows size m _ FC Hne HF E0) as (A & res & HA & EC & HI & HS).
  pose proof (cholesky_iff_pd rows size w ss m A FC Hn EW ES HA) as HB. split.
  - rewrite HB, <- HI, EC. split; intros (s' & H); [injection H as ->; eauto|subst res; eauto].
  - intros s' m' EC' EB r c Hr. rewrite EC in EC'. injection EC' as ->. destruct (HS s' eq_refl) as (_ & _ & _ & L & HL & HP & HF').
    destruct (block_cholesky_exact _ _ _ _ _ _ FC EW ES EB) as (A' & L' & HR & HU & _ & HP' & HL').
    rewrite HL by auto. unfold SpToDense, with_mem. cbn [sp_ws sp_path sp_mem]. destruct (HR r c Hr) as [_ ->]. f_equal.
    apply (factors_same (dim size) A L L'); auto.
    + split; [auto|]. intros r' c' Hr'. rewrite HF' by auto. apply total_rsum.
    + split; [auto|]. intros r' c' Hr'. destruct (HR r' c' Hr') as [EA _]. pose proof (HA r' c' Hr') as EA'. unfold SpToDense in EA'. cbn [sp_ws sp_path sp_mem] in EA'. rewrite EA in EA'. injection EA' as <-.
      rewrite HL' by auto. rewrite total_rsum. apply rsum_trunc; [lia|]. intros t Ht. rewrite (HU c' t) by lia. ring.
Qed.

(** [ApplyInverse] solves [L y = b] (and only a zero on the diagonal prevents it). *)
Theorem C69_apply_inverse : forall rows size m s b, fill_closed rows size -> rows <> [] -> no_empty_block size ->
  make_sparse (dim size) rows size m = Ok s ->
  exists L res, (forall r c, (c <= r < dim size)%nat -> SpToDense s r c = Ok (L r c)) /\
    ApplyInverse s (dim size) b = Ok res /\ ((exists y, res = Some y) <-> forall c, (c < dim size)%nat -> L c c <> 0) /\
    forall y, res = Some y -> forall r, (r < dim size)%nat -> total (fun c => L r c * y c) (seq 0 (S r)) = b r.
Proof.
  intros rows size m s b FC Hne HF E. destruct (made _ _ _ _ FC E) as (w & EW & HW & ->). set (s := mkSparse (dim size) rows w m) in *.
  assert (0 < length rows)%nat as Hn by (destruct rows; [congruence|cbn; lia]). assert (shape rows w s) as Hs by (split; auto).
  destruct (forward_ok rows size FC Hn (full_of _ _ FC HF) w HW s b Hs) as (res & EC & HC). exists (V rows size s), res.
  split; [apply (read_view rows size w); auto|]. split; [exact EC|]. split; [split|].
  - intros (y & ->). apply HC.
  - intros HD. destruct res as [y|]; [eauto|]. destruct HC as (c & Hc & Ez). exfalso. apply (HD c); auto.
  - intros y -> r Hr. rewrite total_rsum. apply HC. auto.
Qed.

(** [ApplyInverseOfTranspose] solves [L^T y = b]. *)
Theorem C69_apply_inverse_of_transpose : forall rows size m s b, fill_closed rows size -> rows <> [] -> no_empty_block size ->
  make_sparse (dim size) rows size m = Ok s ->
  exists L res, (forall r c, (c <= r < dim size)%nat -> SpToDense s r c = Ok (L r c)) /\
    ApplyInverseOfTranspose s (dim size) b = Ok res /\ ((exists y, res = Some y) <-> forall c, (c < dim size)%nat -> L c c <> 0) /\
    forall y, res = Some y -> forall c, (c < dim size)%nat -> total (fun r => L r c * y r) (seq c (dim size - c)) = b c.
Proof.
  intros rows size m s b FC Hne HF E. destruct (made _ _ _ _ FC E) as (w & EW & HW & ->). set (s := mkSparse (dim size) rows w m) in *.
  assert (0 < length rows)%nat as Hn by (destruct rows; [congruence|cbn; lia]). assert (shape rows w s) as Hs by (split; auto).
  destruct (backward_ok rows size FC Hn (full_of _ _ FC HF) w HW s b Hs) as (res & EC & HC). exists (V rows size s), res.
  split; [apply (read_view rows size w); auto|]. split; [exact EC|]. split; [split|].
  - intros (y & ->). apply HC.
  - intros HD. destruct res as [y|]; [eauto|]. destruct HC as (c & Hc & Ez). exfalso. apply (HD c); auto.
  - intros y -> c Hc. destruct HC as [_ HC]. rewrite <- (HC c Hc). unfold above. rewrite total_from. reflexivity.
Qed.

(** Factoring and the two solves give the solution of the linear system. *)
Theorem C69_solve : forall rows size m s A b, fill_closed rows size -> rows <> [] -> no_empty_block size ->
  make_sparse (dim size) rows size m = Ok s -> (forall r c, (c <= r < dim size)%nat -> SpToDense s r c = Ok (A r c)) ->
  positive_definite (dim size) (from_lower A) ->
  exists s' z x, CholeskyInPlace s = Ok (Some s') /\ ApplyInverse s' (dim size) b = Ok (Some z) /\ ApplyInverseOfTranspose s' (dim size) z = Ok (Some x) /\
    solves (dim size) (from_lower A) x b.
Proof.
  intros rows size m s A b FC Hne HF E HA PD. destruct (made _ _ _ _ FC E) as (w & EW & HW & Es). pose proof E as E0. subst s.
  destruct (C69_cholesky rows size m _ FC Hne HF E0) as (A' & res & HA' & EC & HI & HS).
  assert (forall r c, (c <= r < dim size)%nat -> A r c = A' r c) as EA.
  { intros r c Hr. specialize (HA r c Hr). rewrite HA' in HA by auto. congruence. }
  assert (positive_definite (dim size) (from_lower A')) as PD'.
  { intros x Hx. specialize (PD x Hx). rewrite quad_total in *. rewrite <- (quad_ext _ (from_lower A)); auto. intros r c Hr Hc. apply EA. lia. }
  apply HI in PD' as (s' & ->). destruct (HS s' eq_refl) as (N' & P' & W' & L & HL & HP & HF'). cbn [sp_N sp_path sp_ws] in *.
  assert (make_sparse (dim size) rows size (sp_mem s') = Ok s') as E'.
  { unfold make_sparse in E0 |- *. rewrite EW in *. cbn [bind] in *. destruct (seperator_diagonal w); try discriminate. cbn [bind] in *. f_equal. destruct s'. cbn in *. subst. reflexivity. }
  destruct (C69_apply_inverse rows size _ s' b FC Hne HF E') as (L1 & r1 & HL1 & EF & HI1 & HS1).
  assert (forall r c, (c <= r < dim size)%nat -> L1 r c = L r c) as EL1. { intros r c Hr. specialize (HL1 r c Hr). rewrite HL in HL1 by auto. congruence. }
  destruct (proj2 HI1) as (z & ->). { intros c Hc. rewrite EL1 by lia. pose proof (HP c Hc). lra. }
  destruct (C69_apply_inverse_of_transpose rows size _ s' z FC Hne HF E') as (L2 & r2 & HL2 & EB & HI2 & HS2).
  assert (forall r c, (c <= r < dim size)%nat -> L2 r c = L r c) as EL2. { intros r c Hr. specialize (HL2 r c Hr). rewrite HL in HL2 by auto. congruence. }
  destruct (proj2 HI2) as (x & ->). { intros c Hc. rewrite EL2 by lia. pose proof (HP c Hc). lra. }
  exists s', z, x. split; [auto|]. split; [auto|]. split; [auto|]. apply solves_mv. intros u Hu. unfold mv.
  set (n := dim size) in *. set (M := fun r t => if (t <=? r)%nat then L r t else 0).
  assert (forall c, (c < n)%nat -> z c = rsum n (fun t => M t c * x t)) as Ez.
  { intros c Hc. rewrite <- (HS2 x eq_refl c Hc). rewrite total_from.
    rewrite (rsum_split_at c n (fun t => M t c * x t)) by lia. rewrite (rsum_zero c).
    - rewrite Rplus_0_l. apply rsum_ext. intros t Ht. unfold M. destruct (Nat.leb_spec c (c + t)); [|lia]. rewrite EL2 by lia. reflexivity.
    - intros t Ht. unfold M. destruct (Nat.leb_spec c t); [lia|ring]. }
  rewrite <- (HS1 z eq_refl u Hu). rewrite total_rsum. rewrite (rsum_ext (S u) _ (fun t => rsum n (fun v => M u t * M v t * x v))).
  2: { intros t Ht. rewrite Ez, <- rsum_scal by lia. apply rsum_ext. intros v Hv. unfold M at 2. destruct (Nat.leb_spec t u); [|lia]. rewrite EL1 by lia. ring. }
  rewrite rsum_swap. apply rsum_ext. intros v Hv. rewrite rsum_scal_r. f_equal. unfold from_lower. rewrite EA, HF', total_rsum by lia. symmetry.
  rewrite (rsum_trunc (S (Nat.min u v)) (S u)); [|lia|].
  - apply rsum_ext. intros t Ht. unfold M. destruct (Nat.leb_spec t u); [|lia]. destruct (Nat.leb_spec t v); [|lia].
    destruct (Nat.max_spec u v) as [[? ->]|[? ->]], (Nat.min_spec u v) as [[? ->]|[? ->]]; try lia; ring.
  - intros t Ht. unfold M. destruct (Nat.leb_spec t v); [lia|ring].
Qed.

(** A copy has the same entries. *)
Theorem C69_copy : forall N cliques sizes m s, make_sparse N cliques sizes m = Ok s -> copy_sparse s = Ok s.
Proof.
  intros N cliques sizes m s E. unfold copy_sparse. unfold make_sparse in E. destruct (TriWS_make cliques sizes) as [w| | |] eqn:EW; try discriminate. cbn [bind] in E.
  destruct (seperator_diagonal w) as [sd| | |] eqn:ES; try discriminate. cbn [bind] in E. injection E as <-. cbn [sp_N sp_path sp_ws sp_mem].
  assert (ws_size w = sizes) as ->.
  { unfold TriWS_make in EW. destruct (build_snodes _ _ _) as [[[[a b] c] d]| | |]; try discriminate. cbn [bind] in EW. destruct (build_seps _ _ _ _) as [[[e f] g]| | |]; try discriminate.
    cbn [bind] in EW. injection EW as <-. reflexivity. }
  unfold make_sparse. rewrite EW. cbn [bind]. rewrite ES. reflexivity.
Qed.

(** ** What the code does not do *)
(** An assignment leaves the left side as it was. *)
Theorem C69_assignment_refuted : exists a b a' c, make_sparse 1 [[0]]%nat [1]%nat (sp_mem a) = Ok a /\ make_sparse 1 [[0]]%nat [1]%nat (sp_mem b) = Ok b /\
  assign a b = Ok (a', c) /\ SpToDense b 0 0 = Ok 1 /\ SpToDense c 0 0 = Ok 1 /\ SpToDense a' 0 0 = Ok 0.
Proof.
  destruct (make_sparse 1 [[0]]%nat [1]%nat (fun _ => 0)) as [a| | |] eqn:EA; try (vm_compute in EA; discriminate).
  destruct (make_sparse 1 [[0]]%nat [1]%nat (fun _ => 1)) as [b| | |] eqn:EB; try (vm_compute in EB; discriminate).
  exists a, b, a, b. cbv in EA, EB. injection EA as <-. injection EB as <-. repeat split; reflexivity.
Qed.

Definition gap_rows : list (list nat) := [[0]; [1]; [1]]%nat.
Definition gap_size : list nat := [1; 0; 1]%nat.
Definition tail_rows : list (list nat) := [[0; 1]; []]%nat.
Definition tail_size : list nat := [2; 0]%nat.
(** The conditions of [fill_closed] for given lists, one supernode after the other. *)
Ltac closed_rows := split; [reflexivity
  |intros k Hk; cbn in Hk; do 3 (try (destruct k as [|k]; [eexists; split; [reflexivity|split; [repeat constructor|cbn; intuition lia]]|])); lia
  |intros k j r c Hk Hj; cbn in Hk, Hj; unfold stored_row, in_block; do 3 (try (destruct k as [|k]; [do 3 (try (destruct j as [|j]; [cbn; intuition lia|])); lia|])); lia].
Lemma gap_closed : fill_closed gap_rows gap_size.
Proof. closed_rows. Qed.
Lemma tail_closed : fill_closed tail_rows tail_size.
Proof. closed_rows. Qed.

(** Supernodes without columns.  The identity matrix with such a supernode in the
    middle: the iteration over the columns stops in the empty block and reads outside
    of it.  At the end: the search for the supernode of a column throws. *)
Theorem C69_empty_supernode_refuted :
  (exists rows size s, fill_closed rows size /\ rows <> [] /\ make_sparse (dim size) rows size (fun _ => 1) = Ok s /\
     (forall r c, (c <= r < dim size)%nat -> SpToDense s r c = Ok (if (r =? c)%nat then 1 else 0)) /\
     CholeskyInPlace s = UB /\ forall b, ApplyInverse s (dim size) b = UB) /\
  (exists rows size m s, fill_closed rows size /\ rows <> [] /\ make_sparse (dim size) rows size m = Ok s /\
     (forall r c, (c <= r < dim size)%nat -> SpToDense s r c = Ok (if (r =? c)%nat then 1 else 0)) /\
     CholeskyInPlace s = Throw /\ forall b, ApplyInverseOfTranspose s (dim size) b = Throw).
Proof.
  split.
  - exists gap_rows, gap_size. eexists. split; [exact gap_closed|]. split; [discriminate|]. split; [reflexivity|]. split; [|split].
    + intros r c Hr. cbn in Hr. destruct c as [|[|c]], r as [|[|r]]; try lia; reflexivity.
    + cbv -[Rlt_dec Rdiv sqrt Rmult Rplus Ropp IZR Req_EM_T]. destruct (Rlt_dec 0 1) as [_|H]; [reflexivity|lra].
    + intros b. cbv -[Rdiv Rmult Rplus Ropp Rminus IZR Req_EM_T]. destruct (Req_EM_T 1 0) as [H|_]; [lra|reflexivity].
  - exists tail_rows, tail_size, (fun a => match a with ADiag _ i j => if (i =? j)%nat then 1 else 0 | AOff _ _ _ => 0 end). eexists. split; [exact tail_closed|]. split; [discriminate|]. split; [reflexivity|]. split; [|split].
    + intros r c Hr. cbn in Hr. destruct c as [|[|c]], r as [|[|r]]; try lia; reflexivity.
    + cbv -[Rlt_dec Rdiv sqrt Rmult Rplus Ropp IZR Req_EM_T]. destruct (Rlt_dec 0 1) as [_|H]; [reflexivity|lra].
    + intros b. reflexivity.
Qed.

(** A right-hand side shorter than the matrix is written outside of its bounds; the
    only check is an assertion. *)
Theorem C69_short_vector_refuted : exists rows size s, fill_closed rows size /\ rows <> [] /\ no_empty_block size /\ make_sparse (dim size) rows size (fun _ => 1) = Ok s /\
  dim size = 3%nat /\ forall b, ApplyInverse s 2 b = UB.
Proof.
  exists [[0; 1; 2]]%nat, [3]%nat. eexists. split; [closed_rows|]. split; [discriminate|]. split; [intros k Hk; cbn in Hk; destruct k; cbn; lia|].
  split; [reflexivity|]. split; [reflexivity|]. intros b. cbv -[Rdiv Rmult Rplus Ropp Rminus IZR Req_EM_T]. destruct (Req_EM_T 1 0) as [H|_]; [lra|reflexivity].
Qed.

(** ** A matrix of three supernodes: 4 and 4 on the diagonal, last row 2, 2, 3 *)
Definition arrow_rows : list (list nat) := [[0; 2]; [1; 2]; [2]]%nat.
Definition arrow_size : list nat := [1; 1; 1]%nat.
Definition arrow_mem : rmem := fun a => match a with ADiag 2 _ _ => 3 | ADiag _ _ _ => 4 | AOff _ _ _ => 2 end.
Definition arrow (r c : nat) : R :=
  match r, c with 0%nat, 0%nat => 4 | 1%nat, 1%nat => 4 | 2%nat, 0%nat => 2 | 2%nat, 1%nat => 2 | 2%nat, 2%nat => 3 | _, _ => 0 end.
Definition arrow_factor (r c : nat) : R :=
  match r, c with 0%nat, 0%nat => 2 | 1%nat, 1%nat => 2 | 2%nat, 0%nat => 1 | 2%nat, 1%nat => 1 | 2%nat, 2%nat => 1 | _, _ => 0 end.
Lemma arrow_closed : fill_closed arrow_rows arrow_size.
Proof. closed_rows. Qed.
Lemma arrow_full : no_empty_block arrow_size.
Proof. intros k Hk. cbn in Hk. do 3 (destruct k as [|k]; [cbn; lia|]). lia. Qed.
Lemma arrow_factors : factors 3 arrow arrow_factor.
Proof.
  split.
  - intros c Hc. destruct c as [|[|[|c]]]; try lia; cbn; lra.
  - intros r c Hr. destruct c as [|[|[|c]]], r as [|[|[|r]]]; try lia; cbn; lra.
Qed.

Example C69_increment_example : exists s s', make_sparse 3 arrow_rows arrow_size arrow_mem = Ok s /\
  Increment s 5 2 0 = Ok s' /\ SpToDense s' 2 0 = Ok (2 + 5) /\ SpToDense s' 2 1 = Ok 2 /\ Increment s 5 1 0 = Throw.
Proof.
  destruct (make_sparse 3 arrow_rows arrow_size arrow_mem) as [s| | |] eqn:E; try (vm_compute in E; discriminate).
  assert (SpToDense s 2 0 = Ok 2 /\ SpToDense s 2 1 = Ok 2) as [R0 R1] by (cbv in E; injection E as <-; split; reflexivity).
  destruct (C69_increment arrow_rows arrow_size arrow_mem s 5 2 0 0 arrow_closed ltac:(discriminate) arrow_full E ltac:(cbn; lia) ltac:(cbn; lia)) as [H _];
    [split; cbn; lia|].
  destruct H as (s' & E' & H); [unfold stored_row; cbn; auto|].
  destruct (C69_increment arrow_rows arrow_size arrow_mem s 5 1 0 0 arrow_closed ltac:(discriminate) arrow_full E ltac:(cbn; lia) ltac:(cbn; lia)) as [_ H1];
    [split; cbn; lia|].
  exists s, s'. split; auto. split; auto. split; [exact (H 2%nat 0%nat 2 ltac:(cbn; lia) R0)|]. split; [exact (H 2%nat 1%nat 2 ltac:(cbn; lia) R1)|].
  apply H1; [|lra]. unfold stored_row. cbn. lia.
Qed.

(** The hypotheses of the theorems hold for it; its factor and the solution for the
    right-hand side 4, 8, 8 are the numbers one expects. *)
Example C69_example : exists s s' z x, fill_closed arrow_rows arrow_size /\ arrow_rows <> [] /\ no_empty_block arrow_size /\ dim arrow_size = 3%nat /\
  make_sparse 3 arrow_rows arrow_size arrow_mem = Ok s /\
  (forall r c, (c <= r < 3)%nat -> SpToDense s r c = Ok (arrow r c)) /\ positive_definite 3 (from_lower arrow) /\
  CholeskyInPlace s = Ok (Some s') /\ (forall r c, (c <= r < 3)%nat -> SpToDense s' r c = Ok (arrow_factor r c)) /\
  ApplyInverse s' 3 (fun i => nth i [4; 8; 8] 0) = Ok (Some z) /\ ApplyInverseOfTranspose s' 3 z = Ok (Some x) /\
  x 0%nat = 0 /\ x 1%nat = 1 /\ x 2%nat = 2.
Proof.
  assert (exists s, make_sparse 3 arrow_rows arrow_size arrow_mem = Ok s) as (s & E) by (eexists; reflexivity).
  assert (forall r c, (c <= r < 3)%nat -> SpToDense s r c = Ok (arrow r c)) as HR.
  { cbv in E. injection E as <-. intros r c Hr. destruct c as [|[|[|c]]], r as [|[|[|r]]]; try lia; reflexivity. }
  pose proof (factors_definite _ _ _ arrow_factors) as PD. pose proof arrow_closed as FC. pose proof arrow_full as HF. assert (arrow_rows <> []) as Hne by discriminate.
  destruct (C69_solve _ _ _ _ arrow (fun i => nth i [4; 8; 8] 0) FC Hne HF E HR PD) as (s' & z & x & EC & EF & EB & HS).
  exists s, s', z, x. split; [exact FC|]. split; [exact Hne|]. split; [exact HF|]. split; [reflexivity|]. split; [exact E|]. split; [exact HR|]. split; [exact PD|]. split; [exact EC|].
  split; [|split; [exact EF|split; [exact EB|]]].
  - destruct (C69_cholesky _ _ _ _ FC Hne HF E) as (A & res & HA & EC' & _ & HL). rewrite EC in EC'. injection EC' as <-. destruct (HL s' eq_refl) as (_ & _ & _ & L & HL1 & HP & HL2).
    intros r c Hr. rewrite HL1 by auto. f_equal. apply (factors_same 3 arrow L arrow_factor); auto using arrow_factors. split; [auto|]. intros r' c' Hr'. rewrite <- total_rsum, <- HL2 by auto.
    specialize (HA r' c' Hr'). rewrite HR in HA by auto. congruence.
  - pose proof (HS 0%nat ltac:(cbn; lia)) as H0. pose proof (HS 1%nat ltac:(cbn; lia)) as H1. pose proof (HS 2%nat ltac:(cbn; lia)) as H2. cbn in H0, H1, H2. repeat split; lra.
Qed.

Print Assumptions C69_read.
Print Assumptions C69_increment.
Print Assumptions C69_cholesky.
Print Assumptions C69_same_as_block.
Print Assumptions C69_apply_inverse.
Print Assumptions C69_apply_inverse_of_transpose.
Print Assumptions C69_solve.
Print Assumptions C69_copy.
Print Assumptions C69_assignment_refuted.
Print Assumptions C69_empty_supernode_refuted.
Print Assumptions C69_short_vector_refuted.
