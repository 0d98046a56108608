(** Statement vocabulary for properties of the program object and its C
    interface (C18-C25).  Nothing here refers to helper functions of the model;
    only its data types are used. *)
From Coq Require Import List Arith ZArith Reals Bool.

From Verif Require Import Base ProgramModel ApiModel.
Import ListNotations.
Open Scope nat_scope.

(** A usable variable list for [n] variables. *)
Definition good_list (n : nat) (x : list Z) : Prop :=
  NoDup x /\ forall v, In v x -> (0 <= v < Z.of_nat n)%Z.

(** Calls that change coefficients, and the constraint they name. *)
Definition names (i : nat) (k : call) : Prop :=
  match k with
  | AUpdateLinearOperator j _ _ _ _ _ | AUpdateAffineTerm j _ _ _ _
  | AUpdateQuadraticCostMatrix j _ _ _ => j = Z.of_nat i
  | _ => False
  end.

Definition is_solve (k : call) : Prop :=
  match k with AMaximize _ _ _ | ASolve _ _ => True | _ => False end.

Definition sets_variables (k : call) : Prop :=
  match k with ASetNumberOfVariables _ => True | _ => False end.

(** The calls protected by the program-corruption check. *)
Definition guarded (k : call) : Prop :=
  match k with
  | ASetNumberOfVariables _ | ANewLMI _ _ _ | ANewLinearInequality _ _ | ANewQuadraticCost _
  | AAddQuadraticCost _ _ | ANewLorentzCone _ _ | AUpdateLinearOperator _ _ _ _ _ _
  | AUpdateAffineTerm _ _ _ _ _ | AUpdateQuadraticCostMatrix _ _ _ _ => True
  | _ => False
  end.

(** Calls whose result is a status code. *)
Definition returns_status (k : call) : Prop :=
  match k with PAddConstraint _ _ _ => True | _ => guarded k end.

(** Same class and same dimensions. *)
Definition same_shape (a b : cdata) : Prop :=
  match a, b with
  | CLinear m A _, CLinear m' A' _ => m = m' /\ length A = length A'
  | CSoc n _ _, CSoc n' _ _ => n = n'
  | CHerm h r _ _, CHerm h' r' _ _ => h = h' /\ r = r'
  | CQuad Q, CQuad Q' => length Q = length Q'
  | CDenseLmi n As C, CDenseLmi n' As' C' => n = n' /\ As = As' /\ C = C'
  | CQuadCone n Q A b, CQuadCone n' Q' A' b' => n = n' /\ Q = Q' /\ A = A' /\ b = b'
  | CEq A b, CEq A' b' => A = A' /\ b = b'
  | _, _ => False
  end.

(** The calls that create one constraint and hand out its identifier: the data
    asked for ([n] variables), the variable list ([None]: all variables), and
    the identifier in the reply. *)
Definition creates (n : nat) (k : call) : option cdata :=
  match k with
  | ANewLMI order hdim _ => Some (CHerm (Z.to_nat hdim) (Z.to_nat order) [] [])
  | ANewLinearInequality rows _ => Some (CLinear n (repeat (repeat 0%R n) rows) (repeat 0%R rows))
  | ANewQuadraticCost _ => Some (CQuad (repeat (repeat 0%R n) n))
  | ANewLorentzCone order _ => Some (CSoc (Z.to_nat order) [] [])
  | AAddDenseLMI o As C | AAddSparseLMI o As C _ => Some (CDenseLmi o As C)
  | AAddDenseLinear cols A c => Some (CLinear cols A c)
  | _ => None
  end.
Definition created_on (n : nat) (k : call) : list Z :=
  match k with AAddSparseLMI _ _ _ v => v | _ => map Z.of_nat (seq 0 n) end.
Definition identifier (k : call) (r : reply) : option Z :=
  match k with
  | AAddDenseLMI _ _ _ | AAddSparseLMI _ _ _ _ | AAddDenseLinear _ _ _ => Some (rp_return r)
  | _ => rp_id r
  end.

(** ** Linear cost *)

(** The cost vectors added since the last clear, oldest first. *)
Definition costs_since_clear (n : nat) (ks : list call) : list (list R) :=
  filter (fun b => length b =? n)
    (fold_left (fun acc k => match k with
                             | PAddLinearCost b => acc ++ [b]
                             | PClearLinearCosts => []
                             | AMaximize b _ _ => [map Ropp b]
                             | _ => acc
                             end) ks []).

Definition component_sum (i : nat) (bs : list (list R)) : R :=
  fold_right (fun b s => (nth i b 0 + s)%R) 0%R bs.

(** ** Coefficients *)

(** A coefficient of a constraint: the row/column/component entry of the
    coefficient of variable [var], or ([var = None]) of the constant term. *)
Record place := mkPlace { pl_var : option nat; pl_r : nat; pl_c : nat; pl_dim : nat }.

(** The value stored at a place; a variable the constraint has no data for has
    coefficient zero, and so has a constant term that was never given. *)
Definition value_at (o : cdata) (q : place) : R :=
  match o, pl_var q with
  | CLinear _ A _, Some v => nth v (nth (pl_r q) A []) 0%R
  | CLinear _ _ b, None => nth (pl_r q) b 0%R
  | CSoc _ A _, Some v => nth (pl_r q) (nth v A []) 0%R
  | CSoc _ _ c, None => nth (pl_r q) c 0%R
  | CHerm _ _ As _, Some v => nth (pl_c q) (nth (pl_r q) (nth (pl_dim q) (nth v As []) []) []) 0%R
  | CHerm _ _ _ C, None => nth (pl_c q) (nth (pl_r q) (nth (pl_dim q) C []) []) 0%R
  | CQuad Q, None => nth (pl_c q) (nth (pl_r q) Q []) 0%R
  | _, _ => 0%R
  end.

(** The places a constraint has. *)
Definition has_place (o : cdata) (q : place) : Prop :=
  match o, pl_var q with
  | CLinear m A _, Some v => v < m /\ pl_r q < length A /\ pl_c q = 0 /\ pl_dim q = 0
  | CLinear _ A _, None => pl_r q < length A /\ pl_c q = 0 /\ pl_dim q = 0
  | CSoc n _ _, _ => pl_r q <= n /\ pl_c q = 0 /\ pl_dim q = 0
  | CHerm h rk _ _, _ => pl_r q < rk /\ pl_c q < rk /\ pl_dim q < h
  | CQuad Q, None => pl_r q < length Q /\ pl_c q < length Q /\ pl_dim q = 0
  | _, _ => False
  end.

(** A write request. *)
Record write := mkWrite { w_var : option Z; w_val : R; w_r : Z; w_c : Z; w_dim : Z }.

(** No index of the request is negative, and a linear inequality is asked about
    an existing variable. *)
Definition in_range (o : cdata) (w : write) : Prop :=
  (0 <= w_r w)%Z /\ (0 <= w_c w)%Z /\ (0 <= w_dim w)%Z /\
  (forall v, w_var w = Some v -> (0 <= v)%Z /\
     match o with CLinear m _ _ => (v < Z.of_nat m)%Z | _ => True end).

(** The place a (non-negative) request names. *)
Definition named (w : write) : place :=
  mkPlace (option_map Z.to_nat (w_var w)) (Z.to_nat (w_r w)) (Z.to_nat (w_c w)) (Z.to_nat (w_dim w)).

(** The request is acceptable: the place exists, and an imaginary component of a
    diagonal entry is only set to zero. *)
Definition acceptable (o : cdata) (w : write) : Prop :=
  has_place o (named w) /\
  match o with
  | CHerm _ _ _ _ => w_r w = w_c w -> w_dim w <> 0%Z -> w_val w = 0%R
  | _ => True
  end.

Definition same_var (a b : option nat) : bool :=
  match a, b with
  | Some x, Some y => x =? y
  | None, None => true
  | _, _ => false
  end.

(** What an accepted request assigns to a place: the value at the named place,
    and in a Hermitian matrix the conjugate at the mirrored place. *)
Definition assigns (o : cdata) (w : write) (q : place) : option R :=
  let p := named w in
  if same_var (pl_var p) (pl_var q) && (pl_dim p =? pl_dim q) then
    match o with
    | CHerm _ _ _ _ =>
        if (pl_r p =? pl_c q) && (pl_c p =? pl_r q) then
          Some (if pl_dim p =? 0 then w_val w else (- w_val w)%R)
        else if (pl_r p =? pl_r q) && (pl_c p =? pl_c q) then Some (w_val w) else None
    | _ => if (pl_r p =? pl_r q) && (pl_c p =? pl_c q) then Some (w_val w) else None
    end
  else None.

(** Sending a request, and a sequence of requests, to a constraint. *)
Definition send (o : cdata) (w : write) : res (cdata * Z) :=
  match w_var w with
  | Some v => UpdateLinearOperator o (w_val w) v (w_r w) (w_c w) (w_dim w)
  | None => UpdateAffineTerm o (w_val w) (w_r w) (w_c w) (w_dim w)
  end.
Fixpoint send_all (o : cdata) (l : list write) : res (cdata * list Z) :=
  match l with
  | [] => Ok (o, [])
  | w :: t => '(o1, s) <- send o w ;; '(o2, ss) <- send_all o1 t ;; Ok (o2, s :: ss)
  end.

(** The last value accepted for a place, starting from [x]; the requests come
    with the returned statuses. *)
Definition last_accepted (o : cdata) (q : place) (l : list (write * Z)) (x : R) : R :=
  fold_left (fun acc ws => if (snd ws =? 0)%Z
                           then match assigns o (fst ws) q with Some y => y | None => acc end
                           else acc) l x.

(** Every component of every stored matrix of a Hermitian constraint is
    symmetric (component 0) or skew-symmetric (the others). *)
Definition hermitian (o : cdata) : Prop :=
  match o with
  | CHerm h rk _ _ =>
      forall v r c d, r < rk -> c < rk -> d < h ->
        value_at o (mkPlace v c r d) =
        if d =? 0 then value_at o (mkPlace v r c d) else (- value_at o (mkPlace v r c d))%R
  | _ => True
  end.

(** Data of consistent dimensions. *)
Definition well_sized (o : cdata) : Prop :=
  match o with
  | CLinear m A b => (forall row, In row A -> length row = m) /\ length b = length A
  | CSoc n A c => (forall col, In col A -> length col = n + 1) /\ (c = [] \/ length c = n + 1)
  | CHerm h rk As C =>
      (forall M, In M As \/ (M = C /\ C <> []) ->
         length M = h /\ forall X, In X M -> length X = rk /\ forall row, In row X -> length row = rk)
  | CQuad Q => forall row, In row Q -> length row = length Q
  | _ => True
  end.

(** ** Edit calls *)

(** The guarded calls whose arguments are in order for the program [p]. *)
Definition well_formed (p : program) (k : call) : Prop :=
  match k with
  | ASetNumberOfVariables n => (1 <= n)%Z /\ p_n p = 0
  | ANewLMI order hdim null_id =>
      (1 <= order)%Z /\ null_id = false /\ (hdim = 1 \/ hdim = 2 \/ hdim = 4 \/ (hdim = 8 /\ order <= 3))%Z
  | ANewLinearInequality _ null_id | ANewQuadraticCost null_id => null_id = false
  | AAddQuadraticCost cols A =>
      length A <= cols /\ length A <= p_n p
  | ANewLorentzCone order null_id => (1 <= order)%Z /\ null_id = false
  | AUpdateLinearOperator i val v r c d =>
      exists j ct, i = Z.of_nat j /\ nth_error (p_eqs p) j = Some ct /\
        let w := mkWrite (Some v) val r c d in
        well_sized (ct_data ct) /\ in_range (ct_data ct) w /\ acceptable (ct_data ct) w
  | AUpdateAffineTerm i val r c d =>
      exists j ct, i = Z.of_nat j /\ nth_error (p_eqs p) j = Some ct /\
        let w := mkWrite None val r c d in
        well_sized (ct_data ct) /\ in_range (ct_data ct) w /\ acceptable (ct_data ct) w
  | AUpdateQuadraticCostMatrix i val r c =>
      exists j ct, i = Z.of_nat j /\ nth_error (p_eqs p) j = Some ct /\
        let w := mkWrite None val r c 0%Z in
        well_sized (ct_data ct) /\ in_range (ct_data ct) w /\ acceptable (ct_data ct) w
  | _ => False
  end.
