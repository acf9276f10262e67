(** * Model of core/src/types.rs (and the encoding interface it uses) *)
From Coq Require Import List Bool Arith Lia ZArith.
From Verif Require Import Base.
Import ListNotations.

(** ** Non-dominated points and the Pareto front *)

(** types.rs 141-148 [NonDomPoint]; [S] is the solution type. *)
Record nd_point (S : Type) := mkNd { nd_costs : list Z; nd_sols : list S }.
Arguments mkNd {S}. Arguments nd_costs {S}. Arguments nd_sols {S}.

(** types.rs 155-161 [NonDomPoint::new] *)
Definition nd_new {S} (costs : list Z) : nd_point S := mkNd costs [].
(** types.rs 164-166 [NonDomPoint::add_sol] *)
Definition nd_add_sol {S} (p : nd_point S) (s : S) : nd_point S :=
  mkNd (nd_costs p) (nd_sols p ++ [s]).
(** types.rs 169-171 [NonDomPoint::n_sols] *)
Definition nd_n_sols {S} (p : nd_point S) : nat := length (nd_sols p).
(** types.rs 174-183 [NonDomPoint::convert_solutions].  The Rust closure is [FnMut]; it is
    modelled as a pure function (all callers pass stateless closures). *)
Definition nd_convert {S T} (conv : S -> T) (p : nd_point S) : nd_point T :=
  mkNd (nd_costs p) (map conv (nd_sols p)).

(** types.rs 19-25 [ParetoFront] *)
Definition front (S : Type) := list (nd_point S).
(** types.rs 32-44 [ParetoFront::convert_solutions] *)
Definition front_convert {S T} (conv : S -> T) (f : front S) : front T :=
  map (nd_convert conv) f.
(** types.rs 95-136 [Extend for ParetoFront] with the non-default feature
    [check-non-dominance] off: plain append (line 134). *)
Definition front_extend {S} (f : front S) (ps : list (nd_point S)) : front S := f ++ ps.

(** ** Objectives *)

(** [RsHashMap<K, V>] as an association list with distinct keys.  Insertion overwrites the
    value of an existing key (and keeps its position; iteration order of the Rust map is
    unspecified, no theorem depends on it). *)
Fixpoint hm_insert {V} (k : lit) (v : V) (m : list (lit * V)) : list (lit * V) :=
  match m with
  | [] => [(k, v)]
  | (k', v') :: r => if lit_eqb k k' then (k, v) :: r else (k', v') :: hm_insert k v r
  end.
(** [collect::<RsHashMap<_, _>>()]: inserts in order, the last duplicate wins. *)
Definition hm_collect {V} (kvs : list (lit * V)) : list (lit * V) :=
  fold_left (fun m kv => hm_insert (fst kv) (snd kv) m) kvs [].

(** types.rs 224-246 [Objective].  [reform_id] (proof logging only) is not modelled. *)
Inductive objective :=
| OWeighted (offset : Z) (lits : list (lit * nat)) (idx lower_bound : nat)
| OUnweighted (offset : Z) (unit_weight : nat) (lits : list lit) (idx lower_bound : nat)
| OConstant (offset : Z) (idx lower_bound : nat).

(** types.rs 250-287 [Objective::new] *)
Definition obj_new (lits : list (lit * nat)) (offset : Z) (idx : nat) : objective :=
  match lits with
  | [] => OConstant offset idx 0
  | (_, unit_weight) :: _ =>
      let weighted := existsb (fun lw => negb (Nat.eqb (snd lw) unit_weight)) lits in
      if weighted then OWeighted offset (hm_collect lits) idx 0
      else OUnweighted offset unit_weight (map fst lits) idx 0
  end.

(** types.rs 290-296 [Objective::offset] *)
Definition obj_offset (o : objective) : Z :=
  match o with
  | OWeighted off _ _ _ => off | OUnweighted off _ _ _ _ => off | OConstant off _ _ => off
  end.
(** types.rs 299-304 [Objective::unit_weight] *)
Definition obj_unit_weight (o : objective) : nat :=
  match o with OUnweighted _ uw _ _ _ => uw | _ => 1 end.
(** types.rs 307-313 [Objective::iter], 370-386 [ObjIter]: note that unweighted objectives
    yield weight 1 for every literal. *)
Definition obj_iter (o : objective) : list (lit * nat) :=
  match o with
  | OWeighted _ lits _ _ => lits
  | OUnweighted _ _ lits _ _ => map (fun l => (l, 1)) lits
  | OConstant _ _ _ => []
  end.
(** types.rs 316-322 [Objective::n_lits] *)
Definition obj_n_lits (o : objective) : nat := length (obj_iter o).
(** types.rs 325-331 [Objective::idx] *)
Definition obj_idx (o : objective) : nat :=
  match o with
  | OWeighted _ _ i _ => i | OUnweighted _ _ _ i _ => i | OConstant _ i _ => i
  end.
(** types.rs 343-349 [Objective::set_lower_bound] *)
Definition obj_set_lb (lb : nat) (o : objective) : objective :=
  match o with
  | OWeighted off ls i _ => OWeighted off ls i lb
  | OUnweighted off uw ls i _ => OUnweighted off uw ls i lb
  | OConstant off i _ => OConstant off i lb
  end.
(** types.rs 352-358 [Objective::lower_bound] *)
Definition obj_lb (o : objective) : nat :=
  match o with
  | OWeighted _ _ _ lb => lb | OUnweighted _ _ _ _ lb => lb | OConstant _ _ lb => lb
  end.
Definition obj_is_constant (o : objective) : bool :=
  match o with OConstant _ _ _ => true | _ => false end.

(** ** Interface of the rustsat cardinality / pseudo-Boolean encodings

    [GeneralizedTotalizer] ([PBE]) and [Totalizer] ([CE]) are external.  [enc_impl] lists
    the operations scuttle calls; their assumed laws are in [EncSpec.v].  Variables are
    handed out by a counter (the variable manager's next variable).  Memory errors of the
    encodings are not modelled. *)
Record enc_impl := mkEncImpl {
  ei_t : Type;
  (** [PBE::from_iter] over weighted literals *)
  ei_from_wlits : list (lit * nat) -> ei_t;
  (** [CE::from_iter] over literals *)
  ei_from_lits : list lit -> ei_t;
  (** [reserve]: reserve all output variables; returns the new next variable *)
  ei_reserve : ei_t -> nat -> ei_t * nat;
  (** [encode_ub_change(lo..hi)] with the given next variable: new encoding, new clauses,
      new next variable *)
  ei_encode_ub : ei_t -> nat -> nat -> nat -> ei_t * list clause * nat;
  (** [enforce_ub]: [None] is [Err] *)
  ei_enforce_ub : ei_t -> nat -> option (list lit);
  (** [next_higher] *)
  ei_next_higher : ei_t -> nat -> nat
}.

(** ** Objective encodings *)

(** types.rs 390-394 [ObjEncoding] *)
Inductive obj_enc (I : enc_impl) :=
| EWeighted (e : ei_t I) (offset : nat)
| EUnweighted (e : ei_t I) (offset : nat)
| EConstant.
Arguments EWeighted {I}. Arguments EUnweighted {I}. Arguments EConstant {I}.

Section ObjEnc.
  Context {I : enc_impl}.

  (** types.rs 401-411 [ObjEncoding::new_weighted] *)
  Definition oe_new_weighted (lits : list (lit * nat)) (reserve : bool) (next : nat)
    : obj_enc I * nat :=
    let e := ei_from_wlits I lits in
    if reserve then let '(e', n) := ei_reserve I e next in (EWeighted e' 0, n)
    else (EWeighted e 0, next).

  (** types.rs 419-429 [ObjEncoding::new_unweighted] *)
  Definition oe_new_unweighted (lits : list lit) (reserve : bool) (next : nat)
    : obj_enc I * nat :=
    let e := ei_from_lits I lits in
    if reserve then let '(e', n) := ei_reserve I e next in (EUnweighted e' 0, n)
    else (EUnweighted e 0, next).

  (** types.rs 434-440 [ObjEncoding::offset] *)
  Definition oe_offset (oe : obj_enc I) : nat :=
    match oe with EWeighted _ off => off | EUnweighted _ off => off | EConstant => 0 end.

  (** types.rs 449-455 [ObjEncoding::next_higher]; [None] is the panic of the
      subtraction [val - offset]. *)
  Definition oe_next_higher (oe : obj_enc I) (val : nat) : option nat :=
    match oe with
    | EWeighted e off =>
        if val <? off then None else Some (ei_next_higher I e (val - off) + off)
    | EUnweighted _ _ => Some (val + 1)
    | EConstant => Some val
    end.

  (** types.rs 458-496 [ObjEncoding::encode_ub_change]: bounds are shifted by the offset and
      clamped at 0 (truncated subtraction on [nat]). *)
  Definition oe_encode_ub (oe : obj_enc I) (lo hi next : nat)
    : obj_enc I * list clause * nat :=
    match oe with
    | EWeighted e off =>
        let '(e', cls, n) := ei_encode_ub I e (lo - off) (hi - off) next in
        (EWeighted e' off, cls, n)
    | EUnweighted e off =>
        let '(e', cls, n) := ei_encode_ub I e (lo - off) (hi - off) next in
        (EUnweighted e' off, cls, n)
    | EConstant => (EConstant, [], next)
    end.

  (** types.rs 499-517 [ObjEncoding::enforce_ub] *)
  Definition oe_enforce_ub (oe : obj_enc I) (ub : nat) : option (list lit) :=
    match oe with
    | EWeighted e off => if off <=? ub then ei_enforce_ub I e (ub - off) else None
    | EUnweighted e off => if off <=? ub then ei_enforce_ub I e (ub - off) else None
    | EConstant => Some []
    end.
End ObjEnc.

(** ** Variable manager *)

(** types.rs 645-649 [VarManager] *)
Record var_manager := mkVm { vm_next : nat; vm_max_orig : nat; vm_max_enc : nat }.

(** types.rs 662-669 [VarManager::new]; [None] is the assertion failure *)
Definition vm_new (max_orig max_enc : nat) : option var_manager :=
  if max_orig <=? max_enc then Some (mkVm (S max_enc) max_orig max_enc) else None.
(** types.rs 671-674 [mark_max_orig_var]; [None] is the underflow of [next_var - 1] *)
Definition vm_mark_max_orig (vm : var_manager) : option var_manager :=
  match vm_next vm with
  | 0 => None
  | S n => Some (mkVm (vm_next vm) n (Nat.max (vm_max_enc vm) n))
  end.
(** types.rs 676-678 [mark_max_enc_var] *)
Definition vm_mark_max_enc (vm : var_manager) : option var_manager :=
  match vm_next vm with
  | 0 => None
  | S n => Some (mkVm (vm_next vm) (vm_max_orig vm) n)
  end.
(** types.rs 689-697 [Default for VarManager] *)
Definition vm_default : var_manager := mkVm 0 0 0.
(** types.rs 700-704 [new_var] *)
Definition vm_new_var (vm : var_manager) : nat * var_manager :=
  (vm_next vm, mkVm (S (vm_next vm)) (vm_max_orig vm) (vm_max_enc vm)).
(** types.rs 706-712 [max_var] *)
Definition vm_max_var (vm : var_manager) : option nat :=
  match vm_next vm with 0 => None | S n => Some n end.
(** types.rs 714-720 [increase_next_free] *)
Definition vm_increase (vm : var_manager) (v : nat) : bool * var_manager :=
  if vm_next vm <? v then (true, mkVm v (vm_max_orig vm) (vm_max_enc vm)) else (false, vm).
(** types.rs 722-726 [combine] *)
Definition vm_combine (vm other : var_manager) : var_manager :=
  if vm_next vm <? vm_next other
  then mkVm (vm_next other) (vm_max_orig vm) (vm_max_enc vm) else vm.
(** types.rs 728-730 [n_used] *)
Definition vm_n_used (vm : var_manager) : nat := vm_next vm.
(** types.rs 732-734 [forget_from] *)
Definition vm_forget_from (vm : var_manager) (v : nat) : var_manager :=
  mkVm (Nat.min (vm_next vm) v) (vm_max_orig vm) (vm_max_enc vm).
Definition vm_set_next (vm : var_manager) (n : nat) : var_manager :=
  mkVm n (vm_max_orig vm) (vm_max_enc vm).
