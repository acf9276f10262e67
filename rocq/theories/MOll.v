(** * Model of core-guided search and core boosting

    core/src/algs/coreguided.rs, core/src/algs/coreboosting.rs and the [CoreBoost]
    implementations of the three algorithms, without proof logging and without MaxPre.
    The feature [limit-conflicts] is on (default). *)
From Coq Require Import List Bool Arith Lia ZArith.
From Verif Require Import Base MTypes MKernel.
Import ListNotations.

(** ** Interface of rustsat's totalizer database

    [rustsat::encodings::totdb::Db] is external.  [con] models [NodeCon], a connection to a
    node that skips the first [cn_off] values of the node, keeps at most [cn_limit] further
    ones and multiplies the rest; [tot_impl] lists the operations scuttle calls.  Variables
    are handed out by a counter, as for [enc_impl]; memory errors are not modelled. *)
Record con := mkCon { cn_id : nat; cn_off : nat; cn_mult : nat; cn_limit : option nat }.
(** [NodeCon::full], [single], [offset_weighted], [weighted] *)
Definition con_full (id : nat) : con := mkCon id 0 1 None.
Definition con_single (id output weight : nat) : con := mkCon id (output - 1) weight (Some 1).
Definition con_offset_weighted (id off weight : nat) : con := mkCon id off weight None.
Definition con_weighted (id weight : nat) : con := mkCon id 0 weight None.

(** The variants of [totdb::Node] *)
Inductive nkind := KLeaf | KUnit | KGeneral.

Record tot_impl (I : enc_impl) := mkTotImpl {
  ti_db : Type;
  (** [Db::default] *)
  ti_new : ti_db;
  (** [insert(Node::Leaf(lit))] *)
  ti_leaf : ti_db -> lit -> ti_db * nat;
  (** [merge] *)
  ti_merge : ti_db -> list con -> ti_db * con;
  (** [db[id].len()] *)
  ti_len : ti_db -> nat -> nat;
  (** [define_unweighted(id, oidx, Semantics::If, ..)] with the next free variable: the
      literal that is implied by "more than [oidx] inputs are true" *)
  ti_define : ti_db -> nat -> nat -> nat -> ti_db * lit * list clause * nat;
  (** [db[id].reserve_vars(from..)] *)
  ti_reserve : ti_db -> nat -> nat -> nat -> ti_db * nat;
  (** [reset_vars] *)
  ti_reset : ti_db -> ti_db;
  (** [merge_thorough] *)
  ti_merge_thorough : ti_db -> list con -> ti_db * con;
  (** the variant of [db[id]] *)
  ti_kind : ti_db -> nat -> nkind;
  (** [Totalizer::from_raw(id, offset, db)] *)
  ti_tot : ti_db -> nat -> nat -> ei_t I;
  (** [GeneralizedTotalizer::from_raw(root, db, max_leaf_weight)] *)
  ti_gte : ti_db -> con -> nat -> ei_t I }.
Arguments ti_db {I}. Arguments ti_new {I}. Arguments ti_leaf {I}. Arguments ti_merge {I}.
Arguments ti_len {I}. Arguments ti_define {I}. Arguments ti_reserve {I}. Arguments ti_reset {I}.
Arguments ti_merge_thorough {I}. Arguments ti_kind {I}. Arguments ti_tot {I}. Arguments ti_gte {I}.

(** ** Hash maps with literal keys (see [hm_insert]) *)
Fixpoint hm_get {V} (k : lit) (m : list (lit * V)) : option V :=
  match m with
  | [] => None
  | (k', v) :: r => if lit_eqb k k' then Some v else hm_get k r
  end.
Definition hm_remove {V} (k : lit) (m : list (lit * V)) : list (lit * V) :=
  filter (fun kv => negb (lit_eqb k (fst kv))) m.

(** [usize::MAX]; a function so that it is not evaluated where it is not used *)
Definition usize_max_z : Z := (2 ^ 64 - 1)%Z.
Definition usize_max (_ : unit) : nat := Z.to_nat usize_max_z.
Global Opaque usize_max.
(** Addition on [usize]; [None] is the overflow panic *)
Definition usize_add (a b : nat) : option nat :=
  if (Z.of_nat a + Z.of_nat b <=? usize_max_z)%Z then Some (a + b) else None.

(** ** Reformulations *)

(** coreguided.rs 36-44 [Inactives] *)
Inductive inactives :=
| IWeighted (m : list (lit * nat))
| IUnweighted (lits active : list lit)
| IConstant.

(** coreguided.rs 28-34 [ReformData], without the proof id *)
Record reform_data := mkRd { rd_root : nat; rd_oidx : nat; rd_weight : nat }.

(** coreguided.rs 186-195 [OllReformulation], without the proof id *)
Record reform := mkRef {
  rf_inact : inactives;
  rf_refs : list (lit * reform_data);
  rf_offset : nat }.

(** coreguided.rs 47-49 [iter], 153-184 [InactIter]: literals that turned active are still
    in the list of the unweighted variant until the next [cleanup] *)
Definition in_iter (i : inactives) : list (lit * nat) :=
  match i with
  | IWeighted m => m
  | IUnweighted lits _ => map (fun l => (l, 1)) lits
  | IConstant => []
  end.
(** coreguided.rs 51-53 [assumps] *)
Definition in_assumps (i : inactives) : list lit := map (fun lw => lnot (fst lw)) (in_iter i).
(** coreguided.rs 83-92 [cleanup] *)
Definition in_cleanup (i : inactives) : inactives :=
  match i with
  | IWeighted m => IWeighted (filter (fun lw => 0 <? snd lw) m)
  | IUnweighted lits active =>
      IUnweighted (filter (fun l => negb (existsb (lit_eqb l) active)) lits) []
  | IConstant => IConstant
  end.
(** coreguided.rs 71-81 [final_cleanup] *)
Definition in_final_cleanup (i : inactives) : inactives :=
  match in_cleanup i with
  | IWeighted [] => IConstant
  | IUnweighted [] _ => IConstant
  | j => j
  end.
(** coreguided.rs 94-105 [insert]; [None] is a panic (debug build) *)
Definition in_insert (i : inactives) (l : lit) (w : nat) : option inactives :=
  match i with
  | IWeighted m => Some (IWeighted (hm_insert l w m))
  | IUnweighted lits active =>
      if w =? 1 then Some (IUnweighted (lits ++ [l]) active) else None
  | IConstant => None
  end.
(** coreguided.rs 107-124 [relax]: new inactives and remaining weight; [None] is a panic *)
Definition in_relax (i : inactives) (l : lit) (cw : nat) : option (inactives * nat) :=
  match i with
  | IWeighted m =>
      match hm_get l m with
      | Some w => if w <? cw then None else Some (IWeighted (hm_insert l (w - cw) m), w - cw)
      | None => None
      end
  | IUnweighted lits active =>
      if cw =? 1 then Some (IUnweighted lits (l :: active), 0) else None
  | IConstant => None
  end.

(** coreguided.rs 197-217 [From<&Objective> for OllReformulation] *)
Definition reform_of (o : objective) : reform :=
  mkRef (match o with
         | OWeighted _ lits _ _ => IWeighted lits
         | OUnweighted _ _ lits _ _ => IUnweighted lits []
         | OConstant _ _ _ => IConstant
         end) [] 0.

(** coreguided.rs 273-283: assumptions sorted by descending weight, without those that
    turned active.  Ties keep their order ([sort_unstable] leaves it open).  [None] is the
    panic of the map index. *)
Fixpoint with_weights (m : list (lit * nat)) (assumps : list lit) : option (list (lit * nat)) :=
  match assumps with
  | [] => Some []
  | a :: r =>
      match hm_get (lnot a) m, with_weights m r with
      | Some w, Some r' => Some ((a, w) :: r')
      | _, _ => None
      end
  end.
Fixpoint insert_desc (x : lit * nat) (l : list (lit * nat)) : list (lit * nat) :=
  match l with
  | [] => [x]
  | y :: r => if snd y <=? snd x then x :: l else y :: insert_desc x r
  end.
Definition sort_desc (l : list (lit * nat)) : list (lit * nat) := fold_right insert_desc [] l.
(** popping elements with weight 0 off the end *)
Fixpoint pop_zeros (l : list (lit * nat)) : list (lit * nat) :=
  match l with
  | [] => []
  | x :: r => match pop_zeros r with [] => if snd x =? 0 then [] else [x] | r' => x :: r' end
  end.
(** coreguided.rs 271-291: preparation of the assumptions at the start of an iteration *)
Definition prep_assumps (i : inactives) (assumps : list lit)
  : option (inactives * list lit) :=
  match i with
  | IWeighted m =>
      match with_weights m assumps with
      | Some ws => Some (i, map fst (pop_zeros (sort_desc ws)))
      | None => None
      end
  | IUnweighted _ _ => let j := in_cleanup i in Some (j, in_assumps j)
  | IConstant => None
  end.

(** coreguided.rs 445-451: weight of a core *)
Fixpoint min_weights (m : list (lit * nat)) (core : list lit) : option nat :=
  match core with
  | [] => Some (usize_max tt)
  | [l] => hm_get l m
  | l :: r =>
      match hm_get l m, min_weights m r with
      | Some w, Some w' => Some (Nat.min w w')
      | _, _ => None
      end
  end.
Definition core_weight (i : inactives) (core : list lit) : option nat :=
  match i with
  | IWeighted m => min_weights m core
  | IUnweighted _ _ => Some 1
  | IConstant => None
  end.

(** coreguided.rs 219-224 [CoreData], without the proof id *)
Record core_data := mkCd { cd_idx : nat; cd_len : nat; cd_weight : nat }.

Section Oll.
  Context {I : enc_impl} (T : tot_impl I).
  Variable E : environ.
  Notation M := (M I).
  Notation st := (st I).
  Notation db := (ti_db T).

  (** [for x in l { .. }] with local state *)
  Fixpoint foldM {A B} (f : B -> A -> M B) (l : list A) (b : B) : M B :=
    match l with
    | [] => ret b
    | a :: r => b' <- f b a ;; foldM f r b'
    end.

  (** algs.rs 965-972 [solve_assumps] while a conflict limit is set *)
  Definition k_solve_limited (assumps : list lit) : M sres :=
    log_start E RtOracleCall ;;;
    r <- oracle_solve E true assumps ;;
    log_end E ;;;
    check_termination E ;;;
    log_oracle_call E r ;;;
    ret r.

  (** coreguided.rs 785-823 [build_output] *)
  Definition build_output (d : db) (root oidx : nat) : M (db * lit) :=
    next <- gets (fun s => vm_next (p_vm (s_prob s))) ;;
    let '(d', l, cls, next') := ti_define T d root oidx next in
    modify (fun s => set_prob (set_vm (vm_set_next (p_vm (s_prob s)) next') (s_prob s)) s) ;;;
    add_clauses cls ;;;
    ret (d', l).

  (** coreguided.rs 601-633: the loop of [exhaust_core]; [n] is the number of bounds left *)
  Fixpoint exhaust_loop (n : nat) (d : db) (root bound : nat) (olit : lit)
    : M (db * lit * nat) :=
    match n with
    | 0 => ret (d, olit, bound)
    | S n' =>
        x <- build_output d root bound ;;
        let '(d', olit') := x in
        r <- k_solve_limited [lnot olit'] ;;
        match r with
        | RUnsat => exhaust_loop n' d' root (S bound) olit'
        | _ => ret (d', olit', bound)
        end
    end.

  (** coreguided.rs 564-656 [exhaust_core], without base assumptions *)
  Definition exhaust_core (d : db) (root : nat) : M (db * lit * nat) :=
    o <- gets s_opts ;;
    if negb (o_core_exhaustion o) then
      x <- build_output d root 1 ;;
      ret (fst x, snd x, 1)
    else
      log_start E RtCoreExhaustion ;;;
      let core_len := ti_len T d root in
      guard (1 <? core_len) ;;;
      x <- exhaust_loop (core_len - 1) d root 1 (pos 0) ;;
      log_end E ;;;
      ret x.

  (** coreguided.rs 683-718: one iteration of the loop of [minimize_core] *)
  Definition minimize_step (core : list lit) (drop : lit) : M (list lit) :=
    r <- k_solve_limited
           (flat_map (fun l => if lit_eqb l drop then [] else [lnot l]) core) ;;
    match r with
    | RUnsat => oracle_core
    | _ => ret core
    end.

  (** coreguided.rs 658-725 [minimize_core] *)
  Definition minimize_core (core : list lit) : M (list lit) :=
    o <- gets s_opts ;;
    if negb (o_core_minimization o) then ret core
    else if length core <=? 1 then ret core
    else
      log_start E RtCoreMinimization ;;;
      core' <- foldM minimize_step (rev core) core ;;
      log_end E ;;;
      ret core'.

  (** coreguided.rs 746-778: one iteration of the loop of [trim_core] *)
  Definition trim_body (core : list lit) : M (list lit + list lit) :=
    if length core <=? 1 then ret (inr core)
    else
      r <- k_solve_assumps E (map lnot core) ;;
      guard (match r with RUnsat => true | _ => false end) ;;;
      core' <- oracle_core ;;
      if length core' =? length core then ret (inr core') else ret (inl core').

  (** coreguided.rs 727-783 [trim_core] *)
  Definition trim_core (core : list lit) : M (list lit) :=
    o <- gets s_opts ;;
    if negb (o_core_trimming o) then ret core
    else if length core <=? 1 then ret core
    else
      log_start E RtCoreTrimming ;;;
      core' <- loop (ev_fuel E) trim_body core ;;
      log_end E ;;;
      ret core'.

  (** Local variables of [oll]: reformulation, totalizers, assumptions, cores that are not
      reformulated yet and their connections *)
  Record oll_st := mkOll {
    ol_ref : reform; ol_db : db; ol_assumps : list lit;
    ol_cores : list core_data; ol_cons : list con }.

  (** coreguided.rs 371-405: reformulation of one core *)
  Definition reform_core (cs : list con) (x : reform * db * list lit) (cd : core_data)
    : M (reform * db * list lit) :=
    let '(rf, d, assumps) := x in
    let '(d1, c) := ti_merge T d (firstn (cd_len cd) (skipn (cd_idx cd) cs)) in
    guard (cn_off c =? 0) ;;;
    guard (cn_mult c =? 1) ;;;
    let root := cn_id c in
    y <- exhaust_core d1 root ;;
    let '(d2, olit, oidx) := y in
    off <- (if 1 <? oidx then
              off <- unwrap (usize_add (rf_offset rf) ((oidx - 1) * cd_weight cd)) ;;
              emit E (EvExhaustion oidx (cd_weight cd)) ;;;
              ret off
            else ret (rf_offset rf)) ;;
    if oidx <? ti_len T d2 root then
      i <- unwrap (in_insert (rf_inact rf) olit (cd_weight cd)) ;;
      ret (mkRef i (hm_insert olit (mkRd root oidx (cd_weight cd)) (rf_refs rf)) off,
           d2, assumps ++ [lnot olit])
    else ret (mkRef (rf_inact rf) (rf_refs rf) off, d2, assumps).

  (** coreguided.rs 459-533: one literal of a core; also collects the connections *)
  Definition relax_lit (cw : nat) (x : reform * db * list lit * list con) (olit : lit)
    : M (reform * db * list lit * list con) :=
    let '(rf, d, assumps, cs) := x in
    y <- unwrap (in_relax (rf_inact rf) olit cw) ;;
    let '(i, w) := y in
    match hm_get olit (rf_refs rf) with
    | Some (mkRd root oidx tw) =>
        let cs' := cs ++ [con_single root (oidx + 1) 1] in
        if 0 <? w then ret (mkRef i (rf_refs rf) (rf_offset rf), d, assumps, cs')
        else
          let refs := hm_remove olit (rf_refs rf) in
          if ti_len T d root <=? oidx + 1 then
            ret (mkRef i refs (rf_offset rf), d, assumps, cs')
          else
            z <- build_output d root (oidx + 1) ;;
            let '(d', olit') := z in
            i' <- unwrap (in_insert i olit' tw) ;;
            ret (mkRef i' (hm_insert olit' (mkRd root (oidx + 1) tw) refs) (rf_offset rf),
                 d', assumps ++ [lnot olit'], cs')
    | None =>
        let '(d', id) := ti_leaf T d olit in
        ret (mkRef i (rf_refs rf) (rf_offset rf), d', assumps, cs ++ [con_full id])
    end.

  (** coreguided.rs 302-311: reserve the remaining outputs of all reformulated cores *)
  Definition reserve_outputs (refs : list (lit * reform_data)) (d : db) (next : nat)
    : db * nat :=
    fold_left (fun x lr => ti_reserve T (fst x) (rd_root (snd lr)) (rd_oidx (snd lr) + 1) (snd x))
              refs (d, next).

  (** coreguided.rs 409-560: the unsatisfiable case *)
  Definition oll_unsat (x : oll_st)
    : M (oll_st + (reform * db * option assignment)) :=
    let '(mkOll rf d assumps cores cs) := x in
    core <- oracle_core ;;
    match core with
    | [] => log_end E ;;; ret (inr (rf, d, None))
    | _ =>
        let orig_len := length core in
        core <- minimize_core core ;;
        core <- trim_core core ;;
        cw <- unwrap (core_weight (rf_inact rf) core) ;;
        off <- unwrap (usize_add (rf_offset rf) cw) ;;
        emit E (EvCore cw orig_len (length core)) ;;;
        y <- foldM (relax_lit cw) core
               (mkRef (rf_inact rf) (rf_refs rf) off, d, assumps, []) ;;
        let '(rf', d', assumps', ncs) := y in
        guard (length core =? length ncs) ;;;
        if 1 <? length ncs then
          ret (inl (mkOll rf' d' assumps'
                 (cores ++ [mkCd (length cs) (length ncs) cw]) (cs ++ ncs)))
        else ret (inl (mkOll rf' d' assumps' cores cs))
    end.

  (** coreguided.rs 296-407: the satisfiable case *)
  Definition oll_sat (x : oll_st)
    : M (oll_st + (reform * db * option assignment)) :=
    let '(mkOll rf d assumps cores cs) := x in
    match cores with
    | [] =>
        sol <- oracle_solution ;;
        let rf' := mkRef (in_final_cleanup (rf_inact rf)) (rf_refs rf) (rf_offset rf) in
        next <- gets (fun s => vm_next (p_vm (s_prob s))) ;;
        let '(d', next') := reserve_outputs (rf_refs rf) d next in
        modify (fun s => set_prob (set_vm (vm_set_next (p_vm (s_prob s)) next') (s_prob s)) s) ;;;
        log_end E ;;;
        ret (inr (rf', d', Some sol))
    | _ =>
        y <- foldM (reform_core cs) cores (rf, d, assumps) ;;
        let '(rf', d', assumps') := y in
        ret (inl (mkOll rf' d' assumps' [] []))
    end.

  (** coreguided.rs 270-561: one iteration of the main loop *)
  Definition oll_body (x : oll_st)
    : M (oll_st + (reform * db * option assignment)) :=
    let '(mkOll rf d assumps cores cs) := x in
    y <- unwrap (prep_assumps (rf_inact rf) assumps) ;;
    let '(i, assumps) := y in
    let x := mkOll (mkRef i (rf_refs rf) (rf_offset rf)) d assumps cores cs in
    r <- k_solve_assumps E assumps ;;
    match r with
    | RSat => oll_sat x
    | RUnsat => oll_unsat x
    | RInterrupted => throw EPanic
    end.

  (** coreguided.rs 241-562 [oll], without base assumptions and with
      [exact_reformulation] set (the only call, coreboosting.rs 147) *)
  Definition oll (rf : reform) (d : db) : M (reform * db * option assignment) :=
    match rf_inact rf with
    | IConstant =>
        r <- k_solve_assumps E [] ;;
        match r with
        | RSat => sol <- oracle_solution ;; ret (rf, d, Some sol)
        | RUnsat => ret (rf, d, None)
        | RInterrupted => throw EPanic
        end
    | _ =>
        log_start E RtOll ;;;
        loop (ev_fuel E) oll_body (mkOll rf d (in_assumps (rf_inact rf)) [] [])
    end.

  (** ** Core boosting *)

  (** coreboosting.rs 141-216: the loop over the objectives, from index [k] on; [false]
      means unsatisfiable *)
  Fixpoint core_boost_loop (n k : nat) (acc : list (reform * db))
    : M (bool * list (reform * db)) :=
    match n with
    | 0 => ret (true, acc)
    | S n' =>
        ob <- gets (fun s => nth_error (p_objs (s_prob s)) k) ;;
        ob <- unwrap ob ;;
        r <- (if obj_is_constant ob then ret (Some (reform_of ob, ti_new T))
              else
                x <- oll (reform_of ob) (ti_new T) ;;
                match x with
                | (rf, d, Some _) => ret (Some (rf, d))
                | (_, _, None) => ret None
                end) ;;
        match r with
        | None => ret (false, acc)
        | Some (rf, d) =>
            modify (fun s => set_prob
              (set_objs (set_nth k (obj_set_lb (rf_offset rf) ob) (p_objs (s_prob s)))
                        (s_prob s)) s) ;;;
            core_boost_loop n' (S k) (acc ++ [(rf, d)])
        end
    end.

  (** coreboosting.rs 136-225 [Kernel::core_boost] *)
  Definition kernel_core_boost : M (option (list (reform * db))) :=
    log_start E RtCoreBoost ;;;
    n <- gets (fun s => n_objs (s_stats s)) ;;
    r <- core_boost_loop n 0 [] ;;
    log_end E ;;;
    emit E (EvIdeal (map (fun x => rf_offset (fst x)) (snd r))) ;;;
    ret (if fst r then Some (snd r) else None).

  (** options.rs 36-53 [CoreBoostingOptions] *)
  Record cb_opts := mkCb { cb_rebase : bool; cb_reset : bool }.

  (** coreboosting.rs 90-123: the connections for one literal *)
  Definition merge_lit (rebase : bool) (refs : list (lit * reform_data))
    (x : db * list con * nat) (lw : lit * nat) : M (db * list con * nat) :=
    let '(d, cs, mlw) := x in
    let '(l, w) := lw in
    let mlw := Nat.max w mlw in
    match hm_get l refs with
    | Some (mkRd root oidx tw) =>
        guard (negb (w =? 0)) ;;;
        guard (oidx <? ti_len T d root) ;;;
        let mlw := Nat.max tw mlw in
        let len := ti_len T d root in
        let new :=
          if rebase then
            con_single root (oidx + 1) w ::
            map (fun idx => con_single root (idx + 1) tw) (seq (oidx + 1) (len - (oidx + 1)))
          else if tw =? w then [con_offset_weighted root oidx w]
          else con_single root (oidx + 1) w ::
               (if oidx + 1 <? len then [con_offset_weighted root (oidx + 1) tw] else []) in
        ret (d, cs ++ new, mlw)
    | None =>
        let '(d', id) := ti_leaf T d l in
        ret (d', cs ++ [con_weighted id w], mlw)
    end.

  (** coreboosting.rs 49-77 [merge_cons] *)
  Definition merge_cons (d : db) (cs : list con) (offset mlw : nat) : M (obj_enc I) :=
    let '(d', root) := ti_merge_thorough T d cs in
    if cn_mult root =? 1 then
      match ti_kind T d' (cn_id root) with
      | KLeaf | KUnit => ret (EUnweighted (ti_tot T d' (cn_id root) (cn_off root)) offset)
      | KGeneral =>
          guard (cn_off root =? 0) ;;; ret (EWeighted (ti_gte T d' root mlw) offset)
      end
    else ret (EWeighted (ti_gte T d' root mlw) offset).

  (** coreboosting.rs 79-125 [merge] *)
  Definition merge_reform (rf : reform) (d : db) (rebase : bool) : M (obj_enc I) :=
    match rf_inact rf with
    | IConstant => ret EConstant
    | _ =>
        x <- foldM (merge_lit rebase (rf_refs rf)) (in_iter (rf_inact rf)) (d, [], 0) ;;
        let '(d', cs, mlw) := x in
        merge_cons d' cs (rf_offset rf) mlw
    end.

  (** pminimal.rs 379-404, lowerbounding.rs 368-393, bioptsat.rs 310-340: the loop over the
      reformulations, from index [k] on *)
  Fixpoint merge_loop (opts : cb_opts) (k : nat) (rs : list (reform * db)) : M unit :=
    match rs with
    | [] => ret tt
    | (rf, d) :: r =>
        let d := if cb_reset opts then ti_reset T d else d in
        ob <- gets (fun s => nth_error (p_objs (s_prob s)) k) ;;
        ob <- unwrap ob ;;
        (if obj_is_constant ob then ret tt
         else
           e <- merge_reform rf d (cb_rebase opts) ;;
           modify (fun s => set_prob
             (set_encs (set_nth k e (p_encs (s_prob s))) (s_prob s)) s)) ;;;
        check_termination E ;;;
        merge_loop opts (S k) r
    end.

  (** pminimal.rs 353-407, lowerbounding.rs 342-396, bioptsat.rs 282-342
      [CoreBoost::core_boost]: the three implementations do the same *)
  Definition alg_core_boost (opts : cb_opts) : M bool :=
    n <- gets (fun s => n_solve_calls (s_stats s)) ;;
    (if n =? 0 then ret tt else throw (EErr ErrApi)) ;;;
    r <- kernel_core_boost ;;
    match r with
    | None => ret false
    | Some rs =>
        check_termination E ;;;
        (if cb_reset opts then reset_oracle E true ;;; check_termination E else ret tt) ;;;
        log_start E RtMergeEncodings ;;;
        merge_loop opts 0 rs ;;;
        log_end E ;;;
        ret true
    end.
End Oll.
