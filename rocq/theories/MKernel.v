(** * Model of core/src/algs.rs (the solver kernel), core/src/options.rs,
      core/src/termination.rs and core/src/lib.rs

    The code is modelled as a state and exception monad.  Everything the solver does not
    control is in [environ]: the SAT oracle, the termination flag set by other threads,
    and whether calls to the attached logger fail.  Proof logging ([proof_stuff = None]),
    solution tightening, coarse convergence and MaxPre are not modelled (non-default
    features, or proof only). Debug assertions are modelled as in a debug build: a failing
    [debug_assert!] is a panic. *)
From Coq Require Import List Bool Arith Lia ZArith.
From Verif Require Import Base MTypes.
Import ListNotations.

(** ** Options, limits, statistics, terminations *)

(** options.rs 60-69 [EnumOptions] *)
Inductive enum_opts :=
| NoEnum
| Solutions (limit : option nat)
| PMCSs (limit : option nat).

(** options.rs 11-28 [KernelOptions].  [heuristic_improvements] is dropped: it only
    selects solution tightening.  [block_clause_gen] (algs.rs 187) is kept here. *)
Record kopts := mkOpts {
  o_enum : enum_opts;
  o_reserve_enc_vars : bool;
  o_sgs : bool;               (* solution_guided_search *)
  o_core_trimming : bool;
  o_core_minimization : bool;
  o_core_exhaustion : bool;
  o_store_cnf : bool;
  o_bcg : assignment -> clause
}.

(** options.rs 142-152 [Limits] *)
Record limits := mkLims {
  l_pps : option nat; l_sols : option nat;
  l_candidates : option nat; l_oracle_calls : option nat }.
(** options.rs 155-162 [Limits::none] *)
Definition lims_none : limits := mkLims None None None None.

(** lib.rs 67-84 [Stats] *)
Record stats := mkStats {
  n_solve_calls : nat; n_solutions : nat; n_non_dominated : nat; n_candidates : nat;
  n_oracle_calls : nat; n_objs : nat; n_real_objs : nat; n_orig_clauses : nat }.

(** termination.rs 10-21 [Termination] *)
Inductive termination :=
| PPLimit | SolsLimit | CandidatesLimit | OracleCallsLimit | Interrupted.

(** Kinds of [anyhow::Error] the solver can return. *)
Inductive error :=
| ErrLogger   (* the attached logger failed *)
| ErrOracle   (* the SAT oracle returned an error *)
| ErrState    (* solution / core requested in the wrong oracle state *)
| ErrEnc      (* an encoding rejected a bound *)
| ErrApi.     (* API misuse reported by [ensure!] *)

(** Ways a computation can stop without a value.  [ETerm] and [EErr] are
    [MaybeTerminatedError::{Terminated, Error}] (termination.rs 93-100); [EPanic] is a
    panic; [ENoFuel] means the model ran out of loop iterations. *)
Inductive exit :=
| ETerm (t : termination) | EErr (e : error) | EPanic | ENoFuel.

(** termination.rs 93-100 [MaybeTerminatedError] *)
Inductive res (A : Type) := Done (a : A) | Exit (x : exit).
Arguments Done {A}. Arguments Exit {A}.

(** lib.rs 43-52 [Phase] *)
Inductive phase := PhOuterLoop | PhMinimization | PhEnumeration | PhLinsu.

(** Routine names passed to [log_routine_start]. *)
Inductive routine :=
| RtOracleCall | RtYield | RtLinsu | RtPMinimal | RtPMinimization | RtLowerBounding
| RtHarvest | RtBiOptSat | RtResetOracle | RtMergeEncodings | RtCoreBoost | RtOll
| RtCoreExhaustion | RtCoreMinimization | RtCoreTrimming | RtInprocessing.

(** Result of an oracle call, [rustsat::solvers::SolverResult]. *)
Inductive sres := RSat | RUnsat | RInterrupted.

(** lib.rs 100-142 [WriteSolverLog]: the calls made on the attached logger. *)
Inductive event :=
| EvCandidate (cs : list nat) (ph : phase)
| EvOracleCall (r : sres)
| EvSolution
| EvNonDom (p : nd_point assignment)
| EvFence (f : list nat)
| EvStart (r : routine)
| EvEnd
| EvIdeal (c : list nat)
| EvCore (weight len red_len : nat)
| EvExhaustion (exhausted weight : nat)
| EvInpro (cls_before cls_after fixed_lits : nat) (ranges : list (nat * nat)).

(** ** Environment *)

(** A call to the SAT oracle: its index, the number of reads of the termination flag so
    far, whether a conflict limit is set, the clauses added so far and the assumptions. *)
Record query := mkQuery {
  q_call : nat; q_flags : nat; q_limited : bool; q_cls : list clause; q_assumps : list lit }.

(** Answer of the oracle.  A core is a clause over negated assumptions
    ([SolveIncremental::core]). *)
Inductive answer := ASat (m : asg) | AUnsat (core : list lit) | AInterrupted | AErr.

Record environ := mkEnv {
  ev_oracle : query -> answer;
  ev_flag : nat -> bool;      (* value seen by the n-th read of the termination flag *)
  ev_logfail : nat -> bool;   (* does the n-th call to the attached logger fail? *)
  ev_fuel : nat               (* bound on the iterations of each loop *)
}.

(** ** Solver state *)

(** What the last oracle call left behind; adding a clause leaves this state
    ([OIdle] = CaDiCaL's input state). *)
Inductive ora := OIdle | OModel (m : asg) | OCore (core : list lit).

Section State.
  Context {I : enc_impl}.

  (** The part of the state with logical content: clauses in the oracle, the variable
      manager, the objectives and their encodings (algs.rs 171-208,
      pminimal.rs 71-77, lowerbounding.rs 62-72, bioptsat.rs 62-72). *)
  Record prob := mkProb {
    p_cls : list clause;
    p_vm : var_manager;
    p_objs : list objective;
    p_encs : list (obj_enc I) }.

  (** lowerbounding.rs 400-403 [Fence]: bound and assumptions per objective *)
  Definition fence := list (nat * list lit).

  (** algs.rs 171-208 [Kernel] plus the fields of the algorithm structs.
      [s_logger] tells whether a logger is attached; [s_trace] are the calls made to it,
      newest first.  [s_calls] and [s_flags] count oracle calls and flag reads. *)
  Record st := mkSt {
    s_prob : prob;
    s_ora : ora;
    s_front : front assignment;
    s_fence : fence;
    s_cnf : option (list clause);
    s_opts : kopts;
    s_stats : stats;
    s_lims : limits;
    s_logger : bool;
    s_trace : list event;
    s_calls : nat;
    s_flags : nat }.

  (** Setters *)
  Definition set_prob p s := mkSt p (s_ora s) (s_front s) (s_fence s) (s_cnf s) (s_opts s)
    (s_stats s) (s_lims s) (s_logger s) (s_trace s) (s_calls s) (s_flags s).
  Definition set_ora o s := mkSt (s_prob s) o (s_front s) (s_fence s) (s_cnf s) (s_opts s)
    (s_stats s) (s_lims s) (s_logger s) (s_trace s) (s_calls s) (s_flags s).
  Definition set_front f s := mkSt (s_prob s) (s_ora s) f (s_fence s) (s_cnf s) (s_opts s)
    (s_stats s) (s_lims s) (s_logger s) (s_trace s) (s_calls s) (s_flags s).
  Definition set_fence f s := mkSt (s_prob s) (s_ora s) (s_front s) f (s_cnf s) (s_opts s)
    (s_stats s) (s_lims s) (s_logger s) (s_trace s) (s_calls s) (s_flags s).
  Definition set_stats x s := mkSt (s_prob s) (s_ora s) (s_front s) (s_fence s) (s_cnf s)
    (s_opts s) x (s_lims s) (s_logger s) (s_trace s) (s_calls s) (s_flags s).
  Definition set_lims x s := mkSt (s_prob s) (s_ora s) (s_front s) (s_fence s) (s_cnf s)
    (s_opts s) (s_stats s) x (s_logger s) (s_trace s) (s_calls s) (s_flags s).
  Definition set_logger x s := mkSt (s_prob s) (s_ora s) (s_front s) (s_fence s) (s_cnf s)
    (s_opts s) (s_stats s) (s_lims s) x (s_trace s) (s_calls s) (s_flags s).
  Definition set_trace x s := mkSt (s_prob s) (s_ora s) (s_front s) (s_fence s) (s_cnf s)
    (s_opts s) (s_stats s) (s_lims s) (s_logger s) x (s_calls s) (s_flags s).
  Definition set_calls x s := mkSt (s_prob s) (s_ora s) (s_front s) (s_fence s) (s_cnf s)
    (s_opts s) (s_stats s) (s_lims s) (s_logger s) (s_trace s) x (s_flags s).
  Definition set_flags x s := mkSt (s_prob s) (s_ora s) (s_front s) (s_fence s) (s_cnf s)
    (s_opts s) (s_stats s) (s_lims s) (s_logger s) (s_trace s) (s_calls s) x.

  Definition set_cls c p := mkProb c (p_vm p) (p_objs p) (p_encs p).
  Definition set_vm v p := mkProb (p_cls p) v (p_objs p) (p_encs p).
  Definition set_objs o p := mkProb (p_cls p) (p_vm p) o (p_encs p).
  Definition set_encs e p := mkProb (p_cls p) (p_vm p) (p_objs p) e.

  Definition set_n_solve_calls n x := mkStats n (n_solutions x) (n_non_dominated x)
    (n_candidates x) (n_oracle_calls x) (n_objs x) (n_real_objs x) (n_orig_clauses x).
  Definition set_n_solutions n x := mkStats (n_solve_calls x) n (n_non_dominated x)
    (n_candidates x) (n_oracle_calls x) (n_objs x) (n_real_objs x) (n_orig_clauses x).
  Definition set_n_non_dominated n x := mkStats (n_solve_calls x) (n_solutions x) n
    (n_candidates x) (n_oracle_calls x) (n_objs x) (n_real_objs x) (n_orig_clauses x).
  Definition set_n_candidates n x := mkStats (n_solve_calls x) (n_solutions x)
    (n_non_dominated x) n (n_oracle_calls x) (n_objs x) (n_real_objs x) (n_orig_clauses x).
  Definition set_n_oracle_calls n x := mkStats (n_solve_calls x) (n_solutions x)
    (n_non_dominated x) (n_candidates x) n (n_objs x) (n_real_objs x) (n_orig_clauses x).

  Definition set_l_pps n x := mkLims n (l_sols x) (l_candidates x) (l_oracle_calls x).
  Definition set_l_sols n x := mkLims (l_pps x) n (l_candidates x) (l_oracle_calls x).
  Definition set_l_candidates n x := mkLims (l_pps x) (l_sols x) n (l_oracle_calls x).
  Definition set_l_oracle_calls n x := mkLims (l_pps x) (l_sols x) (l_candidates x) n.

  (** ** The monad *)

  Definition M (A : Type) := st -> res A * st.
  Definition ret {A} (a : A) : M A := fun s => (Done a, s).
  Definition throw {A} (x : exit) : M A := fun s => (Exit x, s).
  (** Sequencing with early return: the [?] operator (termination.rs 65-89, 134-184). *)
  Definition bind {A B} (c : M A) (k : A -> M B) : M B := fun s =>
    match c s with
    | (Done a, s') => k a s'
    | (Exit x, s') => (Exit x, s')
    end.
  Definition gets {A} (f : st -> A) : M A := fun s => (Done (f s), s).
  Definition modify (f : st -> st) : M unit := fun s => (Done tt, f s).
  (** A call whose [Terminated]/[Error] outcome is inspected instead of propagated
      (no [?]); panics still propagate. *)
  Definition catch {A} (c : M A) : M (A + exit) := fun s =>
    match c s with
    | (Done a, s') => (Done (inl a), s')
    | (Exit (ETerm t), s') => (Done (inr (ETerm t)), s')
    | (Exit (EErr e), s') => (Done (inr (EErr e)), s')
    | (Exit x, s') => (Exit x, s')
    end.
  Definition rethrow {A} (r : A + exit) : M A :=
    match r with inl a => ret a | inr x => throw x end.
  (** [debug_assert!], [assert!] *)
  Definition guard (b : bool) : M unit := if b then ret tt else throw EPanic.
  (** [Option::unwrap] / [Result::unwrap] *)
  Definition unwrap {A} (o : option A) : M A :=
    match o with Some a => ret a | None => throw EPanic end.
  (** A result propagated with [?], failing with the given error *)
  Definition or_err {A} (e : error) (o : option A) : M A :=
    match o with Some a => ret a | None => throw (EErr e) end.
  (** [loop { .. }]: the body either continues with a new loop state or breaks. *)
  Fixpoint loop {S A} (n : nat) (body : S -> M (S + A)) (x : S) : M A :=
    match n with
    | 0 => throw ENoFuel
    | S n' => bind (body x) (fun r =>
        match r with inl x' => loop n' body x' | inr a => ret a end)
    end.
  (** [iter().map(..).collect::<Result<Vec<_>, _>>()] *)
  Fixpoint mapM {A B} (f : A -> M B) (l : list A) : M (list B) :=
    match l with
    | [] => ret []
    | a :: r => bind (f a) (fun b => bind (mapM f r) (fun bs => ret (b :: bs)))
    end.
  (** [for x in l { .. }] *)
  Fixpoint forM {A} (f : A -> M unit) (l : list A) : M unit :=
    match l with
    | [] => ret tt
    | a :: r => bind (f a) (fun _ => forM f r)
    end.
End State.
Arguments st : clear implicits.
Arguments prob : clear implicits.
Arguments M : clear implicits.
Global Notation "x <- c ;; k" := (bind c (fun x => k))
  (at level 61, c at next level, right associativity).
Global Notation "c ;;; k" := (bind c (fun _ => k)) (at level 61, right associativity).

Section Kernel.
  Context {I : enc_impl}.
  Variable E : environ.
  Notation M := (M I).
  Notation st := (st I).

  (** ** Logger dispatch *)

  (** One call on the attached logger, e.g. algs.rs 398-402; nothing happens without a
      logger. *)
  Definition emit (ev : event) : M unit := fun s =>
    if s_logger s then
      let s' := set_trace (ev :: s_trace s) s in
      if ev_logfail E (length (s_trace s)) then (Exit (EErr ErrLogger), s') else (Done tt, s')
    else (Done tt, s).

  (** algs.rs 484-490 [log_routine_start], 493-499 [log_routine_end] *)
  Definition log_start (r : routine) : M unit := emit (EvStart r).
  Definition log_end : M unit := emit EvEnd.

  (** algs.rs 385-391 [check_termination] *)
  Definition check_termination : M unit := fun s =>
    let s' := set_flags (S (s_flags s)) s in
    if ev_flag E (s_flags s) then (Exit (ETerm Interrupted), s') else (Done tt, s').

  (** Decrement of a limit (e.g. algs.rs 404-409): [*l -= 1] panics at 0 (debug build) and
      reaching 0 terminates. *)
  Definition tick (get : limits -> option nat) (put : option nat -> limits -> limits)
    (t : termination) : M unit := fun s =>
    match get (s_lims s) with
    | None => (Done tt, s)
    | Some 0 => (Exit EPanic, s)
    | Some (S n) =>
        let s' := set_lims (put (Some n) (s_lims s)) s in
        if n =? 0 then (Exit (ETerm t), s') else (Done tt, s')
    end.

  (** algs.rs 394-411 [log_candidate] *)
  Definition log_candidate (cs : list nat) (ph : phase) : M unit :=
    n <- gets (fun s => n_objs (s_stats s)) ;;
    guard (length cs =? n) ;;;
    modify (fun s => set_stats (set_n_candidates (S (n_candidates (s_stats s))) (s_stats s)) s) ;;;
    emit (EvCandidate cs ph) ;;;
    tick l_candidates set_l_candidates CandidatesLimit.

  (** algs.rs 414-428 [log_oracle_call] *)
  Definition log_oracle_call (r : sres) : M unit :=
    modify (fun s =>
      set_stats (set_n_oracle_calls (S (n_oracle_calls (s_stats s))) (s_stats s)) s) ;;;
    emit (EvOracleCall r) ;;;
    tick l_oracle_calls set_l_oracle_calls OracleCallsLimit.

  (** algs.rs 431-445 [log_solution] *)
  Definition log_solution : M unit :=
    modify (fun s => set_stats (set_n_solutions (S (n_solutions (s_stats s))) (s_stats s)) s) ;;;
    emit EvSolution ;;;
    tick l_sols set_l_sols SolsLimit.

  (** algs.rs 448-464 [log_non_dominated] *)
  Definition log_non_dominated (p : nd_point assignment) : M unit :=
    modify (fun s =>
      set_stats (set_n_non_dominated (S (n_non_dominated (s_stats s))) (s_stats s)) s) ;;;
    emit (EvNonDom p) ;;;
    tick l_pps set_l_pps PPLimit.

  (** algs.rs 325-328 [start_solving] *)
  Definition start_solving (l : limits) : M unit := modify (fun s =>
    set_lims l
      (set_stats (set_n_solve_calls (S (n_solve_calls (s_stats s))) (s_stats s)) s)).

  (** algs.rs 330-332 [attach_logger], 334-336 [detach_logger]; the trace keeps the calls
      made to all loggers attached over time. *)
  Definition attach_logger : M unit := modify (set_logger true).
  Definition detach_logger : M unit := modify (set_logger false).

  (** ** Oracle *)

  (** [Solve::add_clause] / [add_unit] on the oracle *)
  Definition add_clause (c : clause) : M unit := modify (fun s =>
    set_ora OIdle (set_prob (set_cls (c :: p_cls (s_prob s)) (s_prob s)) s)).
  Definition add_clauses (cs : list clause) : M unit := forM add_clause cs.

  (** [SolveIncremental::solve_assumps] on the oracle itself *)
  Definition oracle_solve (limited : bool) (assumps : list lit) : M sres := fun s =>
    let q := mkQuery (s_calls s) (s_flags s) limited (p_cls (s_prob s)) assumps in
    let s' := set_calls (S (s_calls s)) s in
    match ev_oracle E q with
    | ASat m => (Done RSat, set_ora (OModel m) s')
    | AUnsat core => (Done RUnsat, set_ora (OCore core) s')
    | AInterrupted => (Done RInterrupted, set_ora OIdle s')
    | AErr => (Exit (EErr ErrOracle), set_ora OIdle s')
    end.

  (** [Solve::solution] with the maximum variable of the variable manager
      (e.g. algs.rs 744, 804); [max_var().unwrap()] panics without variables. *)
  Definition oracle_solution : M assignment :=
    v <- gets (fun s => vm_max_var (p_vm (s_prob s))) ;;
    v <- unwrap v ;;
    o <- gets s_ora ;;
    match o with
    | OModel m => ret (sol_of m v)
    | _ => throw (EErr ErrState)
    end.

  (** [SolveIncremental::core] *)
  Definition oracle_core : M (list lit) :=
    o <- gets s_ora ;;
    match o with
    | OCore core => ret core
    | _ => throw (EErr ErrState)
    end.

  (** algs.rs 965-972 [solve_assumps] *)
  Definition k_solve_assumps (assumps : list lit) : M sres :=
    log_start RtOracleCall ;;;
    r <- oracle_solve false assumps ;;
    log_end ;;;
    check_termination ;;;
    log_oracle_call r ;;;
    ret r.

  (** algs.rs 954-961 [solve] *)
  Definition k_solve : M sres := k_solve_assumps [].

  (** ** Objectives and costs *)

  (** The cost of a solution under one objective: the loop of algs.rs 601-607.
      [TernaryVal::DontCare] does not count. *)
  Definition sol_cost (o : objective) (sol : assignment) : nat :=
    list_sum (map (fun lw => if is_true (lit_value sol (fst lw)) then snd lw else 0)
                  (obj_iter o)).

  (** algs.rs 594-609 [get_cost_with_heuristic_improvements] (feature sol-tightening off) *)
  Definition get_cost (idx : nat) (sol : assignment) : M nat :=
    n <- gets (fun s => n_objs (s_stats s)) ;;
    guard (idx <? n) ;;;
    o <- gets (fun s => nth_error (p_objs (s_prob s)) idx) ;;
    o <- unwrap o ;;
    ret (sol_cost o sol).

  (** [(0..n).map(|idx| get_cost(idx, sol)).collect()] *)
  Definition get_costs (n : nat) (sol : assignment) : M (list nat) :=
    mapM (fun idx => get_cost idx sol) (seq 0 n).

  (** algs.rs 800-810 [get_solution_and_internal_costs] *)
  Definition get_solution_and_internal_costs : M (list nat * assignment) :=
    sol <- oracle_solution ;;
    n <- gets (fun s => length (p_objs (s_prob s))) ;;
    cs <- get_costs n sol ;;
    n' <- gets (fun s => n_objs (s_stats s)) ;;
    guard (length cs =? n') ;;;
    ret (cs, sol).

  (** Range of [isize] on a 64-bit target *)
  Definition isize_max : Z := (2 ^ 63 - 1)%Z.
  Definition isize_min : Z := (- 2 ^ 63)%Z.
  Definition to_isize (z : Z) : option Z :=
    if (isize_min <=? z)%Z && (z <=? isize_max)%Z then Some z else None.

  (** algs.rs 346-364: one entry of [externalize_internal_costs]; [None] is a panic (cost
      not an [isize], overflow of the addition, or the debug assertion). *)
  Definition externalize_one (o : objective) (cst : nat) : option Z :=
    match o with
    | OWeighted off _ _ _ =>
        match to_isize (Z.of_nat cst) with
        | Some c => to_isize (c + off) | None => None end
    | OUnweighted off uw _ _ _ =>
        match to_isize (Z.of_nat cst * Z.of_nat uw) with
        | Some c => to_isize (c + off) | None => None end
    | OConstant off _ _ => if cst =? 0 then Some off else None
    end.

  (** algs.rs 343-366; indexing [self.objs[idx]] panics out of range *)
  Fixpoint externalize_all (os : list objective) (cs : list nat) : option (list Z) :=
    match cs, os with
    | [], _ => Some []
    | _ :: _, [] => None
    | c :: cs', o :: os' =>
        match externalize_one o c, externalize_all os' cs' with
        | Some z, Some zs => Some (z :: zs)
        | _, _ => None
        end
    end.

  (** algs.rs 341-367 [externalize_internal_costs] *)
  Definition externalize_internal_costs (cs : list nat) : M (list Z) :=
    n <- gets (fun s => n_objs (s_stats s)) ;;
    guard (length cs =? n) ;;;
    os <- gets (fun s => p_objs (s_prob s)) ;;
    unwrap (externalize_all os cs).

  (** [Clause::normalize]: removes duplicate literals; [None] for a tautology.  Sorting is
      not modelled. *)
  Definition lit_mem (l : lit) (c : clause) : bool := existsb (lit_eqb l) c.
  Fixpoint clause_dedup (c : clause) : clause :=
    match c with
    | [] => []
    | l :: r => if lit_mem l r then clause_dedup r else l :: clause_dedup r
    end.
  Definition clause_normalize (c : clause) : option clause :=
    if existsb (fun l => lit_mem (lnot l) c) c then None else Some (clause_dedup c).

  (** algs.rs 370-382 [block_pareto_mcs]; [None] is the [expect] panic *)
  Definition block_pareto_mcs (os : list objective) (sol : assignment) : option clause :=
    clause_normalize
      (flat_map (fun o =>
         flat_map (fun lw => if is_true (lit_value sol (fst lw)) then [lnot (fst lw)] else [])
                  (obj_iter o)) os).

  (** algs.rs 1017-1019 [default_blocking_clause] *)
  Definition default_blocking_clause (sol : assignment) : clause :=
    map lnot (sol_lits sol).

  (** algs.rs 620-628 [phase_solution]: only sets decision phases in the oracle, which has
      no effect on its answers beyond the choice among correct ones. *)
  Definition phase_solution (sol : assignment) : M unit := ret tt.
  (** algs.rs 632-640 [unphase_solution]: as above, but [max_var().unwrap()] can panic *)
  Definition unphase_solution : M unit :=
    b <- gets (fun s => o_sgs (s_opts s)) ;;
    if b then v <- gets (fun s => vm_max_var (p_vm (s_prob s))) ;; unwrap v ;;; ret tt
    else ret tt.

  (** ** Yielding solutions *)

  (** [collector.extend([nd])] with the algorithm's Pareto front as collector *)
  Definition front_push (p : nd_point assignment) : M unit :=
    modify (fun s => set_front (front_extend (s_front s) [p]) s).

  (** options check of algs.rs 712-717 *)
  Definition enum_done (e : enum_opts) (n_sols : nat) : bool :=
    match e with
    | NoEnum => true
    | Solutions (Some limit) => limit <=? n_sols
    | PMCSs (Some limit) => limit <=? n_sols
    | _ => false
    end.

  (** algs.rs 726-732: the clause blocking the last solution; [None] is a panic *)
  Definition yield_block_clause (o : kopts) (os : list objective) (sol : assignment)
    : option clause :=
    match o_enum o with
    | Solutions _ => Some (o_bcg o sol)
    | PMCSs _ => block_pareto_mcs os sol
    | NoEnum => None
    end.

  (** algs.rs 718-721 and 737-741: log and store the point, end the routine, and return
      the outcome of logging the point *)
  Definition yield_finish (nd : nd_point assignment) : M unit :=
    t <- catch (log_non_dominated nd) ;;
    front_push nd ;;;
    log_end ;;;
    rethrow t.

  (** algs.rs 682-745: one iteration of the loop; state: current solution, current point *)
  Definition yield_body (cs : list nat) (assumps : list lit)
    (x : assignment * nd_point assignment) : M ((assignment * nd_point assignment) + unit) :=
    let '(sol, nd) := x in
    n <- gets (fun s => n_objs (s_stats s)) ;;
    cs' <- get_costs n sol ;;
    guard (if list_eq_dec Nat.eq_dec cs' cs then true else false) ;;;
    mo <- gets (fun s => vm_max_orig (p_vm (s_prob s))) ;;
    let sol := truncate sol mo in
    let nd := nd_add_sol nd sol in
    t <- catch log_solution ;;
    match t with
    | inr x =>
        nt <- catch (log_non_dominated nd) ;;
        front_push nd ;;;
        rethrow nt ;;;
        throw x
    | inl _ =>
        o <- gets s_opts ;;
        if enum_done (o_enum o) (nd_n_sols nd) then
          yield_finish nd ;;; ret (inr tt)
        else
          check_termination ;;;
          os <- gets (fun s => p_objs (s_prob s)) ;;
          c <- unwrap (yield_block_clause o os sol) ;;
          add_clause c ;;;
          r <- k_solve_assumps assumps ;;
          match r with
          | RUnsat => yield_finish nd ;;; ret (inr tt)
          | _ =>
              check_termination ;;;
              sol' <- oracle_solution ;;
              ret (inl (sol', nd))
          end
    end.

  (** algs.rs 668-746 [yield_solutions] *)
  Definition yield_solutions (cs : list nat) (assumps : list lit) (sol : assignment) : M unit :=
    n <- gets (fun s => n_objs (s_stats s)) ;;
    guard (length cs =? n) ;;;
    log_start RtYield ;;;
    unphase_solution ;;;
    ext <- externalize_internal_costs cs ;;
    loop (ev_fuel E) (yield_body cs assumps) (sol, nd_new ext).

  (** ** Encodings *)

  Definition get_enc (idx : nat) : M (obj_enc I) :=
    e <- gets (fun s => nth_error (p_encs (s_prob s)) idx) ;; unwrap e.

  Fixpoint set_nth {A} (i : nat) (a : A) (l : list A) : list A :=
    match i, l with
    | _, [] => []
    | 0, _ :: r => a :: r
    | S j, x :: r => x :: set_nth j a r
    end.

  (** algs.rs 919-944 [extend_encoding] (no proof): encode bounds [lo..hi] of objective
      [idx] and add the clauses to the oracle.  Also models the direct calls of
      [ObjEncoding::encode_ub_change] with the oracle as collector. *)
  Definition extend_encoding (idx lo hi : nat) : M unit :=
    e <- get_enc idx ;;
    next <- gets (fun s => vm_next (p_vm (s_prob s))) ;;
    let '(e', cls, next') := oe_encode_ub e lo hi next in
    modify (fun s => set_prob
      (set_encs (set_nth idx e' (p_encs (s_prob s)))
         (set_vm (vm_set_next (p_vm (s_prob s)) next') (s_prob s))) s) ;;;
    add_clauses cls.

  (** [var_manager.new_var()] *)
  Definition new_var : M nat :=
    v <- gets (fun s => vm_next (p_vm (s_prob s))) ;;
    modify (fun s => set_prob (set_vm (vm_set_next (p_vm (s_prob s)) (S v)) (s_prob s)) s) ;;;
    ret v.

  (** ** linsu *)

  (** algs.rs 850-904: one iteration of the while loop.  State: cost and solution so far.
      [inr (inl _)] is the early return of line 878, [inr (inr _)] leaves the loop. *)
  Definition linsu_result := (nat * assignment)%type.
  Definition linsu_body (idx : nat) (base : list lit) (lb : nat)
    (x : nat * option assignment)
    : M ((nat * option assignment) + (linsu_result + (nat * option assignment))) :=
    let '(cost, sol) := x in
    if cost <=? lb then ret (inr (inr (cost, sol)))
    else
      let bound := cost - 1 in
      extend_encoding idx bound (bound + 1) ;;;
      e <- get_enc idx ;;
      a <- unwrap (oe_enforce_ub e bound) ;;
      r <- k_solve_assumps (base ++ a) ;;
      match r with
      | RSat =>
          sol' <- oracle_solution ;;
          new_cost <- get_cost idx sol' ;;
          guard (new_cost <? cost) ;;;
          n <- gets (fun s => n_objs (s_stats s)) ;;
          cs <- get_costs n sol' ;;
          log_candidate cs PhLinsu ;;;
          if new_cost <=? lb then
            log_end ;;; ret (inr (inl (new_cost, sol')))
          else ret (inl (new_cost, Some sol'))
      | RUnsat => ret (inr (inr (cost, sol)))
      | RInterrupted => throw EPanic
      end.

  (** algs.rs 835-846: the initial upper bound; [None] when the base assumptions are
      unsatisfiable *)
  Definition linsu_start (idx : nat) (base : list lit)
    (ub : option (nat * option assignment)) : M (option (nat * option assignment)) :=
    match ub with
    | Some b => ret (Some b)
    | None =>
        r <- k_solve_assumps base ;;
        match r with
        | RUnsat => ret None
        | _ =>
            sol <- oracle_solution ;;
            c <- get_cost idx sol ;;
            ret (Some (c, Some sol))
        end
    end.

  (** algs.rs 906-914: make sure to have a solution *)
  Definition linsu_final (idx : nat) (base : list lit) (cost : nat) (sol : option assignment)
    : M assignment :=
    match sol with
    | Some a => ret a
    | None =>
        extend_encoding idx cost (cost + 1) ;;;
        e <- get_enc idx ;;
        a <- unwrap (oe_enforce_ub e cost) ;;
        r <- k_solve_assumps (base ++ a) ;;
        guard (match r with RSat => true | _ => false end) ;;;
        oracle_solution
    end.

  (** algs.rs 819-917 [linsu] *)
  Definition linsu (idx : nat) (base : list lit) (ub : option (nat * option assignment))
    (lb : option nat) : M (option linsu_result) :=
    log_start RtLinsu ;;;
    let lb := match lb with Some b => b | None => 0 end in
    b <- linsu_start idx base ub ;;
    match b with
    | None => log_end ;;; ret None
    | Some x =>
        r <- loop (ev_fuel E) (linsu_body idx base lb) x ;;
        match r with
        | inl r => ret (Some r)
        | inr (cost, sol) =>
            a <- linsu_final idx base cost sol ;;
            log_end ;;;
            ret (Some (cost, a))
        end
    end.

  (** algs.rs 757-788 [linsu_yield] *)
  Definition linsu_yield (idx : nat) (base : list lit) (ub : option (nat * option assignment))
    (lb : option nat) : M (option linsu_result) :=
    r <- linsu idx base ub lb ;;
    match r with
    | None => ret None
    | Some (cost, sol) =>
        n <- gets (fun s => n_objs (s_stats s)) ;;
        cs <- get_costs n sol ;;
        guard (match nth_error cs idx with Some c => c =? cost | None => false end) ;;;
        extend_encoding idx cost (cost + 1) ;;;
        e <- get_enc idx ;;
        a <- unwrap (oe_enforce_ub e cost) ;;
        yield_solutions cs (base ++ a) sol ;;;
        ret (Some (cost, sol))
    end.

  (** ** Resetting the oracle *)

  (** algs.rs 983-1013 [reset_oracle] *)
  Definition reset_oracle (include_vm : bool) : M unit :=
    o <- gets s_opts ;;
    (if o_store_cnf o then ret tt else throw (EErr ErrApi)) ;;;
    log_start RtResetOracle ;;;
    (if include_vm then ret tt
     else v <- gets (fun s => vm_max_var (p_vm (s_prob s))) ;; unwrap v ;;; ret tt) ;;;
    cnf <- gets s_cnf ;;
    cnf <- unwrap cnf ;;
    modify (fun s => set_ora OIdle (set_prob (set_cls cnf (s_prob s)) s)) ;;;
    (if include_vm then
       modify (fun s => set_prob
         (set_vm (vm_forget_from (p_vm (s_prob s)) (S (vm_max_enc (p_vm (s_prob s)))))
                 (s_prob s)) s)
     else ret tt) ;;;
    log_end.

  (** ** Construction *)

  (** algs.rs 249-255 *)
  Definition count_real (os : list objective) : nat :=
    length (filter (fun o => negb (obj_is_constant o)) os).

  (** pminimal.rs 222-238, lowerbounding.rs 226-242, bioptsat.rs 214-231: one encoding per
      objective, threading the variable manager *)
  Fixpoint init_encs (reserve : bool) (os : list objective) (next : nat)
    : list (obj_enc I) * nat :=
    match os with
    | [] => ([], next)
    | o :: r =>
        let '(e, next1) :=
          match o with
          | OWeighted _ lits _ _ => oe_new_weighted lits reserve next
          | OUnweighted _ _ lits _ _ => oe_new_unweighted lits reserve next
          | OConstant _ _ _ => (EConstant, next)
          end in
        let '(es, next2) := init_encs reserve r next1 in
        (e :: es, next2)
    end.

  (** algs.rs 218-318 [Kernel::new] followed by the algorithm's [init]; [None] is the
      panic of [max_var().unwrap()] (line 235). *)
  Definition kernel_new (cls : list clause) (os : list objective) (vm : var_manager)
    (o : kopts) : option st :=
    match vm_max_var vm with
    | None => None
    | Some _ =>
        let '(es, next) := init_encs (o_reserve_enc_vars o) os (vm_next vm) in
        Some (mkSt
          (mkProb cls (vm_set_next vm next) os es)
          OIdle [] [] (if o_store_cnf o then Some cls else None) o
          (mkStats 0 0 0 0 0 (length os) (count_real os) (length cls))
          lims_none false [] 0 0)
    end.
End Kernel.
