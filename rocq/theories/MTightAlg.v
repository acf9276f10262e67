(** * Model of the algorithms with solution tightening (feature [sol-tightening])

    The programs of MPMinimal.v, MLowerBounding.v and MBiOptSat.v, where a solution that the oracle
    found may be tightened (MTight.v) before it is used.  The places that ask for tightening are
    pminimal.rs 273-280 and 554-560, lowerbounding.rs 491-497 and bioptsat.rs 389-390, 767-769; the
    one in [linsu] (algs.rs 843-844) is not reached, because BiOptSat always passes an upper bound.
    All other calls pass [false].  An inprocessor switches tightening off (algs.rs 547-553), so there
    is none here.  The log event of algs.rs 580-582 is left out. *)
From Coq Require Import List Bool Arith.
From Verif Require Import Base MTypes MKernel MPMinimal MLowerBounding MBiOptSat MTight ApiSpec.
Import ListNotations.

(** options.rs 103-114 [HeurImprWhen] *)
Inductive heur_when := HNever | HAlways | HOuterLoop.
(** options.rs 117-129 [wanted]; [Phase::Enumeration] never wants it *)
Definition wanted (w : heur_when) (ph : phase) : bool :=
  match ph with
  | PhEnumeration => false
  | _ => match w with
         | HNever => false
         | HAlways => true
         | HOuterLoop => match ph with PhOuterLoop => true | _ => false end
         end
  end.

(** The oracle after it answered a query: which flips it grants may depend on the query (it holds
    the clauses, the assumptions and the number of the call) *)
Record flipper := mkFlipper {
  fl_oracle : query -> flip_oracle;
  fl_start : forall q, asg -> ora_st (fl_oracle q) }.

Section TightAlg.
  Context {I : enc_impl}.
  Variable E : environ.
  Variable F : flipper.
  Variable w : heur_when.
  Notation M := (M I).
  Notation st := (st I).

  (** The query that a call with these assumptions makes now.  Not in the code: the model keeps it
      to say which state of the oracle the flips are made in. *)
  Definition this_query (a : list lit) : M query :=
    gets (fun s => mkQuery (s_calls s) (s_flags s) false (p_cls (s_prob s)) a).

  (** algs.rs 796-810 [get_solution_and_internal_costs] *)
  Definition sol_costs_t (tightening : bool) (q : query) : M (list nat * assignment) :=
    if tightening then
      v <- gets (fun s => vm_max_var (p_vm (s_prob s))) ;;
      v <- unwrap v ;;
      o <- gets s_ora ;;
      match o with
      | OModel m =>
          os <- gets (fun s => p_objs (s_prob s)) ;;
          n <- gets (fun s => n_objs (s_stats s)) ;;
          guard (length os =? n) ;;;
          r <- unwrap (solution_and_costs_tight (fl_oracle F q) os true v (fl_start F q m)) ;;
          let '(t, cs, sol) := r in
          modify (set_ora (OModel (ora_model (fl_oracle F q) t))) ;;;
          ret (cs, sol)
      | _ => throw (EErr ErrState)
      end
    else get_solution_and_internal_costs.

  (** bioptsat.rs 389-390, 767-769: solution and cost of one objective, always with tightening *)
  Definition sol_cost_t (idx : nat) (q : query) : M (nat * assignment) :=
    v <- gets (fun s => vm_max_var (p_vm (s_prob s))) ;;
    v <- unwrap v ;;
    o <- gets s_ora ;;
    match o with
    | OModel m =>
        os <- gets (fun s => p_objs (s_prob s)) ;;
        n <- gets (fun s => n_objs (s_stats s)) ;;
        guard (idx <? n) ;;;
        r <- unwrap (get_cost_tight (fl_oracle F q) os true idx (fl_start F q m) (sol_of m v)) ;;
        let '(t, sol, c) := r in
        modify (set_ora (OModel (ora_model (fl_oracle F q) t))) ;;;
        ret (c, sol)
    | _ => throw (EErr ErrState)
    end.

  (** pminimal.rs 434-564 *)
  Definition pmin_body_t (base : list lit) (x : pmin_state) : M (pmin_state + pmin_state) :=
    let '(cs, sol, sw) := x in
    o <- gets s_opts ;;
    sw' <- match o_enum o with
           | NoEnum =>
               c <- dominated_block_clause cs ;;
               add_clause c ;;;
               ret sw
           | _ =>
               match sw with Some b => add_clause [b] | None => ret tt end ;;;
               b <- tmp_block_dominated cs ;;
               ret (Some b)
           end ;;
    let blit := match o_enum o with
                | NoEnum => []
                | _ => match sw' with Some b => [b] | None => [] end
                end in
    a <- enforce_dominating cs ;;
    q <- this_query (base ++ blit ++ a) ;;
    r <- k_solve_assumps E (base ++ blit ++ a) ;;
    match r with
    | RUnsat => log_end E ;;; ret (inr (cs, sol, sw'))
    | _ =>
        check_termination E ;;;
        cs_sol <- sol_costs_t (wanted w PhMinimization) q ;;
        let '(cs', sol') := cs_sol in
        log_candidate E cs' PhMinimization ;;;
        check_termination E ;;;
        phase_solution sol' ;;;
        ret (inl (cs', sol', sw'))
    end.

  (** pminimal.rs 416-565 [p_minimization] *)
  Definition p_minimization_t (cs : list nat) (sol : assignment) (base : list lit)
    : M pmin_state :=
    n <- gets (fun s => n_objs (s_stats s)) ;;
    guard (length cs =? n) ;;;
    log_start E RtPMinimization ;;;
    loop (ev_fuel E) (pmin_body_t base) (cs, sol, None).

  (** pminimal.rs 273-341, lowerbounding.rs 491-548 *)
  Definition minimize_and_yield_t (base : list lit) (q : query) : M unit :=
    cs_sol <- sol_costs_t (wanted w PhOuterLoop) q ;;
    let '(cs, sol) := cs_sol in
    log_candidate E cs PhOuterLoop ;;;
    check_termination E ;;;
    phase_solution sol ;;;
    r <- p_minimization_t cs sol base ;;
    let '(cs', sol', sw) := r in
    a <- enforce_dominating cs' ;;
    yield_solutions E cs' a sol' ;;;
    match sw with Some b => add_clause [b] | None => ret tt end.

  (** pminimal.rs 264-342 *)
  Definition pminimal_body_t (_ : unit) : M (unit + unit) :=
    q <- this_query [] ;;
    r <- k_solve_assumps E [] ;;
    match r with
    | RUnsat => log_end E ;;; ret (inr tt)
    | _ => check_termination E ;;; minimize_and_yield_t [] q ;;; ret (inl tt)
    end.

  (** pminimal.rs 261-343 [alg_main] *)
  Definition pminimal_main_t : M unit :=
    n <- gets (fun s => length (p_encs (s_prob s))) ;;
    n' <- gets (fun s => n_objs (s_stats s)) ;;
    guard (n =? n') ;;;
    log_start E RtPMinimal ;;;
    loop (ev_fuel E) pminimal_body_t tt.

  (** lowerbounding.rs 480-549 *)
  Definition harvest_body_t (base : list lit) (_ : unit) : M (unit + unit) :=
    f <- gets s_fence ;;
    q <- this_query (base ++ fence_assumps f) ;;
    r <- k_solve_assumps E (base ++ fence_assumps f) ;;
    match r with
    | RUnsat => log_end E ;;; ret (inr tt)
    | _ => check_termination E ;;; minimize_and_yield_t base q ;;; ret (inl tt)
    end.

  (** lowerbounding.rs 467-550 [harvest] *)
  Definition harvest_t (base : list lit) : M unit :=
    n <- gets (fun s => length (p_encs (s_prob s))) ;;
    n' <- gets (fun s => n_objs (s_stats s)) ;;
    guard (n =? n') ;;;
    log_start E RtHarvest ;;;
    loop (ev_fuel E) (harvest_body_t base) tt.

  (** lowerbounding.rs 294-331 *)
  Definition lb_body_t (_ : unit) : M (unit + unit) :=
    f <- gets s_fence ;;
    r <- k_solve_assumps E (fence_assumps f) ;;
    match r with
    | RSat => harvest_t [] ;;; ret (inl tt)
    | RUnsat =>
        core <- oracle_core ;;
        match core with
        | [] => log_end E ;;; ret (inr tt)
        | _ =>
            update_fence E core ;;;
            f' <- gets s_fence ;;
            guard (fence_increased (fence_bounds f) (fence_bounds f')) ;;;
            ret (inl tt)
        end
    | RInterrupted => throw EPanic
    end.

  (** lowerbounding.rs 267-332 [alg_main] *)
  Definition lb_main_t : M unit :=
    n <- gets (fun s => length (p_encs (s_prob s))) ;;
    n' <- gets (fun s => n_objs (s_stats s)) ;;
    guard (n =? n') ;;;
    log_start E RtLowerBounding ;;;
    fence_init ;;;
    loop (ev_fuel E) lb_body_t tt.

  (** bioptsat.rs 396-777 *)
  Definition bi_body_t (base : list lit) (dec_lb : nat) (x : bi_state) : M (bi_state + unit) :=
    let '(inc_cost, sol, inc_lb) := x in
    r <- linsu E 0 base (Some (inc_cost, Some sol)) (Some inc_lb) ;;
    match r with
    | None => log_end E ;;; ret (inr tt)
    | Some (inc_cost, sol) =>
        dec_cost <- get_cost 1 sol ;;
        extend_encoding 0 inc_cost (inc_cost + 1) ;;;
        e <- get_enc 0 ;;
        a <- unwrap (oe_enforce_ub e inc_cost) ;;
        r <- linsu_yield E 1 (base ++ a) (Some (dec_cost, Some sol)) (Some dec_lb) ;;
        ds <- unwrap r ;;
        let '(dec_cost, sol) := ds in
        if dec_cost <=? dec_lb then log_end E ;;; ret (inr tt)
        else
          extend_encoding 1 (dec_cost - 1) dec_cost ;;;
          e1 <- get_enc 1 ;;
          b <- or_err ErrEnc (oe_enforce_ub e1 (dec_cost - 1)) ;;
          add_clauses (cube_impl_cube base b) ;;;
          q <- this_query base ;;
          r <- k_solve_assumps E base ;;
          match r with
          | RSat =>
              cs <- sol_cost_t 0 q ;;
              ret (inl (fst cs, snd cs, inc_cost + 1))
          | RUnsat => log_end E ;;; ret (inr tt)
          | RInterrupted => throw EPanic
          end
    end.

  (** bioptsat.rs 360-780 [bioptsat] *)
  Definition bioptsat_t (base : list lit) : M unit :=
    log_start E RtBiOptSat ;;;
    n <- gets (fun s => length (p_encs (s_prob s))) ;;
    guard (n =? 2) ;;;
    e0 <- get_enc 0 ;;
    e1 <- get_enc 1 ;;
    q <- this_query base ;;
    r <- k_solve_assumps E base ;;
    match r with
    | RUnsat => ret tt
    | _ =>
        cs <- sol_cost_t 0 q ;;
        loop (ev_fuel E) (bi_body_t base (oe_offset e1)) (fst cs, snd cs, oe_offset e0)
    end.

  (** [Solve::solve] of the three algorithms (pminimal.rs 92-95, lowerbounding.rs 86-89,
      bioptsat.rs 81-84) *)
  Definition tight_solve (al : alg) (l : limits) : M unit :=
    start_solving l ;;;
    match al with
    | APMinimal => pminimal_main_t
    | ALowerBounding => lb_main_t
    | ABiOptSat => bioptsat_t []
    end.
End TightAlg.
