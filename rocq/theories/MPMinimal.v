(** * Model of core/src/algs/pminimal.rs *)
From Coq Require Import List Bool Arith Lia ZArith.
From Verif Require Import Base MTypes MKernel.
Import ListNotations.

Section PMinimal.
  Context {I : enc_impl}.
  Variable E : environ.
  Notation M := (M I).
  Notation st := (st I).

  (** [for (idx, &cst) in costs.iter().enumerate()]: objective indices with bounds *)
  Definition enumerate {A} (l : list A) : list (nat * A) := combine (seq 0 (length l)) l.

  (** pminimal.rs 597-600: the encoding loop of [enforce_dominating] *)
  Definition encode_all (ics : list (nat * nat)) : M unit :=
    forM (fun ic => extend_encoding (fst ic) (snd ic) (snd ic + 1)) ics.

  (** pminimal.rs 602-605: the assumptions; [enforce_ub(cst).unwrap()] *)
  Definition enforce_all (ics : list (nat * nat)) : M (list lit) :=
    ls <- mapM (fun ic => e <- get_enc (fst ic) ;; unwrap (oe_enforce_ub e (snd ic))) ics ;;
    ret (concat ls).

  (** pminimal.rs 569-606 [enforce_dominating] (no proof).  The returned iterator is lazy
      in Rust; its callers consume it before touching the encodings again. *)
  Definition enforce_dominating (cs : list nat) : M (list lit) :=
    n <- gets (fun s => n_objs (s_stats s)) ;;
    guard (length cs =? n) ;;;
    encode_all (enumerate cs) ;;;
    enforce_all (enumerate cs).

  (** [atomics::lit_impl_cube(a, cube)]: the clauses [a -> l] for [l] in the cube *)
  Definition lit_impl_cube (a : lit) (cube : list lit) : list clause :=
    map (fun l => [lnot a; l]) cube.

  (** pminimal.rs 618-653: the part of the blocking clause for one objective *)
  Definition block_lits (ic : nat * nat) : M clause :=
    let '(idx, cst) := ic in
    e <- get_enc idx ;;
    if cst <=? oe_offset e then ret []
    else match e with
    | EConstant => ret []
    | _ =>
        extend_encoding idx (cst - 1) cst ;;;
        e' <- get_enc idx ;;
        a <- or_err ErrEnc (oe_enforce_ub e' (cst - 1)) ;;
        match a with
        | [l] => ret [l]
        | _ =>
            guard (match a with [] => false | _ => true end) ;;;
            v <- new_var ;;
            add_clauses (lit_impl_cube (pos v) a) ;;;
            ret [pos v]
        end
    end.

  (** pminimal.rs 610-655 [dominated_block_clause] (no proof) *)
  Definition dominated_block_clause (cs : list nat) : M clause :=
    n <- gets (fun s => length (p_encs (s_prob s))) ;;
    guard (length cs =? n) ;;;
    ls <- mapM block_lits (enumerate cs) ;;
    ret (concat ls).

  (** pminimal.rs 660-679 [tmp_block_dominated] (no proof); returns the assumption that
      activates the block *)
  Definition tmp_block_dominated (cs : list nat) : M lit :=
    n <- gets (fun s => n_objs (s_stats s)) ;;
    guard (length cs =? n) ;;;
    c <- dominated_block_clause cs ;;
    v <- new_var ;;
    add_clause (c ++ [pos v]) ;;;
    ret (neg v).

  (** pminimal.rs 434-564: one iteration of the loop.  State: costs, solution, block switch *)
  Definition pmin_state := (list nat * assignment * option lit)%type.
  Definition pmin_body (base : list lit) (x : pmin_state) : M (pmin_state + pmin_state) :=
    let '(cs, sol, sw) := x in
    o <- gets s_opts ;;
    sw' <- match o_enum o with
           | NoEnum =>
               c <- dominated_block_clause cs ;;
               add_clause c ;;;
               ret sw
           | _ =>
               match sw with Some b => add_clause [b] | None => ret tt end ;;;
               b <- tmp_block_dominated cs ;;
               ret (Some b)
           end ;;
    let blit := match o_enum o with
                | NoEnum => []
                | _ => match sw' with Some b => [b] | None => [] end
                end in
    a <- enforce_dominating cs ;;
    r <- k_solve_assumps E (base ++ blit ++ a) ;;
    match r with
    | RUnsat => log_end E ;;; ret (inr (cs, sol, sw'))
    | _ =>
        check_termination E ;;;
        cs_sol <- get_solution_and_internal_costs ;;
        let '(cs', sol') := cs_sol in
        log_candidate E cs' PhMinimization ;;;
        check_termination E ;;;
        phase_solution sol' ;;;
        ret (inl (cs', sol', sw'))
    end.

  (** pminimal.rs 416-565 [p_minimization] *)
  Definition p_minimization (cs : list nat) (sol : assignment) (base : list lit)
    : M pmin_state :=
    n <- gets (fun s => n_objs (s_stats s)) ;;
    guard (length cs =? n) ;;;
    log_start E RtPMinimization ;;;
    loop (ev_fuel E) (pmin_body base) (cs, sol, None).

  (** pminimal.rs 273-341, shared with lowerbounding.rs 491-548: minimise the solution the
      oracle found, yield the Pareto point, block it *)
  Definition minimize_and_yield (base : list lit) : M unit :=
    cs_sol <- get_solution_and_internal_costs ;;
    let '(cs, sol) := cs_sol in
    log_candidate E cs PhOuterLoop ;;;
    check_termination E ;;;
    phase_solution sol ;;;
    r <- p_minimization cs sol base ;;
    let '(cs', sol', sw) := r in
    a <- enforce_dominating cs' ;;
    yield_solutions E cs' a sol' ;;;
    match sw with Some b => add_clause [b] | None => ret tt end.

  (** pminimal.rs 264-342: one iteration of the main loop *)
  Definition pminimal_body (_ : unit) : M (unit + unit) :=
    r <- k_solve E ;;
    match r with
    | RUnsat => log_end E ;;; ret (inr tt)
    | _ => check_termination E ;;; minimize_and_yield [] ;;; ret (inl tt)
    end.

  (** pminimal.rs 261-343 [alg_main] *)
  Definition pminimal_main : M unit :=
    n <- gets (fun s => length (p_encs (s_prob s))) ;;
    n' <- gets (fun s => n_objs (s_stats s)) ;;
    guard (n =? n') ;;;
    log_start E RtPMinimal ;;;
    loop (ev_fuel E) pminimal_body tt.

  (** pminimal.rs 92-95 [Solve::solve] *)
  Definition pminimal_solve (l : limits) : M unit :=
    start_solving l ;;; pminimal_main.

  (** pminimal.rs 128-140 [Init::new], 220-244 [init]; [None] is a panic *)
  Definition pminimal_new (cls : list clause) (os : list objective) (vm : var_manager)
    (o : kopts) : option st := kernel_new cls os vm o.
End PMinimal.
