(** * Model of core/src/algs/lowerbounding.rs *)
From Coq Require Import List Bool Arith Lia ZArith.
From Verif Require Import Base MTypes MKernel MPMinimal.
Import ListNotations.

Section LowerBounding.
  Context {I : enc_impl}.
  Variable E : environ.
  Notation M := (M I).
  Notation st := (st I).

  (** lowerbounding.rs 406-410 [Fence::assumps] *)
  Definition fence_assumps (f : fence) : list lit := flat_map snd f.
  (** lowerbounding.rs 412-414 [Fence::bounds] *)
  Definition fence_bounds (f : fence) : list nat := map fst f.

  (** lowerbounding.rs 272-292: one encoding of the fence initialisation *)
  Definition fence_init_one (idx : nat) : M unit :=
    e <- get_enc idx ;;
    extend_encoding idx (oe_offset e) (oe_offset e + 1) ;;;
    e' <- get_enc idx ;;
    a <- unwrap (oe_enforce_ub e' (oe_offset e')) ;;
    modify (fun s => set_fence (s_fence s ++ [(oe_offset e', a)]) s).

  (** lowerbounding.rs 270-293 *)
  Definition fence_init : M unit :=
    f <- gets s_fence ;;
    match f with
    | [] => n <- gets (fun s => length (p_encs (s_prob s))) ;; forM fence_init_one (seq 0 n)
    | _ => ret tt
    end.

  (** lowerbounding.rs 430-442: the first objective whose bound was not increased yet and
      with an assumption whose negation is the core literal *)
  Fixpoint find_match (clit : lit) (i : nat) (found : list bool) (f : fence) : option nat :=
    match f, found with
    | (_, assumps) :: f', b :: found' =>
        if negb b && existsb (fun alit => lit_eqb (lnot alit) clit) assumps then Some i
        else find_match clit (S i) found' f'
    | _, _ => None
    end.

  (** lowerbounding.rs 443-448: increase the bound of one objective *)
  Definition fence_raise (idx : nat) : M unit :=
    f <- gets s_fence ;;
    ba <- unwrap (nth_error f idx) ;;
    e <- get_enc idx ;;
    bound <- unwrap (oe_next_higher e (fst ba)) ;;
    extend_encoding idx bound (bound + 1) ;;;
    e' <- get_enc idx ;;
    a <- unwrap (oe_enforce_ub e' bound) ;;
    modify (fun s => set_fence (set_nth idx (bound, a) (s_fence s)) s).

  (** lowerbounding.rs 429-452: the loop over the core literals *)
  Fixpoint fence_core_loop (core : list lit) (found : list bool) : M unit :=
    match core with
    | [] => ret tt
    | clit :: rest =>
        f <- gets s_fence ;;
        match find_match clit 0 found f with
        | Some idx => fence_raise idx ;;; fence_core_loop rest (set_nth idx true found)
        | None => fence_core_loop rest found
        end
    end.

  (** lowerbounding.rs 422-457 [update_fence] *)
  Definition update_fence (core : list lit) : M unit :=
    f <- gets s_fence ;;
    fence_core_loop core (repeat false (length f)) ;;;
    f' <- gets s_fence ;;
    emit E (EvFence (fence_bounds f')).

  (** lowerbounding.rs 315-327: the debug check that the fence increased *)
  Definition fence_increased (old new : list nat) : bool :=
    forallb (fun p => fst p <=? snd p) (combine old new)
    && existsb (fun p => fst p <? snd p) (combine old new).

  (** lowerbounding.rs 480-549: one iteration of [harvest] *)
  Definition harvest_body (base : list lit) (_ : unit) : M (unit + unit) :=
    f <- gets s_fence ;;
    r <- k_solve_assumps E (base ++ fence_assumps f) ;;
    match r with
    | RUnsat => log_end E ;;; ret (inr tt)
    | _ => check_termination E ;;; minimize_and_yield E base ;;; ret (inl tt)
    end.

  (** lowerbounding.rs 467-550 [harvest] *)
  Definition harvest (base : list lit) : M unit :=
    n <- gets (fun s => length (p_encs (s_prob s))) ;;
    n' <- gets (fun s => n_objs (s_stats s)) ;;
    guard (n =? n') ;;;
    log_start E RtHarvest ;;;
    loop (ev_fuel E) (harvest_body base) tt.

  (** lowerbounding.rs 294-331: one iteration of the main loop *)
  Definition lb_body (_ : unit) : M (unit + unit) :=
    f <- gets s_fence ;;
    r <- k_solve_assumps E (fence_assumps f) ;;
    match r with
    | RSat => harvest [] ;;; ret (inl tt)
    | RUnsat =>
        core <- oracle_core ;;
        match core with
        | [] => log_end E ;;; ret (inr tt)
        | _ =>
            update_fence core ;;;
            f' <- gets s_fence ;;
            guard (fence_increased (fence_bounds f) (fence_bounds f')) ;;;
            ret (inl tt)
        end
    | RInterrupted => throw EPanic
    end.

  (** lowerbounding.rs 267-332 [alg_main] *)
  Definition lb_main : M unit :=
    n <- gets (fun s => length (p_encs (s_prob s))) ;;
    n' <- gets (fun s => n_objs (s_stats s)) ;;
    guard (n =? n') ;;;
    log_start E RtLowerBounding ;;;
    fence_init ;;;
    loop (ev_fuel E) lb_body tt.

  (** lowerbounding.rs 86-89 [Solve::solve] *)
  Definition lb_solve (l : limits) : M unit := start_solving l ;;; lb_main.

  (** lowerbounding.rs 126-138 [Init::new], 224-250 [init] *)
  Definition lb_new (cls : list clause) (os : list objective) (vm : var_manager)
    (o : kopts) : option st := kernel_new cls os vm o.
End LowerBounding.
