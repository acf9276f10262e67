(** * BiOptSat with and without debug assertions

    The model of [linsu] (algs.rs 819-917) and of bioptsat.rs 360-780 once more, with the
    [debug_assert!(new_cost < cost)] of algs.rs 866 switched by [dbg]: [true] is the debug
    build (definitionally the functions of MKernel.v and MBiOptSat.v), [false] a release
    build.  Other assertions on the path ([guard]) are kept. *)
From Coq Require Import List Bool Arith ZArith.
From Verif Require Import Base MTypes MKernel MBiOptSat.
Import ListNotations.

Section Release.
  Context {I : enc_impl}.
  Variable dbg : bool.
  Variable E : environ.
  Notation M := (M I).

  (** algs.rs 850-904 *)
  Definition linsu_body_r (idx : nat) (base : list lit) (lb : nat) (x : nat * option assignment)
    : M ((nat * option assignment) + (linsu_result + (nat * option assignment))) :=
    let '(cost, sol) := x in
    if cost <=? lb then ret (inr (inr (cost, sol)))
    else
      let bound := cost - 1 in
      extend_encoding idx bound (bound + 1) ;;;
      e <- get_enc idx ;;
      a <- unwrap (oe_enforce_ub e bound) ;;
      r <- k_solve_assumps E (base ++ a) ;;
      match r with
      | RSat =>
          sol' <- oracle_solution ;;
          new_cost <- get_cost idx sol' ;;
          (if dbg then guard (new_cost <? cost) else ret tt) ;;;
          n <- gets (fun s => n_objs (s_stats s)) ;;
          cs <- get_costs n sol' ;;
          log_candidate E cs PhLinsu ;;;
          if new_cost <=? lb then
            log_end E ;;; ret (inr (inl (new_cost, sol')))
          else ret (inl (new_cost, Some sol'))
      | RUnsat => ret (inr (inr (cost, sol)))
      | RInterrupted => throw EPanic
      end.
  (** algs.rs 819-917 *)
  Definition linsu_r (idx : nat) (base : list lit) (ub : option (nat * option assignment))
    (lb : option nat) : M (option linsu_result) :=
    log_start E RtLinsu ;;;
    let lb := match lb with Some b => b | None => 0 end in
    b <- linsu_start E idx base ub ;;
    match b with
    | None => log_end E ;;; ret None
    | Some x =>
        r <- loop (ev_fuel E) (linsu_body_r idx base lb) x ;;
        match r with
        | inl r => ret (Some r)
        | inr (cost, sol) =>
            a <- linsu_final E idx base cost sol ;;
            log_end E ;;;
            ret (Some (cost, a))
        end
    end.
  (** algs.rs 757-788 *)
  Definition linsu_yield_r (idx : nat) (base : list lit) (ub : option (nat * option assignment))
    (lb : option nat) : M (option linsu_result) :=
    r <- linsu_r idx base ub lb ;;
    match r with
    | None => ret None
    | Some (cost, sol) =>
        n <- gets (fun s => n_objs (s_stats s)) ;;
        cs <- get_costs n sol ;;
        guard (match nth_error cs idx with Some c => c =? cost | None => false end) ;;;
        extend_encoding idx cost (cost + 1) ;;;
        e <- get_enc idx ;;
        a <- unwrap (oe_enforce_ub e cost) ;;
        yield_solutions E cs (base ++ a) sol ;;;
        ret (Some (cost, sol))
    end.
  (** bioptsat.rs 396-777 *)
  Definition bi_body_r (base : list lit) (dec_lb : nat) (x : bi_state) : M (bi_state + unit) :=
    let '(inc_cost, sol, inc_lb) := x in
    r <- linsu_r 0 base (Some (inc_cost, Some sol)) (Some inc_lb) ;;
    match r with
    | None => log_end E ;;; ret (inr tt)
    | Some (inc_cost, sol) =>
        dec_cost <- get_cost 1 sol ;;
        extend_encoding 0 inc_cost (inc_cost + 1) ;;;
        e <- get_enc 0 ;;
        a <- unwrap (oe_enforce_ub e inc_cost) ;;
        r <- linsu_yield_r 1 (base ++ a) (Some (dec_cost, Some sol)) (Some dec_lb) ;;
        ds <- unwrap r ;;
        let '(dec_cost, sol) := ds in
        if dec_cost <=? dec_lb then log_end E ;;; ret (inr tt)
        else
          extend_encoding 1 (dec_cost - 1) dec_cost ;;;
          e1 <- get_enc 1 ;;
          b <- or_err ErrEnc (oe_enforce_ub e1 (dec_cost - 1)) ;;
          add_clauses (cube_impl_cube base b) ;;;
          r <- k_solve_assumps E base ;;
          match r with
          | RSat =>
              sol' <- oracle_solution ;;
              c <- get_cost 0 sol' ;;
              ret (inl (c, sol', inc_cost + 1))
          | RUnsat => log_end E ;;; ret (inr tt)
          | RInterrupted => throw EPanic
          end
    end.
  (** bioptsat.rs 360-780 *)
  Definition bioptsat_r (base : list lit) : M unit :=
    log_start E RtBiOptSat ;;;
    n <- gets (fun s => length (p_encs (s_prob s))) ;;
    guard (n =? 2) ;;;
    e0 <- get_enc 0 ;;
    e1 <- get_enc 1 ;;
    r <- k_solve_assumps E base ;;
    match r with
    | RUnsat => ret tt
    | _ =>
        sol <- oracle_solution ;;
        c <- get_cost 0 sol ;;
        loop (ev_fuel E) (bi_body_r base (oe_offset e1)) (c, sol, oe_offset e0)
    end.
  (** bioptsat.rs 81-84, 262-272 *)
  Definition bi_solve_r (l : limits) : M unit := start_solving l ;;; bioptsat_r [].
End Release.
