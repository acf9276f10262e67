(** * Model of core/src/algs/bioptsat.rs

    [bioptsat] is modelled for the increasing objective 0 and the decreasing objective 1,
    without a lookup of known points and without a starting point: the only call in the
    code base is the one of [alg_main] (lines 263-271), with empty base assumptions. *)
From Coq Require Import List Bool Arith Lia ZArith.
From Verif Require Import Base MTypes MKernel.
Import ListNotations.

Section BiOptSat.
  Context {I : enc_impl}.
  Variable E : environ.
  Notation M := (M I).
  Notation st := (st I).

  (** [atomics::cube_impl_cube(a, b)]: the clauses [a -> l] for [l] in [b] *)
  Definition cube_impl_cube (a b : list lit) : list clause :=
    map (fun l => map lnot a ++ [l]) b.

  (** bioptsat.rs 396-777: one iteration of the loop.  State: cost of the increasing
      objective, solution, lower bound of the increasing objective *)
  Definition bi_state := (nat * assignment * nat)%type.
  Definition bi_body (base : list lit) (dec_lb : nat) (x : bi_state) : M (bi_state + unit) :=
    let '(inc_cost, sol, inc_lb) := x in
    r <- linsu E 0 base (Some (inc_cost, Some sol)) (Some inc_lb) ;;
    match r with
    | None => log_end E ;;; ret (inr tt)
    | Some (inc_cost, sol) =>
        dec_cost <- get_cost 1 sol ;;
        extend_encoding 0 inc_cost (inc_cost + 1) ;;;
        e <- get_enc 0 ;;
        a <- unwrap (oe_enforce_ub e inc_cost) ;;
        r <- linsu_yield E 1 (base ++ a) (Some (dec_cost, Some sol)) (Some dec_lb) ;;
        ds <- unwrap r ;;
        let '(dec_cost, sol) := ds in
        if dec_cost <=? dec_lb then log_end E ;;; ret (inr tt)
        else
          extend_encoding 1 (dec_cost - 1) dec_cost ;;;
          e1 <- get_enc 1 ;;
          b <- or_err ErrEnc (oe_enforce_ub e1 (dec_cost - 1)) ;;
          add_clauses (cube_impl_cube base b) ;;;
          r <- k_solve_assumps E base ;;
          match r with
          | RSat =>
              sol' <- oracle_solution ;;
              c <- get_cost 0 sol' ;;
              ret (inl (c, sol', inc_cost + 1))
          | RUnsat => log_end E ;;; ret (inr tt)
          | RInterrupted => throw EPanic
          end
    end.

  (** bioptsat.rs 360-780 [bioptsat]; note the missing routine end on line 387 *)
  Definition bioptsat (base : list lit) : M unit :=
    log_start E RtBiOptSat ;;;
    n <- gets (fun s => length (p_encs (s_prob s))) ;;
    guard (n =? 2) ;;;
    e0 <- get_enc 0 ;;
    e1 <- get_enc 1 ;;
    r <- k_solve_assumps E base ;;
    match r with
    | RUnsat => ret tt
    | _ =>
        sol <- oracle_solution ;;
        c <- get_cost 0 sol ;;
        loop (ev_fuel E) (bi_body base (oe_offset e1)) (c, sol, oe_offset e0)
    end.

  (** bioptsat.rs 262-272 [alg_main] *)
  Definition bi_main : M unit := bioptsat [].

  (** bioptsat.rs 81-84 [Solve::solve] *)
  Definition bi_solve (l : limits) : M unit := start_solving l ;;; bi_main.

  (** bioptsat.rs 117-129 [Init::new], 211-245 [init]; [None] also for the assertion of
      exactly two objectives (line 212) *)
  Definition bi_new (cls : list clause) (os : list objective) (vm : var_manager)
    (o : kopts) : option st :=
    match kernel_new cls os vm o with
    | Some s => if length os =? 2 then Some s else None
    | None => None
    end.
End BiOptSat.
