(** * Model of solution tightening (core/src/algs.rs 526-585, 800-810; feature [sol-tightening])

    Tightening flips objective literals in the oracle after a satisfiable call.  The oracle is
    abstract here: a state has a current model, and [ora_flip] is [FlipLit::flip_lit].  Panics are
    [None]; the log event (algs.rs 580-582) is left out, and so is an inprocessor (algs.rs
    547-553). *)
From Coq Require Import List Bool Arith.
From Verif Require Import Base MTypes MKernel.
Import ListNotations.

Record flip_oracle := mkFlip {
  ora_st : Type;
  ora_model : ora_st -> asg;
  ora_flip : ora_st -> lit -> ora_st * bool }.

(** [Assignment::assign_lit] *)
Fixpoint assign_at (sol : assignment) (v : nat) (b : bool) : assignment :=
  match v, sol with
  | 0, [] => [Some b]
  | 0, _ :: r => Some b :: r
  | S v, [] => None :: assign_at [] v b
  | S v, t :: r => t :: assign_at r v b
  end.
Definition assign_lit (sol : assignment) (l : lit) : assignment :=
  assign_at sol (lvar l) (negb (lneg l)).

(** algs.rs 257-290, proofs.rs 900-932: the keys of [obj_lit_data] *)
Definition obj_keys (os : list objective) : list lit := flat_map (fun o => map fst (obj_iter o)) os.
Definition has_key (os : list objective) (l : lit) : bool := existsb (lit_eqb l) (obj_keys os).

Section Tight.
  Variable O : flip_oracle.
  Variable os : list objective.

  (** algs.rs 554-568: the loop over the literals of an objective; the state is the oracle, the
      solution, the cost and the reduction *)
  Fixpoint tight_loop (tightening : bool) (ls : list (lit * nat))
      (x : ora_st O * assignment * nat * nat) : ora_st O * assignment * nat * nat :=
    match ls with
    | [] => x
    | (l, w) :: r =>
        let '(t, sol, cost, red) := x in
        tight_loop tightening r
          (if is_true (lit_value sol l) then
             if tightening && negb (has_key os (lnot l)) then
               let '(t', flipped) := ora_flip O t (lnot l) in
               if flipped then (t', assign_lit sol (lnot l), cost, red + w)
               else (t', sol, cost + w, red)
             else (t, sol, cost + w, red)
           else x)
    end.

  (** algs.rs 534-584 [get_cost_with_heuristic_improvements].  [Assignment::max_var] of a solution
      is the last variable of the vector; 574-577 is a [debug_assert_eq!]. *)
  Definition get_cost_tight (tightening : bool) (idx : nat) (t : ora_st O) (sol : assignment)
    : option (ora_st O * assignment * nat) :=
    match nth_error os idx with
    | None => None
    | Some o =>
        let '(t', sol', cost, red) := tight_loop tightening (obj_iter o) (t, sol, 0, 0) in
        if red =? 0 then Some (t', sol', cost)
        else
          match length sol' with
          | 0 => None
          | S v =>
              let sol2 := sol_of (ora_model O t') v in
              if sol_cost o sol2 =? cost then Some (t', sol2, cost) else None
          end
    end.

  (** algs.rs 804-807: all objectives from index [idx] on *)
  Fixpoint get_costs_tight (tightening : bool) (n idx : nat) (t : ora_st O) (sol : assignment)
    : option (ora_st O * assignment * list nat) :=
    match n with
    | 0 => Some (t, sol, [])
    | S n' =>
        match get_cost_tight tightening idx t sol with
        | None => None
        | Some (t', sol', c) =>
            match get_costs_tight tightening n' (S idx) t' sol' with
            | None => None
            | Some (t2, sol2, cs) => Some (t2, sol2, c :: cs)
            end
        end
    end.

  (** algs.rs 796-810 [get_solution_and_internal_costs]; [v] is the largest variable *)
  Definition solution_and_costs_tight (tightening : bool) (v : nat) (t : ora_st O)
    : option (ora_st O * list nat * assignment) :=
    match get_costs_tight tightening (length os) 0 t (sol_of (ora_model O t) v) with
    | None => None
    | Some (t', sol, cs) => Some (t', cs, sol)
    end.
End Tight.
