(** * Base types: literals, clauses, assignments

    These model the rustsat types [Var], [Lit], [Clause], [TernaryVal] and [Assignment]
    that scuttle uses (rustsat itself is not part of /repo; only the operations scuttle
    calls are modelled). *)
From Coq Require Import List Bool Arith Lia ZArith.
Import ListNotations.

(** A literal: a variable index and a sign ([rustsat::types::Lit]). *)
Record lit := mkLit { lvar : nat; lneg : bool }.

(** [Var::pos_lit], [Var::neg_lit] *)
Definition pos (v : nat) : lit := mkLit v false.
Definition neg (v : nat) : lit := mkLit v true.

(** [!l] / [-l] on literals *)
Definition lnot (l : lit) : lit := mkLit (lvar l) (negb (lneg l)).

Definition lit_eqb (a b : lit) : bool :=
  Nat.eqb (lvar a) (lvar b) && Bool.eqb (lneg a) (lneg b).

(** Total assignments, used to give meaning to clauses and as models found by the
    SAT oracle. *)
Definition asg := nat -> bool.

Definition lit_true (a : asg) (l : lit) : bool := xorb (lneg l) (a (lvar l)).

(** [rustsat::types::Clause]: a list of literals *)
Definition clause := list lit.

Definition clause_true (a : asg) (c : clause) : bool := existsb (lit_true a) c.

Definition sat (a : asg) (cs : list clause) : Prop :=
  forall c, In c cs -> clause_true a c = true.

Definition lits_true (a : asg) (ls : list lit) : Prop :=
  forall l, In l ls -> lit_true a l = true.

(** Variables of clauses and literal lists *)
Definition lits_vars (ls : list lit) : list nat := map lvar ls.
Definition cls_vars (cs : list clause) : list nat := flat_map lits_vars cs.

(** [rustsat::types::TernaryVal]: [None] is [DontCare]. *)
Definition tern := option bool.

(** [rustsat::types::Assignment]: a vector of ternary values indexed by variable. *)
Definition assignment := list tern.

(** [Assignment::var_value]: variables beyond the vector are [DontCare]. *)
Definition var_value (sol : assignment) (v : nat) : tern :=
  match nth_error sol v with Some t => t | None => None end.

(** [Assignment::lit_value] *)
Definition lit_value (sol : assignment) (l : lit) : tern :=
  match var_value sol (lvar l) with
  | Some b => Some (xorb (lneg l) b)
  | None => None
  end.

Definition is_true (t : tern) : bool :=
  match t with Some true => true | _ => false end.

(** [Assignment::truncate]: keep variables up to and including [v] *)
Definition truncate (sol : assignment) (v : nat) : assignment := firstn (S v) sol.

(** [Assignment::into_iter]: the literals of the assigned variables, in order *)
Fixpoint sol_lits_from (i : nat) (sol : assignment) : list lit :=
  match sol with
  | [] => []
  | Some b :: r => mkLit i (negb b) :: sol_lits_from (S i) r
  | None :: r => sol_lits_from (S i) r
  end.
Definition sol_lits (sol : assignment) : list lit := sol_lits_from 0 sol.

(** The oracle's model restricted to variables up to [v]
    ([rustsat::solvers::Solve::solution]); CaDiCaL assigns every reserved variable. *)
Definition sol_of (m : asg) (v : nat) : assignment :=
  map (fun i => Some (m i)) (seq 0 (S v)).

(** A total assignment [a] extends a (partial) solution. *)
Definition extends (a : asg) (sol : assignment) : Prop :=
  forall v b, nth_error sol v = Some (Some b) -> a v = b.

(** Two assignments agree on a set of variables. *)
Definition agree (U : nat -> Prop) (a b : asg) : Prop := forall v, U v -> a v = b v.

(** Sum of the weights of true literals. *)
Fixpoint wsum (a : asg) (ls : list (lit * nat)) : nat :=
  match ls with
  | [] => 0
  | (l, w) :: r => (if lit_true a l then w else 0) + wsum a r
  end.

Fixpoint wtotal (ls : list (lit * nat)) : nat :=
  match ls with [] => 0 | (_, w) :: r => w + wtotal r end.
