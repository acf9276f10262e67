(** * Specification of multi-objective optimisation

    Independent of the model of the solver: what an instance is, what its feasible
    assignments are, what an objective is worth, and what the Pareto front is. *)
From Coq Require Import List Bool Arith Lia ZArith.
From Verif Require Import Base.
Import ListNotations.

(** An objective as the user gives it: literal/weight pairs and an integer offset,
    to be minimised. *)
Definition raw_obj := (list (lit * nat) * Z)%type.

Definition obj_value (o : raw_obj) (a : asg) : Z :=
  (snd o + Z.of_nat (wsum a (fst o)))%Z.

Definition costs (objs : list raw_obj) (a : asg) : list Z :=
  map (fun o => obj_value o a) objs.

(** An instance: hard clauses and objectives.  [feasible] is satisfaction. *)
Definition feasible (cls : list clause) (a : asg) : Prop := sat a cls.

Definition weakly_dominates (c d : list Z) : Prop := Forall2 Z.le c d.
Definition dominates (c d : list Z) : Prop := weakly_dominates c d /\ c <> d.

(** [c] is the cost vector of a feasible assignment that no feasible assignment
    dominates. *)
Definition pareto_optimal (cls : list clause) (objs : list raw_obj) (c : list Z) : Prop :=
  (exists a, feasible cls a /\ costs objs a = c) /\
  (forall b, feasible cls b -> ~ dominates (costs objs b) c).

(** A list of cost vectors is the Pareto front: exactly the optimal vectors, each once. *)
Definition is_pareto_front (cls : list clause) (objs : list raw_obj) (F : list (list Z)) : Prop :=
  NoDup F /\ forall c, In c F <-> pareto_optimal cls objs c.

(** A reported solution over the variables [0..n-1]: it assigns exactly these variables
    and extends to a feasible assignment with the given costs. *)
Definition valid_solution (cls : list clause) (objs : list raw_obj) (n : nat)
    (c : list Z) (sol : assignment) : Prop :=
  length sol = n /\
  (forall v, v < n -> exists b, nth_error sol v = Some (Some b)) /\
  exists a, extends a sol /\ feasible cls a /\ costs objs a = c.
