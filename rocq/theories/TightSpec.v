(** * Vocabulary for statements about solution tightening (C84).  Definitions only. *)
From Coq Require Import List Bool Arith ZArith.
From Verif Require Import Base Spec MTypes MTight InproSpec.
Import ListNotations.

(** Flipping: a flip that is granted leads to another model of the clauses in which the literal is
    true and every other variable of an objective (those are frozen) is as before; a flip that is
    refused changes nothing. *)
Definition flip_ok (cls : list clause) (ros : list raw_obj) (O : flip_oracle) : Prop :=
  forall t l t' b, sat (ora_model O t) cls -> ora_flip O t l = (t', b) ->
    if b then sat (ora_model O t') cls /\ lit_true (ora_model O t') l = true /\
      (forall r x w, In r ros -> In (x, w) (fst r) -> lvar x <> lvar l ->
         ora_model O t' (lvar x) = ora_model O t (lvar x))
    else forall v, ora_model O t' v = ora_model O t v.

(** The values of the objectives of the user that the solver's cost vector stands for *)
Definition user_costs (ros : list raw_obj) (cs : list nat) : list Z :=
  map (fun x : raw_obj * nat => (snd (fst x) + Z.of_nat (unit_of (fst x)) * Z.of_nat (snd x))%Z) (combine ros cs).

(** No literal is in two objectives *)
Definition not_shared (ros : list raw_obj) : Prop :=
  forall j k r1 r2 l w1 w2, nth_error ros j = Some r1 -> nth_error ros k = Some r2 ->
    In (l, w1) (fst r1) -> In (l, w2) (fst r2) -> j = k.
