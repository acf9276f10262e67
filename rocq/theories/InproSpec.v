(** * Vocabulary for statements about inprocessing (C83).  Definitions only. *)
From Coq Require Import List Bool Arith ZArith.
From Verif Require Import Base Spec MTypes MKernel MOll EncSpec TotSpec ApiSpec MPrepro PreSpec MMaxPre MaxPreSpec MInpro.
Import ListNotations.

(** Forgetting the clauses but not the variables of a totalizer database: the nodes stay the same,
    no clause counts as built, and no variable gets a new meaning. *)
Definition reset_enc_ok {I : enc_impl} {SP : enc_spec I} {T : tot_impl I} (TS : tot_spec SP T)
    (re : ti_db T -> ti_db T) : Prop :=
  forall d, tb_ext SP T TS d (re d) /\ (forall v, tb_leafv SP T TS (re d) v -> tb_leafv SP T TS d v) /\
    (forall v, tb_aux SP T TS (re d) v -> tb_aux SP T TS d v) /\
    (forall v, tb_free SP T TS (re d) v -> tb_free SP T TS d v) /\
    (forall m, tb_exact SP T TS d m -> tb_exact SP T TS (re d) m) /\ tb_cls SP T TS (re d) = [].

(** What a solver that has just been core boosted hands to MaxPre: clauses, soft clauses, and what
    core boosting found to be the least value of each objective, in multiples of its unit *)
Definition handed {I} (T : tot_impl I) (E : environ) (re : ti_db T -> ti_db T) (s : st I)
    : option (list clause * list soft_obj * list nat) :=
  match kernel_core_boost T E s with
  | (Done (Some rs), s') =>
      match s_cnf s' with
      | Some cnf =>
          let '(cls, _, os, _) := ip_collect T re rs cnf (vm_next (p_vm (s_prob s'))) in
          Some (cls, os, map (fun x => rf_offset (fst x)) rs)
      | None => None
      end
  | _ => None
  end.

(** The unit of an objective: the weight of its literals if they all have the same, otherwise 1 *)
Definition unit_of (r : raw_obj) : nat :=
  match fst r with
  | [] => 1
  | (_, w) :: ls => if forallb (fun lw => snd lw =? w) ls then w else 1
  end.
(** Costs of the handed instance in terms of the instance of the user *)
Definition in_user (rs : list raw_obj) (offs : list nat) (c : list Z) : list Z :=
  map (fun x : raw_obj * (nat * Z) => let '(r, (off, z)) := x in
         (snd r + Z.of_nat (unit_of r) * (Z.of_nat off + z))%Z) (combine rs (combine offs c)).

(** Pareto-optimal cost vectors of clauses with soft clauses *)
Definition soft_optimal (cls : list clause) (os : list soft_obj) (c : list Z) : Prop :=
  (exists a, sat a cls /\ soft_costs os a = c) /\
  (forall b, sat b cls -> ~ dominates (soft_costs os b) c).
