(** * Vocabulary for statements about the solver's API

    Instances as a user passes them, well-formedness, the three algorithms, and histories of
    API calls.  Definitions only. *)
From Coq Require Import List Bool Arith Lia ZArith.
From Verif Require Import Base Spec MTypes MKernel MPMinimal MLowerBounding MBiOptSat EncSpec.
Import ListNotations.

(** An instance: clauses, objectives as literal/weight pairs with offset, and the variable
    manager ([Init::new] of core/src/algs.rs 54-62 with [Objective::new] applied to each
    objective, as in core/src/prepro.rs 305-334). *)
Record inst := mkInst {
  in_cls : list clause;
  in_objs : list raw_obj;
  in_vm : var_manager }.

(** [Objective::new(lits, offset, idx)] for every objective, numbered from [k] *)
Fixpoint build_objs (k : nat) (rs : list raw_obj) : list objective :=
  match rs with
  | [] => []
  | r :: rs' => obj_new (fst r) (snd r) k :: build_objs (S k) rs'
  end.

(** Number of original variables: they are [0 .. n_orig - 1] *)
Definition n_orig (i : inst) : nat := S (vm_max_orig (in_vm i)).

(** An objective [Objective::new] represents faithfully: distinct literals, or equal
    weights; and not all weights are zero (see C23 and C56 for why both are needed). *)
Definition obj_ok (r : raw_obj) : Prop :=
  (NoDup (map fst (fst r)) \/ (forall lw lw', In lw (fst r) -> In lw' (fst r) -> snd lw = snd lw')) /\
  (fst r = [] \/ exists lw, In lw (fst r) /\ snd lw <> 0).
(** All values of the objective are machine integers ([isize]) *)
Definition obj_fits (r : raw_obj) : Prop :=
  (Z.of_nat (wtotal (fst r)) <= isize_max)%Z /\
  (isize_min <= snd r)%Z /\ (snd r + Z.of_nat (wtotal (fst r)) <= isize_max)%Z.

(** Well-formed instance: the variable manager covers the variables of clauses and
    objectives. *)
Record inst_ok (i : inst) : Prop := mkInstOk {
  io_orig : vm_max_orig (in_vm i) <= vm_max_enc (in_vm i);
  io_next : vm_max_enc (in_vm i) < vm_next (in_vm i);
  io_cls : forall v, In v (cls_vars (in_cls i)) -> v <= vm_max_enc (in_vm i);
  io_objs : forall r v, In r (in_objs i) -> In v (lits_vars (map fst (fst r))) ->
    v <= vm_max_enc (in_vm i);
  io_ok : Forall obj_ok (in_objs i);
  io_fits : Forall obj_fits (in_objs i) }.

(** Assignments that agree on the original variables *)
Definition same_orig (i : inst) (a b : asg) : Prop := forall v, v < n_orig i -> a v = b v.

(** Enumeration of solutions works on original variables only, so it needs the costs to be
    determined by them at optimal points: no feasible assignment that agrees with an optimal
    one on the original variables has other-than-worse costs. *)
Definition orig_determined (i : inst) : Prop := forall a b,
  feasible (in_cls i) a -> feasible (in_cls i) b -> same_orig i a b ->
  pareto_optimal (in_cls i) (in_objs i) (costs (in_objs i) a) ->
  weakly_dominates (costs (in_objs i) a) (costs (in_objs i) b).
(** A sufficient condition: objectives over original variables *)
Definition objs_orig (i : inst) : Prop := forall r v, In r (in_objs i) ->
  In v (lits_vars (map fst (fst r))) -> v < n_orig i.

(** Options under which enumeration is well-behaved on the instance *)
Definition enum_ok (i : inst) (o : kopts) : Prop :=
  match o_enum o with
  | NoEnum => True
  | Solutions _ => (forall s, o_bcg o s = default_blocking_clause s) /\ orig_determined i
  | PMCSs _ => objs_orig i
  end.

(** The algorithms *)
Inductive alg := APMinimal | ALowerBounding | ABiOptSat.
Definition alg_new {I} (al : alg) (i : inst) (o : kopts) : option (st I) :=
  let os := build_objs 0 (in_objs i) in
  match al with
  | APMinimal => pminimal_new (in_cls i) os (in_vm i) o
  | ALowerBounding => lb_new (in_cls i) os (in_vm i) o
  | ABiOptSat => bi_new (in_cls i) os (in_vm i) o
  end.
Definition alg_solve {I} (al : alg) (E : environ) (l : limits) : M I unit :=
  match al with
  | APMinimal => pminimal_solve E l
  | ALowerBounding => lb_solve E l
  | ABiOptSat => bi_solve E l
  end.

(** [Limits] with no zero entry *)
Definition lims_pos (l : limits) : Prop :=
  l_pps l <> Some 0 /\ l_sols l <> Some 0 /\ l_candidates l <> Some 0 /\ l_oracle_calls l <> Some 0.

(** Steps of a history of API calls.  Every call of [solve] comes with its own environment:
    oracle behaviour, interrupts, logger failures. *)
Inductive step :=
| Solve (E : environ) (l : limits)
| Attach
| Detach.
Definition run_step {I} (al : alg) (x : step) (s : st I) : st I :=
  match x with
  | Solve E l => snd (alg_solve al E l s)
  | Attach => snd (attach_logger s)
  | Detach => snd (detach_logger s)
  end.
Fixpoint run {I} (al : alg) (h : list step) (s : st I) : st I :=
  match h with [] => s | x :: h' => run al h' (run_step al x s) end.
Definition step_ok (x : step) : Prop :=
  match x with Solve E l => oracle_ok E /\ lims_pos l | _ => True end.
Definition run_ok (h : list step) : Prop := Forall step_ok h.

(** An environment that never disturbs the run *)
Definition calm (E : environ) : Prop :=
  (forall n, ev_flag E n = false) /\ (forall n, ev_logfail E n = false) /\
  (forall q, ev_oracle E q <> AErr).

(** ** What a correct front is *)

(** A reported point: an optimal cost vector with at least one solution, and different
    solutions that are all feasible with exactly these costs *)
Definition sound_point (i : inst) (p : nd_point assignment) : Prop :=
  pareto_optimal (in_cls i) (in_objs i) (nd_costs p) /\
  nd_sols p <> [] /\ NoDup (nd_sols p) /\
  (forall sol, In sol (nd_sols p) ->
     valid_solution (in_cls i) (in_objs i) (n_orig i) (nd_costs p) sol).
(** All points are correct and no cost vector is reported twice *)
Definition sound_front (i : inst) (f : front assignment) : Prop :=
  NoDup (map nd_costs f) /\ Forall (sound_point i) f.
(** The reported cost vectors are exactly the optimal ones *)
Definition exact_front (i : inst) (f : front assignment) : Prop :=
  is_pareto_front (in_cls i) (in_objs i) (map nd_costs f).

(** Running the first [solve] on a new solver: result and final state *)
Definition first_solve {I} (al : alg) (i : inst) (o : kopts) (E : environ) (l : limits)
  : option (res unit * st I) :=
  match alg_new al i o with Some s => Some (alg_solve al E l s) | None => None end.
