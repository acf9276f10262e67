(** * What is assumed of MaxPre, and what a reconstructed front is (C82) *)
From Coq Require Import List Bool Arith Lia ZArith.
From Verif Require Import Base Spec MTypes MKernel ApiSpec MPrepro PreSpec MMaxPre.
Import ListNotations.

Definition soft_costs (os : list soft_obj) (a : asg) : list Z := map (fun o => soft_cost o a) os.
(** However the unassigned variables are set, the assignment satisfies the clauses at these costs *)
Definition solves (cls : list clause) (os : list soft_obj) (c : list Z) (sol : assignment) : Prop :=
  forall a, extends a sol -> sat a cls /\ soft_costs os a = c.

(** One run of MaxPre: soft clauses come out as units and well-formed; reconstruction turns a
    solution of the output into one of the input that is at least as good; and for every solution
    of the input there is one of the output that is at least as good. *)
Record mp_ok (cls : list clause) (os : list soft_obj) (out : mp_out) : Prop := mkMpOk {
  mo_len : length (mp_objs out) = length os;
  mo_units : forall o cw, In o (mp_objs out) -> In cw (fst o) -> exists l, fst cw = [l];
  mo_softs : Forall soft_ok (mp_objs out);
  mo_sound : forall c sol, solves (mp_cls out) (mp_objs out) c sol ->
    exists c', solves cls os c' (mp_rec out sol) /\ weakly_dominates c' c;
  mo_complete : forall a, sat a cls -> exists b, sat b (mp_cls out) /\
    weakly_dominates (soft_costs (mp_objs out) b) (soft_costs os a) }.

(** No variable of the objectives is above all variables of the clauses *)
Definition mp_covered (out : mp_out) : Prop := forall o cw v,
  In o (mp_objs out) -> In cw (fst o) -> In v (lits_vars (fst cw)) ->
  v = 0 \/ exists u, In u (cls_vars (mp_cls out)) /\ v <= u.

(** The problem MaxPre hands back, as a problem of its own *)
Definition mp_problem (out : mp_out) : parsed :=
  let m := mp_max_var (mp_cls out) in
  mkParsed (map pb_of_clause (mp_cls out)) (mp_objs out) (mkVm (S m) m m).

(** A printed front: optimal cost vectors, each once, each with solutions that have exactly these
    costs in the problem as it was read *)
Definition mp_front (p : parsed) (f : front assignment) : Prop :=
  NoDup (map nd_costs f) /\
  Forall (fun nd => p_optimal p (nd_costs nd) /\ nd_sols nd <> [] /\
    Forall (fun sol => forall a, extends a sol -> p_feasible p a /\ p_costs p a = nd_costs nd) (nd_sols nd)) f.
