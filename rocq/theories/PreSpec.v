(** * Specification of parsed problems

    What a parsed problem means (PB constraints and weighted soft clauses), independent of
    how prepro.rs translates it, and what is assumed of the external PB encoder. *)
From Coq Require Import List Bool Arith Lia ZArith.
From Verif Require Import Base Spec MTypes MKernel ApiSpec MPrepro.
Import ListNotations.

(** A PB constraint bounds the weight of its true literals. *)
Definition pb_holds (a : asg) (c : pb_constr) : Prop :=
  let v := Z.of_nat (wsum a (pb_lits c)) in
  match pb_kind c with
  | PbUb => (v <= pb_bound c)%Z
  | PbLb => (pb_bound c <= v)%Z
  | PbEq => v = pb_bound c
  end.

(** Total weight of the falsified soft clauses *)
Fixpoint violated (a : asg) (cws : list (clause * nat)) : nat :=
  match cws with
  | [] => 0
  | (c, w) :: r => (if clause_true a c then 0 else w) + violated a r
  end.
Definition soft_cost (o : soft_obj) (a : asg) : Z :=
  (snd o + Z.of_nat (violated a (fst o)))%Z.

Definition p_feasible (p : parsed) (a : asg) : Prop := Forall (pb_holds a) (pa_constrs p).
Definition p_costs (p : parsed) (a : asg) : list Z :=
  map (fun o => soft_cost o a) (pa_objs p).
Definition p_optimal (p : parsed) (c : list Z) : Prop :=
  (exists a, p_feasible p a /\ p_costs p a = c) /\
  (forall b, p_feasible p b -> ~ dominates (p_costs p b) c).

Definition pb_vars (c : pb_constr) : list nat := lits_vars (map fst (pb_lits c)).

(** Assumed of the encoder: new clauses use old and newly taken variables, imply the
    constraint, and can be satisfied by choosing the new variables whenever it holds. *)
Definition pb_enc_ok (pe : pb_encoder) : Prop := forall c n cls n',
  pe c n = Some (cls, n') -> (forall v, In v (pb_vars c) -> v < n) ->
  n <= n' /\ (forall v, In v (cls_vars cls) -> v < n') /\
  (forall a, sat a cls -> pb_holds a c) /\
  (forall a, pb_holds a c -> exists b, (forall v, v < n -> b v = a v) /\ sat b cls).

(** Well-formed parse result.  The variables are [0 .. next-1], all of them original
    ([mark_max_orig_var] runs after parsing); soft clauses are not empty and not repeated
    within an objective (or all have the same weight); weights are not all zero and fit the
    machine integers. *)
Definition soft_ok (o : soft_obj) : Prop :=
  (forall cw, In cw (fst o) -> fst cw <> []) /\
  (NoDup (map fst (fst o)) \/
   (forall x y, In x (fst o) -> In y (fst o) -> snd x = snd y)) /\
  (fst o = [] \/ exists cw, In cw (fst o) /\ snd cw <> 0) /\
  (let t := Z.of_nat (list_sum (map snd (fst o))) in
   (t <= isize_max)%Z /\ (isize_min <= snd o)%Z /\ (snd o + t <= isize_max)%Z).
Record parsed_ok (p : parsed) : Prop := mkParsedOk {
  po_vm : vm_next (pa_vm p) = S (vm_max_orig (pa_vm p));
  po_constrs : forall c v, In c (pa_constrs p) -> In v (pb_vars c) -> v < vm_next (pa_vm p);
  po_softs : forall o cw v, In o (pa_objs p) -> In cw (fst o) -> In v (lits_vars (fst cw)) ->
    v < vm_next (pa_vm p);
  po_objs : Forall soft_ok (pa_objs p) }.

(** A reported solution solves the parsed problem: it assigns every original variable, and
    every assignment with these values satisfies the constraints and has these costs. *)
Definition p_solution (p : parsed) (c : list Z) (sol : assignment) : Prop :=
  length sol = vm_next (pa_vm p) /\
  (forall v, v < vm_next (pa_vm p) -> exists b, nth_error sol v = Some (Some b)) /\
  (forall a, extends a sol -> p_feasible p a /\ p_costs p a = c).

(** ** Reindexing *)

(** A variable occurs in an instance *)
Definition occurs (i : inst) (v : nat) : Prop :=
  In v (cls_vars (in_cls i)) \/
  exists r, In r (in_objs i) /\ In v (lits_vars (map fst (fst r))).

(** All literals of the objective have weight [w] *)
Definition uniform (r : raw_obj) (w : nat) : Prop :=
  fst r <> [] /\ forall lw, In lw (fst r) -> snd lw = w.

Definition rename_lit (f : nat -> nat) (l : lit) : lit := mkLit (f (lvar l)) (lneg l).
