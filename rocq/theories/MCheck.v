(** * Model of the feature [check-non-dominance] (core/src/types.rs 100-132)

    With this feature and debug assertions, extending a Pareto front checks the new points. *)
From Coq Require Import List Bool ZArith.
From Verif Require Import Base Spec MTypes.
Import ListNotations.

(** types.rs 105-123: the closure [check_dominated]; [dom] is -1, 0 or 1 *)
Fixpoint check_dom_loop (c1 c2 : list Z) (dom : Z) : bool :=
  match c1, c2 with
  | x1 :: r1, x2 :: r2 =>
      if (x1 <? x2)%Z then
        if (dom <=? 0)%Z then check_dom_loop r1 r2 (-1) else false
      else if (x2 <? x1)%Z then
        if (0 <=? dom)%Z then check_dom_loop r1 r2 1 else false
      else check_dom_loop r1 r2 dom
  | _, _ => negb (dom =? 0)%Z
  end.
Definition check_dominated (c1 c2 : list Z) : bool := check_dom_loop c1 c2 0.

(** types.rs 98-132 [extend]: the set of costs is computed once, before the points are pushed; a failing debug assertion is
    [None]. The order in which the set is visited does not matter. *)
Definition point_passes {S} (cost_set : list (list Z)) (nd : nd_point S) : bool :=
  forallb (fun c => negb (check_dominated (nd_costs nd) c)) cost_set &&
  negb (existsb (fun c => if list_eq_dec Z.eq_dec c (nd_costs nd) then true else false) cost_set).
Definition checked_extend {S} (f : front S) (new : list (nd_point S)) : option (front S) :=
  if forallb (point_passes (map nd_costs f)) new then Some (f ++ new) else None.
(** algs.rs 699, 705, 719, 739: during a run every point is pushed by a call of its own *)
Fixpoint checked_pushes {S} (f : front S) (new : list (nd_point S)) : option (front S) :=
  match new with
  | [] => Some f
  | nd :: r => match checked_extend f [nd] with Some f' => checked_pushes f' r | None => None end
  end.
