(** * What the statements about the proof lines of BiOptSat rely on *)
From Coq Require Import List Arith ZArith Bool.
From Verif Require Import Base MTypes MPMinimal VeriPB MProofs ProofRun TracerThm ReformSpec MProofAlg ReifSpec.
Import ListNotations.

(** [x] says that the increasing objective is at least [inc_cost]; nothing has to be proved if this is its offset. Otherwise the
    bound is the one of linear search, or follows from the cut ([d] is false) and the bound ([x] or [d]) of the last iteration *)
Definition inc_bound (k : chk) (e0 : penc) (inc_cost inc_lb : nat) (inc_lb_id : option nat) (b : bst) (x : ax pv) : Prop :=
  pe_offset e0 < inc_cost ->
  (inc_cost = inc_lb -> exists c l d, bs_cut b = Some c /\ bs_lb b = Some l /\ derived k c [ax_not d] /\ derived k l [x; d] /\ ax_var x <> ax_var d) /\
  (inc_cost <> inc_lb -> exists i, inc_lb_id = Some i /\ derived k i [x]).
(** the cut of the solution: it is better in the increasing objective, if this is possible, or one of [ds] holds *)
Definition pmin_says (k : chk) (e0 : penc) (inc_cost pmin_cut : nat) (x : ax pv) (ds : list (ax pv)) : Prop :=
  derived k pmin_cut ((if inc_cost <=? pe_offset e0 then [] else [ax_not x]) ++ ds).
(** the clauses handed to the solver *)
Definition reg_units (k : chk) (as_ : list lit) (new : list (clause * nat)) : Prop :=
  map fst new = map (fun a => [a]) as_ /\ forall c i, In (c, i) new -> derived k i (map axiom c).
(** the objective has several literals and outputs, the encoding has no buffered inputs *)
Definition several (c : cobj) : Prop := length (obj_iter (co_obj c)) <> 1 /\ pe_nout (co_enc c) <> 1 /\ pe_buf_empty (co_enc c) = true.
