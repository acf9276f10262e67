(** * What the statements about reified assumptions and objective bounds in the proof rely on

    The definitions of the outputs of an encoding come from rustsat. Here it is said what is expected
    of them, in terms of the state of the checker. *)
From Coq Require Import List Arith ZArith Bool.
From Verif Require Import Base MTypes VeriPB MProofs ProofRun ProofCut TracerThm ReformSpec.
Import ListNotations.

(** ** Weighted sums *)
(** inputs of an encoding: literals of different variables with positive weights *)
Definition w_wf (ts : list (Z * ax pv)) : Prop := proper_ls (map snd ts) /\ forall t, In t ts -> (0 < fst t)%Z.
Definition wtot (ts : list (Z * ax pv)) : Z := zsum (map fst ts).
(** output [o] is true if the sum is at least [v] *)
Definition wif_def (ts : list (Z * ax pv)) (o : ax pv) (v : Z) : pconstr :=
  let k := (wtot ts - v + 1)%Z in mkLb (map (fun t => (fst t, ax_not (snd t))) ts ++ [(k, o)]) k.
(** output [o] is only true if the sum is at least [v] *)
Definition wonly_def (ts : list (Z * ax pv)) (o : ax pv) (v : Z) : pconstr := mkLb (ts ++ [(v, ax_not o)]) v.
(** [D] has the normal form of such a definition ([ReifThm.wif_concrete], [ReifThm.wonly_concrete]) *)
Definition wif (D : pconstr) (ts : list (Z * ax pv)) (o : ax pv) (v : Z) : Prop :=
  (forall x, lb_coef pv_eqd D x = - t_coef pv_eqd ts x + (wtot ts - v + 1) * cl_coef [o] x)%Z /\
  lb_degree pv_eqd D = (wtot ts - v + 1)%Z.
Definition wonly (D : pconstr) (ts : list (Z * ax pv)) (o : ax pv) (v : Z) : Prop :=
  (forall x, lb_coef pv_eqd D x = t_coef pv_eqd ts x + v * cl_coef [ax_not o] x)%Z /\ lb_degree pv_eqd D = v.

(** ** Outputs of an encoding of the sum [ts], counted from the offset of the encoding *)
(** [o] is the output for the objective value [v], its definitions are in the proof *)
Record out_at (k : chk) (e : penc) (ts : list (Z * ax pv)) (v : nat) (o : lit) (fi oi : nat) : Prop := mkOutAt {
  oa_details : pe_details e v = Some (o, (Some fi, Some oi));
  oa_pos : pe_offset e < v;
  oa_tot : (Z.of_nat v - Z.of_nat (pe_offset e) <= wtot ts)%Z;
  oa_out : ~ In (PVs (lvar o)) (map ax_var (map snd ts));
  oa_if : exists D, In (fi, D) (k_all k) /\ wif D ts (axiom o) (Z.of_nat v - Z.of_nat (pe_offset e));
  oa_only : exists D, In (oi, D) (k_all k) /\ wonly D ts (axiom o) (Z.of_nat v - Z.of_nat (pe_offset e))
}.
Definition has_out (k : chk) (e : penc) (ts : list (Z * ax pv)) (v : nat) (o : lit) : Prop :=
  exists fi oi, out_at k e ts v o fi oi.
(** the literals [as_] are the negated outputs of the values following [val] *)
Fixpoint outs_after (k : chk) (e : penc) (ts : list (Z * ax pv)) (val : nat) (as_ : list lit) : Prop :=
  match as_ with
  | [] => True
  | a :: r =>
      val < pe_next_higher e val /\ has_out k e ts (pe_next_higher e val) (lnot a) /\
      outs_after k e ts (pe_next_higher e val) r
  end.
(** the assumptions that enforce a sum below [value]: the negated outputs of [value] and the following values *)
Definition outs_from (k : chk) (e : penc) (ts : list (Z * ax pv)) (value : nat) (as_ : list lit) : Prop :=
  match as_ with
  | [] => False
  | a :: r => has_out k e ts value (lnot a) /\ outs_after k e ts value r
  end.

(** ** Encodings with buffered inputs *)
(** [l] is a literal of the objective whose weight alone reaches [value] *)
Definition heavy (o : objective) (value : nat) (l : lit) : Prop := exists w, In (l, w) (obj_iter o) /\ value <= w.
(** the output [l] is defined over a part of the objective, for a value of at least [value] *)
Definition part_out (k : chk) (o : objective) (value : nat) (l : lit) (oi : nat) : Prop :=
  exists D ts v, In (oi, D) (k_all k) /\ def_says D ts v (ax_not (axiom l)) /\ (Z.of_nat value <= v)%Z /\
    forall a, (lb_sum a ts <= Z.of_nat (wsum (on_solver a) (obj_iter o)))%Z.
(** the assumptions that enforce the objective below [value]: the negated inputs that are heavy
    enough alone, and the negated outputs of the part of the objective that is encoded *)
Fixpoint buf_from (k : chk) (e : penc) (o : objective) (value : nat) (val : nat) (as_ : list lit) : Prop :=
  match as_ with
  | [] => True
  | a :: r =>
      exists olit i oi, pe_details e val = Some (olit, (i, oi)) /\
        ((lvar a < lvar olit /\ heavy o value (lnot a) /\ buf_from k e o value val r) \/
         (lvar olit <= lvar a /\ a = lnot olit /\ (exists d, oi = Some d /\ part_out k o value olit d) /\
          buf_from k e o value (pe_next_higher e val) r))
  end.

(** ** Clauses of the proof *)
(** the constraint [id] of the proof says that one of the literals is true *)
Definition says (k : chk) (id : nat) (ls : list (ax pv)) : Prop :=
  exists C, In (id, C) (k_all k) /\ forall a, lb_holds a C <-> exists l, In l ls /\ ax_true a l = true.
(** every clause handed to the solver is in the proof with its id *)
Definition reg_says (k : chk) (reg : list (clause * nat)) : Prop :=
  forall c id, In (c, id) reg -> says k id (map axiom c).
(** all constraints of the proof hold *)
Definition proof_holds (a : pv -> bool) (k : chk) : Prop := forall e, In e (k_all k) -> lb_holds a (snd e).
(** the solver variable [r] is in no constraint of the proof *)
Definition unused (k : chk) (r : nat) : Prop := forall e, In e (k_all k) -> ~ In (PVs r) (cvars (snd e)).
(** [a] with [v] set to [b] *)
Definition put (a : pv -> bool) (v : pv) (b : bool) : pv -> bool := fun x => if pv_eqd v x then b else a x.

(** ** Cores of linear search *)
(** [xs] in the order of [ys], some left out *)
Inductive subl {A} : list A -> list A -> Prop :=
| subl_nil : forall ys, subl [] ys
| subl_take : forall x xs ys, subl xs ys -> subl (x :: xs) (x :: ys)
| subl_skip : forall y xs ys, subl xs ys -> subl xs (y :: ys).
(** [outs] are the outputs for [val] and the following values *)
Fixpoint chain (k : chk) (e : penc) (ts : list (Z * ax pv)) (val : nat) (outs : list lit) : Prop :=
  match outs with
  | [] => True
  | o :: r => has_out k e ts val o /\ (r <> [] -> val < pe_next_higher e val) /\ chain k e ts (pe_next_higher e val) r
  end.
(** the same for an encoding of a part of the objective *)
Fixpoint part_chain (k : chk) (e : penc) (o : objective) (value val : nat) (outs : list lit) : Prop :=
  match outs with
  | [] => True
  | l :: r => (exists i d, pe_details e val = Some (l, (i, Some d)) /\ part_out k o value l d) /\ part_chain k e o value (pe_next_higher e val) r
  end.
(** the variable of [x] is smaller *)
Definition below (x y : lit) : Prop := lvar x < lvar y.
(** the clause [c] is in the proof with id [id] *)
Definition derived (k : chk) (id : nat) (c : list (ax pv)) : Prop := exists C, In (id, C) (k_all k) /\ clausal C c.
