(** * The proof system the proof logger writes for (external specification)

    The proof logging code of /repo writes proofs through the crate [pigeons]
    for the checker VeriPB. Both are external. This file fixes what a proof
    line means: pseudo-Boolean constraints, the cutting planes operations,
    reverse unit propagation, redundance-based strengthening with a loaded
    pre-order, solution exclusion, moving to core and deletion. It is part of
    the trusted base (see DESIGN.md) except for the soundness of these rules,
    which is proved in VeriThm.v.

    Simplifications:
    - reverse unit propagation is described by single-constraint propagation
      (a literal is propagated if one constraint alone forces it); for a single
      linear constraint this is the same as the slack condition;
    - a proof goal without an explicit sub-proof has to follow by reverse unit
      propagation or from one single constraint. *)
From Coq Require Import List Arith ZArith Lia Bool.
From Verif Require Import Base.
Import ListNotations.
Local Open Scope Z_scope.

(** pigeons::Axiom: a variable or its negation *)
Record ax (V : Type) := mkAx { ax_var : V; ax_neg : bool }.
Arguments mkAx {V}. Arguments ax_var {V}. Arguments ax_neg {V}.
Definition ax_not {V} (l : ax V) : ax V := mkAx (ax_var l) (negb (ax_neg l)).
Definition ax_true {V} (a : V -> bool) (l : ax V) : bool := xorb (ax_neg l) (a (ax_var l)).

(** A linear constraint  sum of c_i * l_i >= bound  (integer coefficients,
    literals may repeat; core/src/algs/proofs.rs 785-788) *)
Record lbc (V : Type) := mkLb { lb_terms : list (Z * ax V); lb_bound : Z }.
Arguments mkLb {V}. Arguments lb_terms {V}. Arguments lb_bound {V}.

Definition b2z (b : bool) : Z := if b then 1 else 0.
Fixpoint lb_sum {V} (a : V -> bool) (ts : list (Z * ax V)) : Z :=
  match ts with
  | [] => 0
  | (w, l) :: r => w * b2z (ax_true a l) + lb_sum a r
  end.
Definition lb_holds {V} (a : V -> bool) (c : lbc V) : Prop := lb_bound c <= lb_sum a (lb_terms c).
(** The negation  sum of -c_i * l_i >= 1 - bound *)
Definition lb_negate {V} (c : lbc V) : lbc V :=
  mkLb (map (fun t => (- fst t, snd t)) (lb_terms c)) (1 - lb_bound c).
(** Clauses (proofs.rs 790-797) *)
Definition lb_clause {V} (ls : list (ax V)) : lbc V := mkLb (map (fun l => (1, l)) ls) 1.

(** ** Canonical view: net coefficient of each variable and the right-hand side *)
Section Net.
Context {V : Type} (eqd : forall x y : V, {x = y} + {x <> y}).

Fixpoint t_coef (ts : list (Z * ax V)) (v : V) : Z :=
  match ts with
  | [] => 0
  | (w, l) :: r =>
      (if eqd (ax_var l) v then if ax_neg l then - w else w else 0) + t_coef r v
  end.
Fixpoint t_const (ts : list (Z * ax V)) : Z :=
  match ts with
  | [] => 0
  | (w, l) :: r => (if ax_neg l then w else 0) + t_const r
  end.
Definition lb_coef (c : lbc V) (v : V) : Z := t_coef (lb_terms c) v.
(** right-hand side once all literals are written positively *)
Definition lb_rhs (c : lbc V) : Z := lb_bound c - t_const (lb_terms c).
Definition lb_vars (c : lbc V) : list V := nodup eqd (map (fun t => ax_var (snd t)) (lb_terms c)).
Definition zsum (l : list Z) : Z := fold_right Z.add 0 l.
(** degree: right-hand side of the form with non-negative coefficients *)
Definition lb_degree (c : lbc V) : Z :=
  lb_rhs c + zsum (map (fun v => Z.max 0 (- lb_coef c v)) (lb_vars c)).
(** the constraint with given net coefficients and degree *)
Definition lb_of (vs : list V) (f : V -> Z) (deg : Z) : lbc V :=
  mkLb (map (fun v => if 0 <=? f v then (f v, mkAx v false) else (- f v, mkAx v true)) vs) deg.

(** same constraint up to normalisation *)
Definition lb_same (c d : lbc V) : Prop :=
  (forall v, lb_coef c v = lb_coef d v) /\ lb_rhs c = lb_rhs d.

(** ** Cutting planes operations (line "pol") *)
Definition lb_add (c d : lbc V) : lbc V := mkLb (lb_terms c ++ lb_terms d) (lb_bound c + lb_bound d).
Definition lb_mul (k : Z) (c : lbc V) : lbc V :=
  mkLb (map (fun t => (k * fst t, snd t)) (lb_terms c)) (k * lb_bound c).
Definition cdiv (x k : Z) : Z := - ((- x) / k).
Definition lb_div (k : Z) (c : lbc V) : lbc V :=
  lb_of (lb_vars c) (fun v => if 0 <=? lb_coef c v then cdiv (lb_coef c v) k else - cdiv (- lb_coef c v) k)
    (cdiv (lb_degree c) k).
Definition lb_sat (c : lbc V) : lbc V :=
  let d := Z.max 0 (lb_degree c) in
  lb_of (lb_vars c)
    (fun v => if 0 <=? lb_coef c v then Z.min (lb_coef c v) d else - Z.min (- lb_coef c v) d)
    (lb_degree c).

(** ** Unit propagation *)
Definition ax_all (a : V -> bool) (r : list (ax V)) : Prop := forall l, In l r -> ax_true a l = true.
(** no assignment extending r satisfies c *)
Definition conflict (r : list (ax V)) (c : lbc V) : Prop := forall a, ax_all a r -> ~ lb_holds a c.
(** every assignment extending r that satisfies c makes l true *)
Definition propagates (r : list (ax V)) (c : lbc V) (l : ax V) : Prop :=
  forall a, ax_all a r -> lb_holds a c -> ax_true a l = true.
Inductive up (cs : list (lbc V)) : list (ax V) -> Prop :=
| up_conflict : forall r c, In c cs -> conflict r c -> up cs r
| up_step : forall r c l, In c cs -> propagates r c l -> up cs (l :: r) -> up cs r.
(** the literals of [full] can be reached from [r] by propagation *)
Inductive up_to (cs : list (lbc V)) : list (ax V) -> list (ax V) -> Prop :=
| upt_done : forall r full, (forall l, In l full <-> In l r) -> up_to cs r full
| upt_step : forall r full c l, In c cs -> propagates r c l -> up_to cs (l :: r) full -> up_to cs r full.
Definition rup (cs : list (lbc V)) (c : lbc V) : Prop := up (lb_negate c :: cs) [].
Definition contradictory (c : lbc V) : Prop := conflict [] c.
(** follows from one single constraint *)
Definition implied_by_one (cs : list (lbc V)) (c : lbc V) : Prop :=
  exists d, In d cs /\ forall a, lb_holds a d -> lb_holds a c.

(** ** Substitutions of variables by truth values *)
Definition subst := list (V * bool).
Fixpoint su_get (w : subst) (v : V) : option bool :=
  match w with
  | [] => None
  | (x, b) :: r => if eqd x v then Some b else su_get r v
  end.
Definition su_asg (w : subst) (a : V -> bool) : V -> bool :=
  fun v => match su_get w v with Some b => b | None => a v end.
Fixpoint su_terms (w : subst) (ts : list (Z * ax V)) : list (Z * ax V) * Z :=
  match ts with
  | [] => ([], 0)
  | (z, l) :: r =>
      let '(ts', k) := su_terms w r in
      match su_get w (ax_var l) with
      | Some b => (ts', z * b2z (xorb (ax_neg l) b) + k)
      | None => ((z, l) :: ts', k)
      end
  end.
Definition lb_subst (w : subst) (c : lbc V) : lbc V :=
  let '(ts, k) := su_terms w (lb_terms c) in mkLb ts (lb_bound c - k).
End Net.

Arguments subst : clear implicits.
Arguments lb_same {V} eqd c d.

(** ** Proof variables, proof lines and the checker *)

(** proofs.rs 809-813 [AnyVar]: solver variables and proof-only variables *)
Inductive pv := PVs (v : nat) | PVp (n : nat).
Definition pv_eqd : forall x y : pv, {x = y} + {x <> y}.
Proof. decide equality; apply Nat.eq_dec. Defined.

(** pigeons::OrderVar: the three copies of a variable in an order definition *)
Inductive ov := OvU (v : nat) | OvV (v : nat) | OvW (v : nat).
Definition ov_eqd : forall x y : ov, {x = y} + {x <> y}.
Proof. decide equality; apply Nat.eq_dec. Defined.

Definition pconstr := lbc pv.

(** pigeons::ConstraintId *)
Inductive cid := CAbs (n : nat) | CLast (k : nat).
(** pigeons::OperationSequence *)
Inductive pol :=
| PC (i : cid)
| PAdd (p q : pol)
| PMul (p : pol) (k : Z)
| PDiv (p : pol) (k : Z)
| PSat (p : pol).
(** pigeons::Derivation *)
Inductive deriv := DPol (p : pol) | DRup (c : pconstr) (hints : list cid).

(** A constraint id with its constraint *)
Definition entry := (nat * pconstr)%type.
Fixpoint e_get (es : list entry) (i : nat) : option pconstr :=
  match es with
  | [] => None
  | (j, c) :: r => if Nat.eqb j i then Some c else e_get r i
  end.
(** Looking up an id: [next] is the id the next constraint will get *)
Definition id_get (es : list entry) (next : nat) (i : cid) : option pconstr :=
  match i with
  | CAbs n => e_get es n
  | CLast k => if (k <=? next)%nat then e_get es (next - k) else None
  end.
Fixpoint pol_eval {V} (eqd : forall x y : V, {x = y} + {x <> y}) (get : cid -> option (lbc V)) (p : pol)
  : option (lbc V) :=
  match p with
  | PC i => get i
  | PAdd p q =>
      match pol_eval eqd get p, pol_eval eqd get q with
      | Some c, Some d => Some (lb_add c d)
      | _, _ => None
      end
  | PMul p k => if 0 <=? k then option_map (lb_mul k) (pol_eval eqd get p) else None
  | PDiv p k => if 0 <? k then option_map (lb_div eqd k) (pol_eval eqd get p) else None
  | PSat p => option_map (lb_sat eqd) (pol_eval eqd get p)
  end.

(** all of a list of optional values *)
Fixpoint opt_all {A} (l : list (option A)) : option (list A) :=
  match l with
  | [] => Some []
  | None :: _ => None
  | Some x :: r => match opt_all r with Some xs => Some (x :: xs) | None => None end
  end.

(** A sub-proof: derivations in order; the last derived constraint has to be contradictory *)
Fixpoint sub_ok (es : list entry) (next : nat) (ds : list deriv) : Prop :=
  match ds with
  | [] => exists c, id_get es next (CLast 1) = Some c /\ contradictory c
  | DPol p :: r =>
      exists c, pol_eval pv_eqd (id_get es next) p = Some c /\ sub_ok ((next, c) :: es) (S next) r
  | DRup c hs :: r =>
      exists cs, opt_all (map (id_get es next) hs) = Some cs /\ rup cs c /\
                 sub_ok ((next, c) :: es) (S next) r
  end.

(** Proof lines. The second argument of [SSolx] is not written by the code: it
    is the full assignment the checker computes from the written literals by
    propagation (and which it excludes). *)
Inductive step :=
| SPol (p : pol)
| SRup (c : pconstr) (hints : list cid)
| SRed (c : pconstr) (w : subst pv) (goals : list (nat * list deriv))
| SSolx (ls full : list (ax pv))
| SCore (ids : list cid)
| SDel (ids : list cid) (goals : list (nat * list deriv)).

(** Checker state: core and derived constraints, the next id, the loaded
    order and the solutions excluded so far *)
Record chk := mkChk {
  k_core : list entry;
  k_der : list entry;
  k_next : nat;
  k_order : list (lbc ov);
  k_excl : list (list (ax pv))
}.
Definition k_all (k : chk) : list entry := k_core k ++ k_der k.

(** The pre-order: first assignment at least as good as the second *)
Definition ov_asg (a b c : nat -> bool) (x : ov) : bool :=
  match x with OvU v => a v | OvV v => b v | OvW v => c v end.
Definition on_solver (a : pv -> bool) : nat -> bool := fun v => a (PVs v).
Definition ord_holds (ord : list (lbc ov)) (a b : nat -> bool) : Prop :=
  Forall (lb_holds (ov_asg a b b)) ord.
(** The goal for one order constraint: the left copy is the substituted
    assignment, the right copy the assignment itself *)
Fixpoint og_terms (w : subst pv) (ts : list (Z * ax ov)) : list (Z * ax pv) * Z :=
  match ts with
  | [] => ([], 0)
  | (z, l) :: r =>
      let '(ts', k) := og_terms w r in
      match ax_var l with
      | OvU v =>
          match su_get pv_eqd w (PVs v) with
          | Some b => (ts', z * b2z (xorb (ax_neg l) b) + k)
          | None => ((z, mkAx (PVs v) (ax_neg l)) :: ts', k)
          end
      | OvV v | OvW v => ((z, mkAx (PVs v) (ax_neg l)) :: ts', k)
      end
  end.
Definition ord_goal (w : subst pv) (c : lbc ov) : pconstr :=
  let '(ts, k) := og_terms w (lb_terms c) in mkLb ts (lb_bound c - k).

(** An order definition is accepted if for every constraint the transitivity derivation
    yields a contradiction and reflexivity is trivial. In the transitivity goal for a
    constraint, ids 1..n are the order from u to v, ids n+1..2n the order from v to w and the
    last constraint is the negated constraint from u to w. *)
Definition ov_map (f : ov -> ov) (c : lbc ov) : lbc ov :=
  mkLb (map (fun t => (fst t, mkAx (f (ax_var (snd t))) (ax_neg (snd t)))) (lb_terms c)) (lb_bound c).
Definition ov_vw (x : ov) : ov := match x with OvU v => OvV v | OvV v | OvW v => OvW v end.
Definition ov_uw (x : ov) : ov := match x with OvU v => OvU v | OvV v | OvW v => OvW v end.
Definition ov_uu (x : ov) : ov := match x with OvU v | OvV v | OvW v => OvU v end.
Definition order_get (ords : list (lbc ov)) (goal : lbc ov) (i : cid) : option (lbc ov) :=
  match i with
  | CAbs 0 => None
  | CAbs (S n) => nth_error (ords ++ map (ov_map ov_vw) ords) n
  | CLast 1 => Some (lb_negate (ov_map ov_uw goal))
  | CLast _ => None
  end.
Definition order_ok (os : list (lbc ov * pol)) : Prop :=
  forall c p, In (c, p) os ->
    (exists d, pol_eval ov_eqd (order_get (map fst os) c) p = Some d /\ contradictory d) /\
    contradictory (lb_negate (ov_map ov_uu c)).

(** One proof goal: with an explicit sub-proof, or automatically. [es] are the
    available constraints (including the negated constraint), the negated
    goal gets the next id. *)
Definition goal_ok (es : list entry) (next : nat) (sub : option (list deriv)) (g : pconstr) : Prop :=
  match sub with
  | Some ds => sub_ok ((next, lb_negate g) :: es) (S next) ds
  | None => rup (map snd es) g \/ implied_by_one (map snd es) g
  end.
Fixpoint g_get (gs : list (nat * list deriv)) (n : nat) : option (list deriv) :=
  match gs with
  | [] => None
  | (m, ds) :: r => if Nat.eqb m n then Some ds else g_get r n
  end.
(** Redundance: goal 1 is the constraint itself, goal i+2 the i-th order
    constraint, then every constraint of [targets] under the substitution *)
Definition red_ok (es : list entry) (targets : list entry) (next : nat) (ord : list (lbc ov))
    (c : pconstr) (w : subst pv) (goals : list (nat * list deriv)) : Prop :=
  let es' := (next, lb_negate c) :: es in
  goal_ok es' (S next) (g_get goals 1) (lb_subst pv_eqd w c) /\
  (forall i o, nth_error ord i = Some o -> goal_ok es' (S next) (g_get goals (i + 2)) (ord_goal w o)) /\
  (forall e, In e targets -> goal_ok es' (S next) None (lb_subst pv_eqd w (snd e))).

Definition cid_abs (next : nat) (i : cid) : nat :=
  match i with CAbs n => n | CLast k => (next - k)%nat end.
Definition is_id (n : nat) (e : entry) : bool := Nat.eqb (fst e) n.
Definition rm_ids (ns : list nat) (es : list entry) : list entry :=
  filter (fun e => negb (existsb (fun n => Nat.eqb (fst e) n) ns)) es.
Definition pick_ids (ns : list nat) (es : list entry) : list entry :=
  filter (fun e => existsb (fun n => Nat.eqb (fst e) n) ns) es.

(** The state after a line *)
Definition add_der (k : chk) (c : pconstr) : chk :=
  mkChk (k_core k) ((k_next k, c) :: k_der k) (S (k_next k)) (k_order k) (k_excl k).
Definition step_next (k : chk) (s : step) : chk :=
  match s with
  | SPol p =>
      match pol_eval pv_eqd (id_get (k_all k) (k_next k)) p with
      | Some c => add_der k c
      | None => k
      end
  | SRup c _ | SRed c _ _ => add_der k c
  | SSolx ls full =>
      mkChk ((k_next k, lb_clause (map ax_not full)) :: k_core k) (k_der k) (S (k_next k)) (k_order k)
        (ls :: k_excl k)
  | SCore ids =>
      let ns := map (cid_abs (k_next k)) ids in
      mkChk (pick_ids ns (k_der k) ++ k_core k) (rm_ids ns (k_der k)) (k_next k) (k_order k) (k_excl k)
  | SDel ids _ =>
      let ns := map (cid_abs (k_next k)) ids in
      mkChk (rm_ids ns (k_core k)) (rm_ids ns (k_der k)) (k_next k) (k_order k) (k_excl k)
  end.
(** Deleting core constraints one after the other: each has to be redundant
    with respect to the remaining core constraints *)
Fixpoint del_ok (core : list entry) (next : nat) (ord : list (lbc ov)) (ns : list nat)
    (goals : list (nat * list deriv)) : Prop :=
  match ns with
  | [] => True
  | n :: r =>
      match e_get core n with
      | None => del_ok core next ord r goals
      | Some c =>
          let rest := rm_ids [n] core in
          goal_ok ((next, lb_negate c) :: rest) (S next) (g_get goals 1) c /\
          del_ok rest next ord r goals
      end
  end.
(** When a line is accepted *)
Definition step_valid (k : chk) (s : step) : Prop :=
  match s with
  | SPol p => pol_eval pv_eqd (id_get (k_all k) (k_next k)) p <> None
  | SRup c hs =>
      exists cs, opt_all (map (id_get (k_all k) (k_next k)) hs) = Some cs /\ rup cs c
  | SRed c w goals => red_ok (k_all k) (k_all k) (k_next k) (k_order k) c w goals
  | SSolx ls full =>
      up_to (map snd (k_all k)) ls full /\
      exists a, ax_all a full /\ forall e, In e (k_all k) -> lb_holds a (snd e)
  | SCore ids => True
  | SDel ids goals => del_ok (k_core k) (k_next k) (k_order k) (map (cid_abs (k_next k)) ids) goals
  end.
Fixpoint steps_next (k : chk) (ss : list step) : chk :=
  match ss with [] => k | s :: r => steps_next (step_next k s) r end.
Fixpoint steps_valid (k : chk) (ss : list step) : Prop :=
  match ss with [] => True | s :: r => step_valid k s /\ steps_valid (step_next k s) r end.
