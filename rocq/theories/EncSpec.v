(** * Assumed behaviour of the external components

    [enc_spec I]: what scuttle relies on from the rustsat encodings ([GeneralizedTotalizer],
    [Totalizer]).  [oracle_ok E]: what it relies on from the SAT oracle.  Both are records
    of hypotheses that theorems take as arguments; [Inst.v] shows they can be met. *)
From Coq Require Import List Bool Arith Lia ZArith.
From Verif Require Import Base MTypes MKernel.
Import ListNotations.

(** Laws of an incremental upper-bounding encoding.

    - [es_cost e m]: the weighted sum of the inputs of [e] that are true in [m];
    - [es_used e v]: [v] is an input or auxiliary variable of [e] that clauses may mention;
    - [es_free e v]: [v] was reserved for [e] but is not mentioned anywhere yet;
    - [es_exact e m]: [m] gives every used auxiliary variable exactly its meaning;
    - [es_cls e]: the clauses the encoding has produced;
    - [es_max e]: the total weight of the inputs. *)
Record enc_spec (I : enc_impl) := mkEncSpec {
  es_cost : ei_t I -> asg -> nat;
  es_used : ei_t I -> nat -> Prop;
  es_free : ei_t I -> nat -> Prop;
  es_exact : ei_t I -> asg -> Prop;
  es_cls : ei_t I -> list clause;
  es_max : ei_t I -> nat;

  (** cost and exactness depend on used variables only *)
  es_cost_dep : forall e m m', agree (es_used e) m m' -> es_cost e m = es_cost e m';
  es_exact_dep : forall e m m', agree (es_used e) m m' -> es_exact e m -> es_exact e m';

  (** construction *)
  es_wlits_cost : forall ls m, NoDup (map fst ls) ->
    es_cost (ei_from_wlits I ls) m = wsum m ls;
  es_wlits_used : forall ls v, es_used (ei_from_wlits I ls) v ->
    In v (lits_vars (map fst ls));
  es_wlits_free : forall ls v, ~ es_free (ei_from_wlits I ls) v;
  es_wlits_exact : forall ls m, es_exact (ei_from_wlits I ls) m;
  es_wlits_cls : forall ls, es_cls (ei_from_wlits I ls) = [];
  es_wlits_max : forall ls, NoDup (map fst ls) -> es_max (ei_from_wlits I ls) = wtotal ls;
  es_lits_cost : forall ls m,
    es_cost (ei_from_lits I ls) m = wsum m (map (fun l => (l, 1)) ls);
  es_lits_used : forall ls v, es_used (ei_from_lits I ls) v -> In v (lits_vars ls);
  es_lits_free : forall ls v, ~ es_free (ei_from_lits I ls) v;
  es_lits_exact : forall ls m, es_exact (ei_from_lits I ls) m;
  es_lits_cls : forall ls, es_cls (ei_from_lits I ls) = [];
  es_lits_max : forall ls, es_max (ei_from_lits I ls) = length ls;

  (** reserving: takes fresh variables from the counter, changes nothing else *)
  es_reserve_next : forall e nv e' nv', ei_reserve I e nv = (e', nv') -> nv <= nv';
  es_reserve_cost : forall e nv e' nv' m, ei_reserve I e nv = (e', nv') ->
    es_cost e' m = es_cost e m;
  es_reserve_used : forall e nv e' nv' v, ei_reserve I e nv = (e', nv') ->
    es_used e' v -> es_used e v;
  es_reserve_free : forall e nv e' nv' v, ei_reserve I e nv = (e', nv') ->
    es_free e' v -> es_free e v \/ nv <= v < nv';
  es_reserve_exact : forall e nv e' nv' m, ei_reserve I e nv = (e', nv') ->
    (es_exact e m <-> es_exact e' m);
  es_reserve_cls : forall e nv e' nv', ei_reserve I e nv = (e', nv') -> es_cls e' = es_cls e;
  es_reserve_max : forall e nv e' nv', ei_reserve I e nv = (e', nv') -> es_max e' = es_max e;

  (** encoding a range of bounds *)
  es_encode_next : forall e lo hi nv e' cl nv', ei_encode_ub I e lo hi nv = (e', cl, nv') ->
    nv <= nv';
  es_encode_cost : forall e lo hi nv e' cl nv' m, ei_encode_ub I e lo hi nv = (e', cl, nv') ->
    es_cost e' m = es_cost e m;
  es_encode_max : forall e lo hi nv e' cl nv', ei_encode_ub I e lo hi nv = (e', cl, nv') ->
    es_max e' = es_max e;
  es_encode_used : forall e lo hi nv e' cl nv' v, ei_encode_ub I e lo hi nv = (e', cl, nv') ->
    es_used e' v -> es_used e v \/ es_free e v \/ nv <= v < nv';
  es_encode_used_mono : forall e lo hi nv e' cl nv' v,
    ei_encode_ub I e lo hi nv = (e', cl, nv') -> es_used e v -> es_used e' v;
  es_encode_free : forall e lo hi nv e' cl nv' v, ei_encode_ub I e lo hi nv = (e', cl, nv') ->
    es_free e' v -> (es_free e v \/ nv <= v < nv') /\ ~ es_used e' v;
  es_encode_vars : forall e lo hi nv e' cl nv' v, ei_encode_ub I e lo hi nv = (e', cl, nv') ->
    In v (cls_vars cl) -> es_used e' v;
  es_encode_cls : forall e lo hi nv e' cl nv' c, ei_encode_ub I e lo hi nv = (e', cl, nv') ->
    In c (es_cls e') -> In c (es_cls e) \/ In c cl;
  (** the new clauses are definitional: exact assignments extend to exact models, touching
      only fresh variables and variables reserved for this encoding *)
  es_encode_ext : forall e lo hi nv e' cl nv' m, ei_encode_ub I e lo hi nv = (e', cl, nv') ->
    (forall v, es_used e v -> v < nv) ->
    (forall v, es_free e v -> v < nv) ->
    (forall v, es_free e v -> ~ es_used e v) ->
    es_exact e m ->
    exists m', agree (fun v => v < nv /\ ~ es_free e v) m m' /\ es_exact e' m' /\ sat m' cl;
  es_encode_exact : forall e lo hi nv e' cl nv' m, ei_encode_ub I e lo hi nv = (e', cl, nv') ->
    es_exact e' m -> es_exact e m;
  es_encode_enforce : forall e lo hi nv e' cl nv' b, ei_encode_ub I e lo hi nv = (e', cl, nv') ->
    lo <= b < hi -> ei_enforce_ub I e' b <> None;

  (** enforcing a bound *)
  es_enforce_vars : forall e b ls l, ei_enforce_ub I e b = Some ls -> In l ls ->
    es_used e (lvar l);
  es_enforce_sound : forall e b ls m, ei_enforce_ub I e b = Some ls ->
    sat m (es_cls e) -> lits_true m ls -> es_cost e m <= b;
  es_enforce_complete : forall e b ls m, ei_enforce_ub I e b = Some ls ->
    es_exact e m -> es_cost e m <= b -> lits_true m ls;
  es_enforce_max : forall e b ls, ei_enforce_ub I e b = Some ls -> es_max e <= b -> ls = [];

  (** next achievable value *)
  es_next_gt : forall e v, v < ei_next_higher I e v;
  es_next_ge : forall e v m, v < es_cost e m -> ei_next_higher I e v <= es_cost e m
}.
Arguments es_cost {I}. Arguments es_used {I}. Arguments es_free {I}.
Arguments es_exact {I}. Arguments es_cls {I}. Arguments es_max {I}.

(** The SAT oracle: a satisfying answer is a model of clauses and assumptions; an
    unsatisfiable answer comes with a clause over negated assumptions that the clauses
    entail (in particular the empty core is only returned for unsatisfiable clauses); it
    answers [Interrupted] only if a conflict limit is set or the next read of the
    termination flag (set before the oracle is interrupted, algs.rs 150-151) sees it. *)
Definition answer_ok (E : environ) (q : query) (r : answer) : Prop :=
  match r with
  | ASat m => sat m (q_cls q) /\ lits_true m (q_assumps q)
  | AUnsat core =>
      (forall l, In l core -> In (lnot l) (q_assumps q)) /\
      (forall m, sat m (q_cls q) -> clause_true m core = true)
  | AInterrupted => q_limited q = true \/ ev_flag E (q_flags q) = true
  | AErr => True
  end.

Definition oracle_ok (E : environ) : Prop := forall q, answer_ok E q (ev_oracle E q).
