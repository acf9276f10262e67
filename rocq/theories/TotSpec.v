(** * Assumed behaviour of rustsat's totalizer database

    [tot_spec SP T]: what core boosting relies on from [totdb::Db] and the [from_raw]
    constructors.  [TotInst.v] shows the laws can be met. *)
From Coq Require Import List Bool Arith Lia.
From Verif Require Import Base MTypes MKernel EncSpec MOll.
Import ListNotations.

(** Value of a connection, given the values of the nodes *)
Definition lim (k : option nat) (n : nat) : nat :=
  match k with Some k => Nat.min k n | None => n end.
Definition con_app (val : nat -> nat) (c : con) : nat :=
  cn_mult c * lim (cn_limit c) (val (cn_id c) - cn_off c).
Definition cons_app (val : nat -> nat) (cs : list con) : nat :=
  list_sum (map (con_app val) cs).

(** - [tb_node d id]: [id] is a node of [d];  [tb_int d id]: ... made by merging connections
      of multiplicity 1;
    - [tb_val d id m]: the value of the node: (weighted) number of inputs true in [m];
    - [tb_max d id]: its largest value;  [tb_w d id]: the largest weight of an input;
    - [tb_leafv d v]: [v] is an input variable;  [tb_aux d v]: [v] is an auxiliary variable
      that clauses may mention;  [tb_free d v]: [v] is reserved but not mentioned yet;
    - [tb_exact d m]: [m] gives every auxiliary variable exactly its meaning;
    - [tb_cls d]: the clauses produced so far;
    - [tb_out d id k]: the literal built for "the value of [id] is more than [k]". *)
Record tot_spec {I : enc_impl} (SP : enc_spec I) (T : tot_impl I) := mkTotSpec {
  tb_node : ti_db T -> nat -> Prop;
  tb_int : ti_db T -> nat -> Prop;
  tb_val : ti_db T -> nat -> asg -> nat;
  tb_max : ti_db T -> nat -> nat;
  tb_w : ti_db T -> nat -> nat;
  tb_leafv : ti_db T -> nat -> Prop;
  tb_aux : ti_db T -> nat -> Prop;
  tb_free : ti_db T -> nat -> Prop;
  tb_exact : ti_db T -> asg -> Prop;
  tb_cls : ti_db T -> list clause;
  tb_out : ti_db T -> nat -> nat -> option lit;

  (** [d'] has the nodes of [d], unchanged *)
  tb_ext : ti_db T -> ti_db T -> Prop := fun d d' =>
    forall id, tb_node d id ->
      tb_node d' id /\ (forall m, tb_val d' id m = tb_val d id m) /\
      tb_max d' id = tb_max d id /\ tb_w d' id = tb_w d id /\
      ti_len T d' id = ti_len T d id /\ (tb_int d id -> tb_int d' id);
  (** [d'] has the variables, clauses and outputs of [d] *)
  tb_same : ti_db T -> ti_db T -> Prop := fun d d' =>
    (forall v, tb_aux d' v <-> tb_aux d v) /\ (forall v, tb_free d' v <-> tb_free d v) /\
    (forall m, tb_exact d' m <-> tb_exact d m) /\ tb_cls d' = tb_cls d /\
    (forall id k, tb_out d' id k = tb_out d id k);

  tb_val_dep : forall d id m m', tb_node d id -> agree (tb_leafv d) m m' ->
    tb_val d id m = tb_val d id m';
  tb_val_max : forall d id m, tb_node d id -> tb_val d id m <= tb_max d id;
  tb_exact_dep : forall d m m', agree (fun v => tb_leafv d v \/ tb_aux d v) m m' ->
    tb_exact d m -> tb_exact d m';
  tb_int_node : forall d id, tb_int d id -> tb_node d id;
  tb_int_len : forall d id, tb_int d id -> ti_len T d id = tb_max d id /\ tb_w d id = 1;
  tb_int_kind : forall d id, tb_int d id -> ti_kind T d id <> KGeneral;

  (** built outputs *)
  tb_out_int : forall d id k l, tb_out d id k = Some l -> tb_int d id;
  tb_out_aux : forall d id k l, tb_out d id k = Some l -> tb_aux d (lvar l);
  tb_out_inj : forall d id k id' k' l, tb_out d id k = Some l -> tb_out d id' k' = Some l ->
    id = id' /\ k = k';
  tb_out_sound : forall d id k l m, tb_out d id k = Some l -> sat m (tb_cls d) ->
    k < tb_val d id m -> lit_true m l = true;
  tb_out_exact : forall d id k l m, tb_out d id k = Some l -> tb_exact d m ->
    lit_true m l = (k <? tb_val d id m);

  (** the empty database *)
  tb_new_leafv : forall v, ~ tb_leafv (ti_new T) v;
  tb_new_aux : forall v, ~ tb_aux (ti_new T) v;
  tb_new_free : forall v, ~ tb_free (ti_new T) v;
  tb_new_exact : forall m, tb_exact (ti_new T) m;
  tb_new_cls : tb_cls (ti_new T) = [];
  tb_new_out : forall id k, tb_out (ti_new T) id k = None;

  (** leaves *)
  tb_leaf_ok : forall d l d' id, ti_leaf T d l = (d', id) ->
    tb_ext d d' /\ tb_same d d' /\
    (forall v, tb_leafv d' v -> tb_leafv d v \/ v = lvar l) /\
    (forall v, tb_leafv d v -> tb_leafv d' v) /\
    tb_node d' id /\ (forall m, tb_val d' id m = if lit_true m l then 1 else 0) /\
    tb_max d' id = 1 /\ tb_w d' id = 1;

  (** merging at least two connections of multiplicity 1 to nodes with inputs of weight 1
      makes a new node *)
  tb_merge_ok : forall d cs d' c, ti_merge T d cs = (d', c) -> 1 < length cs ->
    (forall x, In x cs -> tb_node d (cn_id x) /\ tb_w d (cn_id x) = 1 /\ cn_mult x = 1) ->
    tb_ext d d' /\ tb_same d d' /\ (forall v, tb_leafv d' v <-> tb_leafv d v) /\
    c = con_full (cn_id c) /\ ~ tb_node d (cn_id c) /\ tb_int d' (cn_id c) /\
    (forall m, tb_val d' (cn_id c) m = cons_app (fun id => tb_val d id m) cs) /\
    tb_max d' (cn_id c) = cons_app (tb_max d) cs;

  (** building an output only takes fresh variables *)
  tb_define_next : forall d id k nv d' l cl nv', ti_define T d id k nv = (d', l, cl, nv') -> nv <= nv';
  tb_define_ok : forall d id k nv d' l cl nv', ti_define T d id k nv = (d', l, cl, nv') ->
    tb_int d id -> k < tb_max d id ->
    nv <= nv' /\ tb_ext d d' /\ (forall v, tb_leafv d' v <-> tb_leafv d v) /\
    tb_out d' id k = Some l /\
    (forall i j x, tb_out d i j = Some x -> tb_out d' i j = Some x) /\
    (forall v, tb_aux d' v -> tb_aux d v \/ tb_free d v \/ nv <= v < nv') /\
    (forall v, tb_aux d v -> tb_aux d' v) /\
    (forall v, tb_free d' v -> tb_free d v /\ ~ tb_aux d' v) /\
    (forall v, In v (cls_vars cl) -> tb_leafv d' v \/ tb_aux d' v) /\
    (forall c, In c (tb_cls d') -> In c (tb_cls d) \/ In c cl) /\
    (forall m, tb_exact d' m -> tb_exact d m);
  tb_define_ext : forall d id k nv d' l cl nv' m,
    ti_define T d id k nv = (d', l, cl, nv') -> tb_int d id -> k < tb_max d id ->
    (forall v, tb_leafv d v \/ tb_aux d v -> v < nv) ->
    (forall v, tb_free d v -> v < nv) ->
    (forall v, tb_free d v -> ~ (tb_leafv d v \/ tb_aux d v)) ->
    tb_exact d m ->
    exists m', agree (fun v => v < nv /\ ~ tb_free d v) m m' /\ tb_exact d' m' /\ sat m' cl;

  (** reserving variables for outputs *)
  tb_reserve_ok : forall d id k nv d' nv', ti_reserve T d id k nv = (d', nv') ->
    nv <= nv' /\ tb_ext d d' /\ (forall v, tb_leafv d' v <-> tb_leafv d v) /\
    (forall v, tb_aux d' v <-> tb_aux d v) /\
    (forall v, tb_free d' v -> tb_free d v \/ nv <= v < nv') /\
    (forall m, tb_exact d' m <-> tb_exact d m) /\ tb_cls d' = tb_cls d /\
    (forall i j, tb_out d' i j = tb_out d i j);

  (** forgetting all variables *)
  tb_reset_ok : forall d, let d' := ti_reset T d in
    tb_ext d d' /\ (forall v, tb_leafv d' v <-> tb_leafv d v) /\
    (forall v, ~ tb_aux d' v) /\ (forall v, ~ tb_free d' v) /\
    (forall m, tb_exact d' m) /\ tb_cls d' = [];

  (** the final merge: a single connection is returned as it is, otherwise the result has
      no offset and no limit *)
  tb_thorough_ok : forall d cs d' c, ti_merge_thorough T d cs = (d', c) -> cs <> [] ->
    (forall x, In x cs -> tb_node d (cn_id x)) ->
    tb_ext d d' /\ tb_same d d' /\ (forall v, tb_leafv d' v <-> tb_leafv d v) /\
    tb_node d' (cn_id c) /\
    (forall m, con_app (fun id => tb_val d' id m) c = cons_app (fun id => tb_val d id m) cs) /\
    con_app (tb_max d') c = cons_app (tb_max d) cs /\
    (forall W, (forall x, In x cs -> cn_mult x * tb_w d (cn_id x) <= W) ->
       cn_mult c * tb_w d' (cn_id c) <= W) /\
    ((exists x, cs = [x] /\ c = x /\ d' = d) \/ (cn_off c = 0 /\ cn_limit c = None));

  (** [Totalizer::from_raw] *)
  tb_tot_cost : forall d id off m, tb_node d id -> ti_kind T d id <> KGeneral ->
    es_cost SP (ti_tot T d id off) m = tb_val d id m - off;
  tb_tot_max : forall d id off, tb_node d id -> ti_kind T d id <> KGeneral ->
    es_max SP (ti_tot T d id off) = tb_max d id - off;
  tb_tot_used : forall d id off v, es_used SP (ti_tot T d id off) v ->
    tb_leafv d v \/ tb_aux d v;
  tb_tot_free : forall d id off v, es_free SP (ti_tot T d id off) v -> tb_free d v;
  tb_tot_exact : forall d id off m, tb_exact d m -> es_exact SP (ti_tot T d id off) m;
  tb_tot_cls : forall d id off c, In c (es_cls SP (ti_tot T d id off)) -> In c (tb_cls d);

  (** [GeneralizedTotalizer::from_raw]: right if the limit of the connection has no effect
      and the third argument bounds the weights *)
  tb_gte_cost : forall d c w m, tb_node d (cn_id c) ->
    (forall k, cn_limit c = Some k -> tb_max d (cn_id c) <= cn_off c + k) ->
    cn_mult c * tb_w d (cn_id c) <= w ->
    es_cost SP (ti_gte T d c w) m = cn_mult c * (tb_val d (cn_id c) m - cn_off c);
  tb_gte_max : forall d c w, tb_node d (cn_id c) ->
    (forall k, cn_limit c = Some k -> tb_max d (cn_id c) <= cn_off c + k) ->
    cn_mult c * tb_w d (cn_id c) <= w ->
    es_max SP (ti_gte T d c w) = cn_mult c * (tb_max d (cn_id c) - cn_off c);
  tb_gte_used : forall d c w v, es_used SP (ti_gte T d c w) v -> tb_leafv d v \/ tb_aux d v;
  tb_gte_free : forall d c w v, es_free SP (ti_gte T d c w) v -> tb_free d v;
  tb_gte_exact : forall d c w m, tb_exact d m -> es_exact SP (ti_gte T d c w) m;
  tb_gte_cls : forall d c w x, In x (es_cls SP (ti_gte T d c w)) -> In x (tb_cls d)
}.

(** Additional assumption on the oracle for core boosting: a core has no repeated literal
    if the assumptions have none. *)
Definition core_nodup (E : environ) : Prop := forall q core,
  ev_oracle E q = AUnsat core -> NoDup (q_assumps q) -> NoDup core.
