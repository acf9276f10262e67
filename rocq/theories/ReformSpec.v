(** * What the statements about the objective reformulation rely on

    The inputs of the model in MReform.v (cores, totalizers, other lines of the proof) come from the
    SAT solver, from rustsat's totalizers and from the rest of the proof logger. Here it is said what
    is expected of them, in terms of the state of the checker. *)
From Coq Require Import List Arith ZArith Bool.
From Verif Require Import Base MTypes MOll VeriPB MProofs ProofRun TracerThm MReform.
Import ListNotations.

(** ** Totalizer outputs *)
Definition ones (ls : list (ax pv)) : list (Z * ax pv) := map (fun l => (1%Z, l)) ls.
(** literals of different variables *)
Definition proper_ls (ls : list (ax pv)) : Prop := NoDup (map ax_var ls).
(** output [o] is only true if at least [v] of [ls] are (rustsat's [only_if_def]) *)
Definition only_if_def (ls : list (ax pv)) (o : ax pv) (v : Z) : pconstr := mkLb (ones ls ++ [(v, ax_not o)]) v.
(** output [o] is true if at least [v] of the literals [ls] are (rustsat's [if_def]) *)
Definition if_def (ls : list (ax pv)) (o : ax pv) (v : Z) : pconstr :=
  let k := (Z.of_nat (length ls) - v + 1)%Z in mkLb (ones (map ax_not ls) ++ [(k, o)]) k.
(** [D] has the normal form of [only_if_def] ([ReformThm.odef_concrete]) *)
Definition odef (D : pconstr) (ls : list (ax pv)) (o : ax pv) (v : Z) : Prop :=
  (forall x, lb_coef pv_eqd D x = cl_coef ls x + v * cl_coef [ax_not o] x)%Z /\ lb_degree pv_eqd D = v.

Definition leaf_ax (t : tinfo) : list (ax pv) := map axiom (ti_leafs t).
Definition out_ax (t : tinfo) (j : nat) : ax pv := axiom (ti_out t j).
Definition nleaf (t : tinfo) : nat := length (ti_leafs t).
(** all inputs and outputs are literals of different variables *)
Definition tot_wf (t : tinfo) : Prop := proper_ls (leaf_ax t ++ map (out_ax t) (seq 2 (nleaf t - 1))).
(** the definition of output [v] of [t] is in the proof with id [id] *)
Definition has_def (k : chk) (id : nat) (t : tinfo) (v : nat) : Prop :=
  exists D, In (id, D) (k_all k) /\ odef D (leaf_ax t) (out_ax t v) (Z.of_nat v).

(** ** The constraints the reformulation is summed up from *)
Definition pend_parts (cs : list ((list lit * nat) * nat)) : list (nat * nat) := map (fun c => (snd c, snd (fst c))) cs.
Definition wused (s : rst) : list (nat * nat) := rs_ids s ++ ref_parts (rs_refs s) ++ pend_parts (rs_pend s).
Definition used (s : rst) : list nat := map fst (wused s).

(** ** Cores *)
(** if a literal of the core is an output and the next output is needed: the next output is a new
    literal and its definition is in the proof *)
Definition relax_pre (k0 : chk) (s : rst) (l : lit) : Prop :=
  forall d, hm_get l (rs_refs s) = Some d -> rt_oidx d + 2 <= nleaf (rt_tot d) ->
  has_def (kof k0 (rs_p s)) (ti_only_if (rt_tot d) (rt_oidx d + 2)) (rt_tot d) (rt_oidx d + 2) /\
  ~ In (ti_only_if (rt_tot d) (rt_oidx d + 2)) (used s) /\
  ~ In (ti_out (rt_tot d) (rt_oidx d + 2)) (map fst (rs_in s)).
(** ... and different totalizers have different outputs *)
Definition relax_all_pre (k0 : chk) (s : rst) (core : list lit) : Prop :=
  NoDup core /\ incl core (map fst (rs_in s)) /\ (forall l, In l core -> relax_pre k0 s l) /\
  (forall l l' d d', In l core -> In l' core -> l <> l' ->
     hm_get l (rs_refs s) = Some d -> rt_oidx d + 2 <= nleaf (rt_tot d) ->
     hm_get l' (rs_refs s) = Some d' -> rt_oidx d' + 2 <= nleaf (rt_tot d') ->
     ti_out (rt_tot d) (rt_oidx d + 2) <> ti_out (rt_tot d') (rt_oidx d' + 2)).
(** the core is a clause over different variables, derived in the proof with id [id] *)
Definition core_pre (k0 : chk) (s : rst) (core : list lit) (id : nat) : Prop :=
  relax_all_pre k0 s core /\ core <> [] /\ proper_ls (map axiom core) /\ ~ In id (used s) /\ (forall C, ~ In (id, C) (k_core (kof k0 (rs_p s)))) /\
  exists C, In (id, C) (k_all (kof k0 (rs_p s))) /\ clausal C (map axiom core).
(** the totalizer [t] is over the literals of the next core; [units] are the ids of the unit clauses
    over its outputs found by core exhaustion *)
Definition reform_pre (exhaustion : bool) (def : tinfo -> nat -> nat) (k0 : chk) (s : rst) (t : tinfo) (units : list nat) : Prop :=
  (exists w id r, rs_pend s = ((ti_leafs t, w), id) :: r) /\ tot_wf t /\
  (if exhaustion then
     length units <= nleaf t - 1 /\
     (forall v, 2 <= v <= Nat.min (nleaf t) (length units + 2) -> has_def (kof k0 (rs_p s)) (def t v) t v) /\
     (forall i u, nth_error units i = Some u -> exists U, In (u, U) (k_all (kof k0 (rs_p s))) /\ clausal U [out_ax t (2 + i)])
   else units = [] /\ has_def (kof k0 (rs_p s)) (ti_only_if t 2) t 2) /\
  (length units + 2 <= nleaf t -> ~ In (ti_out t (length units + 2)) (map fst (rs_in s))).
(** other lines of the proof are accepted, and leave the constraints in use in the derived set *)
Definition other_pre (k0 : chk) (s : rst) (p : pst) : Prop :=
  wok k0 p /\ forall i, In i (used s) ->
    (forall C, In (i, C) (k_all (kof k0 (rs_p s))) -> In (i, C) (k_all (kof k0 p))) /\ (forall C, ~ In (i, C) (k_core (kof k0 p))).
Definition ev_pre (exhaustion : bool) (def : tinfo -> nat -> nat) (k0 : chk) (e : revent) (s : rst) : Prop :=
  match e with
  | RCore core id => core_pre k0 s core id
  | RReform t units => reform_pre exhaustion def k0 s t units
  | ROther p => other_pre k0 s p
  end.
Fixpoint run_pre (exhaustion : bool) (def : tinfo -> nat -> nat) (k0 : chk) (es : list revent) (s : rst) : Prop :=
  match es with
  | [] => True
  | e :: r => ev_pre exhaustion def k0 e s /\ match run_revent exhaustion def e s with None => True | Some s => run_pre exhaustion def k0 r s end
  end.

(** ** The end *)
(** for the exact reformulation the definitions of all outputs are in the proof *)
Definition late_pre (k : chk) (ids : list nat) (refs : list (lit * rdat)) : Prop :=
  forall x v, In x refs -> rt_oidx (snd x) + 2 <= v <= nleaf (rt_tot (snd x)) ->
    has_def k (ti_only_if (rt_tot (snd x)) v) (rt_tot (snd x)) v /\ ~ In (ti_only_if (rt_tot (snd x)) v) ids.
Definition finish_pre (exact : bool) (k0 : chk) (s : rst) : Prop :=
  rs_pend s = [] /\ (exact = true -> late_pre (kof k0 (rs_p s)) (used s) (rs_refs s)).

(** ** The reformulated objective *)
(** the literals with a weight *)
Definition wterms (ls : list (lit * nat)) : list (Z * ax pv) := map (fun lw => (Z.of_nat (snd lw), axiom (fst lw))) ls.
(** the outputs after the ones built so far *)
Definition late_terms (refs : list (lit * rdat)) : list (Z * ax pv) :=
  flat_map (fun x => map (fun j => (Z.of_nat (rt_w (snd x)), out_ax (rt_tot (snd x)) j))
    (seq (rt_oidx (snd x) + 2) (nleaf (rt_tot (snd x)) - (rt_oidx (snd x) + 1)))) refs.
Definition reform_terms (exact : bool) (s : rst) : list (Z * ax pv) :=
  wterms (rs_in s) ++ (if exact then late_terms (rs_refs s) else []).
(** the same totalizer, output and weight *)
Definition same_data (x y : lit * rdat) : Prop :=
  fst x = fst y /\ rt_tot (snd x) = rt_tot (snd y) /\ rt_oidx (snd x) = rt_oidx (snd y) /\ rt_w (snd x) = rt_w (snd y).
