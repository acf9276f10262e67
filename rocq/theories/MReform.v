(** * Model of the proof logging in core-guided search (core/src/algs/coreguided.rs)

    MOll.v models [oll] without the proof. Here the same bookkeeping of weights, reformulations and
    offset is modelled together with the constraint ids and the proof lines. The cores, their ids and
    the outcome of core exhaustion are inputs (they come from the SAT solver), and so are the
    totalizers: the literals of their outputs and the ids of the definitions of their outputs
    (rustsat's totalizer database). Simplification: the unweighted variant of [Inactives] is the
    weighted one with all weights one. *)
From Coq Require Import List Arith ZArith Bool.
From Verif Require Import Base MTypes MPMinimal MPrepro MOll VeriPB MProofs.
Import ListNotations.

(** A totalizer as far as proofs are concerned: the literals it counts, the output literal for
    "at least v" and the ids of the two definitions of this output
    (rustsat's [totdb::Semantics { if_def, only_if_def }]) *)
Record tinfo := mkTi { ti_leafs : list lit; ti_out : nat -> lit; ti_if : nat -> nat; ti_only_if : nat -> nat }.
(** coreguided.rs 28-34 [ReformData] *)
Record rdat := mkRdat { rt_tot : tinfo; rt_oidx : nat; rt_w : nat; rt_pid : nat }.
(** coreguided.rs 180-190 [OllReformulation], with the local variables [reform_ids] and
    [unreform_cores] of [oll] (coreguided.rs 252-266) and the proof *)
Record rst := mkRst {
  rs_in : list (lit * nat);
  rs_refs : list (lit * rdat);
  rs_ids : list (nat * nat);
  rs_pend : list ((list lit * nat) * nat);
  rs_off : nat;
  rs_p : pst
}.

(** coreguided.rs 477-556: one literal of a core *)
Definition relax_lit (cw : nat) (olit : lit) (s : rst) : option rst :=
  match hm_get olit (rs_in s) with
  | None => None
  | Some w =>
      if w <? cw then None
      else
        let inact := hm_insert olit (w - cw) (rs_in s) in
        match hm_get olit (rs_refs s) with
        | None => Some (mkRst inact (rs_refs s) (rs_ids s) (rs_pend s) (rs_off s) (rs_p s))
        | Some (mkRdat t oidx tw pid) =>
            if 0 <? w - cw then Some (mkRst inact (rs_refs s) (rs_ids s) (rs_pend s) (rs_off s) (rs_p s))
            else
              let refs := hm_remove olit (rs_refs s) in
              if length (ti_leafs t) <=? oidx + 1 then
                Some (mkRst inact refs (rs_ids s ++ [(pid, tw)]) (rs_pend s) (rs_off s) (rs_p s))
              else
                let new_olit := ti_out t (oidx + 2) in
                let '(new_id, p) := wr_id (SPol (reform_extend (PC (CAbs pid)) (ti_only_if t (oidx + 2)) oidx)) (rs_p s) in
                let p := wr (SDel [CAbs pid] []) p in
                Some (mkRst (hm_insert new_olit tw inact) (hm_insert new_olit (mkRdat t (oidx + 1) tw new_id) refs)
                        (rs_ids s) (rs_pend s) (rs_off s) p)
        end
  end.
Fixpoint relax_lits (cw : nat) (core : list lit) (s : rst) : option rst :=
  match core with
  | [] => Some s
  | l :: r => match relax_lit cw l s with None => None | Some s => relax_lits cw r s end
  end.
(** coreguided.rs 459-471 and 477-576: a (minimized and trimmed) core with its id *)
Definition on_core (core : list lit) (id : nat) (s : rst) : option rst :=
  match min_weights (rs_in s) core with
  | None => None
  | Some cw =>
      match relax_lits cw core (mkRst (rs_in s) (rs_refs s) (rs_ids s) (rs_pend s) (rs_off s + cw) (rs_p s)) with
      | None => None
      | Some s =>
          if 1 <? length core then Some (mkRst (rs_in s) (rs_refs s) (rs_ids s) (rs_pend s ++ [((core, cw), id)]) (rs_off s) (rs_p s))
          else Some (mkRst (rs_in s) (rs_refs s) (rs_ids s ++ [(id, cw)]) (rs_pend s) (rs_off s) (rs_p s))
      end
  end.
(** coreguided.rs 579-664 [exhaust_core]: [units] are the ids of the cores found; gives the line of
    the reformulation and the index of the last output. [def] is the definition added for an
    output: the code uses [ti_if]. *)
Definition exhaust_line (exhaustion : bool) (def : nat -> nat) (t : tinfo) (core_id : nat) (units : list nat) : pol * nat :=
  if exhaustion then
    (reform_exhaust (PC (CAbs core_id)) 1 (map def (seq 2 (length (ti_leafs t) - 1))) units, 1 + length units)
  else (reform_init core_id (ti_only_if t 2), 1).
(** coreguided.rs 386-428: reformulating the cores found so far; [ts] gives for each core the
    totalizer over its literals and the outcome of the exhaustion *)
Definition reform_core (exhaustion : bool) (def : tinfo -> nat -> nat) (c : (list lit * nat) * nat) (tu : tinfo * list nat) (s : rst) : rst :=
  let '((core, w), id) := c in
  let '(t, units) := tu in
  let '(line, oidx) := exhaust_line exhaustion (def t) t id units in
  let '(pid, p) := wr_id (SPol line) (rs_p s) in
  let off := if 1 <? oidx then rs_off s + (oidx - 1) * w else rs_off s in
  if oidx <? length (ti_leafs t) then
    let olit := ti_out t (oidx + 1) in
    mkRst (hm_insert olit w (rs_in s)) (hm_insert olit (mkRdat t oidx w pid) (rs_refs s)) (rs_ids s) (rs_pend s) off p
  else mkRst (rs_in s) (rs_refs s) (rs_ids s ++ [(pid, w)]) (rs_pend s) off p.
(** coreguided.rs 381-428: the first of the cores that still have to be reformulated *)
Definition reform_next (exhaustion : bool) (def : tinfo -> nat -> nat) (tu : tinfo * list nat) (s : rst) : option rst :=
  match rs_pend s with
  | [] => None
  | c :: r => Some (reform_core exhaustion def c tu (mkRst (rs_in s) (rs_refs s) (rs_ids s) r (rs_off s) (rs_p s)))
  end.

(** coreguided.rs 309-348: extending the reformulations by all remaining outputs *)
Fixpoint extend_refs (refs : list (lit * rdat)) (p : pst) : list (lit * rdat) * pst :=
  match refs with
  | [] => ([], p)
  | (l, mkRdat t oidx tw pid) :: r =>
      if length (ti_leafs t) <=? oidx + 1 then
        let '(r, p) := extend_refs r p in ((l, mkRdat t oidx tw pid) :: r, p)
      else
        let '(new_id, p) := wr_id (SPol (reform_all (PC (CAbs pid)) (ti_only_if t)
                              (seq (oidx + 2) (length (ti_leafs t) - (oidx + 1))))) p in
        let p := wr (SDel [CAbs pid] []) p in
        let '(r, p) := extend_refs r p in ((l, mkRdat t oidx tw new_id) :: r, p)
  end.
(** coreguided.rs 350-359 *)
Definition sum_ops (parts : list (nat * nat)) : option pol :=
  match parts with
  | [] => None
  | (c, w) :: r =>
      Some (fold_left (fun seq cw => PAdd seq (PMul (PC (CAbs (fst cw))) (Z.of_nat (snd cw)))) r (PMul (PC (CAbs c)) (Z.of_nat w)))
  end.
Definition ref_parts (refs : list (lit * rdat)) : list (nat * nat) := map (fun x => (rt_pid (snd x), rt_w (snd x))) refs.
(** coreguided.rs 293-375: the end of [oll]; gives the id of the objective reformulation *)
Definition finish (exact : bool) (s : rst) : option nat * rst :=
  let '(refs, p) := if exact then extend_refs (rs_refs s) (rs_p s) else (rs_refs s, rs_p s) in
  match sum_ops (rs_ids s ++ ref_parts refs) with
  | None => (None, mkRst (rs_in s) refs (rs_ids s) (rs_pend s) (rs_off s) p)
  | Some ops =>
      let '(id, p) := wr_id (SPol ops) p in
      let p := match rs_ids s with [] => p | _ => wr (SDel (map (fun cw => CAbs (fst cw)) (rs_ids s)) []) p end in
      (Some id, mkRst (rs_in s) refs [] (rs_pend s) (rs_off s) p)
  end.

(** Runs: cores, reformulations of cores, and anything else that is written to the proof in between
    (learned clauses, definitions of totalizer outputs, ...) *)
Inductive revent :=
| RCore (core : list lit) (id : nat)
| RReform (t : tinfo) (units : list nat)
| ROther (p : pst).
Definition run_revent (exhaustion : bool) (def : tinfo -> nat -> nat) (e : revent) (s : rst) : option rst :=
  match e with
  | RCore core id => on_core core id s
  | RReform t units => reform_next exhaustion def (t, units) s
  | ROther p => Some (mkRst (rs_in s) (rs_refs s) (rs_ids s) (rs_pend s) (rs_off s) p)
  end.
Fixpoint run_revents (exhaustion : bool) (def : tinfo -> nat -> nat) (es : list revent) (s : rst) : option rst :=
  match es with
  | [] => Some s
  | e :: r => match run_revent exhaustion def e s with None => None | Some s => run_revents exhaustion def r s end
  end.
(** coreguided.rs 192-215 [OllReformulation::from] *)
Definition reform_start (o : objective) (p : pst) : rst := mkRst (obj_iter o) [] [] [] 0 p.
