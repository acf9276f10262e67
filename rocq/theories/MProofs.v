(** * Model of the proof writing functions (core/src/algs/proofs.rs)

    The functions are modelled as writers of proof lines in the sense of VeriPB.v. The
    crates [pigeons] (formatting of proof lines) and [rustsat] (encodings with their
    semantics) are external; what is used of the encodings is the record [penc].
    Machine integers are unbounded here: the conversions [isize::try_from(..).expect(..)]
    never fail. Input/output errors of the proof writer are not modelled. *)
From Coq Require Import List Arith ZArith Bool.
From Verif Require Import Base MTypes MPMinimal MPrepro VeriPB.
Import ListNotations.
Local Open Scope Z_scope.

(** proofs.rs 831-833 [axiom] *)
Definition axiom (l : lit) : ax pv := mkAx (PVs (lvar l)) (lneg l).

(** proofs.rs 150-166: the order constraint of one objective *)
Definition obj_order (o : objective) : lbc ov :=
  let mult := Z.of_nat (obj_unit_weight o) in
  mkLb (flat_map (fun lw =>
          [(- Z.of_nat (snd lw) * mult, mkAx (OvU (lvar (fst lw))) (lneg (fst lw)));
           (Z.of_nat (snd lw) * mult, mkAx (OvV (lvar (fst lw))) (lneg (fst lw)))]) (obj_iter o)) 0.
(** proofs.rs 172-176: the transitivity derivation *)
Definition order_trans (n idx : nat) : pol :=
  PAdd (PAdd (PC (CAbs (idx + 1))) (PC (CAbs (n + idx + 1)))) (PC (CLast 1)).
(** proofs.rs 148-180 [objectives_as_order] *)
Definition objectives_as_order (objs : list objective) : list (lbc ov * pol) :=
  map (fun io => (obj_order (snd io), order_trans (length objs) (fst io))) (enumerate objs).
(** proofs.rs 127-146 [init_proof]: the checker state after the header; the input
    constraints have the ids 1, 2, ... *)
Fixpoint number {A} (n : nat) (l : list A) : list (nat * A) :=
  match l with [] => [] | x :: r => (n, x) :: number (S n) r end.
Definition clause_pb (c : clause) : pconstr := lb_clause (map axiom c).
Definition init_chk (cls : list clause) (objs : list objective) : chk :=
  mkChk (number 1 (map clause_pb cls)) [] (S (length cls)) (map fst (objectives_as_order objs)) [].

(** proofs.rs 121-125 [Value] *)
Inductive value := VIdentical (l : lit) | VObjAtLeast (oidx v : nat).

(** proofs.rs 111-119 [ProofStuff] together with the state of the proof writer: the next
    constraint id, the next proof-only variable and the lines written so far; [ps_reg]
    records the clauses handed to the oracle together with their ids *)
Record pst := mkPst {
  ps_next : nat;
  ps_nextvar : nat;
  ps_log : list step;
  ps_vmap : list (ax pv * value);
  ps_bounds : list ((nat * nat) * (ax pv * nat * nat));
  ps_reg : list (clause * nat)
}.
Definition wr_id (s : step) (p : pst) : nat * pst :=
  (ps_next p, mkPst (S (ps_next p)) (ps_nextvar p) (ps_log p ++ [s]) (ps_vmap p) (ps_bounds p) (ps_reg p)).
Definition wr (s : step) (p : pst) : pst :=
  mkPst (ps_next p) (ps_nextvar p) (ps_log p ++ [s]) (ps_vmap p) (ps_bounds p) (ps_reg p).
Definition push_value (x : ax pv * value) (p : pst) : pst :=
  mkPst (ps_next p) (ps_nextvar p) (ps_log p) (ps_vmap p ++ [x]) (ps_bounds p) (ps_reg p).
Definition new_proof_var (p : pst) : nat * pst :=
  (ps_nextvar p, mkPst (ps_next p) (S (ps_nextvar p)) (ps_log p) (ps_vmap p) (ps_bounds p) (ps_reg p)).
Definition add_bound (key : nat * nat) (x : ax pv * nat * nat) (p : pst) : pst :=
  mkPst (ps_next p) (ps_nextvar p) (ps_log p) (ps_vmap p) ((key, x) :: ps_bounds p) (ps_reg p).
(** cadical-veripb-tracer/src/lib.rs 312-320 [add_cert_clause] *)
Definition add_cert (c : clause) (id : nat) (p : pst) : pst :=
  mkPst (ps_next p) (ps_nextvar p) (ps_log p) (ps_vmap p) (ps_bounds p) (ps_reg p ++ [(c, id)]).

(** ** Objective bound reification *)
Definition key_eqb (a b : nat * nat) : bool := Nat.eqb (fst a) (fst b) && Nat.eqb (snd a) (snd b).
Fixpoint bound_get (m : list ((nat * nat) * (ax pv * nat * nat))) (key : nat * nat) : option (ax pv * nat * nat) :=
  match m with
  | [] => None
  | (k, x) :: r => if key_eqb k key then Some x else bound_get r key
  end.
(** proofs.rs 748-761: r is implied by the bound *)
Definition bound_def_1 (o : objective) (v : nat) (r : pv) : pconstr :=
  let bound := Z.of_nat (wtotal (obj_iter o)) + 1 - Z.of_nat v in
  mkLb (map (fun lw => (Z.of_nat (snd lw), ax_not (axiom (fst lw)))) (obj_iter o) ++ [(bound, mkAx r false)]) bound.
(** proofs.rs 765-777: r implies the bound *)
Definition bound_def_2 (o : objective) (v : nat) (r : pv) : pconstr :=
  let bound := Z.of_nat v in
  mkLb (map (fun lw => (Z.of_nat (snd lw), axiom (fst lw))) (obj_iter o) ++ [(bound, mkAx r true)]) bound.
(** proofs.rs 718-783 [get_obj_bound_constraint] *)
Definition get_obj_bound (v : nat) (o : objective) (p : pst) : (ax pv * nat * nat) * pst :=
  match bound_get (ps_bounds p) (obj_idx o, v) with
  | Some x => (x, p)
  | None =>
      let '(n, p) := new_proof_var p in
      let r := PVp n in
      let p := push_value (mkAx r false, VObjAtLeast (obj_idx o) v) p in
      let '(d1, p) := wr_id (SRed (bound_def_1 o v r) [(r, true)] []) p in
      let '(d2, p) := wr_id (SRed (bound_def_2 o v r) [(r, false)] []) p in
      let x := (mkAx r false, d1, d2) in
      (x, add_bound (obj_idx o, v) x p)
  end.

(** ** What is used of an objective encoding with proof logging
    (core/src/types.rs 596-633 and rustsat's [output_proof_details]) *)
Record penc := mkPenc {
  pe_offset : nat;
  pe_nout : nat;                                             (* n_output_lits *)
  pe_buf_empty : bool;                                       (* is_buffer_empty *)
  pe_enforce_ub : nat -> option (list lit);
  pe_details : nat -> option (lit * (option nat * option nat));  (* output literal, (if_def, only_if_def) *)
  pe_next_higher : nat -> nat;
  pe_extend : assignment -> list lit                         (* extend_assignment *)
}.

(** ** The cut excluding everything weakly dominated by a solution *)
Definition is_some {A} (x : option A) : bool := match x with Some _ => true | None => false end.
(** proofs.rs 215-246 *)
Definition cut_one (e : penc) (o : objective) (reform : option nat) (cst : nat) (p : pst)
  : option ((option (ax pv) * option nat) * pst) :=
  if (cst <=? obj_lb o)%nat then
    if (cst =? 0)%nat || is_some reform then Some ((None, reform), p) else None
  else match obj_iter o with
  | [(l, _)] => Some ((Some (axiom (lnot l)), None), p)
  | _ =>
      if (pe_nout e =? 1)%nat then
        match pe_enforce_ub e (pe_offset e) with
        | Some (l :: _) => Some ((Some (axiom l), None), p)
        | _ => None
        end
      else if pe_buf_empty e then
        match pe_details e cst with
        | Some (olit, (_, Some d)) => Some ((Some (ax_not (axiom olit)), Some d), p)
        | _ => None
        end
      else
        let '(l, _, d, p) := get_obj_bound cst o p in
        Some ((Some (ax_not l), Some d), p)
  end.
(** one objective as [certify_pmin_cut] sees it *)
Record cobj := mkCobj { co_enc : penc; co_obj : objective; co_reform : option nat; co_cost : nat }.
Fixpoint cut_data (cs : list cobj) (p : pst) : option (list (option (ax pv) * option nat) * pst) :=
  match cs with
  | [] => Some ([], p)
  | c :: r =>
      match cut_one (co_enc c) (co_obj c) (co_reform c) (co_cost c) p with
      | None => None
      | Some (d, p) =>
          match cut_data r p with
          | None => None
          | Some (ds, p) => Some (d :: ds, p)
          end
      end
  end.
(** proofs.rs 248 *)
Definition cut_lits (ds : list (option (ax pv) * option nat)) : list (ax pv) :=
  filter_map (fun d => fst d) ds.

(** proofs.rs 274-305: values of the variables introduced by the proof logger; the second
    component are the literals over proof-only variables *)
Definition assign_ax (this : ax pv) (b : bool) (fw : assignment * list (ax pv)) : assignment * list (ax pv) :=
  let l := if b then this else ax_not this in
  match ax_var l with
  | PVp _ => (fst fw, snd fw ++ [l])
  | PVs v => (assign_lit (fst fw) (mkLit v (ax_neg l)), snd fw)
  end.
Fixpoint value_fix (costs : list nat) (vm : list (ax pv * value)) (fw : assignment * list (ax pv))
  : option (assignment * list (ax pv)) :=
  match vm with
  | [] => Some fw
  | (this, VIdentical that) :: r =>
      match lit_value (fst fw) that with
      | Some b => value_fix costs r (assign_ax this b fw)
      | None => None
      end
  | (this, VObjAtLeast i v) :: r =>
      match nth_error costs i with
      | Some c => value_fix costs r (assign_ax this (v <=? c)%nat fw)
      | None => None
      end
  end.
(** proofs.rs 259-311 *)
Definition fix_witness (encs : list penc) (costs : list nat) (vm : list (ax pv * value)) (witness : assignment)
  : option (list (ax pv)) :=
  let fw := collect_lits (sol_lits witness ++ flat_map (fun e => pe_extend e witness) encs) in
  match value_fix costs vm (fw, []) with
  | None => None
  | Some (fw, pvs) => Some (map axiom (sol_lits fw) ++ pvs)
  end.

(** proofs.rs 317-329 *)
Definition map_dom_constr (fw cut : list (ax pv)) : pconstr :=
  mkLb (map (fun l => (1, l)) fw ++ map (fun l => (Z.of_nat (length fw) + 1, l)) cut) (Z.of_nat (length fw)).
(** proofs.rs 336-383 *)
Definition dom_goal (negid : nat) (idx : nat) (dat : option (ax pv) * option nat) (c : cobj)
  : option (nat * list deriv) :=
  match dat with
  | (None, Some r) => Some (idx + 2, [DPol (PAdd (PC (CAbs r)) (PC (CLast 1)))])%nat
  | (Some l, Some d) =>
      let p0 := PAdd (PMul (PC (CLast 1)) (Z.of_nat (co_cost c) - Z.of_nat (obj_lb (co_obj c)))) (PC (CAbs d)) in
      let p1 := match co_reform c with Some r => PAdd p0 (PC (CAbs r)) | None => p0 end in
      let p2 := PAdd (PMul p1 (Z.of_nat (obj_unit_weight (co_obj c)))) (PC (CLast 2)) in
      Some (idx + 2, [DRup (lb_clause [ax_not l]) [CAbs negid]; DPol p2])%nat
  | (_, None) => None
  end.
Definition dom_goals (negid : nat) (ds : list (option (ax pv) * option nat)) (cs : list cobj) : list (nat * list deriv) :=
  filter_map (fun x => dom_goal negid (fst x) (fst (snd x)) (snd (snd x))) (enumerate (combine ds cs)).
(** a literal as a substitution *)
Definition ax_subst (l : ax pv) : pv * bool := (ax_var l, negb (ax_neg l)).

(** proofs.rs 182-421 [certify_pmin_cut]; the full assignment in the exclusion line is what
    the checker computes (proofs.rs 394-398 states that it is the extended witness) *)
Definition certify_pmin_cut (cs : list cobj) (witness : assignment) (max_enc : nat) (p : pst)
  : option (nat * pst) :=
  match cut_data cs p with
  | None => None
  | Some (ds, p) =>
      let cut := cut_lits ds in
      match fix_witness (map co_enc cs) (map co_cost cs) (ps_vmap p) witness with
      | None => None
      | Some fw =>
          let '(map_dom, p) :=
            wr_id (SRed (map_dom_constr fw cut) (map ax_subst fw) (dom_goals (ps_next p) ds cs)) p in
          let '(exclude, p) := wr_id (SSolx (map axiom (sol_lits (truncate witness max_enc))) fw) p in
          let '(cut_id, p) := wr_id (SRup (lb_clause cut) [CAbs map_dom; CAbs exclude]) p in
          let p := wr (SCore [CAbs cut_id]) p in
          let p := wr (SDel [CAbs exclude; CAbs map_dom]
                         [(1%nat, [DRup (lb_clause []) [CLast 1; CAbs cut_id]])]) p in
          Some (cut_id, p)
      end
  end.

(** ** Reification of several assumptions *)

(** rustsat's [atomics::lit_impl_lit] *)
Definition lit_impl_lit (a b : lit) : clause := [lnot a; b].
(** proofs.rs 472-500 *)
Fixpoint reif_loop (e : penc) (value : nat) (first_if : nat) (reif : lit) (if_def : nat) (val : nat)
    (as_ : list lit) (p : pst) : option pst :=
  match as_ with
  | [] => Some p
  | a :: r =>
      let val := pe_next_higher e val in
      match pe_details e val with
      | Some (olit, (_, Some oi)) =>
          if lit_eqb (lnot olit) a then
            let '(imp, p) :=
              wr_id (SPol (PSat (PDiv (PAdd (PC (CAbs first_if)) (PC (CAbs oi)))
                                   (Z.of_nat val - Z.of_nat value + 1)))) p in
            let cl := lit_impl_lit reif a in
            let '(id, p) := wr_id (SRup (clause_pb cl) [CAbs imp; CAbs if_def]) p in
            let p := add_cert cl id p in
            let p := wr (SDel [CAbs imp] []) p in
            reif_loop e value first_if reif if_def val r p
          else None
      | _ => None
      end
  end.
(** proofs.rs 429-502 [certify_assump_reification], the case of an empty buffer *)
Definition certify_reif (e : penc) (value : nat) (reif : lit) (assumps : list lit) (p : pst)
  : option (nat * pst) :=
  match assumps with
  | [] => None
  | a :: r =>
      let cl := lit_impl_lit reif a in
      let '(if_def, p) := wr_id (SRed (clause_pb cl) [(PVs (lvar reif), false)] []) p in
      let '(only_if, p) :=
        wr_id (SRed (clause_pb (lit_impl_lit a reif)) [(PVs (lvar reif), true)] []) p in
      let p := push_value (axiom reif, VIdentical a) p in
      let p := add_cert cl if_def p in
      match pe_details e value with
      | Some (first_olit, (Some first_if, _)) =>
          if lit_eqb (lnot first_olit) a then
            match reif_loop e value first_if reif if_def value r p with
            | Some p => Some (only_if, p)
            | None => None
            end
          else None
      | _ => None
      end
  end.
(** proofs.rs 526-557 *)
Fixpoint reif_loop_buf (e : penc) (def_1 : nat) (reif : lit) (if_def : nat) (val : nat)
    (as_ : list lit) (p : pst) : option pst :=
  match as_ with
  | [] => Some p
  | a :: r =>
      let cl := lit_impl_lit reif a in
      match pe_details e val with
      | Some (olit, (_, oi)) =>
          if (lvar a <? lvar olit)%nat then
            let '(id, p) := wr_id (SRup (clause_pb cl) [CAbs if_def; CAbs def_1]) p in
            reif_loop_buf e def_1 reif if_def val r (add_cert cl id p)
          else
            match oi with
            | Some oi =>
                if lit_eqb (lnot olit) a then
                  let '(tmp, p) := wr_id (SPol (PAdd (PC (CAbs def_1)) (PC (CAbs oi)))) p in
                  let '(id, p) := wr_id (SRup (clause_pb cl) [CAbs if_def; CAbs tmp]) p in
                  let p := wr (SDel [CAbs tmp] []) p in
                  reif_loop_buf e def_1 reif if_def (pe_next_higher e val) r (add_cert cl id p)
                else None
            | None => None
            end
      | None => None
      end
  end.
(** proofs.rs 502-559 [certify_assump_reification], the case of buffered inputs *)
Definition certify_reif_buf (e : penc) (o : objective) (value : nat) (reif : lit) (assumps : list lit) (p : pst)
  : option (nat * pst) :=
  let '(ideal, def_1, _, p) := get_obj_bound value o p in
  let '(if_def, p) :=
    wr_id (SRed (lb_clause [axiom (lnot reif); ax_not ideal]) [(PVs (lvar reif), false)] []) p in
  let '(only_if, p) :=
    wr_id (SRed (lb_clause [axiom reif; ideal]) [(PVs (lvar reif), true)] []) p in
  let p := push_value (axiom (lnot reif), VObjAtLeast (obj_idx o) value) p in
  match reif_loop_buf e def_1 reif if_def value assumps p with
  | Some p => Some (only_if, p)
  | None => None
  end.
Definition certify_assump_reification (o : objective) (e : penc) (value : nat) (reif : lit) (assumps : list lit)
    (p : pst) : option (nat * pst) :=
  if pe_buf_empty e then certify_reif e value reif assumps p
  else certify_reif_buf e o value reif assumps p.

(** ** Derivations of the objective reformulation constraint (core/src/algs/coreguided.rs) *)

(** coreguided.rs 574-589: a core that is not exhausted *)
Definition reform_init (core_id only_if : nat) : pol := PDiv (PAdd (PC (CAbs core_id)) (PC (CAbs only_if))) 2.
(** coreguided.rs 515-519: one more totalizer output *)
Definition reform_extend (proof_id : pol) (only_if : nat) (oidx : nat) : pol :=
  PDiv (PAdd (PMul proof_id (Z.of_nat (oidx + 1))) (PC (CAbs only_if))) (Z.of_nat (oidx + 2)).
(** coreguided.rs 323-340: all remaining totalizer outputs; [only_if val] is the id of the
    definition of output [val] *)
Fixpoint reform_all (seq : pol) (only_if : nat -> nat) (vals : list nat) : pol :=
  match vals with
  | [] => seq
  | v :: r => reform_all (PDiv (PAdd (PMul seq (Z.of_nat v - 1)) (PC (CAbs (only_if v)))) (Z.of_nat v)) only_if r
  end.
(** coreguided.rs 605-638: core exhaustion up to [bound]; [defs] are the ids of the
    definitions that are added for each output, [cores] the ids of the unit cores found *)
Fixpoint reform_exhaust (seq : pol) (bound : nat) (defs : list nat) (cores : list nat) : pol :=
  match defs with
  | [] => seq
  | d :: r =>
      let seq := PDiv (PAdd (PMul seq (Z.of_nat bound)) (PC (CAbs d))) (Z.of_nat (bound + 1)) in
      match cores with
      | [] => seq
      | c :: cs => reform_exhaust (PAdd seq (PC (CAbs c))) (S bound) r cs
      end
  end.
