(** * Model of the proof logging in the algorithms

    What P-Minimal, linear search and BiOptSat write to the proof besides the cut of a solution and
    the reified bounds (MProofs.v): the clause blocking a candidate, the lower bound certified by a
    core of linear search and the cuts of BiOptSat. A failed [unwrap], an index out of bounds and a failed [debug_assert]
    are [None]. The lines written by the encodings when they are extended belong to rustsat and are
    not modelled: the functions take the encodings as they are after the extension. *)
From Coq Require Import List Arith ZArith Bool.
From Verif Require Import Base MTypes MPMinimal MPrepro VeriPB MProofs.
Import ListNotations.
Local Open Scope Z_scope.

(** ** P-Minimal: the clause blocking what a candidate weakly dominates *)
(** An objective as [dominated_block_clause] sees it: [bo_const] says that the encoding is
    [ObjEncoding::Constant] *)
Record bobj := mkBobj { bo_enc : penc; bo_obj : objective; bo_const : bool; bo_cost : nat }.
(** pminimal.rs 608-655 [dominated_block_clause] with proof logging; [nv] is the next variable of the
    variable manager. Returns the clause, the ids of the reifications and the next variable. *)
Fixpoint block_clause (bs : list bobj) (nv : nat) (p : pst) : option (clause * list nat * nat * pst) :=
  match bs with
  | [] => Some ([], [], nv, p)
  | b :: r =>
      if (bo_cost b <=? pe_offset (bo_enc b))%nat || bo_const b then block_clause r nv p
      else match pe_enforce_ub (bo_enc b) (bo_cost b - 1) with
      | Some [] | None => None
      | Some [a] =>
          match block_clause r nv p with
          | Some (c, ids, nv, p) => Some (a :: c, ids, nv, p)
          | None => None
          end
      | Some as_ =>
          let and_lit := mkLit nv false in
          match certify_assump_reification (bo_obj b) (bo_enc b) (bo_cost b) and_lit as_ p with
          | None => None
          | Some (id, p) =>
              match block_clause r (S nv) p with
              | Some (c, ids, nv, p) => Some (and_lit :: c, id :: ids, nv, p)
              | None => None
              end
          end
      end
  end.
(** pminimal.rs 447-481: the candidate is blocked permanently (no enumeration); [cs] are the objectives
    as [certify_pmin_cut] sees them *)
Definition block_candidate (bs : list bobj) (cs : list cobj) (witness : assignment) (max_enc nv : nat) (p : pst)
  : option (clause * nat * pst) :=
  match block_clause bs nv p with
  | None => None
  | Some (cl, ids, nv, p) =>
      match certify_pmin_cut cs witness max_enc p with
      | None => None
      | Some (cut_id, p) =>
          let '(id, p) := wr_id (SRup (clause_pb cl) (map CAbs (ids ++ [cut_id]))) p in
          Some (cl, nv, add_cert cl id p)
      end
  end.

(** ** Implications between outputs *)
(** proofs.rs 478-484, 624-630, bioptsat.rs 535-540, 685-690: [olit] of a higher value implies [first_olit] *)
Definition imp_pol (first_if only_if : nat) (k : Z) : pol :=
  PSat (PDiv (PAdd (PC (CAbs first_if)) (PC (CAbs only_if))) k).

(** ** Linear search: the lower bound certified by a core *)
(** proofs.rs 590-595: skips the negated base assumptions at the start of the core *)
Fixpoint skip_base (base core : list lit) : option (list lit) :=
  match base with
  | [] => Some core
  | b :: r =>
      match core with
      | [] => None
      | c :: cr => if lit_eqb c (lnot b) then skip_base r cr else skip_base r core
      end
  end.
(** proofs.rs 619-623 and 679-682: the next output that is the literal [clit]; [by_var] compares the
    variables only; the loop has no bound in the code, here it is [fuel] *)
Fixpoint find_out (e : penc) (by_var : bool) (clit : lit) (fuel : nat) (val : nat) : option (nat * option nat) :=
  match fuel with
  | O => None
  | S fuel =>
      match pe_details e val with
      | None => None
      | Some (olit, (_, oi)) =>
          if (if by_var then (lvar clit =? lvar olit)%nat else lit_eqb clit olit) then Some (val, oi)
          else find_out e by_var clit fuel (pe_next_higher e val)
      end
  end.
(** proofs.rs 615-638: the implications from the literals of the core to the first output *)
Fixpoint lb_imps (e : penc) (fuel : nat) (first_if cost : nat) (core : list lit) (val : nat) (p : pst)
  : option (list nat * pst) :=
  match core with
  | [] => Some ([], p)
  | clit :: r =>
      match find_out e false clit fuel val with
      | Some (v, Some oi) =>
          let '(imp, p) := wr_id (SPol (imp_pol first_if oi (Z.of_nat v - Z.of_nat cost + 1))) p in
          match lb_imps e fuel first_if cost r (pe_next_higher e v) p with
          | Some (imps, p) => Some (imp :: imps, p)
          | None => None
          end
      | _ => None
      end
  end.
(** proofs.rs 597-661: the encoding has no buffered inputs; the index [core[start]] of line 610 is out
    of bounds if nothing is left *)
Definition linsu_cert (e : penc) (fuel : nat) (base : list lit) (cost : nat) (core : list lit) (core_id : nat) (p : pst)
  : option (nat * pst) :=
  match skip_base base core with
  | None => None
  | Some rest =>
      match pe_details e cost with
      | None => None
      | Some (first_olit, (first_if, _)) =>
          match core with
          | [c] => if lit_eqb c first_olit then Some (core_id, p) else None
          | _ =>
              match rest with
              | [] => None
              | c :: r =>
                  let todo := if lit_eqb c first_olit then r else rest in
                  match (match todo, first_if with
                         | [], _ => Some ([], p)
                         | _, Some fi => lb_imps e fuel fi cost todo cost p
                         | _, None => None
                         end) with
                  | None => None
                  | Some (imps, p) =>
                      match imps, base with
                      | [], [] => Some (core_id, p)
                      | _, _ =>
                          let '(id, p) := wr_id (SRup (clause_pb (map lnot base ++ [first_olit])) (map CAbs (imps ++ [core_id]))) p in
                          let p := match imps with [] => p | _ => wr (SDel (map CAbs imps) []) p end in
                          Some (id, p)
                      end
                  end
              end
          end
      end
  end.
(** proofs.rs 669-697: the implications from the literals of the core to the reified bound *)
Fixpoint lb_imps_buf (e : penc) (fuel : nat) (ideal : ax pv) (def_1 : nat) (core : list lit) (val : nat) (p : pst)
  : option (list nat * pst) :=
  match core with
  | [] => Some ([], p)
  | clit :: r =>
      let cl := lb_clause [axiom (lnot clit); ideal] in
      match pe_details e val with
      | None => None
      | Some (olit, _) =>
          match (if (lvar clit <? lvar olit)%nat then
                   let '(imp, p) := wr_id (SRup cl [CAbs def_1]) p in Some (imp, val, p)
                 else match find_out e true clit fuel val with
                 | Some (v, Some oi) =>
                     let '(tmp, p) := wr_id (SPol (PAdd (PC (CAbs def_1)) (PC (CAbs oi)))) p in
                     let '(imp, p) := wr_id (SRup cl [CAbs tmp]) p in
                     let p := wr (SDel [CAbs tmp] []) p in
                     Some (imp, pe_next_higher e v, p)
                 | _ => None
                 end) with
          | None => None
          | Some (imp, val, p) =>
              match lb_imps_buf e fuel ideal def_1 r val p with
              | Some (imps, p) => Some (imp :: imps, p)
              | None => None
              end
          end
      end
  end.
(** proofs.rs 661-713: the encoding has buffered inputs *)
Definition linsu_cert_buf (e : penc) (fuel : nat) (o : objective) (base : list lit) (cost : nat) (core : list lit) (core_id : nat)
    (p : pst) : option (nat * pst) :=
  match skip_base base core with
  | None => None
  | Some rest =>
      let '(ideal, def_1, _, p) := get_obj_bound cost o p in
      match lb_imps_buf e fuel ideal def_1 rest cost p with
      | None => None
      | Some (imps, p) =>
          let '(id, p) := wr_id (SRup (lb_clause (map (fun l => axiom (lnot l)) base ++ [ideal])) (map CAbs (imps ++ [core_id]))) p in
          Some (id, wr (SDel (map CAbs imps) []) p)
      end
  end.
(** proofs.rs 562-716 [linsu_certify_lower_bound] *)
Definition linsu_certify (e : penc) (fuel : nat) (o : objective) (base : list lit) (cost : nat) (core : list lit) (core_id : nat)
    (p : pst) : option (nat * pst) :=
  if pe_buf_empty e then linsu_cert e fuel base cost core core_id p
  else linsu_cert_buf e fuel o base cost core core_id p.

(** ** BiOptSat *)
(** bioptsat.rs 529-548: the implications from the outputs that are assumed false to the first one; the divisor is the one
    of the code *)
Fixpoint bos_imps (e : penc) (first_if inc_cost : nat) (as_ : list lit) (val : nat) (p : pst) : option (list nat * pst) :=
  match as_ with
  | [] => Some ([], p)
  | a :: r =>
      match pe_details e val with
      | Some (olit, (_, Some oi)) =>
          if lit_eqb a (lnot olit) then
            let '(imp, p) := wr_id (SPol (imp_pol first_if oi (Z.of_nat val - Z.of_nat inc_cost + 2))) p in
            match bos_imps e first_if inc_cost r (pe_next_higher e val) p with
            | Some (imps, p) => Some (imp :: imps, p)
            | None => None
            end
          else None
      | _ => None
      end
  end.
(** bioptsat.rs 550-557 and 604-611: the sum of the bound and the implications, saturated *)
Definition shorten_pol (lb_id : nat) (imps : list nat) : pol :=
  PSat (fold_left (fun s i => PAdd s (PC (CAbs i))) imps (PC (CAbs lb_id))).
(** bioptsat.rs 515-565: the lower bound on the decreasing objective is rewritten to the first output of the increasing
    one, no buffered inputs *)
Definition bos_shorten (e0 : penc) (inc_cost : nat) (assumps : list lit) (dec_lb_id : option nat) (p : pst)
  : option (option nat * pst) :=
  let first_val := pe_next_higher e0 inc_cost in
  match pe_details e0 first_val with
  | None => None
  | Some (first_olit, (first_if, _)) =>
      match assumps with
      | [] => Some (dec_lb_id, p)
      | [a] => if lit_eqb a (lnot first_olit) then Some (dec_lb_id, p) else None
      | a :: r =>
          let todo := if lit_eqb a (lnot first_olit) then r else assumps in
          match first_if, dec_lb_id with
          | Some fi, Some lb =>
              match bos_imps e0 fi inc_cost todo (pe_next_higher e0 first_val) p with
              | None => None
              | Some (imps, p) =>
                  let '(short, p) := wr_id (SPol (shorten_pol lb imps)) p in
                  Some (Some short, wr (SDel (map CAbs imps) []) p)
              end
          | _, _ => None
          end
      end
  end.
(** bioptsat.rs 577-602: the same with buffered inputs. The code takes the reified bound of the
    decreasing objective (line 567-572), and the negation of each assumption (line 581-584);
    [next1] is [next_higher] of the encoding of the decreasing objective (line 599). *)
Fixpoint bos_imps_buf (e0 : penc) (next1 : nat -> nat) (ideal : ax pv) (def_1 : nat) (as_ : list lit) (val : nat) (p : pst)
  : option (list nat * pst) :=
  match as_ with
  | [] => Some ([], p)
  | a :: r =>
      let cl := lb_clause [ax_not (axiom a); ideal] in
      match pe_details e0 val with
      | None => None
      | Some (olit, (_, oi)) =>
          match (if (lvar a <? lvar olit)%nat then
                   let '(imp, p) := wr_id (SRup cl [CAbs def_1]) p in Some (imp, val, p)
                 else match oi with
                 | Some oi =>
                     if lit_eqb a (lnot olit) then
                       let '(tmp, p) := wr_id (SPol (PAdd (PC (CAbs def_1)) (PC (CAbs oi)))) p in
                       let '(imp, p) := wr_id (SRup cl [CAbs tmp]) p in
                       let p := wr (SDel [CAbs tmp] []) p in
                       Some (imp, next1 val, p)
                     else None
                 | None => None
                 end) with
          | None => None
          | Some (imp, val, p) =>
              match bos_imps_buf e0 next1 ideal def_1 r val p with
              | Some (imps, p) => Some (imp :: imps, p)
              | None => None
              end
          end
      end
  end.
(** bioptsat.rs 566-619 *)
Definition bos_shorten_buf (e0 e1 : penc) (o1 : objective) (inc_cost dec_cost : nat) (assumps : list lit) (dec_lb_id : option nat)
    (p : pst) : option (option nat * pst) :=
  match pe_details e0 (pe_next_higher e0 inc_cost) with
  | None => None
  | Some _ =>
      let '(ideal, def_1, _, p) := get_obj_bound dec_cost o1 p in
      match bos_imps_buf e0 (pe_next_higher e1) ideal def_1 assumps (inc_cost + 1)%nat p, dec_lb_id with
      | Some (imps, p), Some lb =>
          let '(short, p) := wr_id (SPol (shorten_pol lb imps)) p in
          Some (Some short, wr (SDel (map CAbs imps) []) p)
      | _, _ => None
      end
  end.
(** bioptsat.rs 454-483 and 626-653: the cut that is added, from the cut of the solution and the lower bound on the
    increasing objective; [inc_lb_id] is what linear search on the increasing objective returned, [last_cut] and [last_lb]
    are the cut and the bound of the previous iteration *)
Definition bos_cut (e0 : penc) (inc_cost inc_lb : nat) (inc_lb_id last_cut last_lb : option nat) (pmin_cut : nat) (p : pst)
  : option (nat * pst) :=
  if (inc_cost <=? pe_offset e0)%nat then Some (pmin_cut, p)
  else
    match (if (inc_cost =? inc_lb)%nat then
             match last_cut, last_lb with
             | Some c, Some l =>
                 let '(id, p) := wr_id (SPol (PAdd (PC (CAbs c)) (PC (CAbs l)))) p in Some (id, p)
             | _, _ => None
             end
           else match inc_lb_id with Some id => Some (id, p) | None => None end) with
    | None => None
    | Some (lb, p) =>
        let '(id, p) := wr_id (SPol (PAdd (PC (CAbs lb)) (PC (CAbs pmin_cut)))) p in Some (id, p)
    end.
(** bioptsat.rs 666-707: the clauses enforcing the cut, no buffered inputs *)
Fixpoint bos_add_rest (e1 : penc) (first_if dec_cost cut : nat) (as_ : list lit) (val : nat) (p : pst) : option pst :=
  match as_ with
  | [] => Some p
  | a :: r =>
      let val := pe_next_higher e1 val in
      match pe_details e1 val with
      | Some (olit, (_, Some oi)) =>
          if lit_eqb a (lnot olit) then
            let '(imp, p) := wr_id (SPol (imp_pol first_if oi (Z.of_nat val - Z.of_nat dec_cost + 1))) p in
            let '(id, p) := wr_id (SPol (PAdd (PC (CAbs cut)) (PC (CAbs imp)))) p in
            let p := add_cert [a] id p in
            let p := wr (SDel [CAbs imp] []) p in
            bos_add_rest e1 first_if dec_cost cut r val p
          else None
      | _ => None
      end
  end.
Definition bos_add (e1 : penc) (dec_cost cut : nat) (p : pst) : option pst :=
  match pe_enforce_ub e1 (dec_cost - 1), pe_details e1 dec_cost with
  | Some (a :: r), Some (first_olit, (first_if, _)) =>
      if lit_eqb a (lnot first_olit) then
        let p := add_cert [a] cut p in
        match r, first_if with
        | [], _ => Some p
        | _, Some fi => bos_add_rest e1 fi dec_cost cut r dec_cost p
        | _, None => None
        end
      else None
  | _, _ => None
  end.
(** bioptsat.rs 708-753: the clauses enforcing the cut with buffered inputs *)
Fixpoint bos_add_buf_loop (e1 : penc) (ideal : ax pv) (def_1 cut : nat) (as_ : list lit) (val : nat) (p : pst) : option pst :=
  match as_ with
  | [] => Some p
  | a :: r =>
      let cl := lb_clause [ideal; axiom a] in
      match pe_details e1 val with
      | None => None
      | Some (olit, (_, oi)) =>
          match (if (lvar a <? lvar olit)%nat then
                   let '(imp, p) := wr_id (SRup cl [CAbs def_1]) p in Some (imp, val, p)
                 else match oi with
                 | Some oi =>
                     if lit_eqb a (lnot olit) then
                       let '(tmp, p) := wr_id (SPol (PAdd (PC (CAbs def_1)) (PC (CAbs oi)))) p in
                       let '(imp, p) := wr_id (SRup cl [CAbs tmp]) p in
                       let p := wr (SDel [CAbs tmp] []) p in
                       Some (imp, pe_next_higher e1 val, p)
                     else None
                 | None => None
                 end) with
          | None => None
          | Some (imp, val, p) =>
              let '(id, p) := wr_id (SPol (PAdd (PC (CAbs cut)) (PC (CAbs imp)))) p in
              let p := add_cert [a] id p in
              let p := wr (SDel [CAbs imp] []) p in
              bos_add_buf_loop e1 ideal def_1 cut r val p
          end
      end
  end.
Definition bos_add_buf (e1 : penc) (o1 : objective) (dec_cost cut : nat) (p : pst) : option pst :=
  match pe_enforce_ub e1 (dec_cost - 1) with
  | None => None
  | Some as_ =>
      let '(ideal, def_1, _, p) := get_obj_bound dec_cost o1 p in
      bos_add_buf_loop e1 ideal def_1 cut as_ dec_cost p
  end.
(** What BiOptSat keeps from one iteration to the next *)
Record bst := mkBst { bs_cut : option nat; bs_lb : option nat }.
(** bioptsat.rs 501-764: the proof lines of one iteration after the cut of the solution has been derived; [assumps] are the
    assumptions bounding the increasing objective by [inc_cost] *)
Definition bos_step (e0 e1 : penc) (o1 : objective) (inc_cost dec_cost inc_lb : nat) (inc_lb_id dec_lb_id : option nat)
    (assumps : list lit) (pmin_cut : nat) (b : bst) (p : pst) : option (bst * pst) :=
  match (if pe_buf_empty e0 then bos_shorten e0 inc_cost assumps dec_lb_id p
         else bos_shorten_buf e0 e1 o1 inc_cost dec_cost assumps dec_lb_id p) with
  | None => None
  | Some (lb, p) =>
      match bos_cut e0 inc_cost inc_lb inc_lb_id (bs_cut b) (bs_lb b) pmin_cut p with
      | None => None
      | Some (cut, p) =>
          match (if pe_buf_empty e1 then bos_add e1 dec_cost cut p else bos_add_buf e1 o1 dec_cost cut p) with
          | None => None
          | Some p => Some (mkBst (Some cut) lb, p)
          end
      end
  end.
