(** * Model of the proof tracer between CaDiCaL and the proof (cadical-veripb-tracer/src/lib.rs)

    CaDiCaL numbers its clauses 1, 2, ... and calls back into the tracer. The tracer maps these
    numbers to constraint ids of the proof. CaDiCaL itself is external: the callbacks it makes are
    events. Not modelled: comments and equality checks of the feature "verbose", the alternative
    derivation of the feature "rup-hints", input/output errors, the sets [weakened_clauses] and
    [assumptions], which are never read. *)
From Coq Require Import List Arith ZArith Bool.
From Verif Require Import Base MTypes MKernel MPMinimal MPrepro VeriPB MProofs.
Import ListNotations.

(** lib.rs 13-24 [CadicalTracer], 262-265 [ConstraintMapper]; [tr_concl] is the default conclusion of
    the proof (lib.rs 173-179) *)
Record tracer := mkTr { tr_map : list nat; tr_core : option nat; tr_concl : option nat }.
(** lib.rs 27-35 *)
Definition tr_new : tracer := mkTr [] None None.

(** lib.rs 277-279 [ConstraintMapper::map]; None: index out of bounds or underflow (panic) *)
Definition cmap_get (m : list nat) (id : nat) : option nat :=
  match id with 0 => None | S n => nth_error m n end.
(** lib.rs 268-270 *)
Definition cmap_add (m : list nat) (id : nat) : list nat := m ++ [id].
(** lib.rs 272-275 [add_clause_checked]; the assertion is also checked in release builds *)
Definition cmap_add_checked (m : list nat) (id cid : nat) : option (list nat) :=
  if length (m ++ [id]) =? cid then Some (m ++ [id]) else None.

(** lib.rs 234-260 [write_derived] without "rup-hints" *)
Definition derivation (ants : list nat) : option pol :=
  match rev ants with
  | [] => None
  | f :: r => Some (fold_left (fun der i => PSat (PAdd der (PC (CAbs i)))) r (PC (CAbs f)))
  end.
Definition write_derived (ants : list nat) (p : pst) : option (nat * pst) :=
  match derivation ants with
  | None => None
  | Some d => Some (wr_id (SPol d) p)
  end.
(** lib.rs 61-84 [add_derived] *)
Definition add_derived (id : nat) (redundant : bool) (ants : list nat) (t : tracer) (p : pst)
  : option (nat * tracer * pst) :=
  match opt_all (map (cmap_get (tr_map t)) ants) with
  | None => None
  | Some pids =>
      match write_derived pids p with
      | None => None
      | Some (vid, p) =>
          match cmap_add_checked (tr_map t) vid id with
          | None => None
          | Some m => Some (vid, mkTr m (tr_core t) (tr_concl t), if redundant then p else wr (SCore [CAbs vid]) p)
          end
      end
  end.
(** lib.rs 91-116 [add_original_clause]; [debug]: debug assertions are checked, [first]: the id of
    the first constraint that is not an input constraint *)
Definition add_original (debug : bool) (first : nat) (id : nat) (restored : bool) (t : tracer) (p : pst) : option pst :=
  if restored then Some p
  else if debug && negb (id =? length (tr_map t)) then None
  else match cmap_get (tr_map t) id with
  | None => None
  | Some vid => Some (if first <=? vid then wr (SCore [CAbs vid]) p else p)
  end.
(** lib.rs 127-141 [delete_clause] *)
Definition delete_clause (id : nat) (redundant : bool) (t : tracer) (p : pst) : option pst :=
  if negb redundant then Some p
  else match cmap_get (tr_map t) id with
  | None => None
  | Some vid => Some (wr (SDel [CAbs vid] []) p)
  end.
(** lib.rs 143-149 [strengthen] *)
Definition strengthen (id : nat) (t : tracer) (p : pst) : option pst :=
  match cmap_get (tr_map t) id with
  | None => None
  | Some vid => Some (wr (SCore [CAbs vid]) p)
  end.
(** lib.rs 155-187 [report_status] *)
Definition report_status (id : nat) (t : tracer) : option tracer :=
  if 0 <? id then
    match cmap_get (tr_map t) id with
    | None => None
    | Some vid => Some (mkTr (tr_map t) (tr_core t) (Some vid))
    end
  else Some t.
(** lib.rs 215-231 [add_assumption_clause] *)
Definition add_assumption_clause (id : nat) (ants : list nat) (t : tracer) (p : pst) : option (tracer * pst) :=
  match add_derived id true ants t p with
  | None => None
  | Some (vid, t, p) => Some (mkTr (tr_map t) (Some vid) (tr_concl t), p)
  end.

(** ** Solver, tracer and proof together *)
(** What the solver still knows of a clause: irredundant, redundant or deleted as redundant *)
Inductive cstat := Irr | Red | Gone.
Record sol_st := mkSol { so_cls : list (clause * cstat); so_tr : tracer; so_p : pst }.

(** The events: a clause added with its proof id (lib.rs 312-320 [add_cert_clause]), a clause added
    without (lib.rs 334-336 [add_clause]), CaDiCaL learning a clause, deriving a core, restoring,
    deleting and strengthening a clause, finishing a call, and a proof line the solver kernel writes *)
Inductive event :=
| EvCert (c : clause) (id : nat)
| EvPlain (c : clause)
| EvLearn (redundant : bool) (c : clause) (ants : list nat)
| EvCore (c : clause) (ants : list nat)
| EvRestore (id : nat)
| EvDelete (id : nat) (redundant : bool)
| EvStrengthen (id : nat)
| EvStatus (id : nat)
| EvLine (s : step) (nextvar : nat).

Fixpoint set_stat (l : list (clause * cstat)) (n : nat) (x : cstat) : list (clause * cstat) :=
  match l, n with
  | [], _ => []
  | (c, _) :: r, 0 => (c, x) :: r
  | e :: r, S n => e :: set_stat r n x
  end.
(** does a line derive a constraint with a new id *)
Definition gives_id (s : step) : bool :=
  match s with SPol _ | SRup _ _ | SRed _ _ _ | SSolx _ _ => true | SCore _ | SDel _ _ => false end.
Definition write_line (s : step) (nv : nat) (p : pst) : pst :=
  mkPst (if gives_id s then S (ps_next p) else ps_next p) nv (ps_log p ++ [s]) (ps_vmap p) (ps_bounds p) (ps_reg p).

Definition run_event (debug : bool) (first : nat) (e : event) (s : sol_st) : option sol_st :=
  let '(mkSol cls t p) := s in
  let new := S (length cls) in
  match e with
  | EvCert c id =>
      let t := mkTr (cmap_add (tr_map t) id) (tr_core t) (tr_concl t) in
      match add_original debug first new false t p with
      | None => None
      | Some p => Some (mkSol (cls ++ [(c, Irr)]) t p)
      end
  | EvPlain c =>
      match add_original debug first new false t p with
      | None => None
      | Some p => Some (mkSol (cls ++ [(c, Irr)]) t p)
      end
  | EvLearn red c ants =>
      match add_derived new red ants t p with
      | None => None
      | Some (_, t, p) => Some (mkSol (cls ++ [(c, if red then Red else Irr)]) t p)
      end
  | EvCore c ants =>
      match add_assumption_clause new ants t p with
      | None => None
      | Some (t, p) => Some (mkSol (cls ++ [(c, Red)]) t p)
      end
  | EvRestore id =>
      match add_original debug first id true t p with
      | None => None
      | Some p => Some (mkSol cls t p)
      end
  | EvDelete id red =>
      match delete_clause id red t p with
      | None => None
      | Some p => Some (mkSol (if red then set_stat cls (id - 1) Gone else cls) t p)
      end
  | EvStrengthen id =>
      match strengthen id t p with
      | None => None
      | Some p => Some (mkSol (set_stat cls (id - 1) Irr) t p)
      end
  | EvStatus id =>
      match report_status id t with
      | None => None
      | Some t => Some (mkSol cls t p)
      end
  | EvLine s nv => Some (mkSol cls t (write_line s nv p))
  end.
Fixpoint run_events (debug : bool) (first : nat) (es : list event) (s : sol_st) : option sol_st :=
  match es with
  | [] => Some s
  | e :: r =>
      match run_event debug first e s with
      | None => None
      | Some s => run_events debug first r s
      end
  end.

(** proofs.rs 853-889 [Kernel::new_cert]: the tracer is connected to the empty solver and all
    clauses of the instance are added together with their ids, which are 1, 2, ... *)
Definition start_proof (cls : list clause) : pst := mkPst (S (length cls)) 0 [] [] [] [].
Definition load_events (cls : list clause) : list event :=
  map (fun ic => EvCert (snd ic) (fst ic)) (number 1 cls).
Definition new_cert (debug : bool) (cls : list clause) : option sol_st :=
  run_events debug (S (length cls)) (load_events cls) (mkSol [] tr_new (start_proof cls)).

(** What the kernel does to a solver with a connected tracer when it yields a solution and looks for
    the next one: algs.rs 700-731 (the blocking clause is added directly to the oracle, not through
    the certifying collector). [n] is the number of solutions so far, [c] the blocking clause. *)
Definition enum_block (e : enum_opts) (n : nat) (c : clause) : list event :=
  if enum_done e n then [] else [EvPlain c].

(** pminimal.rs 447-531 and 660-679 [tmp_block_dominated]: how a candidate is blocked with enumeration switched on. The clause, with a new
    literal [b] to switch it off, is added directly to the oracle, and only then written to the proof. [c] is the clause of
    [dominated_block_clause]; the definitions written for it come before these events. *)
Definition tmp_block (e : enum_opts) (c : clause) (b : lit) (nv : nat) : list event :=
  match e with
  | NoEnum => []
  | _ => [EvPlain (c ++ [b]); EvLine (SRed (clause_pb (c ++ [b])) [(PVs (lvar b), true)] []) nv]
  end.
