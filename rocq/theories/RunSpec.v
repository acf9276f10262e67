(** * What the statements about the proof of a whole run rely on

    A run of P-Minimal with proof logging, without solution enumeration, as a sequence of events that
    write to the proof: the solver derives and deletes clauses, the encodings define new output
    variables and hand clauses to the solver, and candidates are blocked by
    [MProofAlg.block_candidate]. *)
From Coq Require Import List Arith ZArith Bool.
From Verif Require Import Spec Base MTypes MPMinimal MPrepro Sem VeriPB MProofs ProofRun ProofCut ProofCert TracerThm ReformSpec MProofAlg ReifSpec BlockSpec.
Import ListNotations.

(** ** Solutions of the instance *)
(** all variables up to [n] have a value *)
Definition total_to (n : nat) (b : assignment) : Prop := length b = S n /\ forall x, In x b -> x <> None.
Definition asg_of (b : assignment) : asg := fun v => is_true (var_value b v).
(** the objectives with the costs of [b] *)
Definition for_sol (cs : list cobj) (b : assignment) : list cobj :=
  map (fun c => mkCobj (co_enc c) (co_obj c) (co_reform c) (icost (co_obj c) (asg_of b))) cs.
(** [b] has a smaller cost than [d] in an objective: [d] does not weakly dominate [b] *)
Definition better (cs : list cobj) (b d : assignment) : Prop :=
  exists c, In c cs /\ icost (co_obj c) (asg_of b) < icost (co_obj c) (asg_of d).

(** ** Encodings *)
(** the value of [v] after the encodings have extended [b] to their variables *)
Definition ext_value (cs : list cobj) (b : assignment) (v : nat) : tern :=
  var_value (collect_lits (sol_lits b ++ flat_map (fun e => pe_extend e b) (map co_enc cs))) v.
(** the value of a sum after the encodings have extended [b] *)
Definition ts_value (cs : list cobj) (b : assignment) (ts : list (Z * ax pv)) : Z :=
  lb_sum (fun v => match v with PVs x => is_true (ext_value cs b x) | PVp _ => false end) ts.
(** a variable an output may be defined over: a variable of the instance or an earlier output, but not a variable introduced when
    a candidate was blocked *)
Definition summand (sol : assignment -> Prop) (cs : list cobj) (nv : nat) (p : pst) (x : nat) : Prop :=
  x < nv /\ ~ In (PVs x) (map (fun e => ax_var (fst e)) (ps_vmap p)) /\ forall b, sol b -> ext_value cs b x <> None.
(** the constraints [es] of the proof define the outputs of the encodings as the blocking of a candidate expects them: the definition
    of an output ([cobj_ok]), and an output is reached by an objective value equal to its value *)
Definition outs_mean (es : list entry) (c : cobj) : Prop :=
  forall a, (forall e, In e es -> lb_holds a (snd e)) -> obj_lb (co_obj c) < icost (co_obj c) (on_solver a) ->
    (forall x xs, pe_nout (co_enc c) = 1 -> pe_enforce_ub (co_enc c) (pe_offset (co_enc c)) = Some (x :: xs) -> ax_true a (axiom x) = false) /\
    (forall olit i, pe_buf_empty (co_enc c) = true -> pe_details (co_enc c) (icost (co_obj c) (on_solver a)) = Some (olit, i) ->
       ax_true a (axiom olit) = true).
Definition enc_fine (es : list entry) (cs : list cobj) : Prop := Forall (cobj_ok es) cs /\ forall c, In c cs -> outs_mean es c.

(** ** The run *)
(** the encodings, the next variable, the proof, the ids of the constraints the solver may delete, and the candidates blocked so far *)
Record rst := mkRst { r_cs : list cobj; r_nv : nat; r_p : pst; r_del : list nat; r_done : list assignment }.
Definition is_derivation (s : step) : Prop := match s with SRup _ _ | SPol _ => True | _ => False end.

Inductive run_step (k0 : chk) (n : nat) (sol : assignment -> Prop) : rst -> rst -> Prop :=
(** a valid line over old variables that derives a constraint, written by the solver (the constraint may then be deleted) or by an encoding *)
| ev_derive : forall cs nv p L done s (del : bool),
    is_derivation s -> step_valid (kof k0 p) s ->
    (forall v, In v (step_vars s) -> match v with PVs x => x < nv | PVp m => m < ps_nextvar p end) ->
    run_step k0 n sol (mkRst cs nv p L done) (mkRst cs nv (snd (wr_id s p)) (if del then ps_next p :: L else L) done)
| ev_delete : forall cs nv p L done ids,
    incl ids L ->
    run_step k0 n sol (mkRst cs nv p L done) (mkRst cs nv (wr (SDel (map CAbs ids) []) p) L done)
(** a derived clause is handed to the solver *)
| ev_clause : forall cs nv p L done c id C,
    In (id, C) (k_all (kof k0 p)) -> lb_same pv_eqd C (clause_pb c) ->
    run_step k0 n sol (mkRst cs nv p L done) (mkRst cs nv (add_cert c id p) L done)
(** an encoding introduces the next variable: it is true iff the sum [ts] is at least [v] *)
| ev_output : forall cs cs' nv p L done ts v,
    w_wf ts -> (0 < v <= wtot ts)%Z -> (forall t, In t ts -> exists x, ax_var (snd t) = PVs x /\ summand sol cs nv p x) ->
    map co_obj cs' = map co_obj cs ->
    (forall b x, sol b -> ext_value cs' b x = if x =? nv then Some (v <=? ts_value cs b ts)%Z else ext_value cs b x) ->
    let p1 := snd (wr_id (SRed (wif_def ts (mkAx (PVs nv) false) v) [(PVs nv, true)] []) p) in
    let p2 := snd (wr_id (SRed (wonly_def ts (mkAx (PVs nv) false) v) [(PVs nv, false)] []) p1) in
    enc_fine (rm_ids L (k_all (kof k0 p2))) cs' ->
    run_step k0 n sol (mkRst cs nv p L done) (mkRst cs' (S nv) p2 L done)
(** the encodings start to use outputs that have been defined before *)
| ev_encoding : forall cs cs' nv p L done,
    map co_obj cs' = map co_obj cs -> (forall b x, sol b -> ext_value cs' b x = ext_value cs b x) ->
    enc_fine (rm_ids L (k_all (kof k0 p))) cs' ->
    run_step k0 n sol (mkRst cs nv p L done) (mkRst cs' nv p L done)
(** the solution [w] is blocked; its values for the variables of the instance are [b], all other variables it assigns get their
    values from the encodings and the proof; [b] is not weakly dominated by a candidate that was blocked before.
    The solver may delete the clause it is given: the last line of the proof *)
| ev_block : forall cs nv p L done b w xs cl nv' p',
    sol b -> (forall d, In d done -> better cs b d) ->
    truncate w n = b ->
    (forall f, fix_witness (map co_enc (for_sol cs b)) (map co_cost (for_sol cs b)) (ps_vmap p) b = Some f ->
       exists f', fix_witness (map co_enc (for_sol cs b)) (map co_cost (for_sol cs b)) (ps_vmap p) w = Some f' /\ forall l, In l f' <-> In l f) ->
    map fst xs = for_sol cs b ->
    (forall x, In x xs -> bound_pre (kof k0 p) nv (fst x) /\ (snd x = true -> co_cost (fst x) <= obj_lb (co_obj (fst x)))) ->
    (forall c, In c (for_sol cs b) -> co_cost c <= obj_lb (co_obj c) -> co_reform c <> None -> obj_unit_weight (co_obj c) = 1) ->
    block_candidate (map as_bobj xs) (for_sol cs b) w n nv p = Some (cl, nv', p') ->
    run_step k0 n sol (mkRst cs nv p L done) (mkRst cs nv' p' (pred (ps_next p') :: L) (b :: done)).
Inductive runs (k0 : chk) (n : nat) (sol : assignment -> Prop) : rst -> rst -> Prop :=
| runs_refl : forall r, runs k0 n sol r r
| runs_step : forall r1 r2 r3, runs k0 n sol r1 r2 -> run_step k0 n sol r2 r3 -> runs k0 n sol r1 r3.

(** [e] is or was a constraint of the proof *)
Definition was_in (k0 : chk) (p : pst) (e : entry) : Prop :=
  exists old new, ps_log p = old ++ new /\ In e (k_all (steps_next k0 old)).
(** ... a constraint that is the clause [c]: the same coefficients, the same degree *)
Definition was_clause (k0 : chk) (p : pst) (c : clause) (id : nat) : Prop :=
  exists C, was_in k0 p (id, C) /\ lb_same pv_eqd C (clause_pb c).

(** ** States in which every remaining solution can be blocked *)
Record run_ok (k0 : chk) (n : nat) (sol : assignment -> Prop) (r : rst) : Prop := mkRunOk {
  ro_order : k_order (kof k0 (r_p r)) = map obj_order (map co_obj (r_cs r));
  ro_wok : wok k0 (r_p r);
  ro_bounds : bounds_ok k0 (map co_obj (r_cs r)) (r_p r);
  ro_vmap : vmap_ok (r_p r);
  ro_new : new_from k0 (r_p r) (r_nv r);
  ro_vars : n < r_nv r;
  ro_objs : forall c l w, In c (r_cs r) -> In (l, w) (obj_iter (co_obj c)) -> lvar l <= n;
  ro_idx : forall i c, nth_error (r_cs r) i = Some c -> obj_idx (co_obj c) = i;
  ro_enc : enc_fine (rm_ids (r_del r) (k_all (kof k0 (r_p r)))) (r_cs r);
  ro_del : forall i, In i (r_del r) -> i < ps_next (r_p r);
  ro_del_core : forall e, In e (k_core (kof k0 (r_p r))) -> ~ In (fst e) (r_del r);
  ro_del_bounds : forall key l d1 d2, bound_get (ps_bounds (r_p r)) key = Some (l, d1, d2) -> ~ In d1 (r_del r) /\ ~ In d2 (r_del r);
  (** the clauses handed to the solver are constraints of the proof, possibly deleted since *)
  ro_reg : forall c id, In (c, id) (ps_reg (r_p r)) -> was_clause k0 (r_p r) c id;
  (** the candidates that have been blocked are excluded, nothing else *)
  ro_excl : k_excl (kof k0 (r_p r)) = map (fun b => map axiom (sol_lits b)) (r_done r);
  (** every solution that is not weakly dominated by a blocked candidate can be blocked *)
  ro_sols : forall b, sol b -> (forall d, In d (r_done r) -> better (r_cs r) b d) ->
    exists fw, lasting k0 (r_del r) (for_sol (r_cs r) b) b n (r_nv r) (r_p r) fw
}.

(** ** The start of a run *)
(** [b] is a solution of the clauses over the variables up to [n] *)
Definition inst_sol (n : nat) (cls : list clause) (b : assignment) : Prop := total_to n b /\ sat (asg_of b) cls.
Definition start_run (n : nat) (cls : list clause) (cs : list cobj) : rst :=
  mkRst cs (S n) (mkPst (S (length cls)) 0 [] [] [] []) [] [].
(** all variables of the instance are at most [n] *)
Definition inst_vars (n : nat) (cls : list clause) (rs : list raw_obj) : Prop :=
  (forall c l, In c cls -> In l c -> lvar l <= n) /\ forall r l w, In r rs -> In (l, w) (fst r) -> lvar l <= n.

(** ** The solver *)
(** [w] satisfies the clauses the solver has been given besides those of the instance *)
Definition models_handed (w : asg) (p : pst) : Prop := forall c id, In (c, id) (ps_reg p) -> clause_true w c = true.
(** under [w] the encodings do their work: the assumptions returned for a bound enforce it *)
Definition enforces (w : asg) (cs : list cobj) : Prop :=
  forall c v as_, In c cs -> pe_offset (co_enc c) <= v -> pe_enforce_ub (co_enc c) v = Some as_ -> lits_true w as_ -> icost (co_obj c) w <= v.
(** a run in which all encodings satisfy [Q] *)
Inductive runs_with (k0 : chk) (n : nat) (sol : assignment -> Prop) (Q : list cobj -> Prop) : rst -> rst -> Prop :=
| rw_refl : forall r, Q (r_cs r) -> runs_with k0 n sol Q r r
| rw_step : forall r1 r2 r3, runs_with k0 n sol Q r1 r2 -> run_step k0 n sol r2 r3 -> Q (r_cs r3) -> runs_with k0 n sol Q r1 r3.
