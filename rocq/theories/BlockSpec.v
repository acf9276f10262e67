(** * What the statements about blocking a candidate in the proof rely on *)
From Coq Require Import List Arith ZArith Bool.
From Verif Require Import Base MTypes MPMinimal MPrepro Sem VeriPB MProofs ProofRun ProofCut ProofCert TracerThm ReformSpec MProofAlg ReifSpec.
Import ListNotations.

(** the solver variables in the lines of the log *)
Definition step_vars (s : step) : list pv :=
  match s with
  | SRup c _ | SRed c _ _ => cvars c
  | SSolx _ full => map ax_var full
  | SPol _ | SCore _ | SDel _ _ => []
  end.
(** the variables from [nv] on have not been used in the proof *)
Definition new_from (k0 : chk) (p : pst) (nv : nat) : Prop :=
  forall r, nv <= r -> unused k0 r /\ ~ In (PVs r) (flat_map step_vars (ps_log p)).
(** [a] is the literal that stands for this objective in the cut of the solution *)
Definition cut_literal (c : cobj) (a : lit) : Prop :=
  (exists l w, obj_iter (co_obj c) = [(l, w)] /\ a = lnot l) \/
  (length (obj_iter (co_obj c)) <> 1 /\ pe_nout (co_enc c) = 1 /\ exists ls, pe_enforce_ub (co_enc c) (pe_offset (co_enc c)) = Some (a :: ls)) \/
  (length (obj_iter (co_obj c)) <> 1 /\ pe_nout (co_enc c) <> 1 /\ pe_buf_empty (co_enc c) = true /\
   exists olit i d, pe_details (co_enc c) (co_cost c) = Some (olit, (i, Some d)) /\ a = lnot olit).
(** what is expected of the assumptions bounding an objective below the cost of the candidate: a single assumption is the
    literal used in the cut; several assumptions are the outputs from the cost on, and with buffered inputs also the inputs that
    are heavy enough alone *)
Definition bound_pre (k : chk) (nv : nat) (c : cobj) : Prop :=
  (forall l w, In (l, w) (obj_iter (co_obj c)) -> lvar l < nv) /\ pe_offset (co_enc c) = obj_lb (co_obj c) /\
  (co_cost c <= obj_lb (co_obj c) -> co_cost c = 0 \/ co_reform c <> None) /\
  (obj_lb (co_obj c) < co_cost c -> exists as_, pe_enforce_ub (co_enc c) (co_cost c - 1) = Some as_ /\ (forall a, In a as_ -> lvar a < nv) /\
     match as_ with
     | [] => False
     | [a] => cut_literal c a
     | _ => length (obj_iter (co_obj c)) <> 1 /\ pe_nout (co_enc c) <> 1 /\
         if pe_buf_empty (co_enc c) then exists ts, w_wf ts /\ outs_from k (co_enc c) ts (co_cost c) as_ /\ NoDup (map lvar as_)
         else buf_from k (co_enc c) (co_obj c) (co_cost c) (co_cost c) as_
     end).

(** an objective as the blocking clause and as the cut see it; the flag says that it is constant *)
Definition as_bobj (x : cobj * bool) : bobj := mkBobj (co_enc (fst x)) (co_obj (fst x)) (snd x) (co_cost (fst x)).
(** A candidate is about to be blocked: the proof so far is accepted, the variables from [nv] on are new, and the witness
    extended to the variables of the encodings and of the proof ([fw]) satisfies all constraints of the proof, has the costs of
    the candidate, and is found by propagation *)
Record ready (k0 : chk) (cs : list cobj) (witness : assignment) (max_enc nv : nat) (p : pst) (fw : list (ax pv)) : Prop := mkReady {
  rd_order : k_order (kof k0 p) = map obj_order (map co_obj cs);
  rd_wok : wok k0 p;
  rd_bounds : bounds_ok k0 (map co_obj cs) p;
  rd_vmap : vmap_ok p;
  rd_new : new_from k0 p nv;
  rd_cobj : Forall (cobj_ok (k_all (kof k0 p))) cs;
  rd_fix : fix_witness (map co_enc cs) (map co_cost cs) (ps_vmap p) witness = Some fw;
  rd_vars : forall l r, In l fw -> ax_var l = PVs r -> r < nv;
  rd_ex : exists a, ax_all a fw;
  rd_sat : forall a, ax_all a fw -> proof_holds a (kof k0 p) /\ forall c, In c cs -> icost (co_obj c) (on_solver a) = co_cost c;
  rd_outs : Forall (outs_ok fw) cs;
  rd_up : up_to (map snd (k_all (kof k0 p))) (map axiom (sol_lits (truncate witness max_enc))) fw
}.
(** [a'] agrees with [a] on the solver variables below [nv] and the old variables of the proof *)
Definition agree_old (p : pst) (nv : nat) (a a' : pv -> bool) : Prop :=
  (forall v, v < nv -> a' (PVs v) = a (PVs v)) /\ forall n, n < ps_nextvar p -> a' (PVp n) = a (PVp n).

(** [c'] is the same objective with the same encoding, for a solution with other costs *)
Definition same_but_cost (c c' : cobj) : Prop := co_enc c' = co_enc c /\ co_obj c' = co_obj c /\ co_reform c' = co_reform c.
(** The witness stays ready if the constraints with ids in [L] are deleted from the proof *)
Record lasting (k0 : chk) (L : list nat) (cs : list cobj) (witness : assignment) (max_enc nv : nat) (p : pst) (fw : list (ax pv)) : Prop := mkLasting {
  la_ready : ready k0 cs witness max_enc nv p fw;
  la_ids : forall i, In i L -> i < ps_next p;
  la_bounds : forall key l d1 d2, bound_get (ps_bounds p) key = Some (l, d1, d2) -> ~ In d1 L /\ ~ In d2 L;
  la_cobj : Forall (cobj_ok (rm_ids L (k_all (kof k0 p)))) cs;
  la_up : up_to (map snd (rm_ids L (k_all (kof k0 p)))) (map axiom (sol_lits (truncate witness max_enc))) fw
}.
