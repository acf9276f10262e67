(** * What the statements about the proof of a whole BiOptSat run rely on

    A run of BiOptSat with proof logging (bioptsat.rs 371-781 without lookup and base assumptions) as a
    sequence of events: lines of the solver and of the encodings ([RunSpec.run_step] without blocking),
    lower bounds certified by linear search on either objective ([MProofAlg.linsu_certify]), and
    iterations, in which the cut of the solution is certified ([MProofs.certify_pmin_cut]) and turned
    into a bound on the decreasing objective ([MProofAlg.bos_step]). The encodings have no buffered
    inputs. *)
From Coq Require Import List Arith ZArith Bool.
From Verif Require Import Spec Base MTypes MPMinimal MPrepro Sem VeriPB MProofs ProofRun ProofCut ProofCert TracerThm ReformSpec MProofAlg ReifSpec BlockSpec BosSpec RunSpec.
Import ListNotations.

(** what the algorithm keeps besides the state of the proof: the ids of the last iteration (lines 400-401), the lower bound on the
    increasing objective, the output the bound of the last iteration is about, and what linear search returned: the cost, the
    output literal of the cost and the id, for the decreasing objective also the assumptions *)
Record brst := mkBr {
  br_r : rst; br_b : bst; br_lb : nat; br_next : option lit;
  br_inc : option (nat * lit * nat); br_dec : option (list lit * nat * lit * nat);
  br_end : option nat }.

(** the core of the solver for the bound [cost - 1]: negated base assumptions and outputs from [cost] on, see C67 *)
Record core_pre (k : chk) (nv : nat) (e : penc) (fuel : nat) (base : list lit) (cost : nat) (first : lit) (core : list lit) (core_id : nat) : Prop := mkCorePre {
  cp_buf : pe_buf_empty e = true;
  cp_base : NoDup (map lvar base);
  cp_basev : forall b, In b base -> lvar b < nv;
  cp_out : exists ts outs bcore ocore, w_wf ts /\ chain k e ts cost (first :: outs) /\ NoDup (map lvar (first :: outs)) /\
    (forall o, In o (first :: outs) -> lvar o < nv) /\ (forall b, In b base -> ~ In (lvar b) (map lvar (first :: outs))) /\
    length (first :: outs) <= fuel /\ core = map lnot bcore ++ ocore /\ subl bcore base /\ subl ocore (first :: outs) /\ ocore <> [] /\
    (bcore = [] -> length ocore = 1 -> ocore = [first]) /\ derived k core_id (map axiom core)
}.
(** [out0] is the output for [inc], if this is above the offset. The lower bound [inc] on the increasing objective comes from linear
    search, or from the last iteration if [inc] is the lower bound linear search started with *)
Record inc_pre (s : brst) (c0 : cobj) (nv inc : nat) (out0 : lit) (inc_id : option nat) : Prop := mkIncPre {
  ip_off : pe_offset (co_enc c0) = obj_lb (co_obj c0);
  ip_out : pe_offset (co_enc c0) < inc -> lvar out0 < nv /\ exists i d, pe_details (co_enc c0) inc = Some (out0, (i, Some d));
  ip_last : pe_offset (co_enc c0) < inc -> inc = br_lb s -> br_next s = Some out0;
  ip_id : pe_offset (co_enc c0) < inc -> inc <> br_lb s -> exists id, br_inc s = Some (inc, out0, id) /\ inc_id = Some id
}.
(** the witness [w] is the solution [b] of the instance, extended by the solver *)
Definition witness_of (cs : list cobj) (n : nat) (p : pst) (b w : assignment) : Prop :=
  truncate w n = b /\
  forall f, fix_witness (map co_enc (for_sol cs b)) (map co_cost (for_sol cs b)) (ps_vmap p) b = Some f ->
    exists f', fix_witness (map co_enc (for_sol cs b)) (map co_cost (for_sol cs b)) (ps_vmap p) w = Some f' /\ forall l, In l f' <-> In l f.
(** what certifying the cut expects of an objective at its lower bound, see C64 *)
Definition low_pre (c : cobj) : Prop :=
  co_cost c <= obj_lb (co_obj c) -> (co_cost c = 0 \/ co_reform c <> None) /\ (co_reform c <> None -> obj_unit_weight (co_obj c) = 1).
(** the outputs of both encodings around the point ([inc], [dec]), see C69 *)
Record outs_pre (k : chk) (nv : nat) (c0 c1 : cobj) (inc dec : nat) (out0 : lit) (assumps : list lit) (first0 first1 : lit) : Prop := mkOutsPre {
  op_next : inc <= pe_next_higher (co_enc c0) inc;
  op_inc : exists ts outs, w_wf ts /\ chain k (co_enc c0) ts (pe_next_higher (co_enc c0) inc) (first0 :: outs) /\ NoDup (map lvar (first0 :: outs)) /\
    assumps = map lnot (first0 :: outs) /\ ~ In (lvar first1) (map lvar (first0 :: outs));
  op_dec : exists ts outs, w_wf ts /\ chain k (co_enc c1) ts dec (first1 :: outs) /\ NoDup (map lvar (first1 :: outs)) /\
    pe_enforce_ub (co_enc c1) (dec - 1) = Some (map lnot (first1 :: outs));
  op_first : lvar first1 < nv;
  op_diff : pe_offset (co_enc c0) < inc -> lvar out0 <> lvar first1
}.

Inductive bos_event (k0 : chk) (n : nat) (sol : assignment -> Prop) : brst -> brst -> Prop :=
(** a line of the solver or of an encoding *)
| be_step : forall r r' b lb f i d, run_step k0 n sol r r' -> r_done r' = r_done r ->
    bos_event k0 n sol (mkBr r b lb f i d None) (mkBr r' b lb f i d None)
(** linear search on the increasing objective has reached [cost] (bioptsat.rs 404-416); the solver does not delete the bound *)
| be_inc : forall c0 c1 nv p L done b lb f i d fuel cost first core core_id id p',
    core_pre (kof k0 p) nv (co_enc c0) fuel [] cost first core core_id ->
    linsu_certify (co_enc c0) fuel (co_obj c0) [] cost core core_id p = Some (id, p') -> ~ In id L ->
    bos_event k0 n sol (mkBr (mkRst [c0; c1] nv p L done) b lb f i d None)
                       (mkBr (mkRst [c0; c1] nv p' L done) b lb f (Some (cost, first, id)) d None)
(** linear search on the decreasing objective has reached [cost] under the assumptions [base] (bioptsat.rs 427-434) *)
| be_dec : forall c0 c1 nv p L done b lb f i d fuel base cost first core core_id id p',
    core_pre (kof k0 p) nv (co_enc c1) fuel base cost first core core_id ->
    linsu_certify (co_enc c1) fuel (co_obj c1) base cost core core_id p = Some (id, p') -> ~ In id L ->
    bos_event k0 n sol (mkBr (mkRst [c0; c1] nv p L done) b lb f i d None)
                       (mkBr (mkRst [c0; c1] nv p' L done) b lb f i (Some (base, cost, first, id)) None)
(** an iteration with the solution [sb] (bioptsat.rs 498-764); the solver may delete the new clauses [D] *)
| be_iterate : forall s c0 c1 nv p L done b lb f i sb w inc dec out0 inc_id assumps first0 first1 lb_id pmin p1 b' p2 D,
    s = mkBr (mkRst [c0; c1] nv p L done) b lb f i (Some (assumps, dec, first1, lb_id)) None ->
    sol sb -> (forall d, In d done -> better [c0; c1] sb d) -> witness_of [c0; c1] n p sb w ->
    inc = icost (co_obj c0) (asg_of sb) -> dec = icost (co_obj c1) (asg_of sb) -> pe_offset (co_enc c1) < dec ->
    several c0 -> several c1 -> (forall c, In c (for_sol [c0; c1] sb) -> low_pre c) -> pe_offset (co_enc c1) = obj_lb (co_obj c1) ->
    inc_pre s c0 nv inc out0 inc_id -> outs_pre (kof k0 p) nv c0 c1 inc dec out0 assumps first0 first1 ->
    certify_pmin_cut (for_sol [c0; c1] sb) w n p = Some (pmin, p1) ->
    bos_step (co_enc c0) (co_enc c1) (co_obj c1) inc dec lb inc_id (Some lb_id) assumps pmin b p1 = Some (b', p2) ->
    (forall x, In x D -> ps_next p1 <= x < ps_next p2 /\ bs_cut b' <> Some x /\ bs_lb b' <> Some x) ->
    bos_event k0 n sol s (mkBr (mkRst [c0; c1] nv p2 (D ++ L) (sb :: done)) b' (inc + 1) (Some first0) None None None)
(** the last iteration: the decreasing objective is at its lower bound (bioptsat.rs 437-494); the id is given in the conclusion *)
| be_finish : forall s c0 c1 nv p L done b lb f i d sb w inc out0 inc_id pmin p1 id p2,
    s = mkBr (mkRst [c0; c1] nv p L done) b lb f i d None ->
    sol sb -> (forall d, In d done -> better [c0; c1] sb d) -> witness_of [c0; c1] n p sb w ->
    inc = icost (co_obj c0) (asg_of sb) -> icost (co_obj c1) (asg_of sb) <= pe_offset (co_enc c1) ->
    several c0 -> several c1 -> (forall c, In c (for_sol [c0; c1] sb) -> low_pre c) -> pe_offset (co_enc c1) = obj_lb (co_obj c1) ->
    inc_pre s c0 nv inc out0 inc_id ->
    certify_pmin_cut (for_sol [c0; c1] sb) w n p = Some (pmin, p1) ->
    bos_cut (co_enc c0) inc lb inc_id (bs_cut b) (bs_lb b) pmin p1 = Some (id, p2) ->
    bos_event k0 n sol s (mkBr (mkRst [c0; c1] nv p2 L (sb :: done)) b lb f i d (Some id)).
Inductive bos_run (k0 : chk) (n : nat) (sol : assignment -> Prop) : brst -> brst -> Prop :=
| br_refl : forall s, bos_run k0 n sol s s
| br_more : forall s1 s2 s3, bos_run k0 n sol s1 s2 -> bos_event k0 n sol s2 s3 -> bos_run k0 n sol s1 s3.

(** a run in which all encodings satisfy [Q] *)
Inductive bos_run_with (k0 : chk) (n : nat) (sol : assignment -> Prop) (Q : list cobj -> Prop) : brst -> brst -> Prop :=
| bw_refl : forall s, Q (r_cs (br_r s)) -> bos_run_with k0 n sol Q s s
| bw_more : forall s1 s2 s3, bos_run_with k0 n sol Q s1 s2 -> bos_event k0 n sol s2 s3 -> Q (r_cs (br_r s3)) -> bos_run_with k0 n sol Q s1 s3.

(** the start (bioptsat.rs 382-401): nothing is known from earlier iterations *)
Definition bos_start (r : rst) (lb : nat) : brst := mkBr r (mkBst None None) lb None None None None.

(** ** The invariant *)
(** the clause is in the proof under this id, and the solver does not delete it *)
Definition kept_clause (k : chk) (L : list nat) (id : nat) (ls : list (ax pv)) : Prop :=
  exists C, In (id, C) (rm_ids L (k_all k)) /\ clausal C ls.
Record bos_ok (k0 : chk) (n : nat) (sol : assignment -> Prop) (s : brst) : Prop := mkBosOk {
  bo_run : run_ok k0 n sol (br_r s);
  (** the cut and the bound of the last iteration, or the proof is contradictory *)
  bo_last : (exists c l d, kept_clause (kof k0 (r_p (br_r s))) (r_del (br_r s)) c [ax_not d] /\ kept_clause (kof k0 (r_p (br_r s))) (r_del (br_r s)) l [d]) \/
    forall f, br_next s = Some f -> exists c l d, bs_cut (br_b s) = Some c /\ bs_lb (br_b s) = Some l /\
      kept_clause (kof k0 (r_p (br_r s))) (r_del (br_r s)) c [ax_not d] /\ kept_clause (kof k0 (r_p (br_r s))) (r_del (br_r s)) l [axiom f; d] /\ ax_var (axiom f) <> ax_var d;
  bo_inc : forall cost f id, br_inc s = Some (cost, f, id) -> kept_clause (kof k0 (r_p (br_r s))) (r_del (br_r s)) id [axiom f];
  bo_dec : forall as_ cost f id, br_dec s = Some (as_, cost, f, id) ->
    kept_clause (kof k0 (r_p (br_r s))) (r_del (br_r s)) id (map (fun b => axiom (lnot b)) as_ ++ [axiom f]) \/
    kept_clause (kof k0 (r_p (br_r s))) (r_del (br_r s)) id [axiom f];
  bo_end : forall id, br_end s = Some id -> exists C, In (id, C) (k_all (kof k0 (r_p (br_r s)))) /\ contradictory C
}.
