(** * What the statements about proof logging from the parsed problem on rely on *)
From Coq Require Import List Bool Arith ZArith.
From Verif Require Import Base Spec MTypes MKernel ApiSpec MPrepro PreSpec VeriPB MProofs ProofRun ReformSpec MProofAlg ReifSpec BlockSpec RunSpec BoostSpec MProofRun BosRunSpec MProofBos MProofPre.
Import ListNotations.

(** ** The certified encoder *)
(** It computes the clauses of the encoder without proof. *)
Definition cert_same (pe : pb_encoder) (ce : cert_encoder) : Prop := forall c id n p,
  option_map (fun x => (map fst (fst (fst x)), snd (fst x))) (ce c id n p) = pe c n.
(** The ids of a constraint in the proof *)
Definition own_id (c : pb_constr) (id i : nat) : Prop := id <= i < id + length (pb_lbs c).
(** Assumed of the certified encoder, whatever the proof contains so far: if the constraint is in the proof under the ids
    starting at [id], and variables from [n] on are new, then the lines it writes are accepted and use variables below the new next
    variable only; they exclude no solution and keep all constraints but possibly those of the translated one; every clause is in the
    proof under its id. [ce_strict]: the new constraints of the proof follow from the clauses (for all values of the new variables). *)
Record cert_post (k0 : chk) (c : pb_constr) (id n : nat) (p : pst) (cls : list (clause * nat)) (n' : nat) (p' : pst) : Prop := mkCertPost {
  ce_wok : wok k0 p';
  ce_new : new_from k0 p' n';
  ce_side : ps_vmap p' = ps_vmap p /\ ps_bounds p' = ps_bounds p /\ ps_reg p' = ps_reg p;
  ce_excl : k_excl (kof k0 p') = k_excl (kof k0 p);
  ce_kept : forall e, In e (k_all (kof k0 p)) -> ~ own_id c id (fst e) -> In e (k_all (kof k0 p'));
  ce_clauses : forall cl i, In (cl, i) cls -> (own_id c id i \/ ps_next p <= i) /\
    exists C, In (i, C) (k_all (kof k0 p')) /\ lb_same pv_eqd C (clause_pb cl);
  ce_log : exists ls, ps_log p' = ps_log p ++ ls
}.
Definition cert_enc_strict (k0 : chk) (p : pst) (cls : list (clause * nat)) (p' : pst) : Prop :=
  forall a, proof_holds a (kof k0 p) -> sat (on_solver a) (map fst cls) -> proof_holds a (kof k0 p').
Definition cert_pre (k0 : chk) (c : pb_constr) (id n : nat) (p : pst) : Prop :=
  wok k0 p /\ new_from k0 p n /\ (forall a, ord_holds (k_order (kof k0 p)) a a) /\ (forall r, n <= r -> ord_free (k_order (kof k0 p)) (PVs r)) /\
  (forall v, In v (pb_vars c) -> v < n) /\ forall j C, nth_error (pb_lbs c) j = Some C -> In (id + j, C) (k_all (kof k0 p)).
(** without and with strictness *)
Definition cert_enc_valid (ce : cert_encoder) : Prop := forall k0 c id n p cls n' p',
  ce c id n p = Some (cls, n', p') -> cert_pre k0 c id n p -> cert_post k0 c id n p cls n' p'.
Definition cert_enc_ok (ce : cert_encoder) : Prop := forall k0 c id n p cls n' p',
  ce c id n p = Some (cls, n', p') -> cert_pre k0 c id n p -> cert_post k0 c id n p cls n' p' /\ cert_enc_strict k0 p cls p'.

(** ** Runs from the parsed problem on *)
(** The states of P-minimal and lower-bounding, optionally after core boosting: the problem is translated, the clauses are handed to
    the solver, the encodings of the objectives start without outputs *)
Definition pre_reaches (ce : cert_encoder) (p : parsed) (i : inst) (k0 : chk) (s : fstate) : Prop :=
  exists pcs ids pr cs r0, proof_constrs p = Some pcs /\ to_clausal_cert ce p = POk (i, ids, pr) /\
    k0 = init_chk_pb pcs (build_objs 0 (in_objs i)) /\
    map co_obj cs = build_objs 0 (in_objs i) /\ (forall c b, In c cs -> pe_extend (co_enc c) b = []) /\
    let n := vm_max_enc (in_vm i) in let pr := load_cert (in_cls i) ids pr in
    enc_fine (k_all (kof k0 pr)) cs /\ boosts k0 n (inst_sol n (in_cls i)) (mkRst cs (S n) pr [] []) r0 /\
    pm_runs k0 n (in_cls i) (mkFs AtOuter r0 []) s.
(** The states of BiOptSat *)
Definition pre_reaches_bos (ce : cert_encoder) (p : parsed) (i : inst) (k0 : chk) (dec_lb : nat) (s : bfstate) : Prop :=
  exists pcs ids pr cs r0 e0 e1, proof_constrs p = Some pcs /\ to_clausal_cert ce p = POk (i, ids, pr) /\
    k0 = init_chk_pb pcs (build_objs 0 (in_objs i)) /\
    map co_obj cs = build_objs 0 (in_objs i) /\ (forall c b, In c cs -> pe_extend (co_enc c) b = []) /\
    let n := vm_max_enc (in_vm i) in let pr := load_cert (in_cls i) ids pr in
    enc_fine (k_all (kof k0 pr)) cs /\ boosts k0 n (inst_sol n (in_cls i)) (mkRst cs (S n) pr [] []) r0 /\
    r_cs r0 = [e0; e1] /\ pe_offset (co_enc e0) = obj_lb (co_obj e0) /\ pe_offset (co_enc e1) = obj_lb (co_obj e1) /\ dec_lb = pe_offset (co_enc e1) /\
    bf_runs k0 n (in_cls i) dec_lb (mkBf BoSearch (bos_start r0 (pe_offset (co_enc e0))) []) s.
(** The front as it is reported: solutions over the variables of the input *)
Definition p_reported (p : parsed) (F : list (nd_point assignment)) : list (nd_point assignment) :=
  map (reported (vm_max_orig (pa_vm p))) F.
