(** * C72: the proof of a whole run after core boosting *)
From Coq Require Import List Arith ZArith Lia Bool.
From Verif Require Import Spec ApiSpec Base BaseLemmas Sem Ext Blk ApiTop OllData MTypes MKernel MPMinimal MPrepro MOll ReindexThm VeriPB VeriThm MProofs ProofThm ProofRun ProofCut MTracer TracerThm MReform ReformSpec ReformThm ReformRun ReformInv ReformFin MProofAlg ReifSpec ReifThm ReifRun ProofCert ProofFin LinsuCert BlockSpec BlockThm PropProof PropReif BosSpec BosThm PropBos RunSpec RunThm RunSol BosRunSpec BosRunThm PropBosRun BoostSpec BoostThm.
Import ListNotations.
Local Open Scope nat_scope.

(** The lines that [oll] writes for the objective [i] are events of core boosting: from any state of core boosting, after the cores
    and reformulations [es] and the final reformulation constraint, storing the new lower bound and the id of this constraint is
    an event of core boosting - the proof says what is needed *)
Theorem C72_oll : forall n cls rs cs r o es s r1 i c id s', inst_vars n cls rs -> map co_obj cs = build_objs 0 rs ->
  (forall c b, In c cs -> pe_extend (co_enc c) b = []) -> enc_fine (k_all (init_chk cls (build_objs 0 rs))) cs ->
  let k0 := init_chk cls (build_objs 0 rs) in
  boosts k0 n (inst_sol n cls) (start_run n cls cs) r ->
  NoDup (map fst (obj_iter o)) ->
  run_pre false ti_if k0 es (reform_start o (r_p r)) -> run_revents false ti_if es (reform_start o (r_p r)) = Some s ->
  oll_boosts k0 n (inst_sol n cls) es (reform_start o (r_p r)) r r1 ->
  finish_pre true k0 s -> finish true s = (id, s') ->
  nth_error (r_cs r1) i = Some c -> obj_iter (co_obj c) = obj_iter o -> unbuilt (co_enc c) ->
  exists L, boosts k0 n (inst_sol n cls) (start_run n cls cs) (mkRst (set_nth i (boosted (rs_off s) id c) (r_cs r1)) (r_nv r1) (rs_p s') L []) /\
    forall j, In j L -> id <> Some j /\ (In j (r_del r1) \/ In j (new_ids (rs_p s) (rs_p s'))).
Proof.
  intros n cls rs cs r o es s r1 i c id s' Hv Eo Ex Hf k0 B Hn HP E OB HF EF Ei Eio Hu.
  assert (Ht : forall b, inst_sol n cls b -> total_to n b) by (intros b Hb; exact (proj1 Hb)).
  pose proof (boosted_ok n cls rs cs r Hv Eo Ex Hf B) as I. pose proof (ro_wok _ _ _ _ (bi_ok _ _ _ _ _ I)) as W.
  pose proof (start_inv k0 o (r_p r) W Hn) as OI.
  destruct (oll_boosts_run k0 n (inst_sol n cls) _ es _ s r r1 OI HP E OB eq_refl (fun i Hi => match Hi with end)) as (B1 & Ep & U).
  pose proof (boosts_trans _ _ _ _ _ _ B B1) as B2. pose proof (boosted_ok n cls rs cs r1 Hv Eo Ex Hf B2) as I1.
  destruct (reformulation_derived false ti_if k0 o (r_p r) es s true id s' W Hn HP E HF EF) as (W' & _ & _ & _ & HR).
  destruct (finish_boosts k0 n (inst_sol n cls) (r_cs r1) (r_nv r1) (r_done r1) true s id s' (r_del r1) EF (wk_valid _ _ W') U) as (L & B3 & HL).
  { rewrite <- Ep. exact (ro_del _ _ _ _ (bi_ok _ _ _ _ _ I1)). }
  rewrite <- Ep in B3. destruct r1 as [rcs rnv rp rL rd]. cbn [r_cs r_nv r_p r_del r_done] in *. pose proof (boosts_trans _ _ _ _ _ _ B2 B3) as B4.
  pose proof (boosted_ok n cls rs cs _ Hv Eo Ex Hf B4) as I4. pose proof (bi_done _ _ _ _ _ I4) as D. cbn [r_done] in D. subst rd.
  exists L. split; [|exact HL]. apply (bst_more _ _ _ _ _ _ B4). apply bo_reform; [exact Ei|].
  pose proof (ro_enc _ _ _ _ (bi_ok _ _ _ _ _ I4)) as (F1 & F2). cbn [r_cs r_p r_del] in F1, F2.
  assert (Q : cobj_ok (rm_ids L (k_all (kof k0 (rs_p s')))) (boosted (rs_off s) id c) /\ outs_mean (rm_ids L (k_all (kof k0 (rs_p s')))) (boosted (rs_off s) id c)).
  { apply unbuilt_fine; [exact Hu|]. destruct id as [j|].
    - destruct HR as (R & HR & VR). exists R, (reform_terms true s). split; [apply rm_in; split; [exact HR|exact (fun X => proj1 (HL j X) eq_refl)]|]. split; [|exact (terms_pos true s)].
      intros a. rewrite VR. unfold icost. rewrite Eio. reflexivity.
    - destruct (run_used _ _ _ _ _ E (finish_none true s s' EF (proj1 HF))) as (_ & X). exact X. }
  split.
  - apply Forall_forall. intros x Hx. destruct (in_set_nth _ _ _ _ Hx) as [->|X]; [exact (proj1 Q)|]. exact (proj1 (Forall_forall _ _) F1 x X).
  - intros x Hx. destruct (in_set_nth _ _ _ _ Hx) as [->|X]; [exact (proj2 Q)|exact (F2 x X)].
Qed.
Print Assumptions C72_oll.

(** ** P-Minimal after core boosting *)
(** The run starts with the header of the proof and encodings without outputs; core boosting leads to the state [r0], the search to
    the state [r]. The proof is accepted, the excluded solutions are the blocked candidates, and every clause handed to the solver is
    or was a constraint of the proof. *)
Theorem C72_accepted : forall n cls rs cs r0 r, inst_vars n cls rs -> map co_obj cs = build_objs 0 rs ->
  (forall c b, In c cs -> pe_extend (co_enc c) b = []) -> enc_fine (k_all (init_chk cls (build_objs 0 rs))) cs ->
  let k0 := init_chk cls (build_objs 0 rs) in
  boosts k0 n (inst_sol n cls) (start_run n cls cs) r0 -> runs k0 n (inst_sol n cls) r0 r ->
  steps_valid k0 (ps_log (r_p r)) /\
  k_excl (kof k0 (r_p r)) = map (fun b => map axiom (sol_lits b)) (r_done r) /\
  (forall b, In b (r_done r) -> inst_sol n cls b) /\
  (forall c id, In (c, id) (ps_reg (r_p r)) -> was_clause k0 (r_p r) c id).
Proof.
  intros n cls rs cs r0 r Hv Eo Ex Hf k0 B H. pose proof (boosted_ok n cls rs cs r0 Hv Eo Ex Hf B) as I. pose proof (runs_ok k0 n _ _ _ (fun b Hb => proj1 Hb) (bi_ok _ _ _ _ _ I) H) as R.
  split; [exact (wk_valid _ _ (ro_wok _ _ _ _ R))|]. split; [exact (ro_excl _ _ _ _ R)|]. split; [|exact (ro_reg _ _ _ _ R)].
  intros b Hb. destruct (proj2 (runs_done _ _ _ _ _ H) b Hb) as [X|X]; [rewrite (bi_done _ _ _ _ _ I) in X; destruct X|exact X].
Qed.
Print Assumptions C72_accepted.
(** A solution that no blocked candidate weakly dominates can be extended such that all constraints of the proof hold *)
Theorem C72_keeps : forall n cls rs cs r0 r b, inst_vars n cls rs -> map co_obj cs = build_objs 0 rs ->
  (forall c b, In c cs -> pe_extend (co_enc c) b = []) -> enc_fine (k_all (init_chk cls (build_objs 0 rs))) cs ->
  let k0 := init_chk cls (build_objs 0 rs) in
  boosts k0 n (inst_sol n cls) (start_run n cls cs) r0 -> runs k0 n (inst_sol n cls) r0 r -> inst_sol n cls b ->
  (forall d, In d (r_done r) -> ~ vle (ic (build_objs 0 rs) (asg_of d)) (ic (build_objs 0 rs) (asg_of b))) ->
  exists a, proof_holds a (kof k0 (r_p r)) /\ forall x, x <= n -> a (PVs x) = asg_of b x.
Proof.
  intros n cls rs cs r0 r b Hv Eo Ex Hf k0 B H. pose proof (boosted_ok n cls rs cs r0 Hv Eo Ex Hf B) as I. pose proof (runs_ok k0 n _ _ _ (fun b Hb => proj1 Hb) (bi_ok _ _ _ _ _ I) H) as R.
  apply (gen_keeps k0 n cls (build_objs 0 rs) r b R). rewrite (proj1 (runs_done _ _ _ _ _ H)). exact (bi_objs _ _ _ _ _ I).
Qed.
Print Assumptions C72_keeps.
(** Such a solution can be blocked: the lines of the next candidate are written without a failure *)
Theorem C72_next_candidate : forall n cls rs cs r0 r b w xs, inst_vars n cls rs -> map co_obj cs = build_objs 0 rs ->
  (forall c b, In c cs -> pe_extend (co_enc c) b = []) -> enc_fine (k_all (init_chk cls (build_objs 0 rs))) cs ->
  let k0 := init_chk cls (build_objs 0 rs) in
  boosts k0 n (inst_sol n cls) (start_run n cls cs) r0 -> runs k0 n (inst_sol n cls) r0 r -> inst_sol n cls b -> (forall d, In d (r_done r) -> better (r_cs r) b d) ->
  truncate w n = b ->
  (forall f, fix_witness (map co_enc (for_sol (r_cs r) b)) (map co_cost (for_sol (r_cs r) b)) (ps_vmap (r_p r)) b = Some f ->
     exists f', fix_witness (map co_enc (for_sol (r_cs r) b)) (map co_cost (for_sol (r_cs r) b)) (ps_vmap (r_p r)) w = Some f' /\ forall l, In l f' <-> In l f) ->
  map fst xs = for_sol (r_cs r) b ->
  (forall x, In x xs -> bound_pre (kof k0 (r_p r)) (r_nv r) (fst x) /\ (snd x = true -> co_cost (fst x) <= obj_lb (co_obj (fst x)))) ->
  (forall c, In c (for_sol (r_cs r) b) -> co_cost c <= obj_lb (co_obj c) -> co_reform c <> None -> obj_unit_weight (co_obj c) = 1) ->
  exists cl nv' p', block_candidate (map as_bobj xs) (for_sol (r_cs r) b) w n (r_nv r) (r_p r) = Some (cl, nv', p') /\
    runs k0 n (inst_sol n cls) r0 (mkRst (r_cs r) nv' p' (pred (ps_next p') :: r_del r) (b :: r_done r)) /\
    (forall a, proof_holds a (kof k0 p') -> ~ ax_all a (map axiom (sol_lits b))).
Proof.
  intros n cls rs cs r0 r b w xs Hv Eo Ex Hf k0 B H Hb Hd Tw Hw Exs Hpre Huw.
  pose proof (boosted_ok n cls rs cs r0 Hv Eo Ex Hf B) as I. pose proof (runs_ok k0 n _ _ _ (fun b Hb => proj1 Hb) (bi_ok _ _ _ _ _ I) H) as R.
  destruct (ro_sols _ _ _ _ R b Hb Hd) as (f & La). destruct (Hw f (rd_fix _ _ _ _ _ _ _ (la_ready _ _ _ _ _ _ _ _ La))) as (f' & Ef & Hff).
  pose proof (lasting_ready k0 _ _ b w n _ _ f f' La (total_trunc n b (proj1 Hb)) Tw Ef Hff) as Rw.
  destruct (block_ok k0 _ w n (for_sol_idx _ b (ro_idx _ _ _ _ R)) xs _ _ f' Exs Rw Hpre Huw) as (cl & nv' & p' & E & _ & _ & _ & _ & _ & _ & _ & _ & _ & Hno & _).
  exists cl, nv', p'. split; [exact E|]. split.
  - apply (runs_step _ _ _ _ r); [exact H|]. destruct r as [rcs rnv rp rL rd]. cbn [r_cs r_nv r_p r_del r_done] in *. exact (ev_block k0 n _ rcs rnv rp rL rd b w xs cl nv' p' Hb Hd Tw Hw Exs Hpre Huw E).
  - rewrite Tw in Hno. exact Hno.
Qed.
Print Assumptions C72_next_candidate.
(** The next solution of the solver is such a solution *)
Theorem C72_solution_new : forall n cls rs cs r0 r w, inst_vars n cls rs -> map co_obj cs = build_objs 0 rs ->
  (forall c b, In c cs -> pe_extend (co_enc c) b = []) -> enc_fine (k_all (init_chk cls (build_objs 0 rs))) cs ->
  let k0 := init_chk cls (build_objs 0 rs) in
  boosts k0 n (inst_sol n cls) (start_run n cls cs) r0 -> runs_with k0 n (inst_sol n cls) (enforces (asg_of w)) r0 r ->
  total_to n (truncate w n) -> sat (asg_of w) cls -> models_handed (asg_of w) (r_p r) ->
  inst_sol n cls (truncate w n) /\ forall d, In d (r_done r) -> better (r_cs r) (truncate w n) d.
Proof.
  intros n cls rs cs r0 r w Hv Eo Ex Hf k0 B H Ht Hs Hm. pose proof (boosted_ok n cls rs cs r0 Hv Eo Ex Hf B) as I.
  assert (Ev : forall x, x <= n -> asg_of w x = asg_of (truncate w n) x).
  { intros x Hx. unfold asg_of, truncate, var_value. rewrite firstn_nth_error by lia. reflexivity. }
  split; [split; [exact Ht|]; exact (sat_ext cls n _ _ (proj1 Hv) Ev Hs)|]. intros d Hd.
  destruct (runs_new _ _ _ _ _ _ H (bi_done _ _ _ _ _ I) Hm d Hd) as (o & Ho & L). apply in_map_iff in Ho. destruct Ho as (c & <- & Hc). exists c. split; [exact Hc|].
  replace (icost (co_obj c) (asg_of (truncate w n))) with (icost (co_obj c) (asg_of w)); [exact L|]. apply wsum_ext. intros [l x] Hl. cbn [fst]. unfold lit_true. rewrite (Ev (lvar l)); [reflexivity|].
  pose proof (runs_ok k0 n _ _ _ (fun b Hb => proj1 Hb) (bi_ok _ _ _ _ _ I) (proj1 (runs_with_runs _ _ _ _ _ _ H))) as R. exact (ro_objs _ _ _ _ R c l x Hc Hl).
Qed.
Print Assumptions C72_solution_new.
(** When the solver has derived the contradiction, every Pareto-optimal point is the cost of a blocked candidate *)
Theorem C72_complete : forall n cls rs cs r0 r, Forall obj_ok rs -> inst_vars n cls rs -> map co_obj cs = build_objs 0 rs ->
  (forall c b, In c cs -> pe_extend (co_enc c) b = []) -> enc_fine (k_all (init_chk cls (build_objs 0 rs))) cs ->
  let k0 := init_chk cls (build_objs 0 rs) in
  boosts k0 n (inst_sol n cls) (start_run n cls cs) r0 -> runs k0 n (inst_sol n cls) r0 r -> (exists e, In e (k_all (kof k0 (r_p r))) /\ contradictory (snd e)) ->
  (forall a, sat a cls -> exists d, In d (r_done r) /\ sat (asg_of d) cls /\ weakly_dominates (costs rs (asg_of d)) (costs rs a)) /\
  (forall c, pareto_optimal cls rs c -> exists d, In d (r_done r) /\ costs rs (asg_of d) = c).
Proof.
  intros n cls rs cs r0 r Hok Hv Eo Ex Hf k0 B H. pose proof (boosted_ok n cls rs cs r0 Hv Eo Ex Hf B) as I. pose proof (runs_ok k0 n _ _ _ (fun b Hb => proj1 Hb) (bi_ok _ _ _ _ _ I) H) as R.
  apply (gen_complete k0 n cls rs r Hok Hv R).
  - rewrite (proj1 (runs_done _ _ _ _ _ H)). exact (bi_objs _ _ _ _ _ I).
  - intros b Hb. destruct (proj2 (runs_done _ _ _ _ _ H) b Hb) as [X|X]; [rewrite (bi_done _ _ _ _ _ I) in X; destruct X|exact X].
Qed.
Print Assumptions C72_complete.

(** ** BiOptSat after core boosting *)
Theorem C72_bos_accepted : forall n cls rs cs r0 lb s, inst_vars n cls rs -> map co_obj cs = build_objs 0 rs ->
  (forall c b, In c cs -> pe_extend (co_enc c) b = []) -> enc_fine (k_all (init_chk cls (build_objs 0 rs))) cs ->
  let k0 := init_chk cls (build_objs 0 rs) in
  boosts k0 n (inst_sol n cls) (start_run n cls cs) r0 -> bos_run k0 n (inst_sol n cls) (bos_start r0 lb) s ->
  steps_valid k0 (ps_log (r_p (br_r s))) /\
  k_excl (kof k0 (r_p (br_r s))) = map (fun b => map axiom (sol_lits b)) (r_done (br_r s)) /\
  (forall b, In b (r_done (br_r s)) -> inst_sol n cls b) /\
  (forall c id, In (c, id) (ps_reg (r_p (br_r s))) -> was_clause k0 (r_p (br_r s)) c id).
Proof.
  intros n cls rs cs r0 lb s Hv Eo Ex Hf k0 B H. pose proof (boosted_ok n cls rs cs r0 Hv Eo Ex Hf B) as I.
  pose proof (bo_run _ _ _ _ (bos_run_ok k0 n _ _ _ (fun b Hb => proj1 Hb) (bos_start_ok _ _ _ _ lb (bi_ok _ _ _ _ _ I)) H)) as R.
  split; [exact (wk_valid _ _ (ro_wok _ _ _ _ R))|]. split; [exact (ro_excl _ _ _ _ R)|]. split; [|exact (ro_reg _ _ _ _ R)].
  intros b Hb. destruct (proj2 (bos_done _ _ _ _ _ H) b Hb) as [X|X]; [|exact X]. cbn [bos_start br_r] in X. rewrite (bi_done _ _ _ _ _ I) in X. destruct X.
Qed.
Print Assumptions C72_bos_accepted.
Theorem C72_bos_complete : forall n cls rs cs r0 lb s, Forall obj_ok rs -> inst_vars n cls rs -> map co_obj cs = build_objs 0 rs ->
  (forall c b, In c cs -> pe_extend (co_enc c) b = []) -> enc_fine (k_all (init_chk cls (build_objs 0 rs))) cs ->
  let k0 := init_chk cls (build_objs 0 rs) in
  boosts k0 n (inst_sol n cls) (start_run n cls cs) r0 -> bos_run k0 n (inst_sol n cls) (bos_start r0 lb) s ->
  br_end s <> None \/ (exists e, In e (k_all (kof k0 (r_p (br_r s)))) /\ contradictory (snd e)) ->
  (forall a, sat a cls -> exists d, In d (r_done (br_r s)) /\ sat (asg_of d) cls /\ weakly_dominates (costs rs (asg_of d)) (costs rs a)) /\
  (forall c, pareto_optimal cls rs c -> exists d, In d (r_done (br_r s)) /\ costs rs (asg_of d) = c).
Proof.
  intros n cls rs cs r0 lb s Hok Hv Eo Ex Hf k0 B H Hend. pose proof (boosted_ok n cls rs cs r0 Hv Eo Ex Hf B) as I.
  pose proof (bos_run_ok k0 n _ _ _ (fun b Hb => proj1 Hb) (bos_start_ok _ _ _ _ lb (bi_ok _ _ _ _ _ I)) H) as BO.
  apply (gen_complete k0 n cls rs (br_r s) Hok Hv (bo_run _ _ _ _ BO)).
  - rewrite (proj1 (bos_done _ _ _ _ _ H)). exact (bi_objs _ _ _ _ _ I).
  - intros b Hb. destruct (proj2 (bos_done _ _ _ _ _ H) b Hb) as [X|X]; [|exact X]. cbn [bos_start br_r] in X. rewrite (bi_done _ _ _ _ _ I) in X. destruct X.
  - destruct Hend as [X|X]; [|exact X]. destruct (br_end s) as [id|] eqn:E; [|contradiction]. destruct (bo_end _ _ _ _ BO id E) as (C & Y & Q). exists (id, C). split; assumption.
Qed.
Print Assumptions C72_bos_complete.

(** ** Example: minimise x0 + x1 + x2 and x3 subject to x0 or x1 or x2, x3 or x0, and x3 or x1
    Core boosting finds that the first objective is at least 1: the core is a clause of the instance, the outputs of its totalizer are
    x4 (at least 2) and x5 (at least 3). The encoding of the first objective is built over x4 and x5, with the output x6 (at least 1 of
    them). Two candidates are blocked, the costs of the first are (2, 0), those of the second (1, 1), and the solver derives the
    contradiction. *)
Definition bt_cls : list clause := [[pos 0; pos 1; pos 2]; [pos 3; pos 0]; [pos 3; pos 1]].
Definition bt_rs : list raw_obj := [([(pos 0, 1); (pos 1, 1); (pos 2, 1)], 0%Z); ([(pos 3, 1)], 0%Z)].
Definition bt_o1 : objective := OUnweighted 0 1 [pos 0; pos 1; pos 2] 0 0.
Definition bt_o2 : objective := OUnweighted 0 1 [pos 3] 1 0.
Definition bt_core : clause := [pos 0; pos 1; pos 2].
Definition bt_ts : list (Z * ax pv) := ones (map axiom bt_core).
Definition bt_us : list (Z * ax pv) := ones (map axiom [pos 4; pos 5]).
(** the encoding before it is built, with [m] outputs of the totalizer; the encoding after x6 has been defined *)
Definition bt_ext (m : nat) (b : assignment) : list lit := map (fun v => mkLit (2 + v) (negb (v <=? icost bt_o1 (asg_of b)))) (seq 2 m).
Definition bt_e (m : nat) : penc := mkPenc 0 0 true (fun _ => None) (fun _ => None) S (bt_ext m).
Definition bt_f : penc := mkPenc 1 2 true (fun b => if b =? 1 then Some [neg 6] else None)
  (fun v => if v =? 2 then Some (pos 6, (Some 12, Some 13)) else None) S
  (fun b => bt_ext 2 b ++ [mkLit 6 (negb (2 <=? icost bt_o1 (asg_of b)))]).
Definition bt_e2 : penc := mkPenc 0 1 true (fun b => if b =? 0 then Some [neg 3] else None) (fun _ => None) S (fun _ => []).
Definition bt_c2 : cobj := mkCobj bt_e2 bt_o2 None 0.
Definition bt_cs (m : nat) : list cobj := [mkCobj (bt_e m) bt_o1 None 0; bt_c2].
Definition bt_cs5 : list cobj := [mkCobj (bt_e 2) (obj_set_lb 1 bt_o1) (Some 11) 0; bt_c2].
Definition bt_cs6 : list cobj := [mkCobj bt_f (obj_set_lb 1 bt_o1) (Some 11) 0; bt_c2].
Definition bt_k := init_chk bt_cls (build_objs 0 bt_rs).
Definition bt_start := start_run 3 bt_cls (bt_cs 0).
Definition bt_p1 : pst := snd (wr_id (SRup (clause_pb bt_core) [CAbs 1]) (r_p bt_start)).
Definition bt_out (ts : list (Z * ax pv)) (nv v : nat) (p : pst) : pst :=
  snd (wr_id (SRed (wonly_def ts (mkAx (PVs nv) false) (Z.of_nat v)) [(PVs nv, false)] [])
    (snd (wr_id (SRed (wif_def ts (mkAx (PVs nv) false) (Z.of_nat v)) [(PVs nv, true)] []) p))).
Definition bt_p2 : pst := bt_out bt_ts 4 2 bt_p1.
Definition bt_p3 : pst := bt_out bt_ts 5 3 bt_p2.
Definition bt_t : tinfo := mkTi bt_core (fun v => pos (2 + v)) (fun v => S (2 * v)) (fun v => 2 + 2 * v).
Definition bt_es : list revent := [RCore bt_core 4; ROther bt_p3; RReform bt_t []].
Definition bt_s : MReform.rst := match run_revents false ti_if bt_es (reform_start bt_o1 bt_p1) with Some s => s | None => reform_start bt_o1 bt_p1 end.
Definition bt_s' : MReform.rst := snd (finish true bt_s).
Definition bt_p5 : pst := rs_p bt_s'.
Definition bt_p6 : pst := bt_out bt_us 6 1 bt_p5.
Definition bt_a : assignment := [Some true; Some true; Some false; Some false].
Definition bt_b : assignment := [Some true; Some false; Some false; Some true].
Definition bt_blocked (b : assignment) (nv : nat) (p : pst) : option (clause * nat * pst) :=
  block_candidate (map as_bobj (map (fun c => (c, false)) (for_sol bt_cs6 b))) (for_sol bt_cs6 b) b 3 nv p.
Definition bt_pa : pst := match bt_blocked bt_a 7 bt_p6 with Some (_, _, p) => p | None => bt_p6 end.
Definition bt_pb : pst := match bt_blocked bt_b 7 bt_pa with Some (_, _, p) => p | None => bt_p6 end.
Lemma bt_inst : inst_vars 3 bt_cls bt_rs.
Proof.
  split.
  - intros c l [<-|[<-|[<-|[]]]] H; cbn in H; decompose [or] H; try contradiction; subst l; cbn; lia.
  - intros r l w [<-|[<-|[]]] Hl; cbn in Hl; decompose [or] Hl; try contradiction; match goal with H : _ = (l, w) |- _ => injection H as <- _; cbn; lia end.
Qed.
Lemma bt_total : forall b, inst_sol 3 bt_cls b -> exists t0 t1 t2 t3, b = [Some t0; Some t1; Some t2; Some t3].
Proof.
  intros b ((L & T) & _). destruct b as [|t0 [|t1 [|t2 [|t3 [|]]]]]; try discriminate. clear L.
  destruct t0 as [t0|]; [|exfalso; exact (T None ltac:(cbn; tauto) eq_refl)]. destruct t1 as [t1|]; [|exfalso; exact (T None ltac:(cbn; tauto) eq_refl)].
  destruct t2 as [t2|]; [|exfalso; exact (T None ltac:(cbn; tauto) eq_refl)]. destruct t3 as [t3|]; [|exfalso; exact (T None ltac:(cbn; tauto) eq_refl)].
  exists t0, t1, t2, t3. reflexivity.
Qed.
Lemma bt_c2_fine : forall es, cobj_ok es bt_c2 /\ outs_mean es bt_c2.
Proof.
  intros es. split.
  - exists (obj_terms bt_o2). constructor; try (cbn; intros; discriminate).
    + split; reflexivity.
    + intros t Ht. apply in_map_iff in Ht. destruct Ht as (lw & <- & _). cbn [fst]. lia.
    + intros H. exfalso. apply H. reflexivity.
  - intros a Ha Hlt. split; [|intros olit i _ H; discriminate]. intros x xs _ H. injection H as <- <-. cbn in Hlt. unfold lit_true, on_solver in Hlt. cbn in Hlt. unfold ax_true. cbn. destruct (a (PVs 3)); [reflexivity|cbn in Hlt; lia].
Qed.
Lemma bt_fine : forall es m, enc_fine es (bt_cs m).
Proof.
  intros es m. pose proof (bt_c2_fine es) as (A & B).
  destruct (unbuilt_fine es (mkCobj (bt_e m) bt_o1 None 0) 0 None) as (C & D); [split; [reflexivity|split; [reflexivity|intros v; reflexivity]]|reflexivity|].
  split; [constructor; [exact C|constructor; [exact A|constructor]]|intros c [<-|[<-|[]]]; assumption].
Qed.
Lemma bt_wf : w_wf bt_ts /\ w_wf bt_us.
Proof. split; (split; [repeat constructor; cbn; intuition discriminate|]); intros t H; cbn in H; decompose [or] H; try contradiction; subst t; cbn; lia. Qed.
Lemma bt_sum : forall m p L x, ps_vmap p = [] -> x <= 3 -> summand (inst_sol 3 bt_cls) (bt_cs m) (4 + L) p x.
Proof. intros m p L x Ep Hx. apply (inst_summand 3); [intros b Hb; exact (proj1 Hb)|exact Hx|lia|rewrite Ep; intros []]. Qed.
(** the totalizer outputs *)
Lemma bt_tot_step : forall m p L, ps_vmap p = [] -> m < 2 ->
  run_step bt_k 3 (inst_sol 3 bt_cls) (mkRst (bt_cs m) (4 + m) p L []) (mkRst (bt_cs (S m)) (S (4 + m)) (bt_out bt_ts (4 + m) (2 + m) p) L []).
Proof.
  intros m p L Ep Hm. apply (ev_output bt_k 3 (inst_sol 3 bt_cls) (bt_cs m) (bt_cs (S m)) (4 + m) p L [] bt_ts (Z.of_nat (2 + m))).
  - exact (proj1 bt_wf).
  - change (wtot bt_ts) with 3%Z. lia.
  - intros t [<-|[<-|[<-|[]]]]; eexists; (split; [reflexivity|]); apply bt_sum; try exact Ep; cbn; lia.
  - reflexivity.
  - intros b x Hb. destruct (bt_total b Hb) as (t0 & t1 & t2 & t3 & ->).
    assert (m = 0 \/ m = 1) as [-> | ->] by lia; destruct t0, t1, t2, t3; do 7 (try (destruct x as [|x]; [vm_compute; reflexivity|])); vm_compute; destruct x; reflexivity.
  - apply bt_fine.
Qed.
Definition bt_r1 : rst := mkRst (bt_cs 0) 4 bt_p1 [4] [].
Definition bt_r3 : rst := mkRst (bt_cs 2) 6 bt_p3 [4] [].
Definition bt_r4 : rst := mkRst (bt_cs 2) 6 (rs_p bt_s) [9; 4] [].
Lemma bt_boost1 : boosts bt_k 3 (inst_sol 3 bt_cls) bt_start bt_r1.
Proof.
  apply (bst_more _ _ _ _ bt_start); [apply bst_refl|]. apply bo_line; [|reflexivity].
  apply (ev_derive bt_k 3 (inst_sol 3 bt_cls) (bt_cs 0) 4 (r_p bt_start) [] [] (SRup (clause_pb bt_core) [CAbs 1]) true).
  - exact Logic.I.
  - exists [clause_pb bt_core]. split; [vm_compute; reflexivity|]. apply (rup_two _ (map axiom bt_core) []); [intros m []|]. exists (clause_pb bt_core). split; [left; reflexivity|].
    intros a Ha _ H. apply lb_clause_holds in H. destruct H as (l & Hl & H). rewrite (Ha l Hl) in H. discriminate.
  - intros v Hv. vm_compute in Hv. decompose [or] Hv; try contradiction; subst v; cbn; lia.
Qed.
Lemma bt_boost3 : boosts bt_k 3 (inst_sol 3 bt_cls) bt_r1 bt_r3.
Proof.
  apply (bst_more _ _ _ _ (mkRst (bt_cs 1) 5 bt_p2 [4] [])); [apply (bst_more _ _ _ _ bt_r1); [apply bst_refl|]|]; (apply bo_line; [|reflexivity]).
  - apply (bt_tot_step 0); [reflexivity|lia].
  - apply (bt_tot_step 1); [reflexivity|lia].
Qed.
Lemma bt_run : run_revents false ti_if bt_es (reform_start bt_o1 bt_p1) = Some bt_s. Proof. vm_compute. reflexivity. Qed.
Lemma bt_fin : finish true bt_s = (Some 11, bt_s'). Proof. vm_compute. reflexivity. Qed.
Lemma bt_events : oll_boosts bt_k 3 (inst_sol 3 bt_cls) bt_es (reform_start bt_o1 bt_p1) bt_r1 bt_r4.
Proof.
  cbn [bt_es oll_boosts]. 
  assert (E1 : exists s1, run_revent false ti_if (RCore bt_core 4) (reform_start bt_o1 bt_p1) = Some s1 /\ rs_p s1 = bt_p1 /\
    exists s2, run_revent false ti_if (ROther bt_p3) s1 = Some s2 /\ rs_p s2 = bt_p3 /\ exists s3, run_revent false ti_if (RReform bt_t []) s2 = Some s3 /\ rs_p s3 = rs_p bt_s).
  { eexists. split; [vm_compute; reflexivity|]. split; [vm_compute; reflexivity|]. eexists. split; [vm_compute; reflexivity|]. split; [vm_compute; reflexivity|]. eexists. split; vm_compute; reflexivity. }
  destruct E1 as (s1 & E1 & P1 & s2 & E2 & P2 & s3 & E3 & P3). rewrite E1. split; [left; reflexivity|]. rewrite E2. exists bt_r3.
  split; [rewrite P1; exact bt_boost3|]. split; [reflexivity|]. rewrite E3, P3, P2. reflexivity.
Qed.
Lemma bt_def : forall k v, 2 <= v <= 3 -> In (2 + 2 * v, wonly_def bt_ts (axiom (pos (2 + v))) (Z.of_nat v)) (k_all k) -> has_def k (2 + 2 * v) bt_t v.
Proof.
  intros k v Hv H. exists (only_if_def (leaf_ax bt_t) (out_ax bt_t v) (Z.of_nat v)). split; [exact H|]. apply odef_concrete; [|lia].
  assert (v = 2 \/ v = 3) as [-> | ->] by lia; repeat constructor; cbn; intuition discriminate.
Qed.
Lemma bt_pre : run_pre false ti_if bt_k bt_es (reform_start bt_o1 bt_p1).
Proof.
  cbn [bt_es run_pre ev_pre]. 
  assert (E1 : exists s1, run_revent false ti_if (RCore bt_core 4) (reform_start bt_o1 bt_p1) = Some s1 /\ used s1 = [4] /\ rs_p s1 = bt_p1 /\
    exists s2, run_revent false ti_if (ROther bt_p3) s1 = Some s2 /\ rs_p s2 = bt_p3 /\ rs_pend s2 = [((bt_core, 1), 4)] /\ map fst (rs_in s2) = bt_core).
  { eexists. split; [vm_compute; reflexivity|]. split; [vm_compute; reflexivity|]. split; [vm_compute; reflexivity|]. eexists. split; [vm_compute; reflexivity|]. split; [vm_compute; reflexivity|]. split; vm_compute; reflexivity. }
  destruct E1 as (s1 & E1 & U1 & P1 & s2 & E2 & P2 & N2 & I2). rewrite E1, E2. split; [|split; [|split; [|destruct (run_revent false ti_if (RReform bt_t []) s2); exact Logic.I]]].
  - split; [|split; [discriminate|split; [repeat constructor; cbn; intuition discriminate|split; [intros []|split]]]].
    + split; [repeat constructor; cbn; intuition discriminate|]. split; [intros l Hl; exact Hl|]. split; [intros l _ d H; discriminate|intros l l' d d' _ _ _ H; discriminate].
    + intros C HC. vm_compute in HC. decompose [or] HC; try contradiction; discriminate.
    + exists (clause_pb bt_core). split; [vm_compute; tauto|]. apply clausal_clause; [repeat constructor; cbn; intuition discriminate|]. intros l H1 H2. cbn in H1. decompose [or] H1; try contradiction; subst l; cbn in H2; decompose [or] H2; try contradiction; discriminate.
  - split; [|rewrite U1, P1; intros i [<-|[]]; split].
    + apply (ro_wok _ _ _ _ (bi_ok _ _ _ _ _ (boosted_ok 3 bt_cls bt_rs (bt_cs 0) bt_r3 bt_inst eq_refl ltac:(intros c b [<-|[<-|[]]]; reflexivity) (bt_fine _ 0) (boosts_trans _ _ _ _ _ _ bt_boost1 bt_boost3)))).
    + intros C HC. vm_compute in HC. decompose [or] HC; try contradiction; try discriminate. match goal with H : _ = (4, C) |- _ => injection H as <- end. vm_compute. tauto.
    + intros C HC. vm_compute in HC. decompose [or] HC; try contradiction; discriminate.
  - split; [eexists; eexists; eexists; exact N2|]. split; [repeat constructor; cbn; intuition discriminate|]. split; [|rewrite I2; intros _ H; cbn in H; decompose [or] H; try contradiction; discriminate].
    split; [reflexivity|]. rewrite P2. apply (bt_def _ 2); [lia|vm_compute; tauto].
Qed.
Lemma bt_finish_pre : finish_pre true bt_k bt_s.
Proof.
  split; [vm_compute; reflexivity|]. intros _ x v Hx Hv. assert (R : rs_refs bt_s = [(pos 4, mkRdat bt_t 1 1 9)]) by (vm_compute; reflexivity). rewrite R in Hx. destruct Hx as [<-|[]].
  cbn [snd rt_oidx rt_tot] in *. change (nleaf bt_t) with 3 in Hv. assert (v = 3) by lia. subst v. split.
  - apply (bt_def _ 3); [lia|vm_compute; tauto].
  - vm_compute. intros [H|[]]. discriminate.
Qed.
(** core boosting ends with the lower bound 1 and the reformulation with id 11 *)
Lemma bt_boosted : exists L, boosts bt_k 3 (inst_sol 3 bt_cls) bt_start (mkRst bt_cs5 6 bt_p5 L []) /\ forall j, In j L -> In j [4; 9; 10].
Proof.
  destruct (C72_oll 3 bt_cls bt_rs (bt_cs 0) bt_r1 bt_o1 bt_es bt_s bt_r4 0 (mkCobj (bt_e 2) bt_o1 None 0) (Some 11) bt_s' bt_inst eq_refl) as (L & B & H).
  - intros c b [<-|[<-|[]]]; reflexivity.
  - apply bt_fine.
  - exact bt_boost1.
  - repeat constructor; cbn; intuition discriminate.
  - exact bt_pre.
  - exact bt_run.
  - exact bt_events.
  - exact bt_finish_pre.
  - exact bt_fin.
  - reflexivity.
  - reflexivity.
  - split; [reflexivity|split; [reflexivity|intros v; reflexivity]].
  - exists L. split; [exact B|]. intros j Hj. destruct (H j Hj) as (N & X). assert (j <> 11) by congruence.
    assert (E : new_ids (rs_p bt_s) (rs_p bt_s') = [11; 10]) by (vm_compute; reflexivity). rewrite E in X. cbn in X |- *. decompose [or] X; try contradiction; lia.
Qed.

(** the encoding over the outputs of the totalizer *)
Lemma bt_cs6_fine : forall es R, In (11, R) es -> reform_says R (obj_set_lb 1 bt_o1) bt_us 1 ->
  In (12, wif_def bt_us (axiom (pos 6)) 1) es -> In (13, wonly_def bt_us (axiom (pos 6)) 1) es -> 
  (forall v, 2 <= v <= 3 -> In (S (2 * v), wif_def bt_ts (axiom (pos (2 + v))) (Z.of_nat v)) es) -> enc_fine es bt_cs6.
Proof.
  intros es R HR SR H1 H2 HT. pose proof (bt_c2_fine es) as (A & B). split.
  - constructor; [|constructor; [exact A|constructor]]. exists bt_us. constructor; cbn [co_reform co_enc co_obj bt_f pe_buf_empty pe_nout pe_details pe_enforce_ub pe_offset].
    + exists R. split; [exact HR|exact SR].
    + intros t H. cbn in H. decompose [or] H; try contradiction; subst t; cbn; lia.
    + discriminate.
    + intros _ v olit i d H. destruct (Nat.eqb_spec v 2) as [->|]; [|discriminate]. injection H as <- <- <-. eexists. split; [exact H2|].
      intros a. cbn. unfold lb_val, ax_true. cbn. destruct (a (PVs 4)), (a (PVs 5)), (a (PVs 6)); reflexivity.
    + intros _ H. discriminate.
  - intros c [<-|[<-|[]]]; [|exact B]. intros a Ha Hlt. cbn [co_enc co_obj bt_f pe_nout pe_enforce_ub pe_offset pe_details pe_buf_empty]. split; [intros x xs H; discriminate|].
    intros olit i _ H. destruct (Nat.eqb_spec (icost (obj_set_lb 1 bt_o1) (on_solver a)) 2) as [E|]; [|discriminate]. injection H as <- <-.
    pose proof (Ha _ H1) as I1. pose proof (Ha _ (HT 2 ltac:(lia))) as I2. cbn [snd] in I1, I2. clear Ha Hlt H1 H2 HT A B SR HR. unfold lb_holds in I1, I2. cbn in I1, I2, E. unfold lit_true, on_solver in E. cbn in E. unfold ax_true in *. cbn in *.
    destruct (a (PVs 0)), (a (PVs 1)), (a (PVs 2)), (a (PVs 4)), (a (PVs 5)), (a (PVs 6)); cbn in *; try reflexivity; lia.
Qed.
Definition bt_R : pconstr := mkLb [(1%Z, axiom (neg 4)); (1%Z, axiom (pos 0)); (1%Z, axiom (pos 1)); (1%Z, axiom (pos 2)); (1%Z, axiom (neg 5))] 3.
Lemma bt_reform : reform_says bt_R (obj_set_lb 1 bt_o1) bt_us 1.
Proof.
  intros a. unfold lb_val, icost. cbn. unfold ax_true, lit_true, on_solver. cbn.
  destruct (a (PVs 0)), (a (PVs 1)), (a (PVs 2)), (a (PVs 4)), (a (PVs 5)); reflexivity.
Qed.
Section Rest.
Variable L : list nat.
Hypothesis HL : forall j, In j L -> In j [4; 9; 10].
Lemma bt_keep : forall p i C, ~ In i [4; 9; 10] -> In (i, C) (k_all (kof bt_k p)) -> In (i, C) (rm_ids L (k_all (kof bt_k p))).
Proof. intros p i C Hi H. apply rm_in. split; [exact H|]. intros X. exact (Hi (HL _ X)). Qed.
Definition bt_r5 : rst := mkRst bt_cs5 6 bt_p5 L [].
Definition bt_r6 : rst := mkRst bt_cs6 7 bt_p6 L [].
Lemma bt_step6 : run_step bt_k 3 (inst_sol 3 bt_cls) bt_r5 bt_r6.
Proof.
  apply (ev_output bt_k 3 (inst_sol 3 bt_cls) bt_cs5 bt_cs6 6 bt_p5 L [] bt_us 1).
  - exact (proj2 bt_wf).
  - change (wtot bt_us) with 2%Z. lia.
  - intros t [<-|[<-|[]]]; eexists; (split; [reflexivity|]); (split; [cbn; lia|split; [vm_compute; intros []|]]); intros b Hb; destruct (bt_total b Hb) as (t0 & t1 & t2 & t3 & ->);
      destruct t0, t1, t2, t3; vm_compute; discriminate.
  - reflexivity.
  - intros b x Hb. destruct (bt_total b Hb) as (t0 & t1 & t2 & t3 & ->).
    destruct t0, t1, t2, t3; do 8 (try (destruct x as [|x]; [vm_compute; reflexivity|])); vm_compute; destruct x; reflexivity.
  - change (enc_fine (rm_ids L (k_all (kof bt_k bt_p6))) bt_cs6). apply (bt_cs6_fine _ bt_R).
    + apply bt_keep; [cbn; lia|vm_compute; tauto].
    + exact bt_reform.
    + apply bt_keep; [cbn; lia|vm_compute; tauto].
    + apply bt_keep; [cbn; lia|vm_compute; tauto].
    + intros v Hv. assert (v = 2 \/ v = 3) as [-> | ->] by lia; (apply bt_keep; [cbn; lia|vm_compute; tauto]).
Qed.
Lemma bt_sol_a : inst_sol 3 bt_cls bt_a.
Proof. split; [split; [reflexivity|]; intros x H; cbn in H; decompose [or] H; try contradiction; subst x; discriminate|intros c [<-|[<-|[<-|[]]]]; reflexivity]. Qed.
Lemma bt_sol_b : inst_sol 3 bt_cls bt_b.
Proof. split; [split; [reflexivity|]; intros x H; cbn in H; decompose [or] H; try contradiction; subst x; discriminate|intros c [<-|[<-|[<-|[]]]]; reflexivity]. Qed.
Example bt_clause_a : block_candidate (map as_bobj (map (fun c => (c, false)) (for_sol bt_cs6 bt_a))) (for_sol bt_cs6 bt_a) bt_a 3 7 bt_p6 = Some ([neg 6], 7, bt_pa). Proof. vm_compute. reflexivity. Qed.
Example bt_clause_b : block_candidate (map as_bobj (map (fun c => (c, false)) (for_sol bt_cs6 bt_b))) (for_sol bt_cs6 bt_b) bt_b 3 7 bt_pa = Some ([neg 3], 7, bt_pb). Proof. vm_compute. reflexivity. Qed.
Definition bt_ra : rst := mkRst bt_cs6 7 bt_pa (pred (ps_next bt_pa) :: L) [bt_a].
Definition bt_rb : rst := mkRst bt_cs6 7 bt_pb (pred (ps_next bt_pb) :: pred (ps_next bt_pa) :: L) [bt_b; bt_a].
Lemma bt_step_a : run_step bt_k 3 (inst_sol 3 bt_cls) bt_r6 bt_ra.
Proof.
  apply (ev_block bt_k 3 (inst_sol 3 bt_cls) bt_cs6 7 bt_p6 L [] bt_a bt_a (map (fun c => (c, false)) (for_sol bt_cs6 bt_a)) [neg 6] 7 bt_pa).
  - exact bt_sol_a.
  - intros d [].
  - reflexivity.
  - intros f Hf. exists f. split; [exact Hf|]. intros l. reflexivity.
  - reflexivity.
  - intros x [<-|[<-|[]]]; (split; [|discriminate]); cbn [fst].
    + split; [intros l w H; cbn in H; decompose [or] H; try contradiction; match goal with H : _ = (l, w) |- _ => injection H as <- _; cbn; lia end|]. split; [reflexivity|]. split; [cbn; lia|]. intros _.
      exists [neg 6]. split; [reflexivity|]. split; [intros a [<-|[]]; cbn; lia|]. right. right. split; [discriminate|]. split; [discriminate|]. split; [reflexivity|]. exists (pos 6), (Some 12), 13. split; reflexivity.
    + split; [intros l w [H|[]]; injection H as <- _; cbn; lia|]. split; [reflexivity|]. split; [cbn; lia|]. intros H. exfalso. revert H. vm_compute. lia.
  - intros c [<-|[<-|[]]]; cbn; congruence.
  - exact bt_clause_a.
Qed.
Lemma bt_step_b : run_step bt_k 3 (inst_sol 3 bt_cls) bt_ra bt_rb.
Proof.
  apply (ev_block bt_k 3 (inst_sol 3 bt_cls) bt_cs6 7 bt_pa (pred (ps_next bt_pa) :: L) [bt_a] bt_b bt_b (map (fun c => (c, false)) (for_sol bt_cs6 bt_b)) [neg 3] 7 bt_pb).
  - exact bt_sol_b.
  - intros d [<-|[]]. eexists. split; [left; reflexivity|]. vm_compute. lia.
  - reflexivity.
  - intros f Hf. exists f. split; [exact Hf|]. intros l. reflexivity.
  - reflexivity.
  - intros x [<-|[<-|[]]]; (split; [|discriminate]); cbn [fst].
    + split; [intros l w H; cbn in H; decompose [or] H; try contradiction; match goal with H : _ = (l, w) |- _ => injection H as <- _; cbn; lia end|]. split; [reflexivity|]. split; [right; discriminate|]. intros H. exfalso. revert H. vm_compute. lia.
    + split; [intros l w [H|[]]; injection H as <- _; cbn; lia|]. split; [reflexivity|]. split; [cbn; lia|]. intros _.
      exists [neg 3]. split; [reflexivity|]. split; [intros a [<-|[]]; cbn; lia|]. left. exists (pos 3), 1. split; reflexivity.
  - intros c [<-|[<-|[]]]; cbn; congruence.
  - exact bt_clause_b.
Qed.
Lemma bt_runs_a : forall Q : list cobj -> Prop, Q bt_cs5 -> Q bt_cs6 -> runs_with bt_k 3 (inst_sol 3 bt_cls) Q bt_r5 bt_ra.
Proof. intros Q H5 H6. apply (rw_step _ _ _ _ _ bt_r6); [apply (rw_step _ _ _ _ _ bt_r5); [apply rw_refl; exact H5|exact bt_step6|exact H6]|exact bt_step_a|exact H6]. Qed.
(** the solver derives the contradiction from the clauses of the instance, the two blocking clauses, and the definitions of x6 and x4 *)
Definition bt_last : step := SRup (lb_clause []) [CAbs 2; CAbs 3; CAbs 17; CAbs 21; CAbs 12; CAbs 5].
Definition bt_end : rst := mkRst bt_cs6 7 (snd (wr_id bt_last bt_pb)) (ps_next bt_pb :: pred (ps_next bt_pb) :: pred (ps_next bt_pa) :: L) [bt_b; bt_a].
Lemma bt_runs : runs bt_k 3 (inst_sol 3 bt_cls) bt_r5 bt_end.
Proof.
  apply (runs_step _ _ _ _ bt_rb); [apply (runs_step _ _ _ _ bt_ra _ (proj1 (runs_with_runs _ _ _ _ _ _ (bt_runs_a (fun _ => True) Logic.I Logic.I))) bt_step_b)|].
  apply (ev_derive bt_k 3 (inst_sol 3 bt_cls) bt_cs6 7 bt_pb (pred (ps_next bt_pb) :: pred (ps_next bt_pa) :: L) [bt_b; bt_a] bt_last true).
  - exact Logic.I.
  - exists [clause_pb [pos 3; pos 0]; clause_pb [pos 3; pos 1]; clause_pb [neg 6]; clause_pb [neg 3]; wif_def bt_us (axiom (pos 6)) 1; wif_def bt_ts (axiom (pos 4)) 2].
    split; [vm_compute; reflexivity|]. unfold rup.
    apply (up_step _ _ (clause_pb [neg 3]) (axiom (neg 3))); [cbn; tauto| |].
    { intros a _ H. apply lb_clause_holds in H. destruct H as (l & [<-|[]] & H). exact H. }
    apply (up_step _ _ (clause_pb [pos 3; pos 0]) (axiom (pos 0))); [cbn; tauto| |].
    { intros a H1 H. apply lb_clause_holds in H. destruct H as (l & [<-|[<-|[]]] & H); [|exact H].
      specialize (H1 _ (or_introl eq_refl)). cbn in *. unfold ax_true in *. cbn in *. destruct (a (PVs 3)); discriminate. }
    apply (up_step _ _ (clause_pb [pos 3; pos 1]) (axiom (pos 1))); [cbn; tauto| |].
    { intros a H1 H. apply lb_clause_holds in H. destruct H as (l & [<-|[<-|[]]] & H); [|exact H].
      specialize (H1 _ (or_intror (or_introl eq_refl))). cbn in *. unfold ax_true in *. cbn in *. destruct (a (PVs 3)); discriminate. }
    apply (up_step _ _ (clause_pb [neg 6]) (axiom (neg 6))); [cbn; tauto| |].
    { intros a _ H. apply lb_clause_holds in H. destruct H as (l & [<-|[]] & H). exact H. }
    apply (up_step _ _ (wif_def bt_us (axiom (pos 6)) 1) (axiom (neg 4))); [cbn; tauto| |].
    { intros a H1 H. specialize (H1 _ (or_introl eq_refl)). unfold lb_holds in H. cbn in *. unfold ax_true in *. cbn in *. destruct (a (PVs 4)), (a (PVs 5)), (a (PVs 6)); cbn in *; try reflexivity; try discriminate; lia. }
    apply (up_conflict _ _ (wif_def bt_ts (axiom (pos 4)) 2)); [cbn; tauto|].
    intros a Ha H. assert (A0 : a (PVs 0) = true) by (apply (pv_true a _ false); apply Ha; cbn; tauto). assert (A1 : a (PVs 1) = true) by (apply (pv_true a _ false); apply Ha; cbn; tauto).
    assert (A4 : a (PVs 4) = false) by (apply (pv_true a _ true); apply Ha; left; reflexivity).
    unfold lb_holds in H. cbn in H. unfold ax_true in H. cbn in H. rewrite A0, A1, A4 in H. destruct (a (PVs 2)); cbn in H; lia.
  - intros v Hv. vm_compute in Hv. destruct Hv.
Qed.
End Rest.
(** the solver finds the second candidate after the first has been blocked *)
Definition bt_w : assignment := [Some true; Some false; Some false; Some true; Some false; Some false; Some false].
Lemma bt_ext0 : forall c b, In c (bt_cs 0) -> pe_extend (co_enc c) b = []. Proof. intros c b [<-|[<-|[]]]; reflexivity. Qed.
Example C72_solution_example : exists L, inst_sol 3 bt_cls (truncate bt_w 3) /\ forall d, In d (r_done (bt_ra L)) -> better (r_cs (bt_ra L)) (truncate bt_w 3) d.
Proof.
  destruct bt_boosted as (L & B & HL). exists L.
  apply (C72_solution_new 3 bt_cls bt_rs (bt_cs 0) (bt_r5 L) (bt_ra L) bt_w bt_inst eq_refl bt_ext0 (bt_fine _ 0) B).
  - apply (bt_runs_a L HL (enforces (asg_of bt_w))).
    + intros c v as_ [<-|[<-|[]]] _ He Ht; [discriminate|]. cbn [co_enc bt_c2 bt_e2 pe_enforce_ub] in He. destruct (v =? 0); [|discriminate]. injection He as <-. specialize (Ht _ (or_introl eq_refl)). discriminate.
    + intros c v as_ [<-|[<-|[]]] Hv He Ht.
      * cbn [co_enc bt_f pe_enforce_ub] in He. destruct (Nat.eqb_spec v 1) as [->|]; [|discriminate]. vm_compute. lia.
      * cbn [co_enc bt_c2 bt_e2 pe_enforce_ub] in He. destruct (v =? 0); [|discriminate]. injection He as <-. specialize (Ht _ (or_introl eq_refl)). discriminate.
  - exact (proj1 bt_sol_b).
  - intros c [<-|[<-|[<-|[]]]]; reflexivity.
  - intros c id H. vm_compute in H. decompose [or] H; try contradiction; match goal with H : (_, _) = (c, id) |- _ => injection H as <- _; reflexivity end.
Qed.
(** the proof of this run is accepted, and the points of the two candidates are the whole front *)
Example C72_example : exists L, steps_valid bt_k (ps_log (r_p (bt_end L))) /\ map (fun d => costs bt_rs (asg_of d)) (r_done (bt_end L)) = [[1%Z; 1%Z]; [2%Z; 0%Z]] /\
  forall c, pareto_optimal bt_cls bt_rs c -> c = [1%Z; 1%Z] \/ c = [2%Z; 0%Z].
Proof.
  destruct bt_boosted as (L & B & HL). exists L.
  split; [|split].
  - exact (proj1 (C72_accepted 3 bt_cls bt_rs (bt_cs 0) (bt_r5 L) (bt_end L) bt_inst eq_refl bt_ext0 (bt_fine _ 0) B (bt_runs L HL))).
  - vm_compute. reflexivity.
  - intros c Hc. destruct (C72_complete 3 bt_cls bt_rs (bt_cs 0) (bt_r5 L) (bt_end L)) as (_ & Q).
    + constructor; [|constructor; [|constructor]]; (split; [left; repeat constructor; cbn; intuition discriminate|right; eexists; split; [left; reflexivity|discriminate]]).
    + exact bt_inst.
    + reflexivity.
    + exact bt_ext0.
    + exact (bt_fine _ 0).
    + exact B.
    + exact (bt_runs L HL).
    + exists (22, lb_clause []). split; [vm_compute; tauto|]. intros a _ H. vm_compute in H. apply H. reflexivity.
    + destruct (Q c Hc) as (d & [<-|[<-|[]]] & <-); vm_compute; tauto.
Qed.
(** ** Example for BiOptSat: the run of C71, its four outputs are introduced during core boosting *)
Lemma bt_bos_boosts : forall m, m <= 4 -> boosts bx_k 3 (inst_sol 3 bx_cls) (start_run 3 bx_cls (bx_cs 0)) (mkRst (bx_cs m) (4 + m) (bx_outs m) [] []).
Proof.
  induction m as [|m IH]; intros Hm; [apply bst_refl|]. apply (bst_more _ _ _ _ _ _ (IH ltac:(lia))). apply bo_line; [apply bx_out_step; lia|reflexivity].
Qed.
Lemma bt_bos_run : bos_run bx_k 3 (inst_sol 3 bx_cls) (bos_start (mkRst (bx_cs 4) 8 (bx_outs 4) [] []) 0) bx_s4.
Proof. eapply br_more; [|exact bx_ev4]. eapply br_more; [|exact bx_ev3]. eapply br_more; [|exact bx_ev2]. eapply br_more; [|exact bx_ev1]. apply br_refl. Qed.
Example C72_bos_example : steps_valid bx_k (ps_log (r_p (br_r bx_s4))) /\ forall c, pareto_optimal bx_cls bx_rs c -> c = [1%Z; 0%Z] \/ c = [0%Z; 1%Z].
Proof.
  split.
  - exact (proj1 (C72_bos_accepted 3 bx_cls bx_rs (bx_cs 0) _ 0 bx_s4 bx_inst eq_refl bx_ext0 bx_fine0 (bt_bos_boosts 4 (le_n 4)) bt_bos_run)).
  - intros c Hc. destruct (C72_bos_complete 3 bx_cls bx_rs (bx_cs 0) (mkRst (bx_cs 4) 8 (bx_outs 4) [] []) 0 bx_s4) as (_ & Q).
    + constructor; [|constructor; [|constructor]]; (split; [left; repeat constructor; cbn; intuition discriminate|right; eexists; split; [left; reflexivity|discriminate]]).
    + exact bx_inst.
    + reflexivity.
    + exact bx_ext0.
    + exact bx_fine0.
    + exact (bt_bos_boosts 4 (le_n 4)).
    + exact bt_bos_run.
    + left. discriminate.
    + destruct (Q c Hc) as (d & [<-|[<-|[]]] & <-); vm_compute; tauto.
Qed.
