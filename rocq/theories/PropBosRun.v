(** * C71: the proof of a whole run of BiOptSat *)
From Coq Require Import List Arith ZArith Lia Bool.
From Verif Require Import Spec ApiSpec Base BaseLemmas Sem Ext Blk ApiTop MTypes MPMinimal MPrepro ReindexThm VeriPB VeriThm MProofs ProofThm ProofRun ProofCut MTracer TracerThm ReformSpec ReformThm ReformRun MProofAlg ReifSpec ReifThm ReifRun ProofCert ProofFin LinsuCert BlockSpec BlockThm PropProof PropReif BosSpec BosThm PropBos RunSpec RunThm RunSol BosRunSpec BosRunThm.
Import ListNotations.
Local Open Scope nat_scope.

(** The run starts with the header of the proof, encodings without outputs, and no solution. After any number of events - lines of
    the solver and of the encodings, lower bounds found by linear search, iterations - the proof is accepted, the excluded
    solutions are those of the iterations, and every clause handed to the solver is or was a constraint of the proof. *)
Theorem C71_run_accepted : forall n cls rs cs lb s, inst_vars n cls rs -> map co_obj cs = build_objs 0 rs ->
  (forall c b, In c cs -> pe_extend (co_enc c) b = []) -> enc_fine (k_all (init_chk cls (build_objs 0 rs))) cs ->
  let k0 := init_chk cls (build_objs 0 rs) in
  bos_run k0 n (inst_sol n cls) (bos_start (start_run n cls cs) lb) s ->
  steps_valid k0 (ps_log (r_p (br_r s))) /\
  k_excl (kof k0 (r_p (br_r s))) = map (fun b => map axiom (sol_lits b)) (r_done (br_r s)) /\
  (forall b, In b (r_done (br_r s)) -> inst_sol n cls b) /\
  (forall c id, In (c, id) (ps_reg (r_p (br_r s))) -> was_clause k0 (r_p (br_r s)) c id).
Proof.
  intros n cls rs cs lb s Hv Eo Ex Hf k0 H. pose proof (bo_run _ _ _ _ (bos_run_ok k0 n _ _ _ (fun b Hb => proj1 Hb) (bos_start_ok _ _ _ _ lb (start_ok n cls rs cs Hv Eo Ex Hf)) H)) as R.
  split; [exact (wk_valid _ _ (ro_wok _ _ _ _ R))|]. split; [exact (ro_excl _ _ _ _ R)|]. split; [|exact (ro_reg _ _ _ _ R)].
  intros b Hb. destruct (bos_done _ _ _ _ _ H) as (_ & D). destruct (D b Hb) as [[]|X]. exact X.
Qed.
Print Assumptions C71_run_accepted.

(** A solution that no solution of an iteration weakly dominates can be extended such that all constraints of the proof hold *)
Theorem C71_run_keeps : forall n cls rs cs lb s b, inst_vars n cls rs -> map co_obj cs = build_objs 0 rs ->
  (forall c b, In c cs -> pe_extend (co_enc c) b = []) -> enc_fine (k_all (init_chk cls (build_objs 0 rs))) cs ->
  let k0 := init_chk cls (build_objs 0 rs) in
  bos_run k0 n (inst_sol n cls) (bos_start (start_run n cls cs) lb) s -> inst_sol n cls b ->
  (forall d, In d (r_done (br_r s)) -> ~ vle (ic (build_objs 0 rs) (asg_of d)) (ic (build_objs 0 rs) (asg_of b))) ->
  exists a, proof_holds a (kof k0 (r_p (br_r s))) /\ forall x, x <= n -> a (PVs x) = asg_of b x.
Proof.
  intros n cls rs cs lb s b Hv Eo Ex Hf k0 H Hb Hd. pose proof (bo_run _ _ _ _ (bos_run_ok k0 n _ _ _ (fun b Hb => proj1 Hb) (bos_start_ok _ _ _ _ lb (start_ok n cls rs cs Hv Eo Ex Hf)) H)) as R.
  apply (run_extends k0 n (inst_sol n cls) (br_r s) b (fun b Hb => proj1 Hb) R Hb). intros d Hin.
  destruct (better_dec (r_cs (br_r s)) b d) as [X|X]; [exact X|]. exfalso. apply (Hd d Hin). unfold vle, ic.
  destruct (bos_done _ _ _ _ _ H) as (E & _). cbn [bos_start br_r start_run r_cs] in E. rewrite <- Eo, <- E, !map_map. clear -X. induction (r_cs (br_r s)) as [|c l IH]; [constructor|].
  cbn [map]. constructor; [exact (X c (or_introl eq_refl))|]. apply IH. intros c' Hc'. apply X. right. exact Hc'.
Qed.
Print Assumptions C71_run_keeps.

(** An iteration with such a solution succeeds: no line fails, and the clauses handed to the solver are the assumptions that bound the
    decreasing objective by a smaller value *)
Theorem C71_next_iteration : forall n cls rs cs lb0 s c0 c1 nv p L done b lb f i sb w inc dec out0 inc_id assumps first0 first1 lb_id,
  inst_vars n cls rs -> map co_obj cs = build_objs 0 rs ->
  (forall c b, In c cs -> pe_extend (co_enc c) b = []) -> enc_fine (k_all (init_chk cls (build_objs 0 rs))) cs ->
  let k0 := init_chk cls (build_objs 0 rs) in
  bos_run k0 n (inst_sol n cls) (bos_start (start_run n cls cs) lb0) s ->
  s = mkBr (mkRst [c0; c1] nv p L done) b lb f i (Some (assumps, dec, first1, lb_id)) None ->
  inst_sol n cls sb -> (forall d, In d done -> better [c0; c1] sb d) -> witness_of [c0; c1] n p sb w ->
  inc = icost (co_obj c0) (asg_of sb) -> dec = icost (co_obj c1) (asg_of sb) -> pe_offset (co_enc c1) < dec ->
  several c0 -> several c1 -> (forall c, In c (for_sol [c0; c1] sb) -> low_pre c) -> pe_offset (co_enc c1) = obj_lb (co_obj c1) ->
  inc_pre s c0 nv inc out0 inc_id -> outs_pre (kof k0 p) nv c0 c1 inc dec out0 assumps first0 first1 ->
  exists pmin p1 b' p2, certify_pmin_cut (for_sol [c0; c1] sb) w n p = Some (pmin, p1) /\
    bos_step (co_enc c0) (co_enc c1) (co_obj c1) inc dec lb inc_id (Some lb_id) assumps pmin b p1 = Some (b', p2) /\
    (exists as_ new, pe_enforce_ub (co_enc c1) (dec - 1) = Some as_ /\ ps_reg p2 = ps_reg p ++ new /\ map fst new = map (fun a => [a]) as_) /\
    bos_run k0 n (inst_sol n cls) (bos_start (start_run n cls cs) lb0) (mkBr (mkRst [c0; c1] nv p2 L (sb :: done)) b' (inc + 1) (Some first0) None None None).
Proof.
  intros n cls rs cs lb0 s c0 c1 nv p L done b lb f i sb w inc dec out0 inc_id assumps first0 first1 lb_id Hv Eo Ex Hf k0 H Es Hb Hd Hw Ei Ed Hdl S0 S1 Hlow Hoff Hinc Hout.
  pose proof (bos_run_ok k0 n _ _ _ (fun b Hb => proj1 Hb) (bos_start_ok _ _ _ _ lb0 (start_ok n cls rs cs Hv Eo Ex Hf)) H) as B.
  destruct (iterate_ok k0 n (inst_sol n cls) s c0 c1 nv p L done b lb f i sb w inc dec out0 inc_id assumps first0 first1 lb_id (fun b Hb => proj1 Hb) Es B Hb Hd Hw Ei Ed Hdl S0 S1 Hlow Hoff Hinc Hout) as (pmin & p1 & b' & p2 & Ec & Eb & Q & _).
  exists pmin, p1, b', p2. split; [exact Ec|]. split; [exact Eb|]. split; [exact Q|]. apply (br_more _ _ _ _ s); [exact H|].
  apply (be_iterate k0 n (inst_sol n cls) s c0 c1 nv p L done b lb f i sb w inc dec out0 inc_id assumps first0 first1 lb_id pmin p1 b' p2 []); try assumption. intros x [].
Qed.
Print Assumptions C71_next_iteration.

(** If its decreasing objective is at the lower bound, the last iteration succeeds: the id given in the conclusion of the proof is that of
    a contradictory constraint *)
Theorem C71_finish : forall n cls rs cs lb0 s c0 c1 nv p L done b lb f i d sb w inc out0 inc_id,
  inst_vars n cls rs -> map co_obj cs = build_objs 0 rs ->
  (forall c b, In c cs -> pe_extend (co_enc c) b = []) -> enc_fine (k_all (init_chk cls (build_objs 0 rs))) cs ->
  let k0 := init_chk cls (build_objs 0 rs) in
  bos_run k0 n (inst_sol n cls) (bos_start (start_run n cls cs) lb0) s ->
  s = mkBr (mkRst [c0; c1] nv p L done) b lb f i d None ->
  inst_sol n cls sb -> (forall d, In d done -> better [c0; c1] sb d) -> witness_of [c0; c1] n p sb w ->
  inc = icost (co_obj c0) (asg_of sb) -> icost (co_obj c1) (asg_of sb) <= pe_offset (co_enc c1) ->
  several c0 -> several c1 -> (forall c, In c (for_sol [c0; c1] sb) -> low_pre c) -> pe_offset (co_enc c1) = obj_lb (co_obj c1) ->
  inc_pre s c0 nv inc out0 inc_id ->
  exists pmin p1 id p2, certify_pmin_cut (for_sol [c0; c1] sb) w n p = Some (pmin, p1) /\
    bos_cut (co_enc c0) inc lb inc_id (bs_cut b) (bs_lb b) pmin p1 = Some (id, p2) /\ ps_reg p2 = ps_reg p /\
    bos_run k0 n (inst_sol n cls) (bos_start (start_run n cls cs) lb0) (mkBr (mkRst [c0; c1] nv p2 L (sb :: done)) b lb f i d (Some id)) /\
    exists C, In (id, C) (k_all (kof k0 p2)) /\ contradictory C.
Proof.
  intros n cls rs cs lb0 s c0 c1 nv p L done b lb f i d sb w inc out0 inc_id Hv Eo Ex Hf k0 H Es Hb Hd Hw Ei Hdl S0 S1 Hlow Hoff Hinc.
  pose proof (bos_run_ok k0 n _ _ _ (fun b Hb => proj1 Hb) (bos_start_ok _ _ _ _ lb0 (start_ok n cls rs cs Hv Eo Ex Hf)) H) as B.
  destruct (finish_ok k0 n (inst_sol n cls) s c0 c1 nv p L done b lb f i d sb w inc out0 inc_id (fun b Hb => proj1 Hb) Es B Hb Hd Hw Ei Hdl S0 S1 Hlow Hoff Hinc) as (pmin & p1 & id & p2 & Ec & Eb & Er & B2).
  exists pmin, p1, id, p2. split; [exact Ec|]. split; [exact Eb|]. split; [exact Er|]. split; [|exact (bo_end _ _ _ _ B2 id eq_refl)]. apply (br_more _ _ _ _ s); [exact H|].
  exact (be_finish k0 n (inst_sol n cls) s c0 c1 nv p L done b lb f i d sb w inc out0 inc_id pmin p1 id p2 Es Hb Hd Hw Ei Hdl S0 S1 Hlow Hoff Hinc Ec Eb).
Qed.
Print Assumptions C71_finish.

(** The next solution of the solver: if it satisfies the clauses of the instance and those handed to the solver, and the assumptions of
    the encodings enforce their bounds under it, it has a smaller value in the decreasing objective than all solutions before *)
Theorem C71_solution_new : forall n cls rs cs lb s w, inst_vars n cls rs -> map co_obj cs = build_objs 0 rs ->
  (forall c b, In c cs -> pe_extend (co_enc c) b = []) -> enc_fine (k_all (init_chk cls (build_objs 0 rs))) cs ->
  let k0 := init_chk cls (build_objs 0 rs) in
  bos_run_with k0 n (inst_sol n cls) (enforces (asg_of w)) (bos_start (start_run n cls cs) lb) s -> br_end s = None ->
  total_to n (truncate w n) -> sat (asg_of w) cls -> models_handed (asg_of w) (r_p (br_r s)) ->
  inst_sol n cls (truncate w n) /\
  forall d, In d (r_done (br_r s)) -> exists o, nth_error (build_objs 0 rs) 1 = Some o /\ icost o (asg_of (truncate w n)) < icost o (asg_of d).
Proof.
  intros n cls rs cs lb s w Hv Eo Ex Hf k0 H En Ht Hs Hm.
  assert (Ev : forall x, x <= n -> asg_of w x = asg_of (truncate w n) x).
  { intros x Hx. unfold asg_of, truncate, var_value. rewrite firstn_nth_error by lia. reflexivity. }
  split; [split; [exact Ht|]; exact (sat_ext cls n _ _ (proj1 Hv) Ev Hs)|]. intros d Hd.
  destruct (bos_run_new _ _ _ _ _ _ (fun b Hb => proj1 Hb) H (bos_start_ok _ _ _ _ lb (start_ok n cls rs cs Hv Eo Ex Hf)) eq_refl En Hm d Hd) as (o & Ho & L).
  destruct (bos_done _ _ _ _ _ (proj1 (bos_with_run _ _ _ _ _ _ H))) as (E & _). cbn [bos_start br_r start_run r_cs] in E. rewrite E, Eo in Ho. exists o. split; [exact Ho|].
  replace (icost o (asg_of (truncate w n))) with (icost o (asg_of w)); [exact L|]. apply wsum_ext. intros [l x] Hl. cbn [fst]. unfold lit_true. rewrite (Ev (lvar l)); [reflexivity|].
  destruct (build_lits rs 0 o l x) as (q & y & Hq & Hy); [exact (nth_error_In _ _ Ho)|exact Hl|]. exact (proj2 Hv q l y Hq Hy).
Qed.
Print Assumptions C71_solution_new.

(** When the run has finished, or the solver has derived the contradiction, every Pareto-optimal point is the cost of a solution of an
    iteration *)
Theorem C71_run_complete : forall n cls rs cs lb s, Forall obj_ok rs -> inst_vars n cls rs -> map co_obj cs = build_objs 0 rs ->
  (forall c b, In c cs -> pe_extend (co_enc c) b = []) -> enc_fine (k_all (init_chk cls (build_objs 0 rs))) cs ->
  let k0 := init_chk cls (build_objs 0 rs) in
  bos_run k0 n (inst_sol n cls) (bos_start (start_run n cls cs) lb) s ->
  br_end s <> None \/ (exists e, In e (k_all (kof k0 (r_p (br_r s)))) /\ contradictory (snd e)) ->
  (forall a, sat a cls -> exists d, In d (r_done (br_r s)) /\ sat (asg_of d) cls /\ weakly_dominates (costs rs (asg_of d)) (costs rs a)) /\
  (forall c, pareto_optimal cls rs c -> exists d, In d (r_done (br_r s)) /\ costs rs (asg_of d) = c).
Proof.
  intros n cls rs cs lb s Hok Hv Eo Ex Hf k0 H Hend. pose proof (bos_run_ok k0 n _ _ _ (fun b Hb => proj1 Hb) (bos_start_ok _ _ _ _ lb (start_ok n cls rs cs Hv Eo Ex Hf)) H) as B.
  assert (Hc : exists e, In e (k_all (kof k0 (r_p (br_r s)))) /\ contradictory (snd e)).
  { destruct Hend as [X|X]; [|exact X]. destruct (br_end s) as [id|] eqn:E; [|contradiction]. destruct (bo_end _ _ _ _ B id E) as (C & I & Q). exists (id, C). split; assumption. }
  destruct Hc as (e & He & Hc). pose proof (bo_run _ _ _ _ B) as R. clear B Hend.
  destruct (bos_done _ _ _ _ _ H) as (E & D). cbn [bos_start br_r start_run r_cs r_done] in E, D.
  assert (Q : forall a, sat a cls -> exists d, In d (r_done (br_r s)) /\ sat (asg_of d) cls /\ weakly_dominates (costs rs (asg_of d)) (costs rs a)).
  { intros a Ha. set (b := as_sol n a).
    assert (Hb : inst_sol n cls b).
    { split; [apply as_sol_total|]. apply (sat_ext cls n a); [exact (proj1 Hv)| |exact Ha]. intros x Hx. symmetry. apply as_sol_val. exact Hx. }
    destruct (done_dec (r_cs (br_r s)) b (r_done (br_r s))) as [X|(d & Hd & X)].
    - exfalso. destruct (run_extends k0 n (inst_sol n cls) (br_r s) b (fun b Hb => proj1 Hb) R Hb X) as (x & Hx & _). apply (Hc x); [intros l []|exact (Hx e He)].
    - exists d. split; [exact Hd|]. destruct (D d Hd) as [[]|(_ & Hs)]. split; [exact Hs|].
      assert (Ecost : costs rs a = costs rs (asg_of b)).
      { unfold costs. apply map_ext_in. intros o Ho. unfold obj_value. f_equal. f_equal. apply wsum_ext. intros [l w] Hl. cbn [fst]. unfold lit_true.
        rewrite <- (as_sol_val n a (lvar l)); [reflexivity|]. exact (proj2 Hv o l w Ho Hl). }
      rewrite Ecost. apply (ic_le rs Hok 0). unfold vle, ic. rewrite <- Eo, <- E, !map_map. clear -X. induction (r_cs (br_r s)) as [|c l IH]; [constructor|].
      cbn [map]. constructor; [exact (X c (or_introl eq_refl))|]. apply IH. intros c' Hc'. apply X. right. exact Hc'. }
  split; [exact Q|]. intros c ((a & Ha & Ea) & Hopt). destruct (Q a Ha) as (d & Hd & Hs & Hw). exists d. split; [exact Hd|]. rewrite Ea in Hw.
  destruct (list_eq_dec Z.eq_dec (costs rs (asg_of d)) c) as [X|X]; [exact X|]. exfalso. apply (Hopt (asg_of d) Hs). split; assumption.
Qed.
Print Assumptions C71_run_complete.

(** ** Example *)
(** The clause is x0 or x2, the objectives are x0 + x1 and x2 + x3. The encodings introduce x4 (x0 + x1 >= 1), x5 (2), x6 (x2 + x3 >= 1) and x7 (2);
    [m] outputs have been introduced. *)
Definition bx_cls : list clause := [[pos 0; pos 2]].
Definition bx_rs : list raw_obj := [([(pos 0, 1); (pos 1, 1)], 0%Z); ([(pos 2, 1); (pos 3, 1)], 0%Z)].
Definition bx_ts (x : nat) : list (Z * ax pv) := [(1%Z, axiom (pos x)); (1%Z, axiom (pos (S x)))].
Definition bx_o (x i : nat) : objective := OUnweighted 0 1 [pos x; pos (S x)] i 0.
Example bx_objs : build_objs 0 bx_rs = [bx_o 0 0; bx_o 2 1]. Proof. reflexivity. Qed.
Definition bx_e (x m : nat) : penc := mkPenc 0 m true
  (fun b => if m =? 2 then match b with 0 => Some [neg (4 + x); neg (5 + x)] | 1 => Some [neg (5 + x)] | _ => Some [] end else None)
  (fun v => if (1 <=? v) && (v <=? m) then Some (pos (3 + x + v), (Some (2 * (x + v)), Some (S (2 * (x + v))))) else None) S
  (fun b => map (fun v => mkLit (3 + x + v) (negb (v <=? wsum (asg_of b) [(pos x, 1); (pos (S x), 1)]))) (seq 1 m)).
Definition bx_c (x i m : nat) : cobj := mkCobj (bx_e x m) (bx_o x i) None 0.
Definition bx_cs (m : nat) : list cobj := [bx_c 0 0 (min m 2); bx_c 2 1 (m - 2)].
Definition bx_k := init_chk bx_cls (build_objs 0 bx_rs).
Lemma bx_fine1 : forall es x i m, m <= 2 -> (x = 0 \/ x = 2) -> (forall v, 1 <= v <= m -> In (2 * (x + v), wif_def (bx_ts x) (axiom (pos (3 + x + v))) (Z.of_nat v)) es /\ In (S (2 * (x + v)), wonly_def (bx_ts x) (axiom (pos (3 + x + v))) (Z.of_nat v)) es) ->
  cobj_ok es (bx_c x i m) /\ outs_mean es (bx_c x i m).
Proof.
  intros es x i m Hm Hx Hes. split.
  - exists (obj_terms (bx_o x i)). constructor; cbn [bx_c co_reform co_enc co_obj co_cost bx_e pe_buf_empty pe_nout pe_details pe_enforce_ub pe_offset].
    + split; reflexivity.
    + intros t Ht. apply in_map_iff in Ht. destruct Ht as (lw & <- & Hl). cbn [fst]. lia.
    + reflexivity.
    + intros _ v olit j d H. destruct (Nat.leb_spec 1 v) as [V1|]; [|discriminate]. destruct (Nat.leb_spec v m) as [V2|]; [|discriminate]. cbn [andb] in H. injection H as <- <- <-.
      destruct (Hes v (conj V1 V2)) as (_ & I2). eexists. split; [exact I2|]. assert (v = 1 \/ v = 2) as [-> | ->] by lia; destruct Hx as [-> | ->];
        intros a; cbn; unfold lb_val, ax_true; cbn; destruct (a (PVs 0)), (a (PVs 1)), (a (PVs 2)), (a (PVs 3)), (a (PVs 4)), (a (PVs 5)), (a (PVs 6)), (a (PVs 7)); reflexivity.
    + intros _ -> l ls H. discriminate.
  - intros a Ha Hlt. cbn [bx_c co_enc co_obj bx_e pe_nout pe_enforce_ub pe_offset pe_details pe_buf_empty] in *. split.
    + intros y ys -> H. discriminate.
    + intros olit j _ H. set (v := icost (bx_o x i) (on_solver a)) in *.
      destruct (Nat.leb_spec 1 v) as [V1|]; [|discriminate]. destruct (Nat.leb_spec v m) as [V2|]; [|discriminate]. cbn [andb] in H. injection H as <- <-.
      destruct (Hes v (conj V1 V2)) as (I1 & _). apply Ha in I1. cbn [snd] in I1. assert (Ev : v = icost (bx_o x i) (on_solver a)) by reflexivity.
      assert (v = 1 \/ v = 2) as V3 by lia. destruct V3 as [V3|V3]; rewrite V3 in *; destruct Hx as [-> | ->]; unfold lb_holds in I1; cbn in I1, Ev; unfold lit_true, on_solver in Ev; cbn in Ev; unfold ax_true in *; cbn in *;
        destruct (a (PVs 0)), (a (PVs 1)), (a (PVs 2)), (a (PVs 3)), (a (PVs 4)), (a (PVs 5)), (a (PVs 6)), (a (PVs 7)); cbn in *; try reflexivity; try lia.
Qed.
Lemma bx_fine : forall es m, m <= 4 -> (forall v, 1 <= v <= m -> exists x u, (x = 0 \/ x = 2) /\ v = x + u /\ 1 <= u <= 2 /\
    In (2 * v, wif_def (bx_ts x) (axiom (pos (3 + v))) (Z.of_nat u)) es /\ In (S (2 * v), wonly_def (bx_ts x) (axiom (pos (3 + v))) (Z.of_nat u)) es) ->
  enc_fine es (bx_cs m).
Proof.
  intros es m Hm H.
  assert (F0 : cobj_ok es (bx_c 0 0 (min m 2)) /\ outs_mean es (bx_c 0 0 (min m 2))).
  { apply bx_fine1; [lia|tauto|]. intros v Hv. destruct (H v) as (x & u & Hx & Ev & Hu & I1 & I2); [lia|]. destruct Hx as [-> | ->]; [|lia]. cbn in Ev. subst u. exact (conj I1 I2). }
  assert (F1 : cobj_ok es (bx_c 2 1 (m - 2)) /\ outs_mean es (bx_c 2 1 (m - 2))).
  { apply bx_fine1; [lia|tauto|]. intros v Hv. destruct (H (2 + v)) as (x & u & Hx & Ev & Hu & I1 & I2); [lia|]. destruct Hx as [-> | ->]; [lia|]. assert (v = u) by lia. subst u. exact (conj I1 I2). }
  split; [constructor; [exact (proj1 F0)|constructor; [exact (proj1 F1)|constructor]]|]. intros c [<-|[<-|[]]]; [exact (proj2 F0)|exact (proj2 F1)].
Qed.
Lemma bx_inst : inst_vars 3 bx_cls bx_rs.
Proof.
  split.
  - intros c l [<-|[]] [<-|[<-|[]]]; cbn; lia.
  - intros r l w [<-|[<-|[]]] Hl; cbn in Hl; decompose [or] Hl; try contradiction; match goal with H : _ = (l, w) |- _ => injection H as <- _; cbn; lia end.
Qed.
Lemma bx_wf : forall x, w_wf (bx_ts x).
Proof. intros x. split; [repeat constructor; cbn; [intros [E|[]]; injection E as E; lia|intros []]|intros t [<-|[<-|[]]]; cbn; lia]. Qed.
(** output [m]: the objective and the value *)
Definition bx_x (m : nat) : nat := if m <=? 2 then 0 else 2.
Definition bx_v (m : nat) : nat := m - bx_x m.
Definition bx_out (m : nat) (p : pst) : pst :=
  snd (wr_id (SRed (wonly_def (bx_ts (bx_x m)) (mkAx (PVs (3 + m)) false) (Z.of_nat (bx_v m))) [(PVs (3 + m), false)] [])
    (snd (wr_id (SRed (wif_def (bx_ts (bx_x m)) (mkAx (PVs (3 + m)) false) (Z.of_nat (bx_v m))) [(PVs (3 + m), true)] []) p))).
Fixpoint bx_outs (m : nat) : pst := match m with 0 => mkPst 2 0 [] [] [] [] | S j => bx_out m (bx_outs j) end.
Lemma bx_ext : forall m b x, m < 4 -> inst_sol 3 bx_cls b ->
  ext_value (bx_cs (S m)) b x = if x =? 4 + m then Some (Z.of_nat (bx_v (S m)) <=? ts_value (bx_cs m) b (bx_ts (bx_x (S m))))%Z else ext_value (bx_cs m) b x.
Proof.
  intros m b x Hm ((L & T) & _). destruct b as [|t0 [|t1 [|t2 [|t3 [|]]]]]; try discriminate. clear L.
  destruct t0 as [t0|]; [|exfalso; apply (T None); [cbn; tauto|reflexivity]]. destruct t1 as [t1|]; [|exfalso; apply (T None); [cbn; tauto|reflexivity]].
  destruct t2 as [t2|]; [|exfalso; apply (T None); [cbn; tauto|reflexivity]]. destruct t3 as [t3|]; [|exfalso; apply (T None); [cbn; tauto|reflexivity]].
  assert (m = 0 \/ m = 1 \/ m = 2 \/ m = 3) as [-> | [-> | [-> | ->]]] by lia; destruct t0, t1, t2, t3; do 9 (try (destruct x as [|x]; [vm_compute; reflexivity|])); vm_compute; destruct x; reflexivity.
Qed.
Lemma bx_defs : forall m v, m <= 4 -> 1 <= v <= m -> exists x u, (x = 0 \/ x = 2) /\ v = x + u /\ 1 <= u <= 2 /\
    In (2 * v, wif_def (bx_ts x) (axiom (pos (3 + v))) (Z.of_nat u)) (k_all (kof bx_k (bx_outs m))) /\ In (S (2 * v), wonly_def (bx_ts x) (axiom (pos (3 + v))) (Z.of_nat u)) (k_all (kof bx_k (bx_outs m))).
Proof.
  intros m v Hm Hv. exists (bx_x v), (bx_v v). unfold bx_v, bx_x.
  assert (m = 1 \/ m = 2 \/ m = 3 \/ m = 4) as Q by lia. assert (v = 1 \/ v = 2 \/ v = 3 \/ v = 4) as Q2 by lia.
  destruct Q as [-> | [-> | [-> | ->]]], Q2 as [-> | [-> | [-> | ->]]]; try lia; (split; [cbn; tauto|]); (split; [cbn; lia|]); (split; [cbn; lia|]); (split; vm_compute; tauto).
Qed.
Lemma bx_out_step : forall m, m < 4 -> run_step bx_k 3 (inst_sol 3 bx_cls) (mkRst (bx_cs m) (4 + m) (bx_outs m) [] []) (mkRst (bx_cs (S m)) (4 + S m) (bx_outs (S m)) [] []).
Proof.
  intros m Hm. replace (4 + S m) with (S (4 + m)) by lia. apply (ev_output bx_k 3 (inst_sol 3 bx_cls) (bx_cs m) (bx_cs (S m)) (4 + m) (bx_outs m) [] [] (bx_ts (bx_x (S m))) (Z.of_nat (bx_v (S m)))).
  - apply bx_wf.
  - unfold bx_v, bx_x, bx_ts, wtot. cbn [map fst fold_right]. destruct (Nat.leb_spec (S m) 2); cbn; lia.
  - intros t [<-|[<-|[]]]; eexists; (split; [reflexivity|]); apply (inst_summand 3); try (intros b Hb; exact (proj1 Hb)); try lia;
      try (unfold bx_x; destruct (S m <=? 2); cbn; lia); assert (E : ps_vmap (bx_outs m) = []) by (clear; induction m as [|m IH]; [reflexivity|exact IH]); rewrite E; intros [].
  - reflexivity.
  - intros b x Hb. apply bx_ext; assumption.
  - rewrite rm_nil. apply bx_fine; [lia|]. intros v Hv. exact (bx_defs (S m) v Hm Hv).
Qed.
Definition bx_start : brst := bos_start (start_run 3 bx_cls (bx_cs 0)) 0.
Definition bx_state (cs : list cobj) (nv : nat) (p : pst) : brst := bos_start (mkRst cs nv p [] []) 0.
Lemma bx_runs : forall (Q : list cobj -> Prop) m, (forall m, m <= 4 -> Q (bx_cs m)) -> m <= 4 -> bos_run_with bx_k 3 (inst_sol 3 bx_cls) Q bx_start (bx_state (bx_cs m) (4 + m) (bx_outs m)).
Proof.
  intros Q m HQ. induction m as [|m IH]; intros Hm; [apply bw_refl; apply HQ; exact Hm|]. eapply bw_more; [apply IH; lia| |apply (HQ (S m)); exact Hm].
  apply be_step; [apply bx_out_step; lia|reflexivity].
Qed.
Lemma bx_has : forall k x v, (x = 0 \/ x = 2) -> 1 <= v <= 2 -> In (2 * (x + v), wif_def (bx_ts x) (axiom (pos (3 + x + v))) (Z.of_nat v)) (k_all k) ->
  In (S (2 * (x + v)), wonly_def (bx_ts x) (axiom (pos (3 + x + v))) (Z.of_nat v)) (k_all k) -> has_out k (bx_e x 2) (bx_ts x) v (pos (3 + x + v)).
Proof.
  intros k x v Hx Hv I1 I2. assert (N : ~ In (PVs (lvar (pos (3 + x + v)))) (map ax_var (map snd (bx_ts x)))).
  { intros [X|[X|[]]]; cbn in X; injection X as X; lia. }
  assert (E : (Z.of_nat v - Z.of_nat (pe_offset (bx_e x 2)) = Z.of_nat v)%Z) by (cbn [bx_e pe_offset]; lia).
  exists (2 * (x + v)), (S (2 * (x + v))). constructor; [|cbn [bx_e pe_offset]; lia|rewrite E; change (wtot (bx_ts x)) with 2%Z; lia|exact N| |]; rewrite ?E.
  - assert (v = 1 \/ v = 2) as [-> | ->] by lia; reflexivity.
  - eexists. split; [exact I1|]. apply wif_concrete; [apply bx_wf|change (wtot (bx_ts x)) with 2%Z; lia|exact N].
  - eexists. split; [exact I2|]. apply wonly_concrete; [apply bx_wf|lia|exact N].
Qed.
Lemma bx_chain : forall k x, (x = 0 \/ x = 2) ->
  In (2 * (x + 1), wif_def (bx_ts x) (axiom (pos (4 + x))) 1) (k_all k) -> In (S (2 * (x + 1)), wonly_def (bx_ts x) (axiom (pos (4 + x))) 1) (k_all k) ->
  In (2 * (x + 2), wif_def (bx_ts x) (axiom (pos (5 + x))) 2) (k_all k) -> In (S (2 * (x + 2)), wonly_def (bx_ts x) (axiom (pos (5 + x))) 2) (k_all k) ->
  chain k (bx_e x 2) (bx_ts x) 1 [pos (4 + x); pos (5 + x)].
Proof.
  intros k x Hx I1 I2 I3 I4. replace (4 + x) with (3 + x + 1) in * by lia. replace (5 + x) with (3 + x + 2) in * by lia.
  split; [apply bx_has; try assumption; lia|]. split; [intros _; cbn; lia|]. split; [apply bx_has; try assumption; cbn; lia|]. split; [intros X; contradiction|exact Logic.I].
Qed.
(** the solver derives a core for x2 + x3 < 1 if x0 + x1 < 1 is assumed *)
Definition bx_core : step := SRup (lb_clause (map axiom [pos 4; pos 6])) [CAbs 1; CAbs 2; CAbs 6].
Definition bx_p1 : pst := snd (wr_id bx_core (bx_outs 4)).
Definition bx_search : option (nat * pst) := linsu_certify (bx_e 2 2) 2 (bx_o 2 1) [neg 4; neg 5] 1 [pos 4; pos 6] 10 bx_p1.
Definition bx_p2 : pst := match bx_search with Some (_, p) => p | None => bx_p1 end.
Definition bx_a : assignment := [Some false; Some false; Some true; Some false].
Definition bx_b : assignment := [Some true; Some false; Some false; Some false].
Definition bx_cut_a := certify_pmin_cut (for_sol (bx_cs 4) bx_a) bx_a 3 bx_p2.
Definition bx_p3 : pst := match bx_cut_a with Some (_, p) => p | None => bx_p1 end.
Definition bx_step_a := bos_step (bx_e 0 2) (bx_e 2 2) (bx_o 2 1) 0 1 0 None (Some 11) [neg 4; neg 5] 14 (mkBst None None) bx_p3.
Definition bx_p4 : pst := match bx_step_a with Some (_, p) => p | None => bx_p1 end.
Definition bx_cut_b := certify_pmin_cut (for_sol (bx_cs 4) bx_b) bx_b 3 bx_p4.
Definition bx_p5 : pst := match bx_cut_b with Some (_, p) => p | None => bx_p1 end.
Definition bx_fin := bos_cut (bx_e 0 2) 1 1 None (Some 14) (Some 16) 21 bx_p5.
Definition bx_p6 : pst := match bx_fin with Some (_, p) => p | None => bx_p1 end.
Example bx_search_eq : linsu_certify (bx_e 2 2) 2 (bx_o 2 1) [neg 4; neg 5] 1 [pos 4; pos 6] 10 bx_p1 = Some (11, bx_p2). Proof. vm_compute. reflexivity. Qed.
Example bx_cut_a_eq : certify_pmin_cut (for_sol (bx_cs 4) bx_a) bx_a 3 bx_p2 = Some (14, bx_p3). Proof. vm_compute. reflexivity. Qed.
Example bx_step_a_eq : bos_step (bx_e 0 2) (bx_e 2 2) (bx_o 2 1) 0 1 0 None (Some 11) [neg 4; neg 5] 14 (mkBst None None) bx_p3 = Some (mkBst (Some 14) (Some 16), bx_p4). Proof. vm_compute. reflexivity. Qed.
Example bx_cut_b_eq : certify_pmin_cut (for_sol (bx_cs 4) bx_b) bx_b 3 bx_p4 = Some (21, bx_p5). Proof. vm_compute. reflexivity. Qed.
Example bx_fin_eq : bos_cut (bx_e 0 2) 1 1 None (Some 14) (Some 16) 21 bx_p5 = Some (23, bx_p6). Proof. vm_compute. reflexivity. Qed.
Definition bx_s1 : brst := bx_state (bx_cs 4) 8 bx_p1.
Definition bx_s2 : brst := mkBr (mkRst (bx_cs 4) 8 bx_p2 [] []) (mkBst None None) 0 None None (Some ([neg 4; neg 5], 1, pos 6, 11)) None.
Definition bx_s3 : brst := mkBr (mkRst (bx_cs 4) 8 bx_p4 [18] [bx_a]) (mkBst (Some 14) (Some 16)) 1 (Some (pos 4)) None None None.
Definition bx_s4 : brst := mkBr (mkRst (bx_cs 4) 8 bx_p6 [18] [bx_b; bx_a]) (mkBst (Some 14) (Some 16)) 1 (Some (pos 4)) None None (Some 23).
Lemma bx_ev1 : bos_event bx_k 3 (inst_sol 3 bx_cls) (bx_state (bx_cs 4) 8 (bx_outs 4)) bx_s1.
Proof.
  apply be_step; [|reflexivity]. apply (ev_derive bx_k 3 (inst_sol 3 bx_cls) (bx_cs 4) 8 (bx_outs 4) [] [] bx_core false).
  - exact Logic.I.
  - exists [clause_pb [pos 0; pos 2]; wif_def (bx_ts 0) (axiom (pos 4)) 1; wif_def (bx_ts 2) (axiom (pos 6)) 1].
    split; [vm_compute; reflexivity|]. apply (rup_two _ _ [axiom (neg 0); axiom (neg 2)]).
    + intros m [<-|[<-|[]]].
      * exists (wif_def (bx_ts 0) (axiom (pos 4)) 1). split; [cbn; tauto|]. intros a Ha H. pose proof (Ha (axiom (pos 4)) (or_introl eq_refl)) as A.
        unfold lb_holds in H. cbn in H. unfold ax_true in *. cbn in *. destruct (a (PVs 4)); [discriminate|]. destruct (a (PVs 0)), (a (PVs 1)); cbn in H; try reflexivity; lia.
      * exists (wif_def (bx_ts 2) (axiom (pos 6)) 1). split; [cbn; tauto|]. intros a Ha H. pose proof (Ha (axiom (pos 6)) (or_intror (or_introl eq_refl))) as A.
        unfold lb_holds in H. cbn in H. unfold ax_true in *. cbn in *. destruct (a (PVs 6)); [discriminate|]. destruct (a (PVs 2)), (a (PVs 3)); cbn in H; try reflexivity; lia.
    + exists (clause_pb [pos 0; pos 2]). split; [cbn; tauto|]. intros a _ Hm H. pose proof (Hm _ (or_introl eq_refl)) as A. pose proof (Hm _ (or_intror (or_introl eq_refl))) as B.
      unfold lb_holds in H. cbn in H. unfold ax_true in *. cbn in *. destruct (a (PVs 0)), (a (PVs 2)); try discriminate. cbn in H. lia.
  - intros v Hv. vm_compute in Hv. destruct Hv as [<-|[<-|[]]]; lia.
Qed.
Lemma bx_ev2 : bos_event bx_k 3 (inst_sol 3 bx_cls) bx_s1 bx_s2.
Proof.
  apply (be_dec bx_k 3 (inst_sol 3 bx_cls) (bx_c 0 0 2) (bx_c 2 1 2) 8 bx_p1 [] [] (mkBst None None) 0 None None None 2 [neg 4; neg 5] 1 (pos 6) [pos 4; pos 6] 10 11 bx_p2).
  - constructor.
    + reflexivity.
    + repeat constructor; cbn; intuition discriminate.
    + intros b [<-|[<-|[]]]; cbn; lia.
    + exists (bx_ts 2), [pos 7], [neg 4], [pos 6]. split; [apply bx_wf|]. split; [apply (bx_chain _ 2); [tauto|vm_compute; tauto|vm_compute; tauto|vm_compute; tauto|vm_compute; tauto]|].
      split; [repeat constructor; cbn; intuition discriminate|]. split; [intros o [<-|[<-|[]]]; cbn; lia|]. split; [intros b [<-|[<-|[]]]; cbn; intuition discriminate|].
      split; [cbn; lia|]. split; [reflexivity|]. split; [apply subl_take; apply subl_nil|]. split; [apply subl_take; apply subl_nil|]. split; [discriminate|]. split; [discriminate|].
      exists (lb_clause (map axiom [pos 4; pos 6])). split; [vm_compute; tauto|]. apply clause_proper. repeat constructor; cbn; intuition discriminate.
  - exact bx_search_eq.
  - intros [].
Qed.
Lemma bx_sol_a : inst_sol 3 bx_cls bx_a.
Proof. split; [split; [reflexivity|]; intros x [<-|[<-|[<-|[<-|[]]]]]; discriminate|intros c [<-|[]]; reflexivity]. Qed.
Lemma bx_sol_b : inst_sol 3 bx_cls bx_b.
Proof. split; [split; [reflexivity|]; intros x [<-|[<-|[<-|[<-|[]]]]]; discriminate|intros c [<-|[]]; reflexivity]. Qed.
Lemma bx_several : forall x i, several (bx_c x i 2).
Proof. intros x i. split; [|split]; cbn; [discriminate|discriminate|reflexivity]. Qed.
Lemma bx_low : forall b c, In c (for_sol (bx_cs 4) b) -> low_pre c.
Proof. intros b c [<-|[<-|[]]] H; cbn [co_cost co_obj co_reform bx_c bx_o obj_lb] in *; (split; [left; lia|intros X; contradiction X; reflexivity]). Qed.
Lemma bx_ev3 : bos_event bx_k 3 (inst_sol 3 bx_cls) bx_s2 bx_s3.
Proof.
  apply (be_iterate bx_k 3 (inst_sol 3 bx_cls) bx_s2 (bx_c 0 0 2) (bx_c 2 1 2) 8 bx_p2 [] [] (mkBst None None) 0 None None bx_a bx_a 0 1 (pos 4) None [neg 4; neg 5] (pos 4) (pos 6) 11 14 bx_p3 (mkBst (Some 14) (Some 16)) bx_p4 [18]).
  - reflexivity.
  - exact bx_sol_a.
  - intros d [].
  - split; [reflexivity|]. intros f Hf. exists f. split; [exact Hf|]. intros l. reflexivity.
  - reflexivity.
  - reflexivity.
  - cbn. lia.
  - apply bx_several.
  - apply bx_several.
  - apply bx_low.
  - reflexivity.
  - constructor; [reflexivity|cbn; lia|cbn; lia|cbn; lia].
  - constructor.
    + cbn. lia.
    + exists (bx_ts 0), [pos 5]. split; [apply bx_wf|]. split; [apply (bx_chain _ 0); [tauto|vm_compute; tauto|vm_compute; tauto|vm_compute; tauto|vm_compute; tauto]|].
      split; [repeat constructor; cbn; intuition discriminate|]. split; [reflexivity|]. cbn. intuition discriminate.
    + exists (bx_ts 2), [pos 7]. split; [apply bx_wf|]. split; [apply (bx_chain _ 2); [tauto|vm_compute; tauto|vm_compute; tauto|vm_compute; tauto|vm_compute; tauto]|].
      split; [repeat constructor; cbn; intuition discriminate|reflexivity].
    + cbn. lia.
    + cbn. lia.
  - exact bx_cut_a_eq.
  - exact bx_step_a_eq.
  - intros x [<-|[]]. split; [vm_compute; lia|]. split; discriminate.
Qed.
Lemma bx_ev4 : bos_event bx_k 3 (inst_sol 3 bx_cls) bx_s3 bx_s4.
Proof.
  apply (be_finish bx_k 3 (inst_sol 3 bx_cls) bx_s3 (bx_c 0 0 2) (bx_c 2 1 2) 8 bx_p4 [18] [bx_a] (mkBst (Some 14) (Some 16)) 1 (Some (pos 4)) None None bx_b bx_b 1 (pos 4) None 21 bx_p5 23 bx_p6).
  - reflexivity.
  - exact bx_sol_b.
  - intros d [<-|[]]. exists (bx_c 2 1 2). split; [right; left; reflexivity|]. vm_compute. lia.
  - split; [reflexivity|]. intros f Hf. exists f. split; [exact Hf|]. intros l. reflexivity.
  - reflexivity.
  - cbn. lia.
  - apply bx_several.
  - apply bx_several.
  - apply bx_low.
  - reflexivity.
  - constructor; [reflexivity| |reflexivity|intros _ X; contradiction X; reflexivity]. intros _. split; [cbn; lia|]. exists (Some 2), 3. reflexivity.
  - exact bx_cut_b_eq.
  - exact bx_fin_eq.
Qed.
Lemma bx_run3 : forall Q : list cobj -> Prop, (forall m, m <= 4 -> Q (bx_cs m)) -> bos_run_with bx_k 3 (inst_sol 3 bx_cls) Q bx_start bx_s3.
Proof.
  intros Q HQ. eapply bw_more; [|exact bx_ev3|apply (HQ 4); lia]. eapply bw_more; [|exact bx_ev2|apply (HQ 4); lia]. eapply bw_more; [|exact bx_ev1|apply (HQ 4); lia]. apply (bx_runs Q 4 HQ). lia.
Qed.
Lemma bx_run : bos_run bx_k 3 (inst_sol 3 bx_cls) bx_start bx_s4.
Proof. eapply br_more; [|exact bx_ev4]. exact (proj1 (bos_with_run _ _ _ _ _ _ (bx_run3 (fun _ => True) (fun _ _ => Logic.I)))). Qed.
Lemma bx_ext0 : forall c b, In c (bx_cs 0) -> pe_extend (co_enc c) b = [].
Proof. intros c b [<-|[<-|[]]]; reflexivity. Qed.
Lemma bx_fine0 : enc_fine (k_all (init_chk bx_cls (build_objs 0 bx_rs))) (bx_cs 0).
Proof. apply bx_fine; [lia|]. intros v Hv. lia. Qed.
(** the second solution, as the solver finds it after the first iteration *)
Definition bx_w : assignment := [Some true; Some false; Some false; Some false; Some true; Some false; Some false; Some false].
Example C71_solution_example : inst_sol 3 bx_cls (truncate bx_w 3) /\
  forall d, In d (r_done (br_r bx_s3)) -> exists o, nth_error (build_objs 0 bx_rs) 1 = Some o /\ icost o (asg_of (truncate bx_w 3)) < icost o (asg_of d).
Proof.
  apply (C71_solution_new 3 bx_cls bx_rs (bx_cs 0) 0 bx_s3 bx_w bx_inst eq_refl bx_ext0 bx_fine0).
  - apply (bx_run3 (enforces (asg_of bx_w))). intros m Hm c v as_ [<-|[<-|[]]] _ He Ht.
    + change (icost (bx_o 0 0) (asg_of bx_w) <= v). change (icost (bx_o 0 0) (asg_of bx_w)) with 1. destruct v as [|v]; [|lia]. cbn [co_enc bx_c bx_e pe_enforce_ub] in He.
      destruct (min m 2 =? 2); [|discriminate]. injection He as <-. specialize (Ht _ (or_introl eq_refl)). discriminate.
    + change (icost (bx_o 2 1) (asg_of bx_w) <= v). change (icost (bx_o 2 1) (asg_of bx_w)) with 0. lia.
  - reflexivity.
  - exact (proj1 bx_sol_b).
  - intros c [<-|[]]. reflexivity.
  - intros c id H. vm_compute in H. decompose [or] H; try contradiction; match goal with H : (_, _) = (c, id) |- _ => injection H as <- _; reflexivity end.
Qed.
(** the proof of this run is accepted, and the points of the two solutions are the whole front *)
Example C71_example : steps_valid bx_k (ps_log (r_p (br_r bx_s4))) /\ map fst (ps_reg (r_p (br_r bx_s4))) = [[neg 6]; [neg 7]] /\
  map (fun d => costs bx_rs (asg_of d)) (r_done (br_r bx_s4)) = [[1%Z; 0%Z]; [0%Z; 1%Z]] /\
  forall c, pareto_optimal bx_cls bx_rs c -> c = [1%Z; 0%Z] \/ c = [0%Z; 1%Z].
Proof.
  split; [|split; [|split]].
  - exact (proj1 (C71_run_accepted 3 bx_cls bx_rs (bx_cs 0) 0 bx_s4 bx_inst eq_refl bx_ext0 bx_fine0 bx_run)).
  - vm_compute. reflexivity.
  - vm_compute. reflexivity.
  - intros c Hc. destruct (C71_run_complete 3 bx_cls bx_rs (bx_cs 0) 0 bx_s4) as (_ & Q).
    + constructor; [|constructor; [|constructor]]; (split; [left; repeat constructor; cbn; intuition discriminate|right; eexists; split; [left; reflexivity|discriminate]]).
    + exact bx_inst.
    + reflexivity.
    + exact bx_ext0.
    + exact bx_fine0.
    + exact bx_run.
    + left. discriminate.
    + destruct (Q c Hc) as (d & [<-|[<-|[]]] & <-); vm_compute; tauto.
Qed.

(** ** What goes wrong *)
(** The clauses are x0, x1, and x2 or x3, the objectives as above. The point is (2, 1). *)
Definition by_cls : list clause := [[pos 0]; [pos 1]; [pos 2; pos 3]].
Definition by_e (x m : nat) : penc := mkPenc 0 m true
  (fun b => if m =? 2 then match b with 0 => Some [neg (4 + x); neg (5 + x)] | 1 => Some [neg (5 + x)] | _ => Some [] end else None)
  (fun v => if (1 <=? v) && (v <=? m) then Some (pos (3 + x + v), (Some (2 * S (x + v)), Some (S (2 * S (x + v))))) else None) S
  (fun b => map (fun v => mkLit (3 + x + v) (negb (v <=? wsum (asg_of b) [(pos x, 1); (pos (S x), 1)]))) (seq 1 m)).
Definition by_c (x i m : nat) : cobj := mkCobj (by_e x m) (bx_o x i) None 0.
Definition by_cs (m : nat) : list cobj := [by_c 0 0 (min m 2); by_c 2 1 (m - 2)].
Definition by_k := init_chk by_cls (build_objs 0 bx_rs).
Lemma by_fine1 : forall es x i m, m <= 2 -> (x = 0 \/ x = 2) -> (forall v, 1 <= v <= m -> In (2 * S (x + v), wif_def (bx_ts x) (axiom (pos (3 + x + v))) (Z.of_nat v)) es /\ In (S (2 * S (x + v)), wonly_def (bx_ts x) (axiom (pos (3 + x + v))) (Z.of_nat v)) es) ->
  cobj_ok es (by_c x i m) /\ outs_mean es (by_c x i m).
Proof.
  intros es x i m Hm Hx Hes. split.
  - exists (obj_terms (bx_o x i)). constructor; cbn [by_c co_reform co_enc co_obj co_cost by_e pe_buf_empty pe_nout pe_details pe_enforce_ub pe_offset].
    + split; reflexivity.
    + intros t Ht. apply in_map_iff in Ht. destruct Ht as (lw & <- & Hl). cbn [fst]. lia.
    + reflexivity.
    + intros _ v olit j d H. destruct (Nat.leb_spec 1 v) as [V1|]; [|discriminate]. destruct (Nat.leb_spec v m) as [V2|]; [|discriminate]. cbn [andb] in H. injection H as <- <- <-.
      destruct (Hes v (conj V1 V2)) as (_ & I2). eexists. split; [exact I2|]. assert (v = 1 \/ v = 2) as [-> | ->] by lia; destruct Hx as [-> | ->];
        intros a; cbn; unfold lb_val, ax_true; cbn; destruct (a (PVs 0)), (a (PVs 1)), (a (PVs 2)), (a (PVs 3)), (a (PVs 4)), (a (PVs 5)), (a (PVs 6)), (a (PVs 7)); reflexivity.
    + intros _ -> l ls H. discriminate.
  - intros a Ha Hlt. cbn [by_c co_enc co_obj by_e pe_nout pe_enforce_ub pe_offset pe_details pe_buf_empty] in *. split.
    + intros y ys -> H. discriminate.
    + intros olit j _ H. set (v := icost (bx_o x i) (on_solver a)) in *.
      destruct (Nat.leb_spec 1 v) as [V1|]; [|discriminate]. destruct (Nat.leb_spec v m) as [V2|]; [|discriminate]. cbn [andb] in H. injection H as <- <-.
      destruct (Hes v (conj V1 V2)) as (I1 & _). apply Ha in I1. cbn [snd] in I1. assert (Ev : v = icost (bx_o x i) (on_solver a)) by reflexivity.
      assert (v = 1 \/ v = 2) as V3 by lia. destruct V3 as [V3|V3]; rewrite V3 in *; destruct Hx as [-> | ->]; unfold lb_holds in I1; cbn in I1, Ev; unfold lit_true, on_solver in Ev; cbn in Ev; unfold ax_true in *; cbn in *;
        destruct (a (PVs 0)), (a (PVs 1)), (a (PVs 2)), (a (PVs 3)), (a (PVs 4)), (a (PVs 5)), (a (PVs 6)), (a (PVs 7)); cbn in *; try reflexivity; try lia.
Qed.
Lemma by_fine : forall es m, m <= 4 -> (forall v, 1 <= v <= m -> exists x u, (x = 0 \/ x = 2) /\ v = x + u /\ 1 <= u <= 2 /\
    In (2 * S v, wif_def (bx_ts x) (axiom (pos (3 + v))) (Z.of_nat u)) es /\ In (S (2 * S v), wonly_def (bx_ts x) (axiom (pos (3 + v))) (Z.of_nat u)) es) ->
  enc_fine es (by_cs m).
Proof.
  intros es m Hm H.
  assert (F0 : cobj_ok es (by_c 0 0 (min m 2)) /\ outs_mean es (by_c 0 0 (min m 2))).
  { apply by_fine1; [lia|tauto|]. intros v Hv. destruct (H v) as (x & u & Hx & Ev & Hu & I1 & I2); [lia|]. destruct Hx as [-> | ->]; [|lia]. cbn in Ev. subst u. exact (conj I1 I2). }
  assert (F1 : cobj_ok es (by_c 2 1 (m - 2)) /\ outs_mean es (by_c 2 1 (m - 2))).
  { apply by_fine1; [lia|tauto|]. intros v Hv. destruct (H (2 + v)) as (x & u & Hx & Ev & Hu & I1 & I2); [lia|]. destruct Hx as [-> | ->]; [lia|]. assert (v = u) by lia. subst u. exact (conj I1 I2). }
  split; [constructor; [exact (proj1 F0)|constructor; [exact (proj1 F1)|constructor]]|]. intros c [<-|[<-|[]]]; [exact (proj2 F0)|exact (proj2 F1)].
Qed.
Lemma by_inst : inst_vars 3 by_cls bx_rs.
Proof.
  split.
  - intros c l [<-|[<-|[<-|[]]]] H; cbn in H; decompose [or] H; try contradiction; subst l; cbn; lia.
  - intros r l w [<-|[<-|[]]] Hl; cbn in Hl; decompose [or] Hl; try contradiction; match goal with H : _ = (l, w) |- _ => injection H as <- _; cbn; lia end.
Qed.
Definition by_out (m : nat) (p : pst) : pst :=
  snd (wr_id (SRed (wonly_def (bx_ts (bx_x m)) (mkAx (PVs (3 + m)) false) (Z.of_nat (bx_v m))) [(PVs (3 + m), false)] [])
    (snd (wr_id (SRed (wif_def (bx_ts (bx_x m)) (mkAx (PVs (3 + m)) false) (Z.of_nat (bx_v m))) [(PVs (3 + m), true)] []) p))).
Fixpoint by_outs (m : nat) : pst := match m with 0 => mkPst 4 0 [] [] [] [] | S j => by_out m (by_outs j) end.
Lemma by_ext : forall m b x, m < 4 -> inst_sol 3 by_cls b ->
  ext_value (by_cs (S m)) b x = if x =? 4 + m then Some (Z.of_nat (bx_v (S m)) <=? ts_value (by_cs m) b (bx_ts (bx_x (S m))))%Z else ext_value (by_cs m) b x.
Proof.
  intros m b x Hm ((L & T) & _). destruct b as [|t0 [|t1 [|t2 [|t3 [|]]]]]; try discriminate. clear L.
  destruct t0 as [t0|]; [|exfalso; apply (T None); [cbn; tauto|reflexivity]]. destruct t1 as [t1|]; [|exfalso; apply (T None); [cbn; tauto|reflexivity]].
  destruct t2 as [t2|]; [|exfalso; apply (T None); [cbn; tauto|reflexivity]]. destruct t3 as [t3|]; [|exfalso; apply (T None); [cbn; tauto|reflexivity]].
  assert (m = 0 \/ m = 1 \/ m = 2 \/ m = 3) as [-> | [-> | [-> | ->]]] by lia; destruct t0, t1, t2, t3; do 9 (try (destruct x as [|x]; [vm_compute; reflexivity|])); vm_compute; destruct x; reflexivity.
Qed.
Lemma by_defs : forall m v, m <= 4 -> 1 <= v <= m -> exists x u, (x = 0 \/ x = 2) /\ v = x + u /\ 1 <= u <= 2 /\
    In (2 * S v, wif_def (bx_ts x) (axiom (pos (3 + v))) (Z.of_nat u)) (k_all (kof by_k (by_outs m))) /\ In (S (2 * S v), wonly_def (bx_ts x) (axiom (pos (3 + v))) (Z.of_nat u)) (k_all (kof by_k (by_outs m))).
Proof.
  intros m v Hm Hv. exists (bx_x v), (bx_v v). unfold bx_v, bx_x.
  assert (m = 1 \/ m = 2 \/ m = 3 \/ m = 4) as Q by lia. assert (v = 1 \/ v = 2 \/ v = 3 \/ v = 4) as Q2 by lia.
  destruct Q as [-> | [-> | [-> | ->]]], Q2 as [-> | [-> | [-> | ->]]]; try lia; (split; [cbn; tauto|]); (split; [cbn; lia|]); (split; [cbn; lia|]); (split; vm_compute; tauto).
Qed.
Lemma by_out_step : forall m, m < 4 -> run_step by_k 3 (inst_sol 3 by_cls) (mkRst (by_cs m) (4 + m) (by_outs m) [] []) (mkRst (by_cs (S m)) (4 + S m) (by_outs (S m)) [] []).
Proof.
  intros m Hm. replace (4 + S m) with (S (4 + m)) by lia. apply (ev_output by_k 3 (inst_sol 3 by_cls) (by_cs m) (by_cs (S m)) (4 + m) (by_outs m) [] [] (bx_ts (bx_x (S m))) (Z.of_nat (bx_v (S m)))).
  - apply bx_wf.
  - unfold bx_v, bx_x, bx_ts, wtot. cbn [map fst fold_right]. destruct (Nat.leb_spec (S m) 2); cbn; lia.
  - intros t [<-|[<-|[]]]; eexists; (split; [reflexivity|]); apply (inst_summand 3); try (intros b Hb; exact (proj1 Hb)); try lia;
      try (unfold bx_x; destruct (S m <=? 2); cbn; lia); assert (E : ps_vmap (by_outs m) = []) by (clear; induction m as [|m IH]; [reflexivity|exact IH]); rewrite E; intros [].
  - reflexivity.
  - intros b x Hb. apply by_ext; assumption.
  - rewrite rm_nil. apply by_fine; [lia|]. intros v Hv. exact (by_defs (S m) v Hm Hv).
Qed.
Definition by_start : brst := bos_start (start_run 3 by_cls (by_cs 0)) 0.
Definition by_state (cs : list cobj) (nv : nat) (p : pst) : brst := bos_start (mkRst cs nv p [] []) 0.
Lemma by_runs : forall (Q : list cobj -> Prop) m, (forall m, m <= 4 -> Q (by_cs m)) -> m <= 4 -> bos_run_with by_k 3 (inst_sol 3 by_cls) Q by_start (by_state (by_cs m) (4 + m) (by_outs m)).
Proof.
  intros Q m HQ. induction m as [|m IH]; intros Hm; [apply bw_refl; apply HQ; exact Hm|]. eapply bw_more; [apply IH; lia| |apply (HQ (S m)); exact Hm].
  apply be_step; [apply by_out_step; lia|reflexivity].
Qed.
Lemma by_has : forall k x v, (x = 0 \/ x = 2) -> 1 <= v <= 2 -> In (2 * S (x + v), wif_def (bx_ts x) (axiom (pos (3 + x + v))) (Z.of_nat v)) (k_all k) ->
  In (S (2 * S (x + v)), wonly_def (bx_ts x) (axiom (pos (3 + x + v))) (Z.of_nat v)) (k_all k) -> has_out k (by_e x 2) (bx_ts x) v (pos (3 + x + v)).
Proof.
  intros k x v Hx Hv I1 I2. assert (N : ~ In (PVs (lvar (pos (3 + x + v)))) (map ax_var (map snd (bx_ts x)))).
  { intros [X|[X|[]]]; cbn in X; injection X as X; lia. }
  assert (E : (Z.of_nat v - Z.of_nat (pe_offset (by_e x 2)) = Z.of_nat v)%Z) by (cbn [by_e pe_offset]; lia).
  exists (2 * S (x + v)), (S (2 * S (x + v))). constructor; [|cbn [by_e pe_offset]; lia|rewrite E; change (wtot (bx_ts x)) with 2%Z; lia|exact N| |]; rewrite ?E.
  - assert (v = 1 \/ v = 2) as [-> | ->] by lia; reflexivity.
  - eexists. split; [exact I1|]. apply wif_concrete; [apply bx_wf|change (wtot (bx_ts x)) with 2%Z; lia|exact N].
  - eexists. split; [exact I2|]. apply wonly_concrete; [apply bx_wf|lia|exact N].
Qed.
Lemma by_chain : forall k x, (x = 0 \/ x = 2) ->
  In (2 * S (x + 1), wif_def (bx_ts x) (axiom (pos (4 + x))) 1) (k_all k) -> In (S (2 * S (x + 1)), wonly_def (bx_ts x) (axiom (pos (4 + x))) 1) (k_all k) ->
  In (2 * S (x + 2), wif_def (bx_ts x) (axiom (pos (5 + x))) 2) (k_all k) -> In (S (2 * S (x + 2)), wonly_def (bx_ts x) (axiom (pos (5 + x))) 2) (k_all k) ->
  chain k (by_e x 2) (bx_ts x) 1 [pos (4 + x); pos (5 + x)].
Proof.
  intros k x Hx I1 I2 I3 I4. replace (4 + x) with (3 + x + 1) in * by lia. replace (5 + x) with (3 + x + 2) in * by lia.
  split; [apply by_has; try assumption; lia|]. split; [intros _; cbn; lia|]. split; [apply by_has; try assumption; cbn; lia|]. split; [intros X; contradiction|exact Logic.I].
Qed.
(** the solver derives x5 and x6 as cores: x0 + x1 < 2 and x2 + x3 < 1 are not possible; linear search certifies the two bounds *)
Definition by_core0 : step := SRup (lb_clause (map axiom [pos 5])) [CAbs 1; CAbs 2; CAbs 6].
Definition by_core1 : step := SRup (lb_clause (map axiom [pos 6])) [CAbs 3; CAbs 8].
Definition by_p1 : pst := snd (wr_id by_core0 (by_outs 4)).
Definition by_q1 : option (nat * pst) := linsu_certify (by_e 0 2) 2 (bx_o 0 0) [] 2 [pos 5] 12 by_p1.
Definition by_p2 : pst := match by_q1 with Some (_, p) => p | None => by_p1 end.
Definition by_p3 : pst := snd (wr_id by_core1 by_p2).
Definition by_q2 : option (nat * pst) := linsu_certify (by_e 2 2) 2 (bx_o 2 1) [] 1 [pos 6] (ps_next by_p2) by_p3.
Definition by_p4 : pst := match by_q2 with Some (_, p) => p | None => by_p1 end.
Definition by_a : assignment := [Some true; Some true; Some true; Some false].
Definition by_q3 := certify_pmin_cut (for_sol (by_cs 4) by_a) by_a 3 by_p4.
Definition by_p5 : pst := match by_q3 with Some (_, p) => p | None => by_p1 end.
Definition by_s0 : brst := mkBr (mkRst (by_cs 4) 8 by_p1 [] []) (mkBst None None) 0 None None None None.
Definition by_s1 : brst := mkBr (mkRst (by_cs 4) 8 by_p2 [] []) (mkBst None None) 0 None (Some (2, pos 5, 12)) None None.
Definition by_s2 : brst := mkBr (mkRst (by_cs 4) 8 by_p3 [] []) (mkBst None None) 0 None (Some (2, pos 5, 12)) None None.
Definition by_s3 : brst := mkBr (mkRst (by_cs 4) 8 by_p4 [] []) (mkBst None None) 0 None (Some (2, pos 5, 12)) (Some ([], 1, pos 6, 13)) None.
Lemma by_run : bos_run by_k 3 (inst_sol 3 by_cls) by_start by_s3.
Proof.
  apply (br_more _ _ _ _ by_s2); [apply (br_more _ _ _ _ by_s1); [apply (br_more _ _ _ _ by_s0); [apply (br_more _ _ _ _ (by_state (by_cs 4) 8 (by_outs 4)))|]|]|].
  - exact (proj1 (bos_with_run _ _ _ _ _ _ (by_runs (fun _ => True) 4 (fun _ _ => Logic.I) (le_n 4)))).
  - apply be_step; [|reflexivity]. apply (ev_derive by_k 3 (inst_sol 3 by_cls) (by_cs 4) 8 (by_outs 4) [] [] by_core0 false).
    + exact Logic.I.
    + exists [clause_pb [pos 0]; clause_pb [pos 1]; wif_def (bx_ts 0) (axiom (pos 5)) 2]. split; [vm_compute; reflexivity|]. apply (rup_two _ _ [axiom (pos 0); axiom (pos 1)]).
      * intros m [<-|[<-|[]]]; [exists (clause_pb [pos 0])|exists (clause_pb [pos 1])]; (split; [cbn; tauto|]); intros a _ H; apply lb_clause_holds in H; destruct H as (l & [<-|[]] & H); exact H.
      * exists (wif_def (bx_ts 0) (axiom (pos 5)) 2). split; [cbn; tauto|]. intros a Ha Hm H. pose proof (Ha _ (or_introl eq_refl)) as A. pose proof (Hm _ (or_introl eq_refl)) as B. pose proof (Hm _ (or_intror (or_introl eq_refl))) as C.
        unfold lb_holds in H. cbn in H. unfold ax_true in *. cbn in *. destruct (a (PVs 0)), (a (PVs 1)), (a (PVs 5)); try discriminate. cbn in H. lia.
    + intros v Hv. vm_compute in Hv. destruct Hv as [<-|[]]; lia.
  - apply (be_inc by_k 3 (inst_sol 3 by_cls) (by_c 0 0 2) (by_c 2 1 2) 8 by_p1 [] [] (mkBst None None) 0 None None None 2 2 (pos 5) [pos 5] 12 12 by_p2); [|vm_compute; reflexivity|intros []].
    constructor; [reflexivity|constructor|intros b []|].
    exists (bx_ts 0), [], [], [pos 5]. split; [apply bx_wf|]. split; [split; [apply (by_has _ 0 2); [tauto|lia|vm_compute; tauto|vm_compute; tauto]|split; [intros X; contradiction X; reflexivity|exact Logic.I]]|].
    split; [repeat constructor; cbn; intuition discriminate|]. split; [intros o [<-|[]]; cbn; lia|]. split; [intros b []|].
    split; [cbn; lia|]. split; [reflexivity|]. split; [apply subl_nil|]. split; [apply subl_take; apply subl_nil|]. split; [discriminate|]. split; [reflexivity|].
    exists (lb_clause (map axiom [pos 5])). split; [vm_compute; tauto|]. apply clause_proper. repeat constructor; cbn; intuition discriminate.
  - apply be_step; [|reflexivity]. apply (ev_derive by_k 3 (inst_sol 3 by_cls) (by_cs 4) 8 by_p2 [] [] by_core1 false).
    + exact Logic.I.
    + exists [clause_pb [pos 2; pos 3]; wif_def (bx_ts 2) (axiom (pos 6)) 1]. split; [vm_compute; reflexivity|]. apply (rup_two _ _ [axiom (neg 2); axiom (neg 3)]).
      * intros m [<-|[<-|[]]]; exists (wif_def (bx_ts 2) (axiom (pos 6)) 1); (split; [cbn; tauto|]); intros a Ha H; pose proof (Ha _ (or_introl eq_refl)) as A;
          unfold lb_holds in H; cbn in H; unfold ax_true in *; cbn in *; destruct (a (PVs 2)), (a (PVs 3)), (a (PVs 6)); try discriminate; try reflexivity; cbn in H; lia.
      * exists (clause_pb [pos 2; pos 3]). split; [cbn; tauto|]. intros a _ Hm H. pose proof (Hm _ (or_introl eq_refl)) as B. pose proof (Hm _ (or_intror (or_introl eq_refl))) as C.
        unfold lb_holds in H. cbn in H. unfold ax_true in *. cbn in *. destruct (a (PVs 2)), (a (PVs 3)); try discriminate. cbn in H. lia.
    + intros v Hv. vm_compute in Hv. destruct Hv as [<-|[]]; lia.
  - apply (be_dec by_k 3 (inst_sol 3 by_cls) (by_c 0 0 2) (by_c 2 1 2) 8 by_p3 [] [] (mkBst None None) 0 None (Some (2, pos 5, 12)) None 2 [] 1 (pos 6) [pos 6] 13 13 by_p4); [|vm_compute; reflexivity|intros []].
    constructor; [reflexivity|constructor|intros b []|].
    exists (bx_ts 2), [pos 7], [], [pos 6]. split; [apply bx_wf|]. split; [apply (by_chain _ 2); [tauto|vm_compute; tauto|vm_compute; tauto|vm_compute; tauto|vm_compute; tauto]|].
    split; [repeat constructor; cbn; intuition discriminate|]. split; [intros o [<-|[<-|[]]]; cbn; lia|]. split; [intros b []|].
    split; [cbn; lia|]. split; [reflexivity|]. split; [apply subl_nil|]. split; [apply subl_take; apply subl_nil|]. split; [discriminate|]. split; [reflexivity|].
    exists (lb_clause (map axiom [pos 6])). split; [vm_compute; tauto|]. apply clause_proper. repeat constructor; cbn; intuition discriminate.
Qed.
(** An increasing objective at its maximum: the outputs of the encoding end there, so that the output above the cost that is asked for
    (bioptsat.rs 514-517, types.rs 596-608) does not exist and the algorithm panics, although the bound and the cut of the solution are
    certified and the assumptions for the bound are empty. The solution has the only Pareto-optimal point of the instance. *)
Theorem C71_maximum_refuted : exists n cls rs cs c0 c1 nv p x inc_id y lb_id b pmin p1,
  let k0 := init_chk cls (build_objs 0 rs) in
  inst_vars n cls rs /\ map co_obj cs = build_objs 0 rs /\ (forall c b, In c cs -> pe_extend (co_enc c) b = []) /\ enc_fine (k_all k0) cs /\
  bos_run k0 n (inst_sol n cls) (bos_start (start_run n cls cs) 0)
    (mkBr (mkRst [c0; c1] nv p [] []) (mkBst None None) 0 None (Some (2, x, inc_id)) (Some ([], 1, y, lb_id)) None) /\
  several c0 /\ several c1 /\ pe_enforce_ub (co_enc c0) 2 = Some [] /\
  inst_sol n cls b /\ costs rs (asg_of b) = [2%Z; 1%Z] /\ pareto_optimal cls rs [2%Z; 1%Z] /\
  certify_pmin_cut (for_sol [c0; c1] b) b n p = Some (pmin, p1) /\
  bos_step (co_enc c0) (co_enc c1) (co_obj c1) 2 1 0 (Some inc_id) (Some lb_id) [] pmin (mkBst None None) p1 = None.
Proof.
  exists 3, by_cls, bx_rs, (by_cs 0), (by_c 0 0 2), (by_c 2 1 2), 8, by_p4, (pos 5), 12, (pos 6), 13, by_a, 16, by_p5. intros k0.
  assert (S : inst_sol 3 by_cls by_a) by (split; [split; [reflexivity|]; intros x [<-|[<-|[<-|[<-|[]]]]]; discriminate|intros c [<-|[<-|[<-|[]]]]; reflexivity]).
  split; [exact by_inst|]. split; [reflexivity|]. split; [intros c b [<-|[<-|[]]]; reflexivity|]. split; [apply by_fine; [lia|intros v Hv; lia]|].
  split; [exact by_run|]. split; [split; [|split]; cbn; [discriminate|discriminate|reflexivity]|]. split; [split; [|split]; cbn; [discriminate|discriminate|reflexivity]|].
  split; [reflexivity|]. split; [exact S|]. split; [vm_compute; reflexivity|]. split; [|split; vm_compute; reflexivity].
  split; [exists (asg_of by_a); split; [exact (proj2 S)|vm_compute; reflexivity]|]. intros a Ha (Hw & Hne). apply Hne.
  pose proof (Ha [pos 0] ltac:(cbn; tauto)) as A. pose proof (Ha [pos 1] ltac:(cbn; tauto)) as B. pose proof (Ha [pos 2; pos 3] ltac:(cbn; tauto)) as C.
  unfold weakly_dominates in Hw. cbn in *. unfold lit_true in *. cbn in *. destruct (a 0), (a 1), (a 2), (a 3); try discriminate; cbn in *; try reflexivity.
  inversion Hw as [|? ? ? ? _ Hw2]; subst. inversion Hw2; subst. lia.
Qed.
Print Assumptions C71_maximum_refuted.
