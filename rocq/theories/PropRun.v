(** * C70: the proof of a whole run of P-Minimal *)
From Coq Require Import List Arith ZArith Lia Bool.
From Verif Require Import Spec ApiSpec Base BaseLemmas Sem Ext Blk ApiTop MTypes MPMinimal MPrepro ReindexThm VeriPB VeriThm MProofs ProofThm ProofRun ProofCut MTracer TracerThm ReformSpec ReformThm ReformRun MProofAlg ReifSpec ReifThm ReifRun ProofCert ProofFin LinsuCert BlockSpec BlockThm PropProof PropReif RunSpec RunThm RunSol.
Import ListNotations.
Local Open Scope nat_scope.

(** The run starts with the header of the proof, encodings without outputs, and no blocked candidate. After any number of
    events - lines derived or deleted by the solver, new outputs of encodings, blocked candidates - the proof is accepted,
    the excluded solutions are the blocked candidates, and every clause handed to the solver is or was a constraint of the proof. *)
Theorem C70_run_accepted : forall n cls rs cs r, inst_vars n cls rs -> map co_obj cs = build_objs 0 rs ->
  (forall c b, In c cs -> pe_extend (co_enc c) b = []) -> enc_fine (k_all (init_chk cls (build_objs 0 rs))) cs ->
  let k0 := init_chk cls (build_objs 0 rs) in
  runs k0 n (inst_sol n cls) (start_run n cls cs) r ->
  steps_valid k0 (ps_log (r_p r)) /\
  k_excl (kof k0 (r_p r)) = map (fun b => map axiom (sol_lits b)) (r_done r) /\
  (forall b, In b (r_done r) -> inst_sol n cls b) /\
  (forall c id, In (c, id) (ps_reg (r_p r)) -> was_clause k0 (r_p r) c id).
Proof.
  intros n cls rs cs r Hv Eo Ex Hf k0 H. pose proof (runs_ok k0 n _ _ _ (fun b Hb => proj1 Hb) (start_ok n cls rs cs Hv Eo Ex Hf) H) as R.
  split; [exact (wk_valid _ _ (ro_wok _ _ _ _ R))|]. split; [exact (ro_excl _ _ _ _ R)|]. split; [|exact (ro_reg _ _ _ _ R)].
  intros b Hb. destruct (runs_done _ _ _ _ _ H) as (_ & D). destruct (D b Hb) as [[]|X]. exact X.
Qed.
Print Assumptions C70_run_accepted.

(** A solution that no blocked candidate weakly dominates is still there: it can be extended to the variables of the encodings
    and of the proof such that all constraints of the proof hold. So no clause the solver has been given excludes it. *)
Theorem C70_run_keeps : forall n cls rs cs r b, inst_vars n cls rs -> map co_obj cs = build_objs 0 rs ->
  (forall c b, In c cs -> pe_extend (co_enc c) b = []) -> enc_fine (k_all (init_chk cls (build_objs 0 rs))) cs ->
  let k0 := init_chk cls (build_objs 0 rs) in
  runs k0 n (inst_sol n cls) (start_run n cls cs) r -> inst_sol n cls b ->
  (forall d, In d (r_done r) -> ~ vle (ic (build_objs 0 rs) (asg_of d)) (ic (build_objs 0 rs) (asg_of b))) ->
  exists a, proof_holds a (kof k0 (r_p r)) /\ forall x, x <= n -> a (PVs x) = asg_of b x.
Proof.
  intros n cls rs cs r b Hv Eo Ex Hf k0 H Hb Hd. pose proof (runs_ok k0 n _ _ _ (fun b Hb => proj1 Hb) (start_ok n cls rs cs Hv Eo Ex Hf) H) as R.
  apply (run_extends k0 n (inst_sol n cls) r b (fun b Hb => proj1 Hb) R Hb). intros d Hin.
  destruct (better_dec (r_cs r) b d) as [X|X]; [exact X|]. exfalso. apply (Hd d Hin). unfold vle, ic.
  destruct (runs_done _ _ _ _ _ H) as (E & _). cbn [start_run r_cs] in E. rewrite <- Eo, <- E, !map_map. clear -X. induction (r_cs r) as [|c l IH]; [constructor|].
  cbn [map]. constructor; [exact (X c (or_introl eq_refl))|]. apply IH. intros c' Hc'. apply X. right. exact Hc'.
Qed.
Print Assumptions C70_run_keeps.

(** Such a solution can be blocked: the lines of the next candidate are written without a failure *)
Theorem C70_next_candidate : forall n cls rs cs r b w xs, inst_vars n cls rs -> map co_obj cs = build_objs 0 rs ->
  (forall c b, In c cs -> pe_extend (co_enc c) b = []) -> enc_fine (k_all (init_chk cls (build_objs 0 rs))) cs ->
  let k0 := init_chk cls (build_objs 0 rs) in
  runs k0 n (inst_sol n cls) (start_run n cls cs) r -> inst_sol n cls b -> (forall d, In d (r_done r) -> better (r_cs r) b d) ->
  truncate w n = b ->
  (forall f, fix_witness (map co_enc (for_sol (r_cs r) b)) (map co_cost (for_sol (r_cs r) b)) (ps_vmap (r_p r)) b = Some f ->
     exists f', fix_witness (map co_enc (for_sol (r_cs r) b)) (map co_cost (for_sol (r_cs r) b)) (ps_vmap (r_p r)) w = Some f' /\ forall l, In l f' <-> In l f) ->
  map fst xs = for_sol (r_cs r) b ->
  (forall x, In x xs -> bound_pre (kof k0 (r_p r)) (r_nv r) (fst x) /\ (snd x = true -> co_cost (fst x) <= obj_lb (co_obj (fst x)))) ->
  (forall c, In c (for_sol (r_cs r) b) -> co_cost c <= obj_lb (co_obj c) -> co_reform c <> None -> obj_unit_weight (co_obj c) = 1) ->
  exists cl nv' p', block_candidate (map as_bobj xs) (for_sol (r_cs r) b) w n (r_nv r) (r_p r) = Some (cl, nv', p') /\
    runs k0 n (inst_sol n cls) (start_run n cls cs) (mkRst (r_cs r) nv' p' (pred (ps_next p') :: r_del r) (b :: r_done r)) /\
    (forall a, proof_holds a (kof k0 p') -> ~ ax_all a (map axiom (sol_lits b))).
Proof.
  intros n cls rs cs r b w xs Hv Eo Ex Hf k0 H Hb Hd Tw Hw Exs Hpre Huw. pose proof (runs_ok k0 n _ _ _ (fun b Hb => proj1 Hb) (start_ok n cls rs cs Hv Eo Ex Hf) H) as R.
  destruct (ro_sols _ _ _ _ R b Hb Hd) as (f & La). destruct (Hw f (rd_fix _ _ _ _ _ _ _ (la_ready _ _ _ _ _ _ _ _ La))) as (f' & Ef & Hff).
  pose proof (lasting_ready k0 _ _ b w n _ _ f f' La (total_trunc n b (proj1 Hb)) Tw Ef Hff) as Rw.
  destruct (block_ok k0 _ w n (for_sol_idx _ b (ro_idx _ _ _ _ R)) xs _ _ f' Exs Rw Hpre Huw) as (cl & nv' & p' & E & _ & _ & _ & _ & _ & _ & _ & _ & _ & Hno & _).
  exists cl, nv', p'. split; [exact E|]. split.
  - apply (runs_step _ _ _ _ r); [exact H|]. destruct r as [rcs rnv rp rL rd]. cbn [r_cs r_nv r_p r_del r_done] in *. exact (ev_block k0 n _ rcs rnv rp rL rd b w xs cl nv' p' Hb Hd Tw Hw Exs Hpre Huw E).
  - rewrite Tw in Hno. exact Hno.
Qed.
Print Assumptions C70_next_candidate.

(** The next solution of the solver is such a solution: if it satisfies the clauses of the instance and the clauses handed to the
    solver, and the assumptions of the encodings enforce their bounds under it, it is better than every blocked candidate in some
    objective *)
Theorem C70_solution_new : forall n cls rs cs r w, inst_vars n cls rs -> map co_obj cs = build_objs 0 rs ->
  let k0 := init_chk cls (build_objs 0 rs) in
  runs_with k0 n (inst_sol n cls) (enforces (asg_of w)) (start_run n cls cs) r ->
  total_to n (truncate w n) -> sat (asg_of w) cls -> models_handed (asg_of w) (r_p r) ->
  inst_sol n cls (truncate w n) /\ forall d, In d (r_done r) -> better (r_cs r) (truncate w n) d.
Proof.
  intros n cls rs cs r w Hv Eo k0 H Ht Hs Hm.
  assert (Ev : forall x, x <= n -> asg_of w x = asg_of (truncate w n) x).
  { intros x Hx. unfold asg_of, truncate, var_value. rewrite firstn_nth_error by lia. reflexivity. }
  split; [split; [exact Ht|]; exact (sat_ext cls n _ _ (proj1 Hv) Ev Hs)|]. intros d Hd.
  destruct (runs_new _ _ _ _ _ _ H eq_refl Hm d Hd) as (o & Ho & L). apply in_map_iff in Ho. destruct Ho as (c & <- & Hc). exists c. split; [exact Hc|].
  replace (icost (co_obj c) (asg_of (truncate w n))) with (icost (co_obj c) (asg_of w)); [exact L|]. apply wsum_ext. intros [l x] Hl. cbn [fst]. unfold lit_true. rewrite (Ev (lvar l)); [reflexivity|].
  destruct (runs_done _ _ _ _ _ (proj1 (runs_with_runs _ _ _ _ _ _ H))) as (E & _). cbn [start_run r_cs] in E.
  destruct (build_lits rs 0 (co_obj c) l x) as (q & y & Hq & Hy); [rewrite <- Eo, <- E; apply in_map; exact Hc|exact Hl|]. exact (proj2 Hv q l y Hq Hy).
Qed.
Print Assumptions C70_solution_new.

(** When the solver has derived the contradiction, every Pareto-optimal point is the cost of a blocked candidate *)
Theorem C70_run_complete : forall n cls rs cs r, Forall obj_ok rs -> inst_vars n cls rs -> map co_obj cs = build_objs 0 rs ->
  (forall c b, In c cs -> pe_extend (co_enc c) b = []) -> enc_fine (k_all (init_chk cls (build_objs 0 rs))) cs ->
  let k0 := init_chk cls (build_objs 0 rs) in
  runs k0 n (inst_sol n cls) (start_run n cls cs) r -> (exists e, In e (k_all (kof k0 (r_p r))) /\ contradictory (snd e)) ->
  (forall a, sat a cls -> exists d, In d (r_done r) /\ sat (asg_of d) cls /\ weakly_dominates (costs rs (asg_of d)) (costs rs a)) /\
  (forall c, pareto_optimal cls rs c -> exists d, In d (r_done r) /\ costs rs (asg_of d) = c).
Proof.
  intros n cls rs cs r Hok Hv Eo Ex Hf k0 H (e & He & Hc). pose proof (runs_ok k0 n _ _ _ (fun b Hb => proj1 Hb) (start_ok n cls rs cs Hv Eo Ex Hf) H) as R.
  destruct (runs_done _ _ _ _ _ H) as (E & D). cbn [start_run r_cs r_done] in E, D.
  assert (Q : forall a, sat a cls -> exists d, In d (r_done r) /\ sat (asg_of d) cls /\ weakly_dominates (costs rs (asg_of d)) (costs rs a)).
  { intros a Ha. set (b := as_sol n a).
    assert (Hb : inst_sol n cls b).
    { split; [apply as_sol_total|]. apply (sat_ext cls n a); [exact (proj1 Hv)| |exact Ha]. intros x Hx. symmetry. apply as_sol_val. exact Hx. }
    destruct (done_dec (r_cs r) b (r_done r)) as [X|(d & Hd & X)].
    - exfalso. destruct (run_extends k0 n (inst_sol n cls) r b (fun b Hb => proj1 Hb) R Hb X) as (x & Hx & _). apply (Hc x); [intros l []|exact (Hx e He)].
    - exists d. split; [exact Hd|]. destruct (D d Hd) as [[]|(_ & Hs)]. split; [exact Hs|].
      assert (Ecost : costs rs a = costs rs (asg_of b)).
      { unfold costs. apply map_ext_in. intros o Ho. unfold obj_value. f_equal. f_equal. apply wsum_ext. intros [l w] Hl. cbn [fst]. unfold lit_true.
        rewrite <- (as_sol_val n a (lvar l)); [reflexivity|]. exact (proj2 Hv o l w Ho Hl). }
      rewrite Ecost. apply (ic_le rs Hok 0). unfold vle, ic. rewrite <- Eo, <- E, !map_map. clear -X. induction (r_cs r) as [|c l IH]; [constructor|].
      cbn [map]. constructor; [exact (X c (or_introl eq_refl))|]. apply IH. intros c' Hc'. apply X. right. exact Hc'. }
  split; [exact Q|]. intros c ((a & Ha & Ea) & Hopt). destruct (Q a Ha) as (d & Hd & Hs & Hw). exists d. split; [exact Hd|]. rewrite Ea in Hw.
  destruct (list_eq_dec Z.eq_dec (costs rs (asg_of d)) c) as [X|X]; [exact X|]. exfalso. apply (Hopt (asg_of d) Hs). split; assumption.
Qed.
Print Assumptions C70_run_complete.

(** ** Example: minimise 2*x0 + x2 and x1 subject to x0 or x1
    The encoding of the first objective defines x3 (at least 1), x4 (at least 2) and x5 (at least 3). Two candidates are blocked,
    the costs of the first are (2, 0), those of the second (0, 1), and the solver derives the contradiction. *)
Definition rn_ts : list (Z * ax pv) := [(2%Z, axiom (pos 0)); (1%Z, axiom (pos 2))].
Definition rn_e (m : nat) : penc := mkPenc 0 m true (fun b => if (b =? 1) && (m =? 3) then Some [neg 4; neg 5] else None)
  (fun v => if (1 <=? v) && (v <=? m) then Some (pos (2 + v), (Some (2 * v), Some (S (2 * v)))) else None) S
  (fun b => map (fun v => mkLit (2 + v) (negb (v <=? wsum (asg_of b) [(pos 0, 2); (pos 2, 1)]))) (seq 1 m)).
Definition rn_e2 : penc := mkPenc 0 1 true (fun b => if b =? 0 then Some [neg 1] else None) (fun _ => None) S (fun _ => []).
Definition rn_cs (m : nat) : list cobj := [mkCobj (rn_e m) ex_o1 None 0; mkCobj rn_e2 ex_o2 None 0].
Lemma rn_fine : forall es m, m <= 3 -> (forall v, 1 <= v <= m -> In (2 * v, wif_def rn_ts (axiom (pos (2 + v))) (Z.of_nat v)) es /\ In (S (2 * v), wonly_def rn_ts (axiom (pos (2 + v))) (Z.of_nat v)) es) ->
  enc_fine es (rn_cs m).
Proof.
  intros es m Hm Hes. split.
  - constructor; [|constructor; [|constructor]].
    + exists (obj_terms ex_o1). constructor; cbn [co_reform co_enc co_obj co_cost rn_e pe_buf_empty pe_nout pe_details pe_enforce_ub pe_offset].
      * split; reflexivity.
      * intros t Ht. apply in_map_iff in Ht. destruct Ht as (lw & <- & _). cbn [fst]. lia.
      * reflexivity.
      * intros _ v olit i d H. destruct (Nat.leb_spec 1 v) as [V1|]; [|discriminate]. destruct (Nat.leb_spec v m) as [V2|]; [|discriminate]. cbn [andb] in H. injection H as <- <- <-.
        destruct (Hes v (conj V1 V2)) as (_ & I2). eexists. split; [exact I2|]. assert (v = 1 \/ v = 2 \/ v = 3) as [-> | [-> | ->]] by lia;
          intros a; cbn; unfold lb_val, ax_true; cbn; destruct (a (PVs 0)), (a (PVs 2)), (a (PVs 3)), (a (PVs 4)), (a (PVs 5)); reflexivity.
      * intros _ _ l ls H. discriminate.
    + exists (obj_terms ex_o2). constructor; try (cbn; intros; discriminate).
      * split; reflexivity.
      * intros t Ht. apply in_map_iff in Ht. destruct Ht as (lw & <- & _). cbn [fst]. lia.
      * intros H. exfalso. apply H. reflexivity.
  - intros c [<-|[<-|[]]] a Ha Hlt; cbn [co_enc co_obj rn_e rn_e2 pe_nout pe_enforce_ub pe_offset pe_details pe_buf_empty] in *.
    + split; [intros x xs _ H; discriminate|]. intros olit i _ H. set (v := icost ex_o1 (on_solver a)) in *.
      destruct (Nat.leb_spec 1 v) as [V1|]; [|discriminate]. destruct (Nat.leb_spec v m) as [V2|]; [|discriminate]. cbn [andb] in H. injection H as <- <-.
      destruct (Hes v (conj V1 V2)) as (I1 & _). apply Ha in I1. cbn [snd] in I1. assert (Ev : v = icost ex_o1 (on_solver a)) by reflexivity.
      assert (v = 1 \/ v = 2 \/ v = 3) as V3 by lia. destruct V3 as [V3|[V3|V3]]; rewrite V3 in *; unfold lb_holds in I1; cbn in I1, Ev; unfold lit_true, on_solver in Ev; cbn in Ev; unfold ax_true in *; cbn in *;
        destruct (a (PVs 0)), (a (PVs 2)), (a (PVs 3)), (a (PVs 4)), (a (PVs 5)); cbn in *; try reflexivity; try lia.
    + split; [|intros olit i _ H; discriminate]. intros x xs _ H. injection H as <- <-. cbn in Hlt. unfold lit_true, on_solver in Hlt. cbn in Hlt. unfold ax_true. cbn. destruct (a (PVs 1)); [reflexivity|cbn in Hlt; lia].
Qed.
Definition rn_k := init_chk ex_cls (build_objs 0 ex_rs).
Definition rn_start := start_run 2 ex_cls (rn_cs 0).
Lemma rn_inst : inst_vars 2 ex_cls ex_rs.
Proof.
  split.
  - intros c l [<-|[]] [<-|[<-|[]]]; cbn; lia.
  - intros r l w [<-|[<-|[]]] Hl; cbn in Hl; decompose [or] Hl; try contradiction; match goal with H : _ = (l, w) |- _ => injection H as <- _; cbn; lia end.
Qed.
(** the state after [m] outputs *)
Definition rn_out (v : nat) (p : pst) : pst :=
  snd (wr_id (SRed (wonly_def rn_ts (mkAx (PVs (2 + v)) false) (Z.of_nat v)) [(PVs (2 + v), false)] [])
    (snd (wr_id (SRed (wif_def rn_ts (mkAx (PVs (2 + v)) false) (Z.of_nat v)) [(PVs (2 + v), true)] []) p))).
Definition rn_p3 : pst := rn_out 3 (rn_out 2 (rn_out 1 (r_p rn_start))).
Definition rn_state3 : rst := mkRst (rn_cs 3) 6 rn_p3 [] [].
Lemma rn_wf : w_wf rn_ts.
Proof. split; [repeat constructor; cbn; intuition discriminate|intros t [<-|[<-|[]]]; cbn; lia]. Qed.
Lemma rn_ext : forall m b x, m < 3 -> inst_sol 2 ex_cls b ->
  ext_value (rn_cs (S m)) b x = if x =? 3 + m then Some (Z.of_nat (S m) <=? ts_value (rn_cs m) b rn_ts)%Z else ext_value (rn_cs m) b x.
Proof.
  intros m b x Hm ((L & T) & _). destruct b as [|t0 [|t1 [|t2 [|]]]]; try discriminate. clear L.
  destruct t0 as [t0|]; [|exfalso; exact (T None (or_introl eq_refl) eq_refl)]. destruct t1 as [t1|]; [|exfalso; exact (T None (or_intror (or_introl eq_refl)) eq_refl)].
  destruct t2 as [t2|]; [|exfalso; exact (T None (or_intror (or_intror (or_introl eq_refl))) eq_refl)].
  assert (m = 0 \/ m = 1 \/ m = 2) as [-> | [-> | ->]] by lia; destruct t0, t1, t2; do 7 (try (destruct x as [|x]; [vm_compute; reflexivity|])); vm_compute; destruct x; reflexivity.
Qed.
Lemma rn_out_step : forall m p, ps_vmap p = [] -> m < 3 -> (forall v, 1 <= v <= S m -> In (2 * v, wif_def rn_ts (axiom (pos (2 + v))) (Z.of_nat v)) (k_all (kof rn_k (rn_out (S m) p))) /\
    In (S (2 * v), wonly_def rn_ts (axiom (pos (2 + v))) (Z.of_nat v)) (k_all (kof rn_k (rn_out (S m) p)))) ->
  run_step rn_k 2 (inst_sol 2 ex_cls) (mkRst (rn_cs m) (3 + m) p [] []) (mkRst (rn_cs (S m)) (3 + S m) (rn_out (S m) p) [] []).
Proof.
  intros m p Ep Hm Hf. replace (3 + S m) with (S (3 + m)) by lia. apply (ev_output rn_k 2 (inst_sol 2 ex_cls) (rn_cs m) (rn_cs (S m)) (3 + m) p [] [] rn_ts (Z.of_nat (S m))).
  - exact rn_wf.
  - change (wtot rn_ts) with 3%Z. lia.
  - intros t [<-|[<-|[]]]; eexists; (split; [reflexivity|]); apply (inst_summand 2); try (cbn; lia); [intros b Hb; exact (proj1 Hb)|rewrite Ep; intros []|intros b Hb; exact (proj1 Hb)|rewrite Ep; intros []].
  - reflexivity.
  - intros b x Hb. apply rn_ext; assumption.
  - rewrite rm_nil. apply rn_fine; [lia|exact Hf].
Qed.
Lemma rn_runs3 : forall Q : list cobj -> Prop, (forall m, m <= 3 -> Q (rn_cs m)) -> runs_with rn_k 2 (inst_sol 2 ex_cls) Q rn_start rn_state3.
Proof.
  intros Q HQ. apply (rw_step _ _ _ _ _ (mkRst (rn_cs 2) 5 (rn_out 2 (rn_out 1 (r_p rn_start))) [] [])); [|apply (rn_out_step 2); [reflexivity|lia|]|apply (HQ 3); lia].
  - apply (rw_step _ _ _ _ _ (mkRst (rn_cs 1) 4 (rn_out 1 (r_p rn_start)) [] [])); [|apply (rn_out_step 1); [reflexivity|lia|]|apply (HQ 2); lia].
    + apply (rw_step _ _ _ _ _ rn_start); [apply rw_refl; apply (HQ 0); lia|apply (rn_out_step 0); [reflexivity|lia|]|apply (HQ 1); lia]. intros v Hv. replace v with 1 by lia. vm_compute. tauto.
    + intros v Hv. assert (v = 1 \/ v = 2) as [-> | ->] by lia; vm_compute; tauto.
  - intros v Hv. assert (v = 1 \/ v = 2 \/ v = 3) as [-> | [-> | ->]] by lia; vm_compute; tauto.
Qed.
Definition rn_a : assignment := [Some true; Some false; Some false].
Definition rn_b : assignment := [Some false; Some true; Some false].
Definition rn_blocked (b : assignment) (nv : nat) (p : pst) : option (clause * nat * pst) :=
  block_candidate (map as_bobj (map (fun c => (c, false)) (for_sol (rn_cs 3) b))) (for_sol (rn_cs 3) b) b 2 nv p.
Definition rn_pa : pst := match rn_blocked rn_a 6 rn_p3 with Some (_, _, p) => p | None => rn_p3 end.
Definition rn_pb : pst := match rn_blocked rn_b 7 rn_pa with Some (_, _, p) => p | None => rn_p3 end.
Example rn_clause_a : block_candidate (map as_bobj (map (fun c => (c, false)) (for_sol (rn_cs 3) rn_a))) (for_sol (rn_cs 3) rn_a) rn_a 2 6 rn_p3 = Some ([pos 6], 7, rn_pa). Proof. vm_compute. reflexivity. Qed.
Example rn_clause_b : block_candidate (map as_bobj (map (fun c => (c, false)) (for_sol (rn_cs 3) rn_b))) (for_sol (rn_cs 3) rn_b) rn_b 2 7 rn_pa = Some ([neg 1], 7, rn_pb). Proof. vm_compute. reflexivity. Qed.
Lemma rn_sol_a : inst_sol 2 ex_cls rn_a.
Proof. split; [split; [reflexivity|]; intros x [<-|[<-|[<-|[]]]]; discriminate|intros c [<-|[]]; reflexivity]. Qed.
Lemma rn_sol_b : inst_sol 2 ex_cls rn_b.
Proof. split; [split; [reflexivity|]; intros x [<-|[<-|[<-|[]]]]; discriminate|intros c [<-|[]]; reflexivity]. Qed.
Lemma rn_has : forall k v, 1 <= v <= 3 -> In (2 * v, wif_def rn_ts (axiom (pos (2 + v))) (Z.of_nat v)) (k_all k) -> In (S (2 * v), wonly_def rn_ts (axiom (pos (2 + v))) (Z.of_nat v)) (k_all k) ->
  has_out k (rn_e 3) rn_ts v (pos (2 + v)).
Proof.
  intros k v Hv I1 I2. assert (N : ~ In (PVs (lvar (pos (2 + v)))) (map ax_var (map snd rn_ts))).
  { intros [X|[X|[]]]; cbn in X; injection X as X; lia. }
  assert (E : (Z.of_nat v - Z.of_nat (pe_offset (rn_e 3)) = Z.of_nat v)%Z) by (cbn [rn_e pe_offset]; lia).
  exists (2 * v), (S (2 * v)). constructor; [|cbn [rn_e pe_offset]; lia|rewrite E; change (wtot rn_ts) with 3%Z; lia|exact N| |]; rewrite ?E.
  - assert (v = 1 \/ v = 2 \/ v = 3) as [-> | [-> | ->]] by lia; reflexivity.
  - eexists. split; [exact I1|]. apply wif_concrete; [apply rn_wf|change (wtot rn_ts) with 3%Z; lia|exact N].
  - eexists. split; [exact I2|]. apply wonly_concrete; [apply rn_wf|lia|exact N].
Qed.
Definition rn_state_a : rst := mkRst (rn_cs 3) 7 rn_pa [pred (ps_next rn_pa)] [rn_a].
Definition rn_state_b : rst := mkRst (rn_cs 3) 7 rn_pb [pred (ps_next rn_pb); pred (ps_next rn_pa)] [rn_b; rn_a].
Lemma rn_step_a : run_step rn_k 2 (inst_sol 2 ex_cls) rn_state3 rn_state_a.
Proof.
  apply (ev_block rn_k 2 (inst_sol 2 ex_cls) (rn_cs 3) 6 rn_p3 [] [] rn_a rn_a (map (fun c => (c, false)) (for_sol (rn_cs 3) rn_a)) [pos 6] 7 rn_pa).
  - exact rn_sol_a.
  - intros d [].
  - reflexivity.
  - intros f Hf. exists f. split; [exact Hf|]. intros l. reflexivity.
  - reflexivity.
  - intros x [<-|[<-|[]]]; (split; [|discriminate]); cbn [fst].
    + split; [intros l w [H|[H|[]]]; injection H as <- _; cbn; lia|]. split; [reflexivity|]. split; [cbn; lia|]. intros _.
      exists [neg 4; neg 5]. split; [reflexivity|]. split; [intros a [<-|[<-|[]]]; cbn; lia|]. split; [discriminate|]. split; [discriminate|].
      exists rn_ts. split; [exact rn_wf|]. split; [|repeat constructor; cbn; intuition discriminate].
      split; [apply (rn_has _ 2); [lia|vm_compute; tauto|vm_compute; tauto]|]. split; [cbn; lia|]. split; [apply (rn_has _ 3); [lia|vm_compute; tauto|vm_compute; tauto]|exact Logic.I].
    + split; [intros l w [H|[]]; injection H as <- _; cbn; lia|]. split; [reflexivity|]. split; [cbn; lia|]. cbn. intros H. exfalso. revert H. vm_compute. lia.
  - intros c [<-|[<-|[]]]; cbn; congruence.
  - exact rn_clause_a.
Qed.
Lemma rn_step_b : run_step rn_k 2 (inst_sol 2 ex_cls) rn_state_a rn_state_b.
Proof.
  apply (ev_block rn_k 2 (inst_sol 2 ex_cls) (rn_cs 3) 7 rn_pa [pred (ps_next rn_pa)] [rn_a] rn_b rn_b (map (fun c => (c, false)) (for_sol (rn_cs 3) rn_b)) [neg 1] 7 rn_pb).
  - exact rn_sol_b.
  - intros d [<-|[]]. eexists. split; [left; reflexivity|]. vm_compute. lia.
  - reflexivity.
  - intros f Hf. exists f. split; [exact Hf|]. intros l. reflexivity.
  - reflexivity.
  - intros x [<-|[<-|[]]]; (split; [|discriminate]); cbn [fst].
    + split; [intros l w [H|[H|[]]]; injection H as <- _; cbn; lia|]. split; [reflexivity|]. split; [cbn; lia|]. intros H. exfalso. revert H. vm_compute. lia.
    + split; [intros l w [H|[]]; injection H as <- _; cbn; lia|]. split; [reflexivity|]. split; [cbn; lia|]. intros _.
      exists [neg 1]. split; [reflexivity|]. split; [intros a [<-|[]]; cbn; lia|]. left. exists (pos 1), 1. split; reflexivity.
  - intros c [<-|[<-|[]]]; cbn; congruence.
  - exact rn_clause_b.
Qed.
Lemma rn_runs_a : forall Q : list cobj -> Prop, (forall m, m <= 3 -> Q (rn_cs m)) -> runs_with rn_k 2 (inst_sol 2 ex_cls) Q rn_start rn_state_a.
Proof. intros Q HQ. apply (rw_step _ _ _ _ _ rn_state3 _ (rn_runs3 Q HQ) rn_step_a). apply (HQ 3). lia. Qed.
Lemma rn_runs_b : runs rn_k 2 (inst_sol 2 ex_cls) rn_start rn_state_b.
Proof. apply (runs_step _ _ _ _ rn_state_a); [|exact rn_step_b]. apply (proj1 (runs_with_runs _ _ _ _ _ _ (rn_runs_a (fun _ => True) (fun _ _ => Logic.I)))). Qed.
(** the solver finds the second candidate after the first has been blocked: x6 has to be true, so that x4 and x5 are false *)
Definition rn_w : assignment := [Some false; Some true; Some false; Some false; Some false; Some false; Some true].
Example C70_solution_example : inst_sol 2 ex_cls (truncate rn_w 2) /\ forall d, In d (r_done rn_state_a) -> better (r_cs rn_state_a) (truncate rn_w 2) d.
Proof.
  apply (C70_solution_new 2 ex_cls ex_rs (rn_cs 0) rn_state_a rn_w rn_inst eq_refl).
  - apply (rn_runs_a (enforces (asg_of rn_w))). intros m Hm c v as_ [<-|[<-|[]]] _ He Ht.
    + vm_compute. lia.
    + cbn [co_enc rn_e2 pe_enforce_ub] in He. destruct (v =? 0); [|discriminate]. injection He as <-. specialize (Ht _ (or_introl eq_refl)). discriminate.
  - exact (proj1 rn_sol_b).
  - intros c [<-|[]]. reflexivity.
  - intros c id H. vm_compute in H. decompose [or] H; try contradiction; match goal with H : (_, _) = (c, id) |- _ => injection H as <- _; reflexivity end.
Qed.
(** the solver derives the contradiction from the clause of the instance, the two blocking clauses, and the definitions of x6 and x4 *)
Definition rn_last : step := SRup (lb_clause []) [CAbs 1; CAbs 19; CAbs 15; CAbs 8; CAbs 4].
Definition rn_end : rst := mkRst (rn_cs 3) 7 (snd (wr_id rn_last rn_pb)) [ps_next rn_pb; pred (ps_next rn_pb); pred (ps_next rn_pa)] [rn_b; rn_a].
Lemma rn_runs : runs rn_k 2 (inst_sol 2 ex_cls) rn_start rn_end.
Proof.
  apply (runs_step _ _ _ _ rn_state_b _ rn_runs_b).
  apply (ev_derive rn_k 2 (inst_sol 2 ex_cls) (rn_cs 3) 7 rn_pb [pred (ps_next rn_pb); pred (ps_next rn_pa)] [rn_b; rn_a] rn_last true).
  - exact Logic.I.
  - exists [clause_pb [pos 0; pos 1]; clause_pb [neg 1]; clause_pb [pos 6]; clause_pb [neg 6; neg 4]; wif_def rn_ts (axiom (pos 4)) 2].
    split; [vm_compute; reflexivity|]. unfold rup.
    apply (up_step _ _ (clause_pb [neg 1]) (axiom (neg 1))); [cbn; tauto| |].
    { intros a _ H. apply lb_clause_holds in H. destruct H as (l & [<-|[]] & H). exact H. }
    apply (up_step _ _ (clause_pb [pos 0; pos 1]) (axiom (pos 0))); [cbn; tauto| |].
    { intros a H1 H. apply lb_clause_holds in H. destruct H as (l & [<-|[<-|[]]] & H); [exact H|].
      specialize (H1 _ (or_introl eq_refl)). cbn in *. unfold ax_true in *. cbn in *. destruct (a (PVs 1)); discriminate. }
    apply (up_step _ _ (clause_pb [pos 6]) (axiom (pos 6))); [cbn; tauto| |].
    { intros a _ H. apply lb_clause_holds in H. destruct H as (l & [<-|[]] & H). exact H. }
    apply (up_step _ _ (clause_pb [neg 6; neg 4]) (axiom (neg 4))); [cbn; tauto| |].
    { intros a H1 H. apply lb_clause_holds in H. destruct H as (l & [<-|[<-|[]]] & H); [|exact H].
      specialize (H1 _ (or_introl eq_refl)). cbn in *. unfold ax_true in *. cbn in *. destruct (a (PVs 6)); discriminate. }
    apply (up_conflict _ _ (wif_def rn_ts (axiom (pos 4)) 2)); [cbn; tauto|].
    intros a Ha H. assert (A0 : a (PVs 0) = true) by (apply (pv_true a _ false); apply Ha; right; right; left; reflexivity).
    assert (A4 : a (PVs 4) = false) by (apply (pv_true a _ true); apply Ha; left; reflexivity).
    unfold lb_holds in H. cbn in H. unfold ax_true in H. cbn in H. rewrite A0, A4 in H. destruct (a (PVs 2)); cbn in H; lia.
  - intros v Hv. vm_compute in Hv. destruct Hv.
Qed.
(** the proof of this run is accepted, and the points of the two candidates are the whole front *)
Example C70_example : steps_valid rn_k (ps_log (r_p rn_end)) /\ map (fun d => costs ex_rs (asg_of d)) (r_done rn_end) = [[0%Z; 1%Z]; [2%Z; 0%Z]] /\
  forall c, pareto_optimal ex_cls ex_rs c -> c = [0%Z; 1%Z] \/ c = [2%Z; 0%Z].
Proof.
  assert (X : forall c b, In c (rn_cs 0) -> pe_extend (co_enc c) b = []) by (intros c b [<-|[<-|[]]]; reflexivity).
  assert (F : enc_fine (k_all (init_chk ex_cls (build_objs 0 ex_rs))) (rn_cs 0)) by (apply rn_fine; [lia|intros v Hv; lia]).
  split; [|split].
  - exact (proj1 (C70_run_accepted 2 ex_cls ex_rs (rn_cs 0) rn_end rn_inst eq_refl X F rn_runs)).
  - vm_compute. reflexivity.
  - intros c Hc. destruct (C70_run_complete 2 ex_cls ex_rs (rn_cs 0) rn_end) as (_ & Q).
    + constructor; [|constructor; [|constructor]]; (split; [left; repeat constructor; cbn; intuition discriminate|right; eexists; split; [left; reflexivity|discriminate]]).
    + exact rn_inst.
    + reflexivity.
    + exact X.
    + exact F.
    + exact rn_runs.
    + exists (20, lb_clause []). split; [vm_compute; tauto|]. intros a _ H. vm_compute in H. apply H. reflexivity.
    + destruct (Q c Hc) as (d & [<-|[<-|[]]] & <-); vm_compute; tauto.
Qed.
