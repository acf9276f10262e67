(** * C78: proof logging from the parsed problem on *)
From Coq Require Import List Arith ZArith Lia Bool.
From Verif Require Import Spec ApiSpec Base BaseLemmas Sem Ext MTypes MKernel MPMinimal MPrepro PreSpec PreproThm PreInst MOll VeriPB VeriThm MProofs ProofThm ProofRun ProofCut ProofCert ProofFin TracerThm MReform ReformSpec MProofAlg ReifSpec ReifThm ReifRun BlockSpec BlockThm BosSpec RunSpec RunThm RunSol BosRunSpec BosRunThm BoostSpec BoostThm MProofRun FrontThm MProofBos BosFrontThm MProofPre PreProofSpec PreProofThm PreProofInst.
Import ListNotations.
Local Open Scope nat_scope.

(** ** The translation *)
(** With proof logging the same instance is computed, or the same failure. *)
Definition cert_result {A B} (f : A -> B) (r : pres A) : pres B := match r with POk x => POk (f x) | PErr => PErr | PPanic => PPanic end.
Theorem C78_same_instance : forall pe ce p, cert_same pe ce -> cert_result (fun x => fst (fst x)) (to_clausal_cert ce p) = to_clausal pe p.
Proof.
  intros pe ce p Hs. unfold to_clausal_cert, to_clausal. destruct (process_objectives _ _) as [[ros s]|]; [|reflexivity].
  assert (Q : forall cs id n q, option_map (fun x => (map fst (fst (fst x)), snd (fst x))) (encode_constrs_cert ce cs id n q) = encode_constrs pe cs n).
  { induction cs as [|c cs IH]; intros id n q; [reflexivity|]. cbn [encode_constrs_cert encode_constrs]. pose proof (Hs c id n q) as E.
    destruct (ce c id n q) as [[[cls n1] p1]|]; cbn [option_map fst snd] in E; rewrite <- E; [|reflexivity].
    specialize (IH (id + (1 + (if is_eq c then 1 else 0))) n1 p1). destruct (encode_constrs_cert ce cs _ n1 p1) as [[[cls' n2] p2]|]; cbn [option_map fst snd] in IH; rewrite <- IH; [|reflexivity].
    cbn [option_map fst snd]. rewrite map_app. reflexivity. }
  specialize (Q (ss_constrs s) 1 (vm_next (ss_vm s)) (init_pst (ss_constrs s))). destruct (encode_constrs_cert ce _ _ _ _) as [[[cls next] pr]|]; cbn [option_map fst snd] in Q; rewrite <- Q; [|reflexivity].
  destruct (vm_mark_max_enc _) as [vm|]; reflexivity.
Qed.
Print Assumptions C78_same_instance.
(** The proof written by the translation is accepted, excludes no solution, and every clause is a constraint of the proof under the id
    that is handed to the solver. *)
Theorem C78_translation : forall pe ce p i ids pr pcs, pb_enc_ok pe -> cert_same pe ce -> cert_enc_valid ce -> parsed_ok p ->
  to_clausal_cert ce p = POk (i, ids, pr) -> proof_constrs p = Some pcs ->
  let k0 := init_chk_pb pcs (build_objs 0 (in_objs i)) in
  steps_valid k0 (ps_log pr) /\ k_excl (kof k0 pr) = [] /\ k_next (kof k0 pr) = ps_next pr /\ length ids = length (in_cls i) /\
  forall j cl id, nth_error (in_cls i) j = Some cl -> nth_error ids j = Some id -> exists C, In (id, C) (k_all (kof k0 pr)) /\ lb_same pv_eqd C (clause_pb cl).
Proof.
  intros pe ce p i ids pr pcs Hpe Hs Hv Hp H Hpc k0. destruct (cert_shape pe ce p i ids pr pcs Hpe Hs Hv Hp H Hpc) as (_ & L & W & _ & _ & X & _ & C & _).
  split; [exact (wk_valid _ _ W)|]. split; [exact X|]. split; [exact (wk_next _ _ W)|]. split; [exact L|]. intros j cl id Hc Hi. apply C. clear -Hc Hi. revert ids j Hc Hi. generalize (in_cls i). intros l.
  induction l as [|c l IH]; intros [|d ids] [|j] Hc Hi; cbn in *; try discriminate; [injection Hc as ->; injection Hi as ->; left; reflexivity|right; exact (IH ids j Hc Hi)].
Qed.
Print Assumptions C78_translation.
(** Reindexing and proof logging exclude each other. *)
Theorem C78_reindexing : forall ce p x, cert_setup true ce p <> POk x.
Proof. intros ce p x. unfold cert_setup. destruct (to_clausal_cert ce p); discriminate. Qed.
Print Assumptions C78_reindexing.

(** ** P-minimal and lower-bounding *)
Lemma pre_inv : forall pe ce p i k0 s, pb_enc_ok pe -> cert_same pe ce -> cert_enc_ok ce -> parsed_ok p -> pre_reaches ce p i k0 s ->
  to_clausal pe p = POk i /\ f_inv k0 (vm_max_enc (in_vm i)) (in_cls i) (in_objs i) s.
Proof.
  intros pe ce p i k0 s Hpe Hs Hok Hp (pcs & ids & pr & cs & r0 & Hpc & Ht & Ek & Eo & Ex & Hf & B & H).
  assert (Hi : to_clausal pe p = POk i) by (rewrite <- (C78_same_instance pe ce p Hs), Ht; reflexivity).
  pose proof (clausal_inst_ok pe p i Hpe Hp Hi) as I. pose proof (cert_start pe ce p i ids pr pcs Hpe Hs Hok Hp Ht Hpc) as St. rewrite <- Ek in St.
  pose proof (inst_vars_ok i I) as Hv. split; [exact Hi|].
  exact (proj1 (f_runs_inv k0 _ _ _ (io_ok i I) (io_fits i I) Hv _ _ (f_start_gen k0 _ _ _ cs _ r0 Hv Eo Ex Hf St B) H)).
Qed.
Lemma reported_opt : forall pe p i nd b, pb_enc_ok pe -> parsed_ok p -> to_clausal pe p = POk i ->
  pareto_optimal (in_cls i) (in_objs i) (nd_costs nd) -> nd_sols nd = [b] -> inst_sol (vm_max_enc (in_vm i)) (in_cls i) b -> costs (in_objs i) (asg_of b) = nd_costs nd ->
  p_optimal p (nd_costs (reported (vm_max_orig (pa_vm p)) nd)) /\
  exists sol, nd_sols (reported (vm_max_orig (pa_vm p)) nd) = [sol] /\ p_solution p (nd_costs (reported (vm_max_orig (pa_vm p)) nd)) sol.
Proof.
  intros pe p i nd b Hpe Hp Hi Ho E Hb Ec. unfold reported. cbn [nd_costs nd_sols]. split; [apply (clausal_front pe p i Hpe Hp Hi); exact Ho|].
  rewrite E. cbn [map]. eexists. split; [reflexivity|]. rewrite <- Ec in *. exact (reported_solution pe p i b Hpe Hp Hi Hb Ho).
Qed.
(** At any time: the whole proof, from the constraints of the input on, is accepted; every reported point is Pareto-optimal for the
    problem as it was read, comes with one solution of this problem, and no point is reported twice. The solutions found are
    excluded in the proof. *)
Theorem C78_front : forall pe ce p i k0 s, pb_enc_ok pe -> cert_same pe ce -> cert_enc_ok ce -> parsed_ok p -> pre_reaches ce p i k0 s ->
  steps_valid k0 (ps_log (r_p (f_r s))) /\
  (forall nd, In nd (p_reported p (f_front s)) -> p_optimal p (nd_costs nd) /\ exists sol, nd_sols nd = [sol] /\ p_solution p (nd_costs nd) sol) /\
  (forall nd, In nd (f_front s) -> exists b, nd_sols nd = [b] /\ In (map axiom (sol_lits b)) (k_excl (kof k0 (r_p (f_r s))))) /\
  NoDup (map nd_costs (p_reported p (f_front s))).
Proof.
  intros pe ce p i k0 s Hpe Hs Hok Hp H. destruct (pre_inv pe ce p i k0 s Hpe Hs Hok Hp H) as (Hi & I). destruct (f_inv_front _ _ _ _ _ I) as (V & F & N).
  split; [exact V|]. split; [|split].
  - intros nd Hnd. unfold p_reported in Hnd. apply in_map_iff in Hnd. destruct Hnd as (x & <- & Hx). destruct (F x Hx) as (Ho & b & E & Hb & Ec & _).
    exact (reported_opt pe p i x b Hpe Hp Hi Ho E Hb Ec).
  - intros nd Hnd. destruct (F nd Hnd) as (_ & b & E & _ & _ & He). exists b. split; assumption.
  - unfold p_reported. rewrite map_map. exact N.
Qed.
Print Assumptions C78_front.
(** When the algorithm returns, exactly the Pareto front is reported and the proof contains a contradiction. *)
Theorem C78_finished : forall pe ce p i k0 s, pb_enc_ok pe -> cert_same pe ce -> cert_enc_ok ce -> parsed_ok p -> pre_reaches ce p i k0 s -> pm_finished k0 s ->
  (forall c, In c (map nd_costs (p_reported p (f_front s))) <-> p_optimal p c) /\ exists e, In e (k_all (kof k0 (r_p (f_r s)))) /\ contradictory (snd e).
Proof.
  intros pe ce p i k0 s Hpe Hs Hok Hp H Fin. destruct (pre_inv pe ce p i k0 s Hpe Hs Hok Hp H) as (Hi & I). pose proof (clausal_inst_ok pe p i Hpe Hp Hi) as IO.
  destruct (f_inv_finished _ _ _ _ _ (io_ok i IO) (inst_vars_ok i IO) I Fin) as ((_ & Q) & Con). split; [|exact Con]. intros c. unfold p_reported. rewrite map_map.
  rewrite <- (clausal_front pe p i Hpe Hp Hi c). apply Q.
Qed.
Print Assumptions C78_finished.

(** ** BiOptSat *)
Lemma pre_inv_bos : forall pe ce p i k0 dec_lb s, pb_enc_ok pe -> cert_same pe ce -> cert_enc_ok ce -> parsed_ok p -> pre_reaches_bos ce p i k0 dec_lb s ->
  to_clausal pe p = POk i /\ exists o0 o1, map bare [o0; o1] = map bare (build_objs 0 (in_objs i)) /\ b_inv k0 (vm_max_enc (in_vm i)) (in_cls i) (in_objs i) o0 o1 dec_lb s.
Proof.
  intros pe ce p i k0 dec_lb s Hpe Hs Hok Hp (pcs & ids & pr & cs & r0 & e0 & e1 & Hpc & Ht & Ek & Eo & Ex & Hf & B & Ecs & F0 & F1 & Ed & H).
  assert (Hi : to_clausal pe p = POk i) by (rewrite <- (C78_same_instance pe ce p Hs), Ht; reflexivity).
  pose proof (clausal_inst_ok pe p i Hpe Hp Hi) as I. pose proof (cert_start pe ce p i ids pr pcs Hpe Hs Hok Hp Ht Hpc) as St. rewrite <- Ek in St.
  pose proof (inst_vars_ok i I) as Hv. split; [exact Hi|]. exists (co_obj e0), (co_obj e1).
  destruct (b_start_gen k0 _ _ _ cs _ r0 (co_obj e0) (co_obj e1) Hv Eo Ex Hf St B) as (A1 & A2 & A3 & A4); [rewrite Ecs; reflexivity|].
  rewrite <- F0, <- F1, <- Ed in A4. rewrite <- F1, <- Ed in A3. split; [exact A1|].
  exact (proj1 (b_runs_inv k0 _ _ _ (co_obj e0) (co_obj e1) dec_lb (io_ok i I) (io_fits i I) Hv A1 A2 A3 _ _ A4 H)).
Qed.
Theorem C78_bioptsat_front : forall pe ce p i k0 dec_lb s, pb_enc_ok pe -> cert_same pe ce -> cert_enc_ok ce -> parsed_ok p -> pre_reaches_bos ce p i k0 dec_lb s ->
  steps_valid k0 (ps_log (r_p (br_r (bf_s s)))) /\
  (forall nd, In nd (p_reported p (bf_front s)) -> p_optimal p (nd_costs nd) /\ exists sol, nd_sols nd = [sol] /\ p_solution p (nd_costs nd) sol) /\
  (forall nd, In nd (bf_front s) -> exists b, nd_sols nd = [b] /\ (In (map axiom (sol_lits b)) (k_excl (kof k0 (r_p (br_r (bf_s s))))) \/ bf_at s = BoYielded b)) /\
  NoDup (map nd_costs (p_reported p (bf_front s))).
Proof.
  intros pe ce p i k0 dec_lb s Hpe Hs Hok Hp H. destruct (pre_inv_bos pe ce p i k0 dec_lb s Hpe Hs Hok Hp H) as (Hi & o0 & o1 & A1 & I).
  destruct (b_inv_front _ _ _ _ _ _ _ _ (io_ok i (clausal_inst_ok pe p i Hpe Hp Hi)) A1 I) as (V & F & N).
  split; [exact V|]. split; [|split].
  - intros nd Hnd. unfold p_reported in Hnd. apply in_map_iff in Hnd. destruct Hnd as (x & <- & Hx). destruct (F x Hx) as (Ho & b & E & Hb & Ec & _).
    exact (reported_opt pe p i x b Hpe Hp Hi Ho E Hb Ec).
  - intros nd Hnd. destruct (F nd Hnd) as (_ & b & E & _ & _ & He). exists b. split; assumption.
  - unfold p_reported. rewrite map_map. exact N.
Qed.
Print Assumptions C78_bioptsat_front.
Theorem C78_bioptsat_finished : forall pe ce p i k0 dec_lb s, pb_enc_ok pe -> cert_same pe ce -> cert_enc_ok ce -> parsed_ok p -> pre_reaches_bos ce p i k0 dec_lb s -> bf_finished k0 s ->
  (forall c, In c (map nd_costs (p_reported p (bf_front s))) <-> p_optimal p c) /\ exists e, In e (k_all (kof k0 (r_p (br_r (bf_s s))))) /\ contradictory (snd e).
Proof.
  intros pe ce p i k0 dec_lb s Hpe Hs Hok Hp H Fin. destruct (pre_inv_bos pe ce p i k0 dec_lb s Hpe Hs Hok Hp H) as (Hi & o0 & o1 & A1 & I). pose proof (clausal_inst_ok pe p i Hpe Hp Hi) as IO.
  destruct (b_inv_finished _ _ _ _ _ _ _ _ (io_ok i IO) (inst_vars_ok i IO) A1 I Fin) as ((_ & Q) & Con). split; [|exact Con]. intros c. unfold p_reported. rewrite map_map.
  rewrite <- (clausal_front pe p i Hpe Hp Hi c). apply Q.
Qed.
Print Assumptions C78_bioptsat_finished.

(** ** What an accepted proof certifies *)
(** Whoever wrote it: if a proof that starts from the constraints of the input is accepted and contains a contradiction, and the solutions
    it excludes fix the values of the objectives, then every solution of the problem as it was read is weakly dominated by a
    solution that agrees with one of the excluded ones, and every Pareto-optimal point is reached by one of them. *)
Theorem C78_certified : forall pe p i pcs ss, pb_enc_ok pe -> parsed_ok p -> to_clausal pe p = POk i -> proof_constrs p = Some pcs ->
  let k := init_chk_pb pcs (build_objs 0 (in_objs i)) in
  steps_valid k ss -> (exists e, In e (k_all (steps_next k ss)) /\ contradictory (snd e)) ->
  (forall ls, In ls (k_excl (steps_next k ss)) -> fixes_objs (in_objs i) ls) ->
  (forall a, p_feasible p a -> exists ls s, In ls (k_excl (steps_next k ss)) /\ agrees_with s ls /\ p_feasible p s /\ weakly_dominates (p_costs p s) (p_costs p a)) /\
  (forall c, p_optimal p c -> exists ls s, In ls (k_excl (steps_next k ss)) /\ agrees_with s ls /\ p_feasible p s /\ p_costs p s = c).
Proof.
  intros pe p i pcs ss Hpe Hp Hi Hpc k Hv Hc Hfix. pose proof (accepted_parsed pe p i pcs ss Hpe Hp Hi Hpc Hv Hc Hfix) as A. split; [exact A|].
  intros c ((a & Ha & <-) & Hopt). destruct (A a Ha) as (ls & s & H1 & H2 & H3 & H4). exists ls, s. split; [exact H1|]. split; [exact H2|]. split; [exact H3|].
  destruct (list_eq_dec Z.eq_dec (p_costs p s) (p_costs p a)) as [E|N]; [exact E|]. exfalso. apply (Hopt s H3). split; assumption.
Qed.
Print Assumptions C78_certified.

(** ** A certified encoder that is not strict *)
Lemma up_to_incl : forall (cs : list pconstr) r full, up_to cs r full -> forall l, In l r -> In l full.
Proof.
  intros cs r full H. induction H as [r full H|r full c l Hc Hp H IH]; intros x Hx; [apply H; exact Hx|apply IH; right; exact Hx].
Qed.
(** x0 + x1 <= 1, minimise x0 and x1 *)
Definition lo_p : parsed := mkParsed [mkPb PbUb [(pos 0, 1); (pos 1, 1)] 1%Z] [([([neg 0], 1)], 0%Z); ([([neg 1], 1)], 0%Z)] (mkVm 2 1 1).
Lemma lo_ok : parsed_ok lo_p.
Proof.
  constructor.
  - reflexivity.
  - intros c v [<-|[]] [<-|[<-|[]]]; cbn; lia.
  - intros o cw v [<-|[<-|[]]] [<-|[]] [<-|[]]; cbn; lia.
  - constructor; [|constructor; [|constructor]]; (split; [|split; [|split]]).
    + intros cw [<-|[]]; discriminate.
    + left. repeat constructor. intros [].
    + right. eexists. split; [left; reflexivity|discriminate].
    + cbn. unfold isize_max, isize_min. lia.
    + intros cw [<-|[]]; discriminate.
    + left. repeat constructor. intros [].
    + right. eexists. split; [left; reflexivity|discriminate].
    + cbn. unfold isize_max, isize_min. lia.
Qed.
(** An encoder whose lines are all accepted and whose clauses are all in the proof is not enough: if the solver may set a variable of the
    encoding to a value that the definitions in the proof do not allow, a solution of the clauses cannot be logged, the proof is rejected. *)
Theorem C78_loose_refuted : exists pe ce p i ids pr pcs w, pb_enc_ok pe /\ cert_same pe ce /\ cert_enc_valid ce /\ parsed_ok p /\
  to_clausal_cert ce p = POk (i, ids, pr) /\ proof_constrs p = Some pcs /\ inst_sol (vm_max_enc (in_vm i)) (in_cls i) w /\
  forall full, ~ step_valid (kof (init_chk_pb pcs (build_objs 0 (in_objs i))) pr) (SSolx (map axiom (sol_lits w)) full).
Proof.
  destruct (to_clausal_cert cert_loose lo_p) as [[[i ids] pr]| |] eqn:E; [|vm_compute in E; discriminate..].
  destruct (proof_constrs lo_p) as [pcs|] eqn:Epc; [|vm_compute in Epc; discriminate].
  exists pb_loose, cert_loose, lo_p, i, ids, pr, pcs, [Some false; Some false; Some true].
  split; [exact pb_loose_ok|]. split; [exact cert_loose_same|]. split; [exact cert_loose_valid|]. split; [exact lo_ok|]. split; [exact E|]. split; [exact Epc|].
  vm_compute in E. injection E as <- <- <-. vm_compute in Epc. injection Epc as <-. split.
  - split; [split; [reflexivity|intros x [<-|[<-|[<-|[]]]]; discriminate]|]. intros c [<-|[<-|[]]]; reflexivity.
  - intros full (U & a & Ha & H). pose proof (up_to_incl _ _ _ U) as X.
    assert (A0 : a (PVs 0) = false) by (specialize (Ha _ (X (mkAx (PVs 0) true) (or_introl eq_refl))); unfold ax_true in Ha; cbn in Ha; destruct (a (PVs 0)); [discriminate|reflexivity]).
    assert (A2 : a (PVs 2) = true) by (specialize (Ha _ (X (mkAx (PVs 2) false) (or_intror (or_intror (or_introl eq_refl))))); unfold ax_true in Ha; cbn in Ha; destruct (a (PVs 2)); [reflexivity|discriminate]).
    assert (Q : In (3, clause_pb [neg 2; pos 0]) (k_all (kof (init_chk_pb [mkPb PbUb [(pos 0, 1); (pos 1, 1)] 1%Z] (build_objs 0 [([(pos 0, 1)], 0%Z); ([(pos 1, 1)], 0%Z)]))
      (mkPst 5 0 [SRup (clause_pb [neg 0; neg 1]) [CAbs 1]; SRed (clause_pb [neg 2; pos 0]) [(PVs 2, false)] []; SRed (clause_pb [pos 2; neg 0]) [(PVs 2, true)] []] [] [] [])))) by (vm_compute; tauto).
    apply H in Q. cbn [snd] in Q. unfold clause_pb in Q. rewrite lb_clause_holds in Q. destruct Q as (l & [<-|[<-|[]]] & Hl); unfold ax_true in Hl; cbn in Hl; [rewrite A2 in Hl|rewrite A0 in Hl]; discriminate.
Qed.
Print Assumptions C78_loose_refuted.
(** The encoder of the examples below meets all assumptions. *)
Example C78_encoder : pb_enc_ok pb_brute /\ cert_same pb_brute cert_brute /\ cert_enc_ok cert_brute.
Proof. exact (conj pb_brute_ok (conj cert_brute_same cert_brute_ok)). Qed.

(** ** Example: x0 + x1 + x2 >= 2, minimise x0 and the violation of the soft clause (~x1 or ~x2)
    The soft clause gets the variable x3. The translation derives five clauses; then (1, 0) and (0, 1) are found and yielded. *)
Definition pp_p : parsed := mkParsed [mkPb PbLb [(pos 0, 1); (pos 1, 1); (pos 2, 1)] 2%Z] [([([neg 0], 1)], 0%Z); ([([neg 1; neg 2], 1)], 0%Z)] (mkVm 3 2 2).
Lemma pp_ok : parsed_ok pp_p.
Proof.
  constructor.
  - reflexivity.
  - intros c v [<-|[]] [<-|[<-|[<-|[]]]]; cbn; lia.
  - intros o cw v [<-|[<-|[]]] [<-|[]]; [intros [<-|[]]|intros [<-|[<-|[]]]]; cbn; lia.
  - constructor; [|constructor; [|constructor]]; (split; [|split; [|split]]).
    + intros cw [<-|[]]; discriminate.
    + left. repeat constructor. intros [].
    + right. eexists. split; [left; reflexivity|discriminate].
    + cbn. unfold isize_max, isize_min. lia.
    + intros cw [<-|[]]; discriminate.
    + left. repeat constructor. intros [].
    + right. eexists. split; [left; reflexivity|discriminate].
    + cbn. unfold isize_max, isize_min. lia.
Qed.
Definition pp_pcs : list pb_constr := match proof_constrs pp_p with Some c => c | None => [] end.
Definition pp_res : inst * list nat * pst := match to_clausal_cert cert_brute pp_p with POk x => x | _ => (mkInst [] [] (mkVm 0 0 0), [], init_pst []) end.
Definition pp_i : inst := fst (fst pp_res).
Definition pp_cls : list clause := in_cls pp_i.
Definition pp_k : chk := init_chk_pb pp_pcs (build_objs 0 (in_objs pp_i)).
Definition pp_p0 : pst := load_cert pp_cls (snd (fst pp_res)) (snd pp_res).
Definition pp_e (v : nat) : penc := mkPenc 0 1 true (fun b => if b =? 0 then Some [neg v] else Some []) (fun _ => None) S (fun _ => []).
Definition pp_o (i v : nat) : objective := OUnweighted 0 1 [pos v] i 0.
Definition pp_cs : list cobj := [mkCobj (pp_e 0) (pp_o 0 0) None 0; mkCobj (pp_e 3) (pp_o 1 3) None 0].
Definition pp_a : assignment := [Some true; Some true; Some false; Some false].
Definition pp_b : assignment := [Some false; Some true; Some true; Some true].
Definition pp_xs (b : assignment) : list (cobj * bool) := map (fun c => (c, false)) (for_sol pp_cs b).
Definition pp_blocked (w : assignment) (p : pst) : option (clause * nat * pst) :=
  block_candidate (map as_bobj (pp_xs w)) (for_sol pp_cs w) w 3 4 p.
Definition pp_pa : pst := match pp_blocked pp_a pp_p0 with Some (_, _, p) => p | None => pp_p0 end.
Definition pp_core : step := SRup (clause_pb [pos 3]) [CAbs 10; CAbs 1; CAbs 2].
Definition pp_pa1 : pst := snd (wr_id pp_core pp_pa).
Definition pp_pb : pst := match pp_blocked pp_b pp_pa1 with Some (_, _, p) => p | None => pp_p0 end.
Definition pp_last : step := SRup (clause_pb []) [CAbs 12; CAbs 15].
Definition pp_pb1 : pst := snd (wr_id pp_last pp_pb).
Example pp_clause_a : pp_blocked pp_a pp_p0 = Some ([neg 0], 4, pp_pa). Proof. vm_compute. reflexivity. Qed.
Example pp_clause_b : pp_blocked pp_b pp_pa1 = Some ([neg 3], 4, pp_pb). Proof. vm_compute. reflexivity. Qed.
Lemma pp_fine : forall es, enc_fine es pp_cs.
Proof.
  intros es. split.
  - constructor; [|constructor; [|constructor]].
    + exists (obj_terms (pp_o 0 0)). constructor; try (cbn; intros; discriminate).
      * split; reflexivity.
      * intros t Ht. apply in_map_iff in Ht. destruct Ht as (lw & <- & _). cbn [fst]. lia.
      * intros H. exfalso. apply H. reflexivity.
    + exists (obj_terms (pp_o 1 3)). constructor; try (cbn; intros; discriminate).
      * split; reflexivity.
      * intros t Ht. apply in_map_iff in Ht. destruct Ht as (lw & <- & _). cbn [fst]. lia.
      * intros H. exfalso. apply H. reflexivity.
  - intros c [<-|[<-|[]]] a Ha Hlt; cbn [co_enc co_obj pp_e pe_nout pe_enforce_ub pe_offset pe_details pe_buf_empty] in *; (split; [|intros olit i _ H; discriminate]); intros x xs _ H; cbn in H; injection H as <- <-;
      cbn in Hlt; unfold lit_true, on_solver in Hlt; cbn in Hlt; unfold ax_true; cbn; [destruct (a (PVs 0))|destruct (a (PVs 3))]; try reflexivity; cbn in Hlt; lia.
Qed.
Definition pp_st (p : pst) (L : list nat) (D : list assignment) : RunSpec.rst := RunSpec.mkRst pp_cs 4 p L D.
Lemma pp_works : forall p L D, enc_works pp_k pp_cls (pp_st p L D).
Proof.
  intros p L D c v as_ [<-|[<-|[]]] E; cbn [co_enc co_obj pp_e pe_enforce_ub RunSpec.r_p] in *; (destruct (Nat.eqb_spec v 0) as [->|V]; injection E as <-; [split|split; [|intros a _ _ l []]]).
  - intros w _ _ T. specialize (T _ (or_introl eq_refl)). cbn in *. unfold lit_true in *. cbn in *. destruct (w 0); [discriminate|lia].
  - intros a _ Hc l [<-|[]]. cbn in *. unfold lit_true, on_solver in *. cbn in *. destruct (a (PVs 0)); [cbn in Hc; lia|reflexivity].
  - intros w _ _ _. cbn. unfold lit_true. cbn. destruct (w 0); cbn; lia.
  - intros w _ _ T. specialize (T _ (or_introl eq_refl)). cbn in *. unfold lit_true in *. cbn in *. destruct (w 3); [discriminate|lia].
  - intros a _ Hc l [<-|[]]. cbn in *. unfold lit_true, on_solver in *. cbn in *. destruct (a (PVs 3)); [cbn in Hc; lia|reflexivity].
  - intros w _ _ _. cbn. unfold lit_true. cbn. destruct (w 3); cbn; lia.
Qed.
Lemma pp_pre : forall k c v, (c = mkCobj (pp_e 0) (pp_o 0 0) None v \/ c = mkCobj (pp_e 3) (pp_o 1 3) None v) -> v <= 1 -> bound_pre k 4 c.
Proof.
  intros k c v Hc Hv. destruct Hc as [-> | ->]; (split; [intros l w [H|[]]; injection H as <- _; cbn; lia|]; split; [reflexivity|]; split; [cbn; lia|]; intros Hlt; cbn [co_cost co_obj] in Hlt;
    assert (v = 0 \/ v = 1) as [-> | ->] by lia; [exfalso; revert Hlt; vm_compute; lia|]).
  - exists [neg 0]. split; [reflexivity|]. split; [intros a [<-|[]]; cbn; lia|]. left. exists (pos 0), 1. split; reflexivity.
  - exists [neg 3]. split; [reflexivity|]. split; [intros a [<-|[]]; cbn; lia|]. left. exists (pos 3), 1. split; reflexivity.
Qed.
Lemma pp_block : forall b p p' cl D L, inst_sol 3 pp_cls b -> (forall d, In d D -> better pp_cs b d) -> truncate b 3 = b ->
  icost (pp_o 0 0) (asg_of b) <= 1 -> icost (pp_o 1 3) (asg_of b) <= 1 -> pp_blocked b p = Some (cl, 4, p') ->
  run_step pp_k 3 (inst_sol 3 pp_cls) (pp_st p L D) (pp_st p' (pred (ps_next p') :: L) (b :: D)).
Proof.
  intros b p p' cl D L Hb Hd Et H1 H2 E. unfold pp_blocked in E. apply (ev_block pp_k 3 (inst_sol 3 pp_cls) pp_cs 4 p L D b b (pp_xs b) cl 4 p' Hb Hd Et).
  - intros f Hf. exists f. split; [exact Hf|]. intros l. reflexivity.
  - reflexivity.
  - intros x [<-|[<-|[]]]; (split; [|discriminate]); cbn [fst]; [exact (pp_pre _ _ _ (or_introl eq_refl) H1)|exact (pp_pre _ _ _ (or_intror eq_refl) H2)].
  - intros c [<-|[<-|[]]]; cbn; congruence.
  - exact E.
Qed.
Definition pp_go : fstate -> Prop := pm_runs pp_k 3 pp_cls (mkFs AtOuter (pp_st pp_p0 [] []) []).
Lemma pp_sol : forall b, b = pp_a \/ b = pp_b -> inst_sol 3 pp_cls b.
Proof.
  intros b [-> | ->]; (split; [split; [reflexivity|intros t [<-|[<-|[<-|[<-|[]]]]]; discriminate]|]); intros c Hc; vm_compute in Hc; decompose [or] Hc; try contradiction; subst c; vm_compute; reflexivity.
Qed.
Lemma pp_answer : forall b p L D, b = pp_a \/ b = pp_b -> forallb (fun e => clause_true (asg_of b) (fst e)) (ps_reg p) = true -> solver_sat 3 pp_cls (pp_st p L D) b.
Proof.
  intros b p L D Hb Hm. pose proof (pp_sol b Hb) as (T & S). split; [destruct Hb as [-> | ->]; exact T|]. split; [exact S|]. intros c id Hc. exact (proj1 (forallb_forall _ _) Hm (c, id) Hc).
Qed.
Definition pp_La : list nat := [pred (ps_next pp_pa)].
Definition pp_La1 : list nat := ps_next pp_pa :: pp_La.
Definition pp_Lb : list nat := pred (ps_next pp_pb) :: pp_La1.
Definition pp_Lb1 : list nat := ps_next pp_pb :: pp_Lb.
Lemma pp_run_a : pp_go (mkFs (AtBlocked pp_a) (pp_st pp_pa pp_La [pp_a]) []).
Proof.
  assert (H0 : pp_go (mkFs AtOuter (pp_st pp_p0 [] []) [])) by (apply pr_refl; apply pp_works).
  assert (H1 : pp_go (mkFs (AtFound pp_a) (pp_st pp_p0 [] []) [])).
  { apply (pr_step _ _ _ _ _ _ H0); [|apply pp_works]. apply pm_found. apply pp_answer; [left; reflexivity|vm_compute; reflexivity]. }
  apply (pr_step _ _ _ _ _ _ H1); [|apply pp_works]. apply (pm_block pp_k 3 pp_cls _ (pp_st pp_pa pp_La [pp_a]) [] pp_a); [|reflexivity].
  apply (pp_block pp_a pp_p0 pp_pa [neg 0]); [apply pp_sol; left; reflexivity|intros d []|reflexivity|vm_compute; lia|vm_compute; lia|exact pp_clause_a].
Qed.
Lemma pp_core_ok : step_valid (kof pp_k pp_pa) pp_core.
Proof.
  exists [clause_pb [neg 0]; mkLb [(1%Z, axiom (pos 0)); (1%Z, axiom (pos 1)); (1%Z, axiom (pos 2))] 2; clause_pb [neg 1; neg 2; pos 3]]. split; [vm_compute; reflexivity|].
  unfold rup. apply (up_step _ _ (lb_negate (clause_pb [pos 3])) (axiom (neg 3))); [left; reflexivity| |].
  { intros a _ H. apply lb_negate_holds in H. destruct (ax_true a (axiom (neg 3))) eqn:E; [reflexivity|]. exfalso. apply H. apply lb_clause_holds. exists (axiom (pos 3)). split; [left; reflexivity|].
    revert E. unfold ax_true. cbn. destruct (a (PVs 3)); [reflexivity|discriminate]. }
  apply (up_step _ _ (clause_pb [neg 0]) (axiom (neg 0))); [cbn; tauto| |].
  { intros a H1 H. apply lb_clause_holds in H. destruct H as (l & [<-|[]] & H). exact H. }
  set (C := mkLb [(1%Z, axiom (pos 0)); (1%Z, axiom (pos 1)); (1%Z, axiom (pos 2))] 2).
  assert (Q : forall a, ax_true a (axiom (neg 0)) = true -> lb_holds a C -> a (PVs 1) = true /\ a (PVs 2) = true).
  { intros a H0 H. unfold lb_holds, C in H. cbn in H. unfold ax_true in H0, H. cbn in H0, H. destruct (a (PVs 0)); [discriminate|]. destruct (a (PVs 1)), (a (PVs 2)); cbn in H; try lia; split; reflexivity. }
  apply (up_step _ _ C (axiom (pos 1))); [cbn; tauto| |].
  { intros a H1 H. destruct (Q a (H1 _ (or_introl eq_refl)) H) as (X & _). unfold ax_true. cbn. rewrite X. reflexivity. }
  apply (up_step _ _ C (axiom (pos 2))); [cbn; tauto| |].
  { intros a H1 H. destruct (Q a (H1 _ (or_intror (or_introl eq_refl))) H) as (_ & X). unfold ax_true. cbn. rewrite X. reflexivity. }
  apply (up_conflict _ _ (clause_pb [neg 1; neg 2; pos 3])); [cbn; tauto|]. intros a Ha H. apply lb_clause_holds in H.
  pose proof (Ha _ (or_introl eq_refl)) as A2. pose proof (Ha _ (or_intror (or_introl eq_refl))) as A1. pose proof (Ha _ (or_intror (or_intror (or_intror (or_introl eq_refl))))) as A3.
  destruct H as (l & [<-|[<-|[<-|[]]]] & H); unfold ax_true in *; cbn in *; [destruct (a (PVs 1))|destruct (a (PVs 2))|destruct (a (PVs 3))]; discriminate.
Qed.
Definition pp_F1 : list (nd_point assignment) := [mkNd [1; 0]%Z [pp_a]].
Lemma pp_run_a1 : pp_go (mkFs AtOuter (pp_st pp_pa1 pp_La1 [pp_a]) pp_F1).
Proof.
  assert (H1 : pp_go (mkFs (AtBlocked pp_a) (pp_st pp_pa1 pp_La1 [pp_a]) [])).
  { apply (pr_step _ _ _ _ _ _ pp_run_a); [|apply pp_works]. apply pm_work; [|reflexivity].
    apply (ev_derive pp_k 3 (inst_sol 3 pp_cls) pp_cs 4 pp_pa pp_La [pp_a] pp_core true); [exact Logic.I|exact pp_core_ok|].
    intros v Hv. vm_compute in Hv. decompose [or] Hv; try contradiction; subst v; cbn; lia. }
  apply (pr_step _ _ _ _ _ _ H1); [|apply pp_works]. apply (pm_yield _ _ _ _ [] pp_a [neg 3]); [reflexivity| |vm_compute; reflexivity].
  exists [neg 3], 12, (clause_pb [pos 3]). split; [intros l Hl; exact Hl|]. split; [vm_compute; do 3 right; left; reflexivity|split; reflexivity].
Qed.
Definition pp_F2 : list (nd_point assignment) := [mkNd [1; 0]%Z [pp_a]; mkNd [0; 1]%Z [pp_b]].
Definition pp_end : fstate := mkFs AtOuter (pp_st pp_pb1 pp_Lb1 [pp_b; pp_a]) pp_F2.
Lemma pp_run_b : pp_go (mkFs (AtBlocked pp_b) (pp_st pp_pb pp_Lb [pp_b; pp_a]) pp_F1).
Proof.
  assert (H1 : pp_go (mkFs (AtFound pp_b) (pp_st pp_pa1 pp_La1 [pp_a]) pp_F1)).
  { apply (pr_step _ _ _ _ _ _ pp_run_a1); [|apply pp_works]. apply pm_found. apply pp_answer; [right; reflexivity|vm_compute; reflexivity]. }
  apply (pr_step _ _ _ _ _ _ H1); [|apply pp_works]. apply (pm_block pp_k 3 pp_cls _ (pp_st pp_pb pp_Lb [pp_b; pp_a]) pp_F1 pp_b); [|reflexivity].
  apply (pp_block pp_b pp_pa1 pp_pb [neg 3]); [apply pp_sol; right; reflexivity| |reflexivity|vm_compute; lia|vm_compute; lia|exact pp_clause_b].
  intros d [<-|[]]. eexists. split; [left; reflexivity|]. vm_compute. lia.
Qed.
Lemma pp_unsat : forall A, solver_unsat pp_k (pp_st pp_pb1 pp_Lb1 [pp_b; pp_a]) A.
Proof. intros A. exists [], 17, (clause_pb []). split; [intros l []|]. split; [vm_compute; do 4 right; left; reflexivity|split; reflexivity]. Qed.
Lemma pp_run : pp_go pp_end.
Proof.
  assert (H1 : pp_go (mkFs (AtBlocked pp_b) (pp_st pp_pb1 pp_Lb1 [pp_b; pp_a]) pp_F1)).
  { apply (pr_step _ _ _ _ _ _ pp_run_b); [|apply pp_works]. apply pm_work; [|reflexivity].
    apply (ev_derive pp_k 3 (inst_sol 3 pp_cls) pp_cs 4 pp_pb pp_Lb [pp_b; pp_a] pp_last true); [exact Logic.I| |].
    - exists [clause_pb [pos 3]; clause_pb [neg 3]]. split; [vm_compute; reflexivity|]. unfold clause_pb at 3. apply (rup_two _ (map axiom []) [axiom (pos 3)]).
      + intros m [<-|[]]. exists (clause_pb [pos 3]). split; [left; reflexivity|]. intros a _ H. apply lb_clause_holds in H. destruct H as (l & [<-|[]] & H). exact H.
      + exists (clause_pb [neg 3]). split; [right; left; reflexivity|]. intros a _ Hm H. apply lb_clause_holds in H. destruct H as (l & [<-|[]] & H). specialize (Hm _ (or_introl eq_refl)).
        revert H Hm. unfold ax_true. cbn. destruct (a (PVs 3)); discriminate.
    - intros v Hv. vm_compute in Hv. destruct Hv. }
  apply (pr_step _ _ _ _ _ _ H1); [|apply pp_works]. apply (pm_yield _ _ _ _ pp_F1 pp_b [neg 0]); [reflexivity|apply pp_unsat|vm_compute; reflexivity].
Qed.
Lemma pp_reaches : forall s, pp_go s -> pre_reaches cert_brute pp_p pp_i pp_k s.
Proof.
  intros s H. exists pp_pcs, (snd (fst pp_res)), (snd pp_res), pp_cs, (pp_st pp_p0 [] []). split; [reflexivity|]. split; [reflexivity|]. split; [reflexivity|]. split; [reflexivity|].
  split; [intros c b [<-|[<-|[]]]; reflexivity|]. split; [apply pp_fine|]. split; [apply bst_refl|exact H].
Qed.
Example C78_example : (forall c, In c [[1; 0]; [0; 1]]%Z <-> p_optimal pp_p c) /\ steps_valid pp_k (ps_log pp_pb1) /\
  p_solution pp_p [1; 0]%Z [Some true; Some true; Some false] /\ p_solution pp_p [0; 1]%Z [Some false; Some true; Some true].
Proof.
  destruct (C78_front pb_brute cert_brute pp_p pp_i pp_k pp_end pb_brute_ok cert_brute_same cert_brute_ok pp_ok (pp_reaches _ pp_run)) as (V & F & _).
  split; [exact (proj1 (C78_finished pb_brute cert_brute pp_p pp_i pp_k pp_end pb_brute_ok cert_brute_same cert_brute_ok pp_ok (pp_reaches _ pp_run) (conj eq_refl (pp_unsat []))))|]. split; [exact V|]. split.
  - destruct (F _ (or_introl eq_refl)) as (_ & sol & E & H). injection E as <-. exact H.
  - destruct (F _ (or_intror (or_introl eq_refl))) as (_ & sol & E & H). injection E as <-. exact H.
Qed.
