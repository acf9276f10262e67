(** * What the logger is told is true, also after core boosting (C90)

    The user calls core boosting any number of times, going on however the calls ended ([tries]), and
    then any history of calls of [solve]. *)
From Coq Require Import List Bool Arith Lia ZArith.
From Verif Require Import Base BaseLemmas Spec MTypes MKernel MPMinimal MLowerBounding MBiOptSat MOll EncSpec
  TotSpec ApiSpec CbSpec Inst ExInst Sem Kern Api ApiTop TotInst CbTop CbApi CbHist CbStop FeasInv TightSpec TightThm
  LogStruct LogTrue LogBoost PropCore PropFront PropLogged.
From Verif Require PropCbStop.
Import ListNotations.

(** Every logged candidate has the values of a solution; every logged point is in the reported front and
    has valid solutions with the costs told. *)
Theorem C90_boosted : forall I (SP : enc_spec I) T (TS : tot_spec SP T) i o al s0 bs h,
  inst_ok i -> lits_distinct i -> alg_new (I := I) al i o = Some s0 ->
  boosts_ok o bs -> resets_ok T o bs s0 -> no_empty_core i o -> run_ok h ->
  let s := run al h (tries T bs s0) in
  (forall cs ph, In (EvCandidate cs ph) (s_trace s) ->
     length cs = length (in_objs i) /\
     exists a, feasible (in_cls i) a /\ costs (in_objs i) a = user_costs (in_objs i) cs) /\
  (forall p, In (EvNonDom p) (s_trace s) -> In p (s_front s) /\ nd_sols p <> [] /\
     forall sol, In sol (nd_sols p) -> valid_solution (in_cls i) (in_objs i) (n_orig i) (nd_costs p) sol).
Proof.
  intros I SP T TS i o al s0 bs h HI HD Hn Hb Hr He Hh s.
  destruct (log_tried TS i o HI HD al s0 bs false h Hn Hb Hr He Hh) as (me & HC & [H1 H2 _]); [discriminate|].
  fold s in HC, H1, H2. split.
  - intros cs ph Hin. destruct (H1 cs ph Hin) as (a & Ha & ->). split; [rewrite ic_length; apply build_len|].
    exists a. split; [exact Ha|]. symmetry. apply user_ic, HI.
  - intros p Hin. specialize (H2 p Hin). split; [exact H2|].
    pose proof (co_front _ _ _ HC) as HF. rewrite Forall_forall in HF. exact (HF p H2).
Qed.
Print Assumptions C90_boosted.

(** Without enumeration P-minimal and LowerBounding log Pareto-optimal points only. *)
Theorem C90_boosted_optimal : forall I (SP : enc_spec I) T (TS : tot_spec SP T) i o al s0 bs h,
  inst_ok i -> lits_distinct i -> al <> ABiOptSat -> o_enum o = NoEnum -> alg_new (I := I) al i o = Some s0 ->
  boosts_ok o bs -> resets_ok T o bs s0 -> no_empty_core i o -> run_ok h ->
  forall p, In (EvNonDom p) (s_trace (run al h (tries T bs s0))) -> pareto_optimal (in_cls i) (in_objs i) (nd_costs p).
Proof.
  intros I SP T TS i o al s0 bs h HI HD Ha Hen Hn Hb Hr He Hh p Hin.
  destruct (C90_boosted I SP T TS i o al s0 bs h HI HD Hn Hb Hr He Hh) as [_ H]. destruct (H p Hin) as [Hp _].
  destruct (PropCbStop.C80_histories I SP T TS i o al s0 bs h HI HD Ha Hen Hn Hb Hr He Hh) as [_ G].
  rewrite Forall_forall in G. apply (G p Hp).
Qed.
Print Assumptions C90_boosted_optimal.

(** The points logged to a logger that is always attached are exactly the reported front. *)
Theorem C90_boosted_all_points : forall I (SP : enc_spec I) T (TS : tot_spec SP T) i o al s0 bs h,
  inst_ok i -> lits_distinct i -> alg_new (I := I) al i o = Some s0 ->
  boosts_ok o (BAttach :: bs) -> resets_ok T o (BAttach :: bs) s0 -> no_empty_core i o -> run_ok h ->
  Forall no_bdetach bs -> Forall no_detach h ->
  let s := run al h (tries T (BAttach :: bs) s0) in
  logged_points (rev (s_trace s)) = s_front s.
Proof.
  intros I SP T TS i o al s0 bs h HI HD Hn Hb Hr He Hh Hd1 Hd2 s.
  destruct (log_tried TS i o HI HD al s0 (BAttach :: bs) true h Hn Hb Hr He Hh) as (me & _ & [_ _ H]); [eauto|].
  destruct (H eq_refl) as [_ H']. fold s in H'. rewrite logged_points_rev, H'. apply rev_involutive.
Qed.
Print Assumptions C90_boosted_all_points.

(** ** Examples: two core boostings stopped by failing loggers, then a history of calls *)
Definition lb_bs : list bstep := [Boost (PropCbStop.st_log 3) (mkCb false false); Boost (PropCbStop.st_log 12) (mkCb true false);
  Boost ex_env (mkCb true false)].
Definition lb_opts := cb_kopts NoEnum true false false false.
Example lb_meets s0 : inst_ok ex_inst /\ lits_distinct ex_inst /\ boosts_ok lb_opts (BAttach :: lb_bs) /\
  resets_ok TI lb_opts (BAttach :: lb_bs) s0 /\ no_empty_core ex_inst lb_opts /\ run_ok lg_hist /\
  Forall no_bdetach lb_bs /\ Forall no_detach lg_hist.
Proof.
  split; [apply ex_ok|]. split; [apply ex_distinct|]. split.
  { pose proof (PropCbStop.st_log_ok 3). pose proof (PropCbStop.st_log_ok 12).
    constructor; [exact Logic.I|]. constructor; [|constructor; [|constructor; [|constructor]]]; cbn; tauto. }
  split.
  { intros pre E opts post Hb Hc _. exfalso.
    assert (H : In (Boost E opts) (BAttach :: lb_bs)) by (rewrite Hb; apply in_or_app; right; now left).
    destruct H as [H|[H|[H|[H|[]]]]]; try discriminate; injection H as _ <-; discriminate. }
  split; [apply PropCbStop.st_live|]. split; [apply lg_hist_ok|]. split; [repeat constructor|apply lg_hist_ok].
Qed.
Definition lb_run al : option (list (list Z) * list (list Z) * list (list Z)) :=
  option_map (fun s => let s' := run al lg_hist (tries TI (BAttach :: lb_bs) s) in
    (lg_cands (rev (s_trace s')), map nd_costs (logged_points (rev (s_trace s'))), map nd_costs (s_front s')))
    (alg_new (I := GI) al ex_inst lb_opts).
Local Open Scope Z_scope.
Example C90_example_boosted : lb_run APMinimal = Some ([[3; 0]; [2; 1]; [1; 1]; [5; -1]], [[3; 0]; [1; 1]; [5; -1]], [[3; 0]; [1; 1]; [5; -1]]%Z).
Proof. vm_compute. reflexivity. Qed.
