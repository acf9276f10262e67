(** * Core boosting (C26-C30, C45)

    Every theorem quantifies over the objective encodings ([I], [SP]), the totalizer database
    used by core boosting ([T], [TS]), the instance, the options, and the environments (SAT
    oracle and the cores it returns, interrupts, logger failures, fuel). *)
From Coq Require Import List Bool Arith Lia ZArith.
From Verif Require Import Base Spec MTypes MKernel MPMinimal MLowerBounding MBiOptSat MOll MRelease EncSpec
  TotSpec ApiSpec CbSpec Inst ExInst Wp Sem Kern Init Api ApiTop TotInst CbTop CbApi CbHist Diverge Static OllTop.
Import ListNotations.

(** ** C26: core boosting decides feasibility and finds the ideal point *)
Theorem C26_false_infeasible : forall I (SP : enc_spec I) T (TS : tot_spec SP T) i o al s0 bs s1,
  inst_ok i -> lits_distinct i -> alg_new (I := I) al i o = Some s0 -> boosts_ok o bs ->
  boosts T bs s0 = (Done false, s1) -> forall a, ~ feasible (in_cls i) a.
Proof. intros I SP T TS i o al s0 bs s1 HI HD Hn Hb. exact (cb_false TS i o HI HD al s0 bs Hn Hb s1). Qed.
Print Assumptions C26_false_infeasible.

(** the bound kept for objective [k], in the user's units, is the optimum of the objective *)
Theorem C26_true_ideal : forall I (SP : enc_spec I) T (TS : tot_spec SP T) i o al s0 bs s1,
  inst_ok i -> lits_distinct i -> alg_new (I := I) al i o = Some s0 -> boosts_ok o bs ->
  boosts T bs s0 = (Done true, s1) -> (exists x, In x bs /\ is_boost x) ->
  forall k r, nth_error (in_objs i) k = Some r -> fst r <> [] ->
  exists ob z, nth_error (p_objs (s_prob s1)) k = Some ob /\ externalize_one ob (obj_lb ob) = Some z /\
    optimum i r z.
Proof. intros I SP T TS i o al s0 bs s1 HI HD Hn Hb. exact (cb_true TS i o HI HD al s0 bs Hn Hb s1). Qed.
Print Assumptions C26_true_ideal.

Theorem C26_decides : forall I (SP : enc_spec I) T (TS : tot_spec SP T) i o al s0 E opts b s1,
  inst_ok i -> lits_distinct i -> alg_new (I := I) al i o = Some s0 ->
  oracle_ok E -> core_nodup E -> (cb_reset opts = true -> o_store_cnf o = true) ->
  (exists r, In r (in_objs i) /\ fst r <> []) ->
  alg_core_boost T E opts s0 = (Done b, s1) ->
  (b = false <-> forall a, ~ feasible (in_cls i) a).
Proof.
  intros I SP T TS i o al s0 E opts b s1 HI HD Hn HO HN Hr (r & Hin & Hne) Hrun.
  assert (Hb : boosts_ok o [Boost E opts]) by (repeat constructor; assumption).
  assert (Hbs : boosts T [Boost E opts] s0 = (Done b, s1)) by (cbn [boosts]; rewrite Hrun; now destruct b).
  destruct b; split; try discriminate.
  - intros Hf. exfalso. apply In_nth_error in Hin. destruct Hin as (k & Hk).
    destruct (C26_true_ideal I SP T TS i o al s0 _ s1 HI HD Hn Hb Hbs
      (ex_intro _ _ (conj (or_introl eq_refl) Logic.I)) k r Hk Hne) as (ob & z & _ & _ & (a & Ha & _) & _).
    exact (Hf a Ha).
  - intros _. exact (C26_false_infeasible I SP T TS i o al s0 _ s1 HI HD Hn Hb Hbs).
  - reflexivity.
Qed.
Print Assumptions C26_decides.

(** early exits are proper (an interrupt, an external failure, ...), except on infeasible
    instances when cores are minimized or trimmed *)
Theorem C26_exits : forall I (SP : enc_spec I) T (TS : tot_spec SP T) i o al s0 bs x s1,
  inst_ok i -> lits_distinct i -> alg_new (I := I) al i o = Some s0 -> boosts_ok o bs ->
  boosts T bs s0 = (Exit x, s1) ->
  ((forall a, ~ feasible (in_cls i) a) /\ (o_core_minimization o = true \/ o_core_trimming o = true)) \/
  exists E opts, In (Boost E opts) bs /\ proper_exit i E (Exit x).
Proof. intros I SP T TS i o al s0 bs x s1 HI HD Hn Hb. exact (cb_exit TS i o HI HD al s0 bs Hn Hb x s1). Qed.
Print Assumptions C26_exits.

(** undisturbed core boosting finishes *)
Theorem C26_finishes : forall I (SP : enc_spec I) T (TS : tot_spec SP T) i o al s0 bs,
  inst_ok i -> lits_distinct i -> alg_new (I := I) al i o = Some s0 -> boosts_ok o bs ->
  Forall (fun x => match x with Boost E _ => calm E /\ iter_bound i < ev_fuel E | _ => True end) bs ->
  (exists a, feasible (in_cls i) a) \/ (o_core_minimization o = false /\ o_core_trimming o = false) ->
  exists b s1, boosts T bs s0 = (Done b, s1).
Proof.
  intros I SP T TS i o al s0 bs HI HD Hn Hb Hc Hd. apply (cb_finishes TS i o HI HD al); auto.
  intros [H1 H2]. destruct Hd as [(a & Ha)|[H3 H4]]; [exact (H1 a Ha)|]. rewrite H3, H4 in H2.
  destruct H2; discriminate.
Qed.
Print Assumptions C26_finishes.

(** *** Examples *)
Definition cb_kopts (e : enum_opts) (reserve trim min exh : bool) : kopts :=
  mkOpts e reserve true trim min exh true default_blocking_clause.
Definition ex_bs rebase reset : list bstep :=
  [BAttach; Boost (env true 300) (mkCb rebase reset); BDetach].
Definition ex_boost i o al bs : option (res bool * list (option Z)) :=
  match alg_new (I := GI) al i o with
  | Some s => let '(r, s1) := boosts TI bs s in
      Some (r, map (fun ob => externalize_one ob (obj_lb ob)) (p_objs (s_prob s1)))
  | None => None
  end.
Example ex_distinct : lits_distinct ex_inst.
Proof. intros r [<-|[<-|[]]]; repeat constructor; cbn; intuition discriminate. Qed.
Example ex_bs_ok o b c : o_store_cnf o = true -> boosts_ok o (ex_bs b c).
Proof. intros H. repeat constructor; try apply brute_ok; try apply brute_core_nodup; auto. Qed.
Example C26_example : ex_boost ex_inst (cb_kopts NoEnum false false false false) APMinimal (ex_bs false false) =
  Some (Done true, [Some 1%Z; Some (-1)%Z]).
Proof. vm_compute. reflexivity. Qed.
Example C26_example_options : ex_boost ex_inst (cb_kopts NoEnum true true true true) ABiOptSat (ex_bs true true ++ ex_bs false true) =
  Some (Done true, [Some 1%Z; Some (-1)%Z]).
Proof. vm_compute. reflexivity. Qed.
Definition cb_bad : inst := mkInst [[pos 0; pos 1]; [neg 0; pos 1]; [neg 1]] [ex_o1; ex_o2] ex_vm.
Example C26_example_infeasible : ex_boost cb_bad (cb_kopts NoEnum false false false false) APMinimal (ex_bs false false) =
  Some (Done false, [Some 0%Z; Some (-1)%Z]).
Proof. vm_compute. reflexivity. Qed.

(** Core boosting does not look at instances whose objectives are all constant: it returns
    [true] even if there is no solution *)
Definition cb_const : inst := mkInst [[pos 0]; [neg 0]] [([], 2%Z); ([], 0%Z)] (mkVm 1 0 0).
Theorem C26_decides_needs_objective_refuted : exists s0 s1,
  inst_ok cb_const /\ lits_distinct cb_const /\ (forall a, ~ feasible (in_cls cb_const) a) /\
  alg_new (I := GI) APMinimal cb_const (cb_kopts NoEnum true false false false) = Some s0 /\
  alg_core_boost TI (env true 10) (mkCb false false) s0 = (Done true, s1).
Proof.
  destruct (alg_new (I := GI) APMinimal cb_const (cb_kopts NoEnum true false false false)) as [s0|] eqn:e;
    [|vm_compute in e; discriminate].
  exists s0, (snd (alg_core_boost TI (env true 10) (mkCb false false) s0)). split; [|split; [|split; [|split]]].
  - constructor; cbn; try lia.
    + intros r v [<-|[<-|[]]] [].
    + repeat constructor; now left.
    + repeat constructor; cbn; unfold isize_max, isize_min; lia.
  - intros r [<-|[<-|[]]]; constructor.
  - intros a H. pose proof (H [pos 0] (or_introl eq_refl)) as H1.
    pose proof (H [neg 0] (or_intror (or_introl eq_refl))) as H2. unfold clause_true in *. cbn in *.
    unfold lit_true in *. cbn in *. destruct (a 0); discriminate.
  - reflexivity.
  - vm_compute in e. injection e as <-. vm_compute. reflexivity.
Qed.
Print Assumptions C26_decides_needs_objective_refuted.

(** ** C27: core boosting before P-minimal and lower-bounding (and BiOptSat where it works) *)
Theorem C27_exact : forall I (SP : enc_spec I) T (TS : tot_spec SP T) i o al s0 bs s1 E l s',
  inst_ok i -> lits_distinct i -> enum_ok i o -> alg_new (I := I) al i o = Some s0 -> boosts_ok o bs ->
  boosts T bs s0 = (Done true, s1) -> (al = ABiOptSat -> no_fixed_cost i) ->
  oracle_ok E -> lims_pos l -> alg_solve al E l s1 = (Done tt, s') ->
  exact_front i (s_front s') /\ sound_front i (s_front s').
Proof.
  intros I SP T TS i o al s0 bs s1 E l s' HI HD HE Hn Hb Hr Ha HO Hl Hs.
  pose proof (cb_first TS i o HI HD al s0 bs Hn Hb s1 Hr Ha E l HE HO Hl) as G. now rewrite Hs in G.
Qed.
Print Assumptions C27_exact.
Theorem C27_sound : forall I (SP : enc_spec I) T (TS : tot_spec SP T) i o al s0 bs s1 E l,
  inst_ok i -> lits_distinct i -> enum_ok i o -> alg_new (I := I) al i o = Some s0 -> boosts_ok o bs ->
  boosts T bs s0 = (Done true, s1) -> (al = ABiOptSat -> no_fixed_cost i) ->
  oracle_ok E -> lims_pos l -> sound_front i (s_front (snd (alg_solve al E l s1))).
Proof.
  intros I SP T TS i o al s0 bs s1 E l HI HD HE Hn Hb Hr Ha HO Hl.
  pose proof (cb_first TS i o HI HD al s0 bs Hn Hb s1 Hr Ha E l HE HO Hl) as G.
  destruct (alg_solve al E l s1) as [[u|x] s']; apply G.
Qed.
Print Assumptions C27_sound.
Theorem C27_terminates : forall I (SP : enc_spec I) T (TS : tot_spec SP T) i o al s0 bs s1 E,
  inst_ok i -> lits_distinct i -> enum_ok i o -> alg_new (I := I) al i o = Some s0 -> boosts_ok o bs ->
  boosts T bs s0 = (Done true, s1) -> (al = ABiOptSat -> no_fixed_cost i) ->
  oracle_ok E -> calm E -> iter_bound i < ev_fuel E ->
  exists s', alg_solve al E lims_none s1 = (Done tt, s').
Proof.
  intros I SP T TS i o al s0 bs s1 E HI HD HE Hn Hb Hr Ha.
  exact (cb_term TS i o HI HD al s0 bs Hn Hb s1 Hr Ha E HE).
Qed.
Print Assumptions C27_terminates.
Theorem C27_enumerates_all : forall I (SP : enc_spec I) T (TS : tot_spec SP T) i o al s0 bs s1 E l s',
  inst_ok i -> lits_distinct i -> enum_ok i o -> o_enum o = Solutions None ->
  alg_new (I := I) al i o = Some s0 -> boosts_ok o bs ->
  boosts T bs s0 = (Done true, s1) -> (al = ABiOptSat -> no_fixed_cost i) ->
  oracle_ok E -> lims_pos l -> alg_solve al E l s1 = (Done tt, s') ->
  forall nd, In nd (s_front s') -> NoDup (nd_sols nd) /\
    forall sol, In sol (nd_sols nd) <-> valid_solution (in_cls i) (in_objs i) (n_orig i) (nd_costs nd) sol.
Proof.
  intros I SP T TS i o al s0 bs s1 E l s' HI HD HE Hen Hn Hb Hr Ha HO Hl Hs.
  exact (cb_enum_all TS i o HI HD al s0 bs Hn Hb s1 Hr Ha E l s' HE HO Hl Hs Hen).
Qed.
Print Assumptions C27_enumerates_all.
(** over histories of further calls, the reported front stays sound *)
Theorem C27_histories : forall I (SP : enc_spec I) T (TS : tot_spec SP T) i o al s0 bs s1 h,
  inst_ok i -> lits_distinct i -> al <> ABiOptSat -> o_enum o = NoEnum ->
  alg_new (I := I) al i o = Some s0 -> boosts_ok o bs ->
  boosts T bs s0 = (Done true, s1) -> run_ok h -> sound_front i (s_front (run al h s1)).
Proof.
  intros I SP T TS i o al s0 bs s1 h HI HD Ha Hen Hn Hb Hr Hh.
  apply (cb_history TS i o HI HD al s0 bs Hn Hb s1 Hr); auto; contradiction.
Qed.
Print Assumptions C27_histories.

Definition ex_boosted i o al bs E l : option (res unit * list (list Z)) :=
  match alg_new (I := GI) al i o with
  | Some s => let '(r, s1) := boosts TI bs s in
      match r with
      | Done true => let '(r, s2) := alg_solve al E l s1 in Some (r, map nd_costs (s_front s2))
      | _ => None
      end
  | None => None
  end.
Example C27_example_pmin : ex_boosted ex_inst (cb_kopts NoEnum false false false false) APMinimal (ex_bs false false) (env true 300) lims_none = Some (Done tt, [[3; 0]; [1; 1]; [5; (-1)]]%Z).
Proof. vm_compute. reflexivity. Qed.
Example C27_example_lb : ex_boosted ex_inst (cb_kopts NoEnum true true true true) ALowerBounding (ex_bs true true) (env false 300) lims_none = Some (Done tt, [[3; 0]; [1; 1]; [5; (-1)]]%Z).
Proof. vm_compute. reflexivity. Qed.
Example C27_example_bi : ex_boosted ex_inst (cb_kopts (Solutions None) true false true false) ABiOptSat (ex_bs false true) (env false 300) lims_none = Some (Done tt, [[1; 1]; [3; 0]; [5; (-1)]]%Z).
Proof. vm_compute. reflexivity. Qed.
(** both objectives of the example vary over the solutions *)
Example ex_no_fixed : no_fixed_cost ex_inst.
Proof.
  intros r Hr H. exfalso.
  pose (a := fun v : nat => match v with 0 => true | 1 => true | 3 => true | _ => false end).
  pose (b := fun v : nat => match v with 0 => true | 2 => true | _ => false end).
  assert (Ha : feasible (in_cls ex_inst) a) by (intros c [<-|[<-|[<-|[]]]]; reflexivity).
  assert (Hb : feasible (in_cls ex_inst) b) by (intros c [<-|[<-|[<-|[]]]]; reflexivity).
  pose (c := fun v : nat => match v with 0 => true | 1 => true | _ => false end).
  assert (Hc : feasible (in_cls ex_inst) c) by (intros x [<-|[<-|[<-|[]]]]; reflexivity).
  pose proof (H a c Ha Hc) as G1. destruct Hr as [<-|[<-|[]]]; cbn in G1; discriminate.
Qed.

(** ** C28: BiOptSat after core boosting *)
(** Whenever core boosting leaves the first objective with a constant encoding although the
    objective costs something in every solution, BiOptSat never finishes: whatever the oracle
    answers, it only stops because of the user, an external failure, or, with debug
    assertions ([dbg]), a panic.  Without assertions and undisturbed it runs for ever. *)
Theorem C28_never_finishes : forall I (SP : enc_spec I) T (TS : tot_spec SP T) i o s0 bs s1 dbg E l ob,
  inst_ok i -> lits_distinct i -> alg_new (I := I) ABiOptSat i o = Some s0 -> boosts_ok o bs ->
  boosts T bs s0 = (Done true, s1) -> (exists a, feasible (in_cls i) a) ->
  nth_error (p_objs (s_prob s1)) 0 = Some ob -> nth_error (p_encs (s_prob s1)) 0 = Some EConstant ->
  (forall a, feasible (in_cls i) a -> 0 < icost ob a) ->
  oracle_ok E ->
  (lims_pos l -> match fst (bi_solve_r dbg E l s1) with
                 | Done _ => False
                 | Exit x => good_exit x \/ x = ENoFuel \/ (dbg = true /\ x = EPanic)
                 end) /\
  (calm E -> fst (bi_solve_r false E lims_none s1) = Exit ENoFuel).
Proof.
  intros I SP T TS i o s0 bs s1 dbg E l ob HI HD Hn Hb Hr Hf Ho He Hp HO.
  assert (HS : start SP i o s1) by exact (cb_start TS i o HI HD ABiOptSat s0 bs Hn Hb s1 Hr).
  assert (Hlen : length (p_encs (s_prob s1)) = 2).
  { rewrite (wf_len _ _ _ (inv_wf _ _ _ _ _ (sa_inv _ _ _ _ HS))).
    pose proof (sa_objs _ _ _ _ HS) as G. unfold sim in G. apply (f_equal (@List.length _)) in G.
    rewrite !map_length, Ext.build_length in G. rewrite G. exact (new_two i o s0 Hn). }
  split.
  - intros Hl. exact (bi_never_done SP i o s1 dbg E l ob HS HO Hl Hf Hlen Ho He Hp).
  - intros HC. exact (bi_runs_on SP i o s1 E ob HS HO HC Hf Hlen Ho He Hp).
Qed.
Print Assumptions C28_never_finishes.

(** Clauses x0 and x1 | x2; objectives x0 and x1 + 2 x2.  Front: (1,1). *)
Definition dv_inst : inst :=
  mkInst [[pos 0]; [pos 1; pos 2]] [([(pos 0, 1)], 0%Z); ([(pos 1, 1); (pos 2, 2)], 0%Z)] (mkVm 3 2 2).
Definition dv_bs := [Boost (env true 50) (mkCb false false)].
Definition dv_opts := cb_kopts NoEnum true false false false.
Example dv_ok : inst_ok dv_inst.
Proof.
  constructor.
  - cbn. lia.
  - cbn. lia.
  - intros v H. cbn in *. lia.
  - intros r v [<-|[<-|[]]] H; cbn in *; lia.
  - constructor; [|constructor; [|constructor]].
    + split; [left; repeat constructor; cbn; intuition discriminate|].
      right. exists (pos 0, 1). split; [now left|discriminate].
    + split; [left; repeat constructor; cbn; intuition discriminate|].
      right. exists (pos 1, 1). split; [now left|discriminate].
  - constructor; [|constructor; [|constructor]]; repeat split; cbn; unfold isize_max, isize_min; lia.
Qed.
Example dv_distinct : lits_distinct dv_inst.
Proof. intros r [<-|[<-|[]]]; repeat constructor; cbn; intuition discriminate. Qed.
Definition dv_look (x : option (st GI)) (f : st GI -> res bool * st GI) : option (option objective * bool) :=
  match x with
  | Some s0 => match f s0 with
    | (Done true, s1) => Some (nth_error (p_objs (s_prob s1)) 0,
        match nth_error (p_encs (s_prob s1)) 0 with Some EConstant => true | _ => false end)
    | _ => None end
  | None => None
  end.
Lemma dv_look_spec x f ob : dv_look x f = Some (Some ob, true) ->
  exists s0 s1, x = Some s0 /\ f s0 = (Done true, s1) /\ nth_error (p_objs (s_prob s1)) 0 = Some ob /\
    nth_error (p_encs (s_prob s1)) 0 = Some EConstant.
Proof.
  unfold dv_look. destruct x as [s0|]; [|discriminate]. intros H. destruct (f s0) as [[[|]|] s1] eqn:e; try discriminate.
  exists s0, s1. split; [reflexivity|]. split; [exact e|]. split; [congruence|].
  destruct (nth_error (p_encs (s_prob s1)) 0) as [[]|]; try discriminate. reflexivity.
Qed.
Example dv_run : dv_look (alg_new ABiOptSat dv_inst dv_opts) (boosts TI dv_bs) =
  Some (Some (OUnweighted 0 1 [pos 0] 0 1), true).
Proof. vm_compute. reflexivity. Qed.
Theorem C28_boosting_keeps_termination_refuted : exists s0 s1,
  inst_ok dv_inst /\ lits_distinct dv_inst /\ (exists a, feasible (in_cls dv_inst) a) /\
  boosts_ok dv_opts dv_bs /\
  alg_new (I := GI) ABiOptSat dv_inst dv_opts = Some s0 /\ boosts TI dv_bs s0 = (Done true, s1) /\
  (* release build, undisturbed: every fuel is used up *)
  (forall E, oracle_ok E -> calm E -> fst (bi_solve_r false E lims_none s1) = Exit ENoFuel) /\
  (* debug build: never finishes either, it panics or runs on *)
  (forall E l, oracle_ok E -> lims_pos l ->
     match fst (alg_solve ABiOptSat E l s1) with
     | Done _ => False
     | Exit x => good_exit x \/ x = ENoFuel \/ x = EPanic
     end).
Proof.
  destruct (dv_look_spec _ _ _ dv_run) as (s0 & s1 & e0 & e1 & Ho & He).
  assert (Hb : boosts_ok dv_opts dv_bs).
  { repeat constructor; try apply brute_ok; try apply brute_core_nodup; discriminate. }
  assert (Hf : exists a, feasible (in_cls dv_inst) a).
  { exists (fun _ => true). intros c [<-|[<-|[]]]; reflexivity. }
  assert (Hp : forall a, feasible (in_cls dv_inst) a -> 0 < icost (OUnweighted 0 1 [pos 0] 0 1) a).
  { intros a Ha. specialize (Ha [pos 0] (or_introl eq_refl)). unfold clause_true, lit_true, icost in *. cbn in *.
    unfold lit_true. cbn. destruct (a 0); [cbn; lia|discriminate]. }
  exists s0, s1.
  split; [exact dv_ok|]. split; [exact dv_distinct|]. split; [exact Hf|]. split; [exact Hb|].
  split; [exact e0|]. split; [exact e1|]. split.
  - intros E HO. apply (C28_never_finishes GI GS TI TS dv_inst dv_opts s0 dv_bs s1 false E lims_none _
      dv_ok dv_distinct e0 Hb e1 Hf Ho He Hp HO).
  - intros E l HO Hl.
    destruct (C28_never_finishes GI GS TI TS dv_inst dv_opts s0 dv_bs s1 true E l _
      dv_ok dv_distinct e0 Hb e1 Hf Ho He Hp HO) as [G _]. specialize (G Hl).
    change (alg_solve ABiOptSat E l s1) with (bi_solve_r true E l s1).
    destruct (fst (bi_solve_r true E l s1)); [exact G|]. tauto.
Qed.
Print Assumptions C28_boosting_keeps_termination_refuted.
(** Without core boosting BiOptSat finishes on this instance; with core boosting P-minimal
    does, and BiOptSat panics (debug build) or runs out of any fuel (release build) *)
Example C28_without_boosting : ex_boosted dv_inst dv_opts ABiOptSat [] (env true 50) lims_none =
  Some (Done tt, [[1; 1]]%Z).
Proof. vm_compute. reflexivity. Qed.
Example C28_pminimal : ex_boosted dv_inst dv_opts APMinimal dv_bs (env true 50) lims_none =
  Some (Done tt, [[1; 1]]%Z).
Proof. vm_compute. reflexivity. Qed.
Example C28_debug : ex_boosted dv_inst dv_opts ABiOptSat dv_bs (env true 50) lims_none =
  Some (Exit EPanic, []).
Proof. vm_compute. reflexivity. Qed.

(** ** C29: core boosting after solving *)
(** Whatever was called before, with whatever outcome: once [solve] has been called, core
    boosting is rejected and changes nothing at all. *)
Theorem C29_rejected_after_solve : forall I (SP : enc_spec I) T (TS : tot_spec SP T) al (s : st I) h E opts,
  (exists E' l, In (GStep (Solve E' l)) h) ->
  alg_core_boost T E opts (grun T al h s) = (Exit (EErr ErrApi), grun T al h s).
Proof. intros I SP T TS al s h E opts. exact (boost_rejected TS al h s E opts). Qed.
Print Assumptions C29_rejected_after_solve.
(** Before the first [solve], core boosting is never rejected for this reason: see C26. *)
Definition ex_late (h : list gstep) : option (option exit * list (list Z)) :=
  match alg_new (I := GI) APMinimal ex_inst (cb_kopts NoEnum false false false false) with
  | Some s => let '(r, s') := alg_core_boost TI (env true 300) (mkCb false false) (grun TI APMinimal h s) in
      Some (match r with Done _ => None | Exit x => Some x end, map nd_costs (s_front s'))
  | None => None
  end.
Example C29_example : ex_late [GStep Attach; GStep (Solve (env true 300) ex_lims)] =
  Some (Some (EErr ErrApi), [[3; 0]]%Z).
Proof. vm_compute. reflexivity. Qed.
Example C29_example_before : ex_late [GStep Attach; GBoost (env true 300) (mkCb true true)] = Some (None, []).
Proof. vm_compute. reflexivity. Qed.

(** ** C30: resetting the oracle *)
(** In any state reached by any calls with any outcome: if the clauses were stored, the reset
    only fails if the logger does, leaves exactly the clauses of the instance, and the next
    fresh variable is above all variables of the instance (and as small as possible);
    objectives, encodings, front and statistics are kept.  Otherwise it is rejected. *)
Theorem C30_reset : forall I (SP : enc_spec I) T (TS : tot_spec SP T) al i o s0 h E,
  inst_ok i -> alg_new (I := I) al i o = Some s0 -> o_store_cnf o = true ->
  let s := grun T al h s0 in
  match reset_oracle E true s with
  | (Done _, s') =>
      p_cls (s_prob s') = in_cls i /\
      vm_next (p_vm (s_prob s')) = S (vm_max_enc (in_vm i)) /\
      (forall v, In v (cls_vars (in_cls i)) \/
                 (exists r, In r (in_objs i) /\ In v (lits_vars (map fst (fst r)))) ->
                 v < vm_next (p_vm (s_prob s'))) /\
      p_objs (s_prob s') = p_objs (s_prob s) /\ p_encs (s_prob s') = p_encs (s_prob s) /\
      s_front s' = s_front s /\ s_stats s' = s_stats s
  | (Exit x, _) => x = EErr ErrLogger /\ exists n, ev_logfail E n = true
  end.
Proof.
  intros I SP T TS al i o s0 h E HI Hn Hc s.
  destruct (new_static al i o s0 Hn) as (N1 & N2 & N3 & _).
  assert (N4 : vm_max_enc (p_vm (s_prob s0)) < vm_next (p_vm (s_prob s0))).
  { apply (wf_enc SP (Feas i)). apply (inv_wf SP (Feas i) (s_prob s0) (Feas i) (fun _ => True)).
    apply (sa_inv SP i o). apply (rd_start i o). apply (pr_ready i o), (prep_new i o HI al), Hn. }
  destruct (static_grun TS al h s0) as [G1 G2 _ _ _ _ _ G6 G7 _ _]. fold s in G1, G2, G6, G7.
  rewrite Hc in N1.
  pose proof (reset_any E s (in_cls i) ltac:(congruence) ltac:(congruence)) as R.
  destruct (reset_oracle E true s) as [[u|x] s']; [|exact R]. destruct R as (R1 & R2 & R3).
  specialize (G7 N4).
  assert (Hnext : vm_next (p_vm (s_prob s')) = S (vm_max_enc (in_vm i))).
  { rewrite R1. cbn [p_vm set_vm set_cls vm_forget_from vm_next]. rewrite <- N3, <- G6. lia. }
  rewrite Hnext, R1. repeat (split; [assumption || reflexivity|]). split; [|auto].
  intros v [Hv|(r & Hr & Hv)].
  - pose proof (io_cls _ HI v Hv). lia.
  - pose proof (io_objs _ HI r v Hr Hv). lia.
Qed.
Print Assumptions C30_reset.
Theorem C30_rejected : forall I (SP : enc_spec I) T (TS : tot_spec SP T) al i o s0 h E b,
  alg_new (I := I) al i o = Some s0 -> o_store_cnf o = false ->
  reset_oracle E b (grun T al h s0) = (Exit (EErr ErrApi), grun T al h s0).
Proof.
  intros I SP T TS al i o s0 h E b Hn Hc. destruct (new_static al i o s0 Hn) as (_ & N2 & _).
  pose proof (sn_opts _ _ _ (static_grun TS al h s0)) as G.
  unfold reset_oracle, bind, gets. rewrite G, N2, Hc. reflexivity.
Qed.
Print Assumptions C30_rejected.

(** ** C18: the numbers of objectives and clauses *)
(** After any history, core boosting included, the statistics still give the numbers of
    objectives, of objectives with literals and of clauses of the instance, and the number of
    calls of [solve]. *)
Theorem C18_instance_numbers : forall I (SP : enc_spec I) T (TS : tot_spec SP T) al i o s0 h,
  alg_new (I := I) al i o = Some s0 ->
  let t := s_stats (grun T al h s0) in
  n_objs t = length (in_objs i) /\
  n_real_objs t = length (filter (fun r : raw_obj => match fst r with [] => false | _ => true end) (in_objs i)) /\
  n_orig_clauses t = length (in_cls i) /\
  n_solve_calls t = length (filter (fun x => match x with GStep (Solve _ _) => true | _ => false end) h).
Proof.
  intros I SP T TS al i o s0 h Hn t.
  destruct (static_grun TS al h s0) as [_ _ G1 G2 G3 G4 _ _ _ _ _].
  destruct (new_numbers al i o s0 Hn) as (N1 & N2 & N3).
  destruct (new_static al i o s0 Hn) as (_ & _ & _ & N4).
  unfold t. rewrite G1, G2, G3, G4, N1, N2, N3, N4. unfold gsolves. repeat split. apply Nat.add_0_r.
Qed.
Print Assumptions C18_instance_numbers.

(** ** C45: the reformulation keeps the objective *)
(** After core-guided search for a (non-empty) objective on a new or boosted solver: for every
    solution of the instance in which the totalizer outputs have exactly their meaning, the
    value of the reformulated objective is the value of the objective (in the user's units);
    in every assignment that satisfies the solver's clauses it is at least that (in internal
    units); and the offset is the optimum. *)
Theorem C45_reformulation : forall I (SP : enc_spec I) T (TS : tot_spec SP T) i o al s0 bs s1 E k r ob rf d sol s',
  inst_ok i -> lits_distinct i -> alg_new (I := I) al i o = Some s0 -> boosts_ok o bs ->
  boosts T bs s0 = (Done true, s1) -> oracle_ok E -> core_nodup E ->
  nth_error (in_objs i) k = Some r -> nth_error (p_objs (s_prob s1)) k = Some ob -> fst r <> [] ->
  oll T E (reform_of ob) (ti_new T) s1 = (Done (rf, d, Some sol), s') ->
  (forall a, feasible (in_cls i) a -> tb_exact SP T TS d a ->
     externalize_one ob (reform_value TS rf d a) = Some (obj_value r a)) /\
  (forall a, sat a (p_cls (s_prob s')) -> icost ob a <= reform_value TS rf d a) /\
  (exists z, externalize_one ob (rf_offset rf) = Some z /\ optimum i r z).
Proof.
  intros I SP T TS i o al s0 bs s1 E k r ob rf d sol s' HI HD Hn Hb Hr HO HN.
  apply (oll_value TS i o HI HD E s1 k r ob rf d sol s' HO HN).
  exact (pr_ready _ _ _ (cb_prep TS i o HI HD al s0 bs Hn Hb s1 Hr)).
Qed.
Print Assumptions C45_reformulation.
(** Weights 1, 2 and 4, at least two of the literals true: the optimum 3 is the offset, the
    literal of weight 4 is left with weight 2, and two totalizer outputs have weight 1. *)
Definition ol_inst : inst :=
  mkInst [[pos 0; pos 1]; [pos 1; pos 2]; [pos 0; pos 2]] [([(pos 0, 1); (pos 1, 2); (pos 2, 4)], 0%Z)] (mkVm 3 2 2).
Definition ol_look : option (option (nat * list (lit * nat) * list (lit * (nat * nat)))) :=
  match alg_new (I := GI) APMinimal ol_inst (cb_kopts NoEnum true false false true) with
  | Some s => match nth_error (p_objs (s_prob s)) 0 with
    | Some ob => let '(r, s') := oll TI (env true 50) (reform_of ob) (ti_new TI) s in
        Some (match r with
              | Done (rf, _, Some _) => Some (rf_offset rf, in_iter (rf_inact rf),
                  map (fun lr => (fst lr, (rd_oidx (snd lr), rd_weight (snd lr)))) (rf_refs rf))
              | _ => None end)
    | None => None end
  | None => None
  end.
Example C45_example : ol_look =
  Some (Some (3, [(pos 2, 2); (pos 11, 1); (pos 12, 1)], [(pos 11, (2, 1)); (pos 12, (1, 1))])).
Proof. vm_compute. reflexivity. Qed.
