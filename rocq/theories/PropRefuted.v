(** * Claims that are false of the code, with explicit runs of the model

    Every theorem here names a reasonable expectation and gives a run that violates it.
    The runs are computed with the concrete encoding [CI] (which satisfies [enc_spec], see
    [Inst.CS]) and a brute-force oracle (which satisfies [oracle_ok], see [Inst.brute_ok]). *)
From Coq Require Import List Bool Arith Lia ZArith.
From Verif Require Import Base BaseLemmas Spec MTypes MKernel MPMinimal MLowerBounding MBiOptSat
  EncSpec Inst ApiSpec LogSpec ExInst ApiTop PropFront.
Import ListNotations.

(** [shown r c]: the run is done and reports the costs [c] *)
Lemma shown r c : ex_costs r = Some (Done tt, c) ->
  exists s', r = Some (Done tt, s') /\ map nd_costs (s_front s') = c.
Proof. destruct r as [[[[]|x] s']|]; cbn; intros [= <-]; eauto. Qed.

(** A history of [solve] calls on a new solver: results and costs after each call *)
Fixpoint ex_calls al (h : list (environ * limits)) (s : st CI) : list (res unit * list (list Z)) :=
  match h with
  | [] => []
  | (E, l) :: h' => let r := alg_solve al E l s in
      (fst r, map nd_costs (s_front (snd r))) :: ex_calls al h' (snd r)
  end.
Definition ex_hist_run al i e h :=
  match alg_new (I := CI) al i (ex_opts e) with Some s => Some (ex_calls al h s) | None => None end.
Lemma calls_two al i e E1 l1 E2 l2 r1 c1 r2 c2 :
  ex_hist_run al i e [(E1, l1); (E2, l2)] = Some [(r1, c1); (r2, c2)] ->
  exists s s1 s2, alg_new (I := CI) al i (ex_opts e) = Some s /\
    alg_solve al E1 l1 s = (r1, s1) /\ alg_solve al E2 l2 s1 = (r2, s2) /\
    map nd_costs (s_front s1) = c1 /\ map nd_costs (s_front s2) = c2.
Proof.
  unfold ex_hist_run. destruct (alg_new al i (ex_opts e)) as [s|] eqn:H; [|discriminate].
  cbn [ex_calls]. intros G. destruct (alg_solve al E1 l1 s) as [r1' s1] eqn:G1. cbn [fst snd] in G.
  destruct (alg_solve al E2 l2 s1) as [r2' s2] eqn:G2. cbn [fst snd] in G. injection G as <- <- <- <-.
  exists s, s1, s2. auto.
Qed.
(** The points of the example front *)
Lemma ex_front_points c : pareto_optimal (in_cls ex_inst) (in_objs ex_inst) c <->
  In c [[3; 0]; [1; 1]; [5; -1]]%Z.
Proof.
  assert (H : ex_costs (ex_first APMinimal NoEnum ex_env lims_none) = Some (Done tt, [[3; 0]; [1; 1]; [5; -1]]%Z))
    by (vm_compute; reflexivity).
  apply shown in H. destruct H as (s' & H & Hc).
  destruct (top_exact CS ex_inst _ ex_ok (ex_enum NoEnum) _ _ _ s' (brute_ok _ _) lims_none_pos H) as ([_ G] & _).
  rewrite <- Hc. symmetry. apply G.
Qed.

(** ** C15: PMCS enumeration with objective variables that are not original variables *)
(** One original variable x0, one relaxation variable x1 for the soft clause x0:
    clause x0|x1, objectives x0 and x1.  Front: (0,1) and (1,0). *)
Definition relaxed_inst : inst :=
  mkInst [[pos 0; pos 1]] [([(pos 0, 1)], 0%Z); ([(pos 1, 1)], 0%Z)] (mkVm 2 0 1).
Lemma relaxed_ok : inst_ok relaxed_inst.
Proof.
  constructor; cbn; try lia.
  - intros r v [<-|[<-|[]]] H; cbn in *; lia.
  - constructor; [|constructor; [|constructor]]; (split; [left; repeat constructor; cbn; intuition|]);
      right; eexists; (split; [left; reflexivity|discriminate]).
  - constructor; [|constructor; [|constructor]]; repeat split; cbn; unfold isize_max, isize_min; lia.
Qed.
Lemma relaxed_optimal : pareto_optimal (in_cls relaxed_inst) (in_objs relaxed_inst) [1; 0]%Z.
Proof.
  split.
  - exists (fun v => Nat.eqb v 0). split; [|reflexivity]. intros c [<-|[]]. reflexivity.
  - intros b Hb [Hw Hne]. specialize (Hb _ (or_introl eq_refl)). cbn in Hb, Hw, Hne.
    unfold obj_value in Hw, Hne; cbn in Hw, Hne. unfold lit_true in *; cbn in *.
    inversion Hw as [|? ? ? ? H1 H2]; subst. inversion H2 as [|? ? ? ? H3 _]; subst.
    destruct (b 0), (b 1); cbn in *; try lia; try discriminate. now apply Hne.
Qed.
Theorem C15_pmcs_relaxation_refuted :
  exists (i : inst) (o : kopts) (E : environ) (s' : st CI),
    inst_ok i /\ oracle_ok E /\ o_enum o = PMCSs None /\
    first_solve APMinimal i o E lims_none = Some (Done tt, s') /\
    ~ exact_front i (s_front s').
Proof.
  assert (H : ex_costs (first_solve (I := CI) APMinimal relaxed_inst (ex_opts (PMCSs None)) ex_env lims_none)
    = Some (Done tt, [[0; 1]]%Z)) by (vm_compute; reflexivity).
  apply shown in H. destruct H as (s' & H & Hc). exists relaxed_inst, (ex_opts (PMCSs None)), ex_env, s'.
  split; [apply relaxed_ok|]. split; [apply brute_ok|]. split; [reflexivity|]. split; [exact H|].
  intros [_ G]. rewrite Hc in G. specialize (G [1; 0]%Z). apply proj2 in G. specialize (G relaxed_optimal).
  destruct G as [G|[]]. discriminate.
Qed.
Print Assumptions C15_pmcs_relaxation_refuted.
(** ... while without enumeration the same instance gives both points (C02) *)
Example C15_without_enumeration :
  ex_costs (first_solve (I := CI) APMinimal relaxed_inst (ex_opts NoEnum) ex_env lims_none)
    = Some (Done tt, [[0; 1]; [1; 0]]%Z).
Proof. vm_compute. reflexivity. Qed.

(** ** C17: a zero limit *)
Theorem C17_zero_limit_refuted :
  exists (i : inst) (o : kopts) (E : environ), inst_ok i /\ enum_ok i o /\ oracle_ok E /\
    forall l, In l [mkLims (Some 0) None None None; mkLims None (Some 0) None None;
                    mkLims None None (Some 0) None; mkLims None None None (Some 0)] ->
    forall al, exists s', first_solve (I := CI) al i o E l = Some (Exit EPanic, s').
Proof.
  exists ex_inst, (ex_opts NoEnum), ex_env. split; [apply ex_ok|]. split; [apply ex_enum|]. split; [apply brute_ok|].
  assert (G : forall r : option (res unit * st CI), option_map fst r = Some (Exit EPanic) ->
    exists s', r = Some (Exit EPanic, s')).
  { intros [[r s']|]; cbn; [|discriminate]. intros [= ->]. eauto. }
  intros l [<-|[<-|[<-|[<-|[]]]]] []; apply G; vm_compute; reflexivity.
Qed.
Print Assumptions C17_zero_limit_refuted.

(** ** C23: duplicate literals with different weights *)
Theorem C23_duplicate_literals_refuted :
  exists (r : raw_obj) (a : asg) (k : nat),
    externalize_one (obj_new (fst r) (snd r) k) (sol_cost (obj_new (fst r) (snd r) k) [Some (a 0)])
      = Some 2%Z /\ obj_value r a = 3%Z.
Proof. exists ([(pos 0, 1); (pos 0, 2)], 0%Z), (fun _ => true), 0. split; reflexivity. Qed.
Print Assumptions C23_duplicate_literals_refuted.

(** ** C39: resuming after an early stop loses Pareto points *)
Theorem C39_resume_loses_points_refuted : forall al, In al [APMinimal; ALowerBounding] ->
  exists (i : inst) (o : kopts) (E : environ) (l : limits) (s s1 s2 : st CI),
    inst_ok i /\ o_enum o = NoEnum /\ oracle_ok E /\ lims_pos l /\
    alg_new al i o = Some s /\ alg_solve al E l s = (Exit (ETerm OracleCallsLimit), s1) /\
    alg_solve al E lims_none s1 = (Done tt, s2) /\ ~ exact_front i (s_front s2).
Proof.
  assert (G : forall c al s s1 s2 l, lims_pos l -> In c [[3; 0]; [1; 1]; [5; -1]]%Z -> ~ In c (map nd_costs (s_front s2)) ->
    alg_new (I := CI) al ex_inst (ex_opts NoEnum) = Some s /\
    alg_solve al ex_env l s = (Exit (ETerm OracleCallsLimit), s1) /\
    alg_solve al ex_env lims_none s1 = (Done tt, s2) ->
    exists (i : inst) (o : kopts) (E : environ) (l : limits) (s s1 s2 : st CI),
      inst_ok i /\ o_enum o = NoEnum /\ oracle_ok E /\ lims_pos l /\
      alg_new al i o = Some s /\ alg_solve al E l s = (Exit (ETerm OracleCallsLimit), s1) /\
      alg_solve al E lims_none s1 = (Done tt, s2) /\ ~ exact_front i (s_front s2)).
  { intros c al s s1 s2 l Hl Hc Hn (H1 & H2 & H3). exists ex_inst, (ex_opts NoEnum), ex_env, l, s, s1, s2.
    split; [apply ex_ok|]. split; [reflexivity|]. split; [apply brute_ok|]. split; [exact Hl|].
    split; [exact H1|]. split; [exact H2|]. split; [exact H3|]. intros [_ F]. apply Hn, F, ex_front_points, Hc. }
  intros al [<-|[<-|[]]].
  - assert (H : ex_hist_run APMinimal ex_inst NoEnum [(ex_env, mkLims None None None (Some 2)); (ex_env, lims_none)]
      = Some [(Exit (ETerm OracleCallsLimit), []); (Done tt, [[1; 1]; [5; -1]]%Z)]) by (vm_compute; reflexivity).
    apply calls_two in H. destruct H as (s & s1 & s2 & H1 & H2 & H3 & _ & H5).
    eapply (G [3; 0]%Z); [| | |split; [exact H1|split; [exact H2|exact H3]]].
    + repeat split; discriminate.
    + now left.
    + rewrite H5. cbn. intuition discriminate.
  - assert (H : ex_hist_run ALowerBounding ex_inst NoEnum [(ex_env, mkLims None None None (Some 6)); (ex_env, lims_none)]
      = Some [(Exit (ETerm OracleCallsLimit), []); (Done tt, [[3; 0]; [5; -1]]%Z)]) by (vm_compute; reflexivity).
    apply calls_two in H. destruct H as (s & s1 & s2 & H1 & H2 & H3 & _ & H5).
    eapply (G [1; 1]%Z); [| | |split; [exact H1|split; [exact H2|exact H3]]].
    + repeat split; discriminate.
    + now right; left.
    + rewrite H5. cbn. intuition discriminate.
Qed.
Print Assumptions C39_resume_loses_points_refuted.

(** ** C40: resuming with enumeration reports a dominated point *)
(** The first call stops at the limit of one Pareto point, reporting (3,0); the resumed call
    finishes and reports (4,0) as well. *)
Theorem C40_resume_dominated_refuted :
  exists (i : inst) (o : kopts) (E1 E2 : environ) (s s1 s2 : st CI),
    inst_ok i /\ enum_ok i o /\ o_enum o = Solutions None /\ oracle_ok E1 /\ oracle_ok E2 /\
    alg_new APMinimal i o = Some s /\
    alg_solve APMinimal E1 (mkLims (Some 1) None None None) s = (Exit (ETerm PPLimit), s1) /\
    alg_solve APMinimal E2 lims_none s1 = (Done tt, s2) /\
    exists c d, In c (map nd_costs (s_front s2)) /\ In d (map nd_costs (s_front s1)) /\ dominates d c.
Proof.
  assert (H : ex_hist_run APMinimal ex_inst (Solutions None) [(ex_env', mkLims (Some 1) None None None); (ex_env, lims_none)]
    = Some [(Exit (ETerm PPLimit), [[3; 0]]%Z); (Done tt, [[3; 0]; [5; -1]; [1; 1]; [4; 0]]%Z)]) by (vm_compute; reflexivity).
  apply calls_two in H. destruct H as (s & s1 & s2 & H1 & H2 & H3 & H4 & H5).
  exists ex_inst, (ex_opts (Solutions None)), ex_env', ex_env, s, s1, s2.
  split; [apply ex_ok|]. split; [apply ex_enum|]. split; [reflexivity|]. split; [apply brute_ok|]. split; [apply brute_ok|].
  split; [exact H1|]. split; [exact H2|]. split; [exact H3|]. exists [4; 0]%Z, [3; 0]%Z. rewrite H4, H5.
  split; [cbn; tauto|]. split; [now left|]. split; [|discriminate]. repeat constructor; lia.
Qed.
Print Assumptions C40_resume_dominated_refuted.

(** ** C42: BiOptSat called again *)
Theorem C42_bioptsat_again_refuted :
  exists (i : inst) (o : kopts) (E : environ) (s s1 s2 : st CI),
    inst_ok i /\ o_enum o = NoEnum /\ oracle_ok E /\ alg_new ABiOptSat i o = Some s /\
    alg_solve ABiOptSat E lims_none s = (Done tt, s1) /\ exact_front i (s_front s1) /\
    alg_solve ABiOptSat E lims_none s1 = (Done tt, s2) /\ ~ NoDup (map nd_costs (s_front s2)).
Proof.
  assert (H : ex_hist_run ABiOptSat ex_inst NoEnum [(ex_env, lims_none); (ex_env, lims_none)]
    = Some [(Done tt, [[1; 1]; [3; 0]; [5; -1]]%Z); (Done tt, [[1; 1]; [3; 0]; [5; -1]; [5; -1]]%Z)]) by (vm_compute; reflexivity).
  apply calls_two in H. destruct H as (s & s1 & s2 & H1 & H2 & H3 & H4 & H5).
  exists ex_inst, (ex_opts NoEnum), ex_env, s, s1, s2.
  split; [apply ex_ok|]. split; [reflexivity|]. split; [apply brute_ok|].
  split; [exact H1|]. split; [exact H2|]. split; [|split; [exact H3|]].
  - split; rewrite H4; [repeat constructor; cbn; intuition discriminate|].
    intros c. rewrite ex_front_points. cbn. tauto.
  - rewrite H5. intros N. inversion N as [|? ? _ N1]; subst. inversion N1 as [|? ? _ N2]; subst.
    inversion N2 as [|? ? N3 _]; subst. apply N3. now left.
Qed.
Print Assumptions C42_bioptsat_again_refuted.

(** ** C44: an infeasible instance leaves a routine of BiOptSat open *)
Theorem C44_bioptsat_open_routine_refuted :
  exists (i : inst) (o : kopts) (E : environ) (s s' : st CI),
    inst_ok i /\ o_enum o = NoEnum /\ oracle_ok E /\ alg_new ABiOptSat i o = Some s /\
    alg_solve ABiOptSat E lims_none (snd (attach_logger s)) = (Done tt, s') /\
    open_routines (s_trace s) = Some 0 /\ open_routines (s_trace s') = Some 1.
Proof.
  assert (H : match alg_new (I := CI) ABiOptSat bad_inst (ex_opts NoEnum) with
    | Some s => (fst (alg_solve ABiOptSat ex_env lims_none (snd (attach_logger s))), open_routines (s_trace s),
                 open_routines (s_trace (snd (alg_solve ABiOptSat ex_env lims_none (snd (attach_logger s)))))) =
                (Done tt, Some 0, Some 1)
    | None => False end) by (vm_compute; reflexivity).
  destruct (alg_new ABiOptSat bad_inst (ex_opts NoEnum)) as [s|] eqn:Hs; [|contradiction].
  destruct (alg_solve ABiOptSat ex_env lims_none (snd (attach_logger s))) as [r s'] eqn:Hr.
  injection H as Hd H1 H2. cbn [fst] in Hd. subst r.
  exists bad_inst, (ex_opts NoEnum), ex_env, s, s'. split.
  - destruct ex_ok as [A1 A2 A3 A4 A5 A6]. constructor; auto. intros v Hv. cbn in Hv. cbn. lia.
  - split; [reflexivity|]. split; [apply brute_ok|]. auto.
Qed.
Print Assumptions C44_bioptsat_open_routine_refuted.

(** ** C56: an objective whose weights are all zero *)
(** Clause x0|x1; objectives 0*x0 and x1.  Every feasible assignment with x1 false is optimal
    with costs (0,0), so the front is (0,0); the solver may also report (0,1). *)
Definition zero_inst : inst :=
  mkInst [[pos 0; pos 1]] [([(pos 0, 0)], 0%Z); ([(pos 1, 1)], 0%Z)] (mkVm 2 1 1).
Theorem C56_zero_weights_refuted :
  exists (i : inst) (o : kopts) (E : environ) (s' : st CI),
    o_enum o = NoEnum /\ oracle_ok E /\ first_solve APMinimal i o E lims_none = Some (Done tt, s') /\
    exists c d, In c (map nd_costs (s_front s')) /\ In d (map nd_costs (s_front s')) /\ dominates d c.
Proof.
  assert (H : ex_costs (first_solve (I := CI) APMinimal zero_inst (ex_opts NoEnum) ex_env lims_none)
    = Some (Done tt, [[0; 1]; [0; 0]]%Z)) by (vm_compute; reflexivity).
  apply shown in H. destruct H as (s' & H & Hc). exists zero_inst, (ex_opts NoEnum), ex_env, s'.
  split; [reflexivity|]. split; [apply brute_ok|]. split; [exact H|]. rewrite Hc.
  exists [0; 1]%Z, [0; 0]%Z. split; [cbn; tauto|]. split; [cbn; tauto|]. split; [|discriminate].
  repeat constructor; lia.
Qed.
Print Assumptions C56_zero_weights_refuted.
