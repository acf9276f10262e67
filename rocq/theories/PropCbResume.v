(** * Continuing a stopped run after core boosting (C85)

    Enumeration off.  The user calls core boosting any number of times ([tries], as in C80: the
    calls may be completed or stopped), then solves in several calls ([resumable], as in C76). *)
From Coq Require Import List Bool Arith Lia ZArith.
From Verif Require Import Base Spec MTypes MKernel MPMinimal MLowerBounding MBiOptSat MOll EncSpec
  TotSpec ApiSpec CbSpec Inst ExInst Wp Sem Kern Init Api ApiTop Book TotInst CbTop CbApi CbHist CbStop
  ResumeSpec ResumeTop PropCore.
From Verif Require PropResume PropCbStop PropFront.
Import ListNotations.

Lemma ct_xok {I} {SP : enc_spec I} {T} (TS : tot_spec SP T) i o al s0 bs :
  inst_ok i -> lits_distinct i -> o_enum o = NoEnum -> alg_new (I := I) al i o = Some s0 ->
  boosts_ok o bs -> resets_ok T o bs s0 -> no_empty_core i o -> (al = ABiOptSat -> no_fixed_cost i) ->
  exits_ok i al (tries T bs s0).
Proof.
  intros HI HD Hen Hn Hb Hr Hd Ha h E l Hh HO Hl.
  pose proof (ct_exits TS i o HI HD al s0 bs Hn Hb Hr Hd Ha h E l Hen Hh HO Hl) as G.
  destruct (fst _) as [|x]; [exact Logic.I|]. destruct x as [t|[]| |]; cbn in G; try contradiction; unfold xok, good_exit; auto.
Qed.

(** A call that returns after calls that returned or were stopped by the limit on points or
    solutions leaves exactly the Pareto front. *)
Theorem C85_complete : forall I (SP : enc_spec I) T (TS : tot_spec SP T) i o al s0 bs h E l s',
  inst_ok i -> lits_distinct i -> o_enum o = NoEnum -> al <> ABiOptSat -> alg_new (I := I) al i o = Some s0 ->
  boosts_ok o bs -> resets_ok T o bs s0 -> no_empty_core i o ->
  run_ok h -> resumable al h (tries T bs s0) -> oracle_ok E -> lims_pos l ->
  alg_solve al E l (run al h (tries T bs s0)) = (Done tt, s') ->
  exact_front i (s_front s') /\ sound_front i (s_front s').
Proof.
  intros I SP T TS i o al s0 bs h E l s' HI HD Hen Hal Hn Hb Hr Hd Hh Hre HO Hl Hs.
  exact (resume_done SP i o HI Hen _ (ct_start TS i o HI HD al s0 bs Hn Hb Hr Hd) al h E l s' Hal Hh Hre HO Hl Hs).
Qed.
Print Assumptions C85_complete.

(** Whatever happened before, an undisturbed call without limits returns. *)
Theorem C85_finishes : forall I (SP : enc_spec I) T (TS : tot_spec SP T) i o al s0 bs h E,
  inst_ok i -> lits_distinct i -> o_enum o = NoEnum -> alg_new (I := I) al i o = Some s0 ->
  boosts_ok o bs -> resets_ok T o bs s0 -> no_empty_core i o -> (al = ABiOptSat -> no_fixed_cost i) ->
  run_ok h -> oracle_ok E -> calm E -> iter_bound i < ev_fuel E ->
  exists s', alg_solve al E lims_none (run al h (tries T bs s0)) = (Done tt, s').
Proof.
  intros I SP T TS i o al s0 bs h E HI HD Hen Hn Hb Hr Hd Ha Hh HO HC HF.
  exact (calm_finishes SP i al _ h E (ct_xok TS i o al s0 bs HI HD Hen Hn Hb Hr Hd Ha) Hh HO HC HF).
Qed.
Print Assumptions C85_finishes.

(** The front in batches of [k] points *)
Theorem C85_batches : forall I (SP : enc_spec I) T (TS : tot_spec SP T) i o al s0 bs E k,
  inst_ok i -> lits_distinct i -> o_enum o = NoEnum -> al <> ABiOptSat -> alg_new (I := I) al i o = Some s0 ->
  boosts_ok o bs -> resets_ok T o bs s0 -> no_empty_core i o ->
  oracle_ok E -> calm E -> iter_bound i < ev_fuel E -> 0 < k ->
  let l := mkLims (Some k) None None None in
  let after n := run al (repeat (Solve E l) n) (tries T bs s0) in
  exists n s', alg_solve al E l (after n) = (Done tt, s') /\
    exact_front i (s_front s') /\ sound_front i (s_front s') /\
    forall j, j <= n -> length (s_front (after j)) = j * k /\
      (j < n -> fst (alg_solve al E l (after j)) = Exit (ETerm PPLimit)).
Proof.
  intros I SP T TS i o al s0 bs E k HI HD Hen Hal Hn Hb Hr Hd HO HC HF Hk l after.
  exact (batches SP i o HI Hen al E k Hal HO HC HF Hk _ (ct_start TS i o HI HD al s0 bs Hn Hb Hr Hd)
    (ct_xok TS i o al s0 bs HI HD Hen Hn Hb Hr Hd (fun e => False_ind _ (Hal e)))).
Qed.
Print Assumptions C85_batches.

(** BiOptSat: any history, any stops *)
Theorem C85_bioptsat : forall I (SP : enc_spec I) T (TS : tot_spec SP T) i o s0 bs h E l s',
  inst_ok i -> lits_distinct i -> o_enum o = NoEnum -> alg_new (I := I) ABiOptSat i o = Some s0 ->
  boosts_ok o bs -> resets_ok T o bs s0 -> no_empty_core i o -> no_fixed_cost i ->
  run_ok h -> oracle_ok E -> lims_pos l ->
  alg_solve ABiOptSat E l (run ABiOptSat h (tries T bs s0)) = (Done tt, s') ->
  (forall c, In c (map nd_costs (s_front s')) <-> pareto_optimal (in_cls i) (in_objs i) c) /\
  Forall (sound_point i) (s_front s').
Proof.
  intros I SP T TS i o s0 bs h E l s' HI HD Hen Hn Hb Hr Hd Hf Hh HO Hl Hs.
  exact (resume_done_bi SP i o HI Hen _ (ct_start TS i o HI HD ABiOptSat s0 bs Hn Hb Hr Hd) h E l s'
    (ct_bi TS i o HI HD ABiOptSat s0 bs Hn Hb Hr Hd (fun _ => Hf) eq_refl) Hh HO Hl Hs).
Qed.
Print Assumptions C85_bioptsat.

(** ** An example: core boosting stopped by the logger, then completed, then one point per call *)
Definition rb_o : kopts := cb_kopts NoEnum false false false false.
Definition rb_bs : list bstep := PropCbStop.st_bs true 23 60.
Definition rb_E : environ := env true 300.
Definition rb_h : list step := [Solve rb_E PropResume.one; Attach; Solve rb_E (mkLims None (Some 1) None None)].
Example C85_example_ok : boosts_ok rb_o rb_bs /\ no_empty_core ex_inst rb_o /\ run_ok rb_h /\ calm rb_E /\
  (forall s, resets_ok TI rb_o rb_bs s).
Proof.
  split; [apply PropCbStop.st_ok; reflexivity|]. split; [apply PropCbStop.st_live|].
  split; [repeat constructor; try apply (brute_ok true 300); discriminate|]. split; [apply env_calm|].
  intros s. apply PropCbStop.st_reset. reflexivity.
Qed.
Example C85_example_resumable : forall al s0, al <> ABiOptSat ->
  alg_new (I := GI) al ex_inst rb_o = Some s0 -> resumable al rb_h (tries TI rb_bs s0).
Proof.
  intros al s0 Hal Hs h1 E l h2 Eh.
  assert (C : match alg_new (I := GI) al ex_inst rb_o with
    | Some s => let s1 := tries TI rb_bs s in
        stopped_at_point (fst (alg_solve al rb_E PropResume.one s1)) /\
        stopped_at_point (fst (alg_solve al rb_E (mkLims None (Some 1) None None)
          (run al [Solve rb_E PropResume.one; Attach] s1)))
    | None => False end) by (destruct al; [| |congruence]; vm_compute; auto).
  rewrite Hs in C. destruct C as [C1 C2].
  destruct h1 as [|x1 [|x2 [|x3 [|x4 h1]]]]; cbn in Eh; try discriminate Eh.
  - injection Eh as <- <- _. exact C1.
  - injection Eh as <- <- <- <- _. exact C2.
Qed.
Definition rb_run (al : alg) (h : list step) :=
  match alg_new (I := GI) al ex_inst rb_o with
  | Some s => Some (PropCbStop.outs rb_bs s, map nd_costs (s_front (run al h (tries TI rb_bs s))))
  | None => None
  end.
Example C85_example_pmin : map (rb_run APMinimal) [[]; rb_h; rb_h ++ [Solve rb_E lims_none]] = [Some ([Exit (EErr ErrLogger); Done true], []); Some ([Exit (EErr ErrLogger); Done true], [[3; 0]; [1; 1]]); Some ([Exit (EErr ErrLogger); Done true], [[3; 0]; [1; 1]; [5; (-1)]])]%Z.
Proof. vm_compute. reflexivity. Qed.
Example C85_example_lb : map (rb_run ALowerBounding) [rb_h; rb_h ++ [Solve rb_E lims_none]] = [Some ([Exit (EErr ErrLogger); Done true], [[3; 0]; [1; 1]]); Some ([Exit (EErr ErrLogger); Done true], [[3; 0]; [1; 1]; [5; (-1)]])]%Z.
Proof. vm_compute. reflexivity. Qed.
Example C85_example_bos : map (rb_run ABiOptSat) [rb_h; rb_h ++ [Solve rb_E lims_none]] = [Some ([Exit (EErr ErrLogger); Done true], [[1; 1]; [1; 1]]); Some ([Exit (EErr ErrLogger); Done true], [[1; 1]; [1; 1]; [1; 1]; [3; 0]; [5; (-1)]])]%Z.
Proof. vm_compute. reflexivity. Qed.
