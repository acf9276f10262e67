(** * C76: continuing a stopped run

    Enumeration off.  P-minimal and LowerBounding stopped by the limit on reported points or on
    solutions can be continued without loss: when a later call finishes, the front is exactly
    the Pareto front.  So the front can be asked for in batches of [k] points.  (Other stops
    can lose points, see C39.)  BiOptSat loses nothing however it is stopped, but reports
    points again, and never gets beyond the first point in batches of one. *)
From Coq Require Import List Bool Arith Lia ZArith.
From Verif Require Import Base Spec MTypes MKernel MPMinimal MLowerBounding MBiOptSat EncSpec Inst ApiSpec
  Book ExInst PropFront ApiTop ResumeSpec ResumeTop.
Import ListNotations.

Theorem C76_resume_complete : forall I (SP : enc_spec I) al i o h E l (s0 s' : st I),
  inst_ok i -> o_enum o = NoEnum -> al <> ABiOptSat -> alg_new al i o = Some s0 ->
  run_ok h -> resumable al h s0 -> oracle_ok E -> lims_pos l ->
  alg_solve al E l (run al h s0) = (Done tt, s') ->
  exact_front i (s_front s') /\ sound_front i (s_front s').
Proof.
  intros I SP al i o h E l s0 s' HI Hn Hal Hnew Hh Hr HO Hl Hs.
  exact (resume_done SP i o HI Hn s0 (new_start SP i o HI al s0 Hnew) al h E l s' Hal Hh Hr HO Hl Hs).
Qed.
Print Assumptions C76_resume_complete.

(** whatever happened before, an undisturbed call without limits finishes *)
Theorem C76_resume_finishes : forall I (SP : enc_spec I) al i o h E (s0 : st I),
  inst_ok i -> o_enum o = NoEnum -> alg_new al i o = Some s0 -> run_ok h ->
  oracle_ok E -> calm E -> iter_bound i < ev_fuel E ->
  exists s', alg_solve al E lims_none (run al h s0) = (Done tt, s').
Proof.
  intros I SP al i o h E s0 HI Hn Hnew Hh HO HC HF. 
  exact (calm_finishes SP i al s0 h E (new_exits SP i o HI Hn al s0 Hnew) Hh HO HC HF).
Qed.
Print Assumptions C76_resume_finishes.

(** the front in batches of [k] points: every call but the last one stops at its limit with
    exactly [k] more points, the last one finishes with the Pareto front *)
Theorem C76_batches : forall I (SP : enc_spec I) al i o E k (s0 : st I),
  inst_ok i -> o_enum o = NoEnum -> al <> ABiOptSat -> alg_new al i o = Some s0 ->
  oracle_ok E -> calm E -> iter_bound i < ev_fuel E -> 0 < k ->
  let l := mkLims (Some k) None None None in
  let after n := run al (repeat (Solve E l) n) s0 in
  exists n s', alg_solve al E l (after n) = (Done tt, s') /\
    exact_front i (s_front s') /\ sound_front i (s_front s') /\
    forall j, j <= n -> length (s_front (after j)) = j * k /\
      (j < n -> fst (alg_solve al E l (after j)) = Exit (ETerm PPLimit)).
Proof.
  intros I SP al i o E k s0 HI Hn Hal Hnew HO HC HF Hk l after.
  exact (batches SP i o HI Hn al E k Hal HO HC HF Hk s0 (new_start SP i o HI al s0 Hnew) (new_exits SP i o HI Hn al s0 Hnew)).
Qed.
Print Assumptions C76_batches.

(** BiOptSat: any history, any stops *)
Theorem C76_bioptsat_resume_complete : forall I (SP : enc_spec I) i o h E l (s0 s' : st I),
  inst_ok i -> o_enum o = NoEnum -> alg_new ABiOptSat i o = Some s0 ->
  run_ok h -> oracle_ok E -> lims_pos l ->
  alg_solve ABiOptSat E l (run ABiOptSat h s0) = (Done tt, s') ->
  (forall c, In c (map nd_costs (s_front s')) <-> pareto_optimal (in_cls i) (in_objs i) c) /\
  Forall (sound_point i) (s_front s').
Proof.
  intros I SP i o h E l s0 s' HI Hn Hnew Hh HO Hl Hs.
  exact (resume_done_bi SP i o HI Hn s0 (new_start SP i o HI ABiOptSat s0 Hnew) h E l s'
    (new_bi SP i o HI ABiOptSat s0 Hnew eq_refl) Hh HO Hl Hs).
Qed.
Print Assumptions C76_bioptsat_resume_complete.

(** BiOptSat in batches: an instance with three Pareto points of which ten calls for one point
    each report the same one ten times *)
Definition one : limits := mkLims (Some 1) None None None.
Theorem C76_bioptsat_batches_refuted : exists (i : inst) (o : kopts) (E : environ) (s0 s' : st CI),
  inst_ok i /\ o_enum o = NoEnum /\ oracle_ok E /\ calm E /\ alg_new ABiOptSat i o = Some s0 /\
  alg_solve ABiOptSat E lims_none s0 = (Done tt, s') /\ length (s_front s') = 3 /\
  let s := run ABiOptSat (repeat (Solve E one) 10) s0 in
  map nd_costs (s_front s) = repeat [1; 1]%Z 10 /\
  fst (alg_solve ABiOptSat E one s) = Exit (ETerm PPLimit).
Proof.
  destruct (alg_new (I := CI) ABiOptSat ex_inst (ex_opts NoEnum)) as [s0|] eqn:e0; [|vm_compute in e0; discriminate e0].
  destruct (alg_solve ABiOptSat ex_env lims_none s0) as [r s'] eqn:e1.
  exists ex_inst, (ex_opts NoEnum), ex_env, s0, s'.
  split; [exact ex_ok|]. split; [reflexivity|]. split; [apply brute_ok|]. split; [apply env_calm|].
  split; [exact e0|].
  assert (C : forall x, Some x = alg_new (I := CI) ABiOptSat ex_inst (ex_opts NoEnum) ->
     fst (alg_solve ABiOptSat ex_env lims_none x) = Done tt /\
     length (s_front (snd (alg_solve ABiOptSat ex_env lims_none x))) = 3 /\
     map nd_costs (s_front (run ABiOptSat (repeat (Solve ex_env one) 10) x)) = repeat [1; 1]%Z 10 /\
     fst (alg_solve ABiOptSat ex_env one (run ABiOptSat (repeat (Solve ex_env one) 10) x)) = Exit (ETerm PPLimit)).
  { intros x Hx. vm_compute in Hx. injection Hx as ->. vm_compute. repeat split. }
  symmetry in e0. destruct (C _ e0) as (C1 & C2 & C3). rewrite e1 in C1, C2. cbn [fst snd] in C1, C2.
  split; [now rewrite e1, C1|]. split; [exact C2|exact C3].
Qed.
Print Assumptions C76_bioptsat_batches_refuted.

(** ** A run in batches: one point, then at most two, then all; the hypotheses hold *)
Definition ex_batches : list step := [Solve ex_env one; Attach; Solve ex_env' (mkLims None (Some 1) None None)].
Example C76_example_ok : run_ok ex_batches.
Proof. repeat constructor; try apply brute_ok; try discriminate. Qed.
Example C76_example_resumable : forall al s0, al <> ABiOptSat ->
  alg_new (I := CI) al ex_inst (ex_opts NoEnum) = Some s0 -> resumable al ex_batches s0.
Proof.
  intros al s0 Hal Hs h1 E l h2 Eh. symmetry in Hs.
  destruct h1 as [|x1 [|x2 [|x3 [|x4 h1]]]]; cbn in Eh; try discriminate Eh.
  - injection Eh as <- <- _. destruct al; [| |congruence]; vm_compute in Hs; injection Hs as ->; vm_compute; exact Logic.I.
  - injection Eh as <- <- <- <- _. destruct al; [| |congruence]; vm_compute in Hs; injection Hs as ->; vm_compute; exact Logic.I.
Qed.
Example C76_example_fronts :
  (ex_run APMinimal NoEnum [Solve ex_env one], ex_run APMinimal NoEnum ex_batches,
   ex_run APMinimal NoEnum (ex_batches ++ [Solve ex_env lims_none]),
   ex_run ALowerBounding NoEnum (ex_batches ++ [Solve ex_env lims_none]),
   ex_run ABiOptSat NoEnum (ex_batches ++ [Solve ex_env lims_none]))
  = (Some [[3; 0]], Some [[3; 0]; [5; -1]], Some [[3; 0]; [5; -1]; [1; 1]],
     Some [[1; 1]; [3; 0]; [5; -1]], Some [[1; 1]; [1; 1]; [1; 1]; [3; 0]; [5; -1]])%Z.
Proof. vm_compute. reflexivity. Qed.
Example C76_example_fuel : iter_bound ex_inst < ev_fuel ex_env.
Proof. vm_compute. lia. Qed.
