(** * Stopped runs and runs with a logger (C88)

    A solver is run twice from the same state.  What a disturbed run reports is the beginning of
    what the undisturbed run reports, and a logger that does not fail changes nothing.  The theorems
    hold for every implementation of the encodings, every oracle, every state and all limits. *)
From Coq Require Import List Bool Arith Lia ZArith.
From Verif Require Import Base BaseLemmas Spec MTypes MKernel EncSpec ApiSpec Inst ExInst Struct SyncSpec SyncThm.
Import ListNotations.

Lemma disturbs_self E : (forall n, ev_logfail E n = false) -> disturbs E E.
Proof. intros H. constructor; auto. Qed.
Lemma same_refl {I} (s : st I) : same_solver s s.
Proof. constructor; reflexivity. Qed.
Lemma limits_le_refl l : limits_le l l.
Proof.
  assert (G : forall a, limit_le a a) by (intros [n|]; cbn; auto). repeat split; apply G.
Qed.
Lemma limits_le_none l : limits_le l lims_none.
Proof. repeat split. Qed.
Lemma start_sim {I} (lock : Prop) l l0 (s s0 : st I) : same_solver s s0 -> limits_le l l0 -> (lock -> l = l0) ->
  sim lock (snd (start_solving l s)) (snd (start_solving l0 s0)).
Proof. intros [] Hl Hk. split; [constructor; cbn; congruence|split; assumption]. Qed.
Lemma solve_main {I} al E l (s : st I) : alg_solve al E l s = alg_main al E (snd (start_solving l s)).
Proof. rewrite alg_solve_eq. reflexivity. Qed.

(** what a run reports that is stopped -- by limits, an interrupt, a failing logger or a failing
    oracle -- is the beginning of what the run reports that is stopped less *)
Theorem C88_stopped_begins : forall I al E E0 l l0 (s s0 s0' : st I),
  disturbs E E0 -> limits_le l l0 -> same_solver s s0 -> alg_solve al E0 l0 s0 = (Done tt, s0') ->
  begins (s_front (snd (alg_solve al E l s))) (s_front s0').
Proof.
  intros I al E E0 l l0 s s0 s0' D Hl Hs H. rewrite solve_main in *.
  pose proof (proj1 (r_main (I := I) E E0 D False (fun x => match x with end) (fun x => match x with end) (fun x => match x with end)
    (fun x => match x with end) al) _ _ (start_sim False l l0 s s0 Hs Hl (fun x => match x with end))) as R.
  destruct (alg_main al E _) as [[[]|x] s']; cbn [step_ok snd] in *.
  - destruct R as (s1 & H1 & H2 & _). rewrite H in H1. injection H1 as <-. rewrite (ss_front _ _ H2). apply begins_refl.
  - destruct R as [_ R]. exact (R _ _ H).
Qed.
Print Assumptions C88_stopped_begins.

(** in particular the cost vectors of the stopped run come first, in the same order *)
Theorem C88_costs_begin : forall I al E E0 l l0 (s s0 s0' : st I),
  disturbs E E0 -> limits_le l l0 -> same_solver s s0 -> alg_solve al E0 l0 s0 = (Done tt, s0') ->
  exists rest, map nd_costs (s_front s0') = map nd_costs (s_front (snd (alg_solve al E l s))) ++ rest.
Proof.
  intros I al E E0 l l0 s s0 s0' D Hl Hs H.
  destruct (C88_stopped_begins I al E E0 l l0 s s0 s0' D Hl Hs H) as [[r ->]|(pre & nd & nd0 & r & ss & -> & -> & Hc & _)].
  - rewrite map_app. eauto.
  - exists (map nd_costs r). rewrite !map_app. cbn [map]. rewrite Hc, <- app_assoc. reflexivity.
Qed.
Print Assumptions C88_costs_begin.

(** a run that finishes in spite of the disturbances has not been changed by them *)
Theorem C88_finished_same : forall I al E E0 l l0 (s s0 s' : st I),
  disturbs E E0 -> limits_le l l0 -> same_solver s s0 -> alg_solve al E l s = (Done tt, s') ->
  exists s0', alg_solve al E0 l0 s0 = (Done tt, s0') /\ same_solver s' s0'.
Proof.
  intros I al E E0 l l0 s s0 s' D Hl Hs H. rewrite solve_main in *.
  pose proof (proj1 (r_main (I := I) E E0 D False (fun x => match x with end) (fun x => match x with end) (fun x => match x with end)
    (fun x => match x with end) al) _ _ (start_sim False l l0 s s0 Hs Hl (fun x => match x with end))) as R.
  rewrite H in R. cbn [step_ok] in R. destruct R as (s1 & H1 & H2 & _). eauto.
Qed.
Print Assumptions C88_finished_same.

(** a logger that does not fail changes neither the outcome, nor the front, nor the statistics *)
Theorem C88_logger : forall I al E l (s s0 : st I), (forall n, ev_logfail E n = false) -> same_solver s s0 ->
  fst (alg_solve al E l s) = fst (alg_solve al E l s0) /\
  same_solver (snd (alg_solve al E l s)) (snd (alg_solve al E l s0)).
Proof.
  intros I al E l s s0 Hn Hs. rewrite !solve_main.
  pose proof (proj1 (r_main (I := I) E E (disturbs_self E Hn) True (fun _ _ => eq_refl) (fun _ _ => eq_refl) (fun _ => Hn)
    (fun _ => eq_refl) al) _ _ (start_sim True l l s s0 Hs (limits_le_refl l) (fun _ => eq_refl))) as R.
  destruct (alg_main al E (snd (start_solving l s))) as [[u|x] s']; cbn [step_ok fst snd] in *.
  - destruct R as (s1 & -> & H2 & _). auto.
  - destruct R as [R _]. destruct (R Logic.I) as (s1 & -> & H2 & _). auto.
Qed.
Print Assumptions C88_logger.

(** over a whole history of calls, attaching and detaching loggers makes no difference *)
Definition logs_fine (x : step) : Prop := match x with Solve E _ => forall n, ev_logfail E n = false | _ => True end.
Definition is_solve (x : step) : bool := match x with Solve _ _ => true | _ => false end.
Theorem C88_histories : forall I al h (s : st I), Forall logs_fine h ->
  same_solver (run al h s) (run al (filter is_solve h) s).
Proof.
  intros I al h s Hf.
  assert (G : forall s s0 : st I, same_solver s s0 -> same_solver (run al h s) (run al (filter is_solve h) s0)).
  { clear s. induction Hf as [|x h Hx Hf IH]; intros s s0 Hs; [exact Hs|]. destruct x as [E l| |]; cbn [filter is_solve run run_step].
    - apply IH. now apply C88_logger.
    - apply IH. destruct Hs; constructor; assumption.
    - apply IH. destruct Hs; constructor; assumption. }
  apply G, same_refl.
Qed.
Print Assumptions C88_histories.

(** ** Examples *)
Definition cut_env (k : nat) : environ := mkEnv (brute true) (fun n => k <=? n) (fun _ => false) 300.
Lemma cut_disturbs k : disturbs (cut_env k) (env true 300).
Proof. constructor; [left; reflexivity|intros n H; discriminate|reflexivity|cbn; lia]. Qed.
Definition logcut_env (k : nat) : environ := mkEnv (brute true) (fun _ => false) (fun n => n =? k) 200.
Lemma logcut_disturbs k : disturbs (logcut_env k) (env true 300).
Proof. constructor; [left; reflexivity|intros n H; discriminate|reflexivity|cbn; lia]. Qed.
Definition sy_run al E l lg : option (res unit * list (list Z * Z)) :=
  match alg_new (I := CI) al ex_inst (ex_opts (Solutions None)) with
  | Some s => let '(r, s') := alg_solve al E l (set_logger lg s) in
      Some (r, map (fun nd => (nd_costs nd, Z.of_nat (length (nd_sols nd)))) (s_front s'))
  | None => None
  end.
Example C88_example_finishes : map (fun al => sy_run al (env true 300) lims_none false) [ALowerBounding; ABiOptSat] =
  [Some (Done tt, [([1; 1], 1); ([3; 0], 3); ([5; (-1)], 2)]); Some (Done tt, [([1; 1], 1); ([3; 0], 3); ([5; (-1)], 2)])]%Z.
Proof. vm_compute. reflexivity. Qed.
Example C88_example_stopped :
  (sy_run APMinimal (env true 300) lims_none true,
   map (fun k => sy_run APMinimal (cut_env k) lims_none false) [10; 15; 25],
   map (fun k => sy_run APMinimal (logcut_env k) lims_none true) [20; 40],
   map (fun n => sy_run APMinimal (env true 300) (mkLims None (Some n) None None) true) [1; 2; 5]) =
  (Some (Done tt, [([3; 0], 3); ([1; 1], 1); ([5; (-1)], 2)]),
   [Some (Exit (ETerm Interrupted), []); Some (Exit (ETerm Interrupted), [([3; 0], 3)]);
    Some (Exit (ETerm Interrupted), [([3; 0], 3); ([1; 1], 1)])],
   [Some (Exit (EErr ErrLogger), []); Some (Exit (EErr ErrLogger), [([3; 0], 3)])],
   [Some (Exit (ETerm SolsLimit), [([3; 0], 1)]); Some (Exit (ETerm SolsLimit), [([3; 0], 2)]);
    Some (Exit (ETerm SolsLimit), [([3; 0], 3); ([1; 1], 1); ([5; (-1)], 1)])])%Z.
Proof. vm_compute. reflexivity. Qed.

(** ** A run with fewer limits that does not finish can report less

    An interrupt during enumeration, unlike the limit on the solutions, drops the point that is being
    enumerated (algs.rs 723, 735, 743 against 700-704): with the same interrupt, the run with a limit
    of one solution reports a Pareto point and the run without limit reports nothing, although it has
    counted solutions. *)
Theorem C88_interrupt_drops_point_refuted :
  exists E (s : st CI) nd, alg_new APMinimal ex_inst (ex_opts (Solutions None)) = Some s /\ disturbs E E /\
    s_front (snd (alg_solve APMinimal E (mkLims None (Some 1) None None) s)) = [nd] /\ nd_sols nd <> [] /\
    fst (alg_solve APMinimal E lims_none s) = Exit (ETerm Interrupted) /\
    s_front (snd (alg_solve APMinimal E lims_none s)) = [] /\
    n_solutions (s_stats (snd (alg_solve APMinimal E lims_none s))) = 3.
Proof.
  assert (G : match alg_new (I := CI) APMinimal ex_inst (ex_opts (Solutions None)) with
    | Some s => exists nd,
        s_front (snd (alg_solve APMinimal (cut_env 10) (mkLims None (Some 1) None None) s)) = [nd] /\ nd_sols nd <> [] /\
        fst (alg_solve APMinimal (cut_env 10) lims_none s) = Exit (ETerm Interrupted) /\
        s_front (snd (alg_solve APMinimal (cut_env 10) lims_none s)) = [] /\
        n_solutions (s_stats (snd (alg_solve APMinimal (cut_env 10) lims_none s))) = 3
    | None => False end).
  { vm_compute. eexists. split; [reflexivity|]. split; [discriminate|]. repeat split; reflexivity. }
  destruct (alg_new APMinimal ex_inst (ex_opts (Solutions None))) as [s|] eqn:e; [|destruct G].
  destruct G as (nd & G1 & G2 & G3 & G4 & G5). exists (cut_env 10), s, nd. split; [reflexivity|].
  split; [apply disturbs_self; reflexivity|]. auto.
Qed.
Print Assumptions C88_interrupt_drops_point_refuted.
