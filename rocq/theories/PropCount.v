(** * The statistics count what the logger is told (C91)

    [s_trace] lists the calls made to the loggers, newest first.  [counted x x' new] (LogCount.v): each
    of the four counters of [x'] is that of [x] plus the number of events of its kind in [new]. *)
From Coq Require Import List Bool Arith Lia ZArith.
From Verif Require Import Base BaseLemmas Spec MTypes MKernel MPMinimal MLowerBounding MBiOptSat MOll EncSpec
  TotSpec ApiSpec CbSpec Inst ExInst TotInst LogStruct LogTrue LogBoost LogCount PropCore PropFront PropLogged.
From Verif Require PropCbStop.
Import ListNotations.

Lemma start_qc {I} lg (s : st I) : s_logger s = lg -> qc lg (s_trace s) (s_stats s) s.
Proof.
  intros H. constructor; [exact H|]. exists []. split; [reflexivity|]. destruct lg; [|reflexivity].
  unfold counted, count. cbn. lia.
Qed.

(** One call of [solve] from any state, with any oracle, limits, interrupts and failing loggers, however it
    ends: candidates, oracle calls, solutions and points are counted exactly as they are logged. *)
Theorem C91_solve : forall I (SP : enc_spec I) al E l (s : st I), s_logger s = true ->
  let s' := snd (alg_solve al E l s) in
  s_logger s' = true /\ exists new, s_trace s' = new ++ s_trace s /\ counted (s_stats s) (s_stats s') new.
Proof.
  intros I SP al E l s H. destruct (ck_alg E true (s_trace s) (s_stats s) SP al l s (start_qc true s H)) as [H1 H2]. auto.
Qed.
Print Assumptions C91_solve.

(** The same for core boosting. *)
Theorem C91_boost : forall I (T : tot_impl I) E opts (s : st I), s_logger s = true ->
  let s' := snd (alg_core_boost T E opts s) in
  s_logger s' = true /\ exists new, s_trace s' = new ++ s_trace s /\ counted (s_stats s) (s_stats s') new.
Proof.
  intros I T E opts s H. destruct (LogCount.ck_boost (T := T) E true (s_trace s) (s_stats s) opts s (start_qc true s H)) as [H1 H2]. auto.
Qed.
Print Assumptions C91_boost.

(** A detached logger is told nothing. *)
Theorem C91_detached : forall I (SP : enc_spec I) (T : tot_impl I) al E E' l opts (s : st I), s_logger s = false ->
  s_trace (snd (alg_solve al E l s)) = s_trace s /\ s_trace (snd (alg_core_boost T E' opts s)) = s_trace s.
Proof.
  intros I SP T al E E' l opts s H. split.
  - destruct (ck_alg E false (s_trace s) (s_stats s) SP al l s (start_qc false s H)) as [_ (new & Ht & ->)]. exact Ht.
  - destruct (LogCount.ck_boost (T := T) E' false (s_trace s) (s_stats s) opts s (start_qc false s H)) as [_ (new & Ht & ->)]. exact Ht.
Qed.
Print Assumptions C91_detached.

(** Over a whole life of a solver with a logger attached from the start: any core boostings, then any calls
    of [solve], in any order. *)
Lemma new_counts {I} al i o (s : st I) : alg_new al i o = Some s ->
  s_trace s = [] /\ n_candidates (s_stats s) = 0 /\ n_oracle_calls (s_stats s) = 0 /\ n_solutions (s_stats s) = 0 /\
  n_non_dominated (s_stats s) = 0.
Proof.
  assert (G : forall os s', kernel_new (in_cls i) os (in_vm i) o = Some s' ->
              s_trace (I := I) s' = [] /\ n_candidates (s_stats s') = 0 /\ n_oracle_calls (s_stats s') = 0 /\
              n_solutions (s_stats s') = 0 /\ n_non_dominated (s_stats s') = 0).
  { intros os s'. unfold kernel_new. destruct (vm_max_var (in_vm i)); [|discriminate].
    destruct (init_encs _ _ _). intros [= <-]. repeat split. }
  destruct al; cbn; unfold pminimal_new, lb_new, bi_new; try apply G.
  all: destruct (kernel_new _ _ _ _) as [s'|] eqn:e; try (destruct (_ =? 2)); try discriminate; intros [= <-]; eapply G, e.
Qed.
Definition keeps_logger (x : gstep) : Prop := match x with GStep Detach => False | _ => True end.
Theorem C91_history : forall I (SP : enc_spec I) (T : tot_impl I) i o al s0 h,
  alg_new (I := I) al i o = Some s0 -> Forall keeps_logger h ->
  let s := grun T al (GStep Attach :: h) s0 in
  n_candidates (s_stats s) = count is_candidate (s_trace s) /\
  n_oracle_calls (s_stats s) = count is_oracle_call (s_trace s) /\
  n_solutions (s_stats s) = count is_solution (s_trace s) /\
  n_non_dominated (s_stats s) = count is_point (s_trace s).
Proof.
  intros I SP T i o al s0 h Hn Hh s. destruct (new_counts al i o s0 Hn) as (Ht & N1 & N2 & N3 & N4).
  set (s1 := set_logger true s0).
  assert (G : forall h s', Forall keeps_logger h -> qc true (s_trace s1) (s_stats s1) s' ->
                qc true (s_trace s1) (s_stats s1) (grun T al h s')).
  { clear h Hh s. induction h as [|x h IH]; intros s' Hh Hq; [exact Hq|]. inversion Hh; subst. cbn [grun]. apply IH; [assumption|].
    destruct x as [E opts|[E l| |]]; cbn [grun_step run_step].
    - now apply LogCount.ck_boost.
    - now apply (ck_alg E true _ _ SP).
    - eapply qc_same; [..|exact Hq]; try reflexivity. symmetry. apply Hq.
    - contradiction. }
  destruct (G h s1 Hh (start_qc true s1 eq_refl)) as [_ (new & Hs & Hc)]. fold s in Hs, Hc.
  change (grun T al h s1) with s in *. change (s_trace s1) with (s_trace s0) in Hs. rewrite Ht, app_nil_r in Hs. subst new.
  unfold counted in Hc. change (s_stats s1) with (s_stats s0) in Hc. rewrite N1, N2, N3, N4 in Hc. exact Hc.
Qed.
Print Assumptions C91_history.

(** ** Examples *)
Definition cn_hist : list gstep := [GBoost (PropCbStop.st_log 12) (mkCb true false); GBoost ex_env (mkCb true false);
  GStep (Solve lg_env lims_none); GStep (Solve ex_env ex_lims); GStep (Solve ex_env' lims_none)].
Example cn_hist_ok : Forall keeps_logger cn_hist.
Proof. repeat constructor. Qed.
Definition cn_run al := option_map (fun s => let s' := grun TI al (GStep Attach :: cn_hist) s in let x := s_stats s' in
    ([n_candidates x; n_oracle_calls x; n_solutions x; n_non_dominated x],
     [count is_candidate (s_trace s'); count is_oracle_call (s_trace s'); count is_solution (s_trace s'); count is_point (s_trace s')]))
  (alg_new (I := GI) al ex_inst (cb_kopts NoEnum true false false false)).
Example C91_example : cn_run APMinimal = Some ([4; 17; 3; 3], [4; 17; 3; 3]).
Proof. vm_compute. reflexivity. Qed.
Example C91_example_lb : cn_run ALowerBounding = Some ([4; 25; 3; 3], [4; 25; 3; 3]).
Proof. vm_compute. reflexivity. Qed.
