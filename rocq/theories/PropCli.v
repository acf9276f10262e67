(** * Theorems about early termination, the command line and the terminal logger *)
From Coq Require Import List Bool Arith Lia ZArith.
From Verif Require Import Base BaseLemmas Spec MTypes MKernel MOll EncSpec TotSpec ApiSpec Inst ExInst MPrepro MMain
  PreSpec LogSpec CbSpec MTerm TermThm MCli CliSpec ApiTop BookTop PreTop PreInst LogBal LogCb CliThm TotInst.
Import ListNotations.

(** ** C52: errors and terminations propagate unchanged *)

(** A body of statements with [?] (or [ensure!]) ends in the state and with the outcome of the
    first statement that stops; those after it play no role. *)
Theorem C52_first_stop : forall (S R : Type) (ss : list (stmt S)) (value : S -> R) s,
  (exists s', all_succeed ss s s' /\ run_body ss value s = (MteDone (value s'), s')) \/
  (exists pre x post s1 w s2, ss = pre ++ x :: post /\ all_succeed pre s s1 /\ stops x s1 w s2 /\
     run_body ss value s = (outcome w, s2)).
Proof. exact @first_stop. Qed.
Print Assumptions C52_first_stop.
(** Conversely, whatever comes after the first statement that stops *)
Theorem C52_rest_not_run : forall (S R : Type) pre x post (value : S -> R) s s1 w s2,
  all_succeed pre s s1 -> stops x s1 w s2 ->
  run_body (pre ++ x :: post) value s = (outcome w, s2).
Proof.
  intros S R pre x post value s s1 w s2 H1 H2. rewrite (TermThm.run_app pre (x :: post) value s s1 H1).
  now apply run_cons_stop.
Qed.
Print Assumptions C52_rest_not_run.
(** Functions returning [MaybeTerminated], and the conversions *)
Theorem C52_maybe_terminated : forall (S R : Type) (ss : list (S -> maybe_term unit * S)) (value : S -> R) s,
  run_body (map StMt ss) value s = (mte_of_mt (fst (run_body_mt ss value s)), snd (run_body_mt ss value s)).
Proof. exact @mt_as_mte. Qed.
Print Assumptions C52_maybe_terminated.
Theorem C52_unwrap : forall A (m : maybe_term_err A) (m' : maybe_term A) a,
  (mte_unwrap m = Some a <-> m = MteDone a) /\ (mt_unwrap m' = Some a <-> m' = MtDone a).
Proof.
  intros A m m' a. split.
  - destruct m; cbn; split; congruence.
  - destruct m'; cbn; split; congruence.
Qed.
Definition ex_stmts : list (stmt nat) :=
  [ StMte (fun n => (MteDone tt, n + 1)); StEnsure (fun n => n <? 5) ErrOracle;
    StMt (fun n => (if n =? 3 then MtTerminated Interrupted else MtDone tt, n * 2));
    StRes (fun n => (if n =? 4 then RError ErrLogger else ROk tt, n + 10)) ].
Example C52_example : map (run_body ex_stmts (fun n => n)) [0; 1; 2; 7] =
  [(MteDone 12, 12); (MteError ErrLogger, 14); (MteTerminated Interrupted, 6); (MteError ErrOracle, 8)].
Proof. reflexivity. Qed.

(** ** C17: limits given on the command line are never zero *)
Theorem C17_cli_limits : forall v,
  lims_pos (limits_of_args v) /\
  (forall n, In (Some n) [l_pps (limits_of_args v); l_sols (limits_of_args v);
                          l_candidates (limits_of_args v); l_oracle_calls (limits_of_args v)] -> 0 < n).
Proof.
  intros v. assert (H : forall n m, none_if_zero n = Some m -> 0 < m /\ m = n).
  { intros [|n] m; cbn; [discriminate|]. intros [= <-]. lia. }
  split.
  - unfold lims_pos, limits_of_args. cbn. repeat split; intros G; apply H in G; lia.
  - intros n [G|[G|[G|[G|[]]]]]; cbn in G; apply H in G; lia.
Qed.
Print Assumptions C17_cli_limits.
(** Zero means no limit, everything else is the limit itself. *)
Theorem C17_cli_values : forall v n,
  (l_pps (limits_of_args v) = Some n <-> la_pp v = n /\ n <> 0) /\
  (l_sols (limits_of_args v) = Some n <-> la_sol v = n /\ n <> 0) /\
  (l_candidates (limits_of_args v) = Some n <-> la_candidate v = n /\ n <> 0) /\
  (l_oracle_calls (limits_of_args v) = Some n <-> la_oracle_call v = n /\ n <> 0).
Proof.
  assert (H : forall n m, none_if_zero n = Some m <-> n = m /\ m <> 0).
  { intros [|n] m; cbn; split; try (intros [? ?]; congruence); try discriminate.
    intros [= <-]. split; [reflexivity|discriminate]. }
  intros v n. cbn. rewrite !H. tauto.
Qed.
Print Assumptions C17_cli_values.
Example C17_cli_example : limits_of_args (mkLimArgs 0 3 0 7) = mkLims None (Some 3) None (Some 7).
Proof. reflexivity. Qed.

(** ** C43, with core boosting and for any logger *)
Theorem C43_all_histories : forall I (T : tot_impl I) al h (s : st I),
  exists evs, s_trace (grun T al h s) = evs ++ s_trace s /\ open_routines evs <> None.
Proof. exact @log_ghistory_ext. Qed.
Print Assumptions C43_all_histories.
Theorem C43_boost_closed : forall I (T : tot_impl I) E opts (s s' : st I) b,
  alg_core_boost T E opts s = (Done b, s') -> open_routines (s_trace s) <> None ->
  open_routines (s_trace s') = open_routines (s_trace s).
Proof. exact @boost_closed. Qed.
Print Assumptions C43_boost_closed.
(** The terminal logger's stack of routines never underflows, whatever is called. *)
Theorem C43_terminal : forall I (SP : enc_spec I) (T : tot_impl I) al i o (s0 : st I) h cfg,
  inst_ok i -> alg_new al i o = Some s0 ->
  cli_events cfg (rev (s_trace (grun T al h s0))) new_cli_logger <> None.
Proof.
  intros I SP T al i o s0 h cfg HI Hn. rewrite cli_ok, rev_involutive.
  destruct (log_ghistory_ext T al h s0) as (evs & -> & H). rewrite (new_trace I SP i o al s0 HI Hn), app_nil_r.
  exact H.
Qed.
Print Assumptions C43_terminal.
Theorem C43_terminal_panics : forall cfg evs,
  cli_events cfg evs new_cli_logger = None <-> open_routines (rev evs) = None.
Proof. exact cli_ok. Qed.
Print Assumptions C43_terminal_panics.

(** ** C54: routine messages on the terminal are symmetric *)

(** Well nested logs are exactly those with this structure .. *)
Theorem C54_structure : forall evs d,
  open_routines (rev evs) = Some d <->
  exists sp f, length sp = d /\ Forall (fun x => forest_ok (fst x)) sp /\ forest_ok f /\ evs = open_calls sp f.
Proof.
  intros evs d. split; [apply decompose|]. intros (sp & f & <- & H2 & H3 & ->). now apply open_calls_open.
Qed.
Print Assumptions C54_structure.
(** .. and this is printed for them: both messages of a finished routine or none. *)
Theorem C54_symmetric : forall cfg sp f, Forall (fun x => forest_ok (fst x)) sp -> forest_ok f ->
  exists st, cli_events cfg (open_calls sp f) new_cli_logger = Some (mkLog st (open_lines cfg 0 sp f)).
Proof.
  intros cfg sp f H1 H2. eexists. unfold new_cli_logger. now rewrite cli_open.
Qed.
Print Assumptions C54_symmetric.
(** In particular, for one routine at any time *)
Theorem C54_one_routine : forall cfg f r lg, forest_ok f -> exists b ls,
  cli_events cfg (EvStart r :: calls f ++ [EvEnd]) lg =
  Some (mkLog (cl_stack lg) (cl_out lg ++ (if b : bool then [LnStart r] else []) ++ ls ++ (if b then [LnEnd r] else []))).
Proof.
  intros cfg f r [st out] Hf. exists (length st <? lc_routines cfg), (lines cfg (S (length st)) f).
  change (EvStart r :: calls f ++ [EvEnd]) with (calls (FRoutine r f FNil)). rewrite cli_calls by (cbn; auto).
  cbn [lines cl_stack cl_out]. rewrite app_nil_r. destruct (length st <? lc_routines cfg); [reflexivity|].
  cbn [app]. now rewrite app_nil_r.
Qed.
Print Assumptions C54_one_routine.
Definition ex_forest : forest :=
  FRoutine RtHarvest (FMsg (EvOracleCall RSat) (FRoutine RtOracleCall FNil (FMsg EvSolution FNil))) FNil.
Example C54_example : forest_ok ex_forest /\
  option_map cl_out (cli_events (mkCfg true true true true true 1 true true true) (calls ex_forest) new_cli_logger)
  = Some [LnStart RtHarvest; LnOracleCall RSat; LnSolution; LnEnd RtHarvest].
Proof. split; [cbn; tauto|reflexivity]. Qed.

(** ** C61: a higher verbosity only adds lines *)
Theorem C61_verbosity : forall a v v' evs lg lg', v <= v' ->
  cli_events (cfg_of_args (at_verbosity v a)) evs new_cli_logger = Some lg ->
  cli_events (cfg_of_args (at_verbosity v' a)) evs new_cli_logger = Some lg' ->
  subseq (cl_out lg) (cl_out lg').
Proof. intros a v v' evs lg lg' H H1 H2. eapply sub_events; eauto using cfg_mono. Qed.
Print Assumptions C61_verbosity.
(** a message is printed exactly if it is asked for; fences are only reported by the lower-bounding algorithm *)
Theorem C61_levels : forall a e lg, (forall r, e <> EvStart r) -> e <> EvEnd -> (forall f, e = EvFence f -> c_alg a = ALowerBounding) ->
  exists lg', cli_event (logger_config a) e lg = Some lg' /\ cl_stack lg' = cl_stack lg /\
    (asked_for a e -> exists l, cl_out lg' = cl_out lg ++ [l]) /\ (~ asked_for a e -> cl_out lg' = cl_out lg).
Proof.
  intros a e lg Hs He Hf.
  assert (P : forall b l, (b = true <-> asked_for a e) -> exists lg', Some (print_if b l lg) = Some lg' /\ cl_stack lg' = cl_stack lg /\
    (asked_for a e -> exists l, cl_out lg' = cl_out lg ++ [l]) /\ (~ asked_for a e -> cl_out lg' = cl_out lg)).
  { intros b l Hb. exists (print_if b l lg). split; [reflexivity|]. destruct b; cbn [print_if cl_stack cl_out].
    - split; [reflexivity|]. split; [intros _; exists l; reflexivity|]. intros X. exfalso. apply X. apply Hb. reflexivity.
    - split; [reflexivity|]. split; [intros X; apply Hb in X; discriminate|]. reflexivity. }
  assert (Q : forall (b : bool) n, (b || (n <=? ga_verbosity (c_log a))) = true <-> b = true \/ exists m, Some n = Some m /\ m <= ga_verbosity (c_log a)).
  { intros b n. rewrite orb_true_iff, Nat.leb_le. split; intros [X|X]; auto.
    - right. exists n. auto.
    - destruct X as (m & E & X). injection E as ->. auto. }
  destruct e as [cs ph|r| |p|f|r| |c|w n r|x w|b1 b2 b3 b4]; cbn [cli_event].
  - apply P. unfold logger_config, asked_for. destruct (c_alg a); cbn [lc_candidates cfg_of_args own_option from_verbosity]; apply Q.
  - apply P. unfold logger_config, asked_for. destruct (c_alg a); cbn [lc_oracle_calls cfg_of_args own_option from_verbosity]; apply Q.
  - apply P. unfold logger_config, asked_for. destruct (c_alg a); cbn [lc_solutions cfg_of_args own_option from_verbosity];
      (split; [auto|intros [X|(m & X & _)]; [exact X|discriminate]]).
  - apply P. unfold logger_config, asked_for. destruct (c_alg a); cbn [lc_non_dom cfg_of_args own_option from_verbosity]; apply Q.
  - apply P. unfold logger_config, asked_for. rewrite (Hf f eq_refl). cbn [lc_fence cfg_of_args own_option from_verbosity]. apply Q.
  - exfalso. exact (Hs r eq_refl).
  - exfalso. exact (He eq_refl).
  - apply P. unfold logger_config, asked_for. destruct (c_alg a); cbn [lc_bound_points cfg_of_args own_option from_verbosity]; apply Q.
  - apply P. unfold logger_config, asked_for. destruct (c_alg a); cbn [lc_cores cfg_of_args own_option from_verbosity]; apply Q.
  - apply P. unfold logger_config, asked_for. destruct (c_alg a); cbn [lc_cores cfg_of_args own_option from_verbosity]; apply Q.
  - apply P. unfold logger_config, asked_for. destruct (c_alg a); cbn [lc_inpro cfg_of_args own_option from_verbosity]; apply Q.
Qed.
Print Assumptions C61_levels.
(** other algorithms never report a fence *)
Theorem C61_no_fence : forall a f lg, c_alg a <> ALowerBounding -> cli_event (logger_config a) (EvFence f) lg = Some lg.
Proof. intros a f lg H. unfold logger_config. destruct (c_alg a); try contradiction; reflexivity. Qed.
Print Assumptions C61_no_fence.
(** the instance is only stored if it is needed to reset the solver *)
Theorem C57_instance_stored : forall a, snd (cb_parse a) = true <-> exists o, fst (cb_parse a) = Some o /\ ca_reset a = true.
Proof.
  intros a. unfold cb_parse. destruct (ca_cb a); cbn [negb fst snd orb].
  - split; [intros H; eexists; split; [reflexivity|exact H]|intros (o & _ & H); exact H].
  - split; [discriminate|intros (o & H & _); discriminate].
Qed.
Print Assumptions C57_instance_stored.
Example C61_example : map (fun v => option_map cl_out (cli_events (cfg_of_args (mkLogArgs v false false false false false 0 false false false))
    (calls ex_forest) new_cli_logger)) [0; 1; 3] =
  [Some []; Some [LnStart RtHarvest; LnStart RtOracleCall; LnEnd RtOracleCall; LnEnd RtHarvest];
   Some [LnStart RtHarvest; LnOracleCall RSat; LnStart RtOracleCall; LnEnd RtOracleCall; LnEnd RtHarvest]].
Proof. reflexivity. Qed.

(** ** C57 for the command line: every combination of arguments *)

(** Enumeration of Pareto-MCSs needs unit soft clauses or reindexing; core boosting needs
    distinct soft clauses and, for BiOptSat, objectives that are not constant. *)
Definition cli_fits (a : cli_args) (E : environ) (p : parsed) : Prop :=
  (ea_enum (c_enum a) = EaParetoMcs -> c_reindexing a = true \/
     forall ob cw, In ob (pa_objs p) -> In cw (fst ob) -> exists l, fst cw = [l]) /\
  (c_reindexing a = true -> weights_mixed p) /\
  (ca_cb (c_cb a) = true -> core_nodup E /\ soft_distinct p /\ (c_alg a = ABiOptSat -> p_no_fixed_cost p)).
(** A finished run prints each Pareto-optimal cost vector exactly once and nothing else; one
    that was stopped early prints some of them. *)
Theorem C57_command_line : forall I (SP : enc_spec I) T (TS : tot_spec SP T) pe a E p,
  pb_enc_ok pe -> parsed_ok p -> oracle_ok E -> cli_fits a E p ->
  match run_cli T pe a E p with
  | RFront finished f => exists out, cli_output a (RFront finished f) = Some out /\
      let cs := map (fun x => fst (fst x)) out in
      NoDup cs /\ (forall c, In c cs -> p_optimal p c) /\
      (finished = true -> forall c, p_optimal p c -> In c cs) /\
      (forall c n sols, In (c, n, sols) out -> 0 < n /\
         (ga_print_solutions (c_log a) = true -> length sols = n /\
            forall sol b, In sol sols -> extends b sol -> p_feasible p b /\ p_costs p b = c) /\
         (ga_print_solutions (c_log a) = false -> sols = []))
  | RErr => True
  | RPanic => (c_reindexing a = true /\ exists i, to_clausal pe p = POk i /\ forall v, ~ occurs i v) \/
      (ca_cb (c_cb a) = true /\ (forall b, ~ p_feasible p b) /\ (c_minimization a = true \/ c_trimming a = true))
  | ROutOfFuel => (exists j, solved_inst pe (c_reindexing a) p = Some j /\ ev_fuel E <= iter_bound j) \/
      (ca_cb (c_cb a) = true /\ (forall b, ~ p_feasible p b) /\ (c_minimization a = true \/ c_trimming a = true))
  end.
Proof.
  intros I SP T TS pe a E p Hpe Hp HO (H1 & H2 & H3). unfold run_cli, cb_parse.
  assert (Hen : forall st, enum_fits (c_reindexing a) p (kernel_opts a st)).
  { intros st. unfold enum_fits, kernel_opts. cbn [o_enum o_bcg].
    destruct (ea_enum (c_enum a)) eqn:e; [exact Logic.I|reflexivity|now apply H1]. }
  set (cb := if negb (ca_cb (c_cb a)) then _ else _).
  assert (Hcb : cb_fits (c_alg a) (kernel_opts a (snd cb)) (fst cb) E p /\ (fst cb <> None -> ca_cb (c_cb a) = true)).
  { unfold cb, cb_fits. destruct (ca_cb (c_cb a)) eqn:e; cbn [negb fst snd]; [|split; [discriminate|intros G; now elim G]].
    split; [|reflexivity]. intros opts [= <-]. destruct (H3 eq_refl) as (G1 & G2 & G3).
    split; [exact G1|]. split; [exact G2|]. split; [|exact G3]. cbn. auto. }
  destruct Hcb as [Hcb Hcb']. destruct cb as [cb st]. cbn [fst snd] in *.
  assert (Hdead : cb_dead (kernel_opts a st) cb p ->
    ca_cb (c_cb a) = true /\ (forall b, ~ p_feasible p b) /\ (c_minimization a = true \/ c_trimming a = true)).
  { intros (D1 & D2 & D3). split; [now apply Hcb'|]. split; [exact D2|exact D3]. }
  pose proof (main_correct I SP T TS pe (c_reindexing a) (c_alg a) (kernel_opts a st) cb E
    (limits_of_args (c_limits a)) p Hpe Hp (Hen st) HO (proj1 (C17_cli_limits _)) H2 Hcb) as M.
  destruct (run_main _ _ _ _ _ _ _ _ _) as [fin f| | |]; [|exact Logic.I| |].
  - eexists. split; [reflexivity|]. cbv zeta. unfold print_front. rewrite map_map. cbn [print_non_dom fst].
    destruct M as [[M1 M2] M3]. rewrite Forall_forall in M2. split; [exact M1|]. split; [|split].
    + intros c Hc. apply in_map_iff in Hc. destruct Hc as (nd & <- & Hnd). now apply M2.
    + intros Hf c Hc. apply (M3 Hf). exact Hc.
    + intros c n sols Hin. apply in_map_iff in Hin. destruct Hin as (nd & He & Hnd). injection He as <- <- <-.
      destruct (M2 nd Hnd) as (G1 & G2 & G3). rewrite Forall_forall in G3. split.
      * destruct (nd_sols nd); [congruence|cbn; lia].
      * destruct (ga_print_solutions (c_log a)); (split; [|split]) || split; try discriminate; try reflexivity.
        intros _. split; [reflexivity|]. intros sol b Hs Hb. now apply (G3 sol Hs).
  - destruct M as [M|M]; [now left|right; now apply Hdead].
  - destruct M as [M|M]; [now left|right; now apply Hdead].
Qed.
Print Assumptions C57_command_line.
(** Without limits and disturbance, and with enough fuel, it finishes. *)
Theorem C57_command_line_finishes : forall I (SP : enc_spec I) T (TS : tot_spec SP T) pe a E p j,
  pb_enc_ok pe -> parsed_ok p -> oracle_ok E -> calm E -> cli_fits a E p ->
  limits_of_args (c_limits a) = lims_none ->
  ~ (ca_cb (c_cb a) = true /\ (forall b, ~ p_feasible p b) /\ (c_minimization a = true \/ c_trimming a = true)) ->
  solved_inst pe (c_reindexing a) p = Some j -> (c_alg a = ABiOptSat -> length (pa_objs p) = 2) ->
  iter_bound j < ev_fuel E ->
  exists f, run_cli T pe a E p = RFront true f.
Proof.
  intros I SP T TS pe a E p j Hpe Hp HO HC (H1 & H2 & H3) Hl Hd Hj Hn HF. unfold run_cli, cb_parse.
  assert (Hen : forall st, enum_fits (c_reindexing a) p (kernel_opts a st)).
  { intros st. unfold enum_fits, kernel_opts. cbn [o_enum o_bcg].
    destruct (ea_enum (c_enum a)) eqn:e; [exact Logic.I|reflexivity|now apply H1]. }
  rewrite Hl. destruct (ca_cb (c_cb a)) eqn:e; cbn [negb].
  - eapply (main_finishes I SP T TS); eauto.
    + intros opts [= <-]. destruct (H3 eq_refl) as (G1 & G2 & G3).
      split; [exact G1|]. split; [exact G2|]. split; [|exact G3]. cbn. auto.
    + intros (D1 & D2 & D3). apply Hd. auto.
  - eapply (main_finishes I SP T TS); eauto.
    + intros opts [=].
    + intros (D1 & D2 & D3). now elim D1.
Qed.
Print Assumptions C57_command_line_finishes.
Definition ex_args (al : alg) (cb : bool) : cli_args :=
  mkCliArgs al false true true false false true (mkCbArgs cb true true) (mkEnumArgs EaSolutions 0) true
    (mkLimArgs 0 0 0 0) (mkLogArgs 0 false false false false false 0 false false true).
Lemma ex_args_fits al cb : cli_fits (ex_args al cb) (env false 200) exp_p.
Proof.
  split; [discriminate|]. split; [intros _; exact exp_p_mixed|]. intros _. split; [apply brute_core_nodup|]. split.
  - intros ob [<-|[<-|[]]]; repeat constructor; cbn; intuition discriminate.
  - assert (F0 : p_feasible exp_p (fun v => v =? 0)) by (repeat constructor; vm_compute; discriminate).
    assert (F1 : p_feasible exp_p (fun v => v =? 1)) by (repeat constructor; vm_compute; discriminate).
    intros _ ob [<-|[<-|[]]] Hc b Hb; exfalso; pose proof (Hc _ _ F0 F1) as G; vm_compute in G; discriminate.
Qed.
Example C57_command_line_run : map (fun al => cli_output (ex_args al true) (run_cli TI pb_brute (ex_args al true) (env false 200) exp_p))
    [APMinimal; ALowerBounding; ABiOptSat] = let out :=
     [([0%Z; 0%Z], 2,
       [[Some false; Some false; Some true; None; Some false];
        [Some false; Some true; Some false; None; Some false]]);
      ([3%Z; (-1)%Z], 3,
       [[Some true; Some false; Some false; None; Some false];
        [Some true; Some false; Some true; None; Some false];
        [Some true; Some true; Some false; None; Some false]])] in [Some out; Some out; Some out].
Proof. vm_compute. reflexivity. Qed.
