(** * What the logger is told is true (C90)

    [s_trace] lists the calls made to the loggers attached over time, newest first; a call whose
    logger fails is in the list, since the logger has seen it.  [user_costs] (TightSpec.v) turns the
    cost vector of the solver into values of the user's objectives; [logged_points] and [no_detach] are
    in LogTrue.v. *)
From Coq Require Import List Bool Arith Lia ZArith.
From Verif Require Import Base BaseLemmas Spec MTypes MKernel MPMinimal MLowerBounding MBiOptSat EncSpec
  ApiSpec Inst ExInst Sem Kern ApiTop FeasInv TightSpec TightThm LogStruct LogTrue PropFront.
Import ListNotations.

Lemma build_len : forall l n, length (build_objs n l) = length l.
Proof. induction l as [|r l IH]; intros n; [reflexivity|]. cbn [build_objs length]. now rewrite IH. Qed.

(** Every candidate that is logged has the objective values of a solution of the instance, in all
    algorithms, with all options, after any history of calls, however they end. *)
Theorem C90_candidates : forall I (SP : enc_spec I) i o al h s,
  inst_ok i -> alg_new (I := I) al i o = Some s -> run_ok h ->
  forall cs ph, In (EvCandidate cs ph) (s_trace (run al h s)) ->
  length cs = length (in_objs i) /\
  exists a, feasible (in_cls i) a /\ costs (in_objs i) a = user_costs (in_objs i) cs.
Proof.
  intros I SP i o al h s HI Hs Hh cs ph Hin. destruct (log_some SP i HI al o s h Hs Hh) as (me & _ & [H _ _]).
  destruct (H cs ph Hin) as (a & Ha & ->). split.
  - rewrite ic_length. apply build_len.
  - exists a. split; [exact Ha|]. symmetry. apply user_ic, HI.
Qed.
Print Assumptions C90_candidates.

(** Every point that is logged is in the reported front: no call ends, not even by a failing logger, an
    interrupt or a limit, after telling the logger of a point and without reporting it.  Its solutions are
    valid with the costs told. *)
Theorem C90_points : forall I (SP : enc_spec I) i o al h s,
  inst_ok i -> alg_new (I := I) al i o = Some s -> run_ok h ->
  forall p, In (EvNonDom p) (s_trace (run al h s)) ->
  In p (s_front (run al h s)) /\ nd_sols p <> [] /\
  forall sol, In sol (nd_sols p) -> valid_solution (in_cls i) (in_objs i) (n_orig i) (nd_costs p) sol.
Proof.
  intros I SP i o al h s HI Hs Hh p Hin. destruct (log_some SP i HI al o s h Hs Hh) as (me & HC & [_ H _]).
  specialize (H p Hin). split; [exact H|].
  pose proof (co_front _ _ _ HC) as HF. rewrite Forall_forall in HF. exact (HF p H).
Qed.
Print Assumptions C90_points.

(** Without enumeration it is told of Pareto-optimal points only. *)
Theorem C90_points_optimal : forall I (SP : enc_spec I) i o al h s,
  inst_ok i -> o_enum o = NoEnum -> alg_new (I := I) al i o = Some s -> run_ok h ->
  forall p, In (EvNonDom p) (s_trace (run al h s)) -> pareto_optimal (in_cls i) (in_objs i) (nd_costs p).
Proof.
  intros I SP i o al h s HI Hn Hs Hh p Hin. destruct (C90_points I SP i o al h s HI Hs Hh p Hin) as [H _].
  assert (G : Forall (sound_point i) (s_front (run al h s))).
  { destruct al; [apply (C01_pminimal_sound I SP i o)|apply (C04_lowerbounding_sound I SP i o)|
                  apply (C07_bioptsat_sound_history I SP i o)]; assumption. }
  rewrite Forall_forall in G. apply (G p H).
Qed.
Print Assumptions C90_points_optimal.

(** With a logger attached from the start and never detached, the points logged are exactly the reported
    front: in this order, with the same costs and solutions. *)
Theorem C90_all_points : forall I (SP : enc_spec I) i o al h s,
  inst_ok i -> alg_new (I := I) al i o = Some s -> run_ok h -> Forall no_detach h ->
  logged_points (rev (s_trace (run al (Attach :: h) s))) = s_front (run al (Attach :: h) s).
Proof.
  intros I SP i o al h s HI Hs Hh Hd. destruct (log_all SP i HI al o s h Hs Hh Hd) as [_ _ H].
  destruct (H eq_refl) as [_ H']. rewrite logged_points_rev, H'. apply rev_involutive.
Qed.
Print Assumptions C90_all_points.

(** ** Examples: all three algorithms, with a logger that fails and with limits *)
Definition lg_env : environ := mkEnv (ev_oracle ex_env) (ev_flag ex_env) (fun n => n =? 9) 300.
Definition lg_hist : list step := [Solve lg_env lims_none; Solve ex_env ex_lims; Attach; Solve ex_env' lims_none].
Example lg_hist_ok : run_ok lg_hist /\ Forall no_detach lg_hist.
Proof. split; repeat constructor; try apply brute_ok; try discriminate. Qed.
Fixpoint lg_cands (t : list event) : list (list Z) :=
  match t with [] => [] | EvCandidate cs _ :: t' => user_costs (in_objs ex_inst) cs :: lg_cands t' | _ :: t' => lg_cands t' end.
Definition lg_run al e : option (list (list Z) * list (list Z) * list (list Z)) :=
  option_map (fun s => let s' := run al (Attach :: lg_hist) s in
    (lg_cands (rev (s_trace s')), map nd_costs (logged_points (rev (s_trace s'))), map nd_costs (s_front s')))
    (alg_new (I := CI) al ex_inst (ex_opts e)).
Local Open Scope Z_scope.
(** the logger fails after the first candidate (which is lost, see C39) *)
Example C90_example_pmin : lg_run APMinimal NoEnum = Some ([[3; 0]; [2; 1]; [1; 1]; [5; (-1)]], [[1; 1]; [5; (-1)]], [[1; 1]; [5; (-1)]])%Z.
Proof. vm_compute. reflexivity. Qed.
Example C90_example_lb : lg_run ALowerBounding (Solutions None) = Some ([[2; 1]; [1; 1]; [3; 0]; [5; -1]], [[1; 1]; [3; 0]; [5; -1]], [[1; 1]; [3; 0]; [5; -1]]%Z).
Proof. vm_compute. reflexivity. Qed.
Example C90_example_bos : lg_run ABiOptSat NoEnum = Some ([[2; 1]; [2; 1]; [1; 1]; [1; 1]], [[1; 1]; [1; 1]; [3; 0]; [5; -1]], [[1; 1]; [1; 1]; [3; 0]; [5; -1]]%Z).
Proof. vm_compute. reflexivity. Qed.
