(** * Limits, statistics, interrupts, growth of the front, logging *)
From Coq Require Import List Bool Arith Lia ZArith.
From Verif Require Import Base BaseLemmas Spec MTypes MKernel MPMinimal MLowerBounding MBiOptSat
  EncSpec Inst Wp Sem Kern Init ApiSpec Book LogSpec LogBal Intr ExInst ApiTop BookTop PropFront.
Import ListNotations.

(** ** C16: limits.  For each kind of termination [limit_of] is the limit and [count_of] the
    statistic it bounds.  No call exceeds a limit; a call that stops with a limit's reason
    has used it up exactly; a call that finishes has used up no limit.  Holds for every
    oracle. *)
Theorem C16_limits_respected : forall I (SP : enc_spec I) E al l (s : st I), lims_pos l ->
  let r := alg_solve al E l s in
  (forall t k, limit_of t l = Some k -> count_of t (s_stats (snd r)) <= count_of t (s_stats s) + k) /\
  (forall t, fst r = Exit (ETerm t) -> t <> Interrupted ->
     exists k, limit_of t l = Some k /\ count_of t (s_stats (snd r)) = count_of t (s_stats s) + k) /\
  (fst r = Done tt -> forall t k, limit_of t l = Some k ->
     count_of t (s_stats (snd r)) < count_of t (s_stats s) + k).
Proof. exact @limits_solve. Qed.
Print Assumptions C16_limits_respected.
Definition ex_count al e E l : option (res unit * list nat) :=
  option_map (fun x => (fst x, let y := s_stats (snd x) in [n_non_dominated y; n_solutions y; n_candidates y; n_oracle_calls y]))
    (ex_first al e E l).
Example C16_example :
  ex_count APMinimal NoEnum ex_env (mkLims (Some 2) (Some 9) (Some 9) (Some 9)) =
    Some (Exit (ETerm PPLimit), [2; 2; 3; 5]).
Proof. vm_compute. reflexivity. Qed.
Example C16_example' :
  ex_count ABiOptSat (Solutions None) ex_env (mkLims None (Some 3) None None) = Some (Exit (ETerm SolsLimit), [2; 3; 2; 10]).
Proof. vm_compute. reflexivity. Qed.

(** ** C18, C20: statistics and growth over a history *)
Theorem C18_statistics_match : forall I (SP : enc_spec I) i o al (s0 : st I) h,
  inst_ok i -> alg_new al i o = Some s0 -> hist_pos h ->
  let s := run al h s0 in
  n_solve_calls (s_stats s) = solve_calls h /\
  n_non_dominated (s_stats s) = length (s_front s) /\
  n_solutions (s_stats s) >= list_sum (map (fun p => length (nd_sols p)) (s_front s)) /\
  (o_enum o = NoEnum -> n_solutions (s_stats s) = length (s_front s) /\
     Forall (fun p => length (nd_sols p) = 1) (s_front s)).
Proof. exact @top_C18. Qed.
Print Assumptions C18_statistics_match.
(** With enumeration: a call that finishes, or stops with a limit on points or solutions,
    counts exactly the solutions it stores. *)
Theorem C18_statistics_enumeration : forall I (SP : enc_spec I) E al l (s : st I),
  lims_pos l -> let r := alg_solve al E l s in
  fst r = Done tt \/ fst r = Exit (ETerm PPLimit) \/ fst r = Exit (ETerm SolsLimit) ->
  exists news, s_front (snd r) = s_front s ++ news /\
    n_solutions (s_stats (snd r)) = n_solutions (s_stats s) +
      list_sum (map (fun p => length (nd_sols p)) news).
Proof. exact @top_C18_enum. Qed.
Print Assumptions C18_statistics_enumeration.
(** ... and a call stopped between two solutions of a point counts solutions it drops *)
Example C18_dropped :
  option_map (fun x => (fst x, n_solutions (s_stats (snd x)), length (s_front (snd x))))
    (ex_first APMinimal (Solutions None) ex_env (mkLims None None None (Some 4)))
  = Some (Exit (ETerm OracleCallsLimit), 2, 0).
Proof. vm_compute. reflexivity. Qed.
Example C18_example :
  option_map (fun s0 => let s := run APMinimal ex_hist s0 in
     (n_solve_calls (s_stats s), n_non_dominated (s_stats s), n_solutions (s_stats s)))
    (alg_new (I := CI) APMinimal ex_inst (ex_opts NoEnum)) = Some (2, 3, 3).
Proof. vm_compute. reflexivity. Qed.

Theorem C20_front_grows : forall I (SP : enc_spec I) al h h' (s : st I), hist_pos h' ->
  exists news, s_front (run al (h ++ h') s) = s_front (run al h s) ++ news.
Proof. exact @top_C20. Qed.
Print Assumptions C20_front_grows.

(** ** C19: interrupts.  With the flag raised throughout the call, whatever happened before:
    interrupted (or a failing logger or oracle), nothing reported, at most one oracle call. *)
Theorem C19_interrupt_stops : forall I (SP : enc_spec I) i o al (s : st I) h E l,
  inst_ok i -> alg_new al i o = Some s -> (forall k, ev_flag E k = true) -> 0 < ev_fuel E ->
  let s1 := run al h s in let r := alg_solve al E l s1 in
  (fst r = Exit (ETerm Interrupted) \/ fst r = Exit (EErr ErrLogger) \/ fst r = Exit (EErr ErrOracle)) /\
  s_front (snd r) = s_front s1 /\ s_calls (snd r) <= S (s_calls s1).
Proof. exact @intr_history. Qed.
Print Assumptions C19_interrupt_stops.
(** A flag raised at any moment: C01, C04, C07 and C11 quantify over all environments, in
    particular over every flag; the front stays sound. *)
Definition flag_env (n : nat) : environ := mkEnv (brute true) (fun k => n <=? k) (fun _ => false) 300.
Example C19_example :
  option_map (fun s => let s1 := run APMinimal [Solve ex_env ex_lims] s in
     let r := alg_solve APMinimal (flag_env 0) lims_none s1 in
     (fst r, map nd_costs (s_front (snd r)), s_calls (snd r) - s_calls s1))
    (alg_new (I := CI) APMinimal ex_inst (ex_opts NoEnum)) = Some (Exit (ETerm Interrupted), [[3; 0]]%Z, 1).
Proof. vm_compute. reflexivity. Qed.
Example C19_during : ex_costs (ex_first APMinimal NoEnum (flag_env 9) lims_none) =
  Some (Exit (ETerm Interrupted), [[3; 0]]%Z).
Proof. vm_compute. reflexivity. Qed.

(** ** C43: routine events.  [open_routines] is [None] iff some prefix ends more routines than
    it started. *)
Theorem C43_routines_nested : forall I al h (s : st I), open_routines (s_trace s) <> None ->
  open_routines (s_trace (run al h s)) <> None.
Proof. exact @log_history. Qed.
Print Assumptions C43_routines_nested.
Theorem C43_routines_closed : forall I al E l (s s' : st I), al <> ABiOptSat ->
  alg_solve al E l s = (Done tt, s') -> open_routines (s_trace s) <> None ->
  open_routines (s_trace s') = open_routines (s_trace s).
Proof. exact @top_C43. Qed.
Print Assumptions C43_routines_closed.
Theorem C43_new_trace : forall I (SP : enc_spec I) i o al (s : st I), inst_ok i ->
  alg_new al i o = Some s -> s_trace s = [].
Proof. exact @new_trace. Qed.
Example C43_example :
  option_map (fun s => let s1 := run APMinimal [Attach; Solve ex_env ex_lims] s in
     let s2 := snd (alg_solve APMinimal ex_env lims_none s1) in
     (open_routines (s_trace s1), open_routines (s_trace s2), length (s_trace s2)))
    (alg_new (I := CI) APMinimal ex_inst (ex_opts NoEnum)) = Some (Some 1, Some 1, 49).
Proof. vm_compute. reflexivity. Qed.
