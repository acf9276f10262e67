(** * Model of src/cli.rs: command-line arguments and the terminal logger

    Default features (no MaxPre, no solution tightening).  Colours, times and the text of the
    messages are not modelled: a printed line is what it reports. *)
From Coq Require Import List Bool Arith ZArith.
From Verif Require Import Base MTypes MKernel MOll ApiSpec MPrepro MMain.
Import ListNotations.

(** cli.rs 28-36 [none_if_zero!] *)
Definition none_if_zero (n : nat) : option nat := if n =? 0 then None else Some n.

(** cli.rs 232-249 [LimitArgs], 251-260 [From<LimitArgs> for Limits] *)
Record limit_args := mkLimArgs {
  la_pp : nat; la_sol : nat; la_candidate : nat; la_oracle_call : nat }.
Definition limits_of_args (v : limit_args) : limits :=
  mkLims (none_if_zero (la_pp v)) (none_if_zero (la_sol v))
         (none_if_zero (la_candidate v)) (none_if_zero (la_oracle_call v)).

(** cli.rs 197-206 [EnumArgs], 479-489 [EnumOptionsArg] *)
Inductive enum_arg := EaNone | EaSolutions | EaParetoMcs.
Record enum_args := mkEnumArgs { ea_enum : enum_arg; ea_limit : nat }.

(** cli.rs 137-159 [CoreBoostingArgs]; [inprocessing] is disabled at compile time and always
    [false] (422-434) *)
Record cb_args := mkCbArgs { ca_cb : bool; ca_rebase : bool; ca_reset : bool }.
(** cli.rs 167-195 [CoreBoostingArgs::parse] *)
Definition cb_parse (a : cb_args) : option cb_opts * bool :=
  if negb (ca_cb a) then (None, false)
  else
    let store_cnf := false || ca_reset a in
    (Some (mkCb (ca_rebase a) (ca_reset a)), store_cnf).

(** cli.rs 275-320 [LogArgs] *)
Record log_args := mkLogArgs {
  ga_verbosity : nat;
  ga_candidates : bool; ga_solutions : bool; ga_non_dom : bool; ga_oracle_calls : bool;
  ga_cores : bool; ga_routines : nat; ga_bound_points : bool; ga_inprocessing : bool;
  ga_print_solutions : bool }.

(** cli.rs 38-74 [CliArgs], 106-134 [AlgorithmCommand].  The encodings of BiOptSat have a
    single choice each; the file is parsed elsewhere. *)
Record cli_args := mkCliArgs {
  c_alg : alg;
  c_log_fence : bool;          (* only used by the lower-bounding command *)
  c_reserve : bool; c_sgs : bool;
  c_trimming : bool; c_minimization : bool; c_exhaustion : bool;
  c_cb : cb_args; c_enum : enum_args; c_reindexing : bool;
  c_limits : limit_args; c_log : log_args }.

(** cli.rs 77-103 [kernel_opts]; the blocking clause generator is the default one
    (main.rs 211 [from_instance_default_blocking]) *)
Definition kernel_opts (a : cli_args) (store_cnf : bool) : kopts :=
  mkOpts
    (match ea_enum (c_enum a) with
     | EaNone => NoEnum
     | EaSolutions => Solutions (none_if_zero (ea_limit (c_enum a)))
     | EaParetoMcs => PMCSs (none_if_zero (ea_limit (c_enum a)))
     end)
    (c_reserve a) (c_sgs a) (c_trimming a) (c_minimization a) (c_exhaustion a)
    store_cnf default_blocking_clause.

(** ** Terminal logger *)

(** cli.rs 1039-1051 [LoggerConfig] *)
Record logger_cfg := mkCfg {
  lc_candidates : bool; lc_solutions : bool; lc_non_dom : bool; lc_oracle_calls : bool;
  lc_fence : bool; lc_routines : nat; lc_bound_points : bool; lc_cores : bool; lc_inpro : bool }.
(** cli.rs 322-340 [From<LogArgs> for LoggerConfig] *)
Definition cfg_of_args (v : log_args) : logger_cfg := mkCfg
  (ga_candidates v || (2 <=? ga_verbosity v))
  (ga_solutions v)
  (ga_non_dom v || (1 <=? ga_verbosity v))
  (ga_oracle_calls v || (3 <=? ga_verbosity v))
  false
  (Nat.max (ga_routines v) (ga_verbosity v * 2))
  (ga_bound_points v || (2 <=? ga_verbosity v))
  (ga_cores v || (2 <=? ga_verbosity v))
  (ga_inprocessing v || (1 <=? ga_verbosity v)).
(** cli.rs 609, 643, 673-676: the configuration used by each command *)
Definition logger_config (a : cli_args) : logger_cfg :=
  let c := cfg_of_args (c_log a) in
  match c_alg a with
  | ALowerBounding =>
      mkCfg (lc_candidates c) (lc_solutions c) (lc_non_dom c) (lc_oracle_calls c)
            (c_log_fence a || (2 <=? ga_verbosity (c_log a)))
            (lc_routines c) (lc_bound_points c) (lc_cores c) (lc_inpro c)
  | _ => c
  end.

(** A line written to the terminal *)
Inductive line :=
| LnCandidate (cs : list nat) (ph : phase)
| LnOracleCall (r : sres)
| LnSolution
| LnNonDom (costs : list Z) (n_sols : nat)
| LnFence (f : list nat)
| LnStart (r : routine)
| LnEnd (r : routine)
| LnIdeal (c : list nat)
| LnCore (weight len red_len : nat)
| LnExhausted (exhausted weight : nat)
| LnInpro (cls_before cls_after fixed_lits : nat) (ranges : list (nat * nat)).

(** cli.rs 1054-1058 [CliLogger]: the stack of open routines (innermost first) and the lines
    printed so far, in order *)
Record cli_log := mkLog { cl_stack : list routine; cl_out : list line }.
(** cli.rs 687-703 [new_cli_logger] *)
Definition new_cli_logger : cli_log := mkLog [] [].

Definition print_if (b : bool) (l : line) (lg : cli_log) : cli_log :=
  if b then mkLog (cl_stack lg) (cl_out lg ++ [l]) else lg.

(** cli.rs 1060-1307 [WriteSolverLog for CliLogger]; [None] is the panic "routine stack out
    of sync".  The two lines on inprocessing are one [LnInpro]. *)
Definition cli_event (cfg : logger_cfg) (ev : event) (lg : cli_log) : option cli_log :=
  match ev with
  | EvCandidate cs ph => Some (print_if (lc_candidates cfg) (LnCandidate cs ph) lg)
  | EvOracleCall r => Some (print_if (lc_oracle_calls cfg) (LnOracleCall r) lg)
  | EvSolution => Some (print_if (lc_solutions cfg) LnSolution lg)
  | EvNonDom p => Some (print_if (lc_non_dom cfg) (LnNonDom (nd_costs p) (length (nd_sols p))) lg)
  | EvFence f => Some (print_if (lc_fence cfg) (LnFence f) lg)
  | EvStart r =>
      let lg := mkLog (r :: cl_stack lg) (cl_out lg) in
      Some (print_if (length (cl_stack lg) <=? lc_routines cfg) (LnStart r) lg)
  | EvEnd =>
      match cl_stack lg with
      | [] => None
      | r :: rest =>
          let lg := mkLog rest (cl_out lg) in
          Some (print_if (length (cl_stack lg) <? lc_routines cfg) (LnEnd r) lg)
      end
  | EvIdeal c => Some (print_if (lc_bound_points cfg) (LnIdeal c) lg)
  | EvCore w n r => Some (print_if (lc_cores cfg) (LnCore w n r) lg)
  | EvExhaustion x w => Some (print_if (lc_cores cfg) (LnExhausted x w) lg)
  | EvInpro b a n r => Some (print_if (lc_inpro cfg) (LnInpro b a n r) lg)
  end.
(** All calls made on the logger, oldest first *)
Fixpoint cli_events (cfg : logger_cfg) (evs : list event) (lg : cli_log) : option cli_log :=
  match evs with
  | [] => Some lg
  | e :: r => match cli_event cfg e lg with Some lg' => cli_events cfg r lg' | None => None end
  end.

(** cli.rs 1202-1207 [log_end_solve]; nothing in the code base calls it *)
Definition log_end_solve (cfg : logger_cfg) (lg : cli_log) : option cli_log :=
  cli_events cfg (map (fun _ => EvEnd) (cl_stack lg)) lg.

(** ** The printed Pareto front *)

(** cli.rs 820-837 [print_pareto_front], 968-990 [print_non_dom]: per point its costs, the
    number of its solutions and, if asked for, the solutions *)
Definition print_non_dom (print_solutions : bool) (p : nd_point assignment)
  : list Z * nat * list assignment :=
  (nd_costs p, length (nd_sols p), if print_solutions then nd_sols p else []).
Definition print_front (print_solutions : bool) (f : front assignment)
  : list (list Z * nat * list assignment) := map (print_non_dom print_solutions) f.

(** ** The whole program *)

(** cli.rs 570-685 [Cli::init] (arguments to options), main.rs 138-205 [sub_main]: the run for
    a parsed instance *)
Definition run_cli {I} (T : tot_impl I) (pe : pb_encoder) (a : cli_args) (E : environ)
    (p : parsed) : main_res :=
  let '(cb, store_cnf) := cb_parse (c_cb a) in
  run_main T pe (c_reindexing a) (c_alg a) (kernel_opts a store_cnf) cb E
    (limits_of_args (c_limits a)) p.
(** main.rs 276-300 [post_solve]: the Pareto front that is printed; errors and panics print
    none *)
Definition cli_output (a : cli_args) (r : main_res) : option (list (list Z * nat * list assignment)) :=
  match r with
  | RFront _ f => Some (print_front (ga_print_solutions (c_log a)) f)
  | _ => None
  end.
