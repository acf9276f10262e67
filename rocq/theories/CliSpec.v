(** * Vocabulary for statements about the terminal logger.  Definitions only. *)
From Coq Require Import List Bool Arith.
From Verif Require Import Base MTypes MKernel MCli.
Import ListNotations.

(** Messages to a logger as a structure: other messages, and routines that have a beginning,
    messages in between, and an end *)
Inductive forest :=
| FNil
| FMsg (e : event) (rest : forest)
| FRoutine (r : routine) (body rest : forest).
Definition is_msg (e : event) : Prop := match e with EvStart _ | EvEnd => False | _ => True end.
Fixpoint forest_ok (f : forest) : Prop :=
  match f with
  | FNil => True
  | FMsg e rest => is_msg e /\ forest_ok rest
  | FRoutine _ body rest => forest_ok body /\ forest_ok rest
  end.
(** The calls made on the logger, oldest first *)
Fixpoint calls (f : forest) : list event :=
  match f with
  | FNil => []
  | FMsg e rest => e :: calls rest
  | FRoutine r body rest => EvStart r :: calls body ++ EvEnd :: calls rest
  end.
(** A log that was cut off: routines that are still open, outermost first, each with what came
    before it *)
Fixpoint open_calls (sp : list (forest * routine)) (f : forest) : list event :=
  match sp with
  | [] => calls f
  | (g, r) :: sp' => calls g ++ EvStart r :: open_calls sp' f
  end.

(** The line for a message, if the configuration asks for it *)
Definition msg_line (cfg : logger_cfg) (e : event) : list line :=
  match e with
  | EvCandidate cs ph => if lc_candidates cfg then [LnCandidate cs ph] else []
  | EvOracleCall r => if lc_oracle_calls cfg then [LnOracleCall r] else []
  | EvSolution => if lc_solutions cfg then [LnSolution] else []
  | EvNonDom p => if lc_non_dom cfg then [LnNonDom (nd_costs p) (length (nd_sols p))] else []
  | EvFence f => if lc_fence cfg then [LnFence f] else []
  | EvIdeal c => if lc_bound_points cfg then [LnIdeal c] else []
  | EvCore w n r => if lc_cores cfg then [LnCore w n r] else []
  | EvExhaustion x w => if lc_cores cfg then [LnExhausted x w] else []
  | EvInpro b a n r => if lc_inpro cfg then [LnInpro b a n r] else []
  | EvStart _ | EvEnd => []
  end.
(** The lines for a log: a routine at nesting depth [d] gets both its messages or none,
    depending on whether [d] is less than the configured depth *)
Fixpoint lines (cfg : logger_cfg) (d : nat) (f : forest) : list line :=
  match f with
  | FNil => []
  | FMsg e rest => msg_line cfg e ++ lines cfg d rest
  | FRoutine r body rest =>
      (if d <? lc_routines cfg then [LnStart r] ++ lines cfg (S d) body ++ [LnEnd r]
       else lines cfg (S d) body) ++ lines cfg d rest
  end.
Fixpoint open_lines (cfg : logger_cfg) (d : nat) (sp : list (forest * routine)) (f : forest) : list line :=
  match sp with
  | [] => lines cfg d f
  | (g, r) :: sp' =>
      lines cfg d g ++ (if d <? lc_routines cfg then [LnStart r] else []) ++ open_lines cfg (S d) sp' f
  end.

(** [a] is [b] with some elements left out *)
Inductive subseq {A} : list A -> list A -> Prop :=
| sub_nil : subseq [] []
| sub_skip x a b : subseq a b -> subseq a (x :: b)
| sub_keep x a b : subseq a b -> subseq (x :: a) (x :: b).

(** What asks for a kind of message: an option of its own, and the verbosity from which on it is printed *)
Definition own_option (a : cli_args) (e : event) : bool :=
  match e with
  | EvCandidate _ _ => ga_candidates (c_log a)
  | EvOracleCall _ => ga_oracle_calls (c_log a)
  | EvSolution => ga_solutions (c_log a)
  | EvNonDom _ => ga_non_dom (c_log a)
  | EvFence _ => c_log_fence a
  | EvIdeal _ => ga_bound_points (c_log a)
  | EvCore _ _ _ | EvExhaustion _ _ => ga_cores (c_log a)
  | EvInpro _ _ _ _ => ga_inprocessing (c_log a)
  | EvStart _ | EvEnd => false
  end.
Definition from_verbosity (e : event) : option nat :=
  match e with
  | EvNonDom _ | EvInpro _ _ _ _ => Some 1
  | EvCandidate _ _ | EvFence _ | EvIdeal _ | EvCore _ _ _ | EvExhaustion _ _ => Some 2
  | EvOracleCall _ => Some 3
  | EvSolution | EvStart _ | EvEnd => None
  end.
Definition asked_for (a : cli_args) (e : event) : Prop :=
  own_option a e = true \/ exists n, from_verbosity e = Some n /\ n <= ga_verbosity (c_log a).
