(** * Vocabulary for runs with solution tightening (C89).  Definitions only. *)
From Coq Require Import List Bool Arith ZArith.
From Verif Require Import Base Spec MTypes MKernel EncSpec MTight InproSpec ApiSpec CbSpec TightSpec MTightAlg.
Import ListNotations.

(** Flips keep the clauses and the assumptions of the query that the oracle answered; they start from
    the model it answered. *)
Definition flipper_ok (ros : list raw_obj) (F : flipper) : Prop :=
  (forall q, flip_ok (q_cls q ++ map (fun l => [l]) (q_assumps q)) ros (fl_oracle F q)) /\
  (forall q m, ora_model (fl_oracle F q) (fl_start F q m) = m).

(** Positive weights, no literal twice in an objective *)
Definition plain_objs (i : inst) : Prop :=
  (forall r lw, In r (in_objs i) -> In lw (fst r) -> 0 < snd lw) /\ lits_distinct i.

(** Two environments that differ at most in the answers of the oracle; if the oracle of the first
    never fails, that of the second does not either *)
Definition same_but_oracle (E E' : environ) : Prop :=
  ev_flag E' = ev_flag E /\ ev_logfail E' = ev_logfail E /\ ev_fuel E' = ev_fuel E /\
  ((forall q, ev_oracle E q <> AErr) -> forall q, ev_oracle E' q <> AErr).

(** Histories of calls with tightening: every call of [solve] has its own environment and flips *)
Inductive tstep :=
| TSolve (E : environ) (F : flipper) (w : heur_when) (l : limits)
| TAttach
| TDetach.
Definition run_tstep {I} (al : alg) (x : tstep) (s : st I) : st I :=
  match x with
  | TSolve E F w l => snd (tight_solve E F w al l s)
  | TAttach => snd (attach_logger s)
  | TDetach => snd (detach_logger s)
  end.
Fixpoint run_t {I} (al : alg) (h : list tstep) (s : st I) : st I :=
  match h with [] => s | x :: h' => run_t al h' (run_tstep al x s) end.
Definition tstep_ok (ros : list raw_obj) (x : tstep) : Prop :=
  match x with TSolve E F w l => oracle_ok E /\ flipper_ok ros F /\ lims_pos l | _ => True end.
Definition run_t_ok (ros : list raw_obj) (h : list tstep) : Prop := Forall (tstep_ok ros) h.

(** A history without tightening with the same calls, limits, interrupts and loggers *)
Inductive same_step : tstep -> step -> Prop :=
| SsSolve E F w l E' : same_but_oracle E E' -> same_step (TSolve E F w l) (Solve E' l)
| SsAttach : same_step TAttach Attach
| SsDetach : same_step TDetach Detach.

(** Running the first [solve] on a new solver *)
Definition first_tight {I} (al : alg) (i : inst) (o : kopts) (E : environ) (F : flipper) (w : heur_when) (l : limits)
  : option (res unit * st I) :=
  match alg_new al i o with Some s => Some (tight_solve E F w al l s) | None => None end.
