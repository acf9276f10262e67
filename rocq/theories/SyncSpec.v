(** * Runs that are stopped, and runs with a logger (specification for C88)

    The same solver is run twice from the same state, once with disturbances -- interrupts,
    limits, a logger that fails, an oracle that fails -- and once with fewer of them. *)
From Coq Require Import List Arith ZArith.
From Verif Require Import Base MTypes MKernel MOll MInpro ApiSpec.
Import ListNotations.

(** [E] is [E0] with more disturbances: the oracle gives the same answers unless it fails or is
    interrupted, the termination flag is set at least as often, and the logger may fail; in [E0] it
    does not.  The bound on loop iterations is no higher. *)
Record disturbs (E E0 : environ) : Prop := mkDisturbs {
  di_oracle : forall q, ev_oracle E q = ev_oracle E0 q \/ ev_oracle E q = AErr \/
    (ev_oracle E q = AInterrupted /\ ev_flag E (q_flags q) = true);
  di_flag : forall n, ev_flag E0 n = true -> ev_flag E n = true;
  di_log : forall n, ev_logfail E0 n = false;
  di_fuel : ev_fuel E <= ev_fuel E0 }.

(** No limit, or a limit that is no lower *)
Definition limit_le (a b : option nat) : Prop :=
  match b with None => True | Some m => match a with Some n => n <= m | None => False end end.
Definition limits_le (l l0 : limits) : Prop :=
  limit_le (l_pps l) (l_pps l0) /\ limit_le (l_sols l) (l_sols l0) /\
  limit_le (l_candidates l) (l_candidates l0) /\ limit_le (l_oracle_calls l) (l_oracle_calls l0).

(** [f] consists of the first points of [f0], where the last one may have fewer solutions *)
Definition begins (f f0 : front assignment) : Prop :=
  (exists rest, f0 = f ++ rest) \/
  (exists pre nd nd0 rest sols, f = pre ++ [nd] /\ f0 = pre ++ nd0 :: rest /\
     nd_costs nd0 = nd_costs nd /\ nd_sols nd0 = nd_sols nd ++ sols).

(** Two solver states that differ at most in the attached logger, what it was told, and the limits *)
Record same_solver {I} (s s0 : st I) : Prop := mkSame {
  ss_prob : s_prob s = s_prob s0;
  ss_ora : s_ora s = s_ora s0;
  ss_front : s_front s = s_front s0;
  ss_fence : s_fence s = s_fence s0;
  ss_cnf : s_cnf s = s_cnf s0;
  ss_opts : s_opts s = s_opts s0;
  ss_stats : s_stats s = s_stats s0;
  ss_calls : s_calls s = s_calls s0;
  ss_flags : s_flags s = s_flags s0 }.

(** The calls of the API that do work, with what they return *)
Inductive call {I : enc_impl} (T : tot_impl I) :=
| CSolve (E : environ) (l : limits)
| CBoost (E : environ) (opts : cb_opts)
| CInpro (E : environ) (reset_enc : ti_db T -> ti_db T) (ip : inprocessor).
Arguments CSolve {I T}. Arguments CBoost {I T}. Arguments CInpro {I T}.
Definition call_env {I} {T : tot_impl I} (c : call T) : environ :=
  match c with CSolve E _ => E | CBoost E _ => E | CInpro E _ _ => E end.
Definition do_call {I} {T : tot_impl I} (al : alg) (c : call T) (s : st I) : (res unit + res bool) * st I :=
  match c with
  | CSolve E l => let '(r, s') := alg_solve al E l s in (inl r, s')
  | CBoost E opts => let '(r, s') := alg_core_boost T E opts s in (inr r, s')
  | CInpro E re ip => let '(r, s') := alg_core_boost_inpro T E re al ip s in (inr r, s')
  end.
(** A history of calls, in any order, with loggers attached and detached in between *)
Inductive hstep {I : enc_impl} (T : tot_impl I) := HCall (c : call T) | HAttach | HDetach.
Arguments HCall {I T}. Arguments HAttach {I T}. Arguments HDetach {I T}.
Fixpoint outcomes {I} {T : tot_impl I} (al : alg) (h : list (hstep T)) (s : st I) : list (res unit + res bool) * st I :=
  match h with
  | [] => ([], s)
  | HCall c :: h' =>
      let '(r, s1) := do_call al c s in let '(rs, s2) := outcomes al h' s1 in (r :: rs, s2)
  | HAttach :: h' => outcomes al h' (snd (attach_logger s))
  | HDetach :: h' => outcomes al h' (snd (detach_logger s))
  end.
Definition is_call {I} {T : tot_impl I} (x : hstep T) : bool := match x with HCall _ => true | _ => false end.
(** The calls of a history with other environments and limits *)
Inductive calmer {I} {T : tot_impl I} : call T -> call T -> Prop :=
| calm_solve E E0 l l0 : disturbs E E0 -> limits_le l l0 -> calmer (CSolve E l) (CSolve E0 l0)
| calm_boost E E0 opts : disturbs E E0 -> calmer (CBoost E opts) (CBoost E0 opts)
| calm_inpro E E0 re ip : disturbs E E0 -> calmer (CInpro E re ip) (CInpro E0 re ip).
Definition finished {A B} (o : res A + res B) : Prop :=
  match o with inl (Done _) => True | inr (Done _) => True | _ => False end.
