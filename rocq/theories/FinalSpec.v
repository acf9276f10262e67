(** * Vocabulary for interrupts that last (C81) *)
From Coq Require Import List Bool Arith.
From Verif Require Import Base MTypes MKernel MPMinimal MLowerBounding MBiOptSat MOll ApiSpec CbSpec.
Import ListNotations.

(** The flag is raised before its [t]-th read, counted over the life of the solver, and never
    lowered: core/src/algs.rs 146-161 [interrupt] only stores [true], and nothing else writes the flag. *)
Definition raised_at (t : nat) (E : environ) : Prop :=
  0 < ev_fuel E /\ forall n, ev_flag E n = (t <=? n).
(** the environment of a call *)
Definition gstep_env (x : gstep) : option environ :=
  match x with
  | GBoost E _ => Some E
  | GStep (Solve E _) => Some E
  | GStep _ => None
  end.
(** All calls of a history see the same flag *)
Definition latched (t : nat) (h : list gstep) : Prop :=
  forall x E, In x h -> gstep_env x = Some E -> raised_at t E.
(** The call was stopped by the interrupt *)
Definition interrupted {I} (T : tot_impl I) (al : alg) (x : gstep) (s : st I) : Prop :=
  match x with
  | GBoost E opts => fst (alg_core_boost T E opts s) = Exit (ETerm Interrupted)
  | GStep (Solve E l) => fst (alg_solve al E l s) = Exit (ETerm Interrupted)
  | GStep _ => False
  end.
