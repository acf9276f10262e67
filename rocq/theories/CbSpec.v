(** * Vocabulary for statements about core boosting.  Definitions only. *)
From Coq Require Import List Bool Arith ZArith.
From Verif Require Import Base Spec MTypes MKernel MPMinimal MLowerBounding MBiOptSat MOll EncSpec TotSpec ApiSpec.
Import ListNotations.

(** What a user may do between [new] and the first [solve]: core boosting, each time with its
    own options and environment, and attaching or detaching loggers.  The run stops at the
    first core boosting that does not return [true]. *)
Inductive bstep :=
| Boost (E : environ) (opts : cb_opts)
| BAttach
| BDetach.
Fixpoint boosts {I} (T : tot_impl I) (bs : list bstep) (s : st I) : res bool * st I :=
  match bs with
  | [] => (Done true, s)
  | Boost E opts :: r =>
      match alg_core_boost T E opts s with
      | (Done true, s') => boosts T r s'
      | (Done false, s') => (Done false, s')
      | (Exit x, s') => (Exit x, s')
      end
  | BAttach :: r => boosts T r (snd (attach_logger s))
  | BDetach :: r => boosts T r (snd (detach_logger s))
  end.
(** The oracle answers correctly and with cores without repeated literals, and the oracle is
    only reset if the clauses have been stored *)
Definition bstep_ok (o : kopts) (x : bstep) : Prop :=
  match x with
  | Boost E opts => oracle_ok E /\ core_nodup E /\ (cb_reset opts = true -> o_store_cnf o = true)
  | _ => True
  end.
Definition boosts_ok (o : kopts) (bs : list bstep) : Prop := Forall (bstep_ok o) bs.
Definition is_boost (x : bstep) : Prop := match x with Boost _ _ => True | _ => False end.

(** No objective lists a literal twice *)
Definition lits_distinct (i : inst) : Prop := forall r, In r (in_objs i) -> NoDup (map fst (fst r)).

(** [z] is the optimum of objective [r] over the solutions of the instance *)
Definition optimum (i : inst) (r : raw_obj) (z : Z) : Prop :=
  (exists a, feasible (in_cls i) a /\ obj_value r a = z) /\
  (forall a, feasible (in_cls i) a -> (z <= obj_value r a)%Z).

(** Objectives that have the same value in all solutions have none of their literals true in
    a solution *)
Definition no_fixed_cost (i : inst) : Prop := forall r, In r (in_objs i) ->
  (forall a b, feasible (in_cls i) a -> feasible (in_cls i) b -> obj_value r a = obj_value r b) ->
  forall a, feasible (in_cls i) a -> obj_value r a = snd r.

(** Histories that mix core boosting with the other calls, in any order *)
Inductive gstep :=
| GBoost (E : environ) (opts : cb_opts)
| GStep (x : step).
Definition grun_step {I} (T : tot_impl I) (al : alg) (x : gstep) (s : st I) : st I :=
  match x with
  | GBoost E opts => snd (alg_core_boost T E opts s)
  | GStep x => run_step al x s
  end.
Fixpoint grun {I} (T : tot_impl I) (al : alg) (h : list gstep) (s : st I) : st I :=
  match h with [] => s | x :: h' => grun T al h' (grun_step T al x s) end.

(** As [boosts], but the user goes on after every core boosting, however it ended: completed,
    stopped by an interrupt or a failing logger, or with the answer that there is no solution. *)
Fixpoint tries {I} (T : tot_impl I) (bs : list bstep) (s : st I) : st I :=
  match bs with
  | [] => s
  | Boost E opts :: r => tries T r (snd (alg_core_boost T E opts s))
  | BAttach :: r => tries T r (snd (attach_logger s))
  | BDetach :: r => tries T r (snd (detach_logger s))
  end.
(** If a core boosting that resets the oracle is stopped, then no variables have been reserved for
    the encodings, and all earlier core boostings have reset the oracle as well *)
Definition resets_ok {I} (T : tot_impl I) (o : kopts) (bs : list bstep) (s : st I) : Prop :=
  forall pre E opts post, bs = pre ++ Boost E opts :: post -> cb_reset opts = true ->
  (exists x, fst (alg_core_boost T E opts (tries T pre s)) = Exit x) ->
  o_reserve_enc_vars o = false /\ forall E' opts', In (Boost E' opts') pre -> cb_reset opts' = true.
(** Core boosting does not panic: there is a solution, or cores are neither minimized nor trimmed *)
Definition no_empty_core (i : inst) (o : kopts) : Prop :=
  (exists a, feasible (in_cls i) a) \/ (o_core_minimization o = false /\ o_core_trimming o = false).

(** Value of a reformulated objective: weights of the true literals that are left, plus, for
    each reformulated core, its weight for every output of its totalizer after the one in the
    objective that is true (the value of the totalizer is more than [k]) *)
Section Reform.
  Context {I : enc_impl} {SP : enc_spec I} {T : tot_impl I} (TS : tot_spec SP T).
  Definition later_outputs (d : ti_db T) (rd : reform_data) (a : asg) : nat :=
    let first := rd_oidx rd + 1 in
    length (filter (fun k => k <? tb_val SP T TS d (rd_root rd) a)
                   (seq first (tb_max SP T TS d (rd_root rd) - first))).
  Definition reform_value (rf : reform) (d : ti_db T) (a : asg) : nat :=
    rf_offset rf + wsum a (in_iter (rf_inact rf)) +
    list_sum (map (fun lr => rd_weight (snd lr) * later_outputs d (snd lr) a) (rf_refs rf)).
End Reform.
