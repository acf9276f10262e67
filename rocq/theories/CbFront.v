(** * Core boosting does not touch the Pareto front *)
From Coq Require Import List Bool Arith Lia ZArith.
From Verif Require Import Base BaseLemmas MTypes MKernel MPMinimal MLowerBounding MBiOptSat MOll
  EncSpec ApiSpec CbSpec.
Import ListNotations.

Section CbFront.
  Context {I : enc_impl} (T : tot_impl I).
  Notation st := (st I).
  Notation M := (M I).
  Variable E : environ.
  Definition kf {A} (c : M A) : Prop := forall s, s_front (snd (c s)) = s_front s.
  Lemma f_ret {A} (a : A) : kf (ret a). Proof. easy. Qed.
  Lemma f_throw {A} x : kf (A := A) (throw x). Proof. easy. Qed.
  Lemma f_gets {A} (f : st -> A) : kf (gets f). Proof. easy. Qed.
  Lemma f_bind {A B} (c : M A) (k : A -> M B) : kf c -> (forall a, kf (k a)) -> kf (bind c k).
  Proof.
    intros H1 H2 s. unfold bind. specialize (H1 s). destruct (c s) as [[a|x] s']; cbn [snd] in *; [|exact H1].
    now rewrite H2.
  Qed.
  Lemma f_modify f : (forall s, s_front (f s) = s_front s) -> kf (modify f).
  Proof. intros H s. apply H. Qed.
  Lemma f_guard b : kf (guard b). Proof. now destruct b. Qed.
  Lemma f_unwrap {A} (o : option A) : kf (unwrap o). Proof. now destruct o. Qed.
  Lemma f_emit ev : kf (emit E ev).
  Proof. intros s. unfold emit. destruct (s_logger s); [|reflexivity]. now destruct (ev_logfail _ _). Qed.
  Lemma f_check : kf (check_termination E).
  Proof. intros s. unfold check_termination. now destruct (ev_flag _ _). Qed.
  Lemma f_tick g p t : kf (tick g p t).
  Proof. intros s. unfold tick. destruct (g (s_lims s)) as [[|n]|]; try reflexivity. now destruct (n =? 0). Qed.
  Lemma f_osolve b a : kf (oracle_solve E b a).
  Proof. intros s. unfold oracle_solve. now destruct (ev_oracle _ _). Qed.
  Hint Resolve f_ret f_throw f_gets f_guard f_unwrap f_emit f_check f_tick f_osolve : kf.
  Ltac fb := apply f_bind; [solve [auto with kf]|intros].
  Ltac fm := apply f_modify; reflexivity.
  Ltac dm := match goal with |- kf (match ?r with _ => _ end) => destruct r end.
  Lemma f_foldM {A B} (f : B -> A -> M B) l : (forall b a, kf (f b a)) -> forall b, kf (foldM f l b).
  Proof. intros H. induction l as [|a l IH]; intros b; cbn [foldM]; [auto with kf|]. apply f_bind; auto. Qed.
  Lemma f_forM {A} (f : A -> M unit) l : (forall a, kf (f a)) -> kf (forM f l).
  Proof. intros H. induction l as [|a l IH]; cbn [forM]; [auto with kf|]. apply f_bind; auto. Qed.
  Lemma f_loop {S A} n (body : S -> M (S + A)) : (forall x, kf (body x)) -> forall x, kf (loop n body x).
  Proof.
    intros H. induction n as [|n IH]; intros x; cbn [loop]; [auto with kf|].
    apply f_bind; [apply H|]. intros [x'|a]; auto with kf.
  Qed.
  Lemma f_oracle_call r : kf (log_oracle_call (I := I) E r).
  Proof. unfold log_oracle_call. apply f_bind; [fm|]. intros ?. fb. auto with kf. Qed.
  Lemma f_add_clauses cs : kf (add_clauses (I := I) cs).
  Proof. apply f_forM. intros c. fm. Qed.
  Lemma f_solution : kf (oracle_solution (I := I)).
  Proof. unfold oracle_solution. fb. fb. fb. dm; auto with kf. Qed.
  Lemma f_core : kf (oracle_core (I := I)).
  Proof. unfold oracle_core. fb. dm; auto with kf. Qed.
  Hint Resolve f_oracle_call f_add_clauses f_solution f_core : kf.
  Lemma f_k_solve a : kf (k_solve_assumps (I := I) E a).
  Proof. unfold k_solve_assumps, log_start, log_end. fb. fb. fb. fb. fb. auto with kf. Qed.
  Lemma f_limited a : kf (k_solve_limited (I := I) E a).
  Proof. unfold k_solve_limited, log_start, log_end. fb. fb. fb. fb. fb. auto with kf. Qed.
  Hint Resolve f_k_solve f_limited : kf.
  Lemma f_build d root oidx : kf (build_output T d root oidx).
  Proof.
    unfold build_output. fb. destruct (ti_define _ _ _ _ _) as [[[d' l] cls] n'].
    apply f_bind; [fm|]. intros ?. fb. auto with kf.
  Qed.
  Hint Resolve f_build : kf.
  Lemma f_exhaust_loop root : forall n d bound olit, kf (exhaust_loop T E n d root bound olit).
  Proof.
    induction n as [|n IH]; intros d bound olit; cbn [exhaust_loop]; [auto with kf|].
    fb. destruct a as [d' l']. fb. dm; auto with kf.
  Qed.
  Hint Resolve f_exhaust_loop : kf.
  Lemma f_exhaust d root : kf (exhaust_core T E d root).
  Proof.
    unfold exhaust_core, log_start, log_end. fb. dm; [fb; auto with kf|]. fb. fb. fb. fb. auto with kf.
  Qed.
  Lemma f_minimize core : kf (minimize_core (I := I) E core).
  Proof.
    unfold minimize_core, log_start, log_end. fb. dm; [auto with kf|]. dm; [auto with kf|]. fb.
    apply f_bind; [|intros; fb; auto with kf].
    apply f_foldM. intros c l. unfold minimize_step. fb. dm; auto with kf.
  Qed.
  Lemma f_trim core : kf (trim_core (I := I) E core).
  Proof.
    unfold trim_core, log_start, log_end. fb. dm; [auto with kf|]. dm; [auto with kf|]. fb.
    apply f_bind; [|intros; fb; auto with kf].
    apply f_loop. intros c. unfold trim_body. dm; [auto with kf|]. fb. fb. fb. dm; auto with kf.
  Qed.
  Hint Resolve f_exhaust f_minimize f_trim : kf.
  Lemma f_reform_core cs x cd : kf (reform_core T E cs x cd).
  Proof.
    destruct x as [[rf d] assumps]. unfold reform_core. destruct (ti_merge _ _ _) as [d1 c].
    fb. fb. fb. destruct a1 as [[d2 olit] oidx]. apply f_bind.
    { dm; [|auto with kf]. fb. fb. auto with kf. }
    intros off. dm; [fb|]; auto with kf.
  Qed.
  Lemma f_relax cw x l : kf (relax_lit T cw x l).
  Proof.
    destruct x as [[[rf d] assumps] cs]. unfold relax_lit. fb. destruct a as [i w].
    destruct (hm_get _ _) as [[root oidx tw]|].
    - dm; [auto with kf|]. dm; [auto with kf|]. fb. destruct a as [d' l']. fb. auto with kf.
    - destruct (ti_leaf _ _ _) as [d' id]. auto with kf.
  Qed.
  Lemma f_body x : kf (oll_body T E x).
  Proof.
    destruct x as [rf d assumps cores cs]. unfold oll_body. fb. destruct a as [i as']. fb. dm; [| |auto with kf].
    - unfold oll_sat, log_end. destruct cores as [|c cores].
      + fb. fb. destruct (reserve_outputs _ _ _ _) as [d' n']. apply f_bind; [fm|]. intros ?. fb. auto with kf.
      + apply f_bind; [apply f_foldM; intros; apply f_reform_core|]. intros [[rf' d'] assumps']. auto with kf.
    - unfold oll_unsat, log_end. fb. destruct a as [|l core]; [fb; auto with kf|].
      fb. fb. fb. fb. fb. apply f_bind; [apply f_foldM; intros; apply f_relax|].
      intros [[[rf' d'] assumps'] ncs]. fb. dm; auto with kf.
  Qed.
  Lemma f_oll rf d : kf (oll T E rf d).
  Proof.
    assert (G : forall x, kf (log_start E RtOll ;;; loop (ev_fuel E) (oll_body T E) x)).
    { intros x. unfold log_start. fb. apply f_loop, f_body. }
    unfold oll. dm; try apply G. fb. dm; auto with kf. fb. auto with kf.
  Qed.
  Lemma f_cb_loop : forall n k acc, kf (core_boost_loop T E n k acc).
  Proof.
    induction n as [|n IH]; intros k acc; cbn [core_boost_loop]; [auto with kf|].
    fb. fb. apply f_bind.
    { dm; [auto with kf|]. apply f_bind; [apply f_oll|]. intros [[rf d] [sol|]]; auto with kf. }
    intros [[rf d]|]; [|auto with kf]. apply f_bind; [fm|]. intros ?. apply IH.
  Qed.
  Lemma f_reset b : kf (reset_oracle (I := I) E b).
  Proof.
    unfold reset_oracle, log_start, log_end. fb. apply f_bind; [dm; auto with kf|]. intros ?. fb.
    apply f_bind; [dm; [auto with kf|]; fb; fb; auto with kf|]. intros ?. fb. fb.
    apply f_bind; [fm|]. intros ?. apply f_bind; [dm; [fm|auto with kf]|]. intros ?. auto with kf.
  Qed.
  Lemma f_merge_reform rf d b : kf (merge_reform T rf d b).
  Proof.
    assert (G : kf (x <- foldM (merge_lit T b (rf_refs rf)) (in_iter (rf_inact rf)) (d, [], 0) ;;
      let '(d', cs, mlw) := x in merge_cons T d' cs (rf_offset rf) mlw)).
    { apply f_bind.
      - apply f_foldM. intros [[d' cs] mlw] [l w]. unfold merge_lit. destruct (hm_get _ _) as [[root oidx tw]|].
        + fb. fb. auto with kf.
        + destruct (ti_leaf _ _ _). auto with kf.
      - intros [[d' cs] mlw]. unfold merge_cons. destruct (ti_merge_thorough _ _ _) as [d2 root].
        dm; [|auto with kf]. dm; auto with kf. fb. auto with kf. }
    unfold merge_reform. dm; [exact G|exact G|auto with kf].
  Qed.
  Lemma f_merge_loop opts : forall rs k, kf (merge_loop T E opts k rs).
  Proof.
    induction rs as [|[rf d] rs IH]; intros k; cbn [merge_loop]; [auto with kf|].
    fb. fb. apply f_bind.
    { dm; [auto with kf|]. apply f_bind; [apply f_merge_reform|]. intros e. fm. }
    intros ?. fb. apply IH.
  Qed.
  Lemma f_core_boost opts : kf (alg_core_boost T E opts).
  Proof.
    unfold alg_core_boost, kernel_core_boost, log_start, log_end.
    fb. apply f_bind; [dm; auto with kf|]. intros ?. apply f_bind.
    { fb. fb. apply f_bind; [apply f_cb_loop|]. intros r. fb. fb. auto with kf. }
    intros [rs|]; [|auto with kf]. fb. apply f_bind.
    { dm; [|auto with kf]. apply f_bind; [apply f_reset|]. intros ?. auto with kf. }
    intros ?. fb. apply f_bind; [apply f_merge_loop|]. intros ?. fb. auto with kf.
  Qed.
End CbFront.
