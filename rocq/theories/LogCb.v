(** * Routine events of core boosting are well nested *)
From Coq Require Import List Bool Arith Lia ZArith.
From Verif Require Import Base BaseLemmas MTypes MKernel MPMinimal MLowerBounding MBiOptSat MOll
  EncSpec ApiSpec Wp Struct LogSpec LogBal CbSpec ApiTop BookTop.
Import ListNotations.

Section LogCb.
  Context {I : enc_impl} (T : tot_impl I).
  Notation st := (st I).
  Notation M := (M I).
  Variable E : environ.
  Variable t0 : list event.
  Hint Resolve n_ret n_throw n_gets n_guard n_unwrap n_or_err n_rethrow n_tick n_check n_osolve
    n_log_oracle_call n_add_clause n_add_clauses n_oracle_solution n_oracle_core n_k_solve : neut.
  Ltac neu := repeat first
    [ apply n_bind; [solve [auto with neut]|intros]
    | solve [auto with neut]
    | (apply n_modify; intros; split; reflexivity) ].
  Ltac nb := apply bal_n; [solve [auto with neut]|intros].
  Ltac dm := match goal with
    | |- bal _ _ _ (match ?r with _ => _ end) => destruct r
    | |- neutral _ (match ?r with _ => _ end) => destruct r end.
  Ltac nem := apply n_emit; exact Logic.I.

  Lemma n_foldM {A B} (f : B -> A -> M B) l : (forall b a, neutral t0 (f b a)) ->
    forall b, neutral t0 (foldM f l b).
  Proof. intros H. induction l as [|a l IH]; intros b; cbn [foldM]; [apply n_ret|]. apply n_bind; auto. Qed.

  Lemma n_limited a : neutral t0 (k_solve_limited (I := I) E a).
  Proof.
    intros m. unfold k_solve_limited. apply bal_start. intros ?.
    nb. apply bal_end. intros ?. nb. nb. apply n_ret.
  Qed.
  Hint Resolve n_limited : neut.
  Lemma n_build d root oidx : neutral t0 (build_output T d root oidx).
  Proof.
    unfold build_output. neu. destruct (ti_define _ _ _ _ _) as [[[d' l] cls] n'].
    apply n_bind; [apply n_modify; split; reflexivity|]. intros ?. neu.
  Qed.
  Hint Resolve n_build : neut.
  Lemma n_exhaust_loop root : forall n d bound olit, neutral t0 (exhaust_loop T E n d root bound olit).
  Proof.
    induction n as [|n IH]; intros d bound olit; cbn [exhaust_loop]; [apply n_ret|].
    apply n_bind; [auto with neut|]. intros [d' l']. apply n_bind; [auto with neut|]. intros r. dm; auto with neut.
  Qed.
  Lemma n_exhaust d root : neutral t0 (exhaust_core T E d root).
  Proof.
    unfold exhaust_core. apply n_bind; [auto with neut|]. intros o. dm; [neu|].
    intros m. apply bal_start. intros ?. nb. apply bal_n; [apply n_exhaust_loop|]. intros x.
    apply bal_end. intros ?. apply n_ret.
  Qed.
  Lemma n_minimize core : neutral t0 (minimize_core (I := I) E core).
  Proof.
    unfold minimize_core. apply n_bind; [auto with neut|]. intros o. dm; [neu|]. dm; [neu|].
    intros m. apply bal_start. intros ?. apply bal_n.
    { apply n_foldM. intros c l. unfold minimize_step. neu. dm; auto with neut. }
    intros x. apply bal_end. intros ?. apply n_ret.
  Qed.
  Lemma n_trim core : neutral t0 (trim_core (I := I) E core).
  Proof.
    unfold trim_core. apply n_bind; [auto with neut|]. intros o. dm; [neu|]. dm; [neu|].
    intros m. apply bal_start. intros ?. apply bal_n.
    { intros m'. apply bal_loop. intros c. unfold trim_body. dm; [now apply bal_ret|]. nb. nb. nb.
      dm; now apply bal_ret. }
    intros x. apply bal_end. intros ?. apply n_ret.
  Qed.
  Hint Resolve n_exhaust n_minimize n_trim : neut.
  Lemma n_reform_core cs x cd : neutral t0 (reform_core T E cs x cd).
  Proof.
    destruct x as [[rf d] assumps]. unfold reform_core. destruct (ti_merge _ _ _) as [d1 c].
    apply n_bind; [auto with neut|]. intros ?. apply n_bind; [auto with neut|]. intros ?.
    apply n_bind; [auto with neut|]. intros [[d2 olit] oidx]. apply n_bind.
    { dm; [|auto with neut]. apply n_bind; [auto with neut|]. intros ?. apply n_bind; [nem|]. intros ?. auto with neut. }
    intros off. dm; neu.
  Qed.
  Lemma n_relax cw x l : neutral t0 (relax_lit T cw x l).
  Proof.
    destruct x as [[[rf d] assumps] cs]. unfold relax_lit. apply n_bind; [auto with neut|]. intros [i w].
    destruct (hm_get _ _) as [[root oidx tw]|].
    - dm; [auto with neut|]. dm; [auto with neut|]. apply n_bind; [auto with neut|]. intros [d' l']. neu.
    - destruct (ti_leaf _ _ _) as [d' id]. auto with neut.
  Qed.
  Definition ostep (m : nat) (r : oll_st T + (reform * ti_db T * option assignment)) : nat :=
    match r with inl _ => S m | inr _ => m end.
  Lemma bal_unsat m x : bal t0 (S m) (ostep m) (oll_unsat T E x).
  Proof.
    destruct x as [rf d assumps cores cs]. unfold oll_unsat. nb. destruct a as [|l core].
    { apply bal_end. intros ?. now apply bal_ret. }
    nb. nb. nb. nb. apply bal_n; [nem|]. intros ?. apply bal_n; [apply n_foldM; intros; apply n_relax|].
    intros [[[rf' d'] assumps'] ncs]. nb. dm; now apply bal_ret.
  Qed.
  Lemma bal_sat m x : bal t0 (S m) (ostep m) (oll_sat T E x).
  Proof.
    destruct x as [rf d assumps cores cs]. unfold oll_sat. destruct cores as [|c cores].
    - nb. nb. destruct (reserve_outputs _ _ _ _) as [d' n']. apply bal_n; [apply n_modify; split; reflexivity|].
      intros ?. apply bal_end. intros ?. now apply bal_ret.
    - apply bal_n; [apply n_foldM; intros; apply n_reform_core|]. intros [[rf' d'] assumps']. now apply bal_ret.
  Qed.
  Lemma n_oll rf d : neutral t0 (oll T E rf d).
  Proof.
    assert (G : forall x, neutral t0 (log_start E RtOll ;;; loop (ev_fuel E) (oll_body T E) x)).
    { intros x m. apply bal_start. intros ?. apply bal_loop. clear x. intros x. unfold oll_body.
      destruct x as [rf' d' assumps cores cs]. nb. destruct a0 as [i as']. nb. dm.
      - apply bal_sat.
      - apply bal_unsat.
      - intros d0 s H. eapply nest_X, H. }
    unfold oll. dm; try apply G. neu. dm; neu.
  Qed.
  Lemma n_cb_loop : forall n k acc, neutral t0 (core_boost_loop T E n k acc).
  Proof.
    induction n as [|n IH]; intros k acc; cbn [core_boost_loop]; [apply n_ret|].
    apply n_bind; [auto with neut|]. intros ob. apply n_bind; [auto with neut|]. intros ob'.
    apply n_bind.
    { dm; [auto with neut|]. apply n_bind; [apply n_oll|]. intros [[rf d] [sol|]]; auto with neut. }
    intros [[rf d]|]; [|auto with neut]. apply n_bind; [apply n_modify; split; reflexivity|]. intros ?. apply IH.
  Qed.
  Lemma n_kernel_cb : neutral t0 (kernel_core_boost T E).
  Proof.
    intros m. unfold kernel_core_boost. apply bal_start. intros ?. nb.
    apply bal_n; [apply n_cb_loop|]. intros r. apply bal_end. intros ?. apply bal_n; [nem|]. intros ?. apply n_ret.
  Qed.
  Lemma n_reset b : neutral t0 (reset_oracle (I := I) E b).
  Proof.
    unfold reset_oracle. apply n_bind; [auto with neut|]. intros o. apply n_bind; [dm; auto with neut|]. intros ?.
    intros m. apply bal_start. intros ?. apply bal_n; [dm; neu|]. intros ?. nb. nb.
    apply bal_n; [apply n_modify; split; reflexivity|]. intros ?.
    apply bal_n; [dm; [apply n_modify; split; reflexivity|auto with neut]|]. intros ?. apply bal_end0.
  Qed.
  Lemma n_merge_reform rf d b : neutral t0 (merge_reform T rf d b).
  Proof.
    assert (G : neutral t0 (x <- foldM (merge_lit T b (rf_refs rf)) (in_iter (rf_inact rf)) (d, [], 0) ;;
      let '(d', cs, mlw) := x in merge_cons T d' cs (rf_offset rf) mlw)).
    { apply n_bind.
      - apply n_foldM. intros [[d' cs] mlw] [l w]. unfold merge_lit. destruct (hm_get _ _) as [[root oidx tw]|].
        + neu.
        + destruct (ti_leaf _ _ _). auto with neut.
      - intros [[d' cs] mlw]. unfold merge_cons. destruct (ti_merge_thorough _ _ _) as [d2 root].
        dm; [|auto with neut]. dm; neu. }
    unfold merge_reform. dm; [exact G|exact G|auto with neut].
  Qed.
  Lemma n_merge_loop opts : forall rs k, neutral t0 (merge_loop T E opts k rs).
  Proof.
    induction rs as [|[rf d] rs IH]; intros k; cbn [merge_loop]; [apply n_ret|].
    apply n_bind; [auto with neut|]. intros ob. apply n_bind; [auto with neut|]. intros ob'.
    apply n_bind.
    { dm; [auto with neut|]. apply n_bind; [apply n_merge_reform|]. intros e. apply n_modify. split; reflexivity. }
    intros ?. apply n_bind; [auto with neut|]. intros ?. apply IH.
  Qed.
  Lemma n_core_boost opts : neutral t0 (alg_core_boost T E opts).
  Proof.
    unfold alg_core_boost. apply n_bind; [auto with neut|]. intros n. apply n_bind; [dm; auto with neut|]. intros ?.
    apply n_bind; [apply n_kernel_cb|]. intros [rs|]; [|auto with neut]. apply n_bind; [auto with neut|]. intros ?.
    apply n_bind.
    { dm; [|auto with neut]. apply n_bind; [apply n_reset|]. intros ?. auto with neut. }
    intros ? m. apply bal_start. intros ?. apply bal_n; [apply n_merge_loop|]. intros ?. apply bal_end. intros ?. apply n_ret.
  Qed.
End LogCb.

(** One core boosting *)
Lemma log_boost {I} (T : tot_impl I) E opts (s : st I) :
  wp (alg_core_boost T E opts)
    (fun _ s' => exists evs, s_trace s' = evs ++ s_trace s /\ open_routines evs = Some 0)
    (fun _ s' => exists evs, s_trace s' = evs ++ s_trace s /\ open_routines evs <> None) s.
Proof.
  assert (H : nest (s_trace s) 0 s).
  { exists []. split; [reflexivity|]. split; reflexivity. }
  eapply wp_mono; [apply (n_core_boost T E (s_trace s) opts 0 0 s H)| |auto].
  intros b s' (evs & F1 & F2 & F3). exists evs. split; [exact F1|]. destruct (s_logger s').
  - now rewrite F2.
  - now rewrite F3.
Qed.

(** Any history of core boostings, solve calls and logger changes *)
Lemma log_ghistory {I} (T : tot_impl I) al h : forall s : st I, open_routines (s_trace s) <> None ->
  open_routines (s_trace (grun T al h s)) <> None.
Proof.
  induction h as [|x h IH]; intros s Hs; [exact Hs|]. cbn [grun]. apply IH. destruct x as [E opts|x].
  - cbn [grun_step]. pose proof (wp_run _ _ _ _ (log_boost T E opts s)) as H.
    assert (G : exists evs, s_trace (snd (alg_core_boost T E opts s)) = evs ++ s_trace s /\ open_routines evs <> None).
    { destruct (alg_core_boost T E opts s) as [[b|y] s']; destruct H as (evs & H1 & H2); exists evs; [|auto].
      split; [exact H1|]. rewrite H2. discriminate. }
    destruct G as (evs & -> & Ho). destruct (open_routines (s_trace s)) as [d|] eqn:e; [|congruence].
    pose proof (open_app_ge evs _ d e) as G. destruct (open_routines evs); [|congruence]. rewrite G. discriminate.
  - exact (log_history al [x] s Hs).
Qed.
Lemma boost_closed {I} (T : tot_impl I) E opts (s s' : st I) b :
  alg_core_boost T E opts s = (Done b, s') -> open_routines (s_trace s) <> None ->
  open_routines (s_trace s') = open_routines (s_trace s).
Proof.
  intros H Hs. pose proof (wp_run _ _ _ _ (log_boost T E opts s)) as W. rewrite H in W.
  destruct W as (evs & -> & W). destruct (open_routines (s_trace s)) as [d|] eqn:e; [|congruence].
  pose proof (open_app_ge evs _ d e) as G. rewrite W in G. exact G.
Qed.
