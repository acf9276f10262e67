(** * The statistics count what the logger is told *)
From Coq Require Import List Bool Arith Lia ZArith.
From Verif Require Import Base BaseLemmas Spec MTypes MKernel MPMinimal MLowerBounding MBiOptSat MOll
  EncSpec TotSpec ApiSpec Wp Sem Book Struct LogStruct.
Import ListNotations.

Definition is_candidate (ev : event) : bool := match ev with EvCandidate _ _ => true | _ => false end.
Definition is_oracle_call (ev : event) : bool := match ev with EvOracleCall _ => true | _ => false end.
Definition is_solution (ev : event) : bool := match ev with EvSolution => true | _ => false end.
Definition is_point (ev : event) : bool := match ev with EvNonDom _ => true | _ => false end.
Definition count (f : event -> bool) (l : list event) : nat := length (filter f l).

(** The counters of [x'] are those of [x] plus the numbers of events in [new] *)
Definition counted (x x' : stats) (new : list event) : Prop :=
  n_candidates x' = n_candidates x + count is_candidate new /\
  n_oracle_calls x' = n_oracle_calls x + count is_oracle_call new /\
  n_solutions x' = n_solutions x + count is_solution new /\
  n_non_dominated x' = n_non_dominated x + count is_point new.

Section Count.
  Context {I : enc_impl} {T : tot_impl I}.
  Notation M := (M I).
  Notation st := (st I).
  Variable E : environ.
  Variable lg : bool.
  Variable t0 : list event.
  Variable b0 : stats.

  Record qc (s : st) : Prop := mkQc {
    qc_logger : s_logger s = lg;
    qc_trace : exists new, s_trace s = new ++ t0 /\ if lg then counted b0 (s_stats s) new else new = [] }.
  Definition ck {A} (c : M A) : Prop := forall s, qc s -> qc (snd (c s)).
  Lemma qc_same s s' : s_logger s' = s_logger s -> s_trace s' = s_trace s -> s_stats s' = s_stats s -> qc s -> qc s'.
  Proof. intros H1 H2 H3 []. constructor; rewrite ?H1, ?H2, ?H3; auto. Qed.

  Lemma ck_ret {A} (a : A) : ck (ret a).
  Proof. intros s H. exact H. Qed.
  Lemma ck_throw {A} x : ck (A := A) (throw x).
  Proof. intros s H. exact H. Qed.
  Lemma ck_bind {A B} (c : M A) (k : A -> M B) : ck c -> (forall a, ck (k a)) -> ck (bind c k).
  Proof.
    intros H1 H2 s H. unfold bind. specialize (H1 s H). destruct (c s) as [[a|x] s']; [|exact H1]. apply H2, H1.
  Qed.
  Lemma ck_gets {A} (f : st -> A) : ck (gets f).
  Proof. intros s H. exact H. Qed.
  Lemma ck_catch {A} (c : M A) : ck c -> ck (catch c).
  Proof. intros H s Hs. specialize (H s Hs). unfold catch. destruct (c s) as [[a|[]] s']; exact H. Qed.
  Lemma ck_prob (f : st -> prob I) : ck (modify (fun s => set_prob (f s) s)).
  Proof. intros s H. eapply qc_same; [..|exact H]; reflexivity. Qed.
  Lemma ck_ora (f : st -> prob I) : ck (modify (fun s => set_ora OIdle (set_prob (f s) s))).
  Proof. intros s H. eapply qc_same; [..|exact H]; reflexivity. Qed.
  Lemma ck_emit ev : plain_ev ev -> ck (emit E ev).
  Proof.
    intros He s H. unfold emit. destruct (s_logger s) eqn:el; [|exact H].
    assert (G : qc (set_trace (ev :: s_trace s) s)).
    { destruct H as [Hl (new & Ht & Hc)]. constructor; [exact Hl|]. exists (ev :: new). cbn. rewrite Ht. split; [reflexivity|].
      destruct lg; [|congruence]. unfold counted, count in *. destruct ev; try destruct He; exact Hc. }
    destruct (ev_logfail E _); exact G.
  Qed.
  (** counting and logging an event *)
  Lemma ck_log (f : stats -> stats) ev get put t :
    (forall x x' new, counted x x' new -> counted x (f x') (ev :: new)) ->
    ck (modify (fun s => set_stats (f (s_stats s)) s) ;;; emit E ev ;;; tick get put t).
  Proof.
    intros Hf s [Hl (new & Ht & Hc)]. unfold bind at 1, modify.
    assert (G : qc (snd (emit E ev (set_stats (f (s_stats s)) s)))).
    { unfold emit. cbn [s_logger set_stats]. destruct (s_logger s) eqn:el.
      - assert (K : qc (set_trace (ev :: s_trace s) (set_stats (f (s_stats s)) s))).
        { constructor; [cbn; congruence|]. exists (ev :: new). cbn. rewrite Ht. split; [reflexivity|].
          destruct lg; [|congruence]. now apply Hf. }
        destruct (ev_logfail E _); exact K.
      - constructor; [cbn; congruence|]. exists new. cbn. split; [exact Ht|]. destruct lg; [congruence|exact Hc]. }
    unfold bind. destruct (emit E ev _) as [[[]|x] s']; [|exact G]. cbn [snd] in G |- *. unfold tick.
    destruct (get (s_lims s')) as [[|n]|]; [exact G| |exact G].
    destruct (n =? 0); (eapply qc_same; [..|exact G]; reflexivity).
  Qed.
  Ltac cnt := intros x x' new (H1 & H2 & H3 & H4); unfold counted, count in *; cbn; lia.
  Lemma ck_ocall r : ck (log_oracle_call E r).
  Proof. apply (ck_log (fun x => set_n_oracle_calls (S (n_oracle_calls x)) x)). cnt. Qed.
  Lemma ck_log_solution : ck (log_solution E).
  Proof. apply (ck_log (fun x => set_n_solutions (S (n_solutions x)) x)). cnt. Qed.
  Lemma ck_nd p : ck (log_non_dominated E p).
  Proof. apply (ck_log (fun x => set_n_non_dominated (S (n_non_dominated x)) x)). cnt. Qed.
  Lemma ck_check : ck (check_termination E).
  Proof.
    intros s H. unfold check_termination. destruct (ev_flag E _); (eapply qc_same; [..|exact H]; reflexivity).
  Qed.
  Lemma ck_guard b : ck (guard b).
  Proof. intros s H. unfold guard. now destruct b. Qed.
  Lemma ck_unwrap {A} (o : option A) : ck (unwrap o).
  Proof. intros s H. unfold unwrap. now destruct o. Qed.
  Lemma ck_core : ck oracle_core.
  Proof. unfold oracle_core. apply ck_bind; [apply ck_gets|]. intros []; apply ck_ret || apply ck_throw. Qed.
  Lemma ck_cand cs ph : ck (log_candidate E cs ph).
  Proof.
    unfold log_candidate. apply ck_bind; [apply ck_gets|]. intros n. apply ck_bind; [apply ck_guard|]. intros _.
    apply (ck_log (fun x => set_n_candidates (S (n_candidates x)) x)). cnt.
  Qed.
  Lemma ck_osolve b a : ck (oracle_solve E b a).
  Proof.
    intros s H. unfold oracle_solve. destruct (ev_oracle E _); (eapply qc_same; [..|exact H]; reflexivity).
  Qed.
  Lemma ck_solve a : ck (k_solve_assumps E a).
  Proof.
    unfold k_solve_assumps. apply ck_bind; [apply ck_emit; exact Logic.I|]. intros _. apply ck_bind; [apply ck_osolve|].
    intros r. apply ck_bind; [apply ck_emit; exact Logic.I|]. intros _. apply ck_bind; [apply ck_check|]. intros _.
    apply ck_bind; [apply ck_ocall|]. intros _. apply ck_ret.
  Qed.
  Lemma ck_limited a : ck (k_solve_limited E a).
  Proof.
    unfold k_solve_limited. apply ck_bind; [apply ck_emit; exact Logic.I|]. intros _. apply ck_bind; [apply ck_osolve|].
    intros r. apply ck_bind; [apply ck_emit; exact Logic.I|]. intros _. apply ck_bind; [apply ck_check|]. intros _.
    apply ck_bind; [apply ck_ocall|]. intros _. apply ck_ret.
  Qed.
  Lemma ck_solution : ck oracle_solution.
  Proof.
    unfold oracle_solution. apply ck_bind; [apply ck_gets|]. intros v. apply ck_bind; [apply ck_unwrap|]. intros n.
    apply ck_bind; [apply ck_gets|]. intros []; apply ck_ret || apply ck_throw.
  Qed.
  Lemma ck_add_clauses cs : ck (add_clauses cs).
  Proof.
    unfold add_clauses. induction cs as [|c cs IH]; cbn [forM]; [apply ck_ret|]. apply ck_bind; [|intros _; exact IH].
    apply ck_ora.
  Qed.
  Lemma ck_loop {S A} n (body : S -> M (S + A)) : (forall x, ck (body x)) -> forall x, ck (loop n body x).
  Proof.
    intros H. induction n as [|n IH]; intros x; cbn [loop]; [apply ck_throw|]. apply ck_bind; [apply H|].
    intros [y|a]; [apply IH|apply ck_ret].
  Qed.
  Lemma ck_foldM {A B} (f : B -> A -> M B) l : (forall b a, ck (f b a)) -> forall b, ck (foldM f l b).
  Proof.
    intros H. induction l as [|a l IH]; intros b; cbn [foldM]; [apply ck_ret|].
    apply ck_bind; [apply H|]. intros b'. apply IH.
  Qed.

  Ltac ckt :=
    repeat first
      [ apply ck_ret | (apply ck_emit; exact Logic.I) | apply ck_check | apply ck_guard | apply ck_unwrap | apply ck_core
      | apply ck_solve | apply ck_solution | apply ck_add_clauses | apply ck_limited | apply ck_gets
      | apply ck_throw
      | apply ck_prob
      | apply ck_ora
      | apply ck_bind; [|intros ?]
      | apply ck_loop; intros ?
      | apply ck_foldM; intros ? ?
      | match goal with |- ck (let '(_, _) := ?x in _) => destruct x end
      | match goal with |- ck (if ?b then _ else _) => destruct b end
      | match goal with |- ck (match ?b with _ => _ end) => destruct b end ].

  Lemma ck_build d r k : ck (build_output T d r k).
  Proof.
    unfold build_output. apply ck_bind; [apply ck_gets|]. intros n.
    destruct (ti_define T d r k _) as [[[d' l] cl] n']. ckt.
  Qed.
  Lemma ck_exhaust_loop n : forall d r b l, ck (exhaust_loop T E n d r b l).
  Proof.
    induction n as [|n IH]; intros d r b l; cbn [exhaust_loop]; [ckt|].
    apply ck_bind; [apply ck_build|]. intros [d' l']. apply ck_bind; [apply ck_limited|].
    intros []; ckt. apply IH.
  Qed.
  Lemma ck_exhaust d r : ck (exhaust_core T E d r).
  Proof.
    unfold exhaust_core. apply ck_bind; [apply ck_gets|]. intros o. destruct (negb _).
    - apply ck_bind; [apply ck_build|]. intros x. ckt.
    - apply ck_bind; [apply ck_emit; exact Logic.I|]. intros _. apply ck_bind; [apply ck_guard|]. intros _.
      apply ck_bind; [apply ck_exhaust_loop|]. intros x. ckt.
  Qed.
  Lemma ck_reform cs x cd : ck (reform_core T E cs x cd).
  Proof.
    unfold reform_core. destruct x as [[rf d] a]. destruct (ti_merge T d _) as [d1 c].
    do 2 (apply ck_bind; [apply ck_guard|]; intros _). apply ck_bind; [apply ck_exhaust|].
    intros [[d2 l] k]. ckt.
  Qed.
  Lemma ck_relax cw x l : ck (relax_lit T cw x l).
  Proof.
    unfold relax_lit. destruct x as [[[rf d] a] cs]. apply ck_bind; [apply ck_unwrap|]. intros [j w].
    destruct (hm_get l (rf_refs rf)) as [[root oidx tw]|]; [|ckt].
    destruct (0 <? w); [ckt|]. destruct (_ <=? _); [ckt|]. apply ck_bind; [apply ck_build|]. intros [d' l']. ckt.
  Qed.
  Lemma ck_minimize c : ck (minimize_core E c).
  Proof. unfold minimize_core, minimize_step. ckt. Qed.
  Lemma ck_trim c : ck (trim_core E c).
  Proof. unfold trim_core, trim_body. ckt. Qed.
  Lemma ck_body x : ck (oll_body T E x).
  Proof.
    unfold oll_body. destruct x as [rf d a cores cs]. apply ck_bind; [apply ck_unwrap|]. intros [j a'].
    apply ck_bind; [apply ck_solve|]. intros [| |].
    - unfold oll_sat. destruct cores as [|cd cores].
      { apply ck_bind; [apply ck_solution|]. intros sol. apply ck_bind; [apply ck_gets|]. intros n.
        destruct (reserve_outputs T _ d _) as [d' n']. ckt. }
      apply ck_bind; [apply ck_foldM; intros; apply ck_reform|]. intros [[? ?] ?]. ckt.
    - unfold oll_unsat. apply ck_bind; [apply ck_core|]. intros [|l core]; [ckt|].
      apply ck_bind; [apply ck_minimize|]. intros c1. apply ck_bind; [apply ck_trim|]. intros c2.
      apply ck_bind; [apply ck_unwrap|]. intros w. apply ck_bind; [apply ck_unwrap|]. intros off.
      apply ck_bind; [apply ck_emit; exact Logic.I|]. intros _.
      apply ck_bind; [apply ck_foldM; intros; apply ck_relax|]. intros [[[? ?] ?] ?]. ckt.
    - ckt.
  Qed.
  Lemma ck_oll rf d : ck (oll T E rf d).
  Proof.
    unfold oll. destruct (rf_inact rf); try (apply ck_bind; [apply ck_emit; exact Logic.I|]; intros _; apply ck_loop; intros; apply ck_body).
    ckt.
  Qed.
  Lemma ck_cbloop n : forall k acc, ck (core_boost_loop T E n k acc).
  Proof.
    induction n as [|n IH]; intros k acc; cbn [core_boost_loop]; [ckt|].
    apply ck_bind; [apply ck_gets|]. intros x. apply ck_bind; [apply ck_unwrap|]. intros ob.
    apply ck_bind.
    { destruct (obj_is_constant ob); [ckt|]. apply ck_bind; [apply ck_oll|]. intros [[rf d] [sol|]]; ckt. }
    intros [[rf d]|]; [|ckt]. apply ck_bind; [apply ck_prob|]. intros _. apply IH.
  Qed.
  Lemma ck_merge rf d b : ck (merge_reform T rf d b).
  Proof.
    unfold merge_reform, merge_cons, merge_lit. destruct (rf_inact rf); ckt.
  Qed.
  Lemma ck_mloop opts : forall rs k, ck (merge_loop T E opts k rs).
  Proof.
    induction rs as [|[rf d] rs IH]; intros k; cbn [merge_loop]; [ckt|].
    apply ck_bind; [apply ck_gets|]. intros x. apply ck_bind; [apply ck_unwrap|]. intros ob.
    apply ck_bind.
    { destruct (obj_is_constant ob); [ckt|]. apply ck_bind; [apply ck_merge|]. intros e. ckt. }
    intros _. apply ck_bind; [apply ck_check|]. intros _. apply IH.
  Qed.
  Lemma ck_reset b : ck (reset_oracle E b).
  Proof. unfold reset_oracle. ckt. Qed.
  Lemma ck_boost opts : ck (alg_core_boost T E opts).
  Proof.
    unfold alg_core_boost. apply ck_bind; [apply ck_gets|]. intros n.
    apply ck_bind; [destruct (n =? 0); ckt|]. intros _. apply ck_bind.
    { unfold kernel_core_boost. apply ck_bind; [apply ck_emit; exact Logic.I|]. intros _. apply ck_bind; [apply ck_gets|].
      intros m. apply ck_bind; [apply ck_cbloop|]. intros x. ckt. }
    intros [rs|]; [|ckt]. apply ck_bind; [apply ck_check|]. intros _. apply ck_bind.
    { destruct (cb_reset opts); [|ckt]. apply ck_bind; [apply ck_reset|]. intros _. ckt. }
    intros _. apply ck_bind; [apply ck_emit; exact Logic.I|]. intros _. apply ck_bind; [apply ck_mloop|]. intros _. ckt.
  Qed.

  Lemma ck_push nd : ck (front_push nd).
  Proof. intros s H. eapply qc_same; [..|exact H]; reflexivity. Qed.
  Lemma ck_rethrow {A} (r : A + exit) : ck (rethrow r).
  Proof. destruct r; [apply ck_ret|apply ck_throw]. Qed.
  Lemma ck_finish nd : ck (yield_finish E nd).
  Proof.
    unfold yield_finish. apply ck_bind; [apply ck_catch, ck_nd|]. intros r. apply ck_bind; [apply ck_push|]. intros _.
    apply ck_bind; [apply ck_emit; exact Logic.I|]. intros _. apply ck_rethrow.
  Qed.
  Lemma ck_wp {A} (c : M A) s : ck c -> qc s -> wp c (fun _ => qc) (fun _ => qc) s.
  Proof. intros H Hs. specialize (H s Hs). unfold wp. destruct (c s) as [[]]; exact H. Qed.

  Variable SP : enc_spec I.
  Lemma count_struct : lstruct_ok (I := I) E (fun _ => qc) (fun _ => True) (fun _ => True) (fun _ => qc).
  Proof.
    constructor; auto.
    - intros. eapply (oe_next_mono SP); eauto.
    - intros pi s ev He H. apply ck_wp; [now apply ck_emit|exact H].
    - intros pi s H. apply ck_wp; [apply ck_check|exact H].
    - intros pi s cs ph _ H. apply ck_wp; [apply ck_cand|exact H].
    - intros pi s r H. apply ck_wp; [apply ck_ocall|exact H].
    - intros pi s p' H _. eapply qc_same; [..|exact H]; reflexivity.
    - intros pi s H. eapply qc_same; [..|exact H]; reflexivity.
    - intros pi s f H. eapply qc_same; [..|exact H]; reflexivity.
    - intros pi s b a H. apply ck_wp; [apply ck_osolve|exact H].
    - intros pi s H. eapply wp_mono; [apply ck_wp; [apply ck_solution|exact H]| |auto]. auto.
    - intros cs sol nd s _ H _ nd'. eapply wp_mono; [apply ck_wp; [apply ck_catch, ck_log_solution|exact H]| |auto].
      intros [u|x] s' Hs.
      + destruct (enum_done _ _); [|exact Hs]. apply ck_wp; [apply ck_finish|exact Hs].
      + apply ck_wp; [|exact Hs]. apply ck_bind; [apply ck_catch, ck_nd|]. intros r. apply ck_bind; [apply ck_push|].
        intros _. apply ck_bind; [apply ck_rethrow|]. intros _. apply ck_throw.
    - intros cs nd s _ H. apply ck_wp; [apply ck_finish|exact H].
  Qed.
  Lemma ck_alg al l : ck (alg_solve al E l).
  Proof.
    intros s H.
    assert (G : wp (alg_solve al E l) (fun _ => qc) (fun _ => qc) s).
    { rewrite alg_solve_eq. apply wp_bind, wp_modify.
      apply (LogStruct.k_alg_main E (fun _ => qc) (fun _ => True) (fun _ => True) (fun _ => qc) count_struct al).
      destruct H as [H1 (new & H2 & H3)]. constructor; [exact H1|]. exists new. split; [exact H2|exact H3]. }
    unfold wp in G. destruct (alg_solve al E l s) as [[]]; exact G.
  Qed.
End Count.
