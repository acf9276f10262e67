(** * What no call changes, however it ends

    An instance of the principle of [Struct.v] without any assumption on the oracle, the
    interrupts, the logger or the limits. *)
From Coq Require Import List Bool Arith Lia ZArith.
From Verif Require Import Base BaseLemmas Spec MTypes MKernel MPMinimal MLowerBounding MBiOptSat
  EncSpec ApiSpec Ext Wp Sem Struct MOll TotSpec CbSpec Book CbApi.
Import ListNotations.

Section Static.
  Context {I : enc_impl} {SP : enc_spec I} {T : tot_impl I} (TS : tot_spec SP T).
  Notation st := (st I).
  Record static (b s : st) : Prop := mkStatic {
    sc_cnf : s_cnf s = s_cnf b;
    sc_opts : s_opts s = s_opts b;
    sc_solves : n_solve_calls (s_stats s) = n_solve_calls (s_stats b);
    sc_nobjs : n_objs (s_stats s) = n_objs (s_stats b);
    sc_nreal : n_real_objs (s_stats s) = n_real_objs (s_stats b);
    sc_ncls : n_orig_clauses (s_stats s) = n_orig_clauses (s_stats b);
    sc_orig : vm_max_orig (p_vm (s_prob s)) = vm_max_orig (p_vm (s_prob b));
    sc_enc : vm_max_enc (p_vm (s_prob s)) = vm_max_enc (p_vm (s_prob b));
    sc_next : S (vm_max_enc (p_vm (s_prob b))) <= vm_next (p_vm (s_prob b)) ->
      S (vm_max_enc (p_vm (s_prob s))) <= vm_next (p_vm (s_prob s));
    sc_objs : length (p_objs (s_prob s)) = length (p_objs (s_prob b));
    sc_encs : length (p_encs (s_prob s)) = length (p_encs (s_prob b)) }.
  Lemma static_refl s : static s s.
  Proof. now constructor. Qed.

  Section One.
  Variable E : environ.
  Variable b : st.
  Definition stP (_ : option (list nat * nd_point assignment)) (s : st) : Prop := static b s.
  Definition stX (x : exit) (s : st) : Prop := static b s.

  Lemma st_emit ev s : static b s -> wp (emit E ev) (fun _ => static b) stX s.
  Proof.
    intros H. unfold wp, emit. destruct (s_logger s); [|exact H].
    destruct (ev_logfail _ _); destruct H; now constructor.
  Qed.
  Lemma st_tick g p t s : static b s -> wp (tick g p t) (fun _ => static b) stX s.
  Proof.
    intros H. unfold wp, tick. destruct (g (s_lims s)) as [[|n]|]; [| destruct (n =? 0)|];
      destruct H; now constructor.
  Qed.
  Lemma st_stats f s : static b s -> n_solve_calls f = n_solve_calls (s_stats s) ->
    n_objs f = n_objs (s_stats s) -> n_real_objs f = n_real_objs (s_stats s) ->
    n_orig_clauses f = n_orig_clauses (s_stats s) -> static b (set_stats f s).
  Proof. intros [] H1 H2 H3 H4. constructor; cbn; try congruence. assumption. Qed.
  Lemma st_counted f ev g p t s : static b s -> n_solve_calls (f (s_stats s)) = n_solve_calls (s_stats s) ->
    n_objs (f (s_stats s)) = n_objs (s_stats s) -> n_real_objs (f (s_stats s)) = n_real_objs (s_stats s) ->
    n_orig_clauses (f (s_stats s)) = n_orig_clauses (s_stats s) ->
    wp (modify (fun s => set_stats (f (s_stats s)) s) ;;; emit E ev ;;; tick g p t) (fun _ => static b) stX s.
  Proof.
    intros H H1 H2 H3 H4. apply wp_bind, wp_modify, wp_bind.
    eapply wp_mono; [apply st_emit, st_stats; [exact H|exact H1|exact H2|exact H3|exact H4]| |auto].
    intros [] s' H'. now apply st_tick.
  Qed.
  Lemma st_log_nd nd s : static b s -> wp (log_non_dominated E nd) (fun _ => static b) stX s.
  Proof. intros H. now apply (st_counted (fun x => set_n_non_dominated (S (n_non_dominated x)) x)). Qed.
  Lemma st_front f s : static b s -> static b (set_front f s).
  Proof. intros []. now constructor. Qed.
  Lemma st_finish nd s : static b s -> wp (yield_finish E nd) (fun _ => static b) stX s.
  Proof.
    intros H. unfold yield_finish. apply wp_bind, wp_catch.
    assert (G : forall (r : unit + exit) s', static b s' ->
      wp (front_push nd ;;; log_end E ;;; rethrow r) (fun _ => static b) stX s').
    { intros r s' H'. apply wp_bind, wp_modify, wp_bind.
      eapply wp_mono; [apply st_emit, st_front, H'| |auto]. intros [] s2 H2.
      destruct r as [[]|x]; [apply wp_ret|apply wp_throw]; exact H2. }
    eapply wp_mono; [apply st_log_nd, H| |].
    - intros [] s' H'. now apply G.
    - intros x s' H'. destruct x; try (now apply G); exact H'.
  Qed.

  Lemma static_struct : struct_ok (I := I) E stP (fun _ => True) stX.
  Proof.
    constructor.
    - intros. eapply (oe_next_mono SP); eauto.
    - intros pi s ev H. now apply st_emit.
    - intros pi s H. unfold wp, check_termination. destruct (ev_flag _ _); destruct H; now constructor.
    - intros pi s cs ph H. unfold log_candidate. apply wp_bind, wp_gets, wp_bind.
      unfold wp at 1, guard. destruct (_ =? _); [|exact H]. cbn [ret].
      now apply (st_counted (fun x => set_n_candidates (S (n_candidates x)) x)).
    - intros pi s r H. now apply (st_counted (fun x => set_n_oracle_calls (S (n_oracle_calls x)) x)).
    - intros pi s p' H G. destruct H, G. constructor; cbn in *; try congruence. intros Hn. specialize (sc_next0 Hn). lia.
    - intros pi s H. destruct H; now constructor.
    - intros pi s f H. destruct H; now constructor.
    - intros pi s l a H. unfold wp, oracle_solve. destruct (ev_oracle E _); destruct H; now constructor.
    - intros pi s H. unfold oracle_solution. apply wp_bind, wp_gets, wp_bind. unfold wp at 1, unwrap.
      destruct (vm_max_var _); [|exact H]. cbn [ret]. apply wp_bind, wp_gets.
      destruct (s_ora s); [exact H| |exact H]. apply wp_ret. auto.
    - intros pi s x H _. exact H.
    - intros s cs ext H _ _. exact H.
    - intros cs sol nd s _ H _ nd'. apply wp_catch.
      assert (G : wp (log_solution E) (fun _ => static b) stX s)
        by now apply (st_counted (fun x => set_n_solutions (S (n_solutions x)) x)).
      eapply wp_mono; [exact G| |].
      + intros [] s' H'. destruct (enum_done _ _); [apply st_finish|]; exact H'.
      + intros x s' H'.
        assert (G0 : wp (nt <- catch (log_non_dominated E nd') ;; front_push nd' ;;; rethrow nt ;;; throw x)
          (fun _ : unit => stP None) stX s').
        { apply wp_bind, wp_catch.
          assert (G2 : forall (r : unit + exit) s', static b s' ->
            wp (front_push nd' ;;; rethrow r ;;; throw x) (fun _ : unit => static b) stX s').
          { intros r s2 H2. apply wp_bind, wp_modify, wp_bind.
            destruct r as [[]|y]; [apply wp_ret|]; apply wp_throw; now apply st_front. }
          eapply wp_mono; [apply st_log_nd, H'| |].
          * intros [] s2 H2. now apply G2.
          * intros y s2 H2. destruct y; try (now apply G2); exact H2. }
        destruct x; try exact G0; exact H'.
    - intros cs nd s _ H. now apply st_finish.
  Qed.

  Lemma static_boost opts : static b (snd (alg_core_boost T E opts b)).
  Proof.
    assert (W : keeps stP stX None (alg_core_boost T E opts)).
    { eapply (ck_boost TS); [apply static_struct|]. intros s p' H []. destruct H. constructor; cbn in *; try congruence; lia. }
    specialize (W b (static_refl b)). unfold wp in W. destruct (alg_core_boost T E opts b) as [[|] ?]; exact W.
  Qed.
  Lemma static_reset f : static b (snd (reset_oracle E f b)).
  Proof.
    assert (W : keeps stP stX None (reset_oracle E f)).
    { eapply ck_reset; [apply static_struct|]. intros s p' H []. destruct H. constructor; cbn in *; try congruence; lia. }
    specialize (W b (static_refl b)). unfold wp in W. destruct (reset_oracle E f b) as [[|] ?]; exact W.
  Qed.
  End One.

  (** the same, where the number of [solve] calls is counted *)
  Record static_n (n : nat) (b s : st) : Prop := mkStaticN {
    sn_cnf : s_cnf s = s_cnf b;
    sn_opts : s_opts s = s_opts b;
    sn_solves : n_solve_calls (s_stats s) = n + n_solve_calls (s_stats b);
    sn_nobjs : n_objs (s_stats s) = n_objs (s_stats b);
    sn_nreal : n_real_objs (s_stats s) = n_real_objs (s_stats b);
    sn_ncls : n_orig_clauses (s_stats s) = n_orig_clauses (s_stats b);
    sn_orig : vm_max_orig (p_vm (s_prob s)) = vm_max_orig (p_vm (s_prob b));
    sn_enc : vm_max_enc (p_vm (s_prob s)) = vm_max_enc (p_vm (s_prob b));
    sn_next : S (vm_max_enc (p_vm (s_prob b))) <= vm_next (p_vm (s_prob b)) ->
      S (vm_max_enc (p_vm (s_prob s))) <= vm_next (p_vm (s_prob s));
    sn_objs : length (p_objs (s_prob s)) = length (p_objs (s_prob b));
    sn_encs : length (p_encs (s_prob s)) = length (p_encs (s_prob b)) }.
  Lemma static_0 b s : static b s <-> static_n 0 b s.
  Proof. split; intros []; now constructor. Qed.
  Lemma static_add n m a b c : static_n n a b -> static_n m b c -> static_n (n + m) a c.
  Proof. intros [] []. constructor; try congruence; try lia; auto. Qed.
  Lemma static_solve E l al s : static_n 1 s (snd (alg_solve al E l s)).
  Proof.
    rewrite alg_solve_eq.
    set (b := snd (start_solving l s)).
    assert (W : wp (alg_main al E) (fun _ => static b) (fun _ => static b) b).
    { apply (k_alg_main E (stP b) (fun _ => True) (stX b) (static_struct E b) al). apply static_refl. }
    change (snd (bind (start_solving l) (fun _ => alg_main al E) s)) with (snd (alg_main al E b)).
    unfold wp in W. destruct (alg_main al E b) as [[|] s']; destruct W; constructor; assumption.
  Qed.
  (** calls of [solve] in a history *)
  Definition solves (h : list step) : nat :=
    length (filter (fun x => match x with Solve _ _ => true | _ => false end) h).
  Lemma static_run al h s : static_n (solves h) s (run al h s).
  Proof.
    revert s. induction h as [|x h IH]; intros s; [now constructor|].
    destruct x as [E l| |]; cbn [run run_step].
    - apply (static_add 1 (solves h) s (snd (alg_solve al E l s))); [apply static_solve|apply IH].
    - apply (static_add 0 (solves h) s (snd (attach_logger s))); [now constructor|apply IH].
    - apply (static_add 0 (solves h) s (snd (detach_logger s))); [now constructor|apply IH].
  Qed.

  (** histories that mix core boosting with the other calls *)
  Definition gsolves (h : list gstep) : nat :=
    length (filter (fun x => match x with GStep (Solve _ _) => true | _ => false end) h).
  Lemma static_grun al h s : static_n (gsolves h) s (grun T al h s).
  Proof.
    revert s. induction h as [|x h IH]; intros s; [now constructor|].
    destruct x as [E opts|[E l| |]]; cbn [grun grun_step run_step].
    - apply (static_add 0 (gsolves h) s (snd (alg_core_boost T E opts s))); [|apply IH].
      apply static_0, static_boost.
    - apply (static_add 1 (gsolves h) s (snd (alg_solve al E l s))); [apply static_solve|apply IH].
    - apply (static_add 0 (gsolves h) s (snd (attach_logger s))); [now constructor|apply IH].
    - apply (static_add 0 (gsolves h) s (snd (detach_logger s))); [now constructor|apply IH].
  Qed.

  (** ** Core boosting after solving *)
  Lemma boost_rejected al h s E opts : (exists E' l, In (GStep (Solve E' l)) h) ->
    alg_core_boost T E opts (grun T al h s) = (Exit (EErr ErrApi), grun T al h s).
  Proof.
    intros (E' & l & Hin). pose proof (sn_solves _ _ _ (static_grun al h s)) as Hn.
    assert (Hg : gsolves h <> 0).
    { unfold gsolves. intros H0. apply length_zero_iff_nil in H0.
      assert (G : In (GStep (Solve E' l)) (filter (fun x => match x with GStep (Solve _ _) => true | _ => false end) h))
        by (apply filter_In; auto).
      rewrite H0 in G. destruct G. }
    unfold alg_core_boost, bind, gets. destruct (n_solve_calls (s_stats (grun T al h s)) =? 0) eqn:e; [|reflexivity].
    apply Nat.eqb_eq in e. lia.
  Qed.

  (** ** Resetting the oracle *)
  Lemma new_static al i o (s : st) : alg_new al i o = Some s ->
    s_cnf s = (if o_store_cnf o then Some (in_cls i) else None) /\ s_opts s = o /\
    vm_max_enc (p_vm (s_prob s)) = vm_max_enc (in_vm i) /\ n_solve_calls (s_stats s) = 0.
  Proof.
    intros Hn.
    assert (G : forall s, kernel_new (I := I) (in_cls i) (build_objs 0 (in_objs i)) (in_vm i) o = Some s ->
      s_cnf s = (if o_store_cnf o then Some (in_cls i) else None) /\ s_opts s = o /\ vm_max_enc (p_vm (s_prob s)) = vm_max_enc (in_vm i) /\ n_solve_calls (s_stats s) = 0).
    { intros s1. unfold kernel_new. destruct (vm_max_var _); [|discriminate]. destruct (init_encs _ _ _).
      intros [= <-]. repeat split. }
    apply G. destruct al; cbn in Hn; auto. unfold bi_new in Hn. destruct (kernel_new _ _ _ _); [|discriminate].
    destruct (_ =? _); [auto|discriminate].
  Qed.
  Lemma count_real_raw rs : forall k, count_real (build_objs k rs) =
    length (filter (fun r : raw_obj => match fst r with [] => false | _ => true end) rs).
  Proof.
    unfold count_real. induction rs as [|r rs IH]; intros k; [reflexivity|]. cbn [build_objs filter].
    destruct r as [[|[l w] ls] off]; cbn [fst snd obj_new]; [exact (IH (S k))|].
    destruct (existsb _ _); cbn [obj_is_constant negb length]; now rewrite IH.
  Qed.
  Lemma new_numbers al i o (s : st) : alg_new al i o = Some s ->
    n_objs (s_stats s) = length (in_objs i) /\
    n_real_objs (s_stats s) = length (filter (fun r : raw_obj => match fst r with [] => false | _ => true end) (in_objs i)) /\
    n_orig_clauses (s_stats s) = length (in_cls i).
  Proof.
    intros Hn.
    assert (G : forall s, kernel_new (I := I) (in_cls i) (build_objs 0 (in_objs i)) (in_vm i) o = Some s ->
      n_objs (s_stats s) = length (in_objs i) /\
      n_real_objs (s_stats s) = length (filter (fun r : raw_obj => match fst r with [] => false | _ => true end) (in_objs i)) /\
      n_orig_clauses (s_stats s) = length (in_cls i)).
    { intros s1. unfold kernel_new. destruct (vm_max_var _); [|discriminate]. destruct (init_encs _ _ _).
      intros [= <-]. cbn [s_stats n_objs n_real_objs n_orig_clauses]. rewrite build_length, count_real_raw. repeat split. }
    apply G. destruct al; cbn in Hn; auto. unfold bi_new in Hn. destruct (kernel_new _ _ _ _); [|discriminate].
    destruct (_ =? _); [auto|discriminate].
  Qed.
  Lemma emit_cases E ev (s : st) :
    (exists s', emit E ev s = (Done tt, s') /\ s_prob s' = s_prob s /\ s_cnf s' = s_cnf s /\ s_front s' = s_front s /\
       s_stats s' = s_stats s) \/
    (exists s', emit E ev s = (Exit (EErr ErrLogger), s') /\ s_logger s = true /\ ev_logfail E (length (s_trace s)) = true).
  Proof.
    unfold emit. destruct (s_logger s); [destruct (ev_logfail _ _)|]; [right|left|left]; eauto 10.
  Qed.
  Lemma reset_any E (s : st) cnf : o_store_cnf (s_opts s) = true -> s_cnf s = Some cnf ->
    match reset_oracle E true s with
    | (Done _, s') => s_prob s' = set_vm (vm_forget_from (p_vm (s_prob s)) (S (vm_max_enc (p_vm (s_prob s)))))
        (set_cls cnf (s_prob s)) /\ s_front s' = s_front s /\ s_stats s' = s_stats s
    | (Exit x, _) => x = EErr ErrLogger /\ exists n, ev_logfail E n = true
    end.
  Proof.
    intros Ho Hc. unfold reset_oracle. unfold bind at 1, gets at 1. rewrite Ho.
    unfold bind at 1, ret at 1. unfold bind at 1, log_start.
    destruct (emit_cases E (EvStart RtResetOracle) s) as [(s1 & -> & P1 & C1 & F1 & S1)|(s1 & -> & L & H)];
      [|split; [reflexivity|eauto]].
    unfold bind at 1, ret at 1. unfold bind at 1, gets at 1. rewrite C1, Hc.
    unfold bind at 1, unwrap at 1, ret at 1. unfold bind at 1, modify at 1. unfold bind at 1, modify at 1.
    unfold log_end. match goal with |- context [emit E EvEnd ?x] => set (s2 := x) end.
    destruct (emit_cases E EvEnd s2) as [(s3 & -> & P3 & C3 & F3 & S3)|(s3 & -> & L & H)];
      [|split; [reflexivity|eauto]].
    rewrite P3, F3, S3. unfold s2. cbn. now rewrite P1.
  Qed.
End Static.
