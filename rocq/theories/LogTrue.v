(** * What the logger is told (all algorithms, all options, all exits, all histories) *)
From Coq Require Import List Bool Arith Lia ZArith.
From Verif Require Import Base BaseLemmas Spec MTypes MKernel MPMinimal MLowerBounding MBiOptSat
  EncSpec ApiSpec Wp Sem Kern Init Ext Blk Struct Book Api FeasInv LogStruct.
Import ListNotations.

(** The non-dominated points handed to the logger *)
Fixpoint logged_points (t : list event) : list (nd_point assignment) :=
  match t with
  | [] => []
  | EvNonDom p :: t' => p :: logged_points t'
  | _ :: t' => logged_points t'
  end.
Lemma logged_points_in t p : In p (logged_points t) <-> In (EvNonDom p) t.
Proof.
  induction t as [|ev t IH]; cbn; [tauto|]. destruct ev; cbn; rewrite IH;
    (split; [intros H|intros [H|H]]); auto; try discriminate.
  - destruct H as [->|H]; auto.
  - injection H as ->; auto.
Qed.
Lemma logged_points_app a b : logged_points (a ++ b) = logged_points a ++ logged_points b.
Proof. induction a as [|[] a IH]; cbn; congruence. Qed.
Lemma logged_points_rev t : logged_points (rev t) = rev (logged_points t).
Proof.
  induction t as [|ev t IH]; [reflexivity|]. cbn [rev]. rewrite logged_points_app, IH.
  destruct ev; cbn; now rewrite ?app_nil_r.
Qed.

Section LogTrue.
  Context {I : enc_impl} (SP : enc_spec I).
  Notation st := (st I).
  Variable (i : inst).
  Hypothesis HI : inst_ok i.
  Variable me : nat.
  (** [full]: the logger is attached all the time *)
  Variable full : bool.

  Definition realcosts (cs : list nat) : Prop :=
    exists a, feasible (in_cls i) a /\ cs = ic (build_objs 0 (in_objs i)) a.

  Record tr (s : st) : Prop := mkTr {
    tr_cand : forall cs ph, In (EvCandidate cs ph) (s_trace s) -> realcosts cs;
    tr_nd : forall p, In (EvNonDom p) (s_trace s) -> In p (s_front s);
    tr_full : full = true -> s_logger s = true /\ logged_points (s_trace s) = rev (s_front s) }.
  (** After the event for [nd], before [nd] is added to the front *)
  Record trg (nd : nd_point assignment) (s : st) : Prop := mkTrg {
    tg_cand : forall cs ph, In (EvCandidate cs ph) (s_trace s) -> realcosts cs;
    tg_nd : forall p, In (EvNonDom p) (s_trace s) -> p = nd \/ In p (s_front s);
    tg_full : full = true -> s_logger s = true /\ logged_points (s_trace s) = nd :: rev (s_front s) }.

  Definition nz (s : st) : Prop := l_pps (s_lims s) <> Some 0.
  Definition logP pi (s : st) : Prop := feasP i me pi s /\ tr s /\ nz s.
  Definition logX (x : exit) (s : st) : Prop := core i me s /\ tr s.

  (** States that differ in unrelated parts, up to an event *)
  Definition adds (ev : option event) (s s' : st) : Prop :=
    samecore s s' /\ s_logger s' = s_logger s /\
    s_trace s' = match ev with Some e => if s_logger s then e :: s_trace s else s_trace s | None => s_trace s end.
  Definition fine (ev : event) : Prop :=
    match ev with EvCandidate cs _ => realcosts cs | EvNonDom _ => False | _ => True end.
  Definition fineo (ev : option event) : Prop := match ev with Some e => fine e | None => True end.

  Lemma tr_adds ev s s' : fineo ev -> adds ev s s' -> tr s -> tr s'.
  Proof.
    intros Hf ((_ & _ & Hfr & _) & Hl & Ht) [T1 T2 T3]. destruct ev as [e|].
    2:{ constructor; rewrite ?Hfr, ?Hl, ?Ht; auto. }
    destruct (s_logger s) eqn:el.
    - constructor; rewrite ?Hfr, ?Hl, ?Ht.
      + intros cs ph [H|H]; [subst e; exact Hf|eauto].
      + intros p [H|H]; [subst e; destruct Hf|eauto].
      + intros H. destruct (T3 H) as [_ H3]. split; [reflexivity|]. destruct e; cbn; auto. destruct Hf.
    - constructor; rewrite ?Hfr, ?Hl, ?Ht; auto.
  Qed.
  Lemma trg_adds nd s s' : adds (Some (EvNonDom nd)) s s' -> tr s -> trg nd s'.
  Proof.
    intros ((_ & _ & Hfr & _) & Hl & Ht) [T1 T2 T3].
    destruct (s_logger s) eqn:el.
    - constructor; rewrite ?Hfr, ?Hl, ?Ht.
      + intros cs ph [H|H]; [discriminate|eauto].
      + intros p [H|H]; [injection H as ->; auto|eauto].
      + intros H. destruct (T3 H) as [_ H3]. split; [reflexivity|]. cbn. congruence.
    - constructor; rewrite ?Hfr, ?Hl, ?Ht; auto. intros H. destruct (T3 H). discriminate.
  Qed.
  Lemma trg_push nd s : trg nd s -> tr (set_front (front_extend (s_front s) [nd]) s).
  Proof.
    intros [T1 T2 T3]. constructor; cbn; auto.
    - intros p Hp. apply in_or_app. destruct (T2 p Hp) as [->|H]; [right; now left|now left].
    - intros H. destruct (T3 H) as [H1 H2]. split; [exact H1|]. unfold front_extend. now rewrite rev_app_distr.
  Qed.

  Variable E : environ.
  Hypothesis HO : oracle_ok E.

  Lemma wp_emit_log ev (s : st) (Q : unit -> st -> Prop) (X : exit -> st -> Prop) :
    (forall s', adds (Some ev) s s' -> s_lims s' = s_lims s -> Q tt s') ->
    (forall x s', (exists e, x = EErr e) -> adds (Some ev) s s' -> s_lims s' = s_lims s -> X x s') ->
    wp (emit E ev) Q X s.
  Proof.
    intros HQ HX. unfold wp, emit. destruct (s_logger s) eqn:el; [destruct (ev_logfail E _)|].
    - apply HX; [eauto| |reflexivity]. split; [repeat split|]. cbn; rewrite ?el. split; reflexivity.
    - apply HQ; [|reflexivity]. split; [repeat split|]. cbn; rewrite ?el. split; reflexivity.
    - apply HQ; [|reflexivity]. split; [repeat split|]. cbn; rewrite ?el. split; reflexivity.
  Qed.
  Lemma wp_tick_log get put t (s : st) (Q : unit -> st -> Prop) (X : exit -> st -> Prop) :
    (forall n l, l_pps (put n l) = l_pps l) ->
    (forall s', adds None s s' -> l_pps (s_lims s') = l_pps (s_lims s) -> Q tt s') ->
    (forall x s', adds None s s' -> l_pps (s_lims s') = l_pps (s_lims s) -> X x s') ->
    wp (tick get put t) Q X s.
  Proof.
    intros Hp HQ HX. unfold wp, tick.
    destruct (get (s_lims s)) as [[|n]|].
    - apply HX; [|reflexivity]. split; [apply samecore_refl|]. auto.
    - destruct (n =? 0); [apply HX|apply HQ]; try (split; [repeat split|]; auto); apply Hp.
    - apply HQ; [|reflexivity]. split; [apply samecore_refl|]. auto.
  Qed.
  Lemma adds_trans ev s s1 s2 : adds ev s s1 -> adds None s1 s2 -> adds ev s s2.
  Proof.
    intros (H1 & H2 & H3) (G1 & G2 & G3). split; [eapply samecore_trans; eauto|]. rewrite G3, G2. auto.
  Qed.
  Lemma adds_mod ev s s1 s2 : samecore s s1 -> s_logger s1 = s_logger s -> s_trace s1 = s_trace s ->
    adds ev s1 s2 -> adds ev s s2.
  Proof.
    intros H1 H2 H3 (G1 & G2 & G3). split; [eapply samecore_trans; eauto|]. rewrite H2, H3 in *. auto.
  Qed.
  Definition quiet (f : st -> st) : Prop :=
    forall s, samecore s (f s) /\ s_logger (f s) = s_logger s /\ s_trace (f s) = s_trace s /\ s_lims (f s) = s_lims s.
  Lemma wp_logtick_log f ev get put t (s : st) (Q : unit -> st -> Prop) (X : exit -> st -> Prop) :
    quiet f -> (forall n l, l_pps (put n l) = l_pps l) ->
    (forall s', adds (Some ev) s s' -> l_pps (s_lims s') = l_pps (s_lims s) -> Q tt s') ->
    (forall x s', adds (Some ev) s s' -> l_pps (s_lims s') = l_pps (s_lims s) -> X x s') ->
    wp (modify f ;;; emit E ev ;;; tick get put t) Q X s.
  Proof.
    intros Hf Hp HQ HX. destruct (Hf s) as (F1 & F2 & F3 & F4).
    apply wp_bind, wp_modify, wp_bind. apply wp_emit_log.
    - intros s1 H1 L1. apply wp_tick_log; [exact Hp| |].
      + intros s2 H2 L2. apply HQ; [|rewrite L2, L1, F4; reflexivity].
        eapply adds_mod; [exact F1|exact F2|exact F3|]. eapply adds_trans; eauto.
      + intros x s2 H2 L2. apply HX; [|rewrite L2, L1, F4; reflexivity].
        eapply adds_mod; [exact F1|exact F2|exact F3|]. eapply adds_trans; eauto.
    - intros x s1 _ H1 L1. apply HX; [|rewrite L1, F4; reflexivity].
      eapply adds_mod; [exact F1|exact F2|exact F3|exact H1].
  Qed.

  (** Logging a point never panics: the event is followed by the addition to the front *)
  Lemma wp_catch_log nd (s : st) (Q : unit + exit -> st -> Prop) (X : exit -> st -> Prop) : nz s ->
    (forall r s', adds (Some (EvNonDom nd)) s s' -> (r = inl tt -> nz s') -> Q r s') ->
    wp (catch (log_non_dominated E nd)) Q X s.
  Proof.
    intros Hz HQ. apply wp_catch. unfold log_non_dominated. apply wp_bind, wp_modify, wp_bind.
    set (s0 := set_stats _ s).
    assert (Hm : forall s', adds (Some (EvNonDom nd)) s0 s' -> adds (Some (EvNonDom nd)) s s').
    { intros s' H. eapply adds_mod; [| | |exact H]; repeat split. }
    apply wp_emit_log.
    - intros s1 H1 L1. unfold wp, tick. rewrite L1. change (s_lims s0) with (s_lims s).
      pose proof Hz as Hz'. unfold nz in Hz'.
      destruct (l_pps (s_lims s)) as [[|n]|] eqn:el; [congruence| |].
      + assert (H2 : adds (Some (EvNonDom nd)) s (set_lims (set_l_pps (Some n) (s_lims s)) s1)).
        { apply Hm. eapply adds_trans; [exact H1|]. split; [repeat split|]. auto. }
        destruct n as [|n]; cbn [Nat.eqb]; apply HQ; try exact H2; [discriminate|].
        intros _. unfold nz. cbn. congruence.
      + apply HQ; [apply Hm, H1|]. intros _. unfold nz. rewrite L1. change (s_lims s0) with (s_lims s). congruence.
    - intros x s1 [e ->] H1 _. apply HQ; [apply Hm, H1|discriminate].
  Qed.

  Lemma log_finish nd s : core i me s -> tr s -> nz s -> okpt i nd ->
    wp (yield_finish E nd) (fun _ => logP None) logX s.
  Proof.
    intros HC HT Hz Hok. unfold yield_finish. apply wp_bind, wp_catch_log; [exact Hz|].
    intros r s1 H1 Hz1. apply wp_bind, wp_modify, wp_bind.
    assert (HC1 : core i me (set_front (front_extend (s_front s1) [nd]) s1)).
    { apply core_push; [eapply core_same; [apply H1|exact HC]|exact Hok]. }
    assert (HT1 : tr (set_front (front_extend (s_front s1) [nd]) s1)).
    { apply trg_push. eapply trg_adds; eauto. }
    apply wp_emit_log.
    - intros s2 H2 L2.
      assert (HC2 : core i me s2) by (eapply core_same; [apply H2|exact HC1]).
      assert (HT2 : tr s2) by (eapply tr_adds; [|exact H2|exact HT1]; exact Logic.I).
      destruct r as [[]|x]; [apply wp_ret|apply wp_throw; split; assumption].
      split; [split; [exact HC2|exact Logic.I]|]. split; [exact HT2|]. unfold nz. rewrite L2. exact (Hz1 eq_refl).
    - intros x s2 _ H2 _. split; [eapply core_same; [apply H2|exact HC1]|].
      eapply tr_adds; [|exact H2|exact HT1]; exact Logic.I.
  Qed.
  Lemma log_fail nd x s : core i me s -> tr s -> nz s -> okpt i nd ->
    wp (nt <- catch (log_non_dominated E nd) ;; front_push nd ;;; rethrow nt ;;; throw x)
      (fun _ : unit => logP None) logX s.
  Proof.
    intros HC HT Hz Hok. apply wp_bind, wp_catch_log; [exact Hz|].
    intros r s1 H1 _. apply wp_bind, wp_modify, wp_bind.
    assert (HX : forall y, logX y (set_front (front_extend (s_front s1) [nd]) s1)).
    { intros y. split.
      - apply core_push; [eapply core_same; [apply H1|exact HC]|exact Hok].
      - apply trg_push. eapply trg_adds; eauto. }
    destruct r as [u|y]; cbn [rethrow]; [apply wp_ret|]; apply wp_throw; apply HX.
  Qed.

  Lemma logP_adds pi ev s s' : fineo ev -> adds ev s s' -> l_pps (s_lims s') = l_pps (s_lims s) -> logP pi s -> logP pi s'.
  Proof.
    intros Hf Ha Hl (H1 & H2 & H3). split; [eapply feas_same; [apply Ha|exact H1]|].
    split; [eapply tr_adds; eauto|]. unfold nz in *. congruence.
  Qed.
  Lemma logX_adds pi ev x s s' : fineo ev -> adds ev s s' -> logP pi s -> logX x s'.
  Proof.
    intros Hf Ha (H1 & H2 & _). split; [eapply core_same; [apply Ha|apply H1]|eapply tr_adds; eauto].
  Qed.

  Lemma wp_and {A} (c : M I A) (Q1 Q2 : A -> st -> Prop) (X1 X2 : exit -> st -> Prop) s :
    wp c Q1 X1 s -> wp c Q2 X2 s -> wp c (fun a s' => Q1 a s' /\ Q2 a s') (fun x s' => X1 x s' /\ X2 x s') s.
  Proof. unfold wp. destruct (c s) as [[a|x] s']; auto. Qed.

  Lemma log_struct : lstruct_ok (I := I) E logP (goodsol i me) realcosts logX.
  Proof.
    pose proof (feas_struct SP i HI me E HO) as FS. constructor.
    - intros. eapply (oe_next_mono SP); eauto.
    - intros pi s ev Hev H. assert (Hf : fineo (Some ev)) by (destruct ev; try exact Logic.I; destruct Hev).
      apply wp_emit_log.
      + intros s' Hs L. eapply logP_adds; [exact Hf|exact Hs|congruence|exact H].
      + intros x s' _ Hs _. eapply logX_adds; [exact Hf|exact Hs|exact H].
    - intros pi s H. unfold wp, check_termination.
      assert (H' : logP pi (set_flags (Datatypes.S (s_flags s)) s)).
      { apply (logP_adds pi None s); [exact Logic.I| |reflexivity|exact H]. split; [repeat split|]. auto. }
      destruct (ev_flag E _); [split; apply H'|exact H'].
    - intros pi s cs ph HCs H. unfold log_candidate. apply wp_bind, wp_gets, wp_bind.
      unfold wp at 1, guard. destruct (_ =? _); [|split; apply H]. cbn [ret].
      apply wp_logtick_log; [intros ?; repeat split|reflexivity| |].
      + intros s' Hs L. eapply logP_adds; [|exact Hs|exact L|exact H]. exact HCs.
      + intros x s' Hs _. eapply logX_adds; [|exact Hs|exact H]. exact HCs.
    - intros pi s r H. unfold log_oracle_call.
      apply wp_logtick_log; [intros ?; repeat split|reflexivity| |].
      + intros s' Hs L. eapply logP_adds; [|exact Hs|exact L|exact H]. exact Logic.I.
      + intros x s' Hs _. eapply logX_adds; [|exact Hs|exact H]. exact Logic.I.
    - intros pi s p' (H1 & [] & H3) Hg. split; [now apply (Struct.so_prob _ _ _ _ FS)|]. split; [now constructor|exact H3].
    - intros pi s (H1 & [] & H3). split; [now apply (Struct.so_idle _ _ _ _ FS)|]. split; [now constructor|exact H3].
    - intros pi s f (H1 & [] & H3). split; [now apply (Struct.so_fence _ _ _ _ FS)|]. split; [now constructor|exact H3].
    - intros pi s bb a (H1 & HT & H3). pose proof (Struct.so_solve _ _ _ _ FS pi s bb a H1) as HS.
      unfold wp, oracle_solve in HS |- *. set (q := mkQuery _ _ _ _ _) in *. destruct HT.
      destruct (ev_oracle E q); (split; [exact HS|]); try (split; [|exact H3]); now constructor.
    - intros pi s (H1 & HT & H3). pose proof (Struct.so_solution _ _ _ _ FS pi s H1) as HS.
      unfold oracle_solution, wp, bind, gets, unwrap in HS |- *.
      destruct (vm_max_var (p_vm (s_prob s))); cbn [ret throw] in HS |- *; [|split; [exact HS|exact HT]].
      destruct (s_ora s); cbn [ret throw] in HS |- *; try (split; [exact HS|exact HT]).
      destruct HS as [HS1 HS2]. repeat (split; auto).
    - intros pi s sol n cs ((HC & _) & _) (m & Hf & Hr) Hn Hg.
      assert (n = n_objs (s_stats s)) as -> by (destruct Hn as [->| ->]; [reflexivity|symmetry; apply HC]).
      exists m. split; [exact Hf|]. rewrite (costs_of i me s sol m cs s HC Hr Hg).
      apply sim_ic, HC.
    - intros pi s x (H1 & H2 & _) _. split; [apply H1|exact H2].
    - intros s cs ext ((H & _) & HT & Hz) _ He. split; [|split; assumption]. split; [exact H|]. split; [exact He|]. intros sol [].
    - intros cs sol nd s (m & Hf & Hr) ([HC [Hext Hs]] & HT & Hz) Hg nd'.
      pose proof (costs_of i me s sol m cs s HC Hr Hg) as Hcs. pose proof Hext as Hext'.
      rewrite Hcs in Hext. rewrite (ext_costs i HI me _ _ HC) in Hext. injection Hext as Hext.
      assert (Hok : okpt i nd').
      { split; [unfold nd'; cbn; now destruct (nd_sols nd)|]. unfold nd'. cbn [nd_add_sol nd_sols nd_costs]. intros sol' Hin.
        apply in_app_or in Hin. destruct Hin as [Hin|[<-|[]]]; [auto|].
        rewrite (co_mo _ _ _ HC), (sol_rep_trunc _ _ _ _ (proj1 (co_enc _ _ _ HC)) Hr).
        split; [apply sol_of_length|]. split.
        - intros v Hv. exists (m v). apply sol_of_nth. unfold n_orig in Hv. lia.
        - exists m. split; [apply extends_sol_of, agree_refl|]. split; [exact Hf|congruence]. }
      apply wp_catch. unfold log_solution. apply wp_logtick_log; [intros ?; repeat split|reflexivity| |].
      + intros s' Hss L. assert (HC' := core_same _ _ _ _ (proj1 Hss) HC).
        assert (HT' : tr s') by (eapply tr_adds; [|exact Hss|exact HT]; exact Logic.I).
        assert (Hz' : nz s') by (unfold nz in *; congruence).
        destruct (enum_done _ _).
        * now apply log_finish.
        * split; [|split; assumption]. split; [exact HC'|]. destruct Hss as ((Hp & _) & _). cbn [pend]. rewrite Hp.
          split; [exact Hext'|]. apply Hok.
      + intros x s' Hss L. assert (HC' := core_same _ _ _ _ (proj1 Hss) HC).
        assert (HT' : tr s') by (eapply tr_adds; [|exact Hss|exact HT]; exact Logic.I).
        assert (Hz' : nz s') by (unfold nz in *; congruence).
        destruct x; try (split; assumption); now apply log_fail.
    - intros cs nd s Hne ([HC [Hext Hs]] & HT & Hz). apply log_finish; auto. split; assumption.
  Qed.
End LogTrue.

Section LogRun.
  Context {I : enc_impl} (SP : enc_spec I).
  Variable (i : inst).
  Hypothesis HI : inst_ok i.

  (** The logger is not detached *)
  Definition no_detach (x : step) : Prop := match x with Detach => False | _ => True end.

  Lemma log_step al full x me (s : st I) : step_ok x -> (full = true -> no_detach x) ->
    core i me s -> tr i full s -> core i me (run_step al x s) /\ tr i full (run_step al x s).
  Proof.
    intros HE Hd H HT. destruct x as [E l| |]; cbn [run_step].
    - destruct HE as [HO (Hl & _)].
      assert (G : wp (alg_solve al E l) (fun _ => logP i me full None) (logX i me full) s).
      { rewrite alg_solve_eq. apply wp_bind, wp_modify.
        apply (LogStruct.k_alg_main E (logP i me full) (goodsol i me) (realcosts i) (logX i me full)
                 (log_struct SP i HI me full E HO) al).
        split; [split; [|exact Logic.I]; eapply core_same; [|exact H]; repeat split|].
        split; [|exact Hl]. destruct HT. now constructor. }
      unfold wp in G. destruct (alg_solve al E l s) as [[u|x] s']; cbn [snd]; [|exact G].
      destruct G as ((G1 & _) & G2 & _). auto.
    - split; [eapply core_same; [|exact H]; repeat split|]. destruct HT as [T1 T2 T3]. constructor; auto.
      intros Hf. destruct (T3 Hf). auto.
    - split; [eapply core_same; [|exact H]; repeat split|]. destruct HT as [T1 T2 T3]. constructor; auto.
      intros Hf. destruct (Hd Hf).
  Qed.
  Lemma log_run al full h : forall me (s : st I), run_ok h -> (full = true -> Forall no_detach h) ->
    core i me s -> tr i full s -> core i me (run al h s) /\ tr i full (run al h s).
  Proof.
    induction h as [|x h IH]; intros me s Hh Hd H HT; [split; assumption|]. inversion Hh; subst. cbn [run].
    destruct (log_step al full x me s) as [G1 G2]; try assumption.
    - intros Hf. specialize (Hd Hf). now inversion Hd.
    - apply IH; try assumption. intros Hf. specialize (Hd Hf). now inversion Hd.
  Qed.
  Lemma new_trace al o (s : st I) : alg_new al i o = Some s -> s_trace s = [] /\ s_front s = [].
  Proof.
    assert (G : forall os s', kernel_new (in_cls i) os (in_vm i) o = Some s' ->
                s_trace (I := I) s' = [] /\ s_front s' = []).
    { intros os s'. unfold kernel_new. destruct (vm_max_var (in_vm i)); [|discriminate].
      destruct (init_encs _ _ _). intros [= <-]. split; reflexivity. }
    destruct al; cbn; unfold pminimal_new, lb_new, bi_new; try apply G.
    all: destruct (kernel_new _ _ _ _) as [s'|] eqn:e; try (destruct (_ =? 2)); try discriminate; intros [= <-]; eapply G, e.
  Qed.

  Lemma log_some al o (s0 : st I) h : alg_new al i o = Some s0 -> run_ok h ->
    exists me, core i me (run al h s0) /\ tr i false (run al h s0).
  Proof.
    intros Hn Hh. pose proof (core_new SP i HI al o s0 Hn) as HC. eexists.
    apply log_run; [exact Hh|discriminate|exact HC|]. destruct (new_trace al o s0 Hn) as [Ht Hf].
    constructor; rewrite ?Ht; try discriminate.
    - intros ? ? [].
    - intros ? [].
  Qed.
  Lemma log_all al o (s0 : st I) h : alg_new al i o = Some s0 -> run_ok h -> Forall no_detach h ->
    tr i true (run al (Attach :: h) s0).
  Proof.
    intros Hn Hh Hd. pose proof (core_new SP i HI al o s0 Hn) as HC. cbn [run].
    apply (log_run al true h (vm_max_enc (p_vm (s_prob s0)))); [exact Hh|auto| |].
    - eapply core_same; [|exact HC]. repeat split.
    - destruct (new_trace al o s0 Hn) as [Ht Hf]. constructor; cbn; rewrite ?Ht, ?Hf; auto.
      intros ? ? [].
  Qed.
End LogRun.
