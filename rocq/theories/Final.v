(** * A raised flag stays raised *)
From Coq Require Import List Bool Arith Lia ZArith.
From Verif Require Import Base BaseLemmas Spec MTypes MKernel MPMinimal MLowerBounding MBiOptSat MOll
  EncSpec TotSpec Wp Sem Kern Init ApiSpec Ext Blk Struct Book Api Intr BookTop CbSpec CbFront CbApi ApiTop FinalSpec.
Import ListNotations.

(** Whatever the calls do: reads are only counted up, and an interrupted call has read the flag
    after it was raised *)
Section Flags.
  Context {I : enc_impl} {SP : enc_spec I} {T : tot_impl I} (TS : tot_spec SP T).
  Notation st := (st I).
  Variables (E : environ) (t N : nat).
  Hypothesis HR : forall n, ev_flag E n = (t <=? n).
  Definition fl (s : st) : Prop := N <= s_flags s.
  Definition flP (_ : option (list nat * nd_point assignment)) (s : st) : Prop := fl s.
  Definition flX (x : exit) (s : st) : Prop := fl s /\ (x = ETerm Interrupted -> t < s_flags s).
  Definition flL (x : exit) (s : st) : Prop := fl s /\ x <> ETerm Interrupted.
  Lemma flL_X x s : flL x s -> flX x s.
  Proof. intros [H1 H2]. split; [exact H1|contradiction]. Qed.
  Lemma fl_emit ev s : fl s -> wp (emit E ev) (fun _ => fl) flL s.
  Proof.
    intros H. unfold wp, emit. destruct (s_logger s); [|exact H]. destruct (ev_logfail _ _); [|exact H].
    split; [exact H|discriminate].
  Qed.
  Lemma fl_tick g p x s : x <> Interrupted -> fl s -> wp (tick g p x) (fun _ => fl) flL s.
  Proof.
    intros H1 H2. unfold wp, tick. destruct (g (s_lims s)) as [[|n]|]; [split; [exact H2|discriminate]| |exact H2].
    destruct (n =? 0); [|exact H2]. split; [exact H2|congruence].
  Qed.
  Lemma fl_counted f ev g p x s : x <> Interrupted -> fl s ->
    wp (modify (fun s => set_stats (f (s_stats s)) s) ;;; emit E ev ;;; tick g p x) (fun _ => fl) flL s.
  Proof.
    intros Hg H. apply wp_bind, wp_modify, wp_bind.
    eapply wp_mono; [apply fl_emit; exact H| |auto]. intros [] s' H'. now apply fl_tick.
  Qed.
  Lemma fl_log_nd nd s : fl s -> wp (log_non_dominated E nd) (fun _ => fl) flL s.
  Proof. intros H. apply (fl_counted (fun x => set_n_non_dominated (S (n_non_dominated x)) x)); [discriminate|exact H]. Qed.
  Lemma fl_finish nd s : fl s -> wp (yield_finish E nd) (fun _ => fl) flX s.
  Proof.
    intros H. unfold yield_finish. apply wp_bind, wp_catch.
    assert (G : forall (r : unit + exit) s', fl s' -> r <> inr (ETerm Interrupted) ->
      wp (front_push nd ;;; log_end E ;;; rethrow r) (fun _ => fl) flX s').
    { intros r s' H' Hr. apply wp_bind, wp_modify, wp_bind.
      eapply wp_mono; [apply fl_emit; exact H'| |intros x s2; apply flL_X]. intros [] s2 H2.
      destruct r as [[]|x]; [apply wp_ret; exact H2|apply wp_throw]. split; [exact H2|congruence]. }
    eapply wp_mono; [apply fl_log_nd, H| |].
    - intros [] s' H'. now apply G.
    - intros x s' [H1 H2]. destruct x; try (apply G; [exact H1|congruence]); split; auto; discriminate.
  Qed.
  Lemma fl_struct : struct_ok (I := I) E flP (fun _ => True) flX.
  Proof.
    constructor.
    - intros. eapply (oe_next_mono SP); eauto.
    - intros pi s ev H. eapply wp_mono; [apply fl_emit, H|auto|intros x s2; apply flL_X].
    - intros pi s H. unfold wp, check_termination. rewrite HR. unfold flP, flX, fl in *. cbn.
      destruct (t <=? s_flags s) eqn:e; cbn; [apply Nat.leb_le in e; split; [lia|intros _; lia]|lia].
    - intros pi s cs ph H. unfold log_candidate. apply wp_bind, wp_gets, wp_bind.
      unfold wp at 1, guard. destruct (_ =? _); [|split; [exact H|discriminate]]. cbn [ret].
      eapply wp_mono; [apply (fl_counted (fun x => set_n_candidates (S (n_candidates x)) x)); [discriminate|exact H]|auto|
        intros x s2; apply flL_X].
    - intros pi s r H.
      eapply wp_mono; [apply (fl_counted (fun x => set_n_oracle_calls (S (n_oracle_calls x)) x)); [discriminate|exact H]|auto|
        intros x s2; apply flL_X].
    - intros pi s p' H G. exact H.
    - intros pi s H. exact H.
    - intros pi s f H. exact H.
    - intros pi s l a H. unfold wp, oracle_solve. destruct (ev_oracle E _); try exact H. split; [exact H|discriminate].
    - intros pi s H. unfold oracle_solution. apply wp_bind, wp_gets, wp_bind. unfold wp at 1, unwrap.
      destruct (vm_max_var _); [|split; [exact H|discriminate]]. cbn [ret]. apply wp_bind, wp_gets.
      destruct (s_ora s); [split; [exact H|discriminate]| |split; [exact H|discriminate]]. apply wp_ret. auto.
    - intros pi s x H Hx. split; [exact H|]. intros ->. destruct Hx.
    - intros s cs ext H _ _. exact H.
    - intros cs sol nd s _ H _ nd'. apply wp_catch.
      assert (G : wp (log_solution E) (fun _ => fl) flL s)
        by (apply (fl_counted (fun x => set_n_solutions (S (n_solutions x)) x)); [discriminate|exact H]).
      eapply wp_mono; [exact G| |].
      + intros [] s' H'. destruct (enum_done _ _); [apply fl_finish|]; exact H'.
      + intros x s' [H' Hx].
        assert (G0 : wp (nt <- catch (log_non_dominated E nd') ;; front_push nd' ;;; rethrow nt ;;; throw x)
          (fun _ : unit => flP None) flX s').
        { apply wp_bind, wp_catch.
          assert (G2 : forall (r : unit + exit) s', fl s' -> r <> inr (ETerm Interrupted) ->
            wp (front_push nd' ;;; rethrow r ;;; throw x) (fun _ : unit => fl) flX s').
          { intros r s2 H2 Hr. apply wp_bind, wp_modify, wp_bind.
            destruct r as [[]|y]; [apply wp_ret|]; apply wp_throw; split; try exact H2; congruence. }
          eapply wp_mono; [apply fl_log_nd, H'| |].
          * intros [] s2 H2. now apply G2.
          * intros y s2 [H2 Hy]. destruct y; try (apply G2; [exact H2|congruence]); split; auto; discriminate. }
        destruct x; try exact G0; split; auto; discriminate.
    - intros cs nd s _ H. now apply fl_finish.
  Qed.
  Lemma fl_boost opts s : fl s -> fl (snd (alg_core_boost T E opts s)) /\
    (fst (alg_core_boost T E opts s) = Exit (ETerm Interrupted) -> t < s_flags (snd (alg_core_boost T E opts s))).
  Proof.
    intros H. assert (W : keeps flP flX None (alg_core_boost T E opts)).
    { eapply (ck_boost TS); [apply fl_struct|]. intros s' p' H' _. exact H'. }
    specialize (W s H). unfold wp in W. destruct (alg_core_boost T E opts s) as [[b|x] s']; cbn [fst snd].
    - split; [exact W|discriminate].
    - destruct W as [W1 W2]. split; [exact W1|]. intros [= ->]. now apply W2.
  Qed.
  Lemma fl_solve al l s : fl s -> fl (snd (alg_solve al E l s)) /\
    (fst (alg_solve al E l s) = Exit (ETerm Interrupted) -> t < s_flags (snd (alg_solve al E l s))).
  Proof.
    intros H. assert (W : wp (alg_solve al E l) (fun _ => fl) flX s).
    { rewrite alg_solve_eq. apply wp_bind, wp_modify.
      apply (k_alg_main E flP (fun _ => True) flX fl_struct al). exact H. }
    unfold wp in W. destruct (alg_solve al E l s) as [[b|x] s']; cbn [fst snd].
    - split; [exact W|discriminate].
    - destruct W as [W1 W2]. split; [exact W1|]. intros [= ->]. now apply W2.
  Qed.

  (** core boosting with the flag raised *)
  Definition late (s : st) : Prop := t <= s_flags s.
  Lemma late_emit ev s : late s -> wp (emit E ev) (fun _ s' => late s') (fun _ _ => True) s.
  Proof.
    intros H. unfold wp, emit. destruct (s_logger s); [|exact H]. destruct (ev_logfail _ _); [exact Logic.I|exact H].
  Qed.
  Lemma late_check s : late s -> wp (check_termination E) (fun _ _ => False) (fun _ _ => True) s.
  Proof.
    intros H. unfold wp, check_termination. rewrite HR. unfold late in H. apply Nat.leb_le in H. now rewrite H.
  Qed.
  Lemma late_solve a s : late s -> wp (k_solve_assumps E a) (fun _ _ => False) (fun _ _ => True) s.
  Proof.
    intros H. unfold k_solve_assumps. apply wp_bind. eapply wp_mono; [apply late_emit, H| |auto].
    intros [] s1 H1. apply wp_bind. unfold wp at 1, oracle_solve.
    assert (G : forall r s', late s' -> wp (log_end E ;;; check_termination E ;;; log_oracle_call E r ;;; ret r)
      (fun _ _ => False) (fun _ _ => True) s').
    { intros r s' H'. apply wp_bind. eapply wp_mono; [apply late_emit, H'| |auto]. intros [] s2 H2.
      apply wp_bind. eapply wp_mono; [apply late_check, H2| |auto]. intros [] s3 []. }
    destruct (ev_oracle E _); try (apply G; exact H1). exact Logic.I.
  Qed.
  Lemma late_oll rf d s : late s -> wp (oll T E rf d) (fun _ _ => False) (fun _ _ => True) s.
  Proof.
    intros H.
    assert (G : wp (log_start E RtOll ;;; loop (ev_fuel E) (oll_body T E) (mkOll T rf d (in_assumps (rf_inact rf)) [] []))
      (fun _ _ => False) (fun _ _ => True) s).
    { apply wp_bind. eapply wp_mono; [apply late_emit, H| |auto]. intros [] s1 H1.
      destruct (ev_fuel E) as [|f]; cbn [loop]; [exact Logic.I|]. apply wp_bind. unfold oll_body.
      apply wp_bind. unfold wp at 1, unwrap. destruct (prep_assumps _ _) as [[i a]|]; [|exact Logic.I]. cbn [ret].
      apply wp_bind. eapply wp_mono; [apply late_solve, H1| |auto]. intros r s2 []. }
    unfold oll. destruct (rf_inact rf); try exact G.
    apply wp_bind. eapply wp_mono; [apply late_solve, H| |auto]. intros r s2 [].
  Qed.
  Lemma late_loop n : forall k acc s, late s ->
    wp (core_boost_loop T E n k acc) (fun r s' => fst r = true /\ late s') (fun _ _ => True) s.
  Proof.
    induction n as [|n IH]; intros k acc s H; cbn [core_boost_loop]; [apply wp_ret; auto|].
    apply wp_bind, wp_gets, wp_bind. unfold wp at 1, unwrap. destruct (nth_error _ _) as [ob|]; [|exact Logic.I]. cbn [ret].
    apply wp_bind. destruct (obj_is_constant ob).
    - apply wp_ret, wp_bind, wp_modify. apply IH. exact H.
    - apply wp_bind. eapply wp_mono; [apply late_oll, H| |auto]. intros r s2 [].
  Qed.
  Lemma late_boost opts s : late s -> exists x, fst (alg_core_boost T E opts s) = Exit x.
  Proof.
    intros H. assert (W : wp (alg_core_boost T E opts) (fun _ _ => False) (fun _ _ => True) s).
    { unfold alg_core_boost. apply wp_bind, wp_gets, wp_bind. destruct (_ =? 0); [|exact Logic.I]. apply wp_ret, wp_bind.
      unfold kernel_core_boost. apply wp_bind. eapply wp_mono; [apply late_emit, H| |auto]. intros [] s1 H1.
      apply wp_bind, wp_gets, wp_bind. eapply wp_mono; [apply late_loop, H1| |auto]. intros r s2 [Hr H2].
      apply wp_bind. eapply wp_mono; [apply late_emit, H2| |auto]. intros [] s3 H3.
      apply wp_bind. eapply wp_mono; [apply late_emit, H3| |auto]. intros [] s4 H4.
      apply wp_ret. rewrite Hr. apply wp_bind. eapply wp_mono; [apply late_check, H4| |auto]. intros [] s5 []. }
    unfold wp in W. destruct (alg_core_boost T E opts s) as [[b|x] s']; [contradiction|]. exists x. reflexivity.
  Qed.
End Flags.

Section Final.
  Context {I : enc_impl} {SP : enc_spec I} {T : tot_impl I} (TS : tot_spec SP T).
  Notation st := (st I).
  Variables (i : inst) (o : kopts) (al : alg) (s0 : st) (t : nat).
  Hypothesis HI : inst_ok i.
  Hypothesis Hnew : alg_new al i o = Some s0.
  Let n := length (in_objs i).

  Lemma shape_boost E opts s : shape n s -> shape n (snd (alg_core_boost T E opts s)).
  Proof.
    intros H. assert (W : keeps (fun _ => shape n) (fun _ => shape n) None (alg_core_boost T E opts)).
    { eapply (ck_boost TS); [apply (shape_struct SP n E)|]. intros s' p' [H1 H2] []. split; [cbn; congruence|exact H2]. }
    specialize (W s H). unfold wp in W. destruct (alg_core_boost T E opts s) as [[b|x] s']; exact W.
  Qed.
  Lemma shape_grun h : forall s, shape n s -> shape n (grun T al h s).
  Proof.
    induction h as [|x h IH]; intros s H; cbn [grun]; [exact H|]. apply IH.
    destruct x as [E opts|x]; cbn [grun_step]; [now apply shape_boost|now apply (shape_step SP)].
  Qed.
  Lemma grun_app a : forall b s, grun T al (a ++ b) s = grun T al b (grun T al a s).
  Proof. induction a as [|x a IH]; intros b s; cbn [app grun]; auto. Qed.

  Definition past (s : st) : Prop := shape n s /\ t <= s_flags s.

  Lemma past_solve E l s : past s -> raised_at t E ->
    let r := alg_solve al E l s in
    (fst r = Exit (ETerm Interrupted) \/ fst r = Exit (EErr ErrLogger) \/ fst r = Exit (EErr ErrOracle)) /\
    s_front (snd r) = s_front s /\ s_calls (snd r) <= S (s_calls s).
  Proof.
    intros [H1 H2] [HF HR] r. destruct (new_shape SP i o al s0 HI Hnew) as [_ H3].
    assert (HF' : forall k, s_flags s <= k -> ev_flag E k = true).
    { intros k Hk. rewrite HR. apply Nat.leb_le. lia. }
    pose proof (wp_run _ _ _ _ (intr_solve_call SP E s HF' HF al _ l (fun _ _ => False) H1 H3)) as G.
    fold r in G. destruct r as [[u|x] s']; [contradiction|]. cbn [fst snd].
    destruct G as ([-> | [-> | ->]] & G2 & G3); auto.
  Qed.
  Lemma past_step x s : past s -> latched t [x] -> past (grun_step T al x s) /\ s_front (grun_step T al x s) = s_front s.
  Proof.
    intros HP HL. pose proof HP as [H1 H2]. destruct x as [E opts|[E l| |]]; cbn [grun_step run_step].
    - split; [split|].
      + now apply shape_boost.
      + apply (fl_boost TS E t t); [|exact H2]. exact (proj2 (HL (GBoost E opts) E (or_introl eq_refl) eq_refl)).
      + apply (f_core_boost T E).
    - assert (HR : raised_at t E) by exact (HL (GStep (Solve E l)) E (or_introl eq_refl) eq_refl). split; [split|].
      + exact (shape_step SP n al (Solve E l) s H1).
      + apply (fl_solve (SP := SP) E t t (proj2 HR)). exact H2.
      + apply (past_solve E l s HP HR).
    - split; [exact HP|reflexivity].
    - split; [exact HP|reflexivity].
  Qed.
  Lemma past_grun h : forall s, past s -> latched t h -> past (grun T al h s) /\ s_front (grun T al h s) = s_front s.
  Proof.
    induction h as [|x h IH]; intros s HP HL; cbn [grun]; [auto|].
    destruct (past_step x s HP) as [H1 H2]. { intros y E [<-|[]]. apply HL. now left. }
    destruct (IH _ H1) as [H3 H4]. { intros y E Hy. apply HL. now right. }
    split; [exact H3|congruence].
  Qed.

  Variables (h1 h2 : list gstep) (x : gstep).
  Hypothesis HL : latched t (h1 ++ x :: h2).
  Hypothesis Hx : interrupted T al x (grun T al h1 s0).
  Let s1 := grun T al (h1 ++ [x]) s0.
  Let s2 := grun T al (h1 ++ x :: h2) s0.
  Lemma final_past : past s1.
  Proof.
    unfold s1. rewrite grun_app. cbn [grun].
    pose proof (shape_grun h1 s0 (proj1 (new_shape SP i o al s0 HI Hnew))) as H1. split.
    - change (shape n (grun T al [x] (grun T al h1 s0))). now apply shape_grun.
    - assert (G : forall E, gstep_env x = Some E -> raised_at t E).
      { intros E. apply HL, in_or_app. right. now left. }
      destruct x as [E opts|[E l| |]]; cbn [interrupted grun_step run_step gstep_env] in *; try contradiction.
      + apply Nat.lt_le_incl. apply (fl_boost TS E t 0 (proj2 (G E eq_refl)) opts); [apply Nat.le_0_l|exact Hx].
      + apply Nat.lt_le_incl. apply (fl_solve (SP := SP) E t 0 (proj2 (G E eq_refl)) al l); [apply Nat.le_0_l|exact Hx].
  Qed.
  Lemma final_run : past s2 /\ s_front s2 = s_front s1.
  Proof.
    unfold s2. replace (h1 ++ x :: h2) with ((h1 ++ [x]) ++ h2) by now rewrite <- app_assoc.
    rewrite grun_app. apply past_grun; [exact final_past|].
    intros y E Hy. apply HL, in_or_app. right. now right.
  Qed.
  Lemma final_boost E opts : raised_at t E -> exists y, fst (alg_core_boost T E opts s2) = Exit y.
  Proof.
    intros [_ HR]. apply (late_boost (T := T) E t HR). apply final_run.
  Qed.
End Final.
