(** * A raised termination flag stops every algorithm at its first oracle call *)
From Coq Require Import List Bool Arith Lia ZArith.
From Verif Require Import Base BaseLemmas Spec MTypes MKernel MPMinimal MLowerBounding MBiOptSat
  EncSpec ApiSpec Wp Sem Kern Init Ext Blk Struct Book Api.
Import ListNotations.

Section Shape.
  Context {I : enc_impl} (SP : enc_spec I).
  Notation st := (st I).
  Variable n : nat.

  (** One encoding per objective *)
  Definition shape (s : st) : Prop := length (p_encs (s_prob s)) = n /\ n_objs (s_stats s) = n.
  Definition same_shape (s s' : st) : Prop :=
    s_prob s' = s_prob s /\ n_objs (s_stats s') = n_objs (s_stats s).
  Lemma shape_same s s' : same_shape s s' -> shape s -> shape s'.
  Proof. intros [H1 H2] [H3 H4]. unfold shape. now rewrite H1, H2. Qed.

  Variable E : environ.
  Lemma wp_logtick_sh f ev get put t (s : st) (Q : unit -> st -> Prop) (X : exit -> st -> Prop) :
    (forall s, same_shape s (f s)) ->
    (forall s', same_shape s s' -> Q tt s') -> (forall x s', same_shape s s' -> X x s') ->
    wp (modify f ;;; emit E ev ;;; tick get put t) Q X s.
  Proof.
    intros Hf HQ HX. specialize (Hf s). apply wp_bind, wp_modify, wp_bind.
    assert (HT : forall s', same_shape s s' -> wp (tick get put t) Q X s').
    { intros s' H. unfold wp, tick. destruct (get (s_lims s')) as [[|k]|]; [apply HX, H| |apply HQ, H].
      destruct (k =? 0); [apply HX|apply HQ]; exact H. }
    unfold wp at 1, emit. destruct (s_logger (f s)); [destruct (ev_logfail E _)|];
      (apply HX || apply HT); exact Hf.
  Qed.
  Lemma shape_catch nd s (Q : unit + exit -> st -> Prop) : shape s ->
    (forall r s', shape s' -> Q r s') -> wp (catch (log_non_dominated E nd)) Q (fun _ => shape) s.
  Proof.
    intros Hs HQ. apply wp_catch, wp_logtick_sh; [split; reflexivity| |].
    - intros s' H. apply HQ. eapply shape_same; eauto.
    - intros x s' H. destruct x; try apply HQ; eapply shape_same; eauto.
  Qed.
  Lemma shape_emit ev s (Q : unit -> st -> Prop) : shape s -> (forall s', shape s' -> Q tt s') ->
    wp (emit E ev) Q (fun _ => shape) s.
  Proof.
    intros Hs HQ. unfold wp, emit. destruct (s_logger s); [destruct (ev_logfail E _)|];
      (apply HQ; exact Hs) || exact Hs.
  Qed.
  Lemma shape_finish nd s : shape s -> wp (yield_finish E nd) (fun _ => shape) (fun _ => shape) s.
  Proof.
    intros Hs. unfold yield_finish. apply wp_bind, shape_catch; [exact Hs|]. intros r s1 H1.
    apply wp_bind, wp_modify, wp_bind, shape_emit; [exact H1|]. intros s2 H2. destruct r; exact H2.
  Qed.

  Lemma shape_struct : struct_ok (I := I) E (fun _ => shape) (fun _ => True) (fun _ => shape).
  Proof.
    constructor.
    - intros. eapply (oe_next_mono SP); eauto.
    - intros _ s ev H. apply shape_emit; auto.
    - intros _ s H. unfold wp, check_termination. destruct (ev_flag E _); exact H.
    - intros _ s cs ph H. unfold log_candidate. apply wp_bind, wp_gets, wp_bind.
      unfold wp at 1, guard. destruct (_ =? _); [|exact H]. cbn [ret].
      apply wp_logtick_sh; [split; reflexivity| |]; intros; eapply shape_same; eauto.
    - intros _ s r H. unfold log_oracle_call.
      apply wp_logtick_sh; [split; reflexivity| |]; intros; eapply shape_same; eauto.
    - intros _ s p' [H1 H2] []. split; [cbn; congruence|exact H2].
    - intros _ s H. exact H.
    - intros _ s f H. exact H.
    - intros _ s b a H. unfold wp, oracle_solve. destruct (ev_oracle E _); exact H.
    - intros _ s H. unfold oracle_solution. apply wp_bind, wp_gets, wp_bind. unfold wp at 1, unwrap.
      destruct (vm_max_var _); [|exact H]. cbn [ret]. apply wp_bind, wp_gets.
      destruct (s_ora s); [exact H| |exact H]. apply wp_ret. auto.
    - intros _ s x H _. exact H.
    - intros s cs ext H _ _. exact H.
    - intros cs sol nd s _ H _ nd'. apply wp_catch. unfold log_solution.
      apply wp_logtick_sh; [split; reflexivity| |].
      + intros s' Hs. assert (H' := shape_same _ _ Hs H).
        destruct (enum_done _ _); [now apply shape_finish|exact H'].
      + assert (G : forall x s', shape s' -> wp (nt <- catch (log_non_dominated E nd') ;;
                          front_push nd' ;;; rethrow nt ;;; throw x) (fun _ : unit => shape) (fun _ => shape) s').
        { intros x s' H'. apply wp_bind, shape_catch; [exact H'|]. intros r s1 H1.
          apply wp_bind, wp_modify, wp_bind. destruct r; exact H1. }
        intros x s' Hs. assert (H' := shape_same _ _ Hs H). destruct x; try exact H'; now apply G.
    - intros cs nd s _ H. now apply shape_finish.
  Qed.
End Shape.

Lemma shape_step {I} (SP : enc_spec I) n al x (s : st I) : shape n s -> shape n (run_step al x s).
Proof.
  intros H. destruct x as [E l| |]; cbn [run_step]; [|exact H|exact H].
  assert (G : wp (alg_solve al E l) (fun _ => shape n) (fun _ => shape n) s).
  { rewrite alg_solve_eq. apply wp_bind, wp_modify.
    apply (k_alg_main E (fun _ => shape n) (fun _ => True) (fun _ => shape n) (shape_struct SP n E) al).
    exact H. }
  unfold wp in G. destruct (alg_solve al E l s) as [[u|x] s']; exact G.
Qed.
Lemma shape_run {I} (SP : enc_spec I) n al h : forall s : st I, shape n s -> shape n (run al h s).
Proof.
  induction h as [|x h IH]; intros s H; [exact H|]. cbn [run]. now apply IH, shape_step.
Qed.

Section Intr.
  Context {I : enc_impl} (SP : enc_spec I).
  Notation st := (st I).
  Variable E : environ.
  Variable s0 : st.
  (** raised before the call, and stays raised *)
  Hypothesis HF : forall k, s_flags s0 <= k -> ev_flag E k = true.

  Definition quietly (s : st) : Prop :=
    s_front s = s_front s0 /\ s_calls s = s_calls s0 /\ s_flags s = s_flags s0.
  Definition stopped (x : exit) (s : st) : Prop :=
    (x = ETerm Interrupted \/ x = EErr ErrLogger \/ x = EErr ErrOracle) /\
    s_front s = s_front s0 /\ s_calls s <= Datatypes.S (s_calls s0).

  Lemma quietly_stop s e : quietly s -> e = ErrLogger \/ e = ErrOracle -> stopped (EErr e) s.
  Proof.
    intros (H1 & H2 & H3) He. split; [destruct He as [-> | ->]; auto|]. split; [exact H1|lia].
  Qed.
  Lemma intr_emit n ev s (Q : unit -> st -> Prop) : shape n s -> quietly s ->
    (forall s', shape n s' -> quietly s' -> s_prob s' = s_prob s -> Q tt s') ->
    wp (emit E ev) Q stopped s.
  Proof.
    intros Hs H HQ. unfold wp, emit. destruct (s_logger s); [destruct (ev_logfail E _)|].
    - apply quietly_stop; [exact H|auto].
    - apply HQ; [exact Hs|exact H|reflexivity].
    - apply HQ; [exact Hs|exact H|reflexivity].
  Qed.
  Lemma intr_solve n a s (Q : sres -> st -> Prop) : shape n s -> quietly s ->
    wp (k_solve_assumps E a) Q stopped s.
  Proof.
    intros Hs H. unfold k_solve_assumps. apply wp_bind. eapply intr_emit; eauto.
    intros s1 Hs1 (G1 & G2 & G3) _. apply wp_bind. unfold wp at 1, oracle_solve.
    assert (HX : forall x s', s_front s' = s_front s1 -> s_calls s' = Datatypes.S (s_calls s1) ->
       x = ETerm Interrupted \/ x = EErr ErrLogger \/ x = EErr ErrOracle -> stopped x s').
    { intros x s' F1 F2 Hx. split; [exact Hx|]. split; [congruence|lia]. }
    assert (HW : forall r s', s_front s' = s_front s1 -> s_calls s' = Datatypes.S (s_calls s1) ->
       s_flags s' = s_flags s1 ->
       wp (log_end E ;;; check_termination E ;;; log_oracle_call E r ;;; ret r) Q stopped s').
    { intros r s' F1 F2 F3. apply wp_bind. unfold wp at 1, log_end, emit.
      assert (HC : forall s'', s_front s'' = s_front s1 -> s_calls s'' = Datatypes.S (s_calls s1) ->
        s_flags s'' = s_flags s1 -> wp (check_termination E ;;; log_oracle_call E r ;;; ret r) Q stopped s'').
      { intros s'' K1 K2 K3. apply wp_bind. unfold wp at 1, check_termination.
        rewrite HF by lia. apply HX; auto. }
      destruct (s_logger s'); [destruct (ev_logfail E _)|]; [apply HX; auto|apply HC; auto|apply HC; auto]. }
    destruct (ev_oracle E _); [apply HW|apply HW|apply HW|apply HX]; auto.
  Qed.
  Lemma intr_loop {S A} n k (body : S -> M I (S + A)) x s (Q : A -> st -> Prop) : 0 < k ->
    (forall (Q' : S + A -> st -> Prop) s', shape n s' -> quietly s' -> wp (body x) Q' stopped s') ->
    shape n s -> quietly s -> wp (loop k body x) Q stopped s.
  Proof.
    intros Hk Hb Hs H. destruct k as [|k]; [lia|]. cbn [loop]. apply wp_bind. now apply Hb.
  Qed.

  Hypothesis Hfuel : 0 < ev_fuel E.

  Lemma intr_pm n s (Q : unit -> st -> Prop) : shape n s -> quietly s -> wp (pminimal_main E) Q stopped s.
  Proof.
    intros Hs H. unfold pminimal_main. apply wp_bind, wp_gets, wp_bind, wp_gets, wp_bind, wp_guard.
    { destruct Hs. apply Nat.eqb_eq. lia. }
    apply wp_bind. eapply intr_emit; eauto. intros s1 Hs1 H1 _.
    apply (intr_loop n); auto. intros Q' s' Hs' H'. unfold pminimal_body. apply wp_bind.
    unfold k_solve. eapply intr_solve; eauto.
  Qed.

  Lemma intr_add_clauses n cls : forall s (Q : unit -> st -> Prop), shape n s -> quietly s ->
    (forall s', shape n s' -> quietly s' -> p_encs (s_prob s') = p_encs (s_prob s) -> Q tt s') ->
    wp (add_clauses cls) Q stopped s.
  Proof.
    induction cls as [|c cls IH]; intros s Q Hs H HQ; cbn [add_clauses forM].
    - apply wp_ret, HQ; auto.
    - apply wp_bind, wp_modify. apply IH; auto.
  Qed.
  Lemma intr_fence_one n idx s (Q : unit -> st -> Prop) : shape n s -> quietly s -> idx < n ->
    (forall s', shape n s' -> quietly s' -> Q tt s') -> wp (fence_init_one idx) Q stopped s.
  Proof.
    intros Hs H Hi HQ. unfold fence_init_one. apply wp_bind. unfold get_enc at 1. apply wp_bind, wp_gets.
    destruct (nth_error (p_encs (s_prob s)) idx) as [e|] eqn:He.
    2:{ apply nth_error_None in He. destruct Hs. lia. }
    apply wp_ret, wp_bind. unfold extend_encoding. apply wp_bind. unfold get_enc at 1. apply wp_bind, wp_gets.
    rewrite He. apply wp_ret, wp_bind, wp_gets.
    destruct (oe_encode_ub e (oe_offset e) (oe_offset e + 1) (vm_next (p_vm (s_prob s)))) as [[e' cl] n'] eqn:Hen.
    apply wp_bind, wp_modify, (intr_add_clauses n).
    { destruct Hs as [Hs1 Hs2]. split; [|exact Hs2]. cbn. now rewrite set_nth_length. }
    { exact H. }
    intros s1 Hs1 H1 He1. apply wp_bind. unfold get_enc. apply wp_bind, wp_gets. rewrite He1.
    cbn [s_prob set_prob set_encs p_encs]. rewrite set_nth_same by (apply nth_error_Some; congruence).
    apply wp_ret, wp_bind.
    assert (Hne : oe_enforce_ub e' (oe_offset e') <> None).
    { pose proof (oe_encode_step SP _ _ _ _ _ _ _ Hen) as [].
      rewrite os_off. apply os_enforce; lia. }
    destruct (oe_enforce_ub e' (oe_offset e')) as [a|]; [|congruence].
    apply wp_ret, wp_modify, HQ; auto.
  Qed.
  Lemma intr_fence n s (Q : unit -> st -> Prop) : shape n s -> quietly s ->
    (forall s', shape n s' -> quietly s' -> Q tt s') -> wp fence_init Q stopped s.
  Proof.
    intros Hs H HQ. unfold fence_init. apply wp_bind, wp_gets.
    destruct (s_fence s); [|apply wp_ret, HQ; auto]. apply wp_bind, wp_gets.
    replace (length (p_encs (s_prob s))) with n by (destruct Hs; auto).
    apply wp_forM with (P := fun _ s' => shape n s' /\ quietly s').
    - intros pre a post s' Hl [Hs' H']. apply (intr_fence_one n); auto.
      assert (Hin : In a (seq 0 n)) by (rewrite Hl; apply in_or_app; right; now left).
      apply in_seq in Hin. lia.
    - auto.
    - intros s' [Hs' H']. auto.
  Qed.
  Lemma intr_lb n s (Q : unit -> st -> Prop) : shape n s -> quietly s -> wp (lb_main E) Q stopped s.
  Proof.
    intros Hs H. unfold lb_main. apply wp_bind, wp_gets, wp_bind, wp_gets, wp_bind, wp_guard.
    { destruct Hs. apply Nat.eqb_eq. lia. }
    apply wp_bind. eapply intr_emit; eauto. intros s1 Hs1 H1 _.
    apply wp_bind, (intr_fence n); auto. intros s2 Hs2 H2.
    apply (intr_loop n); auto. intros Q' s' Hs' H'. unfold lb_body. apply wp_bind, wp_gets, wp_bind.
    eapply intr_solve; eauto.
  Qed.
  Lemma intr_bi s (Q : unit -> st -> Prop) : shape 2 s -> quietly s -> wp (bi_main E) Q stopped s.
  Proof.
    intros Hs H. unfold bi_main, bioptsat. apply wp_bind. eapply intr_emit; eauto. intros s1 Hs1 H1 _.
    apply wp_bind, wp_gets, wp_bind, wp_guard. { destruct Hs1. now apply Nat.eqb_eq. }
    assert (Hen : forall k, k < 2 -> exists e, nth_error (p_encs (s_prob s1)) k = Some e).
    { intros k Hk. destruct (nth_error (p_encs (s_prob s1)) k) eqn:e; [eauto|].
      apply nth_error_None in e. destruct Hs1. lia. }
    destruct (Hen 0) as (e0 & He0); [lia|]. destruct (Hen 1) as (e1 & He1); [lia|].
    apply wp_bind. unfold get_enc. apply wp_bind, wp_gets. rewrite He0. apply wp_ret.
    apply wp_bind, wp_bind, wp_gets. rewrite He1. apply wp_ret.
    apply wp_bind. eapply intr_solve; eauto.
  Qed.
  Lemma intr_main al n s (Q : unit -> st -> Prop) : shape n s -> (al = ABiOptSat -> n = 2) -> quietly s ->
    wp (alg_main al E) Q stopped s.
  Proof.
    intros Hs Hn H. destruct al; [eapply intr_pm|eapply intr_lb|apply intr_bi]; eauto.
    now rewrite (Hn eq_refl) in Hs.
  Qed.
  Lemma intr_solve_call al n l (Q : unit -> st -> Prop) : shape n s0 -> (al = ABiOptSat -> n = 2) ->
    wp (alg_solve al E l) Q stopped s0.
  Proof.
    intros Hs Hn. rewrite alg_solve_eq. apply wp_bind, wp_modify. eapply intr_main; eauto.
    repeat split.
  Qed.
End Intr.
