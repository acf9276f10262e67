(** * Stops at a point

    The limits on reported points and on solutions only stop a run right after a point has
    been added to the front. *)
From Coq Require Import List Bool Arith Lia ZArith.
From Verif Require Import Base BaseLemmas MTypes MKernel MPMinimal EncSpec ApiSpec Wp Sem Book Struct.
Import ListNotations.

Definition at_point (x : exit) : Prop := x = ETerm PPLimit \/ x = ETerm SolsLimit.

Lemma wp_conj {I A} (c : M I A) Q1 Q2 X1 X2 s : wp c Q1 X1 s -> wp c Q2 X2 s ->
  wp c (fun a s' => Q1 a s' /\ Q2 a s') (fun x s' => X1 x s' /\ X2 x s') s.
Proof. unfold wp. destruct (c s) as [[a|x] s']; auto. Qed.

Section StopAt.
  Context {I : enc_impl}.
  Variable SP : enc_spec I.
  Notation st := (st I).
  Variable E : environ.
  Variable n : nat.

  Definition stopP (pi : option (list nat * nd_point assignment)) (s : st) : Prop := n <= length (s_front s).
  Definition stopX (x : exit) (s : st) : Prop := at_point x -> n < length (s_front s).

  Ltac nope := let H := fresh in intros [H|H]; discriminate H.

  Lemma stop_emit ev (s : st) (Q : unit -> st -> Prop) (X : exit -> st -> Prop) :
    (forall s', s_front s' = s_front s -> Q tt s') ->
    (forall s', s_front s' = s_front s -> X (EErr ErrLogger) s') -> wp (emit E ev) Q X s.
  Proof.
    intros HQ HX. unfold wp, emit. destruct (s_logger s); [destruct (ev_logfail E _)|];
      (apply HQ || apply HX); reflexivity.
  Qed.
  Lemma stop_tick get put t (s : st) (Q : unit -> st -> Prop) (X : exit -> st -> Prop) :
    (forall s', s_front s' = s_front s -> Q tt s') ->
    (forall s' x, s_front s' = s_front s -> x = ETerm t \/ x = EPanic -> X x s') -> wp (tick get put t) Q X s.
  Proof.
    intros HQ HX. unfold wp, tick. destruct (get (s_lims s)) as [[|k]|]; try (apply HX; auto; fail);
      try (destruct (k =? 0)); try (apply HQ; reflexivity); apply HX; auto.
  Qed.
  Lemma stop_push {A} nd (k : unit + exit -> M I A) (s : st) Q X : n <= length (s_front s) ->
    (forall nt s', n < length (s_front s') -> wp (k nt) Q X s') -> (forall s', X EPanic s') ->
    wp (nt <- catch (log_non_dominated E nd) ;; front_push nd ;;; k nt) Q X s.
  Proof.
    intros H HK HE.
    assert (HP : forall nt s', s_front s' = s_front s -> wp (front_push nd ;;; k nt) Q X s').
    { intros nt s' Hs. apply wp_bind, wp_modify, HK. cbn. unfold front_extend. rewrite app_length, Hs. cbn. lia. }
    apply wp_bind, wp_catch. unfold log_non_dominated. apply wp_bind, wp_modify, wp_bind, stop_emit.
    - intros s1 H1. apply stop_tick.
      + intros s2 H2. apply HP. now rewrite H2, H1.
      + intros s2 x H2 Hx. destruct Hx as [-> | ->]; [apply HP; now rewrite H2, H1|apply HE].
    - intros s1 H1. apply HP. now rewrite H1.
  Qed.
  Lemma stop_finish nd (s : st) : n <= length (s_front s) -> wp (yield_finish E nd) (fun _ => stopP None) stopX s.
  Proof.
    intros H. unfold yield_finish. apply stop_push; [exact H| |intros ?; nope]. intros nt s1 H1.
    apply wp_bind, stop_emit.
    - intros s2 H2. destruct nt as [[]|x]; [apply wp_ret|apply wp_throw; intros _]; unfold stopP; rewrite H2; lia.
    - intros s2 H2 _. rewrite H2. exact H1.
  Qed.

  Lemma stop_struct : struct_ok (I := I) E stopP (fun _ => True) stopX.
  Proof.
    constructor.
    - intros. eapply (oe_next_mono SP); eauto.
    - intros pi s ev H. apply stop_emit; intros s' Hs; [|nope]. unfold stopP. rewrite Hs. exact H.
    - intros pi s H. unfold wp, check_termination. destruct (ev_flag E _); [nope|exact H].
    - intros pi s cs ph H. unfold log_candidate. apply wp_bind, wp_gets, wp_bind.
      unfold wp at 1, guard. destruct (_ =? _); [|nope]. cbn [ret].
      apply wp_bind, wp_modify, wp_bind, stop_emit; intros s' Hs; [|nope]. apply stop_tick.
      + intros s2 H2. unfold stopP. rewrite H2, Hs. exact H.
      + intros s2 x _ Hx. destruct Hx as [-> | ->]; nope.
    - intros pi s r H. unfold log_oracle_call.
      apply wp_bind, wp_modify, wp_bind, stop_emit; intros s' Hs; [|nope]. apply stop_tick.
      + intros s2 H2. unfold stopP. rewrite H2, Hs. exact H.
      + intros s2 x _ Hx. destruct Hx as [-> | ->]; nope.
    - intros pi s p' H _. exact H.
    - intros pi s H. exact H.
    - intros pi s f H. exact H.
    - intros pi s b a H. unfold wp, oracle_solve. destruct (ev_oracle E _); try exact H. nope.
    - intros pi s H. unfold oracle_solution. apply wp_bind, wp_gets, wp_bind. unfold wp at 1, unwrap.
      destruct (vm_max_var _); [|nope]. cbn [ret]. apply wp_bind, wp_gets.
      destruct (s_ora s); [apply wp_throw; nope| |apply wp_throw; nope]. apply wp_ret. auto.
    - intros pi s x _ H. intros [-> | ->]; destruct H.
    - intros s cs ext H _ _. exact H.
    - intros cs sol nd s _ H _ nd'. apply wp_catch. unfold log_solution.
      assert (HB : forall x s', s_front s' = s_front s ->
        wp (nt <- catch (log_non_dominated E nd');; (front_push nd';;; (rethrow nt;;; throw x)))
          (fun _ : unit => stopP None) stopX s').
      { intros x s' Hs. apply stop_push; [rewrite Hs; exact H| |intros ?; nope]. intros nt s1 H1. apply wp_bind.
        destruct nt as [[]|y]; [apply wp_ret|]; apply wp_throw; intros _; exact H1. }
      apply wp_bind, wp_modify, wp_bind, stop_emit; intros s1 H1.
      + apply stop_tick.
        * intros s2 H2. destruct (enum_done _ _); [apply stop_finish|unfold stopP]; rewrite H2, H1; exact H.
        * intros s2 x H2 Hx. destruct Hx as [-> | ->]; [apply HB; now rewrite H2, H1|nope].
      + apply HB. now rewrite H1.
    - intros cs nd s _ H. now apply stop_finish.
  Qed.
End StopAt.

(** [minimize_and_yield] stopping for one of the two limits has added a point *)
Lemma minimize_stops_at_point {I} (SP : enc_spec I) E base (s : st I) :
  wp (minimize_and_yield E base) (fun _ _ => True)
    (fun x s' => at_point x -> length (s_front s) < length (s_front s')) s.
Proof.
  eapply wp_mono; [apply (k_min_yield E (stopP (length (s_front s))) (fun _ => True) (stopX (length (s_front s))))| |]; auto.
  - apply (stop_struct SP).
  - unfold stopP. lia.
Qed.

(** ** Undisturbed runs with limits on points and solutions only *)
Section Calm.
  Context {I : enc_impl}.
  Variable SP : enc_spec I.
  Notation st := (st I).
  Variable E : environ.
  Hypothesis HC : calm E.

  Definition ptsP (pi : option (list nat * nd_point assignment)) (s : st) : Prop :=
    l_candidates (s_lims s) = None /\ l_oracle_calls (s_lims s) = None.
  Definition ptsX (x : exit) (s : st) : Prop := nd_fail x \/ at_point x.

  Lemma pts_emit ev (s : st) (Q : unit -> st -> Prop) X : (forall s', s_lims s' = s_lims s -> Q tt s') ->
    wp (emit E ev) Q X s.
  Proof.
    destruct HC as (_ & H & _). intros HQ. unfold wp, emit. rewrite H.
    destruct (s_logger s); apply HQ; reflexivity.
  Qed.
  Lemma pts_lims pi (s s' : st) : s_lims s' = s_lims s -> ptsP pi s -> ptsP pi s'.
  Proof. intros H. unfold ptsP. now rewrite H. Qed.
  (** logging a point *)
  Lemma pts_push {A} nd (k : unit + exit -> M I A) (s : st) (Q : A -> st -> Prop) (X : exit -> st -> Prop) :
    ptsP None s -> (forall nt s', ptsP None s' -> (forall x, nt = inr x -> x = ETerm PPLimit) -> wp (k nt) Q X s') ->
    (forall s', X EPanic s') ->
    wp (nt <- catch (log_non_dominated E nd) ;; front_push nd ;;; k nt) Q X s.
  Proof.
    intros H HK HE. apply wp_bind, wp_catch. unfold log_non_dominated. apply wp_bind, wp_modify, wp_bind, pts_emit.
    intros s1 H1. unfold wp at 1, tick. destruct (l_pps (s_lims s1)) as [[|n]|]; [apply HE|destruct (n =? 0)|];
      apply wp_bind, wp_modify, HK; try (intros x [= ->]; reflexivity); try discriminate;
      unfold ptsP in *; cbn; rewrite H1; exact H.
  Qed.
  Lemma pts_finish nd (s : st) : ptsP None s -> wp (yield_finish E nd) (fun _ => ptsP None) ptsX s.
  Proof.
    intros H. unfold yield_finish. apply pts_push; [exact H| |intros s'; left; exact Logic.I].
    intros nt s1 H1 Hnt. apply wp_bind, pts_emit. intros s2 H2. destruct nt as [[]|x].
    - apply wp_ret. exact (pts_lims _ _ _ H2 H1).
    - apply wp_throw. right. left. now apply Hnt.
  Qed.

  Lemma pts_struct : struct_ok (I := I) E ptsP (fun _ => True) ptsX.
  Proof.
    constructor.
    - intros. eapply (oe_next_mono SP); eauto.
    - intros pi s ev H. apply pts_emit. intros s' Hs. exact (pts_lims _ _ _ Hs H).
    - intros pi s H. unfold wp, check_termination. destruct HC as (Hf & _). rewrite Hf. exact H.
    - intros pi s cs ph H. unfold log_candidate. apply wp_bind, wp_gets, wp_bind.
      unfold wp at 1, guard. destruct (_ =? _); [|left; exact Logic.I]. cbn [ret].
      apply wp_bind, wp_modify, wp_bind, pts_emit. intros s' Hs.
      pose proof (pts_lims None _ _ Hs H) as H'. unfold wp, tick. rewrite (proj1 H'). exact H'.
    - intros pi s r H. unfold log_oracle_call.
      apply wp_bind, wp_modify, wp_bind, pts_emit. intros s' Hs.
      pose proof (pts_lims None _ _ Hs H) as H'. unfold wp, tick. rewrite (proj2 H'). exact H'.
    - intros pi s p' H _. exact H.
    - intros pi s H. exact H.
    - intros pi s f H. exact H.
    - intros pi s b a H. unfold wp, oracle_solve. destruct HC as (_ & _ & Hq).
      destruct (ev_oracle E _) eqn:e; try exact H. exfalso. eapply Hq, e.
    - intros pi s H. unfold oracle_solution. apply wp_bind, wp_gets, wp_bind. unfold wp at 1, unwrap.
      destruct (vm_max_var _); [|left; exact Logic.I]. cbn [ret]. apply wp_bind, wp_gets.
      destruct (s_ora s); [left; exact Logic.I| |left; exact Logic.I]. apply wp_ret. auto.
    - intros pi s x _ H. left. exact H.
    - intros s cs ext H _ _. exact H.
    - intros cs sol nd s _ H _ nd'. apply wp_catch. unfold log_solution.
      apply wp_bind, wp_modify, wp_bind, pts_emit. intros s' Hs.
      pose proof (pts_lims None _ _ Hs H) as H'. unfold wp at 1, tick.
      assert (HG : forall s2 : st, ptsP None s2 -> s_opts s2 = s_opts s' ->
        if enum_done (o_enum (s_opts s2)) (nd_n_sols nd')
        then wp (yield_finish E nd') (fun _ => ptsP None) ptsX s2 else ptsP (Some (cs, nd')) s2).
      { intros s2 H2 _. destruct (enum_done _ _); [now apply pts_finish|exact H2]. }
      destruct (l_sols (s_lims s')) as [[|n]|]; [left; exact Logic.I| |apply HG; auto].
      destruct (n =? 0); [|apply HG; auto].
      apply pts_push; [exact H'| |intros s2; left; exact Logic.I].
      intros nt s2 _ Hnt. apply wp_bind. destruct nt as [[]|x]; [apply wp_ret|]; apply wp_throw; right.
      + now right.
      + left. now apply Hnt.
    - intros cs nd s _ H. now apply pts_finish.
  Qed.

  Lemma pts_solve al l (s : st) : l_candidates l = None -> l_oracle_calls l = None ->
    wp (alg_solve al E l) (fun _ _ => True) ptsX s.
  Proof.
    intros H1 H2. rewrite alg_solve_eq. apply wp_bind, wp_modify.
    eapply wp_mono; [apply (k_alg_main E ptsP (fun _ => True) ptsX pts_struct al); now split| |]; auto.
  Qed.
End Calm.
