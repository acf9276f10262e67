(** * Bookkeeping: statistics, limits, growth of the front, undisturbed runs

    Instances of the generic invariant principle of [Struct.v]; they hold for all three
    algorithms. *)
From Coq Require Import List Bool Arith Lia ZArith.
From Verif Require Import Base BaseLemmas Spec MTypes MKernel MPMinimal MLowerBounding MBiOptSat
  EncSpec ApiSpec Wp Sem Struct.
Import ListNotations.

Lemma oe_next_mono {I} (SP : enc_spec I) (e : obj_enc I) lo hi n e' cl n' :
  oe_encode_ub e lo hi n = (e', cl, n') -> n <= n'.
Proof.
  intros H. apply (oe_encode_step SP) in H. apply H.
Qed.

(** ** Undisturbed runs *)
Section Calm.
  Context {I : enc_impl}.
  Variable SP : enc_spec I.
  Notation st := (st I).
  Variable E : environ.
  Hypothesis HC : calm E.

  Definition calmP (pi : option (list nat * nd_point assignment)) (s : st) : Prop :=
    s_lims s = lims_none.
  Definition calmX (x : exit) (s : st) : Prop := nd_fail x.

  Lemma calm_emit ev s (Q : unit -> st -> Prop) X : (forall s', s_lims s' = s_lims s -> Q tt s') ->
    wp (emit E ev) Q X s.
  Proof.
    destruct HC as (_ & H & _). intros HQ. unfold wp, emit. rewrite H.
    destruct (s_logger s); apply HQ; reflexivity.
  Qed.
  Lemma calm_tick get put t s (Q : unit -> st -> Prop) X : get lims_none = None -> calmP None s ->
    Q tt s -> wp (tick get put t) Q X s.
  Proof. intros H1 H2 HQ. unfold wp, tick. rewrite H2, H1. exact HQ. Qed.
  Lemma calm_nd nd s (Q : unit -> st -> Prop) X : calmP None s -> (forall s', calmP None s' -> Q tt s') ->
    wp (log_non_dominated E nd) Q X s.
  Proof.
    intros H HQ. unfold log_non_dominated. apply wp_bind, wp_modify, wp_bind, calm_emit.
    intros s' Hs. apply calm_tick; [reflexivity|exact (eq_trans Hs H)|].
    apply HQ. exact (eq_trans Hs H).
  Qed.
  Lemma calm_finish nd s : calmP None s -> wp (yield_finish E nd) (fun _ => calmP None) calmX s.
  Proof.
    intros H. unfold yield_finish. apply wp_bind, wp_catch, calm_nd; [exact H|]. intros s' H'.
    apply wp_bind, wp_modify, wp_bind, calm_emit. intros s2 H2. apply wp_ret.
    unfold calmP. rewrite H2. exact H'.
  Qed.

  Lemma calm_struct : struct_ok (I := I) E calmP (fun _ => True) calmX.
  Proof.
    constructor.
    - intros. eapply (oe_next_mono SP); eauto.
    - intros pi s ev H. apply calm_emit. intros s' Hs. exact (eq_trans Hs H).
    - intros pi s H. unfold wp, check_termination. destruct HC as (Hf & _). rewrite Hf. exact H.
    - intros pi s cs ph H. unfold log_candidate. apply wp_bind, wp_gets, wp_bind.
      unfold wp at 1, guard. destruct (_ =? _); [|exact Logic.I]. cbn [ret].
      apply wp_bind, wp_modify, wp_bind, calm_emit. intros s' Hs.
      apply calm_tick; [reflexivity| |]; exact (eq_trans Hs H).
    - intros pi s r H. unfold log_oracle_call.
      apply wp_bind, wp_modify, wp_bind, calm_emit. intros s' Hs.
      apply calm_tick; [reflexivity| |]; exact (eq_trans Hs H).
    - intros pi s p' H _. exact H.
    - intros pi s H. exact H.
    - intros pi s f H. exact H.
    - intros pi s b a H. unfold wp, oracle_solve. destruct HC as (_ & _ & Hq).
      destruct (ev_oracle E _) eqn:e; try exact H. exfalso. eapply Hq, e.
    - intros pi s H. unfold oracle_solution. apply wp_bind, wp_gets, wp_bind. unfold wp at 1, unwrap.
      destruct (vm_max_var _); [|exact Logic.I]. cbn [ret]. apply wp_bind, wp_gets.
      destruct (s_ora s); [exact Logic.I| |exact Logic.I]. apply wp_ret. auto.
    - intros pi s x _ H. exact H.
    - intros s cs ext H _ _. exact H.
    - intros cs sol nd s _ H _ nd'. apply wp_catch. unfold log_solution.
      apply wp_bind, wp_modify, wp_bind, calm_emit. intros s' Hs.
      apply calm_tick; [reflexivity|exact (eq_trans Hs H)|].
      assert (H' : calmP None s') by exact (eq_trans Hs H).
      destruct (enum_done _ _); [apply calm_finish|]; exact H'.
    - intros cs nd s _ H. now apply calm_finish.
  Qed.

  Lemma calm_solve al s : wp (alg_solve al E lims_none) (fun _ _ => True) calmX s.
  Proof.
    rewrite alg_solve_eq. apply wp_bind, wp_modify.
    eapply wp_mono; [apply (k_alg_main E calmP (fun _ => True) calmX calm_struct al); reflexivity| |]; auto.
  Qed.
End Calm.

(** ** Statistics, limits and growth of the front *)
Definition sols_total (f : front assignment) : nat := list_sum (map nd_n_sols f).

(** [count] may still grow: the remaining limit is positive and accounts for the growth *)
Definition l_live (l : option nat) (c0 : nat) (r : option nat) (c : nat) : Prop :=
  match l, r with
  | None, None => True
  | Some k, Some r => 0 < r /\ c + r = c0 + k
  | _, _ => False
  end.
Definition l_within (l : option nat) (c0 c : nat) : Prop :=
  match l with Some k => c <= c0 + k | None => True end.
Definition l_below (l : option nat) (c0 c : nat) : Prop :=
  match l with Some k => c < c0 + k | None => True end.
Definition l_reached (l : option nat) (c0 c : nat) : Prop :=
  match l with Some k => c = c0 + k | None => False end.
Lemma live_below l c0 r c : l_live l c0 r c -> l_below l c0 c.
Proof. destruct l, r; cbn; lia. Qed.
Lemma live_within l c0 r c : l_live l c0 r c -> l_within l c0 c.
Proof. destruct l, r; cbn; lia. Qed.

Section Book.
  Context {I : enc_impl}.
  Variable SP : enc_spec I.
  Notation st := (st I).
  Variable E : environ.
  (** the state at the start of the main loop (limits just set) *)
  Variable b : st.
  Notation l := (s_lims b).

  Definition npend (pi : option (list nat * nd_point assignment)) : nat :=
    match pi with Some (_, nd) => nd_n_sols nd | None => 0 end.

  (** front and counters: [k] solutions counted but not in the front *)
  Record grown (k : nat) (s : st) : Prop := mkGrown {
    gr_opts : s_opts s = s_opts b;
    gr_solves : n_solve_calls (s_stats s) = n_solve_calls (s_stats b);
    gr_front : exists news, s_front s = s_front b ++ news /\
      n_non_dominated (s_stats s) = n_non_dominated (s_stats b) + length news /\
      n_solutions (s_stats s) = n_solutions (s_stats b) + sols_total news + k /\
      (o_enum (s_opts b) = NoEnum -> Forall (fun nd => nd_n_sols nd = 1) news) }.
  Definition live (s : st) : Prop :=
    l_live (l_pps l) (n_non_dominated (s_stats b)) (l_pps (s_lims s)) (n_non_dominated (s_stats s)) /\
    l_live (l_sols l) (n_solutions (s_stats b)) (l_sols (s_lims s)) (n_solutions (s_stats s)) /\
    l_live (l_candidates l) (n_candidates (s_stats b)) (l_candidates (s_lims s)) (n_candidates (s_stats s)) /\
    l_live (l_oracle_calls l) (n_oracle_calls (s_stats b)) (l_oracle_calls (s_lims s)) (n_oracle_calls (s_stats s)).
  Definition within (s : st) : Prop :=
    l_within (l_pps l) (n_non_dominated (s_stats b)) (n_non_dominated (s_stats s)) /\
    l_within (l_sols l) (n_solutions (s_stats b)) (n_solutions (s_stats s)) /\
    l_within (l_candidates l) (n_candidates (s_stats b)) (n_candidates (s_stats s)) /\
    l_within (l_oracle_calls l) (n_oracle_calls (s_stats b)) (n_oracle_calls (s_stats s)).
  Definition below (s : st) : Prop :=
    l_below (l_pps l) (n_non_dominated (s_stats b)) (n_non_dominated (s_stats s)) /\
    l_below (l_sols l) (n_solutions (s_stats b)) (n_solutions (s_stats s)) /\
    l_below (l_candidates l) (n_candidates (s_stats b)) (n_candidates (s_stats s)) /\
    l_below (l_oracle_calls l) (n_oracle_calls (s_stats b)) (n_oracle_calls (s_stats s)).
  Definition reason (x : exit) (s : st) : Prop :=
    match x with
    | ETerm PPLimit => l_reached (l_pps l) (n_non_dominated (s_stats b)) (n_non_dominated (s_stats s))
    | ETerm SolsLimit => l_reached (l_sols l) (n_solutions (s_stats b)) (n_solutions (s_stats s))
    | ETerm CandidatesLimit => l_reached (l_candidates l) (n_candidates (s_stats b)) (n_candidates (s_stats s))
    | ETerm OracleCallsLimit => l_reached (l_oracle_calls l) (n_oracle_calls (s_stats b)) (n_oracle_calls (s_stats s))
    | _ => True
    end.
  (** exits between two solutions of one point *)
  Definition midway (x : exit) : Prop := x <> ETerm PPLimit /\ x <> ETerm SolsLimit.

  Definition bookP (pi : option (list nat * nd_point assignment)) (s : st) : Prop :=
    grown (npend pi) s /\ live s /\ (o_enum (s_opts b) = NoEnum -> npend pi = 0).
  Definition bookX (x : exit) (s : st) : Prop :=
    within s /\ reason x s /\
    exists k, grown k s /\ (k <> 0 -> midway x /\ o_enum (s_opts b) <> NoEnum).

  Lemma live_w s : live s -> within s.
  Proof. intros (H1 & H2 & H3 & H4). repeat split; eapply live_within; eauto. Qed.
  Lemma live_b s : live s -> below s.
  Proof. intros (H1 & H2 & H3 & H4). repeat split; eapply live_below; eauto. Qed.
  Lemma book_exit pi s x : bookP pi s -> match x with ETerm Interrupted | EErr _ | EPanic | ENoFuel => True | _ => False end ->
    bookX x s.
  Proof.
    intros (H1 & H2 & H3) Hx. split; [now apply live_w|]. split.
    - destruct x as [[]| | |]; cbn in *; tauto.
    - exists (npend pi). split; [exact H1|]. intros Hk. split; [|tauto].
      split; intros ->; exact Hx.
  Qed.

  (** Changes that do not touch front, statistics, options and limits *)
  Definition unseen (s s' : st) : Prop :=
    s_front s' = s_front s /\ s_stats s' = s_stats s /\ s_opts s' = s_opts s /\ s_lims s' = s_lims s.
  Lemma grown_unseen k s s' : unseen s s' -> grown k s -> grown k s'.
  Proof.
    intros (H1 & H2 & H3 & H4) []. constructor; rewrite ?H1, ?H2, ?H3; auto.
  Qed.
  Lemma book_unseen pi s s' : unseen s s' -> bookP pi s -> bookP pi s'.
  Proof.
    intros H (H1 & H2 & H3). split; [eapply grown_unseen; eauto|]. split; [|exact H3].
    destruct H as (_ & G1 & _ & G2). unfold live. now rewrite G1, G2.
  Qed.
  Lemma wp_emit_book ev s (Q : unit -> st -> Prop) (X : exit -> st -> Prop) :
    (forall s', unseen s s' -> Q tt s') -> (forall s', unseen s s' -> X (EErr ErrLogger) s') ->
    wp (emit E ev) Q X s.
  Proof.
    intros HQ HX. unfold wp, emit. destruct (s_logger s); [destruct (ev_logfail E _)|];
      (apply HQ || apply HX); repeat split.
  Qed.

  Lemma l_tick lim c0 r c : l_live lim c0 r c ->
    match r with
    | None => l_live lim c0 None (Datatypes.S c) /\ l_within lim c0 (Datatypes.S c)
    | Some 0 => False
    | Some (Datatypes.S n) => l_within lim c0 (Datatypes.S c) /\
        if n =? 0 then l_reached lim c0 (Datatypes.S c) else l_live lim c0 (Some n) (Datatypes.S c)
    end.
  Proof.
    destruct lim as [k|], r as [[|n]|]; cbn; try lia; try tauto.
    intros [H1 H2]. split; [lia|]. destruct (Nat.eqb_spec n 0); lia.
  Qed.

  Lemma book_candidate pi s cs ph : bookP pi s -> wp (log_candidate E cs ph) (fun _ => bookP pi) bookX s.
  Proof.
    intros HP. unfold log_candidate. apply wp_bind, wp_gets, wp_bind.
    unfold wp at 1, guard. destruct (_ =? _); [|cbn; eapply book_exit; [exact HP|exact Logic.I]]. cbn [ret].
    apply wp_bind, wp_modify, wp_bind. destruct HP as (H1 & H2 & H3).
    pose proof H2 as (L1 & L2 & L3 & L4).
    apply l_tick in L3.
    assert (Hg : forall s' s'' : st, s_stats s' = set_n_candidates (Datatypes.S (n_candidates (s_stats s))) (s_stats s) ->
              s_front s' = s_front s -> s_opts s' = s_opts s ->
              s_stats s'' = s_stats s' -> s_front s'' = s_front s' -> s_opts s'' = s_opts s' -> grown (npend pi) s'').
    { intros s' s'' G1 G2 G3 G4 G5 G6. destruct H1.
      constructor; rewrite ?G4, ?G5, ?G6, ?G1, ?G2, ?G3; cbn; auto. }
    apply wp_emit_book.
    - intros s' (G1 & G2 & G3 & G4). cbn in G1, G2, G3, G4. unfold wp, tick. rewrite G4.
      destruct (l_candidates (s_lims s)) as [[|n]|] eqn:e; [destruct L3| |].
      + destruct L3 as [W L3]. destruct (n =? 0).
        * split; [|split; [|exists (npend pi); split; [eapply (Hg s'); eauto|]]].
          -- unfold within. cbn. rewrite G2. cbn. repeat split; eauto using live_within.
          -- cbn. rewrite G2. exact L3.
          -- intros Hk. split; [split; discriminate|tauto].
        * split; [eapply (Hg s'); eauto|]. split; [|exact H3]. unfold live. cbn. rewrite G2. cbn. auto.
      + split; [eapply (Hg s'); eauto|]. split; [|exact H3]. unfold live. rewrite G2, G4. cbn. rewrite e. repeat split; auto. apply L3.
    - intros s' (G1 & G2 & G3 & G4). cbn in G1, G2, G3, G4.
      split; [|split; [exact Logic.I|exists (npend pi); split; [eapply (Hg s'); eauto|]]].
      + unfold within. rewrite G2. cbn. repeat split; eauto using live_within.
        destruct (l_candidates (s_lims s)) as [[|n]|]; [destruct L3|apply L3|apply L3].
      + intros Hk. split; [split; discriminate|tauto].
  Qed.

  Lemma book_ocall pi s r : bookP pi s -> wp (log_oracle_call E r) (fun _ => bookP pi) bookX s.
  Proof.
    intros HP. unfold log_oracle_call.
    apply wp_bind, wp_modify, wp_bind. destruct HP as (H1 & H2 & H3).
    pose proof H2 as (L1 & L2 & L3 & L4).
    apply l_tick in L4.
    assert (Hg : forall s' s'' : st, s_stats s' = set_n_oracle_calls (Datatypes.S (n_oracle_calls (s_stats s))) (s_stats s) ->
              s_front s' = s_front s -> s_opts s' = s_opts s ->
              s_stats s'' = s_stats s' -> s_front s'' = s_front s' -> s_opts s'' = s_opts s' -> grown (npend pi) s'').
    { intros s' s'' G1 G2 G3 G4 G5 G6. destruct H1.
      constructor; rewrite ?G4, ?G5, ?G6, ?G1, ?G2, ?G3; cbn; auto. }
    apply wp_emit_book.
    - intros s' (G1 & G2 & G3 & G4). cbn in G1, G2, G3, G4. unfold wp, tick. rewrite G4.
      destruct (l_oracle_calls (s_lims s)) as [[|n]|] eqn:e; [destruct L4| |].
      + destruct L4 as [W L4]. destruct (n =? 0).
        * split; [|split; [|exists (npend pi); split; [eapply (Hg s'); eauto|]]].
          -- unfold within. cbn. rewrite G2. cbn. repeat split; eauto using live_within.
          -- cbn. rewrite G2. exact L4.
          -- intros Hk. split; [split; discriminate|tauto].
        * split; [eapply (Hg s'); eauto|]. split; [|exact H3]. unfold live. cbn. rewrite G2. cbn. auto.
      + split; [eapply (Hg s'); eauto|]. split; [|exact H3]. unfold live. rewrite G2, G4. cbn. rewrite e. repeat split; auto. apply L4.
    - intros s' (G1 & G2 & G3 & G4). cbn in G1, G2, G3, G4.
      split; [|split; [exact Logic.I|exists (npend pi); split; [eapply (Hg s'); eauto|]]].
      + unfold within. rewrite G2. cbn. repeat split; eauto using live_within.
        destruct (l_oracle_calls (s_lims s)) as [[|n]|]; [destruct L4|apply L4|apply L4].
      + intros Hk. split; [split; discriminate|tauto].
  Qed.

  (** Logging and storing a point: the parts of the state relevant afterwards.  The limits
      on solutions and so on may be used up already. *)
  Lemma book_push nd s (Q : unit + exit -> st -> Prop) (X : exit -> st -> Prop) :
    l_live (l_pps l) (n_non_dominated (s_stats b)) (l_pps (s_lims s)) (n_non_dominated (s_stats s)) ->
    (forall r s', s_front s' = s_front s ++ [nd] -> s_opts s' = s_opts s ->
       s_stats s' = set_n_non_dominated (Datatypes.S (n_non_dominated (s_stats s))) (s_stats s) ->
       l_sols (s_lims s') = l_sols (s_lims s) -> l_candidates (s_lims s') = l_candidates (s_lims s) ->
       l_oracle_calls (s_lims s') = l_oracle_calls (s_lims s) ->
       l_within (l_pps l) (n_non_dominated (s_stats b)) (n_non_dominated (s_stats s')) ->
       match r with
       | inl _ => l_live (l_pps l) (n_non_dominated (s_stats b)) (l_pps (s_lims s')) (n_non_dominated (s_stats s'))
       | inr x => x = EErr ErrLogger \/
           x = ETerm PPLimit /\ l_reached (l_pps l) (n_non_dominated (s_stats b)) (n_non_dominated (s_stats s'))
       end -> Q r s') ->
    wp (nt <- catch (log_non_dominated E nd) ;; front_push nd ;;; ret nt) Q X s.
  Proof.
    intros L HQ. apply l_tick in L. apply wp_bind, wp_catch. unfold log_non_dominated.
    apply wp_bind, wp_modify, wp_bind, wp_emit_book.
    - intros s' (G1 & G2 & G3 & G4). cbn in G1, G2, G3, G4. unfold wp at 1, tick. rewrite G4.
      destruct (l_pps (s_lims s)) as [[|n]|] eqn:e; [destruct L| |].
      + destruct L as [W L]. destruct (n =? 0); apply wp_bind, wp_modify, wp_ret, HQ; cbn; rewrite ?G1, ?G2, ?G4; auto.
      + apply wp_bind, wp_modify, wp_ret, HQ; cbn; rewrite ?G1, ?G2, ?G3, ?G4, ?e; cbn; auto; apply L.
    - intros s' (G1 & G2 & G3 & G4). cbn in G1, G2, G3, G4.
      apply wp_bind, wp_modify, wp_ret, HQ; cbn; rewrite ?G1, ?G2, ?G4; auto.
      destruct (l_pps (s_lims s)) as [[|n]|]; [destruct L|apply L|apply L].
  Qed.

  Lemma grown_push k nd s s' : grown (k + nd_n_sols nd) s -> s_front s' = s_front s ++ [nd] ->
    s_opts s' = s_opts s -> s_stats s' = set_n_non_dominated (Datatypes.S (n_non_dominated (s_stats s))) (s_stats s) ->
    (o_enum (s_opts b) = NoEnum -> nd_n_sols nd = 1) -> grown k s'.
  Proof.
    intros [H1 H2 (news & F1 & F2 & F3 & F4)] G1 G2 G3 G4. constructor.
    - congruence.
    - now rewrite G3.
    - exists (news ++ [nd]). rewrite G1, G3, F1, app_assoc. split; [reflexivity|].
      rewrite app_length. cbn. split; [lia|]. split.
      + unfold sols_total in *. rewrite map_app, list_sum_app. cbn. lia.
      + intros Hn. apply Forall_app. split; [auto|]. constructor; auto.
  Qed.

  Lemma book_finish nd s : grown (nd_n_sols nd) s -> live s ->
    (o_enum (s_opts b) = NoEnum -> nd_n_sols nd = 1) ->
    wp (yield_finish E nd) (fun _ => bookP None) bookX s.
  Proof.
    intros H1 H2 H3. unfold yield_finish.
    assert (HA : wp (nt <- catch (log_non_dominated E nd) ;; front_push nd ;;; ret nt)
       (fun r s' => wp (log_end E ;;; rethrow r) (fun _ => bookP None) bookX s') bookX s).
    { destruct H2 as (L1 & L2 & L3 & L4). apply book_push; [exact L1|]. intros r s' F1 F2 F3 F4 F5 F6 F7 F8.
      assert (Hg : grown 0 s') by (eapply (grown_push 0); eauto).
      assert (Hw : within s').
      { unfold within. rewrite F3 at 2 3 4. cbn. repeat split; eauto using live_within. }
      apply wp_bind, wp_emit_book.
      - intros s2 U. assert (Hg2 := grown_unseen _ _ _ U Hg). destruct U as (_ & U1 & _ & U2).
        assert (Hw2 : within s2) by (unfold within; rewrite U1; exact Hw).
        destruct r as [[]|x]; cbn [rethrow].
        + apply wp_ret. split; [exact Hg2|]. split; [|reflexivity]. unfold live. rewrite U1, U2, F4, F5, F6.
          split; [exact F8|]. rewrite F3. cbn. auto.
        + apply wp_throw. split; [exact Hw2|]. split.
          * destruct F8 as [->|[-> R]]; [exact Logic.I|]. cbn. rewrite U1. exact R.
          * exists 0. split; [exact Hg2|]. intros []; reflexivity.
      - intros s2 U. assert (Hg2 := grown_unseen _ _ _ U Hg). destruct U as (_ & U1 & _ & U2).
        split; [unfold within; rewrite U1; exact Hw|]. split; [exact Logic.I|].
        exists 0. split; [exact Hg2|]. intros []; reflexivity. }
    unfold wp, bind in HA |- *. destruct (catch (log_non_dominated E nd) s) as [[r|x] s']; exact HA.
  Qed.

  Lemma book_solution cs sol nd s : bookP (Some (cs, nd)) s ->
    let nd' := nd_add_sol nd sol in
    wp (catch (log_solution E))
        (fun t s' => match t with
           | inl _ =>
               if enum_done (o_enum (s_opts s')) (nd_n_sols nd')
               then wp (yield_finish E nd') (fun _ => bookP None) bookX s'
               else bookP (Some (cs, nd')) s'
           | inr x => wp (nt <- catch (log_non_dominated E nd') ;;
                          front_push nd' ;;; rethrow nt ;;; throw x) (fun _ : unit => bookP None) bookX s'
           end) bookX s.
  Proof.
    intros (H1 & H2 & H3) nd'. cbn [npend] in H1, H3. apply wp_catch. unfold log_solution.
    apply wp_bind, wp_modify, wp_bind.
    assert (Hn : nd_n_sols nd' = Datatypes.S (nd_n_sols nd)).
    { unfold nd', nd_n_sols, nd_add_sol. cbn. rewrite app_length. cbn. lia. }
    clearbody nd'.
    assert (Hone : o_enum (s_opts b) = NoEnum -> nd_n_sols nd' = 1).
    { intros He. rewrite Hn, (H3 He). reflexivity. }
    pose proof H2 as (L1 & L2 & L3 & L4).
    apply l_tick in L2.
    assert (Hg : forall s' s'' : st, s_stats s' = set_n_solutions (Datatypes.S (n_solutions (s_stats s))) (s_stats s) ->
              s_front s' = s_front s -> s_opts s' = s_opts s ->
              s_stats s'' = s_stats s' -> s_front s'' = s_front s' -> s_opts s'' = s_opts s' -> grown (nd_n_sols nd') s'').
    { intros s' s'' G1 G2 G3 G4 G5 G6. destruct H1 as [Q1 Q2 (news & F1 & F2 & F3 & F4)].
      constructor; rewrite ?G4, ?G5, ?G6, ?G1, ?G2, ?G3; cbn; auto.
      exists news. rewrite Hn. repeat split; auto. lia. }
    (* the point is stored although the solution could not be logged *)
    assert (Hbad : forall x (s' : st), s_stats s' = set_n_solutions (Datatypes.S (n_solutions (s_stats s))) (s_stats s) ->
       s_front s' = s_front s -> s_opts s' = s_opts s -> l_pps (s_lims s') = l_pps (s_lims s) ->
       l_within (l_sols l) (n_solutions (s_stats b)) (Datatypes.S (n_solutions (s_stats s))) ->
       (x = EErr ErrLogger \/ x = ETerm SolsLimit /\ l_reached (l_sols l) (n_solutions (s_stats b)) (Datatypes.S (n_solutions (s_stats s)))) ->
       wp (nt <- catch (log_non_dominated E nd') ;; front_push nd' ;;; rethrow nt ;;; throw x) (fun _ : unit => bookP None) bookX s').
    { intros x s' G1 G2 G3 G4 G5 Hx.
      assert (HA : wp (nt <- catch (log_non_dominated E nd') ;; front_push nd' ;;; ret nt)
         (fun r s' => wp (rethrow r ;;; throw x) (fun _ : unit => bookP None) bookX s') bookX s').
      { apply book_push; [rewrite G4, G1; exact L1|]. intros r s2 F1 F2 F3 F4 F5 F6 F7 F8.
        assert (Hg2 : grown 0 s2).
        { eapply (grown_push 0 nd' s'); eauto; eapply (Hg s'); eauto. }
        assert (Hw : within s2).
        { unfold within. rewrite F3 at 2 3 4. rewrite G1. cbn. repeat split; eauto using live_within. }
        destruct r as [[]|y]; cbn [rethrow]; apply wp_bind; [apply wp_ret|]; apply wp_throw.
        - split; [exact Hw|]. split; [|exists 0; split; [exact Hg2|intros []; reflexivity]].
          destruct Hx as [->|[-> R]]; [exact Logic.I|]. cbn. rewrite F3, G1. exact R.
        - split; [exact Hw|]. split; [|exists 0; split; [exact Hg2|intros []; reflexivity]].
          destruct F8 as [->|[-> R]]; [exact Logic.I|exact R]. }
      unfold wp, bind in HA |- *. destruct (catch (log_non_dominated E nd') s') as [[r|y] s2]; exact HA. }
    assert (Hgood : forall s' : st, s_stats s' = set_n_solutions (Datatypes.S (n_solutions (s_stats s))) (s_stats s) ->
       s_front s' = s_front s -> s_opts s' = s_opts s -> live s' ->
       if enum_done (o_enum (s_opts s')) (nd_n_sols nd')
       then wp (yield_finish E nd') (fun _ => bookP None) bookX s'
       else bookP (Some (cs, nd')) s').
    { intros s' G1 G2 G3 G4. destruct (enum_done _ _) eqn:e.
      - apply book_finish; auto. eapply (Hg s'); eauto.
      - split; [eapply (Hg s'); eauto|]. split; [exact G4|]. intros Hne. exfalso.
        rewrite G3, (gr_opts _ _ H1), Hne in e. discriminate e. }
    apply wp_emit_book.
    - intros s' (G1 & G2 & G3 & G4). cbn in G1, G2, G3, G4. unfold wp, tick. rewrite G4.
      destruct (l_sols (s_lims s)) as [[|n]|] eqn:e; [destruct L2| |].
      + destruct L2 as [W L2]. destruct (n =? 0).
        * cbn. apply Hbad; cbn; auto; now rewrite G4.
        * apply Hgood; cbn; auto. unfold live. cbn. rewrite G2. cbn. cbn. auto.
      + apply Hgood; cbn; auto. unfold live. rewrite G2, G4. cbn. rewrite e. repeat split; auto. apply L2.
    - intros s' (G1 & G2 & G3 & G4). cbn in G1, G2, G3, G4.
      apply Hbad; cbn; auto; rewrite ?G4; auto.
      destruct (l_sols (s_lims s)) as [[|n]|]; [destruct L2|apply L2|apply L2].
  Qed.

  Lemma book_struct : struct_ok (I := I) E bookP (fun _ => True) bookX.
  Proof.
    constructor.
    - intros. eapply (oe_next_mono SP); eauto.
    - intros pi s ev H. apply wp_emit_book; intros s' U; assert (H' := book_unseen _ _ _ U H); [exact H'|].
      eapply book_exit; [exact H'|exact Logic.I].
    - intros pi s H. unfold wp, check_termination.
      assert (H' : bookP pi (set_flags (Datatypes.S (s_flags s)) s)) by (eapply book_unseen; [|exact H]; repeat split).
      destruct (ev_flag E _); [|exact H']. eapply book_exit; [exact H'|exact Logic.I].
    - apply book_candidate.
    - apply book_ocall.
    - intros pi s p' H _. eapply book_unseen; [|exact H]; repeat split.
    - intros pi s H. eapply book_unseen; [|exact H]; repeat split.
    - intros pi s f H. eapply book_unseen; [|exact H]; repeat split.
    - intros pi s bb a H. unfold wp, oracle_solve.
      assert (H' : forall o, bookP pi (set_ora o (set_calls (Datatypes.S (s_calls s)) s)))
        by (intros o; eapply book_unseen; [|exact H]; repeat split).
      destruct (ev_oracle E _); try apply H'. eapply book_exit; [apply H'|exact Logic.I].
    - intros pi s H. unfold oracle_solution. apply wp_bind, wp_gets, wp_bind. unfold wp at 1, unwrap.
      destruct (vm_max_var _); [|eapply book_exit; [exact H|exact Logic.I]]. cbn [ret]. apply wp_bind, wp_gets.
      destruct (s_ora s); [eapply book_exit; [exact H|exact Logic.I]| |eapply book_exit; [exact H|exact Logic.I]].
      apply wp_ret. auto.
    - intros pi s x H Hx. eapply book_exit; [exact H|]. destruct x as [[]| | |]; cbn in *; tauto.
    - intros s cs ext (H1 & H2 & H3) _ _. split; [exact H1|]. split; [exact H2|]. auto.
    - intros cs sol nd s _ H _ nd'. unfold nd'. now apply book_solution.
    - intros cs nd s Hne (H1 & H2 & H3). apply book_finish; auto. intros He. exfalso.
      apply Hne. specialize (H3 He). cbn in H3. unfold nd_n_sols in H3. now destruct (nd_sols nd).
  Qed.
End Book.

(** One call of [solve] *)
Lemma book_solve {I} (SP : enc_spec I) E al lm (s : st I) : lims_pos lm ->
  let b := snd (start_solving lm s) in
  wp (alg_solve al E lm) (fun _ s' => below b s' /\ grown b 0 s') (fun x s' => bookX b x s') s.
Proof.
  intros (P1 & P2 & P3 & P4) b. rewrite alg_solve_eq. apply wp_bind, wp_modify.
  change (set_lims lm _) with b.
  eapply wp_mono; [apply (k_alg_main E (bookP b) (fun _ => True) (bookX b) (book_struct SP E b) al)| |].
  - split; [|split; [|reflexivity]].
    + constructor; auto. exists []. rewrite app_nil_r. cbn. repeat split; try lia. constructor.
    + unfold live, b. cbn.
      assert (G : forall r c, r <> Some 0 -> l_live r c r c).
      { intros [[|k]|] c Hr; cbn; [congruence|lia|exact Logic.I]. }
      repeat split; now apply G.
  - intros [] s' (H1 & H2 & _). split; [eapply live_b; eauto|exact H1].
  - auto.
Qed.
