(** * A weakest-precondition calculus for the model's monad *)
From Coq Require Import List Bool Arith Lia ZArith.
From Verif Require Import Base BaseLemmas MTypes MKernel EncSpec.
Import ListNotations.

Section Wp.
  Context {I : enc_impl}.
  Notation M := (M I).
  Notation st := (st I).

  (** [wp c Q X s]: running [c] from [s] either ends with a value and state satisfying [Q]
      or with an exit and state satisfying [X]. *)
  Definition wp {A} (c : M A) (Q : A -> st -> Prop) (X : exit -> st -> Prop) (s : st) : Prop :=
    match c s with
    | (Done a, s') => Q a s'
    | (Exit x, s') => X x s'
    end.

  Lemma wp_mono {A} (c : M A) (Q Q' : A -> st -> Prop) (X X' : exit -> st -> Prop) s :
    wp c Q X s -> (forall a s', Q a s' -> Q' a s') -> (forall x s', X x s' -> X' x s') ->
    wp c Q' X' s.
  Proof. unfold wp. destruct (c s) as [[a|x] s']; auto. Qed.

  Lemma wp_ret {A} (a : A) (Q : A -> st -> Prop) (X : exit -> st -> Prop) s : Q a s -> wp (ret a) Q X s.
  Proof. auto. Qed.
  Lemma wp_throw {A} x (Q : A -> st -> Prop) (X : exit -> st -> Prop) s : X x s -> wp (throw x) Q X s.
  Proof. auto. Qed.
  Lemma wp_bind {A B} (c : M A) (k : A -> M B) (Q : B -> st -> Prop) (X : exit -> st -> Prop) s :
    wp c (fun a s' => wp (k a) Q X s') X s -> wp (bind c k) Q X s.
  Proof. unfold wp, bind. destruct (c s) as [[a|x] s']; auto. Qed.
  Lemma wp_bind_inv {A B} (c : M A) (k : A -> M B) (Q : B -> st -> Prop) (X : exit -> st -> Prop) s :
    wp (bind c k) Q X s -> wp c (fun a s' => wp (k a) Q X s') X s.
  Proof. unfold wp, bind. destruct (c s) as [[a|x] s']; auto. Qed.
  Lemma wp_gets {A} (f : st -> A) (Q : A -> st -> Prop) (X : exit -> st -> Prop) s : Q (f s) s -> wp (gets f) Q X s.
  Proof. auto. Qed.
  Lemma wp_modify f (Q : unit -> st -> Prop) (X : exit -> st -> Prop) s : Q tt (f s) -> wp (modify f) Q X s.
  Proof. auto. Qed.
  Lemma wp_guard b (Q : unit -> st -> Prop) (X : exit -> st -> Prop) s : b = true -> Q tt s -> wp (guard b) Q X s.
  Proof. intros ->. auto. Qed.
  Lemma wp_unwrap {A} (o : option A) a (Q : A -> st -> Prop) (X : exit -> st -> Prop) s : o = Some a -> Q a s -> wp (unwrap o) Q X s.
  Proof. intros ->. auto. Qed.
  Lemma wp_or_err {A} e (o : option A) a (Q : A -> st -> Prop) (X : exit -> st -> Prop) s : o = Some a -> Q a s -> wp (or_err e o) Q X s.
  Proof. intros ->. auto. Qed.
  Lemma wp_catch {A} (c : M A) (Q : A + exit -> st -> Prop) (X : exit -> st -> Prop) s :
    wp c (fun a s' => Q (inl a) s')
         (fun x s' => match x with ETerm _ | EErr _ => Q (inr x) s' | _ => X x s' end) s ->
    wp (catch c) Q X s.
  Proof. unfold wp, catch. destruct (c s) as [[a|[]] s']; auto. Qed.

  (** Loops: an invariant and a measure that decreases with every iteration.  If the
      measure can exceed the fuel, the exit [ENoFuel] has to be acceptable. *)
  Lemma wp_loop {S A} (Inv : S -> st -> Prop) (mu : S -> st -> nat)
      (body : S -> M (S + A)) (Q : A -> st -> Prop) (X : exit -> st -> Prop) :
    (forall x s, Inv x s ->
      wp (body x)
         (fun r s' => match r with
                      | inl x' => Inv x' s' /\ mu x' s' < mu x s
                      | inr a => Q a s'
                      end) X s) ->
    forall n x s, Inv x s ->
    (forall x' s', Inv x' s' -> n <= mu x s -> X ENoFuel s') ->
    wp (loop n body x) Q X s.
  Proof.
    intros Hb n. induction n as [|n IH]; intros x s Hi Hf; cbn [loop].
    - apply wp_throw. eapply Hf; [exact Hi|lia].
    - apply wp_bind. eapply wp_mono; [apply Hb, Hi| |auto].
      intros [x'|a] s'; cbn beta iota.
      + intros [Hi' Hmu]. apply IH; [exact Hi'|]. intros x'' s'' Hi'' Hle.
        eapply Hf; [exact Hi''|lia].
      + intros HQ. now apply wp_ret.
  Qed.

  (** The same with the measure as an index of the invariant. *)
  Lemma wp_loop_idx {S A} (Inv : nat -> S -> st -> Prop)
      (body : S -> M (S + A)) (Q : A -> st -> Prop) (X : exit -> st -> Prop) :
    (forall k x s, Inv k x s ->
      wp (body x)
         (fun r s' => match r with
                      | inl x' => exists k', k' < k /\ Inv k' x' s'
                      | inr a => Q a s'
                      end) X s) ->
    forall n k x s, Inv k x s ->
    (forall k' x' s', Inv k' x' s' -> n <= k -> X ENoFuel s') ->
    wp (loop n body x) Q X s.
  Proof.
    intros Hb n. induction n as [|n IH]; intros k x s Hi Hf; cbn [loop].
    - apply wp_throw. eapply Hf; [exact Hi|lia].
    - apply wp_bind. eapply wp_mono; [apply (Hb k), Hi| |auto].
      intros [x'|a] s'; cbn beta iota.
      + intros (k' & Hlt & Hi'). apply (IH k'); [exact Hi'|]. intros k'' x'' s'' Hi'' Hle.
        eapply Hf; [exact Hi''|lia].
      + intros HQ. now apply wp_ret.
  Qed.

  (** [for] loops with an invariant on the processed prefix *)
  Lemma wp_forM {A} (f : A -> M unit) (P : list A -> st -> Prop) (Q : unit -> st -> Prop) (X : exit -> st -> Prop) l s :
    (forall pre a post s, l = pre ++ a :: post -> P pre s ->
       wp (f a) (fun _ s' => P (pre ++ [a]) s') X s) ->
    P [] s -> (forall s', P l s' -> Q tt s') -> wp (forM f l) Q X s.
  Proof.
    intros Hstep H0 HQ.
    assert (H : forall post pre s, l = pre ++ post -> P pre s ->
       wp (forM f post) (fun _ s' => P l s') X s).
    { intros post. induction post as [|a post IH]; intros pre s' Hl HP; cbn [forM].
      - apply wp_ret. rewrite app_nil_r in Hl. now subst.
      - apply wp_bind. eapply wp_mono; [eapply Hstep; eauto| |auto].
        intros [] s'' HP'. apply (IH (pre ++ [a])); [|exact HP'].
        now rewrite <- app_assoc. }
    eapply wp_mono; [apply (H l [] s); auto| |auto]. intros [] s' HP. auto.
  Qed.

  Lemma wp_mapM {A B} (f : A -> M B) (P : list A -> list B -> st -> Prop) (Q : list B -> st -> Prop) (X : exit -> st -> Prop) l s :
    (forall pre a post bs s, l = pre ++ a :: post -> P pre bs s ->
       wp (f a) (fun b s' => P (pre ++ [a]) (bs ++ [b]) s') X s) ->
    P [] [] s -> (forall bs s', P l bs s' -> Q bs s') -> wp (mapM f l) Q X s.
  Proof.
    intros Hstep H0 HQ.
    assert (H : forall post pre bs s, l = pre ++ post -> P pre bs s ->
       wp (mapM f post) (fun cs s' => P l (bs ++ cs) s') X s).
    { intros post. induction post as [|a post IH]; intros pre bs s' Hl HP; cbn [mapM].
      - apply wp_ret. rewrite app_nil_r in Hl. subst. now rewrite app_nil_r.
      - apply wp_bind. eapply wp_mono; [eapply Hstep; eauto| |auto].
        intros b s'' HP'. apply wp_bind.
        eapply wp_mono; [apply (IH (pre ++ [a]) (bs ++ [b])); [|exact HP']| |auto].
        + now rewrite <- app_assoc.
        + intros cs s3 HP3. apply wp_ret. cbn beta in HP3. rewrite <- app_assoc in HP3. exact HP3. }
    eapply wp_mono; [apply (H l [] [] s); auto| |auto]. intros bs s' HP. auto.
  Qed.

  (** ** Frames *)

  (** Parts of the state most operations leave alone *)
  Record fr (s s' : st) : Prop := mkFr {
    fr_front : s_front s' = s_front s;
    fr_fence : s_fence s' = s_fence s;
    fr_cnf : s_cnf s' = s_cnf s;
    fr_opts : s_opts s' = s_opts s;
    fr_nobjs : n_objs (s_stats s') = n_objs (s_stats s);
    fr_solves : n_solve_calls (s_stats s') = n_solve_calls (s_stats s) }.
  Lemma fr_refl s : fr s s.
  Proof. now constructor. Qed.
  Lemma fr_trans a b c : fr a b -> fr b c -> fr a c.
  Proof. intros [] []. constructor; congruence. Qed.

  (** ... including the problem and the oracle state *)
  Record quiet (s s' : st) : Prop := mkQuiet {
    qt_fr : fr s s';
    qt_prob : s_prob s' = s_prob s;
    qt_ora : s_ora s' = s_ora s }.
  Lemma quiet_refl s : quiet s s.
  Proof. constructor; auto using fr_refl. Qed.
  Lemma quiet_trans a b c : quiet a b -> quiet b c -> quiet a c.
  Proof. intros [] []. constructor; [eapply fr_trans; eauto|congruence|congruence]. Qed.

  (** No limit has been used up. *)
  Definition lims_ok (s : st) : Prop :=
    l_pps (s_lims s) <> Some 0 /\ l_sols (s_lims s) <> Some 0 /\
    l_candidates (s_lims s) <> Some 0 /\ l_oracle_calls (s_lims s) <> Some 0.

  Variable E : environ.

  (** Exits that are not failures of the solver itself. *)
  Definition good_exit (x : exit) : Prop :=
    match x with
    | ETerm _ => True
    | EErr ErrLogger | EErr ErrOracle => True
    | _ => False
    end.

  Lemma wp_emit ev (Q : unit -> st -> Prop) (X : exit -> st -> Prop) s :
    (forall s', quiet s s' -> s_lims s' = s_lims s -> Q tt s') ->
    (forall s', quiet s s' -> X (EErr ErrLogger) s') ->
    wp (emit E ev) Q X s.
  Proof.
    intros HQ HX. unfold wp, emit. destruct (s_logger s).
    - destruct (ev_logfail E (length (s_trace s))).
      + apply HX. now repeat constructor.
      + apply HQ; [|reflexivity]. now repeat constructor.
    - apply HQ; [apply quiet_refl|reflexivity].
  Qed.

  Lemma wp_log_start r (Q : unit -> st -> Prop) (X : exit -> st -> Prop) s :
    lims_ok s ->
    (forall s', quiet s s' -> lims_ok s' -> Q tt s') ->
    (forall x s', quiet s s' -> good_exit x -> X x s') ->
    wp (log_start E r) Q X s.
  Proof.
    intros HL HQ HX. apply wp_emit; [|intros; now apply HX].
    intros s' Hq Hl. apply HQ; [assumption|]. unfold lims_ok. now rewrite Hl.
  Qed.
  Lemma wp_log_end (Q : unit -> st -> Prop) (X : exit -> st -> Prop) s :
    lims_ok s ->
    (forall s', quiet s s' -> lims_ok s' -> Q tt s') ->
    (forall x s', quiet s s' -> good_exit x -> X x s') ->
    wp (log_end E) Q X s.
  Proof.
    intros HL HQ HX. apply wp_emit; [|intros; now apply HX].
    intros s' Hq Hl. apply HQ; [assumption|]. unfold lims_ok. now rewrite Hl.
  Qed.
  (** without limits *)
  Lemma wp_log_end' (Q : unit -> st -> Prop) (X : exit -> st -> Prop) s :
    (forall s', quiet s s' -> (lims_ok s -> lims_ok s') -> Q tt s') ->
    (forall x s', quiet s s' -> good_exit x -> X x s') ->
    wp (log_end E) Q X s.
  Proof.
    intros HQ HX. apply wp_emit; [|intros; now apply HX].
    intros s' Hq Hl. apply HQ; [assumption|]. unfold lims_ok. now rewrite Hl.
  Qed.

  Lemma wp_check_termination (Q : unit -> st -> Prop) (X : exit -> st -> Prop) s :
    lims_ok s ->
    (forall s', quiet s s' -> lims_ok s' -> Q tt s') ->
    (forall x s', quiet s s' -> good_exit x -> X x s') ->
    wp (check_termination E) Q X s.
  Proof.
    intros HL HQ HX. unfold wp, check_termination. destruct (ev_flag E (s_flags s)).
    - apply HX; [now repeat constructor|exact Logic.I].
    - apply HQ; [now repeat constructor|exact HL].
  Qed.

  Lemma wp_log_candidate cs ph (Q : unit -> st -> Prop) (X : exit -> st -> Prop) s :
    lims_ok s -> length cs = n_objs (s_stats s) ->
    (forall s', quiet s s' -> lims_ok s' -> Q tt s') ->
    (forall x s', quiet s s' -> good_exit x -> X x s') ->
    wp (log_candidate E cs ph) Q X s.
  Proof.
    intros HL Hn HQ HX. unfold log_candidate.
    apply wp_bind, wp_gets, wp_bind, wp_guard. { now apply Nat.eqb_eq. }
    apply wp_bind, wp_modify, wp_bind, wp_emit.
    - intros s' Hq Hl. unfold wp, tick.
      assert (Hq' : quiet s s') by (destruct Hq as [[] ? ?]; now repeat constructor).
      destruct HL as (L1 & L2 & L3 & L4). rewrite Hl. cbn.
      destruct (l_candidates (s_lims s)) as [[|n]|] eqn:e.
      + congruence.
      + destruct (n =? 0) eqn:e0; [apply HX|apply HQ].
        * destruct Hq' as [[] ? ?]; now repeat constructor.
        * exact Logic.I.
        * destruct Hq' as [[] ? ?]; now repeat constructor.
        * unfold lims_ok. cbn. rewrite ?Hl. cbn. apply Nat.eqb_neq in e0.
          repeat split; auto. congruence.
      + apply HQ; [assumption|]. unfold lims_ok. rewrite Hl. cbn. repeat split; auto. congruence.
    - intros s' Hq. apply HX; [|exact Logic.I]. destruct Hq as [[] ? ?]; now repeat constructor.
  Qed.

  Lemma wp_log_oracle_call r (Q : unit -> st -> Prop) (X : exit -> st -> Prop) s :
    lims_ok s ->
    (forall s', quiet s s' -> lims_ok s' -> Q tt s') ->
    (forall x s', quiet s s' -> good_exit x -> X x s') ->
    wp (log_oracle_call E r) Q X s.
  Proof.
    intros HL HQ HX. unfold log_oracle_call.
    apply wp_bind, wp_modify, wp_bind, wp_emit.
    - intros s' Hq Hl. unfold wp, tick.
      assert (Hq' : quiet s s') by (destruct Hq as [[] ? ?]; now repeat constructor).
      destruct HL as (L1 & L2 & L3 & L4). rewrite Hl. cbn.
      destruct (l_oracle_calls (s_lims s)) as [[|n]|] eqn:e.
      + congruence.
      + destruct (n =? 0) eqn:e0; [apply HX|apply HQ].
        * destruct Hq' as [[] ? ?]; now repeat constructor.
        * exact Logic.I.
        * destruct Hq' as [[] ? ?]; now repeat constructor.
        * unfold lims_ok. cbn. rewrite ?Hl. cbn. apply Nat.eqb_neq in e0.
          repeat split; auto. congruence.
      + apply HQ; [assumption|]. unfold lims_ok. rewrite Hl. cbn. repeat split; auto. congruence.
    - intros s' Hq. apply HX; [|exact Logic.I]. destruct Hq as [[] ? ?]; now repeat constructor.
  Qed.

  (** After a failed [log_solution] the limit on points is still intact. *)
  Lemma wp_log_solution (Q : unit -> st -> Prop) (X : exit -> st -> Prop) s :
    lims_ok s ->
    (forall s', quiet s s' -> lims_ok s' -> Q tt s') ->
    (forall x s', quiet s s' -> l_pps (s_lims s') <> Some 0 -> good_exit x -> X x s') ->
    wp (log_solution E) Q X s.
  Proof.
    intros HL HQ HX. unfold log_solution.
    apply wp_bind, wp_modify, wp_bind. unfold wp at 1, emit. cbn.
    destruct HL as (L1 & L2 & L3 & L4).
    assert (HT : forall s', quiet s s' -> s_lims s' = s_lims s ->
              wp (tick l_sols set_l_sols SolsLimit) Q X s').
    { intros s' Hq Hl. unfold wp, tick. rewrite Hl.
      destruct (l_sols (s_lims s)) as [[|n]|] eqn:e.
      + congruence.
      + destruct (n =? 0) eqn:e0; [apply HX|apply HQ].
        * destruct Hq as [[] ? ?]; now repeat constructor.
        * exact L1.
        * exact Logic.I.
        * destruct Hq as [[] ? ?]; now repeat constructor.
        * unfold lims_ok. cbn. rewrite ?Hl. cbn. apply Nat.eqb_neq in e0.
          repeat split; auto. congruence.
      + apply HQ; [assumption|]. unfold lims_ok. rewrite Hl. cbn. repeat split; auto. congruence. }
    destruct (s_logger s).
    - destruct (ev_logfail E (length (s_trace s))).
      + apply HX; [now repeat constructor|exact L1|exact Logic.I].
      + apply HT; [now repeat constructor|reflexivity].
    - apply HT; [now repeat constructor|reflexivity].
  Qed.

  Lemma wp_log_non_dominated p (Q : unit -> st -> Prop) (X : exit -> st -> Prop) s :
    l_pps (s_lims s) <> Some 0 ->
    (forall s', quiet s s' -> (lims_ok s -> lims_ok s') -> Q tt s') ->
    (forall x s', quiet s s' -> good_exit x -> X x s') ->
    wp (log_non_dominated E p) Q X s.
  Proof.
    intros HL HQ HX. unfold log_non_dominated.
    apply wp_bind, wp_modify, wp_bind, wp_emit.
    - intros s' Hq Hl. unfold wp, tick.
      assert (Hq' : quiet s s') by (destruct Hq as [[] ? ?]; now repeat constructor).
      rewrite Hl. cbn.
      destruct (l_pps (s_lims s)) as [[|n]|] eqn:e.
      + congruence.
      + destruct (n =? 0) eqn:e0; [apply HX|apply HQ].
        * destruct Hq' as [[] ? ?]; now repeat constructor.
        * exact Logic.I.
        * destruct Hq' as [[] ? ?]; now repeat constructor.
        * intros (L1 & L2 & L3 & L4).
          unfold lims_ok. cbn. rewrite ?Hl. cbn. apply Nat.eqb_neq in e0.
          repeat split; auto. congruence.
      + apply HQ; [assumption|]. intros (L1 & L2 & L3 & L4).
        unfold lims_ok. rewrite Hl. cbn. repeat split; auto. 
    - intros s' Hq. apply HX; [|exact Logic.I]. destruct Hq as [[] ? ?]; now repeat constructor.
  Qed.

  (** An unlimited oracle call: never [Interrupted] *)
  Hypothesis HO : oracle_ok E.

  Record solved (s s' : st) : Prop := mkSolved {
    sv_fr : fr s s';
    sv_prob : s_prob s' = s_prob s }.
  Lemma quiet_solved s s' : quiet s s' -> solved s s'.
  Proof. intros []. now constructor. Qed.
  Lemma solved_refl s : solved s s.
  Proof. apply quiet_solved, quiet_refl. Qed.
  Lemma solved_trans a b c : solved a b -> solved b c -> solved a c.
  Proof. intros [] []. constructor; [eapply fr_trans; eauto|congruence]. Qed.

  Lemma wp_k_solve_assumps assumps (Q : sres -> st -> Prop) (X : exit -> st -> Prop) s :
    lims_ok s ->
    (forall m s', solved s s' -> lims_ok s' -> s_ora s' = OModel m ->
       sat m (p_cls (s_prob s)) -> lits_true m assumps -> Q RSat s') ->
    (forall core s', solved s s' -> lims_ok s' -> s_ora s' = OCore core ->
       (forall l, In l core -> In (lnot l) assumps) ->
       (forall m, sat m (p_cls (s_prob s)) -> clause_true m core = true) -> Q RUnsat s') ->
    (forall x s', solved s s' -> good_exit x -> X x s') ->
    wp (k_solve_assumps E assumps) Q X s.
  Proof.
    intros HL Hsat Hunsat HX. unfold k_solve_assumps.
    apply wp_bind, wp_log_start; [exact HL| |intros; apply HX; auto using quiet_solved].
    intros s1 Hq1 HL1. apply wp_bind. unfold wp at 1, oracle_solve.
    set (q := mkQuery _ _ _ _ _). pose proof (HO q) as Hok.
    assert (Hp1 : s_prob s1 = s_prob s) by apply Hq1.
    destruct (ev_oracle E q) as [m|core| |].
    - cbn in Hok. rewrite Hp1 in Hok. destruct Hok as [Hok1 Hok2].
      set (s2 := set_ora _ _).
      assert (Hs2 : solved s s2) by (destruct Hq1 as [[] ? ?]; repeat constructor; auto).
      apply wp_bind, wp_log_end; [exact HL1| |].
      2:{ intros; apply HX; auto. eapply solved_trans; eauto using quiet_solved. }
      intros s3 Hq3 HL3. apply wp_bind, wp_check_termination; [exact HL3| |].
      2:{ intros; apply HX; auto. eapply solved_trans; [exact Hs2|].
          eapply solved_trans; eauto using quiet_solved. }
      intros s4 Hq4 HL4. apply wp_bind, wp_log_oracle_call; [exact HL4| |].
      2:{ intros; apply HX; auto. eapply solved_trans; [exact Hs2|].
          eapply solved_trans; [|eapply solved_trans]; eauto using quiet_solved. }
      intros s5 Hq5 HL5. apply wp_ret. eapply Hsat; eauto.
      + eapply solved_trans; [exact Hs2|].
        eapply solved_trans; [|eapply solved_trans]; eauto using quiet_solved.
      + rewrite (qt_ora _ _ Hq5), (qt_ora _ _ Hq4), (qt_ora _ _ Hq3). reflexivity.
    - cbn in Hok. rewrite Hp1 in Hok. destruct Hok as [Hok1 Hok2].
      set (s2 := set_ora _ _).
      assert (Hs2 : solved s s2) by (destruct Hq1 as [[] ? ?]; repeat constructor; auto).
      apply wp_bind, wp_log_end; [exact HL1| |].
      2:{ intros; apply HX; auto. eapply solved_trans; eauto using quiet_solved. }
      intros s3 Hq3 HL3. apply wp_bind, wp_check_termination; [exact HL3| |].
      2:{ intros; apply HX; auto. eapply solved_trans; [exact Hs2|].
          eapply solved_trans; eauto using quiet_solved. }
      intros s4 Hq4 HL4. apply wp_bind, wp_log_oracle_call; [exact HL4| |].
      2:{ intros; apply HX; auto. eapply solved_trans; [exact Hs2|].
          eapply solved_trans; [|eapply solved_trans]; eauto using quiet_solved. }
      intros s5 Hq5 HL5. apply wp_ret. eapply Hunsat; eauto.
      + eapply solved_trans; [exact Hs2|].
        eapply solved_trans; [|eapply solved_trans]; eauto using quiet_solved.
      + rewrite (qt_ora _ _ Hq5), (qt_ora _ _ Hq4), (qt_ora _ _ Hq3). reflexivity.
    - cbn in Hok. destruct Hok as [Hok|Hok]; [discriminate|].
      set (s2 := set_ora _ _).
      assert (Hs2 : solved s s2) by (destruct Hq1 as [[] ? ?]; repeat constructor; auto).
      assert (Hfl : s_flags s2 = s_flags s1) by reflexivity.
      apply wp_bind. unfold log_end, emit, wp. cbn. 
      assert (HX2 : forall s', solved s2 s' -> X (ETerm Interrupted) s').
      { intros s' H. apply HX; [|exact Logic.I]. eapply solved_trans; eauto. }
      destruct (s_logger s1).
      + destruct (ev_logfail E (length (s_trace s1))).
        * apply HX; [|exact Logic.I]. eapply solved_trans; [exact Hs2|]. now repeat constructor.
        * unfold bind, check_termination. cbn. rewrite Hok. apply HX2. now repeat constructor.
      + unfold bind, check_termination. cbn. rewrite Hok. apply HX2. now repeat constructor.
    - apply HX; [|exact Logic.I]. destruct Hq1 as [[] ? ?]; repeat constructor; auto.
  Qed.

  Lemma wp_oracle_solution m (Q : assignment -> st -> Prop) (X : exit -> st -> Prop) s :
    s_ora s = OModel m -> 0 < vm_next (p_vm (s_prob s)) ->
    Q (sol_of m (vm_next (p_vm (s_prob s)) - 1)) s ->
    wp oracle_solution Q X s.
  Proof.
    intros Ho Hn HQ. unfold oracle_solution. apply wp_bind, wp_gets, wp_bind.
    unfold vm_max_var. destruct (vm_next (p_vm (s_prob s))) as [|n]; [lia|].
    apply wp_unwrap with (a := n); [reflexivity|]. apply wp_bind, wp_gets. rewrite Ho.
    apply wp_ret. replace (S n - 1) with n in HQ by lia. exact HQ.
  Qed.

  Lemma wp_oracle_core core (Q : list lit -> st -> Prop) (X : exit -> st -> Prop) s :
    s_ora s = OCore core -> Q core s -> wp oracle_core Q X s.
  Proof.
    intros Ho HQ. unfold oracle_core. apply wp_bind, wp_gets. rewrite Ho. now apply wp_ret.
  Qed.
End Wp.
