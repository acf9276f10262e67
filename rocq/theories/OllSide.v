(** * Invariants of the totalizer databases during core-guided search *)
From Coq Require Import List Bool Arith Lia ZArith.
From Verif Require Import Base BaseLemmas MTypes MKernel EncSpec Wp Sem Kern MOll TotSpec.
Import ListNotations.

Section FoldM.
  Context {I : enc_impl}.
  Notation M := (M I).
  Notation st := (st I).
  (** [foldM] with an invariant on the processed prefix *)
  Lemma wp_foldM {A B} (f : B -> A -> M B) (P : list A -> B -> st -> Prop)
      (Q : B -> st -> Prop) (X : exit -> st -> Prop) l b s :
    (forall pre a post b s, l = pre ++ a :: post -> P pre b s ->
       wp (f b a) (fun b' s' => P (pre ++ [a]) b' s') X s) ->
    P [] b s -> (forall b' s', P l b' s' -> Q b' s') -> wp (foldM f l b) Q X s.
  Proof.
    intros Hstep H0 HQ.
    assert (H : forall post pre b s, l = pre ++ post -> P pre b s ->
       wp (foldM f post b) (fun b' s' => P l b' s') X s).
    { intros post. induction post as [|a post IH]; intros pre b' s' Hl HP; cbn [foldM].
      - apply wp_ret. rewrite app_nil_r in Hl. now subst.
      - apply wp_bind. eapply wp_mono; [eapply Hstep; eauto| |auto].
        intros b'' s'' HP'. apply (IH (pre ++ [a])); [|exact HP'].
        now rewrite <- app_assoc. }
    eapply wp_mono; [apply (H l [] b s); auto| |auto]. auto.
  Qed.

  (** Loops with a decreasing measure that may fall into an absorbing mode in which running
      out of fuel is acceptable *)
  Lemma wp_loop_dead {S A} (D : S -> st -> Prop) (body : S -> M (S + A))
      (Q : A -> st -> Prop) (X : exit -> st -> Prop) :
    (forall x s, D x s ->
      wp (body x) (fun r s' => match r with inl x' => D x' s' | inr a => Q a s' end) X s) ->
    (forall x s, D x s -> X ENoFuel s) ->
    forall n x s, D x s -> wp (loop n body x) Q X s.
  Proof.
    intros Hb Hx n. induction n as [|n IH]; intros x s Hi; cbn [loop].
    - apply wp_throw. eauto.
    - apply wp_bind. eapply wp_mono; [apply Hb, Hi| |auto].
      intros [x'|a] s'; cbn beta iota; [apply IH|apply wp_ret].
  Qed.
  Lemma wp_loop2 {S A} (L D : S -> st -> Prop) (mu : S -> st -> nat)
      (body : S -> M (S + A)) (Q : A -> st -> Prop) (X : exit -> st -> Prop) :
    (forall x s, L x s ->
      wp (body x)
         (fun r s' => match r with
                      | inl x' => (L x' s' /\ mu x' s' < mu x s) \/ D x' s'
                      | inr a => Q a s'
                      end) X s) ->
    (forall x s, D x s ->
      wp (body x) (fun r s' => match r with inl x' => D x' s' | inr a => Q a s' end) X s) ->
    (forall x s, D x s -> X ENoFuel s) ->
    forall n x s, L x s ->
    (forall x' s', L x' s' -> n <= mu x s -> X ENoFuel s') ->
    wp (loop n body x) Q X s.
  Proof.
    intros Hb Hd Hx n. induction n as [|n IH]; intros x s Hi Hf; cbn [loop].
    - apply wp_throw. eapply Hf; [exact Hi|lia].
    - apply wp_bind. eapply wp_mono; [apply Hb, Hi| |auto].
      intros [x'|a] s'; cbn beta iota.
      + intros [[Hi' Hmu]|Hd'].
        * apply IH; [exact Hi'|]. intros x'' s'' Hi'' Hle. eapply Hf; [exact Hi''|lia].
        * eapply wp_loop_dead; eauto.
      + intros HQ. now apply wp_ret.
  Qed.
End FoldM.

Section Solve.
  Context {I : enc_impl}.
  Notation M := (M I).
  Notation st := (st I).
  Variable E : environ.
  Hypothesis HO : oracle_ok E.
  Hypothesis HN : core_nodup E.

  (** An oracle call, with or without conflict limit *)
  Definition solve_gen (b : bool) (assumps : list lit) : M sres :=
    log_start E RtOracleCall ;;;
    r <- oracle_solve E b assumps ;;
    log_end E ;;;
    check_termination E ;;;
    log_oracle_call E r ;;;
    ret r.

  Lemma wp_solve_gen b assumps (Q : sres -> st -> Prop) (X : exit -> st -> Prop) s :
    lims_ok s ->
    (forall m s', solved s s' -> lims_ok s' -> s_ora s' = OModel m ->
       sat m (p_cls (s_prob s)) -> lits_true m assumps -> Q RSat s') ->
    (forall core s', solved s s' -> lims_ok s' -> s_ora s' = OCore core ->
       (forall l, In l core -> In (lnot l) assumps) -> (NoDup assumps -> NoDup core) ->
       (forall m, sat m (p_cls (s_prob s)) -> clause_true m core = true) -> Q RUnsat s') ->
    (forall s', b = true -> solved s s' -> lims_ok s' -> Q RInterrupted s') ->
    (forall x s', solved s s' -> good_exit x -> X x s') ->
    wp (solve_gen b assumps) Q X s.
  Proof.
    intros HL Hsat Hunsat Hint HX. unfold solve_gen.
    apply wp_bind, wp_log_start; [exact HL| |intros; apply HX; auto using quiet_solved].
    intros s1 Hq1 HL1. apply wp_bind. unfold wp at 1, oracle_solve.
    set (q := mkQuery _ _ _ _ _). pose proof (HO q) as Hok. pose proof (HN q) as Hnd.
    assert (Hp1 : s_prob s1 = s_prob s) by apply Hq1.
    assert (Hcont : forall r o (s2 : st), s2 = set_ora o (set_calls (Datatypes.S (s_calls s1)) s1) ->
      (forall s', solved s s' -> lims_ok s' -> s_ora s' = o -> Q r s') ->
      wp (log_end E ;;; check_termination E ;;; log_oracle_call E r ;;; ret r) Q X s2).
    { intros r o s2 Hs2e Hk.
      assert (Hs2 : solved s s2) by (subst s2; destruct Hq1 as [[] ? ?]; repeat constructor; auto).
      assert (HL2 : lims_ok s2) by (subst s2; exact HL1).
      apply wp_bind, wp_log_end; [exact HL2| |].
      2:{ intros; apply HX; auto. eapply solved_trans; eauto using quiet_solved. }
      intros s3 Hq3 HL3. apply wp_bind, wp_check_termination; [exact HL3| |].
      2:{ intros; apply HX; auto. eapply solved_trans; [exact Hs2|].
          eapply solved_trans; eauto using quiet_solved. }
      intros s4 Hq4 HL4. apply wp_bind, wp_log_oracle_call; [exact HL4| |].
      2:{ intros; apply HX; auto. eapply solved_trans; [exact Hs2|].
          eapply solved_trans; [|eapply solved_trans]; eauto using quiet_solved. }
      intros s5 Hq5 HL5. apply wp_ret. apply Hk; [|exact HL5|].
      + eapply solved_trans; [exact Hs2|].
        eapply solved_trans; [|eapply solved_trans]; eauto using quiet_solved.
      + rewrite (qt_ora _ _ Hq5), (qt_ora _ _ Hq4), (qt_ora _ _ Hq3). now subst s2. }
    destruct (ev_oracle E q) as [m|core| |] eqn:Hq.
    - cbn in Hok. rewrite Hp1 in Hok. destruct Hok as [Hok1 Hok2].
      eapply Hcont; [reflexivity|]. intros; eapply Hsat; eauto.
    - cbn in Hok. rewrite Hp1 in Hok. destruct Hok as [Hok1 Hok2].
      eapply Hcont; [reflexivity|]. intros; eapply Hunsat; eauto.
    - cbn in Hok. destruct b.
      { eapply Hcont; [reflexivity|]. intros; now apply Hint. }
      destruct Hok as [Hok|Hok]; [discriminate|].
      set (s2 := set_ora _ _).
      assert (Hs2 : solved s s2) by (destruct Hq1 as [[] ? ?]; repeat constructor; auto).
      apply wp_bind. unfold log_end, emit, wp. cbn.
      assert (HX2 : forall s', solved s2 s' -> X (ETerm Interrupted) s').
      { intros s' H. apply HX; [|exact Logic.I]. eapply solved_trans; eauto. }
      destruct (s_logger s1).
      + destruct (ev_logfail E (length (s_trace s1))).
        * apply HX; [|exact Logic.I]. eapply solved_trans; [exact Hs2|]. now repeat constructor.
        * unfold bind, check_termination. cbn. rewrite Hok. apply HX2. now repeat constructor.
      + unfold bind, check_termination. cbn. rewrite Hok. apply HX2. now repeat constructor.
    - apply HX; [|exact Logic.I]. destruct Hq1 as [[] ? ?]; repeat constructor; auto.
  Qed.
End Solve.

(** ** Computations that only add clauses *)
Section Mono.
  Context {I : enc_impl}.
  Notation M := (M I).
  Notation st := (st I).
  Variable E : environ.
  Definition mono {A} (c : M A) : Prop := forall s,
    incl (p_cls (s_prob s)) (p_cls (s_prob (snd (c s)))).
  Lemma mono_ret {A} (a : A) : mono (ret a).
  Proof. intros s; cbn; apply incl_refl. Qed.
  Lemma mono_throw {A} x : mono (throw (A := A) x).
  Proof. intros s; cbn; apply incl_refl. Qed.
  Lemma mono_gets {A} (f : st -> A) : mono (gets f).
  Proof. intros s; cbn; apply incl_refl. Qed.
  Lemma mono_bind {A B} (c : M A) (k : A -> M B) : mono c -> (forall a, mono (k a)) -> mono (bind c k).
  Proof.
    intros Hc Hk s. unfold bind. specialize (Hc s). destruct (c s) as [[a|x] s'] eqn:e; cbn in *; [|exact Hc].
    eapply incl_tran; [exact Hc|apply Hk].
  Qed.
  Lemma mono_unwrap {A} (o : option A) : mono (unwrap o).
  Proof. destruct o; [apply mono_ret|apply mono_throw]. Qed.
  Lemma mono_guard b : mono (guard b).
  Proof. destruct b; [apply mono_ret|apply mono_throw]. Qed.
  Lemma mono_emit ev : mono (emit E ev).
  Proof. intros s. unfold emit. destruct (s_logger s); [destruct (ev_logfail _ _)|]; cbn; apply incl_refl. Qed.
  Lemma mono_check : mono (check_termination E).
  Proof. intros s. unfold check_termination. destruct (ev_flag _ _); cbn; apply incl_refl. Qed.
  Lemma mono_tick g p t : mono (tick g p t).
  Proof. intros s. unfold tick. destruct (g (s_lims s)) as [[|n]|]; [| destruct (n =? 0)|]; cbn; apply incl_refl. Qed.
  Lemma mono_modify f : (forall s, incl (p_cls (s_prob s)) (p_cls (s_prob (f s)))) -> mono (modify f).
  Proof. intros H s. cbn. apply H. Qed.
  Lemma mono_log_oracle_call r : mono (log_oracle_call E r).
  Proof.
    apply mono_bind; [apply mono_modify; intros; cbn; apply incl_refl|].
    intros _. apply mono_bind; [apply mono_emit|intros _; apply mono_tick].
  Qed.
  Lemma mono_oracle_solve b a : mono (oracle_solve E b a).
  Proof. intros s. unfold oracle_solve. destruct (ev_oracle _ _); cbn; apply incl_refl. Qed.
  Lemma mono_solve_gen b a : mono (solve_gen E b a).
  Proof.
    unfold solve_gen, log_start, log_end.
    repeat (apply mono_bind; [auto using mono_emit, mono_check, mono_log_oracle_call, mono_oracle_solve|intros ?]).
    apply mono_ret.
  Qed.
  Lemma mono_foldM {A B} (f : B -> A -> M B) l : (forall b a, mono (f b a)) -> forall b, mono (foldM f l b).
  Proof.
    intros H. induction l as [|a l IH]; intros b; cbn [foldM]; [apply mono_ret|].
    apply mono_bind; auto.
  Qed.
  Lemma mono_loop {S A} (body : S -> M (S + A)) n : (forall x, mono (body x)) -> forall x, mono (loop n body x).
  Proof.
    intros H. induction n as [|n IH]; intros x; cbn [loop]; [apply mono_throw|].
    apply mono_bind; [auto|]. intros [x'|a]; [apply IH|apply mono_ret].
  Qed.
  Lemma mono_add_clauses cs : mono (add_clauses cs).
  Proof.
    unfold add_clauses. induction cs as [|c cs IH]; cbn [forM]; [apply mono_ret|].
    apply mono_bind; [|auto]. apply mono_modify. intros s. cbn. apply incl_tl, incl_refl.
  Qed.
  Lemma mono_oracle_core : mono oracle_core.
  Proof. apply mono_bind; [apply mono_gets|]. intros []; auto using mono_throw, mono_ret. Qed.
  Lemma mono_oracle_solution : mono oracle_solution.
  Proof.
    apply mono_bind; [apply mono_gets|]. intros v. apply mono_bind; [apply mono_unwrap|]. intros v'.
    apply mono_bind; [apply mono_gets|]. intros []; auto using mono_throw, mono_ret.
  Qed.
End Mono.

(** ** Definitional extensions *)
Section Define.
  Context {I : enc_impl} (SP : enc_spec I).
  Notation prob := (prob I).

  Definition p_defined (p : prob) (cl : list clause) (n' : nat) : prob :=
    mkProb (rev cl ++ p_cls p) (vm_set_next (p_vm p) n') (p_objs p) (p_encs p).

  Lemma defined_live p cl n' v : vm_next (p_vm p) <= n' -> live SP p v -> live SP (p_defined p cl n') v.
  Proof. intros Hn [H1 H2]. split; [cbn; lia|exact H2]. Qed.
  Lemma defined_new F p cl n' v : WF SP F p -> vm_next (p_vm p) <= v < n' -> live SP (p_defined p cl n') v.
  Proof.
    intros W H. split; [cbn; lia|]. intros e He Hf. cbn in He.
    pose proof (wf_free _ _ _ W _ _ He Hf). lia.
  Qed.
  Lemma defined_sat p cl n' m : sat m (p_cls (p_defined p cl n')) <-> sat m cl /\ sat m (p_cls p).
  Proof.
    cbn. rewrite sat_app. split; intros [H1 H2]; (split; [|assumption]);
      intros c Hc; apply H1; apply in_rev; [now rewrite rev_involutive|assumption].
  Qed.

  Lemma inv_define F p A S (S' : asg -> Prop) cl n' : Inv SP F p A S ->
    vm_next (p_vm p) <= n' ->
    (forall v, In v (cls_vars cl) -> live SP (p_defined p cl n') v) ->
    (forall m, sat m (p_cls p) -> Exact SP p m -> S m ->
       exists m', agree (fun v => v < vm_next (p_vm p)) m m' /\ sat m' cl /\ S' m') ->
    (forall a b, agree (live SP (p_defined p cl n')) a b -> S' a -> S' b) ->
    Inv SP F (p_defined p cl n') A S'.
  Proof.
    intros HI Hn Hv Hext HS. destruct HI as [W I1 I2 I3 I4 I5].
    assert (Hl := fun v => defined_live p cl n' v Hn).
    constructor.
    - pose proof W as W0. destruct W0 as [w1 w2 w3 w4 w5 w6 w7 w8 w9 w10 w11 w12 w13 w14 w15]. constructor; try assumption.
      + cbn. lia.
      + intros v H. cbn in H. rewrite cls_vars_app in H. apply in_app_or in H. destruct H as [H|H]; [|auto].
        apply Hv. apply in_cls_vars in H. destruct H as (c & Hc & H). apply in_cls_vars. exists c.
        split; [now apply in_rev|exact H].
      + intros v H. apply Hl. auto.
      + intros e v He Hu. apply Hl. eauto.
      + intros e v He Hf. cbn. specialize (w7 _ _ He Hf). lia.
      + intros e c He Hc. cbn. apply in_or_app. right. eapply w9; eauto.
      + intros i o e m Ho He Hne Hm. apply defined_sat in Hm. eapply w12; eauto. tauto.
    - exact I1.
    - intros m Hm. apply defined_sat in Hm. apply I2. tauto.
    - exact I3.
    - exact HS.
    - intros a Ha. destruct (I5 a Ha) as (m & H1 & H2 & H3 & H4).
      destruct (Hext m H2 H3 H4) as (m' & G1 & G2 & G3).
      assert (G : agree (live SP p) m m') by (eapply agree_mono; [|exact G1]; intros v Hlv; apply Hlv).
      exists m'. split; [|split; [|split]].
      + eapply agree_trans; [exact H1|]. exact (low_live_agree _ _ _ _ _ W G).
      + apply defined_sat. split; [exact G2|]. eapply sat_agree; [exact G|apply (wf_cls _ _ _ W)|exact H2].
      + exact (exact_agree _ _ _ _ _ W G H3).
      + exact G3.
  Qed.
End Define.

Section Side.
  Context {I : enc_impl} {SP : enc_spec I} {T : tot_impl I} (TS : tot_spec SP T).
  Notation prob := (prob I).
  Notation db := (ti_db T).
  Notation leafv := (tb_leafv SP T TS).
  Notation aux := (tb_aux SP T TS).
  Notation free := (tb_free SP T TS).
  Notation exact_ := (tb_exact SP T TS).
  Variable F : asg -> Prop.

  (** The databases [ds] mean what they should next to problem [p]; their variables do not
      clash. *)
  Record Side (p : prob) (ds : list db) : Prop := mkSide {
    sd_inv : Inv SP F p F (fun m => forall d, In d ds -> exact_ d m);
    sd_low : forall d v, In d ds -> leafv d v -> low p v;
    sd_aux : forall d v, In d ds -> aux d v -> live SP p v /\ ~ low p v;
    sd_free : forall d v, In d ds -> free d v ->
      v < vm_next (p_vm p) /\ ~ low p v /\ ~ In v (cls_vars (p_cls p)) /\
      (forall d', In d' ds -> ~ aux d' v);
    sd_disj : forall i j d1 d2 v, nth_error ds i = Some d1 -> nth_error ds j = Some d2 -> i <> j ->
      free d1 v -> free d2 v -> False;
    sd_cls : forall d c, In d ds -> In c (tb_cls SP T TS d) -> In c (p_cls p);
    sd_fenc : forall d e v, In d ds -> In e (p_encs p) -> free d v -> ~ oe_used SP e v /\ ~ oe_free SP e v }.

  Lemma side_wf p ds : Side p ds -> WF SP F p.
  Proof. intros H. apply (inv_wf _ _ _ _ _ (sd_inv _ _ H)). Qed.

  Lemma nth_snoc {A} (l : list A) x i y : nth_error (l ++ [x]) i = Some y ->
    nth_error l i = Some y \/ (i = length l /\ y = x).
  Proof.
    intros H. destruct (lt_dec i (length l)) as [Hi|Hi].
    - left. now rewrite nth_error_app1 in H.
    - right. rewrite nth_error_app2 in H by lia. destruct (i - length l) as [|k] eqn:e.
      + split; [lia|]. cbn in H. congruence.
      + destruct k; discriminate.
  Qed.

  Lemma side_new p ds : Side p ds -> Side p (ds ++ [ti_new T]).
  Proof.
    intros [H1 H2 H3 H4 H5 H6 H7]. constructor.
    - eapply inv_weaken; [exact H1| |].
      + intros m _ _ _ Hm d Hd. apply in_app_or in Hd. destruct Hd as [Hd|[<-|[]]]; [auto|apply tb_new_exact].
      + intros a b Hab Ha d Hd. apply in_app_or in Hd. destruct Hd as [Hd|[<-|[]]]; [|apply tb_new_exact].
        refine (inv_Scl _ _ _ _ _ H1 a b Hab _ d Hd). intros d0 Hd0. apply Ha, in_or_app. now left.
    - intros d v Hd. apply in_app_or in Hd. destruct Hd as [Hd|[<-|[]]]; [eauto|].
      intros K. destruct (tb_new_leafv SP T TS v K).
    - intros d v Hd. apply in_app_or in Hd. destruct Hd as [Hd|[<-|[]]]; [eauto|].
      intros K. destruct (tb_new_aux SP T TS v K).
    - intros d v Hd. apply in_app_or in Hd. destruct Hd as [Hd|[<-|[]]].
      + intros K. destruct (H4 d v Hd K) as (? & ? & ? & G). split; [assumption|].
        split; [assumption|]. split; [assumption|]. intros d' Hd'. apply in_app_or in Hd'.
        destruct Hd' as [Hd'|[<-|[]]]; [auto|apply tb_new_aux].
      + intros K. destruct (tb_new_free SP T TS v K).
    - intros i j d1 d2 v G1 G2 Hij F1 F2. apply nth_snoc in G1. apply nth_snoc in G2.
      destruct G1 as [G1|[-> ->]]; [|destruct (tb_new_free SP T TS v F1)].
      destruct G2 as [G2|[-> ->]]; [|destruct (tb_new_free SP T TS v F2)].
      eapply H5; eauto.
    - intros d c Hd. apply in_app_or in Hd. destruct Hd as [Hd|[<-|[]]]; [eauto|].
      rewrite (tb_new_cls SP T TS). intros [].
    - intros d e v Hd He. apply in_app_or in Hd. destruct Hd as [Hd|[<-|[]]]; [now apply H7|].
      intros K. destruct (tb_new_free SP T TS v K).
  Qed.

  (** Operations on the last database that leave variables and clauses alone *)
  Lemma side_same p ds d d' : Side p (ds ++ [d]) ->
    tb_same SP T TS d d' -> (forall v, leafv d' v -> low p v) ->
    (forall v, leafv d v -> leafv d' v) -> Side p (ds ++ [d']).
  Proof.
    intros [H1 H2 H3 H4 H5 H6 H7] (Ea & Ef & Ex & Ec & _) Hl Hm.
    assert (Hin : In d (ds ++ [d])) by (apply in_or_app; right; now left).
    assert (W := inv_wf _ _ _ _ _ H1).
    constructor.
    - eapply inv_weaken; [exact H1| |].
      + intros m _ _ _ Hx x Hd. apply in_app_or in Hd. destruct Hd as [Hd|[<-|[]]].
        * apply Hx, in_or_app. now left.
        * apply Ex, Hx, Hin.
      + intros a b Hab Ha x Hd. apply in_app_or in Hd. destruct Hd as [Hd|[<-|[]]].
        * eapply tb_exact_dep; [|apply Ha, in_or_app; left; exact Hd].
          eapply agree_mono; [|exact Hab]. intros v [Hv|Hv].
          -- apply (wf_low _ _ _ W). eapply H2; [apply in_or_app; left; exact Hd|exact Hv].
          -- eapply H3; [apply in_or_app; left; exact Hd|exact Hv].
        * eapply tb_exact_dep; [|apply Ha, in_or_app; right; now left].
          eapply agree_mono; [|exact Hab]. intros v [Hv|Hv].
          -- apply (wf_low _ _ _ W). auto.
          -- apply Ea in Hv. eapply H3; [exact Hin|exact Hv].
    - intros x v Hd. apply in_app_or in Hd. destruct Hd as [Hd|[<-|[]]]; [|auto].
      apply H2, in_or_app. now left.
    - intros x v Hd. apply in_app_or in Hd. destruct Hd as [Hd|[<-|[]]].
      + apply H3, in_or_app. now left.
      + intros Hv. apply Ea in Hv. eapply H3; eauto.
    - assert (G : forall x v, In x (ds ++ [d]) -> free x v ->
        v < vm_next (p_vm p) /\ ~ low p v /\ ~ In v (cls_vars (p_cls p)) /\
        (forall y, In y (ds ++ [d']) -> ~ aux y v)).
      { intros x v Hx Hf. destruct (H4 x v Hx Hf) as (K1 & K2 & K3 & K4).
        split; [assumption|]. split; [assumption|]. split; [assumption|].
        intros y Hy. apply in_app_or in Hy. destruct Hy as [Hy|[<-|[]]].
        - apply K4, in_or_app. now left.
        - intros K. apply Ea in K. exact (K4 d Hin K). }
      intros x v Hd. apply in_app_or in Hd. destruct Hd as [Hd|[<-|[]]].
      + apply G, in_or_app. now left.
      + intros Hf. apply Ef in Hf. eauto.
    - intros i j d1 d2 v G1 G2 Hij F1 F2. apply nth_snoc in G1. apply nth_snoc in G2.
      assert (L : nth_error (ds ++ [d]) (length ds) = Some d)
        by (rewrite nth_error_app2, Nat.sub_diag by lia; reflexivity).
      assert (L' : forall k y, nth_error ds k = Some y -> nth_error (ds ++ [d]) k = Some y).
      { intros k y Hk. rewrite nth_error_app1; [exact Hk|]. apply nth_error_Some. congruence. }
      destruct G1 as [G1|[-> ->]], G2 as [G2|[-> ->]].
      + eapply (H5 i j); eauto.
      + apply Ef in F2. eapply (H5 i (length ds)); eauto.
      + apply Ef in F1. eapply (H5 (length ds) j); eauto.
      + lia.
    - intros x c Hd. apply in_app_or in Hd. destruct Hd as [Hd|[<-|[]]].
      + apply H6, in_or_app. now left.
      + rewrite Ec. apply H6, Hin.
    - intros x e v Hd He Hf. apply in_app_or in Hd. destruct Hd as [Hd|[<-|[]]].
      + refine (H7 x e v _ He Hf). apply in_or_app. now left.
      + apply Ef in Hf. exact (H7 d e v Hin He Hf).
  Qed.

  Lemma side_define p ds d id k d' l cl n' : Side p (ds ++ [d]) ->
    (forall v, ~ free d v) ->
    ti_define T d id k (vm_next (p_vm p)) = (d', l, cl, n') ->
    tb_int SP T TS d id -> k < tb_max SP T TS d id ->
    Side (p_defined p cl n') (ds ++ [d']) /\ (forall v, ~ free d' v).
  Proof.
    intros [H1 H2 H3 H4 H5 H6 H7] Hnf Hdef Hint Hk.
    assert (Hin : In d (ds ++ [d])) by (apply in_or_app; right; now left).
    assert (W := inv_wf _ _ _ _ _ H1).
    destruct (tb_define_ok SP T TS _ _ _ _ _ _ _ _ Hdef Hint Hk)
      as (Hn & Hxt & Hlf & _ & _ & Hau & Hmo & Hfr & Hvs & Hcl & Hex).
    assert (Hnf' : forall v, ~ free d' v).
    { intros v Hv. apply Hfr in Hv. destruct Hv as [Hv _]. exact (Hnf v Hv). }
    split; [|exact Hnf'].
    set (p' := p_defined p cl n') in *.
    assert (Hlive : forall v, live SP p v -> live SP p' v) by (intros v; now apply defined_live).
    assert (Hauxl : forall v, aux d' v -> live SP p' v /\ ~ low p v).
    { intros v Hv. apply Hau in Hv. destruct Hv as [Hv|[Hv|Hv]].
      - destruct (H3 d v Hin Hv). auto.
      - destruct (Hnf v Hv).
      - split; [eapply defined_new; eauto|]. unfold low. pose proof (wf_enc _ _ _ W). lia. }
    assert (Hin' : forall x, In x ds -> In x (ds ++ [d])) by (intros; apply in_or_app; now left).
    constructor.
    - eapply inv_define; [exact H1|exact Hn| | |].
      + intros v Hv. destruct (Hvs v Hv) as [Hv'|Hv'].
        * apply Hlive, (wf_low _ _ _ W). eapply H2; [exact Hin|]. now apply Hlf.
        * now apply Hauxl.
      + intros m Hm _ Hx.
        destruct (tb_define_ext SP T TS _ _ _ _ _ _ _ _ m Hdef Hint Hk) as (m' & G1 & G2 & G3).
        * intros v [Hv|Hv].
          -- assert (Hlv := wf_low _ _ _ W v (H2 _ _ Hin Hv)). apply Hlv.
          -- apply (H3 d v Hin Hv).
        * intros v Hv. destruct (Hnf v Hv).
        * intros v Hv. destruct (Hnf v Hv).
        * apply Hx, Hin.
        * exists m'. assert (G : agree (fun v => v < vm_next (p_vm p)) m m').
          { eapply agree_mono; [|exact G1]. intros v Hv. split; [exact Hv|apply Hnf]. }
          split; [exact G|]. split; [exact G3|]. intros x Hx'. apply in_app_or in Hx'.
          destruct Hx' as [Hx'|[<-|[]]]; [|exact G2].
          eapply tb_exact_dep; [|apply Hx, Hin', Hx']. eapply agree_mono; [|exact G].
          intros v [Hv|Hv].
          -- assert (Hlv := wf_low _ _ _ W v (H2 _ _ (Hin' _ Hx') Hv)). apply Hlv.
          -- apply (H3 x v (Hin' _ Hx') Hv).
      + intros a b Hab Ha x Hx. eapply tb_exact_dep; [|apply Ha, Hx].
        eapply agree_mono; [|exact Hab]. apply in_app_or in Hx. destruct Hx as [Hx|[<-|[]]].
        * intros v [Hv|Hv]; apply Hlive.
          -- apply (wf_low _ _ _ W). exact (H2 _ _ (Hin' _ Hx) Hv).
          -- exact (proj1 (H3 _ _ (Hin' _ Hx) Hv)).
        * intros v [Hv|Hv].
          -- apply Hlive, (wf_low _ _ _ W). eapply H2; [exact Hin|]. now apply Hlf.
          -- now apply Hauxl.
    - intros x v Hx Hv. change (low p v). apply in_app_or in Hx. destruct Hx as [Hx|[<-|[]]].
      + exact (H2 _ _ (Hin' _ Hx) Hv).
      + eapply H2; [exact Hin|]. now apply Hlf.
    - intros x v Hx Hv. change (low p' v) with (low p v). apply in_app_or in Hx. destruct Hx as [Hx|[<-|[]]].
      + destruct (H3 x v (Hin' _ Hx) Hv). auto.
      + now apply Hauxl.
    - intros x v Hx Hv. change (low p' v) with (low p v). apply in_app_or in Hx.
      destruct Hx as [Hx|[<-|[]]]; [|destruct (Hnf' v Hv)].
      destruct (H4 x v (Hin' _ Hx) Hv) as (K1 & K2 & K3 & K4).
      assert (Ka : ~ aux d' v).
      { intros K. apply Hau in K. destruct K as [K|[K|K]].
        - exact (K4 d Hin K).
        - exact (Hnf v K).
        - lia. }
      split; [cbn; lia|]. split; [exact K2|]. split.
      + cbn. rewrite cls_vars_app. intros K. apply in_app_or in K. destruct K as [K|K]; [|exact (K3 K)].
        assert (K' : In v (cls_vars cl)).
        { apply in_cls_vars in K. destruct K as (c & Kc & K). apply in_cls_vars. exists c.
          split; [now apply in_rev|exact K]. }
        destruct (Hvs v K') as [Kl|Kl]; [|exact (Ka Kl)].
        apply K2. eapply H2; [exact Hin|]. now apply Hlf.
      + intros y Hy. apply in_app_or in Hy. destruct Hy as [Hy|[<-|[]]]; [|exact Ka].
        apply K4. auto.
    - intros i j d1 d2 v G1 G2 Hij F1 F2. apply nth_snoc in G1. apply nth_snoc in G2.
      destruct G1 as [G1|[-> ->]]; [|destruct (Hnf' v F1)].
      destruct G2 as [G2|[-> ->]]; [|destruct (Hnf' v F2)].
      assert (L' : forall k y, nth_error ds k = Some y -> nth_error (ds ++ [d]) k = Some y).
      { intros k0 y Hk0. rewrite nth_error_app1; [exact Hk0|]. apply nth_error_Some. congruence. }
      eapply (H5 i j); eauto.
    - intros x c Hx Hc. cbn. apply in_or_app. apply in_app_or in Hx. destruct Hx as [Hx|[<-|[]]].
      + right. exact (H6 _ _ (Hin' _ Hx) Hc).
      + apply Hcl in Hc. destruct Hc as [Hc|Hc]; [right; exact (H6 _ _ Hin Hc)|left; now apply in_rev in Hc].
    - intros x e v Hx He Hf. apply in_app_or in Hx. destruct Hx as [Hx|[<-|[]]]; [|destruct (Hnf' v Hf)].
      exact (H7 x e v (Hin' _ Hx) He Hf).
  Qed.

  (** Reserving variables for the last database *)
  Lemma side_reserve p ds d d' n' : Side p (ds ++ [d]) ->
    vm_next (p_vm p) <= n' -> (forall v, leafv d' v <-> leafv d v) ->
    (forall v, aux d' v <-> aux d v) ->
    (forall v, free d' v -> vm_next (p_vm p) <= v < n') ->
    (forall m, exact_ d' m <-> exact_ d m) -> tb_cls SP T TS d' = tb_cls SP T TS d ->
    Side (p_defined p [] n') (ds ++ [d']).
  Proof.
    intros [H1 H2 H3 H4 H5 H6 H7] Hn Hlf Hau Hfr Hex Hcl.
    assert (Hin : In d (ds ++ [d])) by (apply in_or_app; right; now left).
    assert (Hin' : forall x, In x ds -> In x (ds ++ [d])) by (intros; apply in_or_app; now left).
    assert (W := inv_wf _ _ _ _ _ H1).
    set (p' := p_defined p [] n') in *.
    assert (Hlive : forall v, live SP p v -> live SP p' v) by (intros v; now apply defined_live).
    constructor.
    - eapply inv_define; [exact H1|exact Hn|intros v []| |].
      + intros m Hm _ Hx. exists m. split; [apply agree_refl|]. split; [apply sat_nil|].
        intros x Hx'. apply in_app_or in Hx'. destruct Hx' as [Hx'|[<-|[]]]; [auto|]. apply Hex, Hx, Hin.
      + intros a b Hab Ha x Hx. eapply tb_exact_dep; [|apply Ha, Hx].
        eapply agree_mono; [|exact Hab]. apply in_app_or in Hx. destruct Hx as [Hx|[<-|[]]].
        * intros v [Hv|Hv]; apply Hlive.
          -- apply (wf_low _ _ _ W). exact (H2 _ _ (Hin' _ Hx) Hv).
          -- exact (proj1 (H3 _ _ (Hin' _ Hx) Hv)).
        * intros v [Hv|Hv]; apply Hlive.
          -- apply (wf_low _ _ _ W). eapply H2; [exact Hin|]. now apply Hlf.
          -- eapply H3; [exact Hin|]. now apply Hau.
    - intros x v Hx Hv. change (low p v). apply in_app_or in Hx. destruct Hx as [Hx|[<-|[]]].
      + exact (H2 _ _ (Hin' _ Hx) Hv).
      + eapply H2; [exact Hin|]. now apply Hlf.
    - intros x v Hx Hv. change (low p' v) with (low p v). apply in_app_or in Hx. destruct Hx as [Hx|[<-|[]]].
      + destruct (H3 x v (Hin' _ Hx) Hv). auto.
      + apply Hau in Hv. destruct (H3 d v Hin Hv). auto.
    - intros x v Hx Hv. change (low p' v) with (low p v). change (p_cls p') with (p_cls p).
      apply in_app_or in Hx. destruct Hx as [Hx|[<-|[]]].
      + destruct (H4 x v (Hin' _ Hx) Hv) as (K1 & K2 & K3 & K4).
        split; [cbn; lia|]. split; [exact K2|]. split; [exact K3|].
        intros y Hy. apply in_app_or in Hy. destruct Hy as [Hy|[<-|[]]]; [auto|].
        intros K. apply Hau in K. exact (K4 d Hin K).
      + apply Hfr in Hv. split; [cbn; lia|]. split; [unfold low; pose proof (wf_enc _ _ _ W); lia|]. split.
        * intros K. apply (wf_cls _ _ _ W) in K. destruct K as [K _]. lia.
        * intros y Hy K. apply in_app_or in Hy. destruct Hy as [Hy|[<-|[]]].
          -- destruct (H3 y v (Hin' _ Hy) K) as [[K' _] _]. lia.
          -- apply Hau in K. destruct (H3 d v Hin K) as [[K' _] _]. lia.
    - intros i j d1 d2 v G1 G2 Hij F1 F2. apply nth_snoc in G1. apply nth_snoc in G2.
      assert (L' : forall k y, nth_error ds k = Some y -> nth_error (ds ++ [d]) k = Some y).
      { intros k0 y Hk0. rewrite nth_error_app1; [exact Hk0|]. apply nth_error_Some. congruence. }
      destruct G1 as [G1|[-> ->]], G2 as [G2|[-> ->]].
      + eapply (H5 i j); eauto.
      + apply Hfr in F2. apply nth_error_In in G1. destruct (H4 d1 v (Hin' _ G1) F1). lia.
      + apply Hfr in F1. apply nth_error_In in G2. destruct (H4 d2 v (Hin' _ G2) F2). lia.
      + lia.
    - intros x c Hx Hc. change (p_cls p') with (p_cls p). apply in_app_or in Hx. destruct Hx as [Hx|[<-|[]]].
      + exact (H6 _ _ (Hin' _ Hx) Hc).
      + rewrite Hcl in Hc. exact (H6 _ _ Hin Hc).
    - intros x e v Hx He Hf. apply in_app_or in Hx. destruct Hx as [Hx|[<-|[]]].
      + exact (H7 x e v (Hin' _ Hx) He Hf).
      + apply Hfr in Hf. split; intros K.
        * destruct (wf_used _ _ _ W e v He K). lia.
        * pose proof (wf_free _ _ _ W e v He K). lia.
  Qed.

  (** Changing lower bounds of the objectives *)
  Lemma inv_objs p A S os : Inv SP F p A S -> map obj_iter os = map obj_iter (p_objs p) ->
    Inv SP F (set_objs os p) A S.
  Proof.
    intros [W I1 I2 I3 I4 I5] Hos.
    assert (Hn : forall i o, nth_error os i = Some o -> exists o', nth_error (p_objs p) i = Some o' /\
      obj_iter o = obj_iter o').
    { intros i o Ho. apply (map_nth_error obj_iter) in Ho. rewrite Hos, nth_error_map in Ho.
      destruct (nth_error (p_objs p) i) as [o'|]; [|discriminate]. exists o'. cbn in Ho.
      split; [reflexivity|congruence]. }
    constructor; auto. destruct W as [w1 w2 w3 w4 w5 w6 w7 w8 w9 w10 w11 w12 w13 w14 w15]. constructor; auto.
    - cbn. rewrite w1. rewrite <- (map_length obj_iter), <- Hos. apply map_length.
    - intros o v Ho Hv. cbn in Ho. apply In_nth_error in Ho. destruct Ho as [i Ho].
      destruct (Hn i o Ho) as (o' & Ho' & He). rewrite He in Hv. apply nth_error_In in Ho'.
      exact (w10 o' v Ho' Hv).
    - intros i o e m Ho. cbn in Ho. destruct (Hn i o Ho) as (o' & Ho' & He).
      unfold icost. rewrite He. exact (w12 i o' e m Ho').
    - intros i o e m Ho. cbn in Ho. destruct (Hn i o Ho) as (o' & Ho' & He).
      unfold icost. rewrite He. exact (w13 i o' e m Ho').
    - intros i o a b Ho. cbn in Ho. destruct (Hn i o Ho) as (o' & Ho' & He).
      unfold icost. rewrite He. exact (w14 i o' a b Ho').
    - intros i o e a Ho. cbn in Ho. destruct (Hn i o Ho) as (o' & Ho' & He).
      unfold icost. rewrite He. exact (w15 i o' e a Ho').
  Qed.
  Lemma side_objs p ds os : Side p ds -> map obj_iter os = map obj_iter (p_objs p) ->
    Side (set_objs os p) ds.
  Proof.
    intros [H1 H2 H3 H4 H5 H6 H7] Hos. constructor; try assumption.
    now apply inv_objs.
  Qed.
End Side.
