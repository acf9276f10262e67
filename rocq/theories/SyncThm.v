(** * Two runs side by side *)
From Coq Require Import List Bool Arith Lia ZArith.
From Verif Require Import Base BaseLemmas MTypes MKernel MPMinimal MLowerBounding MBiOptSat ApiSpec Struct SyncSpec.
Import ListNotations.

Lemma begins_app f f0 l : begins f f0 -> begins f (f0 ++ l).
Proof.
  intros [[r ->]|(pre & nd & nd0 & r & ss & -> & -> & Hc & Hs)].
  - left. exists (r ++ l). now rewrite app_assoc.
  - right. exists pre, nd, nd0, (r ++ l), ss. rewrite <- app_assoc. auto.
Qed.
Lemma begins_refl f : begins f f.
Proof. left. exists []. now rewrite app_nil_r. Qed.

Section Sync.
  Context {I : enc_impl}.
  Notation M := (M I).
  Notation st := (st I).
  Variables E E0 : environ.
  Hypothesis D : disturbs E E0.
  (** with [lock], nothing disturbs the first run more than the second *)
  Variable lock : Prop.
  Hypothesis K_oracle : lock -> forall q, ev_oracle E q = ev_oracle E0 q.
  Hypothesis K_flag : lock -> forall n, ev_flag E n = ev_flag E0 n.
  Hypothesis K_log : lock -> forall n, ev_logfail E n = false.
  Hypothesis K_fuel : lock -> ev_fuel E = ev_fuel E0.

  Definition sim (s s0 : st) : Prop :=
    same_solver s s0 /\ limits_le (s_lims s) (s_lims s0) /\ (lock -> s_lims s = s_lims s0).

  Definition grows {A} (c0 : M A) : Prop := forall s0 a s0', c0 s0 = (Done a, s0') ->
    exists l, s_front s0' = s_front s0 ++ l.
  Definition step_ok {A} (r r0 : res A * st) : Prop :=
    match r with
    | (Done a, s') => exists s0', r0 = (Done a, s0') /\ sim s' s0'
    | (Exit x, s') =>
        (lock -> exists s0', r0 = (Exit x, s0') /\ sim s' s0') /\
        (forall a s0', r0 = (Done a, s0') -> begins (s_front s') (s_front s0'))
    end.
  Definition rel {A} (c c0 : M A) : Prop := (forall s s0, sim s s0 -> step_ok (c s) (c0 s0)) /\ grows c0.

  Lemma r_ext {A} (c c' c0 c0' : M A) : (forall s, c s = c' s) -> (forall s, c0 s = c0' s) -> rel c' c0' -> rel c c0.
  Proof.
    intros H H0 [R G]. split.
    - intros s s0 Hs. rewrite H, H0. exact (R s s0 Hs).
    - intros s0 a s0' Hr. rewrite H0 in Hr. eauto.
  Qed.
  Lemma r_ret {A} (a : A) : rel (ret a) (ret a).
  Proof.
    split; [|intros s0 b s0' H; injection H as <- <-; exists []; now rewrite app_nil_r].
    intros s s0 H. exists s0. split; [reflexivity|exact H].
  Qed.
  Lemma r_throw {A} x : rel (A := A) (throw x) (throw x).
  Proof.
    split; [|intros s0 b s0' H; discriminate].
    intros s s0 H. split; [intros _; exists s0; split; [reflexivity|exact H]|discriminate].
  Qed.
  Lemma r_bind {A B} (c c0 : M A) (k k0 : A -> M B) : rel c c0 -> (forall a, rel (k a) (k0 a)) ->
    rel (bind c k) (bind c0 k0).
  Proof.
    intros [R G] RK. split.
    - intros s s0 Hs. specialize (R s s0 Hs). unfold bind at 1.
      destruct (c s) as [[a|x] s'] eqn:e; cbn [step_ok] in *.
      + destruct R as (s0' & H0 & Hs'). pose proof (proj1 (RK a) s' s0' Hs') as R2.
        unfold step_ok in *. unfold bind. rewrite H0. exact R2.
      + destruct R as [R1 R2]. split.
        * intros L. destruct (R1 L) as (s0' & H0 & Hs'). exists s0'. unfold bind. rewrite H0. auto.
        * intros b s0'. unfold bind. destruct (c0 s0) as [[a0|x0] s1] eqn:e0; [|discriminate]. intros H.
          destruct (proj2 (RK a0) _ _ _ H) as [l ->]. apply begins_app. eapply R2; reflexivity.
    - intros s0 b s0'. unfold bind. destruct (c0 s0) as [[a0|x0] s1] eqn:e0; [|discriminate]. intros H.
      destruct (proj2 (RK a0) _ _ _ H) as [l ->]. destruct (G _ _ _ e0) as [l' ->]. exists (l' ++ l). now rewrite app_assoc.
  Qed.
  Lemma bind_assoc {A B C} (c : M A) (k : A -> M B) (h : B -> M C) s :
    bind (bind c k) h s = bind c (fun a => bind (k a) h) s.
  Proof. unfold bind. destruct (c s) as [[a|x] s']; reflexivity. Qed.
  Lemma bind_ext {A B} (c : M A) (k k' : A -> M B) s : (forall a s', k a s' = k' a s') -> bind c k s = bind c k' s.
  Proof. intros H. unfold bind. destruct (c s) as [[a|x] s']; [apply H|reflexivity]. Qed.
  (** a field that both states share *)
  Lemma r_gets {A} (f : st -> A) : (forall s s0, same_solver s s0 -> f s = f s0) -> rel (gets f) (gets f).
  Proof.
    intros H. split; [|intros s0 b s0' Hr; injection Hr as <- <-; exists []; now rewrite app_nil_r].
    intros s s0 Hs. cbn. exists s0. rewrite (H s s0 (proj1 Hs)). auto.
  Qed.
  Lemma r_modify f : (forall s s0, sim s s0 -> sim (f s) (f s0)) -> (forall s, s_front (f s) = s_front s) ->
    rel (modify f) (modify f).
  Proof.
    intros H F. split.
    - intros s s0 Hs. exists (f s0). split; [reflexivity|apply H, Hs].
    - intros s0 b s0' Hr. injection Hr as <- <-. exists []. rewrite app_nil_r. apply F.
  Qed.
  Lemma r_guard b : rel (guard b) (guard b).
  Proof. destruct b; [apply r_ret|apply r_throw]. Qed.
  Lemma r_unwrap {A} (o : option A) : rel (unwrap o) (unwrap o).
  Proof. destruct o; [apply r_ret|apply r_throw]. Qed.
  Lemma r_or_err {A} e (o : option A) : rel (or_err e o) (or_err e o).
  Proof. destruct o; [apply r_ret|apply r_throw]. Qed.
  Lemma r_forM {A} (f f0 : A -> M unit) l : (forall a, rel (f a) (f0 a)) -> rel (forM f l) (forM f0 l).
  Proof. intros H. induction l; cbn [forM]; [apply r_ret|apply r_bind; auto]. Qed.
  Lemma r_mapM {A B} (f f0 : A -> M B) l : (forall a, rel (f a) (f0 a)) -> rel (mapM f l) (mapM f0 l).
  Proof.
    intros H. induction l; cbn [mapM]; [apply r_ret|apply r_bind; auto]. intros b.
    apply r_bind; [exact IHl|]. intros bs. apply r_ret.
  Qed.
  Lemma grows_loop {S A} (body0 : S -> M (S + A)) n0 : (forall x, grows (body0 x)) -> forall x, grows (loop n0 body0 x).
  Proof.
    intros H. induction n0 as [|n0 IH]; intros x; cbn [loop].
    - intros s0 a s0' Hr; discriminate.
    - intros s0 a s0'. unfold bind. destruct (body0 x s0) as [[r|y] s1] eqn:e; [|discriminate].
      destruct (H x _ _ _ e) as [l Hl]. destruct r as [x'|b].
      + intros Hr. destruct (IH _ _ _ _ Hr) as [l' ->]. exists (l ++ l'). now rewrite Hl, app_assoc.
      + intros Hr. injection Hr as <- <-. eauto.
  Qed.
  (** more iterations on the right *)
  Lemma r_loop_n {S A} (body body0 : S -> M (S + A)) : (forall x, rel (body x) (body0 x)) ->
    forall n n0, n <= n0 -> (lock -> n = n0) -> forall x, rel (loop n body x) (loop n0 body0 x).
  Proof.
    intros H. induction n as [|n IH]; intros n0 Hn Hk x.
    - cbn [loop].
      assert (G : grows (loop n0 body0 x)) by (apply grows_loop; intros y; apply H).
      split; [|exact G]. intros s s0 Hs. split.
      + intros L. specialize (Hk L). subst n0. exists s0. split; [reflexivity|exact Hs].
      + intros a s0' Hr. destruct (G _ _ _ Hr) as [l ->]. destruct Hs as [Hs _]. cbn. rewrite (ss_front _ _ Hs). left. eauto.
    - destruct n0 as [|n0]; [lia|]. cbn [loop]. apply r_bind; [apply H|]. intros [x'|a]; [|apply r_ret].
      apply IH; [lia|]. intros L. specialize (Hk L). lia.
  Qed.
  Lemma r_loop {S A} (body body0 : S -> M (S + A)) x : (forall x, rel (body x) (body0 x)) ->
    rel (loop (ev_fuel E) body x) (loop (ev_fuel E0) body0 x).
  Proof. intros H. apply r_loop_n; [exact H|apply (di_fuel _ _ D)|exact K_fuel]. Qed.

  (** ** Setters *)
  Ltac sim_tac := intros s s0 [[] [? ?]]; split; [constructor; cbn; congruence|split; assumption].
  Lemma sim_trace t t0 s s0 : sim s s0 -> sim (set_trace t s) (set_trace t0 s0).
  Proof. revert s s0. sim_tac. Qed.
  Lemma sim_trace_l t s s0 : sim s s0 -> sim (set_trace t s) s0.
  Proof. revert s s0. sim_tac. Qed.
  Lemma sim_trace_r t s s0 : sim s s0 -> sim s (set_trace t s0).
  Proof. revert s s0. sim_tac. Qed.

  (** ** Logging *)
  Lemma r_emit ev : rel (emit E ev) (emit E0 ev).
  Proof.
    split.
    - intros s s0 Hs.
      assert (R : exists t, emit E0 ev s0 = (Done tt, t) /\ s_front t = s_front s0 /\ forall u, sim u s0 -> sim u t).
      { unfold emit. destruct (s_logger s0); [|eauto]. rewrite (di_log _ _ D). eexists. split; [reflexivity|]. split; [reflexivity|].
        intros u. apply sim_trace_r. }
      destruct R as (t & R & Ft & St). unfold emit at 1, step_ok.
      destruct (s_logger s).
      + destruct (ev_logfail E (length (s_trace s))) eqn:ef.
        * split; [intros L; rewrite K_log in ef by exact L; discriminate|].
          intros a s0' Hr. rewrite R in Hr. injection Hr as <- <-. rewrite Ft. cbn.
          rewrite (ss_front _ _ (proj1 Hs)). apply begins_refl.
        * exists t. split; [exact R|]. apply St, sim_trace_l, Hs.
      + exists t. split; [exact R|]. apply St, Hs.
    - intros s0 a s0'. unfold emit. intros Hr. exists []. rewrite app_nil_r.
      destruct (s_logger s0); [destruct (ev_logfail _ _); [discriminate|]|]; injection Hr as <- <-; reflexivity.
  Qed.
  Lemma r_check : rel (check_termination E) (check_termination E0).
  Proof.
    split.
    - intros s s0 Hs. pose proof Hs as [Hd [Hl Hk]]. unfold check_termination, step_ok.
      assert (G : sim (set_flags (S (s_flags s)) s) (set_flags (S (s_flags s0)) s0)).
      { split; [destruct Hd; constructor; cbn; congruence|split; [exact Hl|exact Hk]]. }
      rewrite (ss_flags _ _ Hd) in *. destruct (ev_flag E (s_flags s0)) eqn:ef.
      + split.
        * intros L. rewrite <- (K_flag L), ef. eauto.
        * intros a s0' Hr. destruct (ev_flag E0 (s_flags s0)); [discriminate|]. injection Hr as <- <-. cbn.
          rewrite (ss_front _ _ Hd). apply begins_refl.
      + destruct (ev_flag E0 (s_flags s0)) eqn:ef0; [rewrite (di_flag _ _ D _ ef0) in ef; discriminate|]. eauto.
    - intros s0 a s0'. unfold check_termination. destruct (ev_flag _ _); [discriminate|]. intros Hr.
      injection Hr as <- <-. exists []. now rewrite app_nil_r.
  Qed.
  Lemma r_tick get put t : (forall l l0, limits_le l l0 -> limit_le (get l) (get l0)) ->
    (forall l l0 n m, limits_le l l0 -> n <= m -> limits_le (put (Some n) l) (put (Some m) l0)) ->
    (forall l l0 n, limits_le l l0 -> get l0 = None -> limits_le (put n l) l0) ->
    rel (tick get put t) (tick get put t).
  Proof.
    intros Hg Hp Hn. split.
    - intros s s0 Hs. pose proof Hs as [Hd [Hl Hk]]. unfold tick, step_ok. pose proof (Hg _ _ Hl) as Hle. unfold limit_le in Hle.
      assert (U : forall x y, limits_le x y -> (lock -> x = y) -> sim (set_lims x s) (set_lims y s0)).
      { intros x y H1 H2. split; [destruct Hd; constructor; cbn; congruence|split; [exact H1|exact H2]]. }
      destruct (get (s_lims s)) as [n|] eqn:e.
      + destruct n as [|n].
        * split.
          -- intros L. rewrite <- (Hk L), e. exists s0. split; [reflexivity|exact Hs].
          -- intros a s0' Hr. destruct (get (s_lims s0)) as [[|m]|]; [discriminate| |].
             ++ destruct (m =? 0); [discriminate|]. injection Hr as <- <-. cbn. rewrite (ss_front _ _ Hd). apply begins_refl.
             ++ injection Hr as <- <-. rewrite (ss_front _ _ Hd). apply begins_refl.
        * destruct (n =? 0) eqn:en.
          -- split.
             ++ intros L. specialize (Hk L). rewrite <- Hk, e, en. eexists. split; [reflexivity|]. apply U; [|reflexivity].
                apply Hp; [rewrite Hk at 1; rewrite <- Hk at 1; now rewrite Hk at 2|lia].
             ++ intros a s0' Hr. destruct (get (s_lims s0)) as [[|m]|]; [discriminate| |].
                ** destruct (m =? 0); [discriminate|]. injection Hr as <- <-. cbn. rewrite (ss_front _ _ Hd). apply begins_refl.
                ** injection Hr as <- <-. cbn. rewrite (ss_front _ _ Hd). apply begins_refl.
          -- apply Nat.eqb_neq in en. destruct (get (s_lims s0)) as [[|m]|] eqn:e0; [lia| |].
             ++ replace (m =? 0) with false by (symmetry; apply Nat.eqb_neq; lia). eexists. split; [reflexivity|]. apply U; [apply Hp; [exact Hl|lia]|].
                intros L. rewrite (Hk L) in *. congruence.
             ++ exists s0. split; [reflexivity|]. split; [destruct Hd; constructor; cbn; congruence|]. cbn. split; [apply Hn; assumption|].
                intros L. rewrite (Hk L) in *. congruence.
      + destruct (get (s_lims s0)) as [m|] eqn:e0; [destruct Hle|]. exists s0. split; [reflexivity|exact Hs].
    - intros s0 a s0'. unfold tick. intros Hr. exists []. rewrite app_nil_r.
      destruct (get (s_lims s0)) as [[|n]|]; [discriminate| |injection Hr as <- <-; reflexivity].
      destruct (n =? 0); [discriminate|]. injection Hr as <- <-. reflexivity.
  Qed.
  Ltac tick_tac := apply r_tick;
    [ intros l l0 (? & ? & ? & ?); assumption
    | intros l l0 n m (? & ? & ? & ?) Hnm; repeat split; cbn; assumption
    | intros l l0 n (? & ? & ? & ?) Hn; unfold limits_le; cbn in *; repeat split; try assumption; rewrite Hn; exact Logic.I ].
  Ltac modify_tac := apply r_modify;
    [intros ? ? [[] [? ?]]; split; [constructor; cbn; congruence|split; assumption]|reflexivity].
  Ltac gets_tac := apply r_gets; intros ? ? []; congruence.
  Ltac go := repeat first
    [ apply r_ret | apply r_throw | apply r_guard | apply r_unwrap | apply r_or_err | apply r_emit | apply r_check
    | gets_tac | modify_tac | tick_tac | (apply r_bind; [|intros ?]) ].
  Lemma r_candidate cs ph : rel (log_candidate E cs ph) (log_candidate E0 cs ph).
  Proof. unfold log_candidate. go. Qed.
  Lemma r_log_oracle r : rel (log_oracle_call E r) (log_oracle_call E0 r).
  Proof. unfold log_oracle_call. go. Qed.
  Lemma r_log_solution : rel (log_solution E) (log_solution E0).
  Proof. unfold log_solution. go. Qed.
  Lemma r_log_nd p : rel (log_non_dominated E p) (log_non_dominated E0 p).
  Proof. unfold log_non_dominated. go. Qed.

  (** ** Oracle *)
  Lemma r_solve_b b a :
    rel (log_start E RtOracleCall ;;; r <- oracle_solve E b a ;; log_end E ;;; check_termination E ;;; log_oracle_call E r ;;; ret r)
        (log_start E0 RtOracleCall ;;; r <- oracle_solve E0 b a ;; log_end E0 ;;; check_termination E0 ;;; log_oracle_call E0 r ;;; ret r).
  Proof.
    apply r_bind; [apply r_emit|]. intros _.
    assert (G : grows (r <- oracle_solve E0 b a ;; log_end E0 ;;; check_termination E0 ;;; log_oracle_call E0 r ;;; ret r)).
    { intros s0 r s0'. unfold bind at 1.
      assert (F : s_front (snd (oracle_solve E0 b a s0)) = s_front s0)
        by (unfold oracle_solve; destruct (ev_oracle _ _); reflexivity).
      destruct (oracle_solve E0 b a s0) as [[r0|x] s1]; [|discriminate]. cbn [snd] in F. rewrite <- F. revert r s1 s0' F.
      intros r s1 s0' _ Hr.
      assert (R : rel (log_end E ;;; check_termination E ;;; log_oracle_call E r0 ;;; ret r0)
                      (log_end E0 ;;; check_termination E0 ;;; log_oracle_call E0 r0 ;;; ret r0)).
      { repeat (apply r_bind; [first [apply r_emit|apply r_check|apply r_log_oracle]|intros _]). apply r_ret. }
      eapply (proj2 R); exact Hr. }
    split; [|exact G]. intros s s0 Hs. pose proof Hs as [Hd [Hl Hk]].
    unfold bind at 1, oracle_solve at 1.
    set (q := mkQuery (s_calls s) (s_flags s) b (p_cls (s_prob s)) a).
    assert (Hq : mkQuery (s_calls s0) (s_flags s0) b (p_cls (s_prob s0)) a = q) by (unfold q; destruct Hd; congruence).
    assert (U : forall o, sim (set_ora o (set_calls (S (s_calls s)) s)) (set_ora o (set_calls (S (s_calls s0)) s0))).
    { intros o. split; [destruct Hd; constructor; cbn; congruence|split; assumption]. }
    assert (R : forall r, rel (log_end E ;;; check_termination E ;;; log_oracle_call E r ;;; ret r)
                      (log_end E0 ;;; check_termination E0 ;;; log_oracle_call E0 r ;;; ret r)).
    { intros r. repeat (apply r_bind; [first [apply r_emit|apply r_check|apply r_log_oracle]|intros _]). apply r_ret. }
    assert (Q : forall an, ev_oracle E0 q = an -> (r <- oracle_solve E0 b a ;; log_end E0 ;;; check_termination E0 ;;; log_oracle_call E0 r ;;; ret r) s0 =
      match an with
      | ASat m => (log_end E0 ;;; check_termination E0 ;;; log_oracle_call E0 RSat ;;; ret RSat) (set_ora (OModel m) (set_calls (S (s_calls s0)) s0))
      | AUnsat core => (log_end E0 ;;; check_termination E0 ;;; log_oracle_call E0 RUnsat ;;; ret RUnsat) (set_ora (OCore core) (set_calls (S (s_calls s0)) s0))
      | AInterrupted => (log_end E0 ;;; check_termination E0 ;;; log_oracle_call E0 RInterrupted ;;; ret RInterrupted) (set_ora OIdle (set_calls (S (s_calls s0)) s0))
      | AErr => (Exit (EErr ErrOracle), set_ora OIdle (set_calls (S (s_calls s0)) s0))
      end).
    { intros an Han. unfold bind at 1, oracle_solve. rewrite Hq, Han. destruct an; reflexivity. }
    assert (Z : forall r c, (r = (log_end E ;;; check_termination E ;;; log_oracle_call E c ;;; ret c) (set_ora OIdle (set_calls (S (s_calls s)) s))) ->
              ev_flag E (s_flags s) = true -> exists x, fst r = Exit x /\ s_front (snd r) = s_front s).
    { intros r c -> Hf. unfold bind, log_end, emit. cbn [set_ora set_calls s_logger s_trace].
      destruct (s_logger s); [destruct (ev_logfail E (length (s_trace s))); [eexists; split; reflexivity|]|];
        unfold check_termination; cbn [set_ora set_calls set_trace s_flags]; rewrite Hf; eexists; split; reflexivity. }
    assert (B : forall (s' : st) an s0', s_front s' = s_front s -> (r <- oracle_solve E0 b a ;; log_end E0 ;;; check_termination E0 ;;; log_oracle_call E0 r ;;; ret r) s0 = (Done an, s0') ->
              begins (s_front s') (s_front s0')).
    { intros s' an s0' Hf Hr. destruct (G _ _ _ Hr) as [l ->]. rewrite Hf, (ss_front _ _ Hd). left. eauto. }
    destruct (di_oracle _ _ D q) as [H|[H|[H Hf]]].
    - rewrite H. specialize (Q _ eq_refl). destruct (ev_oracle E0 q) as [m|core| |] eqn:e0.
      + pose proof (proj1 (R RSat) _ _ (U (OModel m))) as P. unfold step_ok in *. rewrite Q. exact P.
      + pose proof (proj1 (R RUnsat) _ _ (U (OCore core))) as P. unfold step_ok in *. rewrite Q. exact P.
      + pose proof (proj1 (R RInterrupted) _ _ (U OIdle)) as P. unfold step_ok in *. rewrite Q. exact P.
      + split; [intros _; eexists; split; [exact Q|apply U]|]. rewrite Q. discriminate.
    - rewrite H. split.
      + intros L. rewrite (K_oracle L) in H. eexists. split; [apply (Q _ H)|apply U].
      + intros an s0' Hr. eapply B; [|exact Hr]. reflexivity.
    - rewrite H. destruct (Z _ RInterrupted eq_refl Hf) as (x & Hx & Hfr).
      pose proof (proj1 (R RInterrupted) _ _ (U OIdle)) as P.
      destruct ((log_end E ;;; check_termination E ;;; log_oracle_call E RInterrupted ;;; ret RInterrupted) _) as [r s'].
      cbn [fst snd] in Hx, Hfr. subst r. cbn [step_ok] in *. split.
      + intros L. rewrite (K_oracle L) in H. rewrite (Q _ H). apply P, L.
      + intros an s0' Hr. eapply B; [exact Hfr|exact Hr].
  Qed.

  Lemma r_solve a : rel (k_solve_assumps E a) (k_solve_assumps E0 a).
  Proof. exact (r_solve_b false a). Qed.
  Lemma r_add_clause c : rel (add_clause c) (add_clause c).
  Proof. unfold add_clause. modify_tac. Qed.
  Lemma r_add_clauses cs : rel (add_clauses cs) (add_clauses cs).
  Proof. apply r_forM, r_add_clause. Qed.
  Lemma r_get_cost i sol : rel (get_cost i sol) (get_cost i sol).
  Proof. unfold get_cost. go. Qed.
  Lemma r_get_costs n sol : rel (get_costs n sol) (get_costs n sol).
  Proof. apply r_mapM. intros i. apply r_get_cost. Qed.
  Lemma r_get_enc i : rel (get_enc i) (get_enc i).
  Proof. unfold get_enc. go. Qed.
  Lemma r_extend i lo hi : rel (extend_encoding i lo hi) (extend_encoding i lo hi).
  Proof.
    unfold extend_encoding. apply r_bind; [apply r_get_enc|]. intros e. apply r_bind; [gets_tac|]. intros n.
    destruct (oe_encode_ub e lo hi n) as [[e' cl] n']. apply r_bind; [modify_tac|]. intros _. apply r_add_clauses.
  Qed.
  Lemma r_new_var : rel new_var new_var.
  Proof. unfold new_var. go. Qed.
  Lemma r_solution : rel oracle_solution oracle_solution.
  Proof. unfold oracle_solution. go. destruct a1; go. Qed.
  Lemma r_core : rel oracle_core oracle_core.
  Proof. unfold oracle_core. go. destruct a; go. Qed.
  Lemma r_sol_costs : rel get_solution_and_internal_costs get_solution_and_internal_costs.
  Proof.
    unfold get_solution_and_internal_costs. apply r_bind; [apply r_solution|]. intros sol.
    apply r_bind; [gets_tac|]. intros n. apply r_bind; [apply r_get_costs|]. intros cs. go.
  Qed.
  Lemma r_unphase : rel unphase_solution unphase_solution.
  Proof. unfold unphase_solution. apply r_bind; [gets_tac|]. intros []; go. Qed.
  Lemma r_external cs : rel (externalize_internal_costs cs) (externalize_internal_costs cs).
  Proof. unfold externalize_internal_costs. go. Qed.

  (** ** Yielding *)
  Definition still {A} (c : M A) : Prop := forall s, s_front (snd (c s)) = s_front s.
  Lemma still_bind {A B} (c : M A) (k : A -> M B) : still c -> (forall a, still (k a)) -> still (bind c k).
  Proof.
    intros H1 H2 s. specialize (H1 s). unfold bind. destruct (c s) as [[a|x] s']; cbn [snd] in *; [|exact H1].
    now rewrite H2.
  Qed.
  Lemma still_emit V ev : still (emit V ev).
  Proof. intros s. unfold emit. destruct (s_logger s); [destruct (ev_logfail _ _)|]; reflexivity. Qed.
  Lemma still_tick g p t : still (tick g p t).
  Proof. intros s. unfold tick. destruct (g (s_lims s)) as [[|n]|]; [reflexivity|destruct (n =? 0); reflexivity|reflexivity]. Qed.
  Lemma still_nd V p : still (log_non_dominated V p).
  Proof. repeat (apply still_bind; [intros s; first [reflexivity|apply still_emit]|intros _]). apply still_tick. Qed.
  Lemma still_sol V : still (log_solution V).
  Proof. repeat (apply still_bind; [intros s; first [reflexivity|apply still_emit]|intros _]). apply still_tick. Qed.
  (** what is left of a point when logging it is refused *)
  Definition push_then V (p : nd_point assignment) (r : M unit) : M unit :=
    t <- catch (log_non_dominated V p) ;; front_push p ;;; r ;;; rethrow t.
  Lemma fin_eq V p s : yield_finish V p s = push_then V p (log_end V) s.
  Proof. reflexivity. Qed.
  Lemma push_eq V p r s : push_then V p r s =
    match log_non_dominated V p s with
    | (Done u, s1) => (front_push p ;;; r ;;; rethrow (inl u)) s1
    | (Exit (ETerm t), s1) => (front_push p ;;; r ;;; rethrow (inr (ETerm t))) s1
    | (Exit (EErr e), s1) => (front_push p ;;; r ;;; rethrow (inr (EErr e))) s1
    | (Exit x, s1) => (Exit x, s1)
    end.
  Proof. unfold push_then, bind at 1, catch. destruct (log_non_dominated V p s) as [[u|[]] s1]; reflexivity. Qed.
  Lemma push_front V p r s : still r ->
    s_front (snd (push_then V p r s)) = s_front s \/ s_front (snd (push_then V p r s)) = s_front s ++ [p].
  Proof.
    intros Hr. unfold push_then, bind, catch. pose proof (still_nd V p s) as F.
    destruct (log_non_dominated V p s) as [[u|x] s1]; cbn [snd] in F.
    - right. cbn [front_push modify]. pose proof (Hr (set_front (front_extend (s_front s1) [p]) s1)) as F2.
      unfold front_push, modify. destruct (r _) as [[u2|x2] s2]; cbn [snd] in *; [cbn|]; rewrite F2; cbn; now rewrite F.
    - destruct x as [t|e| |]; [| |left; exact F|left; exact F];
        (right; unfold front_push, modify; pose proof (Hr (set_front (front_extend (s_front s1) [p]) s1)) as F2;
         destruct (r _) as [[u2|x2] s2]; cbn [snd] in *; [cbn|]; rewrite F2; cbn; now rewrite F).
  Qed.
  Lemma push_done V p r s s' : still r -> push_then V p r s = (Done tt, s') -> s_front s' = s_front s ++ [p].
  Proof.
    intros Hr. unfold push_then, bind, catch. pose proof (still_nd V p s) as F.
    destruct (log_non_dominated V p s) as [[u|x] s1]; cbn [snd] in F.
    - unfold front_push, modify. pose proof (Hr (set_front (front_extend (s_front s1) [p]) s1)) as F2.
      destruct (r _) as [[u2|x2] s2]; [|discriminate]. cbn [snd] in F2. destruct u. intros H. injection H as <-. rewrite F2. cbn. now rewrite F.
    - destruct x as [t|e| |]; try discriminate; unfold front_push, modify; destruct (r _) as [[u2|x2] s2]; discriminate.
  Qed.
  Lemma r_push p r r0 : rel r r0 -> still r -> still r0 -> rel (push_then E p r) (push_then E0 p r0).
  Proof.
    intros Rr Sr Sr0. split.
    2:{ intros s0 [] s0' H. rewrite (push_done _ _ _ _ _ Sr0 H). eauto. }
    intros s s0 Hs.
    assert (B : forall (s' : st) s0', s_front s' = s_front s \/ s_front s' = s_front s ++ [p] -> push_then E0 p r0 s0 = (Done tt, s0') ->
              begins (s_front s') (s_front s0')).
    { intros s' s0' Hf Hd. rewrite (push_done _ _ _ _ _ Sr0 Hd). destruct Hs as [Hs _]. rewrite <- (ss_front _ _ Hs).
      destruct Hf as [-> | ->]; [left; eauto|apply begins_refl]. }
    pose proof (push_front E p r s Sr) as PF.
    assert (W : forall (t : unit + exit) s' s0', sim s' s0' ->
      step_ok ((front_push p ;;; r ;;; rethrow t) s') ((front_push p ;;; r0 ;;; rethrow t) s0')).
    { intros t s' s0' Hs'.
      assert (R : rel (r ;;; rethrow t) (r0 ;;; rethrow t)).
      { apply r_bind; [exact Rr|]. intros _. destruct t; [apply r_ret|apply r_throw]. }
      apply (proj1 R (set_front (front_extend (s_front s') [p]) s') (set_front (front_extend (s_front s0') [p]) s0')).
      destruct Hs' as [[] [? ?]]. split; [constructor; cbn; congruence|split; assumption]. }
    pose proof (proj1 (r_log_nd p) s s0 Hs) as L.
    assert (N : forall e e' s1, log_non_dominated E p s = (Exit e, s1) ->
      push_then E p r s = (front_push p ;;; r ;;; rethrow (inr e')) s1 ->
      (lock -> exists s1', sim s1 s1' /\ push_then E0 p r0 s0 = (front_push p ;;; r0 ;;; rethrow (inr e')) s1') ->
      step_ok (push_then E p r s) (push_then E0 p r0 s0)).
    { intros e e' s1 He Hp Hk. rewrite Hp in *.
      destruct ((front_push p ;;; r ;;; rethrow (inr e')) s1) as [[a|x] s2] eqn:e2.
      { exfalso. revert e2. unfold bind, front_push, modify, rethrow. destruct (r _) as [[?|?] ?]; discriminate. }
      split.
      - intros K. destruct (Hk K) as (s1' & H1 & H2). pose proof (W (inr e') s1 s1' H1) as Q. rewrite e2, <- H2 in Q. apply Q, K.
      - intros [] s0' Hd. apply B; [exact PF|exact Hd]. }
    pose proof (push_eq E p r s) as Q. pose proof (push_eq E0 p r0 s0) as Q0.
    destruct (log_non_dominated E p s) as [[u|x] s1] eqn:e1; cbn [step_ok] in L.
    - destruct L as (s1' & L1 & L2). rewrite L1 in Q0. rewrite Q, Q0. apply W, L2.
    - destruct L as [L1 L2]. destruct x as [t|er| |].
      + eapply N; [reflexivity|exact Q|]. intros K. destruct (L1 K) as (s1' & L3 & L4). rewrite L3 in Q0. eauto.
      + eapply N; [reflexivity|exact Q|]. intros K. destruct (L1 K) as (s1' & L3 & L4). rewrite L3 in Q0. eauto.
      + rewrite Q in *. split; [intros K; destruct (L1 K) as (s1' & L3 & L4); rewrite L3 in Q0; eauto|].
        intros [] s0' Hd. apply B; [exact PF|exact Hd].
      + rewrite Q in *. split; [intros K; destruct (L1 K) as (s1' & L3 & L4); rewrite L3 in Q0; eauto|].
        intros [] s0' Hd. apply B; [exact PF|exact Hd].
  Qed.
  Lemma still_ret {A} (a : A) : still (ret a).
  Proof. intros s. reflexivity. Qed.
  Lemma r_finish p : rel (yield_finish E p) (yield_finish E0 p).
  Proof. apply (r_push p (log_end E) (log_end E0)); [apply r_emit|apply still_emit|apply still_emit]. Qed.

  (** the point in the end has the solutions found so far *)
  Definition nd_ext (p p0 : nd_point assignment) : Prop :=
    nd_costs p0 = nd_costs p /\ exists sols, nd_sols p0 = nd_sols p ++ sols.
  Lemma ext_trans p q r : nd_ext p q -> nd_ext q r -> nd_ext p r.
  Proof. intros [H1 [a H2]] [H3 [b H4]]. split; [congruence|]. exists (a ++ b). now rewrite H4, H2, app_assoc. Qed.
  Lemma ext_add p sol : nd_ext p (nd_add_sol p sol).
  Proof. split; [reflexivity|]. cbn. eauto. Qed.
  Lemma ext_refl p : nd_ext p p.
  Proof. split; [reflexivity|]. exists []. now rewrite app_nil_r. Qed.

  (** the part of [yield_body] after the solution was stored *)
  Definition yield_rest V assumps (sol : assignment) (nd : nd_point assignment) : M ((assignment * nd_point assignment) + unit) :=
    o <- gets s_opts ;;
    if enum_done (o_enum o) (nd_n_sols nd) then
      yield_finish V nd ;;; ret (inr tt)
    else
      check_termination V ;;;
      os <- gets (fun s => p_objs (s_prob s)) ;;
      c <- unwrap (yield_block_clause o os sol) ;;
      add_clause c ;;;
      r <- k_solve_assumps V assumps ;;
      match r with
      | RUnsat => yield_finish V nd ;;; ret (inr tt)
      | _ =>
          check_termination V ;;;
          sol' <- oracle_solution ;;
          ret (inl (sol', nd))
      end.
  Lemma r_rest a sol nd : rel (yield_rest E a sol nd) (yield_rest E0 a sol nd).
  Proof.
    unfold yield_rest. apply r_bind; [gets_tac|]. intros o.
    assert (F : rel (yield_finish E nd ;;; ret (@inr (assignment * nd_point assignment) unit tt)) (yield_finish E0 nd ;;; ret (inr tt)))
      by (apply r_bind; [apply r_finish|intros _; apply r_ret]).
    destruct (enum_done _ _); [exact F|].
    apply r_bind; [apply r_check|]. intros _. apply r_bind; [gets_tac|]. intros os. apply r_bind; [apply r_unwrap|]. intros c.
    apply r_bind; [apply r_add_clause|]. intros _. apply r_bind; [apply r_solve|]. intros r.
    assert (G : rel (check_termination E ;;; sol' <- oracle_solution ;; ret (@inl _ unit (sol', nd)))
                    (check_termination E0 ;;; sol' <- oracle_solution ;; ret (inl (sol', nd)))).
    { apply r_bind; [apply r_check|]. intros _. apply r_bind; [apply r_solution|]. intros ?. apply r_ret. }
    destruct r; [exact G|exact F|exact G].
  Qed.

  Definition fin (nd : nd_point assignment) (c0 : M unit) : Prop := forall s0 s0', c0 s0 = (Done tt, s0') ->
    exists nd0, nd_ext nd nd0 /\ s_front s0' = s_front s0 ++ [nd0].
  Definition yield_sol V (nd : nd_point assignment) (c : M unit) : M unit :=
    t <- catch (log_solution V) ;;
    match t with inr x => push_then V nd (ret tt) ;;; throw x | inl _ => c end.
  Lemma sol_eq V nd c s : yield_sol V nd c s =
    match log_solution V s with
    | (Done u, s1) => c s1
    | (Exit (ETerm t), s1) => (push_then V nd (ret tt) ;;; throw (ETerm t)) s1
    | (Exit (EErr e), s1) => (push_then V nd (ret tt) ;;; throw (EErr e)) s1
    | (Exit x, s1) => (Exit x, s1)
    end.
  Proof. unfold yield_sol, bind at 1, catch. destruct (log_solution V s) as [[u|[]] s1]; reflexivity. Qed.
  Lemma push_throw V nd x s : exists y s', (push_then V nd (ret tt) ;;; throw (A := unit) x) s = (Exit y, s') /\
    (s_front s' = s_front s \/ s_front s' = s_front s ++ [nd]).
  Proof.
    pose proof (push_front V nd (ret tt) s (still_ret tt)) as P. unfold bind at 1.
    destruct (push_then V nd (ret tt) s) as [[u|y] s1]; cbn [snd] in P; do 2 eexists; split; try reflexivity; exact P.
  Qed.
  Lemma r_yield_sol nd c c0 : rel c c0 -> fin nd c0 -> rel (yield_sol E nd c) (yield_sol E0 nd c0).
  Proof.
    intros R F.
    assert (DN : forall s0 s0' u, yield_sol E0 nd c0 s0 = (Done u, s0') ->
              exists s1, s_front s1 = s_front s0 /\ c0 s1 = (Done tt, s0')).
    { intros s0 s0' [] H. rewrite sol_eq in H. pose proof (still_sol E0 s0) as S.
      destruct (log_solution E0 s0) as [[u|x] s1]; cbn [snd] in S.
      - eauto.
      - destruct x as [t|e| |]; try discriminate.
        + destruct (push_throw E0 nd (ETerm t) s1) as (y & s' & H' & _). congruence.
        + destruct (push_throw E0 nd (EErr e) s1) as (y & s' & H' & _). congruence. }
    split.
    2:{ intros s0 u s0' H. destruct (DN _ _ _ H) as (s1 & H1 & H2). rewrite <- H1. eapply (proj2 R); exact H2. }
    intros s s0 Hs. pose proof (proj1 r_log_solution s s0 Hs) as L. pose proof (still_sol E s) as S.
    assert (B : forall (s' : st) u s0', s_front s' = s_front s \/ s_front s' = s_front s ++ [nd] ->
              yield_sol E0 nd c0 s0 = (Done u, s0') -> begins (s_front s') (s_front s0')).
    { intros s' u s0' Hf Hd. destruct (DN _ _ _ Hd) as (s1 & H1 & H2). destruct (F _ _ H2) as (nd0 & [X1 [ss X2]] & ->).
      rewrite H1, <- (ss_front _ _ (proj1 Hs)). destruct Hf as [-> | ->]; [left; eauto|].
      right. exists (s_front s), nd, nd0, [], ss. auto. }
    assert (RP : forall x, rel (push_then E nd (ret tt) ;;; throw (A := unit) x) (push_then E0 nd (ret tt) ;;; throw x)).
    { intros x. apply r_bind; [apply r_push; [apply r_ret|apply still_ret|apply still_ret]|]. intros _. apply r_throw. }
    pose proof (sol_eq E nd c s) as Q. pose proof (sol_eq E0 nd c0 s0) as Q0. rewrite Q in *. clear Q.
    destruct (log_solution E s) as [[u|x] s1]; cbn [step_ok snd] in *.
    - destruct L as (s1' & L1 & L2). rewrite L1 in Q0. rewrite Q0. exact (proj1 R _ _ L2).
    - destruct L as [L1 L2].
      assert (T : forall x', (lock -> exists s1', sim s1 s1' /\ yield_sol E0 nd c0 s0 = (push_then E0 nd (ret tt) ;;; throw x') s1') ->
        step_ok ((push_then E nd (ret tt) ;;; throw x') s1) (yield_sol E0 nd c0 s0)).
      { intros x' Hk. destruct (push_throw E nd x' s1) as (y & s2 & H1 & H2). rewrite H1.
        split.
        - intros K. destruct (Hk K) as (s1' & K1 & K2). pose proof (proj1 (RP x') s1 s1' K1) as P. rewrite H1, <- K2 in P. apply P, K.
        - intros u s0' Hd. apply (B s2 u s0'); [|exact Hd]. rewrite S in H2. exact H2. }
      destruct x as [t|e| |].
      + apply T. intros K. destruct (L1 K) as (s1' & L3 & L4). rewrite L3 in Q0. eauto.
      + apply T. intros K. destruct (L1 K) as (s1' & L3 & L4). rewrite L3 in Q0. eauto.
      + split; [intros K; destruct (L1 K) as (s1' & L3 & L4); rewrite L3 in Q0; eauto|].
        intros u s0' Hd. apply (B s1 u s0'); [left; exact S|exact Hd].
      + split; [intros K; destruct (L1 K) as (s1' & L3 & L4); rewrite L3 in Q0; eauto|].
        intros u s0' Hd. apply (B s1 u s0'); [left; exact S|exact Hd].
  Qed.

  Definition yield_iter V cs assumps (sol : assignment) (nd : nd_point assignment) (next : assignment * nd_point assignment -> M unit) : M unit :=
    n <- gets (fun s => n_objs (s_stats s)) ;;
    cs' <- get_costs n sol ;;
    guard (if list_eq_dec Nat.eq_dec cs' cs then true else false) ;;;
    mo <- gets (fun s => vm_max_orig (p_vm (s_prob s))) ;;
    yield_sol V (nd_add_sol nd (truncate sol mo))
      (r <- yield_rest V assumps (truncate sol mo) (nd_add_sol nd (truncate sol mo)) ;;
       match r with inl x => next x | inr u => ret u end).
  Lemma yield_loop_eq V cs a n sol nd s : loop (S n) (yield_body V cs a) (sol, nd) s =
    yield_iter V cs a sol nd (loop n (yield_body V cs a)) s.
  Proof.
    cbn [loop]. unfold yield_iter, yield_body at 1.
    rewrite bind_assoc. apply bind_ext. intros n1 s1. rewrite bind_assoc. apply bind_ext. intros cs' s2.
    rewrite bind_assoc. apply bind_ext. intros [] s3. rewrite bind_assoc. apply bind_ext. intros mo s4. cbv zeta.
    unfold yield_sol. rewrite bind_assoc. apply bind_ext. intros [u|x] s5.
    - apply bind_ext. intros [y|y] s6; reflexivity.
    - unfold push_then. rewrite !bind_assoc. apply bind_ext. intros nt s6. rewrite !bind_assoc. apply bind_ext. intros [] s7.
      destruct nt; reflexivity.
  Qed.
  Lemma still_check V : still (check_termination V).
  Proof. intros s. unfold check_termination. destruct (ev_flag _ _); reflexivity. Qed.
  Lemma still_gets {A} (f : st -> A) : still (gets f).
  Proof. intros s. reflexivity. Qed.
  Lemma still_unwrap {A} (o : option A) : still (unwrap o).
  Proof. intros s. destruct o; reflexivity. Qed.
  Lemma still_guard b : still (guard b).
  Proof. intros s. destruct b; reflexivity. Qed.
  Lemma still_throw {A} x : still (throw (A := A) x).
  Proof. intros s. reflexivity. Qed.
  Lemma still_solve V a : still (k_solve_assumps V a).
  Proof.
    unfold k_solve_assumps. apply still_bind; [apply still_emit|intros _]. apply still_bind.
    { intros s. unfold oracle_solve. destruct (ev_oracle _ _); reflexivity. }
    intros r. apply still_bind; [apply still_emit|intros _]. apply still_bind; [apply still_check|intros _].
    apply still_bind; [|intros _; apply still_ret]. unfold log_oracle_call.
    apply still_bind; [intros s; reflexivity|intros _]. apply still_bind; [apply still_emit|intros _]. apply still_tick.
  Qed.
  Lemma still_solution : still oracle_solution.
  Proof.
    unfold oracle_solution. apply still_bind; [apply still_gets|intros v]. apply still_bind; [apply still_unwrap|intros v'].
    apply still_bind; [apply still_gets|intros o]. destruct o; first [apply still_ret|apply still_throw].
  Qed.
  Lemma still_cost i sol : still (get_cost i sol).
  Proof.
    unfold get_cost. apply still_bind; [apply still_gets|intros v]. apply still_bind; [apply still_guard|intros _].
    apply still_bind; [apply still_gets|intros o]. apply still_bind; [apply still_unwrap|intros o']. apply still_ret.
  Qed.
  Lemma still_costs n sol : still (get_costs n sol).
  Proof.
    unfold get_costs. induction (seq 0 n) as [|i l IH]; cbn [mapM]; [apply still_ret|].
    apply still_bind; [apply still_cost|intros c]. apply still_bind; [exact IH|intros cs]. apply still_ret.
  Qed.
  Lemma fin_still {A} nd (c : M A) (k : A -> M unit) : still c -> (forall a, fin nd (k a)) -> fin nd (bind c k).
  Proof.
    intros S F s0 s0'. specialize (S s0). unfold bind. destruct (c s0) as [[a|x] s1]; [|discriminate].
    cbn [snd] in S. rewrite <- S. apply F.
  Qed.
  Lemma fin_weak p q c : nd_ext p q -> fin q c -> fin p c.
  Proof. intros X F s0 s0' H. destruct (F _ _ H) as (nd0 & X0 & H0). exists nd0. split; [eapply ext_trans; eauto|exact H0]. Qed.
  Lemma fin_throw nd x : fin nd (throw x).
  Proof. intros s0 s0' H. discriminate. Qed.
  Lemma fin_finish V nd (r : M unit) : (forall s u s', r s = (Done u, s') -> s' = s) -> fin nd (yield_finish V nd ;;; r).
  Proof.
    intros Hr s0 s0'. unfold bind at 1. destruct (yield_finish V nd s0) as [[[]|x] s1] eqn:e; [|discriminate]. intros H.
    apply Hr in H. subst. exists nd. split; [apply ext_refl|]. rewrite fin_eq in e. eapply push_done; [apply still_emit|exact e].
  Qed.
  Lemma fin_rest V a sol nd1 next : (forall x, fin (snd x) (next x)) ->
    fin nd1 (r <- yield_rest V a sol nd1 ;; match r with inl x => next x | inr u => ret u end).
  Proof.
    intros Hn.
      intros s2 s2' H. unfold yield_rest in H. rewrite bind_assoc in H. revert s2 s2' H.
      match goal with |- forall s2 s2', ?c s2 = (Done tt, s2') -> _ => change (fin nd1 c) end.
      apply fin_still; [apply still_gets|intros o].
      assert (FF : fin nd1 (r <- (yield_finish V nd1 ;;; ret (@inr (assignment * nd_point assignment) unit tt)) ;; match r with inl x => next x | inr u => ret u end)).
      { intros s2 s2' H. rewrite bind_assoc in H. revert H. apply fin_finish. intros s u0 s' H. now injection H as _ <-. }
      destruct (enum_done _ _); [exact FF|].
      intros s2 s2' H. rewrite bind_assoc in H. revert s2 s2' H.
      match goal with |- forall s2 s2', ?c s2 = (Done tt, s2') -> _ => change (fin nd1 c) end.
      apply fin_still; [apply still_check|intros _].
      intros s2 s2' H. rewrite bind_assoc in H. revert s2 s2' H.
      match goal with |- forall s2 s2', ?c s2 = (Done tt, s2') -> _ => change (fin nd1 c) end.
      apply fin_still; [apply still_gets|intros os].
      intros s2 s2' H. rewrite bind_assoc in H. revert s2 s2' H.
      match goal with |- forall s2 s2', ?c s2 = (Done tt, s2') -> _ => change (fin nd1 c) end.
      apply fin_still; [apply still_unwrap|intros c].
      intros s2 s2' H. rewrite bind_assoc in H. revert s2 s2' H.
      match goal with |- forall s2 s2', ?c s2 = (Done tt, s2') -> _ => change (fin nd1 c) end.
      apply fin_still; [intros s; reflexivity|intros _].
      intros s2 s2' H. rewrite bind_assoc in H. revert s2 s2' H.
      match goal with |- forall s2 s2', ?c s2 = (Done tt, s2') -> _ => change (fin nd1 c) end.
      apply fin_still; [apply still_solve|intros r].
      assert (FG : fin nd1 (r <- (check_termination V ;;; sol' <- oracle_solution ;; ret (@inl _ unit (sol', nd1))) ;; match r with inl x => next x | inr u => ret u end)).
      { intros s2 s2' H. rewrite bind_assoc in H. revert s2 s2' H.
        match goal with |- forall s2 s2', ?c s2 = (Done tt, s2') -> _ => change (fin nd1 c) end.
        apply fin_still; [apply still_check|intros _].
        intros s2 s2' H. rewrite bind_assoc in H. revert s2 s2' H.
        match goal with |- forall s2 s2', ?c s2 = (Done tt, s2') -> _ => change (fin nd1 c) end.
        apply fin_still; [apply still_solution|intros sol'].
        intros s2 s2' H. exact (Hn (sol', nd1) s2 s2' H). }
      destruct r; [exact FG|exact FF|exact FG].
  Qed.
  Lemma fin_iter V cs a sol nd next : (forall x, fin (snd x) (next x)) -> fin nd (yield_iter V cs a sol nd next).
  Proof.
    intros Hn. unfold yield_iter. apply fin_still; [apply still_gets|intros n]. apply fin_still; [apply still_costs|intros cs'].
    apply fin_still; [apply still_guard|intros _]. apply fin_still; [apply still_gets|intros mo].
    set (nd1 := nd_add_sol nd (truncate sol mo)). apply (fin_weak _ nd1); [apply ext_add|].
    intros s0 s0' H. rewrite sol_eq in H. pose proof (still_sol V s0) as S.
    destruct (log_solution V s0) as [[u|x] s1]; cbn [snd] in S.
    - rewrite <- S. revert H. now apply fin_rest.
    - exfalso. destruct x as [t|e| |]; try discriminate.
      + destruct (push_throw V nd1 (ETerm t) s1) as (y & s' & H' & _). congruence.
      + destruct (push_throw V nd1 (EErr e) s1) as (y & s' & H' & _). congruence.
  Qed.
  Lemma fin_loop V cs a n : forall x, fin (snd x) (loop n (yield_body V cs a) x).
  Proof.
    induction n as [|n IH]; intros [sol nd]; cbn [snd]; [cbn [loop]; apply fin_throw|].
    intros s0 s0' H. rewrite yield_loop_eq in H. revert H. apply fin_iter, IH.
  Qed.
  Lemma r_yield_loop cs a n : forall n0, n <= n0 -> (lock -> n = n0) -> forall x,
    rel (loop n (yield_body E cs a) x) (loop n0 (yield_body E0 cs a) x).
  Proof.
    induction n as [|n IH]; intros n0 Hn Hk [sol nd].
    - assert (G : grows (loop n0 (yield_body E0 cs a) (sol, nd))).
      { intros s0 [] s0' H. destruct (fin_loop _ _ _ _ _ _ _ H) as (nd0 & _ & ->). eauto. }
      split; [|exact G]. intros s s0 Hs. split.
      + intros L. specialize (Hk L). subst n0. exists s0. split; [reflexivity|exact Hs].
      + intros u s0' H. destruct (G _ _ _ H) as [l ->]. cbn. rewrite (ss_front _ _ (proj1 Hs)). left. eauto.
    - destruct n0 as [|n0]; [lia|]. eapply r_ext; [intros s; apply yield_loop_eq|intros s; apply yield_loop_eq|].
      unfold yield_iter. apply r_bind; [gets_tac|]. intros m. apply r_bind; [apply r_get_costs|]. intros cs'.
      apply r_bind; [apply r_guard|]. intros _. apply r_bind; [gets_tac|]. intros mo.
      set (nd1 := nd_add_sol nd (truncate sol mo)).
      assert (IH' : forall x, rel (loop n (yield_body E cs a) x) (loop n0 (yield_body E0 cs a) x))
        by (apply IH; [lia|intros L; specialize (Hk L); lia]).
      apply r_yield_sol.
      + apply r_bind; [apply r_rest|]. intros [x|u]; [apply IH'|apply r_ret].
      + apply fin_rest. intros x. apply fin_loop.
  Qed.
  Lemma r_yield cs a sol : rel (yield_solutions E cs a sol) (yield_solutions E0 cs a sol).
  Proof.
    unfold yield_solutions. apply r_bind; [gets_tac|]. intros n. apply r_bind; [apply r_guard|]. intros _.
    apply r_bind; [apply r_emit|]. intros _. apply r_bind; [apply r_unphase|]. intros _.
    apply r_bind; [apply r_external|]. intros ext. apply r_yield_loop; [apply (di_fuel _ _ D)|exact K_fuel].
  Qed.

  (** ** The algorithms *)
  Ltac all := repeat first
    [ apply r_ret | apply r_throw | apply r_guard | apply r_unwrap | apply r_or_err | apply r_emit | apply r_check
    | apply r_solve | apply r_solution | apply r_get_cost | apply r_get_costs | apply r_get_enc | apply r_extend | apply r_new_var
    | apply r_add_clauses | apply r_add_clause | apply r_core | apply r_sol_costs | apply r_candidate | apply r_yield
    | gets_tac | modify_tac | (apply r_bind; [|intros ?]) ].
  Ltac cases := all; repeat (match goal with
    | |- rel (match ?x with _ => _ end) _ => destruct x
    | |- rel (let '(_, _) := ?x in _) _ => destruct x
    end; all).
  Lemma r_linsu_start idx base ub : rel (linsu_start E idx base ub) (linsu_start E0 idx base ub).
  Proof. unfold linsu_start. cases. Qed.
  Lemma r_linsu_final idx base c sol : rel (linsu_final E idx base c sol) (linsu_final E0 idx base c sol).
  Proof. unfold linsu_final. cases. Qed.
  Lemma r_linsu_body idx base lb x : rel (linsu_body E idx base lb x) (linsu_body E0 idx base lb x).
  Proof. unfold linsu_body. cases. Qed.
  Lemma r_linsu idx base ub lb : rel (linsu E idx base ub lb) (linsu E0 idx base ub lb).
  Proof.
    unfold linsu. apply r_bind; [apply r_emit|]. intros _. apply r_bind; [apply r_linsu_start|]. intros [x|]; [|all].
    apply r_bind; [apply r_loop; intros y; apply r_linsu_body|]. intros [r|[c so]]; [all|].
    apply r_bind; [apply r_linsu_final|]. intros a. all.
  Qed.
  Lemma r_linsu_yield idx base ub lb : rel (linsu_yield E idx base ub lb) (linsu_yield E0 idx base ub lb).
  Proof. unfold linsu_yield. apply r_bind; [apply r_linsu|]. intros r. cases. Qed.
  Lemma r_enforce cs : rel (enforce_dominating cs) (enforce_dominating cs).
  Proof.
    unfold enforce_dominating. all; [apply r_forM; intros ic; all|]. unfold enforce_all. all. apply r_mapM. intros ic. all.
  Qed.
  Lemma r_block_lits ic : rel (block_lits ic) (block_lits ic).
  Proof. unfold block_lits. cases. Qed.
  Lemma r_dominated cs : rel (dominated_block_clause cs) (dominated_block_clause cs).
  Proof. unfold dominated_block_clause. all. apply r_mapM. intros ic. apply r_block_lits. Qed.
  Lemma r_tmp cs : rel (tmp_block_dominated cs) (tmp_block_dominated cs).
  Proof. unfold tmp_block_dominated, dominated_block_clause. all. apply r_mapM. intros ic. apply r_block_lits. Qed.
  Lemma r_pmin_body base x : rel (pmin_body E base x) (pmin_body E0 base x).
  Proof.
    unfold pmin_body. destruct x as [[cs sol] sw]. apply r_bind; [gets_tac|]. intros o. apply r_bind.
    { destruct (o_enum o).
      - apply r_bind; [apply r_dominated|]. intros c. all.
      - apply r_bind; [destruct sw; all|]. intros _. apply r_bind; [apply r_tmp|]. intros b. all.
      - apply r_bind; [destruct sw; all|]. intros _. apply r_bind; [apply r_tmp|]. intros b. all. }
    intros sw'. apply r_bind; [apply r_enforce|]. intros a. unfold phase_solution. cases.
  Qed.
  Lemma r_pmin cs sol base : rel (p_minimization E cs sol base) (p_minimization E0 cs sol base).
  Proof.
    unfold p_minimization. apply r_bind; [gets_tac|]. intros n. apply r_bind; [apply r_guard|]. intros _.
    apply r_bind; [apply r_emit|]. intros _. apply r_loop. intros x. apply r_pmin_body.
  Qed.
  Lemma r_min_yield base : rel (minimize_and_yield E base) (minimize_and_yield E0 base).
  Proof.
    unfold minimize_and_yield. apply r_bind; [apply r_sol_costs|]. intros [cs sol].
    apply r_bind; [apply r_candidate|]. intros _. apply r_bind; [apply r_check|]. intros _.
    apply r_bind; [apply r_ret|]. intros _. apply r_bind; [apply r_pmin|]. intros [[cs' sol'] sw].
    apply r_bind; [apply r_enforce|]. intros a. apply r_bind; [apply r_yield|]. intros _. destruct sw; all.
  Qed.
  Lemma r_yield_or_end (r : sres) (base : list lit) :
    rel (match r with RUnsat => log_end E ;;; ret (@inr unit unit tt) | _ => check_termination E ;;; minimize_and_yield E base ;;; ret (inl tt) end)
        (match r with RUnsat => log_end E0 ;;; ret (inr tt) | _ => check_termination E0 ;;; minimize_and_yield E0 base ;;; ret (inl tt) end).
  Proof.
    assert (G : rel (check_termination E ;;; minimize_and_yield E base ;;; ret (@inl unit unit tt))
                    (check_termination E0 ;;; minimize_and_yield E0 base ;;; ret (inl tt))).
    { apply r_bind; [apply r_check|]. intros _. apply r_bind; [apply r_min_yield|]. intros _. apply r_ret. }
    destruct r; [exact G|all|exact G].
  Qed.
  Lemma r_pminimal : rel (pminimal_main E) (pminimal_main E0).
  Proof.
    unfold pminimal_main. apply r_bind; [gets_tac|]. intros n. apply r_bind; [gets_tac|]. intros n'.
    apply r_bind; [apply r_guard|]. intros _. apply r_bind; [apply r_emit|]. intros _. apply r_loop. intros x.
    apply r_bind; [apply r_solve|]. intros r. apply r_yield_or_end.
  Qed.
  Lemma r_fence_raise i : rel (fence_raise i) (fence_raise i).
  Proof. unfold fence_raise. all. Qed.
  Lemma r_core_loop core : forall found, rel (fence_core_loop core found) (fence_core_loop core found).
  Proof.
    induction core as [|c core IH]; intros found; cbn [fence_core_loop]; [apply r_ret|].
    apply r_bind; [gets_tac|]. intros f. destruct (find_match c 0 found f); [|apply IH].
    apply r_bind; [apply r_fence_raise|]. intros _. apply IH.
  Qed.
  Lemma r_harvest base : rel (harvest E base) (harvest E0 base).
  Proof.
    unfold harvest. apply r_bind; [gets_tac|]. intros n. apply r_bind; [gets_tac|]. intros n'.
    apply r_bind; [apply r_guard|]. intros _. apply r_bind; [apply r_emit|]. intros _. apply r_loop. intros x.
    apply r_bind; [gets_tac|]. intros f. apply r_bind; [apply r_solve|]. intros r. apply r_yield_or_end.
  Qed.
  Lemma r_fence_init : rel fence_init fence_init.
  Proof.
    unfold fence_init. apply r_bind; [gets_tac|]. intros [|y f]; [|apply r_ret]. apply r_bind; [gets_tac|]. intros n.
    apply r_forM. intros i. unfold fence_init_one. all.
  Qed.
  Lemma r_update_fence core : rel (update_fence E core) (update_fence E0 core).
  Proof.
    unfold update_fence. apply r_bind; [gets_tac|]. intros f. apply r_bind; [apply r_core_loop|]. intros _.
    apply r_bind; [gets_tac|]. intros f'. apply r_emit.
  Qed.
  Lemma r_lb : rel (lb_main E) (lb_main E0).
  Proof.
    unfold lb_main. apply r_bind; [gets_tac|]. intros n. apply r_bind; [gets_tac|]. intros n'.
    apply r_bind; [apply r_guard|]. intros _. apply r_bind; [apply r_emit|]. intros _.
    apply r_bind; [apply r_fence_init|]. intros _. apply r_loop. intros x. unfold lb_body.
    apply r_bind; [gets_tac|]. intros f. apply r_bind; [apply r_solve|]. intros [| |]; [| |apply r_throw].
    - apply r_bind; [apply r_harvest|]. intros _. apply r_ret.
    - apply r_bind; [apply r_core|]. intros [|l core]; [all|]. apply r_bind; [apply r_update_fence|]. intros _. all.
  Qed.
  Lemma r_bi_body d x : rel (bi_body E [] d x) (bi_body E0 [] d x).
  Proof.
    destruct x as [[ic sol] il]. unfold bi_body. apply r_bind; [apply r_linsu|]. intros [[ic' sol']|]; [|all].
    apply r_bind; [apply r_get_cost|]. intros dc. apply r_bind; [apply r_extend|]. intros _.
    apply r_bind; [apply r_get_enc|]. intros e. apply r_bind; [apply r_unwrap|]. intros a.
    apply r_bind; [apply r_linsu_yield|]. intros r. apply r_bind; [apply r_unwrap|]. intros [dc' sol2]. cases.
  Qed.
  Lemma r_bi : rel (bi_main E) (bi_main E0).
  Proof.
    unfold bi_main, bioptsat. apply r_bind; [apply r_emit|]. intros _. apply r_bind; [gets_tac|]. intros n.
    apply r_bind; [apply r_guard|]. intros _. apply r_bind; [apply r_get_enc|]. intros e0. apply r_bind; [apply r_get_enc|]. intros e1.
    apply r_bind; [apply r_solve|]. intros r.
    assert (G : rel (sol <- oracle_solution ;; c <- get_cost 0 sol ;; loop (ev_fuel E) (bi_body E [] (oe_offset e1)) (c, sol, oe_offset e0))
                    (sol <- oracle_solution ;; c <- get_cost 0 sol ;; loop (ev_fuel E0) (bi_body E0 [] (oe_offset e1)) (c, sol, oe_offset e0))).
    { apply r_bind; [apply r_solution|]. intros sol. apply r_bind; [apply r_get_cost|]. intros c. apply r_loop. intros x. apply r_bi_body. }
    destruct r; [exact G|apply r_ret|exact G].
  Qed.
  Lemma r_main al : rel (alg_main al E) (alg_main al E0).
  Proof. destruct al; [apply r_pminimal|apply r_lb|apply r_bi]. Qed.
End Sync.
