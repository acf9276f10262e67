(** * Reported solutions are feasible and have the reported costs (all algorithms, all
      options, all exits, all histories) *)
From Coq Require Import List Bool Arith Lia ZArith.
From Verif Require Import Base BaseLemmas Spec MTypes MKernel MPMinimal MLowerBounding MBiOptSat
  EncSpec ApiSpec Wp Sem Kern Init Ext Blk Struct Book Api.
Import ListNotations.

Lemma get_costs_val {I} n sol (s : st I) cs s' : get_costs n sol s = (Done cs, s') ->
  cs = map (fun o => sol_cost o sol) (firstn n (p_objs (s_prob s))).
Proof.
  assert (G : forall m k cs s', mapM (fun idx => get_cost idx sol) (seq k m) s = (Done cs, s') ->
            cs = map (fun o => sol_cost o sol) (firstn m (skipn k (p_objs (s_prob s))))).
  { induction m as [|m IH]; intros k cs0 s0; cbn [seq mapM].
    - intros [= <- <-]. reflexivity.
    - unfold bind, get_cost at 1, bind, gets, guard, unwrap.
      destruct (k <? n_objs (s_stats s)); cbn [ret throw]; [|discriminate].
      destruct (nth_error (p_objs (s_prob s)) k) as [o|] eqn:e; cbn [ret throw]; [|discriminate].
      destruct (mapM _ (seq (S k) m) s) as [[r|x] s1] eqn:e2; [|discriminate].
      cbn [ret]. intros [= <- <-]. apply IH in e2. rewrite e2.
      assert (Hsk : skipn k (p_objs (s_prob s)) = o :: skipn (S k) (p_objs (s_prob s))).
      { clear - e. revert k e. induction (p_objs (s_prob s)) as [|x l IH]; intros [|k] H; cbn in *; try discriminate.
        - now injection H as ->.
        - now apply IH. }
      rewrite Hsk. reflexivity. }
  intros H. exact (G n 0 cs s' H).
Qed.

Section FeasInv.
  Context {I : enc_impl} (SP : enc_spec I).
  Notation st := (st I).
  Variable (i : inst).
  Hypothesis HI : inst_ok i.
  Let mo := vm_max_orig (in_vm i).
  Variable me : nat.

  Definition okpt (nd : nd_point assignment) : Prop :=
    nd_sols nd <> [] /\ forall sol, In sol (nd_sols nd) ->
      valid_solution (in_cls i) (in_objs i) (n_orig i) (nd_costs nd) sol.

  Record core (s : st) : Prop := mkCore {
    co_cls : forall m, sat m (p_cls (s_prob s)) -> feasible (in_cls i) m;
    co_objs : sim (p_objs (s_prob s)) (build_objs 0 (in_objs i));
    co_vars : forall ob v, In ob (p_objs (s_prob s)) -> In v (lits_vars (map fst (obj_iter ob))) ->
      v <= me;
    co_mo : vm_max_orig (p_vm (s_prob s)) = mo;
    co_me : vm_max_enc (p_vm (s_prob s)) = me;
    co_enc : mo <= me < vm_next (p_vm (s_prob s));
    co_n : n_objs (s_stats s) = length (p_objs (s_prob s));
    co_ora : forall m, s_ora s = OModel m -> feasible (in_cls i) m;
    co_front : Forall okpt (s_front s) }.
  Definition pend (pi : option (list nat * nd_point assignment)) (s : st) : Prop :=
    match pi with
    | None => True
    | Some (cs, nd) => externalize_all (p_objs (s_prob s)) cs = Some (nd_costs nd) /\
        forall sol, In sol (nd_sols nd) ->
          valid_solution (in_cls i) (in_objs i) (n_orig i) (nd_costs nd) sol
    end.
  Definition feasP pi (s : st) : Prop := core s /\ pend pi s.
  Definition feasX (x : exit) (s : st) : Prop := core s.
  Definition goodsol (sol : assignment) : Prop :=
    exists m, feasible (in_cls i) m /\ sol_rep me m sol.

  (** States that differ in unrelated parts *)
  Definition samecore (s s' : st) : Prop :=
    s_prob s' = s_prob s /\ s_ora s' = s_ora s /\ s_front s' = s_front s /\
    n_objs (s_stats s') = n_objs (s_stats s).
  Lemma core_same s s' : samecore s s' -> core s -> core s'.
  Proof.
    intros (H1 & H2 & H3 & H4) []. constructor; rewrite ?H1, ?H2, ?H3, ?H4; auto.
  Qed.
  Lemma feas_same pi s s' : samecore s s' -> feasP pi s -> feasP pi s'.
  Proof.
    intros H [H1 H2]. split; [eapply core_same; eauto|]. destruct H as (H & _).
    unfold pend. now rewrite H.
  Qed.

  Lemma samecore_refl s : samecore s s.
  Proof. repeat split. Qed.

  Variable E : environ.
  Hypothesis HO : oracle_ok E.

  Lemma wp_tick_same get put t (s : st) (Q : unit -> st -> Prop) (X : exit -> st -> Prop) :
    (forall s', samecore s s' -> s_opts s' = s_opts s -> Q tt s') -> (forall x s', samecore s s' -> X x s') ->
    wp (tick get put t) Q X s.
  Proof.
    intros HQ HX. unfold wp, tick.
    destruct (get (s_lims s)) as [[|n]|]; [apply HX; repeat split| |apply HQ; repeat split].
    destruct (n =? 0); [apply HX|apply HQ]; repeat split.
  Qed.
  Lemma wp_emit_same ev (s : st) (Q : unit -> st -> Prop) (X : exit -> st -> Prop) :
    (forall s', samecore s s' -> s_opts s' = s_opts s -> Q tt s') -> (forall x s', samecore s s' -> X x s') ->
    wp (emit E ev) Q X s.
  Proof.
    intros HQ HX. unfold wp, emit. destruct (s_logger s); [destruct (ev_logfail E _)|];
      (apply HQ || apply HX); repeat split.
  Qed.
  Lemma samecore_trans a b c : samecore a b -> samecore b c -> samecore a c.
  Proof. unfold samecore. intuition congruence. Qed.
  Lemma wp_logtick f ev get put t (s : st) (Q : unit -> st -> Prop) (X : exit -> st -> Prop) :
    (forall s, samecore s (f s)) ->
    (forall s', samecore s s' -> Q tt s') -> (forall x s', samecore s s' -> X x s') ->
    wp (modify f ;;; emit E ev ;;; tick get put t) Q X s.
  Proof.
    intros Hf HQ HX. apply wp_bind, wp_modify, wp_bind. apply wp_emit_same.
    - intros s1 H1 _. apply wp_tick_same.
      + intros s2 H2 _. apply HQ. eapply samecore_trans; [apply Hf|]. eapply samecore_trans; eauto.
      + intros x s2 H2. apply HX. eapply samecore_trans; [apply Hf|]. eapply samecore_trans; eauto.
    - intros x s1 H1. apply HX. eapply samecore_trans; [apply Hf|]. eauto.
  Qed.
  Lemma wp_catch_nd nd (s : st) (Q : unit + exit -> st -> Prop) (X : exit -> st -> Prop) :
    (forall r s', samecore s s' -> Q r s') -> (forall x s', samecore s s' -> X x s') ->
    wp (catch (log_non_dominated E nd)) Q X s.
  Proof.
    intros HQ HX. apply wp_catch, wp_logtick; [repeat split| |].
    - intros s' H. apply HQ, H.
    - intros x s' H. destruct x; auto.
  Qed.
  Lemma core_push nd s : core s -> okpt nd -> core (set_front (front_extend (s_front s) [nd]) s).
  Proof.
    intros [] Hok. constructor; auto. cbn. apply Forall_app. split; auto.
  Qed.
  Lemma feas_finish nd s : core s -> okpt nd -> wp (yield_finish E nd) (fun _ => feasP None) feasX s.
  Proof.
    intros HC Hok. unfold yield_finish. apply wp_bind, wp_catch_nd.
    - intros r s1 H1. apply wp_bind, wp_modify, wp_bind.
      assert (HC1 : core (set_front (front_extend (s_front s1) [nd]) s1)).
      { apply core_push; [eapply core_same; eauto|exact Hok]. }
      apply wp_emit_same.
      + intros s2 H2 _. destruct r as [u|x]; [apply wp_ret|apply wp_throw].
        * split; [eapply core_same; eauto|exact Logic.I].
        * eapply core_same; eauto.
      + intros x s2 H2. eapply core_same; eauto.
    - intros x s1 H1. eapply core_same; eauto.
  Qed.
  Lemma feas_fail nd x s : core s -> okpt nd ->
    wp (nt <- catch (log_non_dominated E nd) ;; front_push nd ;;; rethrow nt ;;; throw x)
      (fun _ : unit => feasP None) feasX s.
  Proof.
    intros HC Hok. apply wp_bind, wp_catch_nd.
    - intros r s1 H1. apply wp_bind, wp_modify, wp_bind.
      assert (HC1 : core (set_front (front_extend (s_front s1) [nd]) s1)).
      { apply core_push; [eapply core_same; eauto|exact Hok]. }
      destruct r as [u|y]; cbn [rethrow]; [apply wp_ret|]; apply wp_throw; exact HC1.
    - intros y s1 H1. eapply core_same; eauto.
  Qed.

  (** The costs computed for a solution are those of the model behind it *)
  Lemma costs_of s sol m cs s' : core s -> sol_rep me m sol ->
    get_costs (n_objs (s_stats s)) sol s = (Done cs, s') -> cs = ic (p_objs (s_prob s)) m.
  Proof.
    intros [] Hr Hg. apply get_costs_val in Hg. rewrite co_n0, firstn_all in Hg. rewrite Hg.
    apply map_ext_in. intros ob Hob. eapply sol_cost_rep; [|exact Hr]. intros v Hv. eauto.
  Qed.
  Lemma ext_costs s m : core s ->
    externalize_all (p_objs (s_prob s)) (ic (p_objs (s_prob s)) m) = Some (costs (in_objs i) m).
  Proof.
    intros []. rewrite (sim_ext _ _ _ co_objs0), (sim_ic _ _ m co_objs0).
    apply ext_all; apply HI.
  Qed.

  Lemma feas_struct : struct_ok (I := I) E feasP goodsol feasX.
  Proof.
    constructor.
    - intros. eapply (oe_next_mono SP); eauto.
    - intros pi s ev H. apply wp_emit_same.
      + intros s' Hs _. eapply feas_same; eauto.
      + intros x s' Hs. eapply core_same; [exact Hs|apply H].
    - intros pi s H. unfold wp, check_termination.
      assert (H' : feasP pi (set_flags (Datatypes.S (s_flags s)) s)) by (eapply feas_same; [|exact H]; repeat split).
      destruct (ev_flag E _); apply H'.
    - intros pi s cs ph H. unfold log_candidate. apply wp_bind, wp_gets, wp_bind.
      unfold wp at 1, guard. destruct (_ =? _); [|apply H]. cbn [ret].
      apply wp_logtick; [repeat split| |].
      + intros s' Hs. eapply feas_same; eauto.
      + intros x s' Hs. eapply core_same; [exact Hs|apply H].
    - intros pi s r H. unfold log_oracle_call.
      apply wp_logtick; [repeat split| |].
      + intros s' Hs. eapply feas_same; eauto.
      + intros x s' Hs. eapply core_same; [exact Hs|apply H].
    - intros pi s p' [[] Hp] []. split.
      + constructor; cbn; auto.
        * intros m Hs. apply co_cls0. intros c Hc. apply Hs, pg_cls, Hc.
        * now rewrite pg_objs.
        * intros ob v. rewrite pg_objs. apply co_vars0.
        * congruence.
        * congruence.
        * lia.
        * now rewrite pg_objs.
      + destruct pi as [[cs nd]|]; [|exact Logic.I]. cbn. rewrite pg_objs. exact Hp.
    - intros pi s [[] Hp]. split; [|exact Hp]. constructor; auto. discriminate.
    - intros pi s f H. eapply feas_same; [|exact H]; repeat split.
    - intros pi s bb a [[] Hp]. unfold wp, oracle_solve. set (q := mkQuery _ _ _ _ _).
      pose proof (HO q) as Hq. destruct (ev_oracle E q); cbn in Hq.
      + split; [|exact Hp]. constructor; auto. cbn. intros m' [= <-]. apply co_cls0, Hq.
      + split; [|exact Hp]. constructor; auto. discriminate.
      + split; [|exact Hp]. constructor; auto. discriminate.
      + constructor; auto. discriminate.
    - intros pi s H. unfold oracle_solution. apply wp_bind, wp_gets, wp_bind. unfold wp at 1, unwrap.
      unfold vm_max_var. destruct (vm_next (p_vm (s_prob s))) as [|n] eqn:e; [apply H|]. cbn [ret]. apply wp_bind, wp_gets.
      destruct (s_ora s) as [|m|] eqn:eo; [apply H| |apply H]. apply wp_ret. split; [|exact H].
      destruct H as [[] _]. exists m. split; [apply co_ora0, eo|]. exists n. split; [lia|reflexivity].
    - intros pi s x H _. apply H.
    - intros s cs ext [H _] _ He. split; [exact H|]. split; [exact He|]. intros sol [].
    - intros cs sol nd s (m & Hf & Hr) [HC [Hext Hs]] Hg nd'.
      pose proof (costs_of s sol m cs s HC Hr Hg) as Hcs. pose proof Hext as Hext'.
      rewrite Hcs in Hext. rewrite (ext_costs _ _ HC) in Hext. injection Hext as Hext.
      assert (Hok : okpt nd').
      { split; [unfold nd'; cbn; now destruct (nd_sols nd)|]. unfold nd'. cbn [nd_add_sol nd_sols nd_costs]. intros sol' Hin.
        apply in_app_or in Hin. destruct Hin as [Hin|[<-|[]]]; [auto|].
        rewrite (co_mo _ HC), (sol_rep_trunc _ _ _ mo (proj1 (co_enc _ HC)) Hr).
        split; [apply sol_of_length|]. split.
        - intros v Hv. exists (m v). apply sol_of_nth. unfold n_orig in Hv. fold mo in Hv. lia.
        - exists m. split; [apply extends_sol_of, agree_refl|]. split; [exact Hf|congruence]. }
      apply wp_catch. unfold log_solution. apply wp_logtick; [repeat split| |].
      + intros s' Hss. assert (HC' := core_same _ _ Hss HC).
        destruct (enum_done _ _).
        * apply feas_finish; [exact HC'|exact Hok].
        * split; [exact HC'|]. destruct Hss as (Hp & _). cbn [pend]. rewrite Hp. split; [exact Hext'|]. apply Hok.
      + intros x s' Hss. assert (HC' := core_same _ _ Hss HC). destruct x; try exact HC'; now apply feas_fail.
    - intros cs nd s Hne [HC [Hext Hs]]. apply feas_finish; [exact HC|]. split; assumption.
  Qed.
End FeasInv.

Section FeasRun.
  Context {I : enc_impl} (SP : enc_spec I).
  Variable (i : inst).
  Hypothesis HI : inst_ok i.

  Lemma alg_new_ora al o (s : st I) : alg_new al i o = Some s -> s_ora s = OIdle.
  Proof.
    assert (G : forall os s', kernel_new (in_cls i) os (in_vm i) o = Some s' -> s_ora (I := I) s' = OIdle).
    { intros os s'. unfold kernel_new. destruct (vm_max_var (in_vm i)); [|discriminate].
      destruct (init_encs _ _ _). intros [= <-]. reflexivity. }
    destruct al; cbn; unfold pminimal_new, lb_new, bi_new; try apply G.
    all: destruct (kernel_new _ _ _ _) as [s'|] eqn:e; try (destruct (_ =? 2)); try discriminate; intros [= <-]; eapply G, e.
  Qed.
  Lemma core_new al o (s : st I) : alg_new al i o = Some s -> core i (vm_max_enc (p_vm (s_prob s))) s.
  Proof.
    intros H. pose proof H as Hs. apply (alg_new_start SP i o HI) in H. destruct H as [[K1 K2 K3] H2 H3 H4 H5 H6 _ _ _ _ _ _].
    pose proof (inv_wf _ _ _ _ _ K3) as HW. constructor.
    - intros m Hm. exact (inv_sound _ _ _ _ _ K3 m Hm).
    - rewrite H2. apply sim_refl.
    - intros ob v Hob Hv. eapply wf_objs; eauto.
    - exact H3.
    - reflexivity.
    - destruct HW. rewrite <- H3. lia.
    - exact K2.
    - intros m Hm. rewrite (alg_new_ora _ _ _ Hs) in Hm. discriminate.
    - rewrite H4. constructor.
  Qed.

  Lemma core_step al x me (s : st I) : match x with Solve E l => oracle_ok E | _ => True end ->
    core i me s -> core i me (run_step al x s).
  Proof.
    intros HE H. destruct x as [E l| |]; cbn [run_step].
    - assert (G : wp (alg_solve al E l) (fun _ => feasP i me None) (feasX i me) s).
      { rewrite alg_solve_eq. apply wp_bind, wp_modify.
        apply (k_alg_main E (feasP i me) (goodsol i me) (feasX i me) (feas_struct SP i HI me E HE) al).
        split; [|exact Logic.I]. eapply core_same; [|exact H]. repeat split. }
      unfold wp in G. destruct (alg_solve al E l s) as [[u|x] s']; cbn [snd]; apply G.
    - eapply core_same; [|exact H]. repeat split.
    - eapply core_same; [|exact H]. repeat split.
  Qed.
  Lemma core_run al h : forall me (s : st I),
    Forall (fun x => match x with Solve E l => oracle_ok E | _ => True end) h ->
    core i me s -> core i me (run al h s).
  Proof.
    induction h as [|x h IH]; intros me s Hh H; [exact H|]. inversion Hh; subst. cbn [run].
    apply IH; [assumption|]. now apply core_step.
  Qed.
End FeasRun.
