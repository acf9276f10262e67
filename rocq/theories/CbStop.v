(** * Solving after core boosting that was stopped *)
From Coq Require Import List Bool Arith Lia ZArith.
From Verif Require Import Base BaseLemmas Spec MTypes MKernel MPMinimal MLowerBounding MBiOptSat MOll
  EncSpec TotSpec Wp Sem Kern Yield PMin PMinTop LBTop Linsu BiTop Init ApiSpec Ext Blk Struct Book Api
  ApiThm FeasInv Intr ApiTop OllSide OllData OllThm OllRun OllRelax OllMain CbMerge CbTop CbSpec CbApi Static CbHist.
Import ListNotations.

(** Core boosting before any limits are set does not set any *)
Section Lims.
  Context {I : enc_impl} {SP : enc_spec I} {T : tot_impl I} (TS : tot_spec SP T).
  Notation st := (st I).
  Variable E : environ.
  Definition lm (s : st) : Prop := s_lims s = lims_none.
  Definition lmP (_ : option (list nat * nd_point assignment)) (s : st) : Prop := lm s.
  Definition lmX (_ : exit) (s : st) : Prop := lm s.
  Lemma lm_emit ev s : lm s -> wp (emit E ev) (fun _ => lm) lmX s.
  Proof.
    intros H. unfold wp, emit. destruct (s_logger s); [|exact H]. destruct (ev_logfail _ _); exact H.
  Qed.
  Lemma lm_tick g p t s : g lims_none = None -> lm s -> wp (tick g p t) (fun _ => lm) lmX s.
  Proof. intros H1 H2. unfold wp, tick. rewrite H2, H1. exact H2. Qed.
  Lemma lm_counted f ev g p t s : g lims_none = None -> lm s ->
    wp (modify (fun s => set_stats (f (s_stats s)) s) ;;; emit E ev ;;; tick g p t) (fun _ => lm) lmX s.
  Proof.
    intros Hg H. apply wp_bind, wp_modify, wp_bind.
    eapply wp_mono; [apply lm_emit; exact H| |auto]. intros [] s' H'. now apply lm_tick.
  Qed.
  Lemma lm_log_nd nd s : lm s -> wp (log_non_dominated E nd) (fun _ => lm) lmX s.
  Proof. intros H. now apply (lm_counted (fun x => set_n_non_dominated (S (n_non_dominated x)) x)). Qed.
  Lemma lm_finish nd s : lm s -> wp (yield_finish E nd) (fun _ => lm) lmX s.
  Proof.
    intros H. unfold yield_finish. apply wp_bind, wp_catch.
    assert (G : forall (r : unit + exit) s', lm s' ->
      wp (front_push nd ;;; log_end E ;;; rethrow r) (fun _ => lm) lmX s').
    { intros r s' H'. apply wp_bind, wp_modify, wp_bind.
      eapply wp_mono; [apply lm_emit; exact H'| |auto]. intros [] s2 H2.
      destruct r as [[]|x]; [apply wp_ret|apply wp_throw]; exact H2. }
    eapply wp_mono; [apply lm_log_nd, H| |].
    - intros [] s' H'. now apply G.
    - intros x s' H'. destruct x; try (now apply G); exact H'.
  Qed.
  Lemma lm_struct : struct_ok (I := I) E lmP (fun _ => True) lmX.
  Proof.
    constructor.
    - intros. eapply (oe_next_mono SP); eauto.
    - intros pi s ev H. now apply lm_emit.
    - intros pi s H. unfold wp, check_termination. destruct (ev_flag _ _); exact H.
    - intros pi s cs ph H. unfold log_candidate. apply wp_bind, wp_gets, wp_bind.
      unfold wp at 1, guard. destruct (_ =? _); [|exact H]. cbn [ret].
      now apply (lm_counted (fun x => set_n_candidates (S (n_candidates x)) x)).
    - intros pi s r H. now apply (lm_counted (fun x => set_n_oracle_calls (S (n_oracle_calls x)) x)).
    - intros pi s p' H G. exact H.
    - intros pi s H. exact H.
    - intros pi s f H. exact H.
    - intros pi s l a H. unfold wp, oracle_solve. destruct (ev_oracle E _); exact H.
    - intros pi s H. unfold oracle_solution. apply wp_bind, wp_gets, wp_bind. unfold wp at 1, unwrap.
      destruct (vm_max_var _); [|exact H]. cbn [ret]. apply wp_bind, wp_gets.
      destruct (s_ora s); [exact H| |exact H]. apply wp_ret. auto.
    - intros pi s x H _. exact H.
    - intros s cs ext H _ _. exact H.
    - intros cs sol nd s _ H _ nd'. apply wp_catch.
      assert (G : wp (log_solution E) (fun _ => lm) lmX s)
        by now apply (lm_counted (fun x => set_n_solutions (S (n_solutions x)) x)).
      eapply wp_mono; [exact G| |].
      + intros [] s' H'. destruct (enum_done _ _); [apply lm_finish|]; exact H'.
      + intros x s' H'.
        assert (G0 : wp (nt <- catch (log_non_dominated E nd') ;; front_push nd' ;;; rethrow nt ;;; throw x)
          (fun _ : unit => lmP None) lmX s').
        { apply wp_bind, wp_catch.
          assert (G2 : forall (r : unit + exit) s', lm s' ->
            wp (front_push nd' ;;; rethrow r ;;; throw x) (fun _ : unit => lm) lmX s').
          { intros r s2 H2. apply wp_bind, wp_modify, wp_bind.
            destruct r as [[]|y]; [apply wp_ret|]; apply wp_throw; exact H2. }
          eapply wp_mono; [apply lm_log_nd, H'| |].
          * intros [] s2 H2. now apply G2.
          * intros y s2 H2. destruct y; try (now apply G2); exact H2. }
        destruct x; try exact G0; exact H'.
    - intros cs nd s _ H. now apply lm_finish.
  Qed.
  Lemma lm_boost opts s : lm s -> lm (snd (alg_core_boost T E opts s)).
  Proof.
    intros H. assert (W : keeps lmP lmX None (alg_core_boost T E opts)).
    { eapply (ck_boost TS); [apply lm_struct|]. intros s' p' H' _. exact H'. }
    specialize (W s H). unfold wp in W. destruct (alg_core_boost T E opts s) as [[|] ?]; exact W.
  Qed.
End Lims.

Section Stop.
  Context {I : enc_impl} {SP : enc_spec I} {T : tot_impl I} (TS : tot_spec SP T).
  Notation st := (st I).
  Variables (i : inst) (o : kopts).
  Hypothesis HI : inst_ok i.
  Hypothesis HD : lits_distinct i.

  (** BiOptSat can start from any state that stands for the instance *)
  Lemma start_bi (s : st) : start SP i o s -> length (in_objs i) = 2 -> no_fixed_cost i -> bi_start i s.
  Proof.
    intros HS Hn Hf.
    assert (Hl : length (p_objs (s_prob s)) = 2).
    { rewrite (sim_length _ _ (sa_objs _ _ _ _ HS)), build_length. exact Hn. }
    pose proof (inv_wf _ _ _ _ _ (sa_inv _ _ _ _ HS)) as W.
    assert (Hle : length (p_encs (s_prob s)) = 2) by (rewrite (wf_len _ _ _ W); exact Hl).
    pose proof (wf_off _ _ _ W) as Hoff. pose proof (wf_const _ _ _ W) as Hcon. pose proof (sa_objs _ _ _ _ HS) as Hsim.
    destruct (p_objs (s_prob s)) as [|o0 [|o1 [|]]] eqn:Eo; try discriminate.
    destruct (p_encs (s_prob s)) as [|e0 [|e1 [|]]] eqn:Ee; try discriminate.
    assert (G : forall k ob e, nth_error [o0; o1] k = Some ob -> nth_error [e0; e1] k = Some e ->
      lbok (Feas i) k ob (oe_offset e) s /\ (forall a, Feas i a -> oe_offset e <= icost ob a)).
    { intros k ob e H1 H2. split; [|intros a Ha; eapply Hoff; eauto].
      intros e' H'. rewrite Ee in H'. assert (e' = e) by congruence. subst e'. split; [lia|].
      intros -> a Ha. destruct (sim_raw _ _ _ _ Hsim H1) as (r & Hr & Hs).
      assert (Hok : obj_ok r).
      { pose proof (io_ok _ HI) as G5. rewrite Forall_forall in G5. apply G5. eapply nth_error_In; eauto. }
      assert (Hz : icost ob a = 0).
      { rewrite (lb0_icost _ _ a Hs). destruct (icost_value r k a Hok) as (Hv & Hp & _).
        rewrite (Hf r) in Hv; [nia| | |exact Ha].
        - eapply nth_error_In; eauto.
        - intros b c Hb Hc.
          destruct (icost_value r k b Hok) as (Hb1 & _). destruct (icost_value r k c Hok) as (Hc1 & _).
          rewrite <- (lb0_icost _ _ b Hs) in Hb1. rewrite <- (lb0_icost _ _ c Hs) in Hc1.
          rewrite (Hcon k ob b c H1 H2 Hb Hc) in Hb1. lia. }
      cbn. lia. }
    exists o0, o1, e0, e1. rewrite Eo, Ee. destruct (G 0 o0 e0 eq_refl eq_refl). destruct (G 1 o1 e1 eq_refl eq_refl).
    auto 10.
  Qed.

  (** what holds after any number of core boostings, completed or not *)
  Record held (s : st) : Prop := mkHeld {
    hd_ready : ready (SP := SP) i o s;
    hd_n : n_solve_calls (s_stats s) = 0;
    hd_lims : lm s;
    hd_caps : forall k ob e, nth_error (p_objs (s_prob s)) k = Some ob -> nth_error (p_encs (s_prob s)) k = Some e ->
      oe_cap SP e <= wtotal (obj_iter ob) }.
  Notation bares s := (bare (SP := SP) (p_encs (s_prob s)) (vm_max_enc (in_vm i))).

  Lemma held_bound s : held s -> bound SP i s <= iter_bound i.
  Proof.
    intros H. pose proof (rd_start _ _ _ (hd_ready _ H)) as HS. unfold bound, iter_bound, n_orig.
    rewrite <- (totals_build _ 0). set (w := totals (build_objs 0 (in_objs i))).
    assert (list_sum (caps SP (s_prob s)) <= list_sum w); [|lia].
    unfold w. rewrite <- (sim_totals _ _ (sa_objs _ _ _ _ HS)). apply sum_caps.
    - apply (wf_len _ _ _ (inv_wf _ _ _ _ _ (sa_inv _ _ _ _ HS))).
    - intros k ob e H1 H2. eapply (hd_caps _ H); eauto.
  Qed.

  Lemma kept_held s0 opts s : held s0 -> kept (SP := SP) i s0 opts s -> lm s -> held s.
  Proof.
    intros [[[a1 a2 a3 a4 a5 a6 a7] r2 r3 r4 r5] Hn Hl Hc] [k1 k2 k3 k4 k5 k6 k7 k8] HL. constructor.
    - constructor; auto.
      + constructor; auto.
        * rewrite (fr_nobjs _ _ k1), a2. rewrite (sim_length _ _ a3), (sim_length _ _ k3). reflexivity.
        * rewrite (fr_opts _ _ k1). exact a5.
        * rewrite (fr_front _ _ k1). exact a6.
        * rewrite (fr_fence _ _ k1). exact a7.
      + unfold lims_ok. rewrite HL. repeat split; discriminate.
      + rewrite (fr_cnf _ _ k1). exact r5.
    - rewrite (fr_solves _ _ k1). exact Hn.
    - exact HL.
    - intros k ob e Ho He. destruct (k7 k e ob He Ho) as [H|H]; [|exact H].
      destruct (sim_nth _ _ _ _ (sim_trans _ _ _ k3 (eq_sym a3)) Ho) as (ob' & Ho' & Hs').
      destruct (lb0_iter _ _ Hs') as [-> _]. eapply Hc; eauto.
  Qed.
  Lemma boosted_held s0 s : held s0 -> boosted (SP := SP) i o s0 s -> lm s -> held s.
  Proof.
    intros H0 HB HL. constructor.
    - apply HB.
    - rewrite (bo_solves _ _ _ _ HB). apply H0.
    - exact HL.
    - intros k ob e Ho He. apply (bo_enc _ _ _ _ HB k ob e Ho He).
  Qed.

  Lemma new_kernel al (s : st) : alg_new al i o = Some s ->
    kernel_new (in_cls i) (build_objs 0 (in_objs i)) (in_vm i) o = Some s.
  Proof.
    destruct al; cbn; intros H; [exact H|exact H|].
    unfold bi_new in H. destruct (kernel_new _ _ _ _) as [s'|]; [|discriminate].
    destruct (_ =? _); [congruence|discriminate].
  Qed.
  Lemma new_held al s : alg_new al i o = Some s -> held s.
  Proof.
    intros H. destruct (new_ready SP i o HI al s H) as [H1 H2].
    pose proof (new_fresh SP i o HI al s H) as Hf. constructor; auto.
    - apply new_kernel in H. unfold kernel_new in H. destruct (vm_max_var _); [|discriminate].
      destruct (init_encs _ _ _). injection H as <-. reflexivity.
    - intros k ob e Ho He. pose proof (fs_caps _ _ _ _ _ _ Hf) as G. rewrite (fs_objs _ _ _ _ _ _ Hf) in Ho.
      apply (map_nth_error (oe_cap SP)) in He. unfold caps in G. rewrite G in He. unfold totals in He.
      rewrite (map_nth_error _ _ _ Ho) in He. injection He as <-. reflexivity.
  Qed.
  Lemma new_bare al s : alg_new al i o = Some s -> o_reserve_enc_vars o = false -> bares s.
  Proof.
    intros H Hr. apply new_kernel in H. unfold kernel_new in H. destruct (vm_max_var _); [|discriminate].
    destruct (init_encs _ _ _) as [es n'] eqn:Hi. injection H as <-. cbn [s_prob p_encs].
    destruct (init_encs_ok SP _ _ _ _ _ (inst_wf i) Hi) as (_ & H2 & H3 & _).
    assert (Hn : n' = vm_next (in_vm i)).
    { rewrite Hr in Hi. revert Hi. clear. generalize (vm_next (in_vm i)) as n. revert es.
      generalize (build_objs 0 (in_objs i)) as os. induction os as [|ob os IH]; intros es n Hi; cbn in Hi; [congruence|].
      destruct ob; cbn in Hi; destruct (init_encs false os n) as [es1 n1] eqn:e; injection Hi as <- <-; eauto. }
    intros e He. destruct (Forall2_In_r _ _ _ _ H2 He) as (ob & Hob & [E1 E2 E3 _ _ _ _]). split; [|split; [|split]]; auto.
    - intros v Hv. apply E1 in Hv. exact (vo_objs _ _ _ (inst_vm_ok i HI) ob v Hob Hv).
    - intros v Hv. specialize (H3 e v He Hv). lia.
  Qed.

  Definition all_reset (bs : list bstep) : Prop := forall E opts, In (Boost E opts) bs -> cb_reset opts = true.
  Definition fit (pre : list bstep) (s : st) : Prop :=
    held s /\ (o_reserve_enc_vars o = false -> all_reset pre -> bares s).

  Lemma boost_fit pre E opts s : oracle_ok E -> core_nodup E -> (cb_reset opts = true -> o_store_cnf o = true) ->
    ~ deadok i o -> fit pre s ->
    ((exists x, fst (alg_core_boost T E opts s) = Exit x) -> cb_reset opts = true ->
      o_reserve_enc_vars o = false /\ all_reset pre) ->
    fit (pre ++ [Boost E opts]) (snd (alg_core_boost T E opts s)).
  Proof.
    intros HO HN Hst Hnd [HH HC] Hx.
    pose proof (boost_stop TS i o HI HD E opts s HO HN Hst (hd_ready _ HH) (hd_n _ HH)) as G.
    pose proof (lm_boost TS E opts s (hd_lims _ HH)) as HL.
    assert (Hb : kept (SP := SP) i s opts (snd (alg_core_boost T E opts s)) ->
      o_reserve_enc_vars o = false -> all_reset (pre ++ [Boost E opts]) ->
      bares (snd (alg_core_boost T E opts s))).
    { intros HK Hr Ha. apply (kp_bare _ _ _ _ HK); [apply (Ha E opts), in_or_app; right; now left|].
      apply HC; [exact Hr|]. intros E' o' Hin. apply (Ha E' o'), in_or_app. now left. }
    assert (Hs : o_reserve_enc_vars o = false -> all_reset (pre ++ [Boost E opts]) -> safe (SP := SP) i s opts).
    { intros Hr Ha. right. apply HC; [exact Hr|]. intros E' o' Hin. apply (Ha E' o'), in_or_app. now left. }
    destruct (alg_core_boost T E opts s) as [[[|]|x] s']; cbn [fst snd] in *.
    - destruct G as [G1 G2]. split; [eapply boosted_held; eauto|].
      intros Hr Ha. apply Hb; auto.
    - destruct G as [_ [G|G]]; [|contradiction]. split; [eapply kept_held; eauto|]. auto.
    - destruct G as [[_ G]|G]; [|contradiction].
      assert (Hsafe : safe (SP := SP) i s opts).
      { destruct (cb_reset opts) eqn:er; [|now left]. right. destruct (Hx (ex_intro _ x eq_refl) eq_refl). auto. }
      specialize (G Hsafe). split; [eapply kept_held; eauto|]. auto.
  Qed.
  Lemma fit_logger b pre x s : (forall E opts, x <> Boost E opts) -> fit pre s -> fit (pre ++ [x]) (set_logger b s).
  Proof.
    intros Hx [HH HC]. split.
    - destruct HH as [[[] ] ]. constructor; auto. constructor; auto. constructor; auto.
    - intros Hr Ha. apply HC; [exact Hr|]. intros E opts Hin. apply (Ha E opts), in_or_app. now left.
  Qed.
  Lemma tries_app a : forall b s, tries T (a ++ b) s = tries T b (tries T a s).
  Proof. induction a as [|[] a IH]; intros b s; cbn [app tries]; auto. Qed.
  Lemma tries_fit s0 bs : forall pre, boosts_ok o bs -> ~ deadok i o ->
    resets_ok T o (pre ++ bs) s0 -> fit pre (tries T pre s0) -> fit (pre ++ bs) (tries T (pre ++ bs) s0).
  Proof.
    induction bs as [|x bs IH]; intros pre Hok Hnd Hr HF; [now rewrite app_nil_r|].
    inversion Hok as [|? ? Hx Hbs]; subst.
    replace (pre ++ x :: bs) with ((pre ++ [x]) ++ bs) in * by now rewrite <- app_assoc.
    apply IH; auto. rewrite tries_app. destruct x as [E opts| |]; cbn [bstep_ok] in Hx; cbn [tries].
    - destruct Hx as (HO & HN & Hst). apply boost_fit; auto. intros He Hc.
      apply (Hr pre E opts bs); auto. now rewrite <- app_assoc.
    - apply (fit_logger true); auto. discriminate.
    - apply (fit_logger false); auto. discriminate.
  Qed.

  Section New.
    Variables (al : alg) (s0 : st) (bs : list bstep).
    Hypothesis Hnew : alg_new al i o = Some s0.
    Hypothesis Hbs : boosts_ok o bs.
    Hypothesis Hres : resets_ok T o bs s0.
    Hypothesis Hne : no_empty_core i o.
    Let s1 := tries T bs s0.
    Lemma ct_live : ~ deadok i o.
    Proof.
      intros [H1 H2]. destruct Hne as [(a & Ha)|[N1 N2]]; [exact (H1 a Ha)|]. destruct H2; congruence.
    Qed.
    Lemma ct_held : held s1.
    Proof.
      apply (tries_fit s0 bs [] Hbs ct_live Hres). split; [eapply new_held; eauto|].
      intros Hr _. eapply new_bare; eauto.
    Qed.
    (** one more core boosting *)
    Lemma ct_boost E opts : oracle_ok E -> core_nodup E -> (cb_reset opts = true -> o_store_cnf o = true) ->
      match alg_core_boost T E opts s1 with
      | (Done true, s2) => forall k r, nth_error (in_objs i) k = Some r -> fst r <> [] ->
          exists ob z, nth_error (p_objs (s_prob s2)) k = Some ob /\ externalize_one ob (obj_lb ob) = Some z /\
            optimum i r z
      | (Done false, _) => forall a, ~ feasible (in_cls i) a
      | (Exit x, _) => proper_exit i E (Exit x)
      end.
    Proof.
      intros HO HN Hst.
      pose proof (boost_any TS i o HI HD E opts s1 HO HN Hst (hd_ready _ ct_held) (hd_n _ ct_held)) as G.
      destruct (alg_core_boost T E opts s1) as [[[|]|y] s2]; [|exact G|].
      - intros k r Hk Hne'. pose proof (sa_objs _ _ _ _ (rd_start _ _ _ (bo_ready _ _ _ _ G))) as Hl.
        apply (f_equal (@length _)) in Hl. rewrite !map_length, build_length in Hl.
        destruct (nth_error (p_objs (s_prob s2)) k) as [ob|] eqn:e.
        + destruct (after_lb i o HI _ _ G k r ob Hk e Hne') as (z & Hz). exists ob, z. tauto.
        + apply nth_error_None in e. assert (k < length (in_objs i)) by (apply nth_error_Some; congruence). lia.
      - destruct G as [G|G]; [now apply xok_proper|]. now apply ct_live in G.
    Qed.
    Lemma ct_boost_term E opts : oracle_ok E -> core_nodup E -> (cb_reset opts = true -> o_store_cnf o = true) ->
      calm E -> iter_bound i < ev_fuel E -> exists b s2, alg_core_boost T E opts s1 = (Done b, s2).
    Proof.
      intros HO HN Hst HC HF.
      pose proof (boost_any TS i o HI HD E opts s1 HO HN Hst (hd_ready _ ct_held) (hd_n _ ct_held)) as G.
      pose proof (wp_run _ _ _ _ (calm_boost TS E HC opts s1 (hd_lims _ ct_held))) as C.
      destruct (alg_core_boost T E opts s1) as [[b|y] s2]; [eauto|]. exfalso.
      destruct G as [G|G]; [|now apply ct_live in G]. unfold calmX in C. destruct G as [G|[-> G]]; [|lia].
      destruct y as [t|[]| |]; cbn in *; tauto.
    Qed.
    Hypothesis Hal : al = ABiOptSat -> no_fixed_cost i.
    Lemma ct_start : start SP i o s1.
    Proof. apply (rd_start _ _ _ (hd_ready _ ct_held)). Qed.
    Lemma ct_bi : al = ABiOptSat -> bi_start i s1.
    Proof.
      intros Ha. apply start_bi; [apply ct_start| |now apply Hal]. eapply (new_two i o s0). now rewrite <- Ha.
    Qed.
    Lemma ct_first E l : enum_ok i o -> oracle_ok E -> lims_pos l ->
      match alg_solve al E l s1 with
      | (Done _, s') => exact_front i (s_front s') /\ sound_front i (s_front s')
      | (Exit x, s') => xok E (iter_bound i) x /\ sound_front i (s_front s')
      end.
    Proof. intros HE. exact (from_first SP i o HI al s1 ct_start (held_bound _ ct_held) ct_bi HE E l). Qed.
    Lemma ct_term E : enum_ok i o -> oracle_ok E -> calm E -> iter_bound i < ev_fuel E ->
      exists s', alg_solve al E lims_none s1 = (Done tt, s').
    Proof. intros HE. exact (from_term SP i o HI al s1 ct_start (held_bound _ ct_held) ct_bi HE E). Qed.
    Lemma ct_enum_all E l s' : enum_ok i o -> oracle_ok E -> lims_pos l -> alg_solve al E l s1 = (Done tt, s') ->
      o_enum o = Solutions None -> forall nd, In nd (s_front s') ->
      NoDup (nd_sols nd) /\ forall sol, In sol (nd_sols nd) <->
        valid_solution (in_cls i) (in_objs i) (n_orig i) (nd_costs nd) sol.
    Proof. intros HE. exact (from_enum_all SP i o HI al s1 ct_start ct_bi HE E l s'). Qed.
    Lemma ct_history h : al <> ABiOptSat -> o_enum o = NoEnum -> run_ok h ->
      sound_front i (s_front (run al h s1)).
    Proof. exact (from_history SP i o HI al s1 ct_start h). Qed.
    Lemma ct_exits h E l : o_enum o = NoEnum -> run_ok h -> oracle_ok E -> lims_pos l ->
      proper_exit i E (fst (alg_solve al E l (run al h s1))).
    Proof. exact (from_exits SP i o HI al s1 ct_start (held_bound _ ct_held) ct_bi h E l). Qed.
  End New.
End Stop.
