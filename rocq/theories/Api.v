(** * From the main loops to the API: calls and histories of calls (P-minimal and
      LowerBounding) *)
From Coq Require Import List Bool Arith Lia ZArith.
From Verif Require Import Base BaseLemmas Spec MTypes MKernel MPMinimal MLowerBounding MBiOptSat
  EncSpec Wp Sem Kern Yield PMin PMinTop LBTop Init ApiSpec Ext Blk.
From Verif Require StopAt.
Import ListNotations.

(** ** Objectives up to their lower bounds *)
Definition sim (os os' : list objective) : Prop := map (obj_set_lb 0) os = map (obj_set_lb 0) os'.
Lemma obj_iter_lb b o : obj_iter (obj_set_lb b o) = obj_iter o.
Proof. now destruct o. Qed.
Lemma sim_refl os : sim os os.
Proof. reflexivity. Qed.
Lemma sim_trans a b c : sim a b -> sim b c -> sim a c.
Proof. unfold sim; congruence. Qed.
Lemma sim_length os os' : sim os os' -> length os = length os'.
Proof. intros H. apply (f_equal (@length _)) in H. now rewrite !map_length in H. Qed.
Lemma sim_ic os os' a : sim os os' -> ic os a = ic os' a.
Proof.
  assert (G : forall os, ic os a = ic (map (obj_set_lb 0) os) a).
  { clear. intros os. unfold ic. rewrite map_map. apply map_ext. intros o. unfold icost. now rewrite obj_iter_lb. }
  intros H. rewrite (G os), (G os'). now rewrite H.
Qed.
Lemma sim_totals os os' : sim os os' -> totals os = totals os'.
Proof.
  assert (G : forall os, totals os = totals (map (obj_set_lb 0) os)).
  { clear. intros os. unfold totals. rewrite map_map. apply map_ext. intros o. now rewrite obj_iter_lb. }
  intros H. rewrite (G os), (G os'). now rewrite H.
Qed.
Lemma sim_ext os os' c : sim os os' -> externalize_all os c = externalize_all os' c.
Proof.
  assert (G : forall os c, externalize_all os c = externalize_all (map (obj_set_lb 0) os) c).
  { clear. induction os as [|o os IH]; intros [|x c]; cbn; try reflexivity. rewrite <- IH.
    now destruct o. }
  intros H. rewrite (G os), (G os'). now rewrite H.
Qed.
Lemma sim_block os os' sol : sim os os' -> block_pareto_mcs os sol = block_pareto_mcs os' sol.
Proof.
  assert (G : forall os, block_pareto_mcs os sol = block_pareto_mcs (map (obj_set_lb 0) os) sol).
  { clear. intros os. unfold block_pareto_mcs. f_equal. induction os as [|o os IH]; cbn; [reflexivity|].
    now rewrite IH, obj_iter_lb. }
  intros H. rewrite (G os), (G os'). now rewrite H.
Qed.
Lemma sim_yblock o os os' sol : sim os os' -> yield_block_clause o os sol = yield_block_clause o os' sol.
Proof. intros H. unfold yield_block_clause. destruct (o_enum o); try reflexivity. now apply sim_block. Qed.
Lemma sim_ipareto F os os' c : sim os os' -> ipareto F os c -> ipareto F os' c.
Proof.
  intros H [(a & H1 & H2) H3]. split.
  - exists a. split; [exact H1|]. rewrite <- H2. symmetry. now apply sim_ic.
  - intros b Hb. rewrite <- !(sim_ic _ _ _ H). now apply H3.
Qed.
Lemma sim_pt_ok F os os' mo nd c : sim os os' -> pt_ok F os mo nd c -> pt_ok F os' mo nd c.
Proof.
  intros H [H1 H2 H3 H4 H5]. constructor; auto.
  - now rewrite <- (sim_ext _ _ _ H).
  - eapply sim_ipareto; eauto.
  - intros sol Hs. destruct (H5 sol Hs) as (a & ? & ? & ?). exists a.
    rewrite <- (sim_ic _ _ _ H). auto.
Qed.
Lemma sim_enum_post o os os' A c sols : sim os os' -> enum_post o os A c sols -> enum_post o os' A c sols.
Proof.
  intros H (H1 & H2 & H3). split; [exact H1|]. split.
  - destruct H2 as [H2|H2]; [left|right; exact H2]. intros a Ha Hc.
    rewrite <- (sim_ic _ _ _ H) in Hc. destruct (H2 a Ha Hc) as (s & cl & ? & ? & ?).
    exists s, cl. rewrite <- (sim_yblock _ _ _ _ H). auto.
  - unfold ordered in *. clear - H H3. induction H3 as [|a l G1 _ G3]; constructor; [|exact G3].
    eapply Forall_impl; [|exact G1]. intros b Hb cl. rewrite <- (sim_yblock _ _ _ _ H). apply Hb.
Qed.

(** The costs of the reported points are complete when no allowed assignment is left *)
Lemma complete_core F os mo D L (f : front assignment) : (forall a, ~ bk F os D a) -> covers L D ->
  Forall2 (pt_ok F os mo) f L -> forall c, ipareto F os c -> In c L.
Proof.
  intros H7 H6 H0 c [(a & Ha & Hac) Hmin].
  assert (Hex : exists d, In d D /\ vle d c).
  { destruct (existsb (fun d => vleb d c) D) eqn:e.
    - apply existsb_exists in e. destruct e as (d & Hd & Hv). apply vleb_true in Hv. eauto.
    - exfalso. apply (H7 a). split; [exact Ha|]. rewrite Hac.
      apply unblocked_iff. unfold unblocked. now rewrite e. }
  destruct Hex as (d & Hd & Hv). destruct (H6 d Hd) as (c' & Hc' & Hv').
  assert (P : exists nd, pt_ok F os mo nd c').
  { clear - H0 Hc'. induction H0; [destruct Hc'|]. destruct Hc' as [<-|Hc']; eauto. }
  destruct P as [nd P]. destruct (pt_opt _ _ _ _ _ P) as [(b & Hb & Hbc) _].
  assert (ic os b = c).
  { apply Hmin; [exact Hb|]. rewrite Hbc. eapply vle_trans; eauto. }
  congruence.
Qed.

Section Api.
  Context {I : enc_impl} (SP : enc_spec I).
  Notation M := (M I).
  Notation st := (st I).
  Variables (i : inst) (o : kopts).
  Hypothesis HI : inst_ok i.
  Hypothesis HE : enum_ok i o.

  Definition Feas (a : asg) : Prop := sat a (in_cls i).
  Let F := Feas.
  Let bos := build_objs 0 (in_objs i).
  Let mo := vm_max_orig (in_vm i).

  (** A solver ready for its first [solve] *)
  Record start (s : st) : Prop := mkStart {
    sa_inv : Inv SP F (s_prob s) F (fun _ => True);
    sa_n : n_objs (s_stats s) = length (p_objs (s_prob s));
    sa_objs : sim (p_objs (s_prob s)) bos;
    sa_mo : vm_max_orig (p_vm (s_prob s)) = mo;
    sa_opts : s_opts s = o;
    sa_front : s_front s = [];
    sa_fence : s_fence s = [] }.

  Lemma inst_vm_ok : vm_ok (in_cls i) bos (in_vm i).
  Proof.
    destruct HI. constructor; auto. intros ob v Ho Hv. unfold bos in Ho.
    destruct (build_In _ _ _ Ho) as (r & j & Hr & ->). apply obj_new_vars in Hv. eauto.
  Qed.
  Lemma inst_wf : Forall obj_wf bos.
  Proof.
    apply Forall_forall. intros ob Ho. destruct (build_In _ _ _ Ho) as (r & j & Hr & ->).
    apply obj_new_wf.
  Qed.
  Lemma fresh_start s : fresh_st SP (in_cls i) bos (in_vm i) o s -> start s.
  Proof.
    intros []. constructor; auto.
    - apply fs_K.
    - apply fs_K.
    - rewrite fs_objs. apply sim_refl.
  Qed.
  Lemma kernel_start : exists s, kernel_new (in_cls i) bos (in_vm i) o = Some s /\
    fresh_st SP (in_cls i) bos (in_vm i) o s.
  Proof. apply kernel_new_ok; [apply inst_vm_ok|apply inst_wf]. Qed.
  Lemma alg_new_start al s : alg_new al i o = Some s -> fresh_st SP (in_cls i) bos (in_vm i) o s.
  Proof.
    destruct kernel_start as (s1 & H1 & H2). fold bos. destruct al; cbn; fold bos; intros H.
    - unfold pminimal_new in H. congruence.
    - unfold lb_new in H. congruence.
    - unfold bi_new in H. rewrite H1 in H. destruct (length bos =? 2); congruence.
  Qed.
  Lemma alg_new_some al : (al = ABiOptSat -> length (in_objs i) = 2) ->
    exists s, alg_new (I := I) al i o = Some s.
  Proof.
    intros Hb. destruct kernel_start as (s1 & H1 & _). exists s1. destruct al; cbn; fold bos; try exact H1.
    unfold bi_new. rewrite H1. unfold bos. rewrite build_length, (Hb eq_refl). reflexivity.
  Qed.

  (** Loop bound: depends on the instance (and on core boosting) only *)
  Definition bound (s0 : st) : nat :=
    2 ^ (S mo) + list_sum (totals bos) + length (grid (totals bos)) + list_sum (caps SP (s_prob s0)).

  Lemma vle_sum c d : vle c d -> list_sum c <= list_sum d.
  Proof.
    unfold vle. induction 1; cbn; [lia|]. change (fold_right Nat.add 0) with list_sum. lia.
  Qed.

  Section From.
    Variable s0 : st.
    Hypothesis H0 : start s0.
    Let os := p_objs (s_prob s0).

    Lemma start_stat : Stat F (bound s0) os mo o.
    Proof.
      pose proof (sa_objs _ H0) as Hs. fold os in Hs. constructor.
      - unfold bound. lia.
      - intros a. rewrite (sim_ic _ _ _ Hs). pose proof (vle_sum _ _ (ic_totals bos a)). unfold bound. lia.
      - intros a Ha. exists (costs (in_objs i) a). rewrite (sim_ext _ _ _ Hs), (sim_ic _ _ _ Hs).
        apply ext_all; apply HI.
      - pose proof (enum_blk_ok i o (io_ok _ HI) HE) as [G|G]; [now left|right].
        intros m Hm Hp. rewrite (sim_ic _ _ _ Hs) in Hp. destruct (G m Hm) as (c & G1 & G2 & G3 & G4).
        { eapply sim_ipareto; [exact Hs|]. rewrite <- (sim_ic _ _ _ Hs). rewrite <- (sim_ic _ _ _ Hs) in Hp. exact Hp. }
        exists c. split; [rewrite (sim_yblock _ _ _ _ Hs); exact G1|]. split; [exact G2|]. split; [exact G3|].
        intros a Ha Hc. rewrite !(sim_ic _ _ _ Hs). apply G4; assumption.
    Qed.

    (** [L]: the internal costs of the reported points; [c]: every blocked vector is
        weakly dominated by a reported one *)
    Record G (al : alg) (c : bool) (L : list (list nat)) (s : st) : Prop := mkG {
      g_opts : s_opts s = o;
      g_nobjs : n_objs (s_stats s) = n_objs (s_stats s0);
      g_ext : ext SP (s_prob s0) (s_prob s);
      g_pts : Forall2 (pt_ok F os mo) (s_front s) L;
      g_nodup : NoDup L;
      g_ex : exists D, Inv SP F (s_prob s) (bk F os D) (fun _ => True) /\ covers D L /\
               (c = true -> covers L D);
      g_fence : al = ALowerBounding -> s_fence s = [] \/ FI SP (s_fence s) (s_prob s) }.

    Lemma G_start al : G al true [] s0.
    Proof.
      destruct H0. constructor; auto.
      - apply ext_refl.
      - rewrite sa_front0. constructor.
      - constructor.
      - exists []. split; [|split; [intros ? []|intros _ ? []]].
        eapply inv_iff; [exact sa_inv0|]. intros a. unfold bk. split; [|tauto]. intros Ha.
        split; [exact Ha|]. intros ? [].
    Qed.
    Lemma G_weak al c L s : G al c L s -> G al false L s.
    Proof. intros []. constructor; auto. destruct g_ex0 as (D & ? & ? & ?). exists D. auto. easy. Qed.

    Definition complete (L : list (list nat)) : Prop := forall c, ipareto F os c -> In c L.
    Definition unsat (s : st) : Prop := forall m, ~ sat m (p_cls (s_prob s)).

    Lemma call_ok al E l c L s : G al c L s -> oracle_ok E -> lims_pos l -> al <> ABiOptSat ->
      wp (alg_solve al E l)
        (fun _ s' => exists news Ln, s_front s' = s_front s ++ news /\
           Forall2 (fun nd c => pt_ok F os mo nd c /\ enum_post o os F c (nd_sols nd)) news Ln /\
           G al c (L ++ Ln) s' /\ unsat s' /\ (c = true -> complete (L ++ Ln)))
        (fun x s' => xok E (bound s0) x /\ exists news Ln, s_front s' = s_front s ++ news /\
           Forall2 (pt_ok F os mo) news Ln /\ NoDup (L ++ Ln) /\
           (o_enum o = NoEnum \/ unsat s -> G al false (L ++ Ln) s' /\ ext SP (s_prob s) (s_prob s') /\
             (StopAt.at_point x -> G al c (L ++ Ln) s'))) s.
    Proof.
      intros HG HO Hl Hal.
      set (s1 := set_lims l (set_stats (set_n_solve_calls (S (n_solve_calls (s_stats s))) (s_stats s)) s)).
      assert (Hos : p_objs (s_prob s1) = os) by apply (ext_objs _ _ _ (g_ext _ _ _ _ HG)).
      assert (Hmo : vm_max_orig (p_vm (s_prob s1)) = mo).
      { cbn. rewrite (ext_orig _ _ _ (g_ext _ _ _ _ HG)). apply H0. }
      assert (Hop : s_opts s1 = o) by apply HG.
      assert (HS : Stat F (bound s0) (p_objs (s_prob s1)) (vm_max_orig (p_vm (s_prob s1))) (s_opts s1)).
      { rewrite Hos, Hmo, Hop. apply start_stat. }
      destruct (g_ex _ _ _ _ HG) as (D & HInv & HD1 & HD2).
      set (k := length (grid (totals bos))).
      assert (HMI : MI SP F D L s1 k s1).
      { constructor; [apply rrel_refl|]. exists D, [], []. rewrite !app_nil_r, Hos, Hmo, Hop.
        split; [|split; [reflexivity|split; [constructor|split; [apply HG|split; [exact HD1|split; [tauto|]]]]]].
        - constructor; [unfold lims_ok; cbn; exact Hl| |exact HInv].
          cbn. rewrite (g_nobjs _ _ _ _ HG), (sa_n _ H0). symmetry. now rewrite (ext_objs _ _ _ (g_ext _ _ _ _ HG)).
        - unfold os. rewrite (sim_totals _ _ (sa_objs _ H0)). apply unb_le. }
      assert (HQ : forall s', QI SP F D L s1 s' ->
        (al = ALowerBounding -> s_fence s' = [] \/ FI SP (s_fence s') (s_prob s')) ->
        exists news Ln, s_front s' = s_front s ++ news /\
           Forall2 (fun nd c => pt_ok F os mo nd c /\ enum_post o os F c (nd_sols nd)) news Ln /\
           G al c (L ++ Ln) s' /\ unsat s' /\ (c = true -> complete (L ++ Ln))).
      { intros s' HQI Hf. pose proof HQI as [R (D' & news & Ln & Q1 & Q2 & Q3 & Q4 & Q5 & Q6 & Q7)].
        rewrite Hos, Hmo, Hop in *.
        exists news, Ln. split; [exact Q2|]. split; [exact Q3|].
        assert (Hpts : Forall2 (pt_ok F os mo) (s_front s') (L ++ Ln)).
        { rewrite Q2. apply Forall2_app_inv_len; [apply HG|]. clear - Q3. induction Q3; constructor; tauto. }
        split; [|split].
        - constructor; auto.
          + rewrite (rr_opts _ _ _ R). exact Hop.
          + rewrite (rr_nobjs _ _ _ R). apply HG.
          + eapply ext_trans; [apply HG|]. apply (rr_ext _ _ _ R).
          + exists D'. split; [apply Q1|]. split; [exact Q5|]. intros Hc. apply Q6. now apply HD2.
        - intros m Hm. apply (Q7 m). apply (inv_sound _ _ _ _ _ (k_inv _ _ _ _ _ Q1)), Hm.
        - intros Hc c' Hc'. exact (complete_core F os mo D' _ _ Q7 (Q6 (HD2 Hc)) Hpts c' Hc'). }
      assert (HX : forall x s', XI SP E F (bound s0) D L s1 x s' ->
        (al = ALowerBounding -> s_fence s' = [] \/ FI SP (s_fence s') (s_prob s')) ->
        xok E (bound s0) x /\ exists news Ln, s_front s' = s_front s ++ news /\
           Forall2 (pt_ok F os mo) news Ln /\ NoDup (L ++ Ln) /\
           (o_enum o = NoEnum \/ unsat s -> G al false (L ++ Ln) s' /\ ext SP (s_prob s) (s_prob s') /\
             (StopAt.at_point x -> G al c (L ++ Ln) s'))).
      { intros x s' (X1 & R & news & Ln & X2 & X3 & X4 & X5) Hf. rewrite Hos, ?Hmo, ?Hop in *.
        split; [exact X1|]. exists news, Ln. split; [exact X2|]. split; [exact X3|]. split; [exact X4|].
        intros Hor. destruct (X5 Hor) as (D' & Y1 & Y2 & Y3).
        assert (HGb : forall b, (b = true -> covers (L ++ Ln) D') -> G al b (L ++ Ln) s').
        { intros b Hb. constructor; auto.
          + rewrite (rr_opts _ _ _ R). exact Hop.
          + rewrite (rr_nobjs _ _ _ R). apply HG.
          + eapply ext_trans; [apply HG|]. apply (rr_ext _ _ _ R).
          + rewrite X2. apply Forall2_app_inv_len; [apply HG|exact X3].
          + exists D'. auto. }
        split; [apply HGb; discriminate|]. split; [apply (rr_ext _ _ _ R)|].
        intros Hx. apply HGb. intros Hc. apply Y3; auto. }
      destruct al; [| |congruence]; cbn [alg_solve].
      - unfold pminimal_solve. apply wp_bind, wp_modify. fold s1.
        eapply wp_mono; [eapply (pminimal_main_ok SP E HO F (bound s0) D L s1 HS s1)| |].
        + exists k. split; [unfold bound, k; lia|exact HMI].
        + intros u s' H. apply HQ; [exact H|discriminate].
        + intros x s' H. apply HX; [exact H|discriminate].
      - unfold lb_solve. apply wp_bind, wp_modify. fold s1.
        eapply wp_mono; [eapply (lb_main_ok SP E HO F (bound s0) D L s1 HS s1 k)| |].
        + exact HMI.
        + rewrite (ext_caps _ _ _ (g_ext _ _ _ _ HG : ext SP (s_prob s0) (s_prob s1))). unfold bound, k. lia.
        + exact (g_fence _ _ _ _ HG eq_refl).
        + intros u s' [H H']. apply HQ; [exact H|auto].
        + intros x s' [H H']. apply HX; [exact H|auto].
    Qed.

    (** ** Reading the invariant in the user's terms *)
    Lemma ic_bos a : ic os a = ic bos a.
    Proof. apply sim_ic, H0. Qed.
    Lemma pt_costs nd c : pt_ok F os mo nd c ->
      exists a, F a /\ ic os a = c /\ nd_costs nd = costs (in_objs i) a.
    Proof.
      intros [H1 [(a & Ha & Hc) _] _ _ _]. exists a. split; [exact Ha|]. split; [exact Hc|].
      rewrite <- Hc, (sim_ext _ _ _ (sa_objs _ H0)) in H1. rewrite ic_bos in H1.
      unfold bos in H1. rewrite ext_all in H1; [congruence|apply HI|apply HI].
    Qed.
    Lemma costs_ic a b : costs (in_objs i) a = costs (in_objs i) b <-> ic os a = ic os b.
    Proof. rewrite !ic_bos. symmetry. apply (ic_eq _ (io_ok _ HI) 0). Qed.
    Lemma opt_iff a : F a -> (ipareto F os (ic os a) <-> pareto_optimal (in_cls i) (in_objs i) (costs (in_objs i) a)).
    Proof.
      intros Ha. rewrite <- (ipareto_iff _ (io_ok _ HI) (in_cls i) 0 a Ha). fold bos. rewrite ic_bos.
      split; apply sim_ipareto; [apply H0|symmetry; apply H0].
    Qed.
    Lemma pt_sound nd c : pt_ok F os mo nd c -> sound_point i nd.
    Proof.
      intros HP. destruct (pt_costs _ _ HP) as (a & Ha & Hc & He). destruct HP as [H1 H2 H3 H4 H5].
      split; [|split; [exact H3|split; [exact H4|]]].
      - rewrite He. apply (opt_iff a Ha). now rewrite Hc.
      - intros sol Hsol. destruct (H5 sol Hsol) as (b & Hb & Hbc & ->).
        split; [apply sol_of_length|]. split.
        + intros v Hv. exists (b v). apply sol_of_nth. unfold n_orig in Hv. fold mo in Hv. lia.
        + exists b. split; [apply extends_sol_of, agree_refl|]. split; [exact Hb|].
          rewrite He. apply costs_ic. congruence.
    Qed.
    Lemma pts_sound f L : Forall2 (pt_ok F os mo) f L -> NoDup L -> sound_front i f.
    Proof.
      intros H HN. split.
      - revert HN. induction H as [|nd c f L Hp H IH]; intros HN; cbn; [constructor|].
        inversion HN; subst. constructor; [|apply IH; assumption]. intros Hin.
        apply in_map_iff in Hin. destruct Hin as (nd' & He & Hin).
        match goal with H : ~ In c L |- _ => apply H end.
        clear - H Hin Hp He HI H0. induction H as [|nd1 c1 f L Hp1 H IH]; [destruct Hin|].
        destruct Hin as [->|Hin]; [left|right; auto].
        destruct (pt_costs _ _ Hp) as (a & _ & Hc & E1). destruct (pt_costs _ _ Hp1) as (b & _ & Hc1 & E2).
        rewrite E1, E2 in He. apply costs_ic in He. congruence.
      - clear HN. induction H; constructor; [eapply pt_sound; eauto|assumption].
    Qed.
    Lemma pts_exact f L : Forall2 (pt_ok F os mo) f L -> NoDup L -> complete L -> exact_front i f.
    Proof.
      intros H HN Hc. destruct (pts_sound _ _ H HN) as [S1 S2]. split; [exact S1|]. intros c. split.
      - intros Hin. apply in_map_iff in Hin. destruct Hin as (nd & <- & Hin).
        rewrite Forall_forall in S2. apply (S2 nd Hin).
      - intros Hp. pose proof Hp as [(a & Ha & <-) _]. apply (opt_iff a Ha) in Hp.
        specialize (Hc _ Hp). clear - H Hc HI H0. induction H as [|nd c f L Hp H IH]; [destruct Hc|].
        cbn. destruct Hc as [->|Hc]; [left|right; auto].
        destruct (pt_costs _ _ Hp) as (b & _ & Hb & ->). now apply costs_ic.
    Qed.

    (** ** Histories *)
    Lemma G_logger al c L s b : G al c L s -> G al c L (set_logger b s).
    Proof. intros []. constructor; auto. Qed.

    Lemma solve_noenum al E l L s : o_enum o = NoEnum -> al <> ABiOptSat -> oracle_ok E -> lims_pos l ->
      G al false L s -> exists Ln, G al false (L ++ Ln) (snd (alg_solve al E l s)).
    Proof.
      intros Hn Hal HO Hl HG. pose proof (call_ok al E l false L s HG HO Hl Hal) as H.
      unfold wp in H. destruct (alg_solve al E l s) as [[[]|x] s']; cbn [snd].
      - destruct H as (news & Ln & _ & _ & H & _). eauto.
      - destruct H as (_ & news & Ln & _ & _ & _ & H). exists Ln. exact (proj1 (H (or_introl Hn))).
    Qed.
    Lemma run_noenum al h : o_enum o = NoEnum -> al <> ABiOptSat -> forall L s, run_ok h ->
      G al false L s -> exists L', G al false L' (run al h s).
    Proof.
      intros Hn Hal. induction h as [|x h IH]; intros L s Hok HG; cbn [run]; [eauto|].
      inversion Hok as [|? ? Hx Hh]; subst. destruct x as [E l| |]; cbn [run_step].
      - destruct Hx as [HO Hl]. destruct (solve_noenum al E l L s Hn Hal HO Hl HG) as (Ln & HG').
        eapply IH; eauto.
      - eapply IH; [exact Hh|]. apply G_logger, HG.
      - eapply IH; [exact Hh|]. apply G_logger, HG.
    Qed.

    (** *** After a finished run *)
    Definition finished al (s : st) : Prop := exists L, G al false L s /\ complete L /\ unsat s.

    Lemma pts_ipareto f L : Forall2 (pt_ok F os mo) f L -> forall c, In c L -> ipareto F os c.
    Proof. induction 1; intros d []; [subst; apply H|auto]. Qed.

    Lemma finished_nil L Ln news : complete L -> Forall2 (pt_ok F os mo) news Ln -> NoDup (L ++ Ln) ->
      news = [] /\ Ln = [].
    Proof.
      intros Hc Hp HN. destruct Ln as [|c Ln]; [inversion Hp; auto|]. exfalso.
      assert (Hin : In c L) by (apply Hc; eapply pts_ipareto; [exact Hp|now left]).
      apply NoDup_remove_2 in HN. apply HN, in_or_app. now left.
    Qed.

    Lemma solve_finished al E l s : al <> ABiOptSat -> oracle_ok E -> lims_pos l -> finished al s ->
      wp (alg_solve al E l) (fun _ s' => s_front s' = s_front s /\ finished al s')
        (fun x s' => xok E (bound s0) x /\ s_front s' = s_front s /\ finished al s') s.
    Proof.
      intros Hal HO Hl (L & HG & Hc & Hu). eapply wp_mono; [apply (call_ok al E l false L s HG HO Hl Hal)| |].
      - intros [] s' (news & Ln & H1 & H2 & H3 & H4 & _).
        destruct (finished_nil L Ln news Hc) as [-> ->].
        { clear - H2. induction H2; constructor; tauto. }
        { apply H3. }
        rewrite app_nil_r in *. split; [exact H1|]. exists L. auto.
      - intros x s' (Hx & news & Ln & H1 & H2 & H3 & H4).
        destruct (finished_nil L Ln news Hc H2 H3) as [-> ->]. destruct (H4 (or_intror Hu)) as (H5 & H6 & _).
        rewrite app_nil_r in *. split; [exact Hx|]. split; [exact H1|]. exists L. split; [exact H5|].
        split; [exact Hc|]. intros m Hm. apply (Hu m). eapply ext_sat; eauto.
    Qed.
    Lemma run_finished al h : al <> ABiOptSat -> forall s, run_ok h -> finished al s ->
      s_front (run al h s) = s_front s /\ finished al (run al h s).
    Proof.
      intros Hal. induction h as [|x h IH]; intros s Hok Hf; cbn [run]; [auto|].
      inversion Hok as [|? ? Hx Hh]; subst.
      assert (Hs : s_front (run_step al x s) = s_front s /\ finished al (run_step al x s)).
      { destruct x as [E l| |]; cbn [run_step].
        - destruct Hx as [HO Hl]. pose proof (solve_finished al E l s Hal HO Hl Hf) as H.
          unfold wp in H. destruct (alg_solve al E l s) as [[]]; cbn [snd]; tauto.
        - split; [reflexivity|]. destruct Hf as (L & HG & Hr). exists L. split; [apply G_logger, HG|exact Hr].
        - split; [reflexivity|]. destruct Hf as (L & HG & Hr). exists L. split; [apply G_logger, HG|exact Hr]. }
      destruct Hs as [Hs1 Hs2]. destruct (IH _ Hh Hs2) as [H1 H2]. rewrite H1. auto.
    Qed.
  End From.
End Api.
