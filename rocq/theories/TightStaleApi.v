(** * Calls and histories of calls with tightening (P-minimal and LowerBounding), literals in several objectives allowed *)
From Coq Require Import List Bool Arith Lia ZArith.
From Verif Require Import Base BaseLemmas Spec MTypes MKernel MPMinimal MLowerBounding MBiOptSat
  EncSpec Wp Sem Kern Yield PMin PMinTop LBTop Init ApiSpec Ext Blk Struct Api ApiThm ApiTop CbSpec CbApi MTight InproSpec InproThm TightSpec
  MTightAlg TightAlgSpec TightStale TightStaleTop.
From Verif Require StopAt Book TightSim.
Import ListNotations.

Section Api.
  Context {I : enc_impl} (SP : enc_spec I).
  Notation M := (M I).
  Notation st := (st I).
  Variables (i : inst) (o : kopts).
  Hypothesis HI : inst_ok i.
  Hypothesis HPl : plain_objs i.
  Let F := Feas i.
  Let bos := build_objs 0 (in_objs i).
  Let mo := vm_max_orig (in_vm i).

  Section From.
    Hypothesis HE : enum_ok i o.
    Variable s0 : st.
    Hypothesis H0 : start SP i o s0.
    Let os := p_objs (s_prob s0).
    Notation G := (G SP i o s0).
    Notation bound := (bound SP i).
    Notation complete := (complete i s0).
    Notation finished := (finished SP i o s0).

    Lemma call_t_ok al E Fl w l c L s : G al c L s -> oracle_ok E -> flipper_ok (in_objs i) Fl -> lims_pos l -> al <> ABiOptSat ->
      wp (tight_solve E Fl w al l)
        (fun _ s' => exists news Ln, s_front s' = s_front s ++ news /\
           Forall2 (fun nd c => pt_ok F os mo nd c /\ enum_post o os F c (nd_sols nd)) news Ln /\
           G al c (L ++ Ln) s' /\ unsat s' /\ (c = true -> complete (L ++ Ln)))
        (fun x s' => xok E (bound s0) x /\ exists news Ln, s_front s' = s_front s ++ news /\
           Forall2 (pt_ok F os mo) news Ln /\ NoDup (L ++ Ln) /\
           (o_enum o = NoEnum \/ unsat s -> G al false (L ++ Ln) s' /\ ext SP (s_prob s) (s_prob s') /\
             (StopAt.at_point x -> G al c (L ++ Ln) s'))) s.
    Proof.
      intros HG HO HFl Hl Hal.
      set (s1 := set_lims l (set_stats (set_n_solve_calls (S (n_solve_calls (s_stats s))) (s_stats s)) s)).
      assert (Hos : p_objs (s_prob s1) = os) by apply (ext_objs _ _ _ (g_ext _ _ _ _ _ _ _ _ HG)).
      assert (Hmo : vm_max_orig (p_vm (s_prob s1)) = mo).
      { cbn. rewrite (ext_orig _ _ _ (g_ext _ _ _ _ _ _ _ _ HG)). apply H0. }
      assert (Hop : s_opts s1 = o) by apply HG.
      assert (HS : Stat F (bound s0) (p_objs (s_prob s1)) (vm_max_orig (p_vm (s_prob s1))) (s_opts s1)).
      { rewrite Hos, Hmo, Hop. apply (start_stat SP i o HI HE s0 H0). }
      assert (Hit : map obj_iter (p_objs (s_prob s1)) = map obj_iter (build_objs 0 (in_objs i))).
      { rewrite Hos. apply (TightSim.start_kept _ _ _ _ H0). }
      destruct (g_ex _ _ _ _ _ _ _ _ HG) as (D & HInv & HD1 & HD2).
      set (k := length (grid (totals bos))).
      assert (HMI : MI SP F D L s1 k s1).
      { constructor; [apply rrel_refl|]. exists D, [], []. rewrite !app_nil_r, Hos, Hmo, Hop.
        split; [|split; [reflexivity|split; [constructor|split; [apply HG|split; [exact HD1|split; [tauto|]]]]]].
        - constructor; [unfold lims_ok; cbn; exact Hl| |exact HInv].
          cbn. rewrite (g_nobjs _ _ _ _ _ _ _ _ HG), (sa_n _ _ _ _ H0). symmetry. now rewrite (ext_objs _ _ _ (g_ext _ _ _ _ _ _ _ _ HG)).
        - unfold os. rewrite (sim_totals _ _ (sa_objs _ _ _ _ H0)). apply unb_le. }
      assert (HQ : forall s', QI SP F D L s1 s' ->
        (al = ALowerBounding -> s_fence s' = [] \/ FI SP (s_fence s') (s_prob s')) ->
        exists news Ln, s_front s' = s_front s ++ news /\
           Forall2 (fun nd c => pt_ok F os mo nd c /\ enum_post o os F c (nd_sols nd)) news Ln /\
           G al c (L ++ Ln) s' /\ unsat s' /\ (c = true -> complete (L ++ Ln))).
      { intros s' HQI Hf. pose proof HQI as [R (D' & news & Ln & Q1 & Q2 & Q3 & Q4 & Q5 & Q6 & Q7)].
        rewrite Hos, Hmo, Hop in *.
        exists news, Ln. split; [exact Q2|]. split; [exact Q3|].
        assert (Hpts : Forall2 (pt_ok F os mo) (s_front s') (L ++ Ln)).
        { rewrite Q2. apply Forall2_app_inv_len; [apply HG|]. clear - Q3. induction Q3; constructor; tauto. }
        split; [|split].
        - constructor; auto.
          + rewrite (rr_opts _ _ _ R). exact Hop.
          + rewrite (rr_nobjs _ _ _ R). apply HG.
          + eapply ext_trans; [apply HG|]. apply (rr_ext _ _ _ R).
          + exists D'. split; [apply Q1|]. split; [exact Q5|]. intros Hc. apply Q6. now apply HD2.
        - intros m Hm. apply (Q7 m). apply (inv_sound _ _ _ _ _ (k_inv _ _ _ _ _ Q1)), Hm.
        - intros Hc c' Hc'. exact (complete_core F os mo D' _ _ Q7 (Q6 (HD2 Hc)) Hpts c' Hc'). }
      assert (HX : forall x s', XI SP E F (bound s0) D L s1 x s' ->
        (al = ALowerBounding -> s_fence s' = [] \/ FI SP (s_fence s') (s_prob s')) ->
        xok E (bound s0) x /\ exists news Ln, s_front s' = s_front s ++ news /\
           Forall2 (pt_ok F os mo) news Ln /\ NoDup (L ++ Ln) /\
           (o_enum o = NoEnum \/ unsat s -> G al false (L ++ Ln) s' /\ ext SP (s_prob s) (s_prob s') /\
             (StopAt.at_point x -> G al c (L ++ Ln) s'))).
      { intros x s' (X1 & R & news & Ln & X2 & X3 & X4 & X5) Hf. rewrite Hos, ?Hmo, ?Hop in *.
        split; [exact X1|]. exists news, Ln. split; [exact X2|]. split; [exact X3|]. split; [exact X4|].
        intros Hor. destruct (X5 Hor) as (D' & Y1 & Y2 & Y3).
        assert (HGb : forall b, (b = true -> covers (L ++ Ln) D') -> G al b (L ++ Ln) s').
        { intros b Hb. constructor; auto.
          + rewrite (rr_opts _ _ _ R). exact Hop.
          + rewrite (rr_nobjs _ _ _ R). apply HG.
          + eapply ext_trans; [apply HG|]. apply (rr_ext _ _ _ R).
          + rewrite X2. apply Forall2_app_inv_len; [apply HG|exact X3].
          + exists D'. auto. }
        split; [apply HGb; discriminate|]. split; [apply (rr_ext _ _ _ R)|].
        intros Hx. apply HGb. intros Hc. apply Y3; auto. }
      unfold tight_solve. destruct al; [| |congruence].
      - apply wp_bind, wp_modify. fold s1.
        eapply wp_mono; [eapply (pminimal_main_t_ok SP E HO F (bound s0) i Fl w HPl HFl D L s1 HS Hit s1)| |].
        + exists k. split; [unfold Api.bound, k, bos; lia|exact HMI].
        + intros u s' H. apply HQ; [exact H|discriminate].
        + intros x s' H. apply HX; [exact H|discriminate].
      - apply wp_bind, wp_modify. fold s1.
        eapply wp_mono; [eapply (lb_main_t_ok SP E HO F (bound s0) i Fl w HPl HFl D L s1 HS Hit s1 k)| |].
        + exact HMI.
        + rewrite (ext_caps _ _ _ (g_ext _ _ _ _ _ _ _ _ HG : ext SP (s_prob s0) (s_prob s1))). unfold Api.bound, k, bos. lia.
        + exact (g_fence _ _ _ _ _ _ _ _ HG eq_refl).
        + intros u s' [H H']. apply HQ; [exact H|auto].
        + intros x s' [H H']. apply HX; [exact H|auto].
    Qed.

    Lemma solve_noenum_t al E Fl w l L s : o_enum o = NoEnum -> al <> ABiOptSat -> oracle_ok E -> flipper_ok (in_objs i) Fl -> lims_pos l ->
      G al false L s -> exists Ln, G al false (L ++ Ln) (snd (tight_solve E Fl w al l s)).
    Proof.
      intros Hn Hal HO HFl Hl HG. pose proof (call_t_ok al E Fl w l false L s HG HO HFl Hl Hal) as H.
      unfold wp in H. destruct (tight_solve E Fl w al l s) as [[[]|x] s']; cbn [snd].
      - destruct H as (news & Ln & _ & _ & H & _). eauto.
      - destruct H as (_ & news & Ln & _ & _ & _ & H). exists Ln. exact (proj1 (H (or_introl Hn))).
    Qed.
    Lemma run_noenum_t al h : o_enum o = NoEnum -> al <> ABiOptSat -> forall L s, run_t_ok (in_objs i) h ->
      G al false L s -> exists L', G al false L' (run_t al h s).
    Proof.
      intros Hn Hal. induction h as [|x h IH]; intros L s Hok HG; cbn [run_t]; [eauto|].
      inversion Hok as [|? ? Hx Hh]; subst. destruct x as [E Fl w l| |]; cbn [run_tstep].
      - destruct Hx as (HO & HFl & Hl). destruct (solve_noenum_t al E Fl w l L s Hn Hal HO HFl Hl HG) as (Ln & HG').
        eapply IH; eauto.
      - eapply IH; [exact Hh|]. apply (G_logger SP), HG.
      - eapply IH; [exact Hh|]. apply (G_logger SP), HG.
    Qed.

    Lemma solve_finished_t al E Fl w l s : al <> ABiOptSat -> oracle_ok E -> flipper_ok (in_objs i) Fl -> lims_pos l -> finished al s ->
      wp (tight_solve E Fl w al l) (fun _ s' => s_front s' = s_front s /\ finished al s')
        (fun x s' => xok E (bound s0) x /\ s_front s' = s_front s /\ finished al s') s.
    Proof.
      intros Hal HO HFl Hl (L & HG & Hc & Hu). eapply wp_mono; [apply (call_t_ok al E Fl w l false L s HG HO HFl Hl Hal)| |].
      - intros [] s' (news & Ln & H1 & H2 & H3 & H4 & _).
        destruct (finished_nil i s0 L Ln news Hc) as [-> ->].
        { clear - H2. induction H2; constructor; tauto. }
        { apply H3. }
        rewrite app_nil_r in *. split; [exact H1|]. exists L. auto.
      - intros x s' (Hx & news & Ln & H1 & H2 & H3 & H4).
        destruct (finished_nil i s0 L Ln news Hc H2 H3) as [-> ->]. destruct (H4 (or_intror Hu)) as (H5 & H6 & _).
        rewrite app_nil_r in *. split; [exact Hx|]. split; [exact H1|]. exists L. split; [exact H5|].
        split; [exact Hc|]. intros m Hm. apply (Hu m). eapply ext_sat; eauto.
    Qed.
    Lemma run_finished_t al h : al <> ABiOptSat -> forall s, run_t_ok (in_objs i) h -> finished al s ->
      s_front (run_t al h s) = s_front s /\ finished al (run_t al h s).
    Proof.
      intros Hal. induction h as [|x h IH]; intros s Hok Hf; cbn [run_t]; [auto|].
      inversion Hok as [|? ? Hx Hh]; subst.
      assert (Hs : s_front (run_tstep al x s) = s_front s /\ finished al (run_tstep al x s)).
      { destruct x as [E Fl w l| |]; cbn [run_tstep].
        - destruct Hx as (HO & HFl & Hl). pose proof (solve_finished_t al E Fl w l s Hal HO HFl Hl Hf) as H.
          unfold wp in H. destruct (tight_solve E Fl w al l s) as [[]]; cbn [snd]; tauto.
        - split; [reflexivity|]. destruct Hf as (L & HG & Hr). exists L. split; [apply (G_logger SP), HG|exact Hr].
        - split; [reflexivity|]. destruct Hf as (L & HG & Hr). exists L. split; [apply (G_logger SP), HG|exact Hr]. }
      destruct Hs as [Hs1 Hs2]. destruct (IH _ Hh Hs2) as [H1 H2]. rewrite H1. auto.
    Qed.
  End From.

  (** ** Solvers that have not been asked yet: new or core boosted *)
  Section First.
    Hypothesis HE : enum_ok i o.
    Variables (al : alg) (s0 : st).
    Hypothesis Hal : al <> ABiOptSat.
    Hypothesis H0 : start SP i o s0.
    Hypothesis Hbd : bound SP i s0 <= iter_bound i.

    Lemma ttop_first E Fl w l : oracle_ok E -> flipper_ok (in_objs i) Fl -> lims_pos l ->
      match tight_solve E Fl w al l s0 with
      | (Done _, s') => good_first i o s0 al s'
      | (Exit x, s') => xok E (iter_bound i) x /\ sound_front i (s_front s')
      end.
    Proof.
      intros HO HFl Hl.
      pose proof (wp_run _ _ _ _ (call_t_ok HE s0 H0 al E Fl w l true [] s0 (G_start SP i o s0 H0 al) HO HFl Hl Hal)) as C.
      destruct (tight_solve E Fl w al l s0) as [[[]|x] s'].
      - destruct C as (news & Ln & C1 & C2 & C3 & _ & C5). cbn [app] in *. rewrite (sa_front _ _ _ _ H0) in C1. cbn [app] in C1.
        exists Ln. rewrite C1. split; [exact C2|]. split; [apply C3|]. split; [apply C5; reflexivity|congruence].
      - destruct C as (C0 & news & Ln & C1 & C2 & C3 & _). cbn [app] in *. rewrite (sa_front _ _ _ _ H0) in C1. cbn [app] in C1.
        split; [destruct C0 as [C0|[C0 C4]]; [now left|right; split; [exact C0|lia]]|].
        rewrite C1. eapply (pts_sound SP i o HI s0 H0); eauto.
    Qed.
    Lemma ttop_done E Fl w l s' : oracle_ok E -> flipper_ok (in_objs i) Fl -> lims_pos l ->
      tight_solve E Fl w al l s0 = (Done tt, s') -> exact_front i (s_front s') /\ sound_front i (s_front s').
    Proof.
      intros HO HFl Hl H. pose proof (ttop_first E Fl w l HO HFl Hl) as G. rewrite H in G.
      exact (first_done SP i o HI s0 H0 al s' G).
    Qed.
    Lemma ttop_sound E Fl w l : oracle_ok E -> flipper_ok (in_objs i) Fl -> lims_pos l ->
      sound_front i (s_front (snd (tight_solve E Fl w al l s0))).
    Proof.
      intros HO HFl Hl. pose proof (ttop_first E Fl w l HO HFl Hl) as G.
      destruct (tight_solve E Fl w al l s0) as [[[]|x] s'] eqn:e; cbn [snd]; [|tauto].
      now destruct (ttop_done E Fl w l s' HO HFl Hl e).
    Qed.
    Lemma ttop_term E Fl w : oracle_ok E -> flipper_ok (in_objs i) Fl -> calm E -> iter_bound i < ev_fuel E ->
      exists s', tight_solve E Fl w al lims_none s0 = (Done tt, s').
    Proof.
      intros HO HFl Hc Hf. assert (Hl : lims_pos lims_none) by (repeat split; discriminate).
      pose proof (ttop_first E Fl w lims_none HO HFl Hl) as G.
      pose proof (wp_run _ _ _ _ (tight_calm SP E Fl w al s0 Hc Hal)) as C.
      destruct (tight_solve E Fl w al lims_none s0) as [[[]|x] s']; [eauto|]. exfalso.
      destruct G as [G _]. unfold Book.calmX in C. destruct G as [G|[-> G]]; [|lia].
      destruct x as [t|[]| |]; cbn in *; tauto.
    Qed.
    Lemma ttop_enum_all E Fl w l s' : oracle_ok E -> flipper_ok (in_objs i) Fl -> lims_pos l ->
      tight_solve E Fl w al l s0 = (Done tt, s') -> o_enum o = Solutions None -> forall nd, In nd (s_front s') ->
      NoDup (nd_sols nd) /\ forall sol, In sol (nd_sols nd) <->
        valid_solution (in_cls i) (in_objs i) (n_orig i) (nd_costs nd) sol.
    Proof.
      intros HO HFl Hl H Hen nd Hin. pose proof (ttop_first E Fl w l HO HFl Hl) as G. rewrite H in G.
      destruct G as (Ln & H1 & _). destruct (Forall2_In_l _ _ _ nd H1 Hin) as (c & HP & (_ & [HC|(k & Hk & _)] & _)).
      - split; [apply HP|]. eapply (enum_all SP i o HI HE s0 H0); eauto.
      - rewrite Hen in Hk. discriminate.
    Qed.
    Lemma ttop_again E Fl w l s1 h : oracle_ok E -> flipper_ok (in_objs i) Fl -> lims_pos l ->
      tight_solve E Fl w al l s0 = (Done tt, s1) -> run_t_ok (in_objs i) h ->
      s_front (run_t al h s1) = s_front s1.
    Proof.
      intros HO HFl Hl Hs Hok.
      pose proof (wp_run _ _ _ _ (call_t_ok HE s0 H0 al E Fl w l true [] s0 (G_start SP i o s0 H0 al) HO HFl Hl Hal)) as C.
      rewrite Hs in C. destruct C as (news & Ln & _ & _ & C1 & C2 & C3). cbn [app] in *.
      assert (HF : finished SP i o s0 al s1).
      { exists Ln. split; [eapply G_weak; eauto|]. split; [apply C3; reflexivity|exact C2]. }
      apply (run_finished_t HE s0 H0 al h Hal s1 Hok HF).
    Qed.
  End First.

  Section Later.
    Hypothesis Hn : o_enum o = NoEnum.
    Variables (al : alg) (s0 : st).
    Hypothesis Hal : al <> ABiOptSat.
    Hypothesis H0 : start SP i o s0.
    Lemma ttop_history h : run_t_ok (in_objs i) h -> sound_front i (s_front (run_t al h s0)).
    Proof.
      intros Hok. pose proof (enum_none i o Hn) as HE.
      destruct (run_noenum_t HE s0 H0 al h Hn Hal [] s0 Hok) as (L & G).
      { eapply G_weak. apply (G_start SP i o s0 H0 al). }
      eapply (pts_sound SP i o HI s0 H0); [apply G|apply G].
    Qed.
    Lemma ttop_exits h E Fl w l : bound SP i s0 <= iter_bound i ->
      run_t_ok (in_objs i) h -> oracle_ok E -> flipper_ok (in_objs i) Fl -> lims_pos l ->
      proper_exit i E (fst (tight_solve E Fl w al l (run_t al h s0))).
    Proof.
      intros Hbd Hok HO HFl Hl. pose proof (enum_none i o Hn) as HE.
      destruct (run_noenum_t HE s0 H0 al h Hn Hal [] s0 Hok) as (L & G).
      { eapply G_weak. apply (G_start SP i o s0 H0 al). }
      pose proof (wp_run _ _ _ _ (call_t_ok HE s0 H0 al E Fl w l false L _ G HO HFl Hl Hal)) as C.
      destruct (tight_solve E Fl w al l (run_t al h s0)) as [[[]|y] s']; cbn [fst]; [exact Logic.I|].
      apply xok_proper. destruct C as [[C0|[C0 C4]] _]; [now left|right; split; [exact C0|lia]].
    Qed.
  End Later.
End Api.
