(** * P-minimal and LowerBounding with tightening, literals in several objectives allowed *)
From Coq Require Import List Bool Arith Lia ZArith.
From Verif Require Import Base BaseLemmas Spec MTypes MKernel MPMinimal MLowerBounding EncSpec Wp Sem Kern Yield PMin PMinTop LBTop Ext Init Blk
  ApiSpec Struct Api ApiTop CbSpec CbApi MTight InproSpec InproThm TightSpec MTightAlg TightAlgSpec TightStale.
From Verif Require StopAt Book.
Import ListNotations.

(** ** What every step keeps (Struct.v), for the programs with tightening *)
Section Keeps.
  Context {I : enc_impl}.
  Notation M := (M I).
  Notation st := (st I).
  Variables (E : environ) (Fl : flipper) (w : heur_when).
  Variable P : option (list nat * nd_point assignment) -> st -> Prop.
  Variable X : exit -> st -> Prop.
  Notation V := (fun _ : assignment => True).
  Hypothesis SO : struct_ok E P V X.
  Hypothesis Hora : forall pi s o, P pi s -> P pi (set_ora o s).
  Notation keeps := (keeps P X).

  Lemma kt_modify f : (forall s, P None s -> P None (f s)) -> keeps None (modify f).
  Proof. intros H s Hs. apply wp_modify. auto. Qed.
  Lemma kt_plain : keeps None get_solution_and_internal_costs.
  Proof. intros s H. eapply wp_mono; [apply (k_solution_costs E P V X SO), H| |auto]. intros ? ? []. assumption. Qed.
  Lemma kt_yield cs a sol : keeps None (yield_solutions E cs a sol).
  Proof. intros s H. now apply (k_yield E P V X SO). Qed.
  Ltac kt := repeat lazymatch goal with
    | |- Struct.keeps _ _ _ (bind (gets _) _) => apply (k_gets P X); intros ?
    | |- Struct.keeps _ _ _ (bind _ _) => apply (k_bind P X); [|intros ?]
    | |- Struct.keeps _ _ _ (ret _) => apply (k_ret P X)
    | |- Struct.keeps _ _ _ get_solution_and_internal_costs => apply kt_plain
    | |- Struct.keeps _ _ _ (yield_solutions _ _ _ _) => apply kt_yield
    | |- Struct.keeps _ _ _ (check_termination _) => apply (k_check E P V X SO)
    | |- Struct.keeps _ _ _ (log_candidate _ _ _) => apply (k_cand E P V X SO)
    | |- Struct.keeps _ _ _ (log_end _) => apply (k_end E P V X SO)
    | |- Struct.keeps _ _ _ (log_start _ _) => apply (k_start E P V X SO)
    | |- Struct.keeps _ _ _ (guard _) => apply (k_guard E P V X SO)
    | |- Struct.keeps _ _ _ (unwrap _) => apply (k_unwrap E P V X SO)
    | |- Struct.keeps _ _ _ (enforce_dominating _) => apply (k_enforce E P V X SO)
    | |- Struct.keeps _ _ _ (dominated_block_clause _) => apply (k_dominated E P V X SO)
    | |- Struct.keeps _ _ _ (tmp_block_dominated _) => apply (k_tmp E P V X SO)
    | |- Struct.keeps _ _ _ (add_clause _) => apply (k_add_clause E P V X SO)
    | |- Struct.keeps _ _ _ (match ?o with Some b => add_clause [b] | None => ret tt end) => apply (k_opt_clause E P V X SO)
    | |- Struct.keeps _ _ _ (k_solve_assumps _ _) => apply (k_k_solve E P V X SO)
    | |- Struct.keeps _ _ _ (throw _) => apply (k_throw E P V X SO); exact Logic.I
    end.

  Lemma kt_sol_costs tg q : keeps None (sol_costs_t Fl tg q).
  Proof.
    unfold sol_costs_t. destruct tg; [|apply kt_plain]. kt.
    match goal with |- Struct.keeps _ _ _ (match ?o with _ => _ end) => destruct o end; kt.
    match goal with |- Struct.keeps _ _ _ (match ?o with _ => _ end) => destruct o as [[? ?] ?] end. kt.
    apply kt_modify. intros s. apply Hora.
  Qed.
  Lemma kt_pmin_body base x : keeps None (pmin_body_t E Fl w base x).
  Proof.
    destruct x as [[cs sol] sw]. unfold pmin_body_t, this_query, phase_solution. apply (k_gets P X). intros o. apply (k_bind P X).
    { destruct (o_enum o); kt. }
    intros sw'. kt. 
    assert (G : keeps None (check_termination E ;;;
        cs_sol <- sol_costs_t Fl (wanted w PhMinimization) a0 ;;
        let '(cs', sol') := cs_sol in
        log_candidate E cs' PhMinimization ;;;
        check_termination E ;;;
        ret tt ;;;
        ret (@inl pmin_state pmin_state (cs', sol', sw')))).
    { apply (k_bind P X); [kt|intros _]. apply (k_bind P X); [apply kt_sol_costs|intros [cs' sol']]. kt. }
    match goal with |- Struct.keeps _ _ _ (match ?r with _ => _ end) => destruct r end; [exact G|kt|exact G].
  Qed.
  Lemma kt_pmin cs sol base : keeps None (p_minimization_t E Fl w cs sol base).
  Proof. unfold p_minimization_t. kt. apply (k_loop E P V X SO). intros x. apply kt_pmin_body. Qed.
  Lemma kt_min_yield base q : keeps None (minimize_and_yield_t E Fl w base q).
  Proof.
    unfold minimize_and_yield_t, phase_solution. apply (k_bind P X); [apply kt_sol_costs|intros [cs sol]].
    apply (k_bind P X); [kt|intros _]. apply (k_bind P X); [kt|intros _]. apply (k_bind P X); [kt|intros _].
    apply (k_bind P X); [apply kt_pmin|intros [[cs' sol'] sw]]. kt.
  Qed.
  Lemma kt_next base q r : keeps None (match r with
    | RUnsat => log_end E ;;; ret (@inr unit unit tt)
    | _ => check_termination E ;;; minimize_and_yield_t E Fl w base q ;;; ret (inl tt) end).
  Proof.
    assert (G : keeps None (check_termination E ;;; minimize_and_yield_t E Fl w base q ;;; ret (@inl unit unit tt))).
    { apply (k_bind P X); [kt|intros _]. apply (k_bind P X); [apply kt_min_yield|intros _]. kt. }
    destruct r; [exact G|kt|exact G].
  Qed.
  Lemma kt_pminimal : keeps None (pminimal_main_t E Fl w).
  Proof.
    unfold pminimal_main_t. kt. apply (k_loop E P V X SO). intros x. unfold pminimal_body_t, this_query. kt. apply kt_next.
  Qed.
  Lemma kt_harvest base : keeps None (harvest_t E Fl w base).
  Proof.
    unfold harvest_t. kt. apply (k_loop E P V X SO). intros x. unfold harvest_body_t, this_query. kt. apply kt_next.
  Qed.
  Lemma kt_lb : keeps None (lb_main_t E Fl w).
  Proof.
    unfold lb_main_t. kt; [apply (k_fence_init E P V X SO)|]. apply (k_loop E P V X SO). intros x. unfold lb_body_t. kt.
    match goal with |- Struct.keeps _ _ _ (match ?r with _ => _ end) => destruct r end; [| |kt].
    - apply (k_bind P X); [apply kt_harvest|intros _]. kt.
    - apply (k_bind P X); [apply (k_core E P V X SO)|]. intros core. destruct core as [|l core]; [kt|].
      apply (k_bind P X); [|intros _; kt]. unfold update_fence.
      apply (k_gets P X). intros f'. apply (k_bind P X); [apply (k_core_loop E P V X SO)|]. intros _. apply (k_gets P X). intros f2.
      apply (k_emit E P V X SO).
  Qed.
End Keeps.

Lemma tight_stops_at_point {I} (SP : enc_spec I) E Fl w base q (s : st I) :
  wp (minimize_and_yield_t E Fl w base q) (fun _ _ => True)
    (fun x s' => StopAt.at_point x -> length (s_front s) < length (s_front s')) s.
Proof.
  eapply wp_mono; [apply (kt_min_yield E Fl w (StopAt.stopP (length (s_front s))) (StopAt.stopX (length (s_front s))))| |]; auto.
  - apply (StopAt.stop_struct SP).
  - unfold StopAt.stopP. lia.
Qed.
Lemma tight_calm {I} (SP : enc_spec I) E Fl w al (s : st I) : calm E -> al <> ABiOptSat ->
  wp (tight_solve E Fl w al lims_none) (fun _ _ => True) Book.calmX s.
Proof.
  intros HC Ha. unfold tight_solve. apply wp_bind, wp_modify.
  assert (HS : struct_ok (I := I) E Book.calmP (fun _ => True) Book.calmX) by (apply (Book.calm_struct SP), HC).
  destruct al; [| |congruence].
  - eapply wp_mono; [apply (kt_pminimal E Fl w Book.calmP Book.calmX HS)| |]; auto. reflexivity.
  - eapply wp_mono; [apply (kt_lb E Fl w Book.calmP Book.calmX HS)| |]; auto. reflexivity.
Qed.

Section Top.
  Context {I : enc_impl} (SP : enc_spec I).
  Notation M := (M I).
  Notation st := (st I).
  Variable E : environ.
  Hypothesis HO : oracle_ok E.
  Variable F : asg -> Prop.
  Variable B : nat.

  Notation K := (K SP F).
  Notation keep := (keep SP).
  Notation adv := (adv SP).
  Notation Stat := (Stat F B).

  Variables (i : inst) (Fl : flipper) (w : heur_when).
  Hypothesis HPl : plain_objs i.
  Hypothesis HFl : flipper_ok (in_objs i) Fl.

  Section Step.
    Variables (D : list (list nat)) (s0 : st).
    Let os := p_objs (s_prob s0).
    Let mo := vm_max_orig (p_vm (s_prob s0)).
    Let me := vm_max_enc (p_vm (s_prob s0)).
    Let o := s_opts s0.
    Hypothesis HS : Stat os mo o.

    Hypothesis Hos : map obj_iter os = map obj_iter (build_objs 0 (in_objs i)).
    Notation MQ := (MQ SP F D s0).
    Notation MX := (MX SP E F B D s0).

    Lemma minimize_and_yield_t_ok q m0 : K (bk F os D) (fun _ => True) s0 -> s_ora s0 = OModel m0 ->
      q_cls q = p_cls (s_prob s0) -> sat m0 (p_cls (s_prob s0)) -> lits_true m0 (q_assumps q) ->
      wp (minimize_and_yield_t E Fl w [] q) (fun _ s => MQ s) MX s0.
    Proof.
      intros HK Hora Hq Hm0 Hm1. unfold minimize_and_yield_t.
      assert (Hbk : forall a, sat a (p_cls (s_prob s0)) -> bk F os D a)
        by (intros a Ha; apply (inv_sound _ _ _ _ _ (k_inv _ _ _ _ _ HK)), Ha).
      assert (HMX : forall x s, good_exit x -> solved s0 s -> MX x s).
      { intros x s G V. apply MX_front; [now apply good_xok|apply solved_keep, V|].
        intros _. exists D. split; [apply incl_refl|]. rewrite (sv_prob _ _ V). apply HK. }
      apply wp_bind. eapply (wp_sol_costs_t SP F i Fl HPl HFl _ q _ _ m0); [exact HK|exact Hora|exact Hos|now rewrite Hq|exact Hm1|].
      rewrite Hq. intros cs0 sol mf sa Va La Hmf _ Hrep Hlf1 Hlf2 Hatt. fold os in Hlf1, Hlf2, Hatt. fold me in Hrep.
      assert (L0 : lims_ok sa) by (unfold lims_ok; rewrite La; apply HK).
      pose proof (K_solved _ _ _ _ _ _ Va L0 HK) as Ka.
      apply wp_bind, wp_log_candidate; [exact L0| | |].
      { rewrite (proj1 Hatt). symmetry. rewrite (k_nobjs _ _ _ _ _ Ka), (sv_prob _ _ Va). reflexivity. }
      2:{ intros x s1 Q1 G1. apply HMX; auto. eapply solved_trans; [exact Va|apply quiet_solved, Q1]. }
      intros s1 Q1 L1. apply wp_bind, wp_check_termination; [exact L1| |].
      2:{ intros x s2 Q2 G2. apply HMX; auto. eapply solved_trans; [exact Va|apply quiet_solved; eapply quiet_trans; eauto]. }
      intros s2 Q2 L2. apply wp_bind, wp_ret, wp_bind.
      pose proof (solved_trans _ _ _ Va (quiet_solved _ _ (quiet_trans _ _ _ Q1 Q2))) as Q02.
      eapply wp_mono; [eapply (p_minimization_t_ok SP E HO F B i Fl w HPl HFl D s0 Hos cs0 sol mf s2)| |].
      - apply solved_keep, Q02.
      - exact Hrep.
      - now apply Hbk.
      - exact Hlf1.
      - eapply att_mono; [|exact Hatt]. intros a [Ha _]. now apply Hbk.
      - pose proof (vsum_le _ _ Hlf2). pose proof (st_sum _ _ _ _ _ HS m0). fold os in H, H0. lia.
      - apply (K_solved _ _ _ _ _ _ Q02 L2 HK).
      - intros [[cs sol'] sw] s3 (Hk3 & m & ch & Hrep' & Hcs & Hm & Hch & Hmin & K3 & Hsw & Hcase).
        fold os in Hcs, Hm, Hch, Hmin, K3, Hcase. fold me in Hrep'. fold o in Hcase.

        assert (Eos3 : p_objs (s_prob s3) = os) by apply (adv_objs _ _ _ (kp_adv _ _ _ Hk3)).
        apply wp_bind. eapply wp_enforce_dominating; [exact K3|apply Hm|rewrite Eos3; symmetry; exact Hcs|].
        intros ls s4 K4 Hk34 L4 S4 C4.
        pose proof (keep_trans _ _ _ _ Hk3 Hk34) as Hk4. pose proof (kp_adv _ _ _ Hk4) as Ha4.
        assert (Eos4 : p_objs (s_prob s4) = os) by apply (adv_objs _ _ _ Ha4).
        rewrite Eos4 in S4, C4.
        assert (Hunb : forall d, In d D -> ~ vle d cs).
        { intros d Hd. rewrite Hcs. destruct Hm as [_ Hm]. auto. }
        assert (Hpar : ipareto F os cs).
        { split; [exists m; split; [apply Hm|symmetry; exact Hcs]|]. intros b Hb Hle.
          apply vle_antisym; [exact Hle|].
          destruct (vle_dec cs (ic os b)) as [Hc|Hc]; [exact Hc|]. apply Hmin; [|exact Hle].
          apply bk_app. split.
          - split; [exact Hb|]. intros d Hd Hv. apply (Hunb d Hd). eapply vle_trans; eauto.
          - intros d Hd Hv. apply Hc. eapply vle_trans; [apply Hch, Hd|exact Hv]. }
        destruct (st_ext _ _ _ _ _ HS m) as [exts Hexts]; [apply Hm|].
        rewrite <- Hcs in Hexts.
        assert (Emo4 : vm_max_orig (p_vm (s_prob s4)) = mo) by apply (ext_orig _ _ _ (ad_ext _ _ _ Ha4)).
        assert (Eme4 : vm_max_enc (p_vm (s_prob s4)) = me) by apply (ext_enc _ _ _ (ad_ext _ _ _ Ha4)).
        assert (Eo4 : s_opts s4 = o) by apply (ad_opts _ _ _ Ha4).
        pose proof (inv_wf _ _ _ _ _ (k_inv _ _ _ _ _ K4)) as W4.
        apply wp_bind.
        assert (Y1 : forall a, bk F os (D ++ ch) a -> F a) by (intros a Ha; apply Ha).
        assert (Y2 : vm_max_orig (p_vm (s_prob s4)) <= vm_max_enc (p_vm (s_prob s4))) by apply W4.
        assert (Y3 : ipareto F (p_objs (s_prob s4)) cs) by (rewrite Eos4; exact Hpar).
        assert (Y4 : externalize_all (p_objs (s_prob s4)) cs = Some exts) by (rewrite Eos4; exact Hexts).
        assert (Y5 : blk_ok F (s_opts s4) (p_objs (s_prob s4)) (vm_max_orig (p_vm (s_prob s4))))
          by (rewrite Eos4, Emo4, Eo4; apply HS).
        assert (Y6 : 2 ^ Datatypes.S (vm_max_orig (p_vm (s_prob s4))) <= B) by (rewrite Emo4; apply HS).
        assert (Y7 : asm_ok SP (s_prob s4) (bk F os (D ++ ch)) (swS s0 sw cs) ls cs).
        { constructor.
          - intros m' Hm' Hl. rewrite Eos4. pose proof (S4 m' Hm' Hl) as Hle.
            apply vle_antisym; [exact Hle|]. apply Hmin; [|exact Hle].
            apply (inv_sound _ _ _ _ _ (k_inv _ _ _ _ _ K4)), Hm'.
          - intros m' Ha _ Hx _ Hc. rewrite Eos4 in Hc. apply C4; [apply Ha|exact Hx|].
            rewrite Hc. apply vle_refl. }
        assert (Y8 : exists m, sol_rep (vm_max_enc (p_vm (s_prob s4))) m sol' /\ F m /\
                       ic (p_objs (s_prob s4)) m = cs).
        { exists m. rewrite Eme4, Eos4. split; [exact Hrep'|]. split; [apply Hm|symmetry; exact Hcs]. }
        eapply wp_mono; [exact (yield_run SP E HO F B (bk F os (D ++ ch)) (swS s0 sw cs) cs ls exts s4 Y1 Y2 Y3 Y4 Y5 Y6 sol' K4 Y7 Y8)| |].
        + (* completeness for all feasible solutions of this cost *)
          intros [] s5 (nd & A' & F5 & P5 & K5 & Sh5 & A5 & En5 & _).
          rewrite Eos4, Emo4 in P5. rewrite Eos4 in Sh5. rewrite Eos4, Eo4 in En5.
          pose proof (adv_trans _ _ _ _ Ha4 A5) as Ha5.
          assert (Hcs_bk : sw <> None -> forall a, F a -> ic os a = cs -> bk F os (D ++ ch) a).
          { destruct sw as [b|]; [|congruence]. destruct Hcase as [[_ Hb] _]. intros _ a Ha Hac.
            split; [exact Ha|]. rewrite Hac, Hcs. exact Hb. }
          assert (Hen : enum_post o os F cs (nd_sols nd)).
          { destruct En5 as (E1 & E2 & E3). split; [exact E1|]. split; [|exact E3].
            destruct E2 as [E2|E2]; [|now right].
            destruct sw as [b|].
            - left. intros a Ha Hac. apply E2; [|exact Hac]. apply Hcs_bk; [discriminate|exact Ha|exact Hac].
            - destruct Hcase as [_ Ho]. right. exists 1. rewrite Ho. split; [reflexivity|].
              pose proof (pt_ne _ _ _ _ _ P5). destruct (nd_sols nd); [congruence|cbn; lia]. }
          assert (Eos5 : p_objs (s_prob s5) = os) by apply (adv_objs _ _ _ Ha5).
          assert (Hsw5 : swOK SP s0 sw cs s5).
          { eapply swOK_ext; [exact Hsw|].
            apply (ad_ext _ _ _ (adv_trans _ _ _ _ (kp_adv _ _ _ Hk34) A5)). }
          assert (F5' : s_front s5 = s_front s0 ++ [nd]).
          { rewrite F5. f_equal. apply Hk4. }
          destruct sw as [b|].
          * destruct Hsw5 as [V5 S5].
            eapply (wp_add_clause SP F A' (swS s0 (Some b) cs) (bk F os (D ++ ch ++ [cs]))); [exact K5| | | | | |].
            -- intros v [<-|[]]. exact V5.
            -- intros a. rewrite app_assoc, bk_app. intros [Ha Hd]. destruct Sh5 as [_ Sh5].
               destruct (Sh5 a Ha) as [G|G]; [exact G|]. exfalso. apply (Hd cs); [now left|exact G].
            -- intros a a' Haa. rewrite <- Eos5.
               eapply bk_agree; [apply (inv_wf _ _ _ _ _ (k_inv _ _ _ _ _ K5))|exact Haa].
            -- intros m' Hm' Hb'. rewrite app_assoc, bk_app. split.
               ++ apply Sh5, (inv_sound _ _ _ _ _ (k_inv _ _ _ _ _ K5)), Hm'.
               ++ intros d [<-|[]]. apply S5; [exact Hm'|]. unfold clause_true in Hb'. cbn [existsb] in Hb'.
                  now rewrite orb_false_r in Hb'.
            -- intros m' Hm' _ _ Hs. rewrite app_assoc, bk_app in Hm'. destruct Hm' as [_ Hm'].
               unfold clause_true. cbn [existsb]. rewrite orb_false_r. apply Hs, Hm'. now left.
            -- intros s6 K6 Hk6 L6 _ _. exists (ch ++ [cs]), cs, nd.
               split; [eapply K_top; eauto|]. split; [rewrite (kp_front _ _ _ Hk6); exact F5'|].
               split; [exact P5|]. split; [apply in_or_app; right; now left|]. split.
               { intros d Hd. apply in_app_or in Hd. destruct Hd as [Hd|[<-|[]]]; [auto|apply vle_refl]. }
               split; [exact Hunb|]. split; [|exact Hen].
               eapply adv_trans; [exact Ha5|apply Hk6].
          * apply wp_ret. destruct Hcase as [Hin Ho]. exists ch, cs, nd.
            split; [|split; [exact F5'|split; [exact P5|split; [exact Hin|split; [exact Hch|
              split; [exact Hunb|split; [exact Ha5|exact Hen]]]]]]].
            eapply K_top. eapply K_iff; [exact K5|]. intros a. destruct Sh5 as [Sh1 Sh2]. split; [apply Sh1|].
            intros Ha. destruct (Sh2 a Ha) as [G|G]; [exact G|]. exfalso.
            apply bk_app in Ha. destruct Ha as [_ Ha]. exact (Ha cs Hin G).
        + intros x s5 (X1 & X2 & X3 & A' & X4 & X5 & _).
          rewrite Eos4, ?Emo4 in *. pose proof (adv_trans _ _ _ _ Ha4 X2) as Ha5.
          split; [exact X1|]. split; [exact Ha5|].
          assert (HInv : o_enum o = NoEnum -> In cs ch /\ Inv SP F (s_prob s5) (bk F os (D ++ ch)) (fun _ => True)).
          { intros Ho. destruct sw as [b|]; [destruct Hcase; contradiction|]. destruct Hcase as [Hin _].
            split; [exact Hin|]. eapply inv_top. eapply inv_iff; [exact X4|]. intros a.
            destruct X5 as [Sh1 Sh2]. split; [apply Sh1|].
            intros Ha. destruct (Sh2 a Ha) as [G|G]; [exact G|]. exfalso.
            apply bk_app in Ha. destruct Ha as [_ Ha]. exact (Ha cs Hin G). }
          destruct X3 as [X3|(nd & X3 & P5)].
          * exists [], []. split; [rewrite app_nil_r, X3; apply Hk4|]. split; [constructor|].
            split; [constructor|]. split; [intros ? ? []|]. intros Ho. destruct (HInv Ho) as [_ HI].
            exists (D ++ ch). split; [intros d Hd; apply in_or_app; now left|]. split; [intros ? []|]. split; [exact HI|now left].
          * exists [nd], [cs]. split; [rewrite X3; f_equal; apply Hk4|].
            split; [repeat constructor; exact (pt_ext _ _ _ _ _ P5) || apply P5|].
            split; [repeat constructor; intros []|].
            split; [intros c d [<-|[]]; apply Hunb|]. intros Ho. destruct (HInv Ho) as [Hin HI].
            exists (D ++ ch). split; [intros d Hd; apply in_or_app; now left|].
            split; [|split; [exact HI|right]].
            -- intros c [<-|[]]. apply in_or_app. now right.
            -- intros d Hd. apply in_app_or in Hd. destruct Hd as [Hd|Hd].
               ++ exists d. split; [apply in_or_app; now left|apply vle_refl].
               ++ exists cs. split; [apply in_or_app; right; now left|now apply Hch].
      - intros x s3 (X1 & X2 & X3). apply MX_front; auto.
    Qed.
  End Step.

  Section Run.
    Variables (D0 L0 : list (list nat)) (s0 : st).
    Let os := p_objs (s_prob s0).
    Let mo := vm_max_orig (p_vm (s_prob s0)).
    Let o := s_opts s0.
    Hypothesis HS : Stat os mo o.

    Hypothesis Hos : map obj_iter os = map obj_iter (build_objs 0 (in_objs i)).
    Notation MI := (MI SP F D0 L0 s0).
    Notation XI := (XI SP E F B D0 L0 s0).
    Notation QI := (QI SP F D0 L0 s0).

    Lemma step_t_ok q k s m : MI k s -> s_ora s = OModel m -> q_cls q = p_cls (s_prob s) -> sat m (p_cls (s_prob s)) ->
      lits_true m (q_assumps q) ->
      wp (minimize_and_yield_t E Fl w [] q)
         (fun _ s' => (exists k', k' < k /\ MI k' s') /\ s_fence s' = s_fence s /\
            ext SP (s_prob s) (s_prob s'))
         (fun x s' => XI x s' /\ s_fence s' = s_fence s /\ ext SP (s_prob s) (s_prob s')) s.
    Proof.
      intros [R (D & news & Ln & H1 & H2 & H3 & H4 & H5 & H6 & H7)] Ho Hq Hm Hql.
      assert (Eos : p_objs (s_prob s) = os) by apply (ext_objs _ _ _ (rr_ext _ _ _ R)).
      assert (Emo : vm_max_orig (p_vm (s_prob s)) = mo) by apply (ext_orig _ _ _ (rr_ext _ _ _ R)).
      assert (Eo : s_opts s = o) by apply R.
      assert (HS' : Stat (p_objs (s_prob s)) (vm_max_orig (p_vm (s_prob s))) (s_opts s))
        by (rewrite Eos, Emo, Eo; exact HS).
      assert (Hos' : map obj_iter (p_objs (s_prob s)) = map obj_iter (build_objs 0 (in_objs i))) by (rewrite Eos; exact Hos).
      assert (HK' : K (bk F (p_objs (s_prob s)) D) (fun _ => True) s) by (rewrite Eos; exact H1).
      eapply wp_mono; [eapply StopAt.wp_conj; [exact (minimize_and_yield_t_ok D s HS' Hos' q m HK' Ho Hq Hm Hql)|exact (tight_stops_at_point SP E Fl w [] q s)]| |].
      - intros [] s' ((ch & c & nd & K' & F' & P' & Hin & Hch & Hun & A' & En') & _).
        rewrite Eos in K'. rewrite Eos, Emo in P'. rewrite Eo, Eos in En'.
        split; [|split; [apply A'|apply A']].
        exists (unb (totals os) (D ++ ch)). split.
        { eapply Nat.lt_le_trans; [|exact H7]. apply unb_lt with (c := c); auto.
          destruct (pt_opt _ _ _ _ _ P') as [(a & _ & <-) _]. apply ic_totals. }
        constructor.
        + eapply (rrel_trans SP); [exact R|]. apply adv_rrel, A'.
        + exists (D ++ ch), (news ++ [nd]), (Ln ++ [c]).
          split; [exact K'|]. split; [rewrite F', H2, app_assoc; reflexivity|].
          split; [apply Forall2_app_inv_len; [exact H3|constructor; [exact (conj P' En')|constructor]]|].
          rewrite !app_assoc. split; [|split; [|split]].
          * apply NoDup_snoc; [exact H4|]. intros Hc. destruct (H5 c Hc) as (d & Hd & Hv).
            exact (Hun d Hd Hv).
          * intros c' Hc'. apply in_app_or in Hc'. destruct Hc' as [Hc'|[<-|[]]].
            -- destruct (H5 c' Hc') as (d & Hd & Hv). exists d. split; [apply in_or_app; now left|exact Hv].
            -- exists c. split; [apply in_or_app; now right|apply vle_refl].
          * intros H0 d Hd. apply in_app_or in Hd. destruct Hd as [Hd|Hd].
            -- destruct (H6 H0 d Hd) as (c' & Hc' & Hv). exists c'. split; [apply in_or_app; now left|exact Hv].
            -- exists c. split; [apply in_or_app; right; now left|now apply Hch].
          * apply Nat.le_refl.
      - intros x s' ((X1 & X2 & news' & Ln' & X3 & X4 & X5 & X6 & X7) & Hpt).
        rewrite Eos, ?Emo in *. rewrite Eo in X7.
        split; [|split; [apply X2|apply X2]].
        split; [exact X1|]. split; [eapply (rrel_trans SP); [exact R|]; apply adv_rrel, X2|].
        exists (news ++ news'), (Ln ++ Ln'). split; [rewrite X3, H2, app_assoc; reflexivity|].
        split; [|split].
        + apply Forall2_app_inv_len; [|exact X4]. clear - H3; induction H3; constructor; tauto.
        + rewrite app_assoc. apply NoDup_app_disj; auto. intros c Hc Hc'.
          destruct (H5 c Hc) as (d & Hd & Hv). exact (X6 c d Hc' Hd Hv).
        + intros [Hno|Hno]; [|exfalso; apply (Hno m); eapply ext_sat; [apply (rr_ext _ _ _ R)|exact Hm]].
          destruct (X7 Hno) as (D' & I1 & I2 & I3 & I4). exists D'. split; [|split; [exact I3|]].
          2:{ intros Hx H0. specialize (Hpt Hx). rewrite X3, app_length in Hpt.
              destruct I4 as [-> |I4]; [cbn in Hpt; lia|]. intros d Hd. rewrite app_assoc.
              destruct (I4 d Hd) as (c & Hc & Hv). apply in_app_or in Hc. destruct Hc as [Hc|Hc].
              - destruct (H6 H0 c Hc) as (c' & Hc' & Hv'). exists c'.
                split; [apply in_or_app; now left|eapply vle_trans; eauto].
              - exists c. split; [apply in_or_app; now right|exact Hv]. }
          intros c Hc. rewrite app_assoc in Hc. apply in_app_or in Hc. destruct Hc as [Hc|Hc].
          * destruct (H5 c Hc) as (d & Hd & Hv). exists d. split; [now apply I1|exact Hv].
          * exists c. split; [now apply I2|apply vle_refl].
    Qed.

    (** *** P-minimal *)
    Lemma pminimal_body_t_ok k u s : MI k s ->
      wp (pminimal_body_t E Fl w u)
         (fun r s' => match r with
            | inl _ => exists k', k' < k /\ MI k' s'
            | inr _ => QI s' end) XI s.
    Proof.
      intros HM. unfold pminimal_body_t, this_query. apply wp_bind, wp_gets.
      apply wp_bind, wp_k_solve_assumps; [exact HO|eapply MI_lims; eauto| | |].
      - intros m s1 V1 L1 O1 Hm _. pose proof (MI_solved SP F _ _ s0 _ _ _ HM V1 L1) as M1.
        apply wp_bind, wp_check_termination; [exact L1| |].
        2:{ intros x s2 Q2 G2. eapply MI_XI; [exact M1|apply quiet_solved, Q2|now apply good_xok]. }
        intros s2 Q2 L2. pose proof (MI_quiet SP F _ _ s0 _ _ _ M1 Q2 L2) as M2.
        apply wp_bind. eapply wp_mono; [eapply (step_t_ok _ k s2 m M2)| |intros x s3 H; apply H].
        + rewrite (qt_ora _ _ Q2). exact O1.
        + cbn [q_cls]. now rewrite (qt_prob _ _ Q2), (sv_prob _ _ V1).
        + rewrite (qt_prob _ _ Q2), (sv_prob _ _ V1). exact Hm.
        + cbn [q_assumps]. apply lits_true_nil.
        + intros [] s3 [H _]. apply wp_ret. exact H.
      - intros core s1 V1 L1 O1 Hcore Hent. pose proof (MI_solved SP F _ _ s0 _ _ _ HM V1 L1) as M1.
        apply wp_bind, wp_log_end; [exact L1| |].
        2:{ intros x s2 Q2 G2. eapply MI_XI; [exact M1|apply quiet_solved, Q2|now apply good_xok]. }
        intros s2 Q2 L2. pose proof (MI_quiet SP F _ _ s0 _ _ _ M1 Q2 L2) as M2. apply wp_ret.
        destruct M2 as [R (D & news & Ln & H1 & H2 & H3 & H4 & H5 & H6 & H7)].
        split; [exact R|]. exists D, news, Ln. repeat (split; [assumption|]).
        intros a Ha. destruct (inv_comp _ _ _ _ _ (k_inv _ _ _ _ _ H1) a Ha) as (m & G1 & G2 & _).
        rewrite (qt_prob _ _ Q2), (sv_prob _ _ V1) in G2. specialize (Hent m G2).
        apply clause_true_iff in Hent. destruct Hent as (l & Hl & _). apply Hcore in Hl. destruct Hl.
      - intros x s1 V1 G1. eapply MI_XI; [exact HM|exact V1|now apply good_xok].
    Qed.

    Lemma pminimal_main_t_ok s : (exists k, k <= B /\ MI k s) ->
      wp (pminimal_main_t E Fl w) (fun _ => QI) XI s.
    Proof.
      intros (k & HkB & HM). unfold pminimal_main_t.
      destruct (MI_K SP F _ _ s0 _ _ HM) as [D HK].
      apply wp_bind, wp_gets, wp_bind, wp_gets, wp_bind, wp_guard.
      { apply Nat.eqb_eq. rewrite (wf_len _ _ _ (inv_wf _ _ _ _ _ (k_inv _ _ _ _ _ HK))).
        symmetry. apply HK. }
      apply wp_bind, wp_log_start; [apply HK| |].
      2:{ intros x s2 Q2 G2. eapply MI_XI; [exact HM|apply quiet_solved, Q2|now apply good_xok]. }
      intros s1 Q1 L1.
      apply wp_loop_idx with (Inv := fun k (_ : unit) s => MI k s) (k := k).
      - intros k' u s' H. apply pminimal_body_t_ok, H.
      - eapply MI_quiet; eauto.
      - intros k' _ s' H Hle. eapply MI_XI; [exact H|apply solved_refl|]. right. split; [reflexivity|lia].
    Qed.
  End Run.
End Top.

Section LB.
  Context {I : enc_impl} (SP : enc_spec I).
  Notation M := (M I).
  Notation st := (st I).
  Variable E : environ.
  Hypothesis HO : oracle_ok E.
  Variable F : asg -> Prop.
  Variable B : nat.

  Notation K := (K SP F).
  Notation keep := (keep SP).
  Notation adv := (adv SP).
  Notation Stat := (Stat F B).
  Notation rrel := (rrel SP).

  Variables (i : inst) (Fl : flipper) (w : heur_when).
  Hypothesis HPl : plain_objs i.
  Hypothesis HFl : flipper_ok (in_objs i) Fl.

  Section Run.
    Variables (D0 L0 : list (list nat)) (s0 : st).
    Let os := p_objs (s_prob s0).
    Let mo := vm_max_orig (p_vm (s_prob s0)).
    Let o := s_opts s0.
    Hypothesis HS : Stat os mo o.
    Notation MI := (MI SP F D0 L0 s0).
    Notation XI := (XI SP E F B D0 L0 s0).
    Notation QI := (QI SP F D0 L0 s0).

    Hypothesis Hos : map obj_iter os = map obj_iter (build_objs 0 (in_objs i)).
    Notation FI := (FI SP).
    Notation caps := (caps SP).
    Notation LX := (LX SP E F B D0 L0 s0).
    Notation LQ := (LQ SP F D0 L0 s0).
    Notation LI := (LI SP F B D0 L0 s0).

    Lemma harvest_t_ok k0 s : MI k0 s -> k0 <= B -> FI (s_fence s) (s_prob s) ->
      (exists m, sat m (p_cls (s_prob s)) /\ lits_true m (fence_assumps (s_fence s))) ->
      wp (harvest_t E Fl w [])
         (fun _ s' => exists k', k' < k0 /\ MI k' s' /\ FI (s_fence s') (s_prob s') /\
            room (s_fence s') (caps (s_prob s')) = room (s_fence s) (caps (s_prob s)))
         LX s.
    Proof.
      intros HM HkB HF Hsat. unfold harvest_t.
      destruct (MI_K _ _ _ _ _ _ _ HM) as [D HK].
      apply wp_bind, wp_gets, wp_bind, wp_gets, wp_bind, wp_guard.
      { apply Nat.eqb_eq. rewrite (wf_len _ _ _ (inv_wf _ _ _ _ _ (k_inv _ _ _ _ _ HK))).
        symmetry. apply HK. }
      apply wp_bind, wp_log_start; [apply HK| |].
      2:{ intros x s2 Q2 G2. eapply (MI_LX SP E F B D0 L0 s0); [exact HM|exact HF|apply quiet_solved, Q2|now apply good_xok]. }
      intros s1 Q1 L1.
      set (HI := fun (k : nat) (_ : unit) (t : st) =>
        MI k t /\ FI (s_fence t) (s_prob t) /\ k <= k0 /\
        room (s_fence t) (caps (s_prob t)) = room (s_fence s) (caps (s_prob s)) /\
        (k < k0 \/ exists m, sat m (p_cls (s_prob t)) /\ lits_true m (fence_assumps (s_fence t)))).
      apply wp_loop_idx with (Inv := HI) (k := k0).
      - clear s1 Q1 L1 HM HF Hsat HK. intros k [] s1 (M1 & F1 & Hk1 & Hr1 & Hs1). unfold harvest_body_t, this_query.
        apply wp_bind, wp_gets, wp_bind, wp_gets. cbn [app].
        apply wp_bind, wp_k_solve_assumps; [exact HO|eapply MI_lims; eauto| | |].
        + intros m s2 V2 L2 O2 Hm Hfm. pose proof (MI_solved _ _ _ _ _ _ _ _ M1 V2 L2) as M2.
          pose proof (FI_solved SP _ _ F1 V2) as F2.
          apply wp_bind, wp_check_termination; [exact L2| |].
          2:{ intros x s3 Q3 G3. eapply (MI_LX SP E F B D0 L0 s0); [exact M2|exact F2|apply quiet_solved, Q3|now apply good_xok]. }
          intros s3 Q3 L3. pose proof (MI_quiet _ _ _ _ _ _ _ _ M2 Q3 L3) as M3.
          pose proof (FI_solved SP _ _ F2 (quiet_solved _ _ Q3)) as F3.
          apply wp_bind. eapply wp_mono; [eapply (step_t_ok SP E HO F B i Fl w HPl HFl D0 L0 s0 HS Hos _ k s3 m M3)| |].
          * rewrite (qt_ora _ _ Q3). exact O2.
          * cbn [q_cls]. now rewrite (qt_prob _ _ Q3), (sv_prob _ _ V2).
          * rewrite (qt_prob _ _ Q3), (sv_prob _ _ V2). exact Hm.
          * exact Hfm.
          * intros [] s4 ((k' & Hk' & M4) & Hf4 & E4). apply wp_ret. exists k'. split; [exact Hk'|].
            split; [exact M4|]. split; [rewrite Hf4; eapply FI_ext; eauto|]. split; [lia|].
            split; [|left; lia]. rewrite (room_ext SP _ _ _ E4), Hf4.
            rewrite (qt_prob _ _ Q3), (sv_prob _ _ V2).
            rewrite (fr_fence _ _ (qt_fr _ _ Q3)), (fr_fence _ _ (sv_fr _ _ V2)). exact Hr1.
          * intros x s4 (X4 & Hf4 & E4). split; [exact X4|]. right. rewrite Hf4. eapply FI_ext; eauto.
        + intros core s2 V2 L2 O2 Hcore Hent. pose proof (MI_solved _ _ _ _ _ _ _ _ M1 V2 L2) as M2.
          pose proof (FI_solved SP _ _ F1 V2) as F2.
          apply wp_bind, wp_log_end; [exact L2| |].
          2:{ intros x s3 Q3 G3. eapply (MI_LX SP E F B D0 L0 s0); [exact M2|exact F2|apply quiet_solved, Q3|now apply good_xok]. }
          intros s3 Q3 L3. apply wp_ret. exists k.
          destruct Hs1 as [Hlt|(m & Hm1 & Hm2)].
          * split; [exact Hlt|]. split; [eapply MI_quiet; eauto|].
            split; [apply (FI_solved SP _ _ F2 (quiet_solved _ _ Q3))|].
            rewrite (qt_prob _ _ Q3), (sv_prob _ _ V2).
            rewrite (fr_fence _ _ (qt_fr _ _ Q3)), (fr_fence _ _ (sv_fr _ _ V2)). exact Hr1.
          * exfalso. specialize (Hent m Hm1). apply clause_true_iff in Hent. destruct Hent as (l & Hl & Ht).
            specialize (Hcore l Hl). specialize (Hm2 _ Hcore). rewrite lit_true_lnot, Ht in Hm2. discriminate.
        + intros x s2 V2 G2. eapply (MI_LX SP E F B D0 L0 s0); [exact M1|exact F1|exact V2|now apply good_xok].
      - pose proof (quiet_solved _ _ Q1) as V1. split; [eapply MI_quiet; eauto|].
        split; [eapply (FI_solved SP); eauto|]. split; [lia|].
        rewrite (qt_prob _ _ Q1), (fr_fence _ _ (qt_fr _ _ Q1)). split; [reflexivity|right; exact Hsat].
      - intros k' [] s' (M' & F' & _) Hle. eapply (MI_LX SP E F B D0 L0 s0); [exact M'|exact F'|apply solved_refl|].
        right. split; [reflexivity|lia].
    Qed.

    Lemma lb_body_t_ok k u s : LI k s ->
      wp (lb_body_t E Fl w u)
         (fun r s' => match r with
            | inl _ => exists k', k' < k /\ LI k' s'
            | inr _ => LQ s' end) LX s.
    Proof.
      intros (k1 & HM & HF & Hk & HkB). unfold lb_body_t.
      apply wp_bind, wp_gets.
      apply wp_bind, wp_k_solve_assumps; [exact HO|eapply MI_lims; eauto| | |].
      - intros m s1 V1 L1 O1 Hm Hfm. pose proof (MI_solved _ _ _ _ _ _ _ _ HM V1 L1) as M1.
        pose proof (FI_solved SP _ _ HF V1) as F1. apply wp_bind.
        eapply wp_mono; [eapply (harvest_t_ok k1 s1 M1)| |auto].
        + lia.
        + exact F1.
        + exists m. rewrite (sv_prob _ _ V1), (fr_fence _ _ (sv_fr _ _ V1)). split; assumption.
        + intros [] s2 (k' & Hk' & M2 & F2 & Hr2). apply wp_ret.
          exists (k' + room (s_fence s2) (caps (s_prob s2))).
          rewrite Hr2, (sv_prob _ _ V1), (fr_fence _ _ (sv_fr _ _ V1)). split; [lia|].
          exists k'. split; [exact M2|]. split; [exact F2|].
          rewrite Hr2, (sv_prob _ _ V1), (fr_fence _ _ (sv_fr _ _ V1)). lia.
      - intros core s1 V1 L1 O1 Hcore Hent. pose proof (MI_solved _ _ _ _ _ _ _ _ HM V1 L1) as M1.
        pose proof (FI_solved SP _ _ HF V1) as F1.
        apply wp_bind. eapply wp_oracle_core; [exact O1|].
        destruct core as [|c core].
        + apply wp_bind, wp_log_end; [exact L1| |].
          2:{ intros x s2 Q2 G2. eapply (MI_LX SP E F B D0 L0 s0); [exact M1|exact F1|apply quiet_solved, Q2|now apply good_xok]. }
          intros s2 Q2 L2. pose proof (MI_quiet _ _ _ _ _ _ _ _ M1 Q2 L2) as M2. apply wp_ret.
          split; [|apply (FI_solved SP _ _ F1 (quiet_solved _ _ Q2))].
          destruct M2 as [R (D & news & Ln & H1 & H2 & H3 & H4 & H5 & H6 & H7)].
          split; [exact R|]. exists D, news, Ln. repeat (split; [assumption|]).
          intros a Ha. destruct (inv_comp _ _ _ _ _ (k_inv _ _ _ _ _ H1) a Ha) as (m & G1 & G2 & _).
          rewrite (qt_prob _ _ Q2), (sv_prob _ _ V1) in G2. specialize (Hent m G2). discriminate.
        + assert (Ef : s_fence s1 = s_fence s) by apply (fr_fence _ _ (sv_fr _ _ V1)).
          assert (Ep : s_prob s1 = s_prob s) by apply (sv_prob _ _ V1).
          destruct M1 as [R (D & news & Ln & H1 & H2 & H3 & H4 & H5 & H6 & H7)].
          apply wp_bind. eapply (wp_update_fence SP); [exact H1|exact F1|discriminate|now rewrite Ef| |].
          * intros s2 found K2 F2 Ra2 Hfd Hfr2 R2 Hro2.
            apply wp_bind, wp_gets, wp_bind, wp_guard.
            { rewrite <- Ef. eapply raised_increased; eauto. }
            apply wp_ret. exists (k1 + room (s_fence s2) (caps (s_prob s2))).
            rewrite Ef, Ep in Hro2. split; [lia|]. exists k1. split; [|split; [exact F2|lia]].
            constructor; [eapply rrel_trans; eauto|]. exists D, news, Ln.
            split; [exact K2|]. split; [congruence|]. repeat (split; [assumption|]). assumption.
          * intros x s2 G2 I2 F2 Hfr2 R2. split; [|right; exact F2].
            split; [now apply good_xok|]. split; [eapply rrel_trans; eauto|].
            exists news, Ln. split; [congruence|].
            split; [clear - H3; induction H3; constructor; tauto|]. split; [exact H4|].
            intros _. exists D. split; [exact H5|split; [exact I2|auto]].
      - intros x s1 V1 G1. eapply (MI_LX SP E F B D0 L0 s0); [exact HM|exact HF|exact V1|now apply good_xok].
    Qed.

    Lemma lb_main_t_ok s k : MI k s -> k + list_sum (caps (s_prob s)) <= B ->
      (s_fence s = [] \/ FI (s_fence s) (s_prob s)) ->
      wp (lb_main_t E Fl w) (fun _ => LQ) LX s.
    Proof.
      intros HM HkB HF. unfold lb_main_t.
      destruct (MI_K _ _ _ _ _ _ _ HM) as [D1 HK].
      assert (HX : forall x s', good_exit x -> quiet s s' -> LX x s').
      { intros x s' G Q'. split; [eapply MI_XI; [exact HM|apply quiet_solved, Q'|now apply good_xok]|].
        rewrite (fr_fence _ _ (qt_fr _ _ Q')), (qt_prob _ _ Q'). exact HF. }
      apply wp_bind, wp_gets, wp_bind, wp_gets, wp_bind, wp_guard.
      { apply Nat.eqb_eq. rewrite (wf_len _ _ _ (inv_wf _ _ _ _ _ (k_inv _ _ _ _ _ HK))).
        symmetry. apply HK. }
      apply wp_bind, wp_log_start; [apply HK| |intros; apply HX; auto].
      intros s1 Q1 L1. pose proof (MI_quiet _ _ _ _ _ _ _ _ HM Q1 L1) as M1.
      assert (HF1 : s_fence s1 = [] \/ FI (s_fence s1) (s_prob s1)).
      { rewrite (fr_fence _ _ (qt_fr _ _ Q1)), (qt_prob _ _ Q1). exact HF. }
      destruct M1 as [R (D & news & Ln & H1 & H2 & H3 & H4 & H5 & H6 & H7)].
      apply wp_bind. eapply (wp_fence_init SP); [exact H1|exact HF1|].
      intros s2 K2 F2 Hfr2 R2.
      apply wp_loop_idx with (Inv := fun k (_ : unit) s => LI k s) (k := k + list_sum (caps (s_prob s))).
      - intros k' u s' H. apply lb_body_t_ok, H.
      - exists k. split; [|split; [exact F2|]].
        + constructor; [eapply rrel_trans; eauto|]. exists D, news, Ln.
          split; [exact K2|]. split; [congruence|]. repeat (split; [assumption|]). assumption.
        + rewrite (ext_caps SP _ _ (rr_ext _ _ _ R2)), (qt_prob _ _ Q1).
          pose proof (room_le (s_fence s2) (caps (s_prob s))). lia.
      - intros k' [] s' (k1 & M' & F' & _) Hle. eapply (MI_LX SP E F B D0 L0 s0); [exact M'|exact F'|apply solved_refl|].
        right. split; [reflexivity|lia].
    Qed.
  End Run.
End LB.
