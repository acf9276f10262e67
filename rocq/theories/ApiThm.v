(** * Calls of all three algorithms, in terms of the instance *)
From Coq Require Import List Bool Arith Lia ZArith.
From Verif Require Import Base BaseLemmas Spec MTypes MKernel MPMinimal MLowerBounding MBiOptSat
  EncSpec Wp Sem Kern Yield PMin PMinTop LBTop Linsu BiTop Init ApiSpec Ext Blk Struct Book Api.
Import ListNotations.

Section ApiThm.
  Context {I : enc_impl} (SP : enc_spec I).
  Notation M := (M I).
  Notation st := (st I).
  Variables (i : inst) (o : kopts).
  Hypothesis HI : inst_ok i.
  Hypothesis HE : enum_ok i o.
  Let F := Feas i.
  Let bos := build_objs 0 (in_objs i).
  Let mo := vm_max_orig (in_vm i).

  (** What BiOptSat needs in addition: two objectives, and a constant encoding stands for a
      constant objective *)
  Definition bi_start (s : st) : Prop := exists o0 o1 e0 e1,
    p_objs (s_prob s) = [o0; o1] /\
    nth_error (p_encs (s_prob s)) 0 = Some e0 /\ nth_error (p_encs (s_prob s)) 1 = Some e1 /\
    lbok F 0 o0 (oe_offset e0) s /\ lbok F 1 o1 (oe_offset e1) s /\
    (forall a, F a -> oe_offset e0 <= icost o0 a) /\ (forall a, F a -> oe_offset e1 <= icost o1 a).

  Lemma fresh_bi s : length (in_objs i) = 2 -> fresh_st SP (in_cls i) bos (in_vm i) o s -> bi_start s.
  Proof.
    intros Hn H. pose proof (fs_objs _ _ _ _ _ _ H) as Ho.
    assert (Hb : exists o0 o1, bos = [o0; o1]).
    { unfold bos. destruct (in_objs i) as [|r0 [|r1 [|]]]; try discriminate. cbn. eauto. }
    destruct Hb as (o0 & o1 & Hb). rewrite Hb in Ho.
    pose proof (k_inv _ _ _ _ _ (fs_K _ _ _ _ _ _ H)) as HInv.
    assert (Hlen : length (p_encs (s_prob s)) = 2).
    { rewrite (wf_len _ _ _ (inv_wf _ _ _ _ _ HInv)), Ho. reflexivity. }
    destruct (p_encs (s_prob s)) as [|e0 [|e1 [|]]] eqn:He; try discriminate.
    exists o0, o1, e0, e1. cbn [nth_error].
    assert (Z : forall e, In e (p_encs (s_prob s)) -> oe_offset e = 0) by apply (fs_offs _ _ _ _ _ _ H).
    rewrite He in Z.
    assert (Z0 : oe_offset e0 = 0) by (apply Z; cbn; auto).
    assert (Z1 : oe_offset e1 = 0) by (apply Z; cbn; auto).
    split; [exact Ho|]. split; [now rewrite He|]. split; [now rewrite He|]. rewrite Z0, Z1.
    assert (L : forall k ob, nth_error bos k = Some ob -> lbok F k ob 0 s).
    { intros k ob Hob e Hk. split.
      - rewrite He in Hk. rewrite (Z e); [auto|]. eapply nth_error_In; eauto.
      - intros Hc a _. rewrite (fs_const _ _ _ _ _ _ H k e ob Hk Hob Hc a). auto. }
    split; [apply L; now rewrite Hb|]. split; [apply L; now rewrite Hb|]. split; intros; lia.
  Qed.

  Section From.
    Variable s0 : st.
    Hypothesis H0 : start SP i o s0.
    Let os := p_objs (s_prob s0).

    (** ** BiOptSat histories without enumeration *)
    Record GB (s : st) : Prop := mkGB {
      gb_opts : s_opts s = o;
      gb_nobjs : n_objs (s_stats s) = n_objs (s_stats s0);
      gb_ext : ext SP (s_prob s0) (s_prob s);
      gb_pts : exists L, Forall2 (pt_ok F os mo) (s_front s) L;
      (** what is blocked was reported before *)
      gb_ex : exists L D, Forall2 (pt_ok F os mo) (s_front s) L /\ incl D L /\
        Inv SP F (s_prob s) (bk F os D) (fun _ => True) }.

    Lemma bk_nil p : Inv SP F p F (fun _ => True) -> Inv SP F p (bk F os []) (fun _ => True).
    Proof.
      intros H. eapply inv_iff; [exact H|]. intros a. unfold bk. split; [|tauto]. intros Ha.
      split; [exact Ha|]. intros ? [].
    Qed.
    Lemma GB_start : GB s0.
    Proof.
      destruct H0. constructor; auto.
      - apply ext_refl.
      - rewrite sa_front. exists []. constructor.
      - exists [], []. rewrite sa_front. split; [constructor|]. split; [intros ? []|now apply bk_nil].
    Qed.

    Lemma bi_call D E l s : bi_start s0 -> s_opts s = o -> n_objs (s_stats s) = n_objs (s_stats s0) ->
      ext SP (s_prob s0) (s_prob s) -> Inv SP F (s_prob s) (bk F os D) (fun _ => True) ->
      oracle_ok E -> lims_pos l ->
      wp (bi_solve E l)
        (fun _ s' => s_opts s' = o /\ n_objs (s_stats s') = n_objs (s_stats s0) /\
           ext SP (s_prob s0) (s_prob s') /\ exists news Ln, s_front s' = s_front s ++ news /\
           Forall2 (fun nd c => pt_ok F os mo nd c /\ enum_post o os F c (nd_sols nd)) news Ln /\
           ForallOrdPairs before Ln /\
           (forall a, F a -> exists d, In d (D ++ Ln) /\ vle d (ic os a)) /\
           (o_enum o = NoEnum -> exists D', incl D' (D ++ Ln) /\ Inv SP F (s_prob s') (bk F os D') (fun _ => True)))
        (fun x s' => xok E (bound SP i s0) x /\ s_opts s' = o /\ n_objs (s_stats s') = n_objs (s_stats s0) /\
           ext SP (s_prob s0) (s_prob s') /\ exists news Ln, s_front s' = s_front s ++ news /\
           Forall2 (pt_ok F os mo) news Ln /\ ForallOrdPairs before Ln /\
           (o_enum o = NoEnum -> exists D', incl D' (D ++ Ln) /\ Inv SP F (s_prob s') (bk F os D') (fun _ => True))) s.
    Proof.
      intros (o0 & o1 & e0 & e1 & Ho & He0 & He1 & L0 & L1 & B0 & B1) Hop Hno Hext HInv HO Hl.
      unfold bi_solve. apply wp_bind, wp_modify.
      set (s1 := set_lims _ _).
      assert (Hos : p_objs (s_prob s1) = os) by apply (ext_objs _ _ _ Hext).
      assert (Hmo : vm_max_orig (p_vm (s_prob s1)) = mo).
      { cbn. rewrite (ext_orig _ _ _ Hext). apply H0. }
      assert (Hop1 : s_opts s1 = o) by exact Hop.
      assert (HS : Stat F (bound SP i s0) (p_objs (s_prob s1)) (vm_max_orig (p_vm (s_prob s1))) (s_opts s1)).
      { rewrite Hos, Hmo, Hop1. apply (start_stat SP i o HI HE s0 H0). }
      destruct (ext_encs _ _ _ Hext _ _ He0) as (f0 & G0 & Of0 & _ & C0).
      destruct (ext_encs _ _ _ Hext _ _ He1) as (f1 & G1 & Of1 & _ & C1).
      assert (HK : K SP F (bk F os D) (fun _ => True) s1).
      { constructor; [exact Hl| |exact HInv]. rewrite Hos. cbn.
        rewrite Hno, (sa_n _ _ _ _ H0). reflexivity. }
      eapply wp_mono.
      - eapply (bi_main_ok SP E HO F (bound SP i s0) D s1 o0 o1 (oe_offset e0) (oe_offset e1)).
        + rewrite Hos. exact Ho.
        + exact HS.
        + eapply lbok_ext; [exact Hext|exact L0].
        + eapply lbok_ext; [exact Hext|exact L1].
        + exact B1.
        + rewrite Hos. exact HK.
        + rewrite Hos. unfold os. rewrite (sim_totals _ _ (sa_objs _ _ _ _ H0)).
          pose proof (unb_le (totals (build_objs 0 (in_objs i))) D). unfold bound. lia.
        + exists f0, f1. repeat split; assumption.
        + exact B0.
      - intros _ s' (R & news & Ln & Q1 & Q2 & Q3 & Q4 & Q5).
        unfold good_pts in Q2. rewrite Hos, Hmo, Hop1 in *.
        split; [rewrite (rr_opts _ _ _ R); exact Hop1|].
        split; [rewrite (rr_nobjs _ _ _ R); exact Hno|].
        split; [eapply ext_trans; [exact Hext|apply (rr_ext _ _ _ R)]|]. exists news, Ln. auto.
      - intros x s' (X1 & R & news & Ln & X2 & X3 & X4 & X5). rewrite Hos, ?Hmo, ?Hop1 in *.
        split; [exact X1|].
        split; [rewrite (rr_opts _ _ _ R); exact Hop1|].
        split; [rewrite (rr_nobjs _ _ _ R); exact Hno|].
        split; [eapply ext_trans; [exact Hext|apply (rr_ext _ _ _ R)]|]. exists news, Ln. auto.
    Qed.

    Lemma good_weak_pts f Ln :
      Forall2 (fun nd c => pt_ok F os mo nd c /\ enum_post o os F c (nd_sols nd)) f Ln ->
      Forall2 (pt_ok F os mo) f Ln.
    Proof. induction 1; constructor; tauto. Qed.
    Lemma all_covered_complete L f : (forall a, F a -> exists d, In d L /\ vle d (ic os a)) ->
      Forall2 (pt_ok F os mo) f L -> complete i s0 L.
    Proof.
      intros H Hp c [(a & Ha & Hac) Hmin]. destruct (H a Ha) as (d & Hd & Hv).
      assert (P : exists nd, pt_ok F os mo nd d).
      { clear - Hp Hd. induction Hp; [destruct Hd|]. destruct Hd as [<-|Hd]; eauto. }
      destruct P as [nd P]. destruct (pt_opt _ _ _ _ _ P) as [(b & Hb & Hbc) _].
      assert (ic os b = c).
      { apply Hmin; [exact Hb|]. change (p_objs (s_prob s0)) with os. rewrite Hbc, <- Hac. exact Hv. }
      congruence.
    Qed.

    (** ** The first call *)
    Definition good_first (al : alg) (s' : st) : Prop := exists Ln,
      Forall2 (fun nd c => pt_ok F os mo nd c /\ enum_post o os F c (nd_sols nd)) (s_front s') Ln /\
      NoDup Ln /\ complete i s0 Ln /\ (al = ABiOptSat -> ForallOrdPairs before Ln).

    Lemma first_ok al E l : (al = ABiOptSat -> bi_start s0) -> oracle_ok E -> lims_pos l ->
      wp (alg_solve al E l) (fun _ s' => good_first al s')
        (fun x s' => xok E (bound SP i s0) x /\ exists Ln, Forall2 (pt_ok F os mo) (s_front s') Ln /\
           NoDup Ln /\ (al = ABiOptSat -> ForallOrdPairs before Ln)) s0.
    Proof.
      intros Hb HO Hl. assert (Dec : al = ABiOptSat \/ al <> ABiOptSat) by (destruct al; (now left) || (right; discriminate)).
      destruct Dec as [-> | Hal].
      - specialize (Hb eq_refl). cbn [alg_solve].
        eapply wp_mono.
        + apply (bi_call [] E l s0 Hb); auto; try apply H0; [apply ext_refl|]. apply bk_nil, H0.
        + intros _ s' (_ & _ & _ & news & Ln & Q1 & Q2 & Q3 & Q4 & _).
          rewrite (sa_front _ _ _ _ H0) in Q1. cbn [app] in *. subst news. exists Ln.
          split; [exact Q2|]. split; [now apply before_nodup|]. split; [|auto].
          eapply all_covered_complete; [exact Q4|]. exact (good_weak_pts _ _ Q2).
        + intros x s' (X1 & _ & _ & _ & news & Ln & X2 & X3 & X4 & _). split; [exact X1|].
          rewrite (sa_front _ _ _ _ H0) in X2. cbn [app] in *. subst news. exists Ln.
          split; [exact X3|]. split; [now apply before_nodup|auto].
      - eapply wp_mono; [apply (call_ok SP i o HI HE s0 H0 al E l true [] s0 (G_start SP i o s0 H0 al) HO Hl Hal)| |].
        + intros _ s' (news & Ln & Q1 & Q2 & Q3 & _ & Q4).
          rewrite (sa_front _ _ _ _ H0) in Q1. cbn [app] in *. subst news. exists Ln.
          split; [exact Q2|]. split; [apply Q3|]. split; [now apply Q4|congruence].
        + intros x s' (X1 & news & Ln & X2 & X3 & X4 & _). split; [exact X1|].
          rewrite (sa_front _ _ _ _ H0) in X2. cbn [app] in *. subst news. exists Ln.
          split; [exact X3|]. split; [exact X4|congruence].
    Qed.


    Lemma first_done al s' : good_first al s' -> exact_front i (s_front s') /\ sound_front i (s_front s').
    Proof.
      intros (Ln & H1 & H2 & H3 & _). apply good_weak_pts in H1. split.
      - eapply (pts_exact SP i o HI s0 H0); eauto.
      - eapply (pts_sound SP i o HI s0 H0); eauto.
    Qed.

    (** ** Enumerated solutions in the user's terms *)
    Lemma orig_sol c sol a : valid_solution (in_cls i) (in_objs i) (n_orig i) c sol ->
      extends a sol -> sol = sol_of a mo.
    Proof.
      intros (Hl & Hall & _) Hex. apply nth_error_ext_eq. intros v.
      destruct (Nat.le_gt_cases v mo) as [Hv|Hv].
      - rewrite sol_of_nth by exact Hv. destruct (Hall v) as (b & Hb); [unfold n_orig; fold mo; lia|].
        rewrite Hb. now rewrite (Hex v b Hb).
      - rewrite sol_of_nth_out by exact Hv. apply nth_error_None. rewrite Hl. unfold n_orig; fold mo. lia.
    Qed.

    Lemma enum_all nd c lim : o_enum o = Solutions lim -> pt_ok F os mo nd c -> covered o os F c (nd_sols nd) ->
      forall sol, In sol (nd_sols nd) <->
        valid_solution (in_cls i) (in_objs i) (n_orig i) (nd_costs nd) sol.
    Proof.
      intros Hen HP HC sol. split.
      - intros Hin. destruct (pt_sound SP i o HI s0 H0 nd c HP) as (_ & _ & _ & H). now apply H.
      - intros Hv. pose proof Hv as (_ & _ & a & Hex & Ha & Hc).
        destruct (pt_costs SP i o HI s0 H0 nd c HP) as (b & Hb & Hbc & He).
        assert (Hac : ic os a = c).
        { rewrite <- Hbc. apply (costs_ic SP i o HI s0 H0). congruence. }
        destruct (HC a Ha Hac) as (sol' & cl & Hin & Hcl & Hf).
        destruct (pt_sols _ _ _ _ _ HP sol' Hin) as (b' & _ & _ & Hs').
        unfold yield_block_clause in Hcl. rewrite Hen in Hcl. injection Hcl as <-.
        pose proof HE as HE'. unfold enum_ok in HE'. rewrite Hen in HE'. destruct HE' as [Hd _].
        rewrite Hd in Hf. apply default_block_iff in Hf.
        assert (sol = sol'); [|congruence]. rewrite (orig_sol _ _ _ Hv Hex). subst sol'.
        apply extends_sol_of in Hf. apply nth_error_ext_eq. intros v.
        destruct (Nat.le_gt_cases v mo) as [Hle|Hgt].
        + rewrite !sol_of_nth by exact Hle. now rewrite Hf.
        + now rewrite !sol_of_nth_out.
    Qed.
  End From.
End ApiThm.
