(** * Correctness of [yield_solutions] *)
From Coq Require Import List Bool Arith Lia ZArith.
From Verif Require Import Base BaseLemmas MTypes MKernel EncSpec Wp Sem Kern.
Import ListNotations.

(** Assumptions that select exactly the allowed assignments of cost [cs] *)
Record asm_ok {I} (SP : enc_spec I) (p : prob I) (A S : asg -> Prop) (assumps : list lit)
  (cs : list nat) : Prop := mkAsm {
  am_sound : forall m, sat m (p_cls p) -> lits_true m assumps -> ic (p_objs p) m = cs;
  am_comp : forall m, A m -> sat m (p_cls p) -> Exact SP p m -> S m -> ic (p_objs p) m = cs ->
    lits_true m assumps }.

(** [A'] is [A] without some assignments of cost at least [cs] *)
Definition shr (os : list objective) (cs : list nat) (A A' : asg -> Prop) : Prop :=
  (forall a, A' a -> A a) /\ (forall a, A a -> A' a \/ vle cs (ic os a)).

Section Yield.
  Context {I : enc_impl} (SP : enc_spec I).
  Notation M := (M I).
  Notation st := (st I).
  Variable E : environ.
  Hypothesis HO : oracle_ok E.
  Variable F : asg -> Prop.
  Variable B : nat.

  Record pushed (nd : nd_point assignment) (s s' : st) : Prop := mkPushed {
    pu_adv : adv SP s s';
    pu_prob : s_prob s' = s_prob s;
    pu_front : s_front s' = s_front s ++ [nd] }.

  Lemma quiet_pushed nd s s1 : quiet s s1 -> pushed nd s (set_front (front_extend (s_front s1) [nd]) s1).
  Proof.
    intros H. pose proof (quiet_keep SP _ _ H) as [K1 K2]. constructor.
    - destruct K1. constructor; assumption.
    - apply H.
    - cbn. unfold front_extend. now rewrite K2.
  Qed.
  Lemma pushed_quiet nd s s1 s2 : pushed nd s s1 -> quiet s1 s2 -> pushed nd s s2.
  Proof.
    intros [P1 P2 P3] H. pose proof (quiet_keep SP _ _ H) as [K1 K2]. constructor.
    - eapply adv_trans; eauto.
    - rewrite (qt_prob _ _ H). assumption.
    - congruence.
  Qed.

  Lemma wp_yield_finish nd (Q : unit -> st -> Prop) (X : exit -> st -> Prop) s :
    lims_ok s ->
    (forall s', pushed nd s s' -> lims_ok s' -> Q tt s') ->
    (forall x s', pushed nd s s' -> good_exit x -> X x s') ->
    wp (yield_finish E nd) Q X s.
  Proof.
    intros HL HQ HX. unfold yield_finish.
    apply wp_bind, wp_catch, wp_log_non_dominated; [apply HL| |].
    - intros s1 H1 L1. apply wp_bind, wp_modify.
      pose proof (quiet_pushed nd _ _ H1) as P1.
      apply wp_bind, wp_log_end'.
      + intros s2 H2 L2. apply wp_ret. apply HQ; [eapply pushed_quiet; eauto|].
        apply L2. apply L1, HL.
      + intros x s2 H2 G2. apply HX; [eapply pushed_quiet; eauto|assumption].
    - intros x s1 H1 G1.
      assert (HH : wp (front_push nd;;; (log_end E ;;; @rethrow I unit (inr x))) Q X s1).
      { apply wp_bind, wp_modify. pose proof (quiet_pushed nd _ _ H1) as P1.
        apply wp_bind, wp_log_end'.
        + intros s2 H2 L2. apply wp_throw. apply HX; [eapply pushed_quiet; eauto|assumption].
        + intros x' s2 H2 G2. apply HX; [eapply pushed_quiet; eauto|assumption]. }
      destruct x; try exact HH; contradiction.
  Qed.

  Section Run.
    Variables (A S : asg -> Prop) (cs : list nat) (assumps : list lit) (exts : list Z) (s0 : st).
    Let os := p_objs (s_prob s0).
    Let mo := vm_max_orig (p_vm (s_prob s0)).
    Let me := vm_max_enc (p_vm (s_prob s0)).
    Let o := s_opts s0.
    Hypothesis HF : forall a, A a -> F a.
    Hypothesis Hmoe : mo <= me.
    Hypothesis Hopt : ipareto F os cs.
    Hypothesis Hext : externalize_all os cs = Some exts.
    Hypothesis Hblk : blk_ok F o os mo.
    Hypothesis HB : 2 ^ (Datatypes.S mo) <= B.

    Definition yblk (sols : list assignment) (a : asg) : Prop :=
      forall sl c, In sl sols -> yield_block_clause o os sl = Some c -> clause_true a c = true.

    Definition yhits (sols : list assignment) (sol : assignment) : Prop :=
      forall sl c, In sl sols -> yield_block_clause o os sl = Some c -> hits c sol.

    Record YI (x : assignment * nd_point assignment) (s : st) : Prop := mkYI {
      yi_ex : exists m A', sol_rep me m (fst x) /\ F m /\ ic os m = cs /\
        K SP F A' S s /\ asm_ok SP (s_prob s) A' S assumps cs /\
        (forall a, A' a <-> A a /\ yblk (nd_sols (snd x)) a) /\
        ~ In (sol_of m mo) (nd_sols (snd x)) /\ yhits (nd_sols (snd x)) (sol_of m mo);
      yi_keep : keep SP s0 s;
      yi_costs : nd_costs (snd x) = exts;
      yi_nodup : NoDup (nd_sols (snd x));
      yi_ord : ordered o os (nd_sols (snd x));
      yi_sols : forall sl, In sl (nd_sols (snd x)) -> exists m, F m /\ ic os m = cs /\ sl = sol_of m mo;
      yi_lim : forall k, enum_limit (o_enum o) = Some k ->
        nd_sols (snd x) = [] \/ length (nd_sols (snd x)) < k }.

    Definition YQ (s : st) : Prop :=
      exists nd A', s_front s = s_front s0 ++ [nd] /\ pt_ok F os mo nd cs /\ K SP F A' S s /\
        shr os cs A A' /\ adv SP s0 s /\ enum_post o os A cs (nd_sols nd) /\
        (o_enum o = NoEnum -> forall a, A a -> A' a).
    Definition YX (x : exit) (s : st) : Prop :=
      xok E B x /\ adv SP s0 s /\
      (s_front s = s_front s0 \/ exists nd, s_front s = s_front s0 ++ [nd] /\ pt_ok F os mo nd cs) /\
      exists A', Inv SP F (s_prob s) A' S /\ shr os cs A A' /\
        (o_enum o = NoEnum -> forall a, A a -> A' a).

    (** Removing what the blocking clauses exclude only loses assignments of cost [>= cs] *)
    Lemma yblk_shr sols (A' : asg -> Prop) :
      (forall sl, In sl sols -> exists m, F m /\ ic os m = cs /\ sl = sol_of m mo) ->
      (sols = [] \/ o_enum o <> NoEnum) ->
      (forall a, A' a <-> A a /\ yblk sols a) -> shr os cs A A'.
    Proof.
      intros Hs Hn HA. split.
      - intros a Ha. now apply HA.
      - intros a Ha.
        assert (D : yblk sols a \/ vle cs (ic os a)).
        { clear HA. induction sols as [|sl sols IH].
          - left. intros ? ? [].
          - destruct Hn as [Hn|Hn]; [discriminate|].
            assert (IH' : yblk sols a \/ vle cs (ic os a)).
            { apply IH; [|now right]. intros sl' Hsl. apply Hs. now right. }
            destruct IH' as [IH'|IH']; [|now right].
            destruct (Hs sl (or_introl eq_refl)) as (m & Hm1 & Hm2 & ->).
            destruct Hblk as [Hb|Hb]; [contradiction|].
            destruct (Hb m) as (c & Hc1 & Hc2 & Hc3 & Hc4); [assumption|now rewrite Hm2|].
            destruct (clause_true a c) eqn:Hac.
            * left. intros sl' c' [<-|Hin] Hc'; [congruence|]. eapply IH'; eauto.
            * right. rewrite <- Hm2. apply Hc4; auto. }
        destruct D as [D|D]; [left; apply HA; auto|now right].
    Qed.

    Lemma yi_body x s : YI x s ->
      wp (yield_body E cs assumps x)
         (fun r s' => match r with
            | inl x' => YI x' s' /\
                2 ^ Datatypes.S mo - length (nd_sols (snd x')) <
                2 ^ Datatypes.S mo - length (nd_sols (snd x))
            | inr _ => YQ s' end) YX s.
    Proof.
      destruct x as [sol nd]. intros [Hex Hk Hc Hnd Hord Hsols Hlim]. cbn [fst snd] in *.
      destruct Hex as (m & A' & Hrep & Hm & Hmc & HK & Hasm & HA' & Hnew & Hhit).
      pose proof (kp_adv _ _ _ Hk) as Hadv.
      assert (Eos : p_objs (s_prob s) = os) by apply (adv_objs _ _ _ Hadv).
      assert (Emo : vm_max_orig (p_vm (s_prob s)) = mo) by apply (ext_orig _ _ _ (ad_ext _ _ _ Hadv)).
      assert (Eme : vm_max_enc (p_vm (s_prob s)) = me) by apply (ext_enc _ _ _ (ad_ext _ _ _ Hadv)).
      assert (Eo : s_opts s = o) by apply (ad_opts _ _ _ Hadv).
      unfold yield_body. apply wp_bind, wp_gets. apply wp_bind.
      rewrite (k_nobjs _ _ _ _ _ HK).
      eapply wp_get_costs; [exact HK|rewrite Eme; exact Hrep|].
      rewrite Eos, Hmc. apply wp_bind, wp_guard.
      { destruct (list_eq_dec Nat.eq_dec cs cs); congruence. }
      apply wp_bind, wp_gets. rewrite Emo, (sol_rep_trunc me m sol mo Hmoe Hrep).
      set (nd' := nd_add_sol nd (sol_of m mo)).
      assert (Esols : nd_sols nd' = nd_sols nd ++ [sol_of m mo]) by reflexivity.
      assert (Hsols' : forall sl, In sl (nd_sols nd') ->
                exists m, F m /\ ic os m = cs /\ sl = sol_of m mo).
      { intros sl Hsl. rewrite Esols in Hsl. apply in_app_or in Hsl. destruct Hsl as [Hsl|[<-|[]]]; eauto. }
      assert (Hnd' : NoDup (nd_sols nd')).
      { rewrite Esols. now apply NoDup_snoc. }
      assert (Hord' : ordered o os (nd_sols nd')).
      { rewrite Esols. apply FOP_snoc; [exact Hord|]. intros sl Hsl c Hc0. eapply Hhit; eauto. }
      assert (Hpt : pt_ok F os mo nd' cs).
      { constructor; auto.
        - cbn. rewrite Hc. exact Hext.
        - cbn. intros H. apply app_eq_nil in H. destruct H; discriminate. }
      assert (Hlen : length (nd_sols nd') = Datatypes.S (length (nd_sols nd))).
      { rewrite Esols, app_length. cbn [length]. lia. }
      assert (Hne : nd_sols nd = [] \/ o_enum o <> NoEnum).
      { destruct (o_enum o) eqn:Heo; [|right; discriminate|right; discriminate].
        destruct (Hlim 1 eq_refl) as [?|Hl1]; [now left|]. left. destruct (nd_sols nd); [auto|cbn in Hl1; lia]. }
      assert (Hshr : shr os cs A A') by (apply (yblk_shr (nd_sols nd)); auto).
      assert (Hsame : o_enum o = NoEnum -> forall a, A a -> A' a).
      { intros Ho a Ha. apply HA'. split; [exact Ha|]. destruct Hne as [->|Hne]; [intros ? ? []|contradiction]. }
      apply wp_bind, wp_catch, wp_log_solution; [apply HK| |].
      2:{ (* the solution limit is reached, or the logger fails *)
        intros x s1 Q1 L1 G1.
        assert (HH : forall Q' : ((assignment * nd_point assignment) + unit) -> st -> Prop,
                   wp (nt <- catch (log_non_dominated E nd');;
                     (front_push nd';;; (rethrow nt ;;; throw x))) 
 Q' YX s1).
        { intros Q'. assert (HY : forall x s2, good_exit x -> quiet s s2 ->
                    YX x (set_front (front_extend (s_front s2) [nd']) s2)).
          { intros x' s2 G2 Q2. pose proof (quiet_pushed nd' _ _ Q2) as [P1 P2 P3].
            split; [now apply good_xok|]. split; [eapply adv_trans; eauto|]. split.
            - right. exists nd'. split; [|exact Hpt]. rewrite P3. f_equal. apply Hk.
            - exists A'. split; [|split; [exact Hshr|exact Hsame]]. rewrite P2. apply HK. }
          apply wp_bind, wp_catch, wp_log_non_dominated; [exact L1| |].
          - intros s2 Q2 _. apply wp_bind, wp_modify, wp_bind, wp_ret, wp_throw. apply HY; auto.
            eapply quiet_trans; eauto.
          - intros x2 s2 Q2 G2.
            assert (HH : wp (front_push nd';;; (@rethrow I unit (inr x2) ;;; throw x)) 
 Q' YX s2).
            { apply wp_bind, wp_modify, wp_bind, wp_throw. apply HY; auto. eapply quiet_trans; eauto. }
            destruct x2; try exact HH; contradiction. }
        destruct x; try apply HH; contradiction. }
      intros s1 Q1 L1. apply wp_bind, wp_gets.
      assert (Eo1 : s_opts s1 = o) by (rewrite (fr_opts _ _ (qt_fr _ _ Q1)); exact Eo).
      rewrite Eo1.
      pose proof (K_quiet _ _ _ _ _ _ Q1 L1 HK) as HK1.
      pose proof (keep_trans _ _ _ _ Hk (quiet_keep SP _ _ Q1)) as Hk1.
      unfold nd_n_sols. rewrite Hlen.
      destruct (enum_done (o_enum o) (Datatypes.S (length (nd_sols nd)))) eqn:Hdone.
      { (* enough solutions *)
        apply wp_bind, wp_yield_finish; [exact L1| |].
        - intros s2 [P1 P2 P3] L2. apply wp_ret. exists nd', A'.
          split; [rewrite P3; f_equal; apply Hk1|]. split; [exact Hpt|].
          split.
          { constructor; [exact L2| |].
            - rewrite (ad_nobjs _ _ _ P1), P2. apply HK1.
            - rewrite P2. apply HK1. }
          split; [exact Hshr|]. split; [eapply adv_trans; [apply Hk1|exact P1]|]. split; [|exact Hsame].
          split.
          + intros k Hkk. destruct (Hlim k Hkk) as [Hl|Hl].
            * rewrite Hlen, Hl. cbn [length]. lia.
            * rewrite Hlen. lia.
          + split; [|exact Hord']. right. destruct (o_enum o) as [|[k|]|[k|]]; cbn in Hdone; try discriminate.
            * exists 1. split; [reflexivity|]. rewrite Hlen. lia.
            * exists k. split; [reflexivity|]. rewrite Hlen. now apply Nat.leb_le.
            * exists k. split; [reflexivity|]. rewrite Hlen. now apply Nat.leb_le.
        - intros x s2 [P1 P2 P3] G2. split; [now apply good_xok|].
          split; [eapply adv_trans; [apply Hk1|exact P1]|]. split.
          + right. exists nd'. split; [|exact Hpt]. rewrite P3. f_equal. apply Hk1.
          + exists A'. split; [|split; [exact Hshr|exact Hsame]]. rewrite P2. apply HK1. }
      (* another solution is wanted *)
      assert (Hen : o_enum o <> NoEnum) by (intros Heo; rewrite Heo in Hdone; discriminate).
      assert (HYX : forall x s', good_exit x -> keep SP s0 s' -> 
                (exists A2, Inv SP F (s_prob s') A2 S /\ shr os cs A A2) -> YX x s').
      { intros x s' G Hk' HA2. split; [now apply good_xok|]. split; [apply Hk'|].
        split; [left; apply Hk'|]. destruct HA2 as (A2 & G1 & G2). exists A2.
        split; [exact G1|]. split; [exact G2|]. intros Heo. contradiction. }
      apply wp_bind, wp_check_termination; [exact L1| |].
      2:{ intros x s2 Q2 G2. apply HYX; auto.
          - eapply keep_trans; [exact Hk1|apply quiet_keep, Q2].
          - exists A'. split; [|exact Hshr]. rewrite (qt_prob _ _ Q2). apply HK1. }
      intros s2 Q2 L2.
      pose proof (K_quiet _ _ _ _ _ _ Q2 L2 HK1) as HK2.
      pose proof (keep_trans _ _ _ _ Hk1 (quiet_keep SP _ _ Q2)) as Hk2.
      assert (Ep2 : s_prob s2 = s_prob s) by (rewrite (qt_prob _ _ Q2); apply (qt_prob _ _ Q1)).
      apply wp_bind, wp_gets. rewrite Ep2, Eos.
      destruct Hblk as [Hb|Hb]; [contradiction|].
      destruct (Hb m) as (c & Hc1 & Hc2 & Hc3 & Hc4); [assumption|now rewrite Hmc|].
      apply wp_bind, (wp_unwrap _ c); [exact Hc1|].
      apply wp_bind, wp_modify.
      set (A2 := fun a => A' a /\ clause_true a c = true).
      pose proof (k_inv _ _ _ _ _ HK2) as HI2.
      pose proof (inv_wf _ _ _ _ _ HI2) as W2.
      destruct (K_add_clause SP F A' S A2 s2 c HK2) as [HK3 Hk3].
      { intros v Hv. apply (wf_low _ _ _ W2). unfold low. rewrite Ep2, Eme.
        apply Hc2 in Hv. lia. }
      { intros a Ha. apply Ha. }
      { intros a b Hab [H1 H2]. split; [eapply (inv_Acl _ _ _ _ _ HI2); eauto|].
        rewrite <- H2. symmetry. eapply clause_true_agree; [exact Hab|].
        intros v Hv. unfold low. rewrite Ep2, Eme. apply Hc2 in Hv. lia. }
      { intros a Ha Hca. split; [apply (inv_sound _ _ _ _ _ HI2), Ha|exact Hca]. }
      { intros a Ha _ _ _. apply Ha. }
      set (s3 := set_ora OIdle (set_prob (set_cls (c :: p_cls (s_prob s2)) (s_prob s2)) s2)) in *.
      assert (HA2 : forall a, A2 a <-> A a /\ yblk (nd_sols nd') a).
      { intros a. unfold A2. rewrite HA'. unfold yblk. split.
        - intros [[H1 H2] H3]. split; [assumption|]. intros sl c' Hsl Hc'. rewrite Esols in Hsl.
          apply in_app_or in Hsl. destruct Hsl as [Hsl|[<-|[]]]; [eauto|]. rewrite Hc1 in Hc'. injection Hc' as <-. exact H3.
        - intros [H1 H2]. split; [split; [assumption|]|].
          + intros sl c' Hsl Hc'. eapply H2; eauto. rewrite Esols. apply in_or_app; now left.
          + eapply H2; [|exact Hc1]. rewrite Esols. apply in_or_app. right. now left. }
      assert (Hshr2 : shr os cs A A2) by (apply (yblk_shr (nd_sols nd')); auto).
      pose proof (keep_trans _ _ _ _ Hk2 Hk3) as Hk03.
      assert (Eos3 : p_objs (s_prob s3) = os) by (cbn; rewrite Ep2; exact Eos).
      assert (Hasm3 : asm_ok SP (s_prob s3) A2 S assumps cs).
      { destruct Hasm as [Hs1 Hs2]. constructor.
        - intros m' Hm' Hl. rewrite Eos3, <- Eos. apply Hs1; auto.
          cbn in Hm'. apply sat_cons in Hm'. rewrite <- Ep2. apply Hm'.
        - intros m' H1 H2 H3 H4 H5. apply Hs2; auto.
          + apply H1.
          + cbn in H2. apply sat_cons in H2. rewrite <- Ep2. apply H2.
          + intros e He. apply H3. cbn. rewrite Ep2. assumption.
          + rewrite Eos, <- Eos3. assumption. }
      apply wp_bind, wp_k_solve_assumps; [exact HO|apply HK3| | |].
      - (* another solution *)
        intros m' s4 V4 L4 O4 Hm' Hl'.
        pose proof (K_solved _ _ _ _ _ _ V4 L4 HK3) as HK4.
        pose proof (keep_trans _ _ _ _ Hk03 (solved_keep SP _ _ V4)) as Hk4.
        apply wp_bind, wp_check_termination; [exact L4| |].
        2:{ intros x s5 Q5 G5. apply HYX; auto.
            - eapply keep_trans; [exact Hk4|apply quiet_keep, Q5].
            - exists A2. split; [|exact Hshr2]. rewrite (qt_prob _ _ Q5). apply HK4. }
        intros s5 Q5 L5.
        pose proof (K_quiet _ _ _ _ _ _ Q5 L5 HK4) as HK5.
        pose proof (keep_trans _ _ _ _ Hk4 (quiet_keep SP _ _ Q5)) as Hk5.
        destruct (K_next _ _ _ _ _ HK5) as [N1 N2].
        apply wp_bind. eapply wp_oracle_solution; [rewrite (qt_ora _ _ Q5); exact O4|exact N2|].
        apply wp_ret.
        assert (HA2m : A2 m').
        { apply (inv_sound _ _ _ _ _ (k_inv _ _ _ _ _ HK3)), Hm'. }
        assert (Em' : ic os m' = cs).
        { rewrite <- Eos3. apply (am_sound _ _ _ _ _ _ Hasm3); assumption. }
        split.
        + constructor; cbn [fst snd]; auto.
          * exists m', A2.
            assert (Ep5 : s_prob s5 = s_prob s3)
              by (rewrite (qt_prob _ _ Q5); apply (sv_prob _ _ V4)).
            split; [|split; [apply HF, HA2, HA2m|split; [exact Em'|split; [exact HK5|split;
              [rewrite Ep5; exact Hasm3|split; [exact HA2|split]]]]]].
            -- eexists. split; [|reflexivity].
               rewrite (ext_enc _ _ _ (ad_ext _ _ _ (kp_adv _ _ _ Hk5))) in N1. exact N1.
            -- intros Hin. destruct HA2m as [HA'm Hcm]. rewrite Esols in Hin.
               apply in_app_or in Hin. destruct Hin as [Hin|[Heq|[]]].
               ++ (* an earlier solution: its clause is satisfied by m' *)
                  destruct (Hsols _ Hin) as (m1 & Hm1 & Hm1c & Heq).
                  destruct (Hb m1) as (c1 & Hd1 & Hd2 & Hd3 & _); [assumption|now rewrite Hm1c|].
                  apply HA' in HA'm. destruct HA'm as [_ Hyb].
                  assert (Ht : clause_true m' c1 = true).
                  { eapply Hyb; [exact Hin|]. rewrite Heq. exact Hd1. }
                  apply sol_of_inj in Heq.
                  rewrite <- (clause_true_agree (fun i => i <= mo) m' m1 c1) in Hd3; [congruence|exact Heq|exact Hd2].
               ++ apply sol_of_inj in Heq.
                  rewrite (clause_true_agree (fun i => i <= mo) m m' c) in Hc3; [congruence|exact Heq|exact Hc2].
            -- intros sl c' Hin Hc'. destruct HA2m as [HA'm Hcm]. rewrite Esols in Hin.
               apply in_app_or in Hin. destruct Hin as [Hin|[<-|[]]].
               ++ apply HA' in HA'm. destruct HA'm as [_ Hyb].
                  destruct (Hsols _ Hin) as (m1 & Hm1 & Hm1c & ->).
                  destruct (Hb m1) as (c1 & Hd1 & Hd2 & Hd3 & _); [assumption|now rewrite Hm1c|].
                  rewrite Hd1 in Hc'. injection Hc' as <-. apply clause_true_hits; [exact Hd2|].
                  eapply Hyb; eauto.
               ++ rewrite Hc1 in Hc'. injection Hc' as <-. now apply clause_true_hits.
          * intros k Hkk. right. rewrite Hlen.
            destruct (o_enum o) as [|[k'|]|[k'|]]; cbn in Hdone, Hkk; try discriminate;
              injection Hkk as ->; apply Nat.leb_gt in Hdone; exact Hdone.
        + cbn [fst snd]. rewrite Hlen.
          pose proof (sols_bound mo (nd_sols nd') Hnd') as Hbd.
          rewrite Hlen in Hbd. assert (Datatypes.S (length (nd_sols nd)) <= 2 ^ Datatypes.S mo).
          { apply Hbd. intros sl Hsl. destruct (Hsols' _ Hsl) as (m2 & _ & _ & ?). eauto. }
          lia.
      - (* no other solution *)
        intros core s4 V4 L4 O4 Hcore Hcs.
        pose proof (K_solved _ _ _ _ _ _ V4 L4 HK3) as HK4.
        pose proof (keep_trans _ _ _ _ Hk03 (solved_keep SP _ _ V4)) as Hk4.
        apply wp_bind, wp_yield_finish; [exact L4| |].
        + intros s5 [P1 P2 P3] L5. apply wp_ret. exists nd', A2.
          split; [rewrite P3; f_equal; apply Hk4|]. split; [exact Hpt|].
          split.
          { constructor; [exact L5| |].
            - rewrite (ad_nobjs _ _ _ P1), P2. apply HK4.
            - rewrite P2. apply HK4. }
          split; [exact Hshr2|]. split; [eapply adv_trans; [apply Hk4|exact P1]|].
          split; [|intros Heo; contradiction]. split.
          * intros k Hkk. destruct (Hlim k Hkk) as [Hl|Hl].
            -- rewrite Hlen, Hl. cbn [length]. lia.
            -- rewrite Hlen. lia.
          * split; [|exact Hord']. left. intros a Ha Hac.
            (* otherwise [a] extends to a model *)
            assert (Hna : ~ A2 a).
            { intros HA2a. destruct (inv_comp _ _ _ _ _ (k_inv _ _ _ _ _ HK3) a HA2a)
                as (m2 & G1 & G2 & G3 & G4).
              assert (Hac2 : ic os m2 = cs).
              { rewrite <- Hac, <- Eos3. symmetry.
                apply (ic_agree SP _ _ _ _ (inv_wf _ _ _ _ _ (k_inv _ _ _ _ _ HK3)) G1). }
              assert (Hlt : lits_true m2 assumps).
              { apply (am_comp _ _ _ _ _ _ Hasm3); auto.
                - eapply (inv_Acl _ _ _ _ _ (k_inv _ _ _ _ _ HK3)); eauto.
                - rewrite Eos3. assumption. }
              specialize (Hcs m2 G2). apply clause_true_iff in Hcs.
              destruct Hcs as (l & Hl1 & Hl2). apply Hcore in Hl1. apply Hlt in Hl1.
              rewrite lit_true_lnot, Hl2 in Hl1. discriminate. }
            assert (Hex : exists sl c0, In sl (nd_sols nd') /\
                      yield_block_clause o os sl = Some c0 /\ clause_true a c0 = false).
            { assert (Hdec : forall l : list assignment, yblk l a \/ exists sl c0, In sl l /\
                      yield_block_clause o os sl = Some c0 /\ clause_true a c0 = false).
              { intros l. induction l as [|sl l IH].
                - left. intros ? ? [].
                - destruct IH as [IH|(sl' & c0 & I1 & I2 & I3)].
                  + destruct (yield_block_clause o os sl) as [c0|] eqn:Hc0.
                    * destruct (clause_true a c0) eqn:Ht.
                      -- left. intros sl' c' [<-|Hin] Hc'; [congruence|]. eapply IH; eauto.
                      -- right. exists sl, c0. repeat split; auto. now left.
                    * left. intros sl' c' [<-|Hin] Hc'; [congruence|]. eapply IH; eauto.
                  + right. exists sl', c0. repeat split; auto. now right. }
              destruct (Hdec (nd_sols nd')) as [Hy|Hy]; [|exact Hy].
              exfalso. apply Hna, HA2. auto. }
            exact Hex.
        + intros x s5 [P1 P2 P3] G5. split; [now apply good_xok|].
          split; [eapply adv_trans; [apply Hk4|exact P1]|]. split.
          * right. exists nd'. split; [|exact Hpt]. rewrite P3. f_equal. apply Hk4.
          * exists A2. split; [|split; [exact Hshr2|intros Heo; contradiction]]. rewrite P2. apply HK4.
      - intros x s4 V4 G4. apply HYX; auto.
        + eapply keep_trans; [exact Hk03|apply solved_keep, V4].
        + exists A2. split; [|exact Hshr2]. rewrite (sv_prob _ _ V4). apply HK3.
    Qed.

    Lemma yield_run sol : K SP F A S s0 -> asm_ok SP (s_prob s0) A S assumps cs ->
      (exists m, sol_rep me m sol /\ F m /\ ic os m = cs) ->
      wp (yield_solutions E cs assumps sol) (fun _ s' => YQ s') YX s0.
    Proof.
      intros HK Hasm (m & Hrep & Hm & Hmc). unfold yield_solutions.
      assert (Hlen : length cs = n_objs (s_stats s0)).
      { rewrite <- Hmc, ic_length. symmetry. apply HK. }
      assert (HYX : forall x s', good_exit x -> quiet s0 s' -> YX x s').
      { intros x s' G Hq. pose proof (quiet_keep SP _ _ Hq) as Hk.
        split; [now apply good_xok|]. split; [apply Hk|].
        split; [left; apply Hk|]. exists A. split; [rewrite (qt_prob _ _ Hq); apply HK|].
        split; [split; auto|auto]. }
      apply wp_bind, wp_gets, wp_bind, wp_guard; [now apply Nat.eqb_eq|].
      apply wp_bind, wp_log_start; [apply HK| |intros; apply HYX; auto].
      intros s1 Q1 L1. pose proof (K_quiet _ _ _ _ _ _ Q1 L1 HK) as HK1.
      apply wp_bind.
      assert (Hun : forall (Q : unit -> st -> Prop) X, Q tt s1 -> wp unphase_solution Q X s1).
      { intros Q X HQ. unfold unphase_solution. apply wp_bind, wp_gets.
        destruct (o_sgs (s_opts s1)); [|now apply wp_ret].
        apply wp_bind, wp_gets. destruct (K_next _ _ _ _ _ HK1) as [_ N].
        unfold vm_max_var. destruct (vm_next (p_vm (s_prob s1))) as [|n]; [lia|].
        apply wp_bind, (wp_unwrap _ n); [reflexivity|]. now apply wp_ret. }
      apply Hun. apply wp_bind. unfold externalize_internal_costs.
      apply wp_bind, wp_gets, wp_bind, wp_guard.
      { apply Nat.eqb_eq. rewrite (fr_nobjs _ _ (qt_fr _ _ Q1)). exact Hlen. }
      apply wp_bind, wp_gets, (wp_unwrap _ exts); [rewrite (qt_prob _ _ Q1); exact Hext|].
      apply wp_loop with (Inv := YI)
        (mu := fun x _ => 2 ^ Datatypes.S mo - length (nd_sols (snd x))).
      - intros x s Hx. apply yi_body, Hx.
      - constructor; cbn [fst snd nd_new nd_sols nd_costs]; auto.
        + exists m, A. split; [exact Hrep|]. split; [exact Hm|]. split; [exact Hmc|].
          split; [exact HK1|]. split; [rewrite (qt_prob _ _ Q1); exact Hasm|].
          split; [|split; [intros []|intros ? ? []]]. intros a. split; [|tauto]. intros Ha. split; [exact Ha|].
          intros ? ? [].
        + apply quiet_keep, Q1.
        + constructor.
        + constructor.
        + intros ? [].
      - intros x' s' [Hex Hk _ _ _ Hsols Hlim] Hle. cbn [snd nd_new nd_sols length] in Hle.
        destruct Hex as (m' & A' & _ & _ & _ & HK' & _ & HA' & _).
        split; [right; split; [reflexivity|lia]|]. split; [apply Hk|]. split; [left; apply Hk|].
        assert (Hne : nd_sols (snd x') = [] \/ o_enum o <> NoEnum).
        { destruct (o_enum o) eqn:Heo; [|right; discriminate|right; discriminate].
          left. destruct (Hlim 1 eq_refl) as [Hl|Hl]; [exact Hl|].
          destruct (nd_sols (snd x')); [reflexivity|cbn in Hl; lia]. }
        exists A'. split; [apply HK'|]. split; [apply (yblk_shr (nd_sols (snd x'))); auto|].
        intros Ho a Ha. apply HA'. split; [exact Ha|]. destruct Hne as [->|Hne]; [intros ? ? []|contradiction].
    Qed.
  End Run.
End Yield.
