(** * Correctness of the linear search [linsu] *)
From Coq Require Import List Bool Arith Lia ZArith.
From Verif Require Import Base BaseLemmas MTypes MKernel EncSpec Wp Sem Kern Yield.
Import ListNotations.

Section Linsu.
  Context {I : enc_impl} (SP : enc_spec I).
  Notation M := (M I).
  Notation st := (st I).
  Variable E : environ.
  Hypothesis HO : oracle_ok E.
  Variable F : asg -> Prop.
  Variable B : nat.
  Notation T := (fun _ : asg => True).
  Notation K := (K SP F).
  Notation keep := (keep SP).

  (** The assumptions [base] select the assignments in [P] *)
  Definition sel (p : prob I) (A P : asg -> Prop) (base : list lit) : Prop :=
    (forall m, sat m (p_cls p) -> lits_true m base -> P m) /\
    (forall m, A m -> sat m (p_cls p) -> Exact SP p m -> P m -> lits_true m base) /\
    (forall a b, agree (low p) a b -> P a -> P b).
  Lemma sel_ext p p' A P base : ext SP p p' -> sel p A P base -> sel p' A P base.
  Proof.
    intros He (H1 & H2 & H3). split; [|split].
    - intros m Hm. apply H1. eapply ext_sat; eauto.
    - intros m Ha Hm Hx. apply H2; auto; [eapply ext_sat; eauto|now apply (ext_exact _ _ _ He)].
    - intros a b Hab. apply H3. eapply agree_mono; [|exact Hab]. intros v Hv. now apply (ext_low SP _ _ v He).
  Qed.

  (** [lb] is not below the encoding's offset, nor below the value of a constant *)
  Definition lbok (idx : nat) (o : objective) (lb : nat) (s : st) : Prop :=
    forall e, nth_error (p_encs (s_prob s)) idx = Some e -> oe_offset e <= lb /\
      (e = EConstant -> forall a, F a -> icost o a <= lb).
  Lemma lbok_ext idx o lb s s' : ext SP (s_prob s) (s_prob s') -> lbok idx o lb s -> lbok idx o lb s'.
  Proof.
    intros He H e' He'.
    destruct (nth_error (p_encs (s_prob s)) idx) as [e|] eqn:Hn.
    - destruct (ext_encs _ _ _ He _ _ Hn) as (e2 & G1 & G2 & _ & G3).
      assert (e2 = e') by congruence. subst e2. destruct (H e Hn) as [H1 H2]. split; [lia|].
      intros Hc. apply H2, G3, Hc.
    - exfalso. apply nth_error_None in Hn. rewrite <- (ext_len _ _ _ He) in Hn.
      apply nth_error_None in Hn. congruence.
  Qed.
  Lemma lbok_le idx o lb lb' s : lb <= lb' -> lbok idx o lb s -> lbok idx o lb' s.
  Proof.
    intros Hle H e He. destruct (H e He) as [H1 H2]. split; [lia|]. intros Hc a Ha.
    specialize (H2 Hc a Ha). lia.
  Qed.

  (** Encoding and enforcing an upper bound *)
  Lemma wp_bound {R} A idx o b hi (g : option (list lit) -> M (list lit)) (k : list lit -> M R)
      (Q : R -> st -> Prop) (X : exit -> st -> Prop) s :
    K A T s -> nth_error (p_objs (s_prob s)) idx = Some o -> lbok idx o b s -> b < hi ->
    (forall ls, g (Some ls) = ret ls) ->
    (forall ls s', K A T s' -> keep s s' ->
       (forall m, sat m (p_cls (s_prob s')) -> lits_true m ls -> icost o m <= b) ->
       (forall m, F m -> Exact SP (s_prob s') m -> icost o m <= b -> lits_true m ls) ->
       (forall v, In v (lits_vars ls) -> live SP (s_prob s') v) ->
       wp (k ls) Q X s') ->
    wp (extend_encoding idx b hi ;;; (e <- get_enc idx ;; (a <- g (oe_enforce_ub e b) ;; k a))) Q X s.
  Proof.
    intros HK Ho Hlb Hhi Hg Hk. pose proof (inv_wf _ _ _ _ _ (k_inv _ _ _ _ _ HK)) as W.
    destruct (obj_encoding SP F _ _ _ W Ho) as [e He]. destruct (Hlb e He) as [H1 H2].
    apply wp_bind. eapply wp_extend_encoding; [exact HK|exact He|].
    intros e' s' K1 Kp1 L1 Es He' Hoff Hcap Hconst Henf.
    apply wp_bind. unfold get_enc. apply wp_bind, wp_gets, (wp_unwrap _ e'); [exact He'|].
    destruct (oe_enforce_ub e' b) as [ls|] eqn:Hls; [|exfalso; apply (Henf b); lia || assumption].
    rewrite Hg. apply wp_bind, wp_ret.
    pose proof (inv_wf _ _ _ _ _ (k_inv _ _ _ _ _ K1)) as W1.
    assert (Ho1 : nth_error (p_objs (s_prob s')) idx = Some o).
    { rewrite (adv_objs _ _ _ (kp_adv _ _ _ Kp1)). exact Ho. }
    apply Hk; [exact K1|exact Kp1| | |].
    - intros m Hm Hl.
      assert (D : {e' = EConstant} + {e' <> EConstant}).
      { destruct e'; [right; discriminate|right; discriminate|left; reflexivity]. }
      destruct D as [D|D].
      + apply H2; [now apply Hconst|].
        apply (inv_AF _ _ _ _ _ (k_inv _ _ _ _ _ K1)), (inv_sound _ _ _ _ _ (k_inv _ _ _ _ _ K1)), Hm.
      + eapply enforce_sound; eauto.
    - intros m Hm Hx Hc. eapply enforce_complete; eauto.
    - intros v Hv. apply in_lits_vars in Hv. destruct Hv as (l & Hl & <-).
      apply (wf_used _ _ _ W1 e'); [eapply nth_error_In; eauto|]. eapply oe_enforce_vars; eauto.
  Qed.

  Section Run.
    Variables (A P : asg -> Prop) (idx lb : nat) (o : objective) (base : list lit) (s0 : st).
    Let me := vm_max_enc (p_vm (s_prob s0)).
    Let os := p_objs (s_prob s0).
    Hypothesis HK0 : K A T s0.
    Hypothesis Ho : nth_error os idx = Some o.
    Hypothesis Hsel : sel (s_prob s0) A P base.
    Hypothesis Hlb : lbok idx o lb s0.
    Hypothesis Hmin : forall a, A a -> P a -> lb <= icost o a.
    Hypothesis HB : forall a, icost o a <= B.

    Definition attains (c : nat) (sol : assignment) : Prop :=
      exists m, sol_rep me m sol /\ A m /\ P m /\ icost o m = c.
    Definition isub (x : nat * option assignment) : Prop :=
      match snd x with
      | Some sol => attains (fst x) sol
      | None => fst x <= B /\ exists a, A a /\ P a /\ icost o a <= fst x
      end.
    Definition isopt (c : nat) : Prop := forall a, A a -> P a -> c <= icost o a.

    Definition LX (x : exit) (s : st) : Prop :=
      xok E B x /\ keep s0 s /\ Inv SP F (s_prob s) A T.

    Lemma LX_solved x s s' : keep s0 s -> K A T s -> solved s s' -> xok E B x -> LX x s'.
    Proof.
      intros Hk HK V Hx. split; [exact Hx|]. split; [eapply keep_trans; [exact Hk|apply solved_keep, V]|].
      rewrite (sv_prob _ _ V). apply HK.
    Qed.

    Lemma keep_os s : keep s0 s -> nth_error (p_objs (s_prob s)) idx = Some o.
    Proof. intros Hk. rewrite (adv_objs _ _ _ (kp_adv _ _ _ Hk)). exact Ho. Qed.
    Lemma keep_sel s : keep s0 s -> sel (s_prob s) A P base.
    Proof. intros Hk. eapply sel_ext; [apply (ad_ext _ _ _ (kp_adv _ _ _ Hk))|exact Hsel]. Qed.
    Lemma keep_lb s b : keep s0 s -> lb <= b -> lbok idx o b s.
    Proof.
      intros Hk Hb. eapply lbok_le; [exact Hb|].
      eapply lbok_ext; [apply (ad_ext _ _ _ (kp_adv _ _ _ Hk))|exact Hlb].
    Qed.
    Lemma keep_me s : keep s0 s -> vm_max_enc (p_vm (s_prob s)) = me.
    Proof. intros Hk. apply (ext_enc _ _ _ (ad_ext _ _ _ (kp_adv _ _ _ Hk))). Qed.
    Lemma K_A s m : K A T s -> sat m (p_cls (s_prob s)) -> A m.
    Proof. intros HK. apply (inv_sound _ _ _ _ _ (k_inv _ _ _ _ _ HK)). Qed.

    (** no model under [base ++ ls] where [ls] enforce [icost o <= b] *)
    Lemma unsat_opt s b ls core : K A T s -> keep s0 s ->
      (forall m, F m -> Exact SP (s_prob s) m -> icost o m <= b -> lits_true m ls) ->
      (forall l, In l core -> In (lnot l) (base ++ ls)) ->
      (forall m, sat m (p_cls (s_prob s)) -> clause_true m core = true) ->
      forall a, A a -> P a -> b < icost o a.
    Proof.
      intros HK Hk Hc Hcore Hent a Ha HP. destruct (le_lt_dec (icost o a) b) as [Hle|Hlt]; [|exact Hlt].
      exfalso. pose proof (inv_wf _ _ _ _ _ (k_inv _ _ _ _ _ HK)) as W.
      destruct (inv_comp _ _ _ _ _ (k_inv _ _ _ _ _ HK) a Ha) as (m & G1 & G2 & G3 & _).
      destruct (keep_sel s Hk) as (S1 & S2 & S3).
      assert (HAm : A m) by (eapply (inv_Acl _ _ _ _ _ (k_inv _ _ _ _ _ HK)); eauto).
      assert (HFm : F m) by (apply (inv_AF _ _ _ _ _ (k_inv _ _ _ _ _ HK)), HAm).
      assert (Hcm : icost o m <= b).
      { rewrite <- (icost_agree SP F (s_prob s) o a m W); [exact Hle| |exact G1].
        eapply nth_error_In, keep_os, Hk. }
      assert (Hl : lits_true m (base ++ ls)).
      { apply lits_true_app. split; [apply S2; eauto|]. now apply Hc. }
      specialize (Hent m G2). apply clause_true_iff in Hent. destruct Hent as (l & Hl1 & Hl2).
      apply Hcore, Hl in Hl1. rewrite lit_true_lnot, Hl2 in Hl1. discriminate.
    Qed.

    Lemma linsu_body_ok x s : keep s0 s /\ K A T s /\ isub x ->
      wp (linsu_body E idx base lb x)
         (fun r s' => match r with
            | inl x' => (keep s0 s' /\ K A T s' /\ isub x') /\ fst x' < fst x
            | inr (inl (c, sol)) => keep s0 s' /\ K A T s' /\ attains c sol /\ isopt c
            | inr (inr x') => keep s0 s' /\ K A T s' /\ isub x' /\ isopt (fst x')
            end) LX s.
    Proof.
      destruct x as [cost sol]. intros (Hk & HK & Hub). unfold linsu_body. cbn [fst].
      destruct (cost <=? lb) eqn:Hcl.
      { apply Nat.leb_le in Hcl. apply wp_ret. split; [exact Hk|]. split; [exact HK|]. split; [exact Hub|].
        intros a Ha HP. cbn [fst]. specialize (Hmin a Ha HP). lia. }
      apply Nat.leb_gt in Hcl.
      apply (wp_bound A idx o (cost - 1) (cost - 1 + 1) unwrap); [exact HK|now apply keep_os|apply keep_lb; [exact Hk|lia]|lia|reflexivity|].
      intros ls s1 K1 Hk1 S1 C1 V1. pose proof (keep_trans _ _ _ _ Hk Hk1) as Hk01.
      apply wp_bind, wp_k_solve_assumps; [exact HO|apply K1| | |].
      - intros m s2 V2 L2 O2 Hm Hl. apply lits_true_app in Hl. destruct Hl as [Hl1 Hl2].
        pose proof (K_solved _ _ _ _ _ _ V2 L2 K1) as K2.
        pose proof (keep_trans _ _ _ _ Hk01 (solved_keep SP _ _ V2)) as Hk2.
        assert (HA : A m) by (apply (K_A s1); assumption).
        assert (HP : P m) by (apply (keep_sel _ Hk01); assumption).
        assert (Hc : icost o m <= cost - 1) by (apply S1; assumption).
        destruct (K_next _ _ _ _ _ K2) as [N1 N2].
        apply wp_bind. eapply wp_oracle_solution; [exact O2|exact N2|].
        set (sol' := sol_of m (vm_next (p_vm (s_prob s2)) - 1)).
        assert (Hrep : sol_rep (vm_max_enc (p_vm (s_prob s2))) m sol') by (eexists; split; [exact N1|reflexivity]).
        apply wp_bind. eapply wp_get_cost; [exact K2|now apply keep_os|exact Hrep|].
        apply wp_bind, wp_guard; [apply Nat.ltb_lt; lia|].
        apply wp_bind, wp_gets, wp_bind. rewrite (k_nobjs _ _ _ _ _ K2).
        eapply wp_get_costs; [exact K2|exact Hrep|].
        assert (Hat : attains (icost o m) sol').
        { exists m. rewrite <- (keep_me _ Hk2). auto. }
        apply wp_bind, wp_log_candidate; [exact L2| | |].
        { rewrite ic_length. symmetry. apply K2. }
        2:{ intros x s3 Q3 G3. eapply LX_solved; [exact Hk2|exact K2|apply quiet_solved, Q3|now apply good_xok]. }
        intros s3 Q3 L3. pose proof (K_quiet _ _ _ _ _ _ Q3 L3 K2) as K3.
        pose proof (keep_trans _ _ _ _ Hk2 (quiet_keep SP _ _ Q3)) as Hk3.
        destruct (icost o m <=? lb) eqn:Hml.
        + apply Nat.leb_le in Hml. apply wp_bind, wp_log_end; [exact L3| |].
          2:{ intros x s4 Q4 G4. eapply LX_solved; [exact Hk3|exact K3|apply quiet_solved, Q4|now apply good_xok]. }
          intros s4 Q4 L4. apply wp_ret. split; [eapply keep_trans; [exact Hk3|apply quiet_keep, Q4]|].
          split; [eapply K_quiet; eauto|]. split; [exact Hat|].
          intros a Ha HPa. specialize (Hmin a Ha HPa). lia.
        + apply wp_ret. split; [|cbn [fst]; lia]. split; [exact Hk3|]. split; [exact K3|]. exact Hat.
      - intros core s2 V2 L2 O2 Hcore Hent.
        apply wp_ret. split; [eapply keep_trans; [exact Hk01|apply solved_keep, V2]|].
        split; [eapply K_solved; eauto|]. split; [exact Hub|].
        intros a Ha HP. cbn [fst]. pose proof (unsat_opt _ _ _ _ K1 Hk01 C1 Hcore Hent a Ha HP). lia.
      - intros x s2 V2 G2. eapply LX_solved; [exact Hk01|exact K1|exact V2|now apply good_xok].
    Qed.

    (** The result: [None] iff nothing is selected, otherwise the minimum *)
    Definition LQ (r : option (nat * assignment)) (s : st) : Prop :=
      keep s0 s /\ K A T s /\
      match r with
      | Some (c, sol) => attains c sol /\ isopt c
      | None => forall a, A a -> ~ P a
      end.

    Lemma linsu_ok ub : (match ub with Some x => isub x | None => True end) ->
      wp (linsu E idx base ub (Some lb)) LQ LX s0.
    Proof.
      intros Hub. unfold linsu.
      assert (HX : forall x s', good_exit x -> quiet s0 s' -> LX x s').
      { intros x s' G Q. eapply LX_solved; [apply keep_refl|exact HK0|apply quiet_solved, Q|now apply good_xok]. }
      apply wp_bind, wp_log_start; [apply HK0| |intros; apply HX; auto].
      intros s1 Q1 L1. pose proof (K_quiet _ _ _ _ _ _ Q1 L1 HK0) as K1. pose proof (quiet_keep SP _ _ Q1) as Hk1.
      apply wp_bind.
      assert (HS : wp (linsu_start E idx base ub)
        (fun r s => keep s0 s /\ K A T s /\ match r with Some x => isub x | None => forall a, A a -> ~ P a end) LX s1).
      { destruct ub as [x|]; cbn [linsu_start]; [apply wp_ret; auto|].
        apply wp_bind, wp_k_solve_assumps; [exact HO|apply K1| | |].
        - intros m s2 V2 L2 O2 Hm Hl. pose proof (K_solved _ _ _ _ _ _ V2 L2 K1) as K2.
          pose proof (keep_trans _ _ _ _ Hk1 (solved_keep SP _ _ V2)) as Hk2.
          destruct (K_next _ _ _ _ _ K2) as [N1 N2].
          apply wp_bind. eapply wp_oracle_solution; [exact O2|exact N2|].
          apply wp_bind. eapply wp_get_cost; [exact K2|now apply keep_os|eexists; split; [exact N1|reflexivity]|].
          apply wp_ret. split; [exact Hk2|]. split; [exact K2|].
          exists m. cbn [fst snd]. split; [eexists; split; [rewrite <- (keep_me _ Hk2); exact N1|reflexivity]|].
          split; [apply (K_A s1); assumption|]. split; [apply (keep_sel _ Hk1); assumption|reflexivity].
        - intros core s2 V2 L2 O2 Hcore Hent. apply wp_ret.
          split; [eapply keep_trans; [exact Hk1|apply solved_keep, V2]|]. split; [eapply K_solved; eauto|].
          intros a Ha HP.
          destruct (inv_comp _ _ _ _ _ (k_inv _ _ _ _ _ K1) a Ha) as (m & G1 & G2 & G3 & _).
          destruct (keep_sel s1 Hk1) as (S1 & S2 & S3).
          assert (HAm : A m) by (eapply (inv_Acl _ _ _ _ _ (k_inv _ _ _ _ _ K1)); eauto).
          specialize (Hent m G2). apply clause_true_iff in Hent. destruct Hent as (l & Hl1 & Hl2).
          apply Hcore in Hl1. apply (S2 m HAm G2 G3) in Hl1; [|eauto].
          rewrite lit_true_lnot, Hl2 in Hl1. discriminate.
        - intros x s2 V2 G2. eapply LX_solved; [exact Hk1|exact K1|exact V2|now apply good_xok]. }
      eapply wp_mono; [exact HS| |auto]. intros [x|] s2 (Hk2 & K2 & Hx).
      2:{ apply wp_bind, wp_log_end; [apply K2| |].
          - intros s3 Q3 L3. apply wp_ret. split; [eapply keep_trans; [exact Hk2|apply quiet_keep, Q3]|].
            split; [eapply K_quiet; eauto|exact Hx].
          - intros x s3 Q3 G3. eapply LX_solved; [exact Hk2|exact K2|apply quiet_solved, Q3|now apply good_xok]. }
      apply wp_bind.
      apply wp_loop with (Inv := fun x s => keep s0 s /\ K A T s /\ isub x) (mu := fun x _ => fst x).
      - intros x' s' H'. eapply wp_mono; [apply linsu_body_ok, H'| |auto].
        intros [x''|[[c sol]|[c sol]]] s3 H.
        + exact H.
        + apply wp_ret. destruct H as (H1 & H2 & H3 & H4). split; [exact H1|]. split; [exact H2|]. auto.
        + destruct H as (Hk3 & K3 & Hub3 & Hop3). cbn [fst] in Hop3.
          assert (HF : wp (linsu_final E idx base c sol)
             (fun a s => keep s0 s /\ K A T s /\ attains c a) LX s3).
          { destruct sol as [a|]; cbn [linsu_final]; [apply wp_ret; auto|].
            destruct Hub3 as (HcB & a0 & Ha0 & HP0 & Hc0). cbn [fst] in Hc0.
            apply (wp_bound A idx o c (c + 1) unwrap); [exact K3|now apply keep_os| |lia|reflexivity|].
            { apply keep_lb; [exact Hk3|]. specialize (Hmin a0 Ha0 HP0). lia. }
            intros ls s4 K4 Hk4 S4 C4 V4. pose proof (keep_trans _ _ _ _ Hk3 Hk4) as Hk04.
            apply wp_bind, wp_k_solve_assumps; [exact HO|apply K4| | |].
            - intros m s5 V5 L5 O5 Hm Hl. apply lits_true_app in Hl. destruct Hl as [Hl1 Hl2].
              pose proof (K_solved _ _ _ _ _ _ V5 L5 K4) as K5.
              pose proof (keep_trans _ _ _ _ Hk04 (solved_keep SP _ _ V5)) as Hk5.
              destruct (K_next _ _ _ _ _ K5) as [N1 N2].
              apply wp_bind, wp_guard; [reflexivity|]. eapply wp_oracle_solution; [exact O5|exact N2|].
              split; [exact Hk5|]. split; [exact K5|].
              assert (HA : A m) by (apply (K_A s4); assumption).
              assert (HP : P m) by (apply (keep_sel _ Hk04); assumption).
              exists m. split; [eexists; split; [rewrite <- (keep_me _ Hk5); exact N1|reflexivity]|].
              split; [exact HA|]. split; [exact HP|].
              apply Nat.le_antisymm; [apply S4; assumption|]. now apply Hop3.
            - intros core s5 V5 L5 O5 Hcore Hent. exfalso.
              pose proof (unsat_opt _ _ _ _ K4 Hk04 C4 Hcore Hent a0 Ha0 HP0). lia.
            - intros x0 s5 V5 G5. eapply LX_solved; [exact Hk04|exact K4|exact V5|now apply good_xok]. }
          apply wp_bind. eapply wp_mono; [exact HF| |auto]. intros a s4 (Hk4 & K4 & Hat).
          apply wp_bind, wp_log_end; [apply K4| |].
          * intros s5 Q5 L5. apply wp_ret. split; [eapply keep_trans; [exact Hk4|apply quiet_keep, Q5]|].
            split; [eapply K_quiet; eauto|]. auto.
          * intros x0 s5 Q5 G5. eapply LX_solved; [exact Hk4|exact K4|apply quiet_solved, Q5|now apply good_xok].
      - auto.
      - intros x' s' (Hk' & K' & Hub') Hfu. eapply LX_solved; [exact Hk'|exact K'|apply solved_refl|].
        right. split; [reflexivity|]. etransitivity; [exact Hfu|].
        unfold isub in Hx. destruct (snd x); [destruct Hx as (m & _ & _ & _ & <-); apply HB|apply Hx].
    Qed.
  End Run.
End Linsu.
