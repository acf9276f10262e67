(** * Tightening with literals in several objectives

    The cost vector that tightening returns may then be stale (C84): above the costs of the solution
    it comes with.  Every component is still the cost of some model of the clauses and assumptions,
    and that is enough for the minimization of P-minimal and LowerBounding. *)
From Coq Require Import List Bool Arith Lia ZArith.
From Verif Require Import Base BaseLemmas Spec MTypes MKernel MPMinimal EncSpec Wp Sem Kern Yield PMin Ext Init Blk ApiSpec Api ApiTop
  CbSpec CbApi MTight InproSpec InproThm TightSpec TightThm TightRun MTightAlg TightAlgSpec TightSim.
Import ListNotations.

(** Every component of [cs] is the cost of an assignment in [P] *)
Definition att (P : asg -> Prop) (os : list objective) (cs : list nat) : Prop :=
  length cs = length os /\
  forall i c o, nth_error cs i = Some c -> nth_error os i = Some o -> exists a, P a /\ icost o a = c.
Lemma att_nth P os cs i c : att P os cs -> nth_error cs i = Some c ->
  exists o a, nth_error os i = Some o /\ P a /\ c = icost o a.
Proof.
  intros [H1 H2] H. destruct (nth_error os i) as [o|] eqn:e.
  - destruct (H2 i c o H e) as (a & Ha & Hc). exists o, a. auto.
  - apply nth_error_None in e. assert (i < length cs) by (apply nth_error_Some; congruence). lia.
Qed.
Lemma att_mono (P P' : asg -> Prop) os cs : (forall a, P a -> P' a) -> att P os cs -> att P' os cs.
Proof.
  intros HP [H1 H2]. split; [exact H1|]. intros i c o Hc Ho. destruct (H2 i c o Hc Ho) as (a & Ha & E). eauto.
Qed.
Lemma att_ic (P : asg -> Prop) os a : P a -> att P os (ic os a).
Proof.
  intros Ha. split; [apply ic_length|]. intros i c o Hc Ho. exists a. split; [exact Ha|].
  rewrite (ic_nth _ _ _ _ Ho) in Hc. congruence.
Qed.

(** ** What tightening returns *)
Section Tight.
  Variables (O : flip_oracle) (i : inst) (cls : list clause) (v : nat).
  Notation tg := true.
  Hypothesis HD : lits_distinct i.
  Hypothesis HP : forall r lw, In r (in_objs i) -> In lw (fst r) -> 0 < snd lw.
  Hypothesis HF : flip_ok cls (in_objs i) O.
  Notation os := (build_objs 0 (in_objs i)).
  Notation model := (ora_model O).
  Notation olit := (olit i).
  Hypothesis olit_low : forall l, olit l -> lvar l <= v.

  Section Obj.
    Variables (o : objective) (t0 : ora_st O).
    Hypothesis Ho : In o os.

    Definition TInv (pre : list (lit * nat)) (x : ora_st O * assignment * nat * nat) : Prop :=
      let '(t, sol, cost, red) := x in
      sat (model t) cls /\ length sol = S v /\
      (forall l, olit l -> nth_error sol (lvar l) = Some (Some (model t (lvar l)))) /\
      cost = wsum (model t) pre /\
      (forall l, olit l -> lit_true (model t) l = true -> lit_true (model t0) l = true) /\
      (forall l, olit l -> ~ In l (map fst (obj_iter o)) -> lit_true (model t) l = lit_true (model t0) l) /\
      (red = 0 -> sol = sol_of (model t0) v /\ forall u, model t u = model t0 u) /\
      (tg = false -> red = 0 /\ t = t0).

    Lemma loop_inv : forall post pre x, obj_iter o = pre ++ post -> TInv pre x ->
      TInv (pre ++ post) (tight_loop O os tg post x).
    Proof.
      induction post as [|[l w] post IH]; intros pre x Hls HT; [now rewrite app_nil_r|].
      replace (pre ++ (l, w) :: post) with ((pre ++ [(l, w)]) ++ post) by (now rewrite <- app_assoc).
      destruct x as [[[t sol] cost] red]. cbn [tight_loop]. apply IH; [now rewrite <- app_assoc|].
      destruct HT as (H1 & H2 & H3 & H4 & H5 & H6 & H7 & H8).
      assert (Hin : In (l, w) (obj_iter o)) by (rewrite Hls; apply in_or_app; right; now left).
      assert (Hl : olit l).
      { apply olit_iff. exists o. split; [exact Ho|]. apply in_map_iff. now exists (l, w). }
      pose proof (olit_low l Hl) as Hlow.
      assert (Hval : lit_value sol l = Some (lit_true (model t) l)).
      { unfold lit_value, var_value. rewrite (H3 l Hl). reflexivity. }
      assert (Hpre : forall l' w', In (l', w') pre -> olit l' /\ l' <> l).
      { intros l' w' Hp. split.
        - apply olit_iff. exists o. split; [exact Ho|]. rewrite Hls, map_app. apply in_or_app. left.
          apply in_map_iff. now exists (l', w').
        - intros ->. pose proof (obj_distinct i HD o Ho) as Hnd. rewrite Hls, map_app in Hnd. cbn [map fst] in Hnd.
          apply NoDup_remove_2 in Hnd. apply Hnd. apply in_or_app. left. apply in_map_iff. now exists (l, w'). }
      assert (Hsnoc : forall a, wsum a (pre ++ [(l, w)]) = wsum a pre + (if lit_true a l then w else 0)).
      { intros a. rewrite wsum_app. cbn [wsum]. lia. }
      assert (Hcount : lit_true (model t) l = true -> TInv (pre ++ [(l, w)]) (t, sol, cost + w, red)).
      { intros e. unfold TInv. rewrite Hsnoc, e, H4. repeat (split; [assumption || reflexivity|]). exact H8. }
      rewrite Hval. destruct (lit_true (model t) l) eqn:el; cbn [is_true].
      2:{ unfold TInv. rewrite Hsnoc, el, Nat.add_0_r. repeat (split; [assumption|]). exact H8. }
      destruct (tg && negb (has_key os (lnot l))) eqn:ek; [|now apply Hcount].
      apply andb_true_iff in ek. destruct ek as [etg ek]. apply negb_true_iff in ek.
      assert (Hk : ~ olit (lnot l)) by (rewrite <- (key_olit i); congruence).
      destruct (ora_flip O t (lnot l)) as [t' b] eqn:ef. pose proof (HF _ _ _ _ H1 ef) as HB. destruct b.
      - destruct HB as (B1 & B2 & B3).
        assert (B4 : forall x, olit x -> x <> l -> model t' (lvar x) = model t (lvar x)).
        { intros x Hx Hne. destruct Hx as (r & w' & X1 & X2). apply (B3 r x w' X1 X2). intros e.
          apply same_var in e. destruct e as [e|e].
          - apply Hk. exists r, w'. rewrite <- e. auto.
          - apply Hne. rewrite e. destruct l as [a [|]]; reflexivity. }
        assert (B5 : lit_true (model t') l = false).
        { rewrite lit_true_lnot in B2. now apply negb_true_iff in B2. }
        assert (Bx : forall x, olit x -> x <> l -> lit_true (model t') x = lit_true (model t) x).
        { intros x Hx Hne. unfold lit_true. now rewrite B4. }
        unfold TInv. split; [exact B1|]. unfold assign_lit. cbn [lnot lvar lneg]. rewrite negb_involutive.
        split; [rewrite assign_at_length; lia|]. split; [|split; [|split; [|split; [|split]]]].
        + intros x Hx. rewrite assign_at_nth by lia. destruct (lvar x =? lvar l) eqn:e.
          * apply Nat.eqb_eq in e. rewrite e. do 2 f_equal. unfold lit_true in B5. destruct (lneg l), (model t' (lvar l)); cbn in B5; congruence.
          * apply Nat.eqb_neq in e. rewrite B4 by congruence. now apply H3.
        + rewrite Hsnoc, B5, Nat.add_0_r, H4. clear - Hpre Bx. induction pre as [|[l' w'] pre IH]; [reflexivity|]. cbn [wsum].
          destruct (Hpre l' w' (or_introl eq_refl)) as [G1 G2]. rewrite (Bx l' G1 G2). f_equal. apply IH.
          intros; apply (Hpre l'0 w'0). now right.
        + intros x Hx Ht. destruct (lit_eqb x l) eqn:e; [apply lit_eqb_eq in e; subst; congruence|].
          apply lit_eqb_neq in e. rewrite (Bx x Hx e) in Ht. auto.
        + intros x Hx Hn. rewrite Bx; [auto|exact Hx|]. intros ->. apply Hn. apply in_map_iff. now exists (l, w).
        + pose proof (weight_pos i _ HD HP (Nat.le_refl _) o l w Ho Hin). lia.
        + congruence.
      - unfold TInv. rewrite Hsnoc.
        assert (E1 : forall x, lit_true (model t') x = lit_true (model t) x) by (intros x; unfold lit_true; now rewrite HB).
        rewrite E1, el. split; [|split; [exact H2|split; [|split; [|split; [|split; [|split]]]]]].
        + eapply sat_agree with (U := fun _ => True); [|intros; exact Logic.I|exact H1]. intros u _. symmetry. apply HB.
        + intros x Hx. rewrite HB. now apply H3.
        + rewrite H4. f_equal. clear - E1. induction pre as [|[l' w'] pre IH]; [reflexivity|]. cbn [wsum]. now rewrite E1, IH.
        + intros x Hx. rewrite E1. now apply H5.
        + intros x Hx Hn. rewrite E1. now apply H6.
        + intros e. destruct (H7 e) as [G1 G2]. split; [exact G1|]. intros u. rewrite HB. apply G2.
        + congruence.
    Qed.
  End Obj.

  Lemma cost_of_model o m : In o os -> sol_cost o (sol_of m v) = icost o m.
  Proof.
    intros Ho. apply sol_cost_rep with (n := v); [|exists v; split; [lia|reflexivity]].
    intros u Hu. apply in_map_iff in Hu. destruct Hu as (l & <- & Hl). apply olit_low. apply olit_iff. eauto.
  Qed.

  Lemma one_ok idx o t : nth_error os idx = Some o -> sat (model t) cls ->
    exists t', get_cost_tight O os tg idx t (sol_of (model t) v) = Some (t', sol_of (model t') v, icost o (model t')) /\
      sat (model t') cls /\
      (forall l, olit l -> lit_true (model t') l = true -> lit_true (model t) l = true) /\
      (forall l, olit l -> ~ In l (map fst (obj_iter o)) -> lit_true (model t') l = lit_true (model t) l) /\
      (tg = false -> t' = t).
  Proof.
    intros Hidx Hs. pose proof (nth_error_In _ _ Hidx) as Ho. unfold get_cost_tight. rewrite Hidx.
    assert (H0 : TInv o t [] (t, sol_of (model t) v, 0, 0)).
    { split; [exact Hs|]. split; [apply sol_of_length|]. split; [intros l Hl; apply sol_of_nth, olit_low, Hl|].
      split; [reflexivity|]. split; [auto|]. split; [auto|]. split; auto. }
    pose proof (loop_inv o t Ho (obj_iter o) [] _ eq_refl H0) as G. cbn [app] in G.
    destruct (tight_loop O os tg (obj_iter o) _) as [[[t' sol'] cost] red].
    destruct G as (G1 & G2 & G3 & G4 & G5 & G6 & G7 & G8). exists t'.
    destruct (red =? 0) eqn:er.
    - apply Nat.eqb_eq in er. destruct (G7 er) as [-> K]. split; [|split; [exact G1|split; [exact G5|split; [exact G6|apply G8]]]].
      rewrite (sol_of_ext (model t) (model t')) by (intros u _; symmetry; apply K). now rewrite G4.
    - rewrite G2, (cost_of_model o _ Ho). rewrite G4. change (icost o (model t')) with (wsum (model t') (obj_iter o)).
      rewrite Nat.eqb_refl. split; [reflexivity|]. split; [exact G1|]. split; [exact G5|]. split; [exact G6|]. apply G8.
  Qed.

  Lemma icost_mono o a b : In o os -> (forall l, olit l -> lit_true a l = true -> lit_true b l = true) -> icost o a <= icost o b.
  Proof.
    intros Ho H. unfold icost. assert (G : forall l, In l (map fst (obj_iter o)) -> olit l) by (intros; apply olit_iff; eauto).
    revert G. induction (obj_iter o) as [|[l w] ls IH]; intros G; [cbn; lia|]. cbn [wsum].
    specialize (IH (fun x Hx => G x (or_intror Hx))). specialize (H l (G l (or_introl eq_refl))).
    destruct (lit_true a l); [rewrite H by reflexivity|]; lia.
  Qed.

  Lemma all_ok : forall n idx t, length os = idx + n -> sat (model t) cls ->
    exists t' cs, get_costs_tight O os tg n idx t (sol_of (model t) v) = Some (t', sol_of (model t') v, cs) /\
      sat (model t') cls /\
      (forall l, olit l -> lit_true (model t') l = true -> lit_true (model t) l = true) /\
      Forall2 le (ic (skipn idx os) (model t')) cs /\ Forall2 le cs (ic (skipn idx os) (model t)) /\
      (forall l, olit l -> (forall o, In o (skipn idx os) -> ~ In l (map fst (obj_iter o))) ->
         lit_true (model t') l = lit_true (model t) l) /\
      att (fun a => sat a cls) (skipn idx os) cs.
  Proof.
    induction n as [|n IH]; intros idx t Hlen Hs; cbn [get_costs_tight].
    - exists t, []. rewrite skipn_all2 by lia. split; [reflexivity|]. split; [exact Hs|]. split; [auto|].
      split; [constructor|]. split; [constructor|]. split; [auto|]. split; [reflexivity|]. intros [|k] c o' Hc; discriminate.
    - destruct (nth_error os idx) as [o|] eqn:eo; [|apply nth_error_None in eo; lia].
      assert (Hsk : skipn idx os = o :: skipn (S idx) os).
      { clear - eo. revert idx eo. induction os as [|x l IH]; intros [|idx] eo; try discriminate; cbn in *; [congruence|].
        now apply IH. }
      pose proof (nth_error_In _ _ eo) as Ho.
      destruct (one_ok idx o t eo Hs) as (t1 & -> & S1 & M1 & N1 & _).
      destruct (IH (S idx) t1 ltac:(lia) S1) as (t2 & cs & -> & S2 & M2 & L1 & L2 & N2 & A2 & W2).
      exists t2, (icost o (model t1) :: cs). split; [reflexivity|]. split; [exact S2|]. split; [auto|].
      rewrite Hsk. unfold ic. cbn [map]. fold (ic (skipn (S idx) os)).
      assert (Hmono : Forall2 le (ic (skipn (S idx) os) (model t1)) (ic (skipn (S idx) os) (model t))).
      { assert (G : forall o', In o' (skipn (S idx) os) -> In o' os).
        { intros o' Ho'. rewrite <- (firstn_skipn (S idx) os). apply in_or_app. now right. }
        clear Hsk L1 L2 N2 A2 W2 IH. revert G. unfold ic. induction (skipn (S idx) os) as [|o' l IHl]; intros G; constructor.
        - apply icost_mono; [apply G; now left|exact M1].
        - apply IHl. intros; apply G; now right. }
      split; [|split; [|split; [|split]]].
      + constructor; [now apply icost_mono|exact L1].
      + constructor; [now apply icost_mono|].
        clear - L2 Hmono. unfold ic in *. revert L2 Hmono. generalize (map (fun o => icost o (model t1)) (skipn (S idx) os)) as y.
        generalize (map (fun o => icost o (model t)) (skipn (S idx) os)) as z.
        intros z y H. revert z. induction H; intros z Hz; inversion Hz; subst; constructor; [lia|auto].
      + intros l Hl Hn. rewrite N2; [apply N1; [exact Hl|apply Hn; now left]|exact Hl|].
        intros o' Ho'. apply Hn. now right.
      + cbn [length]. now rewrite A2.
      + intros [|k] c o' Hc Ho'; cbn [nth_error] in Hc, Ho'; [|eauto].
        injection Hc as <-. injection Ho' as <-. eauto.
  Qed.
End Tight.

Section Stale.
  Context {I : enc_impl} (SP : enc_spec I).
  Notation M := (M I).
  Notation st := (st I).
  Variable E : environ.
  Hypothesis HO : oracle_ok E.
  Variable F : asg -> Prop.
  Variable B : nat.

  Notation K := (K SP F).
  Notation keep := (keep SP).

  Lemma wp_enforce_att A S cs (Q : list lit -> st -> Prop) (X : exit -> st -> Prop) s :
    K A S s -> att F (p_objs (s_prob s)) cs ->
    (forall ls s', K A S s' -> keep s s' -> s_lims s' = s_lims s ->
       (forall m, sat m (p_cls (s_prob s')) -> lits_true m ls ->
          vle (ic (p_objs (s_prob s')) m) cs) ->
       (forall m, F m -> Exact SP (s_prob s') m -> vle (ic (p_objs (s_prob s')) m) cs ->
          lits_true m ls) -> Q ls s') ->
    wp (enforce_dominating cs) Q X s.
  Proof.
    intros HK Hcs HQ. unfold enforce_dominating.
    assert (Hlen : length cs = length (p_objs (s_prob s))) by apply Hcs.
    apply wp_bind, wp_gets, wp_bind, wp_guard.
    { apply Nat.eqb_eq. rewrite Hlen. symmetry. apply HK. }
    apply wp_bind. unfold encode_all.
    apply wp_forM with (P := fun pre s' => K A S s' /\ keep s s' /\ s_lims s' = s_lims s /\
      forall j c e, In (j, c) pre -> nth_error (p_encs (s_prob s')) j = Some e ->
        oe_enforce_ub e c <> None).
    - intros pre [i c] post s1 Hl (K1 & K2 & K3 & K4). cbn [fst snd].
      apply enumerate_split in Hl. destruct Hl as (Hi & Hc & Hpre).
      assert (Eos : p_objs (s_prob s1) = p_objs (s_prob s)) by apply (adv_objs _ _ _ (kp_adv _ _ _ K2)).
      destruct (att_nth _ _ _ _ _ Hcs Hc) as (o & a0 & Ho & Ha0 & Hc0). clear Hc. rename Hc0 into Hc.
      rewrite <- Eos in Ho.
      destruct (obj_encoding SP F _ _ _ (inv_wf _ _ _ _ _ (k_inv _ _ _ _ _ K1)) Ho) as [e He].
      eapply wp_extend_encoding; [exact K1|exact He|].
      intros e' s2 G1 G2 G3 G4 G5 G6 G7 G8 G9. split; [exact G1|].
      split; [eapply keep_trans; eauto|]. split; [congruence|].
      intros j d x Hin Hx. apply in_app_or in Hin. destruct Hin as [Hin|[Heq|[]]].
      + destruct (Hpre _ _ Hin) as [Hj _]. rewrite G4, set_nth_other in Hx by lia. eauto.
      + injection Heq as <- <-. assert (x = e') by congruence. subst x. apply G9; [|lia].
        rewrite Hc. eapply (wf_off _ _ _ (inv_wf _ _ _ _ _ (k_inv _ _ _ _ _ K1))); eauto.
    - split; [exact HK|]. split; [apply keep_refl|]. split; [reflexivity|]. intros ? ? ? [].
    - intros s1 (K1 & K2 & K3 & K4).
      assert (Eos : p_objs (s_prob s1) = p_objs (s_prob s)) by apply (adv_objs _ _ _ (kp_adv _ _ _ K2)).
      pose proof (inv_wf _ _ _ _ _ (k_inv _ _ _ _ _ K1)) as W1.
      unfold enforce_all. apply wp_bind.
      apply wp_mapM with (P := fun pre bs s' => s' = s1 /\
        (forall m, sat m (p_cls (s_prob s1)) -> lits_true m (concat bs) ->
           forall i c o, In (i, c) pre -> nth_error (p_objs (s_prob s1)) i = Some o -> icost o m <= c) /\
        (forall m, F m -> Exact SP (s_prob s1) m ->
           (forall i c o, In (i, c) pre -> nth_error (p_objs (s_prob s1)) i = Some o -> icost o m <= c) ->
           lits_true m (concat bs))).
      + intros pre [i c] post bs s' Hl (-> & P1 & P2). cbn [fst snd].
        assert (Hinic : In (i, c) (enumerate cs)) by (rewrite Hl; apply in_or_app; right; now left).
        apply enumerate_split in Hl. destruct Hl as (Hi & Hc & Hpre).
        destruct (att_nth _ _ _ _ _ Hcs Hc) as (o & a0 & Ho & Ha0 & Hc0). clear Hc. rename Hc0 into Hc.
        rewrite <- Eos in Ho.
        destruct (obj_encoding SP F _ _ _ W1 Ho) as [e He].
        apply wp_bind. unfold get_enc. apply wp_bind, wp_gets, (wp_unwrap _ e); [exact He|].
        destruct (oe_enforce_ub e c) as [ls|] eqn:Hls; [|exfalso; eapply K4; eauto].
        apply (wp_unwrap _ ls); [reflexivity|]. split; [reflexivity|].
        rewrite concat_app. cbn [concat]. rewrite app_nil_r. split.
        * intros m Hm Hl j d o' Hin Ho'. apply lits_true_app in Hl. destruct Hl as [Hl1 Hl2].
          apply in_app_or in Hin. destruct Hin as [Hin|[Heq|[]]]; [eapply P1; eauto|].
          injection Heq as <- <-. assert (o' = o) by congruence. subst o'.
          assert (D : {e = EConstant} + {e <> EConstant}).
          { destruct e; [right; discriminate|right; discriminate|left; reflexivity]. }
          destruct D as [->|D].
          -- rewrite Hc. apply Nat.eq_le_incl.
             apply (wf_const _ _ _ W1 i o m a0 Ho He).
             ++ apply (inv_AF _ _ _ _ _ (k_inv _ _ _ _ _ K1)), (inv_sound _ _ _ _ _ (k_inv _ _ _ _ _ K1)), Hm.
             ++ exact Ha0.
          -- eapply enforce_sound; eauto.
        * intros m Hm Hx Hle. apply lits_true_app. split.
          -- apply P2; auto. intros j d o' Hin. apply Hle. apply in_or_app; now left.
          -- eapply enforce_complete; eauto. apply (Hle i c o); auto. apply in_or_app; right; now left.
      + split; [reflexivity|]. split; [intros ? ? ? ? ? ? []|]. intros. apply lits_true_nil.
      + intros bs s' (-> & P1 & P2). apply wp_ret. apply HQ; auto.
        * intros m Hm Hl. apply vle_nth. split; [rewrite ic_length; congruence|].
          intros i x y Hx Hy. apply ic_nth_inv in Hx. destruct Hx as (o & Ho & ->).
          eapply P1; eauto. now apply enumerate_in.
        * intros m Hm Hx Hle. apply P2; auto. intros i c o Hin Ho.
          apply vle_nth in Hle. destruct Hle as [_ Hle].
          apply (Hle i); [now apply ic_nth|].
          apply in_split in Hin. destruct Hin as (l1 & l2 & Hin).
          apply enumerate_split in Hin. destruct Hin as (_ & Hin & _). exact Hin.
  Qed.

  Lemma wp_block_clause_att A S cs (Q : clause -> st -> Prop) (X : exit -> st -> Prop) s :
    K A S s -> att A (p_objs (s_prob s)) cs ->
    (forall cl s', keep s s' -> s_lims s' = s_lims s ->
       K A (fun m => S m /\ (ndom (p_objs (s_prob s)) cs m -> clause_true m cl = true)) s' ->
       (forall v, In v (lits_vars cl) -> live SP (s_prob s') v) ->
       (forall m, sat m (p_cls (s_prob s')) -> clause_true m cl = true ->
          ndom (p_objs (s_prob s)) cs m) ->
       Q cl s') ->
    wp (dominated_block_clause cs) Q X s.
  Proof.
    intros HK Hcs HQ. unfold dominated_block_clause.
    set (os := p_objs (s_prob s)) in *.
    assert (Hlen : length cs = length os) by apply Hcs.
    apply wp_bind, wp_gets, wp_bind, wp_guard.
    { apply Nat.eqb_eq. rewrite Hlen. symmetry. apply (wf_len _ _ _ (inv_wf _ _ _ _ _ (k_inv _ _ _ _ _ HK))). }
    apply wp_bind.
    apply wp_mapM with (P := fun pre bs s' => keep s s' /\ s_lims s' = s_lims s /\
      K A (fun m => S m /\ forall i c o, In (i, c) pre -> nth_error os i = Some o ->
             icost o m < c -> clause_true m (concat bs) = true) s' /\
      (forall v, In v (lits_vars (concat bs)) -> live SP (s_prob s') v) /\
      (forall m, sat m (p_cls (s_prob s')) -> clause_true m (concat bs) = true ->
         exists i c o, In (i, c) pre /\ nth_error os i = Some o /\ icost o m < c)).
    - intros pre [i c] post bs s1 Hl (Hk1 & L1 & K1 & V1 & S1).
      apply enumerate_split in Hl. destruct Hl as (Hi & Hc & Hpre).
      destruct (att_nth _ _ _ _ _ Hcs Hc) as (o & a0 & Ho & Ha0 & Hc0). clear Hc. rename Hc0 into Hc.
      assert (Eos : p_objs (s_prob s1) = os) by apply (adv_objs _ _ _ (kp_adv _ _ _ Hk1)).
      eapply (wp_block_lits SP F _ _ a0 i c o); [exact K1|exact Ha0|rewrite Eos; exact Ho|congruence|].
      intros cl s2 Hk2 L2 K2 V2 S2.
      split; [eapply keep_trans; eauto|]. split; [congruence|].
      assert (Ecc : concat (bs ++ [cl : list lit]) = concat bs ++ cl).
      { rewrite concat_app. cbn. now rewrite app_nil_r. }
      rewrite Ecc.
      assert (V1' : forall v, In v (lits_vars (concat bs)) -> live SP (s_prob s2) v).
      { intros v Hv. apply (ext_live _ _ _ (ad_ext _ _ _ (kp_adv _ _ _ Hk2))); auto. }
      assert (V12 : forall v, In v (lits_vars (concat bs ++ cl)) -> live SP (s_prob s2) v).
      { intros v Hv. rewrite lits_vars_app in Hv. apply in_app_or in Hv. destruct Hv; auto. }
      split; [|split; [exact V12|]].
      + constructor; try apply K2. pose proof (k_inv _ _ _ _ _ K2) as HI2.
        pose proof (inv_wf _ _ _ _ _ HI2) as W2.
        eapply inv_weaken; [exact HI2| |].
        * intros m Hm Hs Hx [[HS H1] H2]. split; [exact HS|].
          intros j d o' Hin Ho' Hlt. rewrite clause_true_app. apply orb_true_iff.
          apply in_app_or in Hin. destruct Hin as [Hin|[Heq|[]]]; [left; eauto|].
          injection Heq as <- <-. right. apply H2. congruence.
        * intros m m' Hmm [HS H1]. split.
          -- eapply (inv_Scl _ _ _ _ _ (k_inv _ _ _ _ _ HK)); [|exact HS].
             eapply agree_mono; [|exact Hmm].
             apply (ext_live _ _ _ (ad_ext _ _ _ (kp_adv _ _ _ (keep_trans _ _ _ _ Hk1 Hk2)))).
          -- intros j d o' Hin Ho' Hlt.
             rewrite <- (clause_true_agree (live SP (s_prob s2)) m m' _ Hmm V12).
             eapply H1; eauto. erewrite (icost_agree SP F (s_prob s2)); eauto.
             ++ rewrite (adv_objs _ _ _ (kp_adv _ _ _ Hk2)), Eos. eapply nth_error_In; eauto.
             ++ eapply low_live_agree; eauto.
      + intros m Hm Hcl. rewrite clause_true_app in Hcl. apply orb_true_iff in Hcl.
        destruct Hcl as [Hcl|Hcl].
        * destruct (S1 m) as (j & d & o' & H1 & H2 & H3); [|exact Hcl|].
          -- eapply ext_sat; [apply (ad_ext _ _ _ (kp_adv _ _ _ Hk2))|exact Hm].
          -- exists j, d, o'. repeat split; auto. apply in_or_app; now left.
        * exists i, c, o. repeat split; auto. apply in_or_app; right; now left.
    - split; [apply keep_refl|]. split; [reflexivity|]. split; [|split].
      + constructor; try apply HK. eapply inv_weaken; [apply HK| |].
        * intros m _ _ _ HS. split; [exact HS|]. intros ? ? ? [].
        * intros m m' Hmm [HS H1]. split; [eapply (inv_Scl _ _ _ _ _ (k_inv _ _ _ _ _ HK)); eauto|].
          intros ? ? ? [].
      + intros v [].
      + intros m _ Hf. discriminate.
    - intros bs s1 (Hk1 & L1 & K1 & V1 & S1). apply wp_ret. apply HQ; auto.
      + constructor; try apply K1. pose proof (k_inv _ _ _ _ _ K1) as HI1.
        pose proof (inv_wf _ _ _ _ _ HI1) as W1.
        assert (Eos : p_objs (s_prob s1) = os) by apply (adv_objs _ _ _ (kp_adv _ _ _ Hk1)).
        eapply inv_weaken; [exact HI1| |].
        * intros m Hm Hs Hx [HS H1]. split; [exact HS|]. intros Hnd.
          destruct (not_vle_ex cs (ic os m)) as (i & x & y & N1 & N2 & N3);
            [rewrite ic_length; exact Hlen|exact Hnd|].
          apply ic_nth_inv in N2. destruct N2 as (o & Ho & ->).
          apply (H1 i x o); auto. now apply enumerate_in.
        * intros m m' Hmm [HS H1]. split.
          -- eapply (inv_Scl _ _ _ _ _ (k_inv _ _ _ _ _ HK)); [|exact HS].
             eapply agree_mono; [|exact Hmm].
             apply (ext_live _ _ _ (ad_ext _ _ _ (kp_adv _ _ _ Hk1))).
          -- intros Hnd. rewrite <- (clause_true_agree (live SP (s_prob s1)) m m' _ Hmm V1).
             apply H1. unfold ndom in *. rewrite <- Eos in *.
             rewrite (ic_agree SP F (s_prob s1) m m' W1); [exact Hnd|]. eapply low_live_agree; eauto.
      + intros m Hm Hcl Hle. destruct (S1 m Hm Hcl) as (i & c & o & H1 & H2 & H3).
        apply vle_nth in Hle. destruct Hle as [_ Hle].
        apply in_split in H1. destruct H1 as (l1 & l2 & H1). apply enumerate_split in H1.
        destruct H1 as (_ & H1 & _).
        specialize (Hle i c (icost o m) H1 (ic_nth _ _ _ _ H2)). lia.
  Qed.

  Lemma wp_tmp_block_att A S cs (Q : lit -> st -> Prop) (X : exit -> st -> Prop) s :
    K A S s -> att A (p_objs (s_prob s)) cs ->
    (forall b s', keep s s' -> s_lims s' = s_lims s ->
       K A (fun m => S m /\ (ndom (p_objs (s_prob s)) cs m -> lit_true m b = true)) s' ->
       live SP (s_prob s') (lvar b) ->
       (forall m, sat m (p_cls (s_prob s')) -> lit_true m b = true ->
          ndom (p_objs (s_prob s)) cs m) ->
       Q b s') ->
    wp (tmp_block_dominated cs) Q X s.
  Proof.
    intros HK Hcs HQ. unfold tmp_block_dominated.
    set (os := p_objs (s_prob s)) in *.
    apply wp_bind, wp_gets, wp_bind, wp_guard.
    { apply Nat.eqb_eq. rewrite (proj1 Hcs). symmetry. apply HK. }
    apply wp_bind. eapply wp_block_clause_att; [exact HK|exact Hcs|].
    intros cl s1 Hk1 L1 K1 V1 S1. fold os in K1, S1.
    apply wp_bind. eapply (wp_new_var SP F _ _ (fun m => negb (clause_true m cl))); [exact K1| |].
    { intros a b Hab. f_equal. eapply clause_true_agree; [exact Hab|exact V1]. }
    intros v s2 Hv K2 Hk2 L2 Lv1 Lv2 Ee2 Ec2.
    assert (Eos2 : p_objs (s_prob s2) = os).
    { rewrite (adv_objs _ _ _ (kp_adv _ _ _ Hk2)). apply (adv_objs _ _ _ (kp_adv _ _ _ Hk1)). }
    apply wp_bind. eapply (wp_add_clause SP F _ _ A); [exact K2| |auto| | | |].
    - intros w Hw. rewrite lits_vars_app in Hw. apply in_app_or in Hw. destruct Hw as [Hw|[<-|[]]].
      + apply (ext_live _ _ _ (ad_ext _ _ _ (kp_adv _ _ _ Hk2))). auto.
      + exact Lv1.
    - apply (inv_Acl _ _ _ _ _ (k_inv _ _ _ _ _ K2)).
    - intros m Hm _. apply (inv_sound _ _ _ _ _ (k_inv _ _ _ _ _ K2)), Hm.
    - intros m Hm Hs Hx [_ Hd]. rewrite clause_true_app. unfold clause_true at 2. cbn [existsb].
      rewrite lit_true_pos, Hd, orb_false_r. destruct (clause_true m cl); reflexivity.
    - intros s3 K3 Hk3 L3 Ee3 Ec3. apply wp_ret.
      pose proof (keep_trans _ _ _ _ Hk1 (keep_trans _ _ _ _ Hk2 Hk3)) as Hk03.
      assert (Eos3 : p_objs (s_prob s3) = os).
      { rewrite (adv_objs _ _ _ (kp_adv _ _ _ Hk3)). exact Eos2. }
      pose proof (k_inv _ _ _ _ _ K3) as HI3. pose proof (inv_wf _ _ _ _ _ HI3) as W3.
      assert (Lv3 : live SP (s_prob s3) v)
        by (apply (ext_live _ _ _ (ad_ext _ _ _ (kp_adv _ _ _ Hk3))), Lv1).
      apply HQ; [exact Hk03|congruence| |exact Lv3|].
      + constructor; try apply K3. eapply inv_weaken; [exact HI3| |].
        * intros m Hm Hs Hx [[HS H1] Hd]. split; [exact HS|]. intros Hnd.
          rewrite lit_true_neg, Hd. rewrite (H1 Hnd). reflexivity.
        * intros m m' Hmm [HS H1]. split.
          -- eapply (inv_Scl _ _ _ _ _ (k_inv _ _ _ _ _ HK)); [|exact HS].
             eapply agree_mono; [|exact Hmm].
             apply (ext_live _ _ _ (ad_ext _ _ _ (kp_adv _ _ _ Hk03))).
          -- intros Hnd. rewrite <- (lit_true_agree (live SP (s_prob s3)) m m' (neg v) Hmm Lv3).
             apply H1. unfold ndom in *. rewrite <- Eos3 in *.
             rewrite (ic_agree SP F (s_prob s3) m m' W3); [exact Hnd|]. eapply low_live_agree; eauto.
      + intros m Hm Hb. apply S1.
        * eapply ext_sat; [|exact Hm].
          apply (ad_ext _ _ _ (kp_adv _ _ _ (keep_trans _ _ _ _ Hk2 Hk3))).
        * apply Hm in Ec3. rewrite clause_true_app in Ec3. unfold clause_true at 2 in Ec3.
          cbn [existsb] in Ec3. rewrite lit_true_neg in Hb. rewrite lit_true_pos in Ec3.
          apply negb_true_iff in Hb. rewrite Hb in Ec3. cbn in Ec3. now rewrite orb_false_r in Ec3.
  Qed.


  Variables (i : inst) (Fl : flipper) (w : heur_when).
  Hypothesis HPl : plain_objs i.
  Hypothesis HFl : flipper_ok (in_objs i) Fl.

  Lemma ic_iter os os' a : map obj_iter os = map obj_iter os' -> ic os a = ic os' a.
  Proof.
    intros H. unfold ic, icost.
    rewrite <- (map_map obj_iter (wsum a) os), <- (map_map obj_iter (wsum a) os'). now rewrite H.
  Qed.
  Lemma att_iter P os os' cs : map obj_iter os = map obj_iter os' -> att P os cs -> att P os' cs.
  Proof.
    intros H [H1 H2]. split; [rewrite H1, <- (map_length obj_iter os), H; apply map_length|].
    intros j c o Hc Ho. assert (G : option_map obj_iter (nth_error os j) = option_map obj_iter (nth_error os' j)) by (now rewrite <- !nth_error_map, H).
    rewrite Ho in G. destruct (nth_error os j) as [o'|] eqn:e; [|discriminate]. injection G as G.
    destruct (H2 j c o' Hc e) as (a & Ha & Hac). exists a. split; [exact Ha|]. unfold icost in *. now rewrite <- G.
  Qed.

  Lemma vsum_le c d : vle c d -> list_sum c <= list_sum d.
  Proof. unfold vle. induction 1; cbn; [lia|]. change (fold_right Nat.add 0) with list_sum. lia. Qed.

  (** ** The solution and the costs of a model *)
  Lemma wp_sol_costs_t tg q A S m (Q : list nat * assignment -> st -> Prop) (X : exit -> st -> Prop) s :
    K A S s -> s_ora s = OModel m ->
    map obj_iter (p_objs (s_prob s)) = map obj_iter (build_objs 0 (in_objs i)) ->
    sat m (q_cls q) -> lits_true m (q_assumps q) ->
    (forall cs sol mf s', solved s s' -> s_lims s' = s_lims s ->
       sat mf (q_cls q) -> lits_true mf (q_assumps q) ->
       sol_rep (vm_max_enc (p_vm (s_prob s))) mf sol ->
       vle (ic (p_objs (s_prob s)) mf) cs -> vle cs (ic (p_objs (s_prob s)) m) ->
       att (fun a => sat a (q_cls q) /\ lits_true a (q_assumps q)) (p_objs (s_prob s)) cs ->
       Q (cs, sol) s') ->
    wp (sol_costs_t Fl tg q) Q X s.
  Proof.
    intros HK Ho Hos Hm1 Hm2 HQ. destruct tg; cbn [sol_costs_t].
    2:{ eapply wp_get_solution_and_internal_costs; [exact HK|exact Ho|]. intros sol Hsol.
        apply (HQ _ _ m); auto using solved_refl, vle_refl. now apply att_ic. }
    destruct (K_next _ _ _ _ _ HK) as [Hn1 Hn2].
    apply wp_bind, wp_gets, wp_bind, (wp_unwrap _ (vm_next (p_vm (s_prob s)) - 1)).
    { unfold vm_max_var. destruct (vm_next (p_vm (s_prob s))); [lia|]. f_equal. lia. }
    apply wp_bind, wp_gets. rewrite Ho. apply wp_bind, wp_gets, wp_bind, wp_gets, wp_bind, wp_guard.
    { apply Nat.eqb_eq. symmetry. apply HK. }
    set (v := vm_next (p_vm (s_prob s)) - 1) in *.
    pose proof (inv_wf _ _ _ _ _ (k_inv _ _ _ _ _ HK)) as W.
    assert (Hlow : forall l, olit i l -> lvar l <= v).
    { intros l Hl. apply olit_iff in Hl. destruct Hl as (o & H1 & H2).
      assert (G : In (obj_iter o) (map obj_iter (p_objs (s_prob s)))) by (rewrite Hos; now apply in_map).
      apply in_map_iff in G. destruct G as (o' & G1 & G2).
      assert (L : low (s_prob s) (lvar l)); [|unfold low in L; lia]. apply (wf_objs _ _ _ W o'); [exact G2|]. rewrite G1.
      unfold lits_vars. now apply in_map. }
    destruct HFl as [F1 F2]. destruct HPl as [P1 P2].
    assert (Hq : sat (ora_model (fl_oracle Fl q) (fl_start Fl q m)) (q_cls q ++ map (fun l => [l]) (q_assumps q))).
    { rewrite F2. apply query_clauses. auto. }
    assert (L : length (p_objs (s_prob s)) = length (build_objs 0 (in_objs i))).
    { rewrite <- (map_length obj_iter (p_objs _)), Hos. apply map_length. }
    destruct (all_ok (fl_oracle Fl q) i _ v P2 P1 (F1 q) Hlow (length (p_objs (s_prob s))) 0 _ (eq_sym L) Hq)
      as (t' & cs & G1 & G2 & _ & G4 & G5 & _ & G7).
    cbn [skipn] in G4, G5, G7. rewrite F2 in G5.
    rewrite <- (ic_iter _ _ _ Hos) in G4. rewrite <- (ic_iter _ _ _ Hos) in G5. apply (att_iter _ _ _ _ (eq_sym Hos)) in G7.
    apply query_clauses in G2. destruct G2 as [G2 G3].
    apply wp_bind, (wp_unwrap _ (t', cs, sol_of (ora_model (fl_oracle Fl q) t') v)).
    { unfold solution_and_costs_tight. rewrite (costs_cong _ _ _ true Hos), G1. reflexivity. }
    apply wp_bind, wp_modify, wp_ret.
    apply (HQ _ _ (ora_model (fl_oracle Fl q) t')); auto.
    - constructor; [constructor|]; reflexivity.
    - exists v. split; [exact Hn1|reflexivity].
    - eapply att_mono; [|exact G7]. intros a Ha. now apply query_clauses.
  Qed.

  Section PMinRun.
    Variables (D : list (list nat)) (s0 : st).
    Let os := p_objs (s_prob s0).
    Let mo := vm_max_orig (p_vm (s_prob s0)).
    Let me := vm_max_enc (p_vm (s_prob s0)).
    Let o := s_opts s0.
    Hypothesis HS : Stat F B os mo o.

    Hypothesis Hos : map obj_iter os = map obj_iter (build_objs 0 (in_objs i)).
    Notation PQ := (PQ SP F D s0).
    Notation PX := (PX SP E F B D s0).
    Notation swS := (swS s0).
    Notation swOK := (swOK SP s0).

    (** as [PI] of PMin.v, with a stale cost vector *)
    Definition PIs (x : pmin_state) (s : st) : Prop :=
      let '(cs, sol, sw) := x in
      keep s0 s /\ (o_enum o = NoEnum -> sw = None) /\
      exists m ch prev, sol_rep me m sol /\ vle (ic os m) cs /\
        att (bk F os (D ++ ch ++ swpend sw prev)) os cs /\
        bk F os (D ++ ch ++ swpend sw prev) m /\
        (forall d, In d (ch ++ swpend sw prev) -> vle cs d) /\
        K (bk F os (D ++ ch)) (swS sw prev) s /\ swOK sw prev s.

    Lemma pmin_body_t_ok x s : PIs x s ->
      wp (pmin_body_t E Fl w [] x)
         (fun r s' => match r with
            | inl x' => PIs x' s' /\ list_sum (fst (fst x')) < list_sum (fst (fst x))
            | inr x' => PQ x' s' end) PX s.
    Proof.
      destruct x as [[cs sol] sw]. intros (Hk & Hno & m & ch & prev & Hrep & Hcs & Hatt & Hm & Hch & HK & Hsw).
      unfold pmin_body_t. apply wp_bind, wp_gets.
      assert (Eo : s_opts s = o) by apply (ad_opts _ _ _ (kp_adv _ _ _ Hk)). rewrite Eo.
      assert (Eos : p_objs (s_prob s) = os) by apply (adv_objs _ _ _ (kp_adv _ _ _ Hk)).
      assert (HF : F m) by apply Hm.
      (* block the current candidate *)
      apply wp_bind.
      set (Mid := fun (sw' : option lit) (s1 : st) =>
        keep s0 s1 /\ (if sw' then o_enum o <> NoEnum else o_enum o = NoEnum) /\
        exists ch1, (forall d, In d ch1 -> vle cs d) /\
          K (bk F os (D ++ ch1)) (swS sw' cs) s1 /\ swOK sw' cs s1 /\
          (if sw' then True else In cs ch1) /\ (ndom os cs m \/ sw' <> None -> bk F os (D ++ ch1) m)).
      assert (HMid : wp match o_enum o with
             | NoEnum => c <- dominated_block_clause cs;; (add_clause c;;; ret sw)
             | _ => match sw with Some b => add_clause [b] | None => ret tt end;;;
                    (b <- tmp_block_dominated cs;; ret (Some b))
             end Mid PX s).
      { assert (Henum : o_enum o <> NoEnum ->
          wp (match sw with Some b => add_clause [b] | None => ret tt end;;;
                    (b <- tmp_block_dominated cs;; ret (Some b))) Mid PX s).
        { intros Hen. apply wp_bind. eapply (wp_settle SP F D s0 sw prev ch); [left; exact Hk|exact HK|exact Hsw|tauto|].
          intros s1 Hk1 L1 K1. apply wp_bind.
          assert (Eos1 : p_objs (s_prob s1) = os) by (rewrite (adv_objs _ _ _ (kp_adv _ _ _ Hk1)); exact Eos).
          eapply wp_tmp_block_att; [exact K1|rewrite Eos1; exact Hatt|].
          intros b s2 Hk2 L2 K2 V2 S2. rewrite Eos1 in K2, S2. apply wp_ret.
          split; [eapply keep_trans; [exact Hk|eapply keep_trans; eauto]|]. split; [exact Hen|].
          exists (ch ++ swpend sw prev). split; [exact Hch|].
          split; [|split; [|split; [exact Logic.I|intros _; exact Hm]]].
          - constructor; try apply K2. eapply inv_weaken; [apply K2| |].
            + intros m' _ _ _ [_ H]. exact H.
            + intros a a' Haa H Hnd. destruct (inv_Scl _ _ _ _ _ (k_inv _ _ _ _ _ K2) a a' Haa) as [_ G]; auto.
          - split; [exact V2|exact S2]. }
        destruct (o_enum o) eqn:Heo; [|apply Henum; discriminate|apply Henum; discriminate].
        rewrite (Hno eq_refl) in *. cbn [swpend] in *. rewrite app_nil_r in Hm, Hch, Hatt.
        apply wp_bind. eapply wp_block_clause_att; [exact HK|rewrite Eos; exact Hatt|].
        intros cl s1 Hk1 L1 K1 V1 S1. rewrite Eos in K1, S1.
        apply wp_bind. eapply (wp_add_clause SP F _ _ (bk F os (D ++ ch ++ [cs]))); [exact K1|exact V1| | | | |].
        - intros a. rewrite app_assoc, (bk_app F). tauto.
        - intros a a' Haa. pose proof (inv_wf _ _ _ _ _ (k_inv _ _ _ _ _ K1)) as W1.
          assert (Eos1 : p_objs (s_prob s1) = os) by (rewrite (adv_objs _ _ _ (kp_adv _ _ _ Hk1)); exact Eos).
          rewrite <- Eos1. now apply (bk_agree SP F).
        - intros m' Hm' Hc. rewrite app_assoc, (bk_app F). split.
          + apply (inv_sound _ _ _ _ _ (k_inv _ _ _ _ _ K1)), Hm'.
          + intros d [<-|[]]. now apply S1.
        - intros m' Hm' _ _ [_ H]. rewrite app_assoc, (bk_app F) in Hm'. apply H, Hm'. now left.
        - intros s2 K2 Hk2 L2 Ee2 Ec2. apply wp_ret.
          split; [eapply keep_trans; [exact Hk|eapply keep_trans; eauto]|]. split; [reflexivity|].
          exists (ch ++ [cs]). split; [|split; [eapply K_top; eauto|split; [exact Logic.I|split]]].
          + intros d Hd. apply in_app_or in Hd. destruct Hd as [Hd|[<-|[]]]; [now apply Hch|apply vle_refl].
          + apply in_or_app. right. now left.
          + intros [Hnd|Hf]; [|congruence]. rewrite app_assoc, (bk_app F). split; [exact Hm|].
            intros d [<-|[]]. exact Hnd. }
      eapply wp_mono; [exact HMid| |auto]. clear HMid.
      intros sw' s1 (Hk1 & Hen1 & ch1 & Hch1 & K1 & Hsw1 & Hin1 & Hm1). unfold Mid in *. clear Mid.
      assert (Eos1 : p_objs (s_prob s1) = os) by apply (adv_objs _ _ _ (kp_adv _ _ _ Hk1)).
      apply wp_bind. eapply wp_enforce_att; [exact K1|rewrite Eos1; eapply att_mono; [|exact Hatt]; intros a Ha; apply Ha|].
      intros ls s2 K2 Hk2 L2 S2 C2. rewrite (adv_objs _ _ _ (kp_adv _ _ _ Hk2)), Eos1 in S2, C2.
      pose proof (keep_trans _ _ _ _ Hk1 Hk2) as Hk02.
      assert (Hsw2 : swOK sw' cs s2) by (eapply (swOK_ext SP s0); [exact Hsw1|apply (ad_ext _ _ _ (kp_adv _ _ _ Hk2))]).
      assert (Eos2 : p_objs (s_prob s2) = os) by apply (adv_objs _ _ _ (kp_adv _ _ _ Hk02)).
      assert (HPX : forall x s', xok E B x -> solved s2 s' -> PX x s').
      { intros x s' Hx Hs. eapply (PX_keep SP E F B D s0); [exact Hx|exact Hk02|apply solved_keep, Hs|apply Hs|].
        intros _. exact K2. }
      set (blit := match o_enum o with
                   | NoEnum => []
                   | _ => match sw' with Some b => [b] | None => [] end
                   end).
      assert (Hblit : blit = match sw' with Some b => [b] | None => [] end).
      { unfold blit. destruct sw'; [|now rewrite Hen1]. destruct (o_enum o); congruence. }
      cbn [app]. unfold this_query. apply wp_bind, wp_gets, wp_bind, wp_k_solve_assumps; [exact HO|apply K2| | |].
      - (* a better solution *)
        intros m' s3 V3 L3 O3 Hm' Hl'.
        apply lits_true_app in Hl'. destruct Hl' as [Hb' Hl'].
        pose proof (K_solved _ _ _ _ _ _ V3 L3 K2) as K3.
        apply wp_bind, wp_check_termination; [exact L3| |].
        2:{ intros x s4 Q4 G4. apply HPX; [now apply good_xok|].
            eapply solved_trans; [exact V3|apply quiet_solved, Q4]. }
        intros s4 Q4 L4. pose proof (K_quiet _ _ _ _ _ _ Q4 L4 K3) as K4.
        pose proof (solved_trans _ _ _ V3 (quiet_solved _ _ Q4)) as V4.
        apply wp_bind. eapply (wp_sol_costs_t _ _ _ _ m');
          [exact K4|rewrite (qt_ora _ _ Q4); exact O3|rewrite (sv_prob _ _ V4), Eos2; exact Hos|exact Hm'|cbn [q_assumps]; apply lits_true_app; split; assumption|].
        cbn [q_cls q_assumps]. intros cs' sol' mf s4b V4b L4b Hmf Hlf Hrep' Hlf1 Hlf2 Hattf. rewrite (sv_prob _ _ V4) in *. rewrite Eos2 in Hlf1, Hlf2, Hattf.
        assert (L4' : lims_ok s4b) by (unfold lims_ok in *; rewrite L4b; exact L4).
        pose proof (K_solved _ _ _ _ _ _ V4b L4' K4) as K4'. pose proof (solved_trans _ _ _ V4 V4b) as V4'.
        clear Q4 L4 K4 V4 V4b L4b. rename K4' into K4, V4' into V4, L4' into L4.
        apply wp_bind, wp_log_candidate; [exact L4| | |].
        { rewrite (proj1 Hattf). rewrite (k_nobjs _ _ _ _ _ K4), (sv_prob _ _ V4), Eos2. reflexivity. }
        2:{ intros x s5 Q5 G5. apply HPX; [now apply good_xok|].
            eapply solved_trans; [exact V4|apply quiet_solved, Q5]. }
        intros s5 Q5 L5. pose proof (K_quiet _ _ _ _ _ _ Q5 L5 K4) as K5.
        pose proof (solved_trans _ _ _ V4 (quiet_solved _ _ Q5)) as V5.
        apply wp_bind, wp_check_termination; [exact L5| |].
        2:{ intros x s6 Q6 G6. apply HPX; [now apply good_xok|].
            eapply solved_trans; [exact V5|apply quiet_solved, Q6]. }
        intros s6 Q6 L6. pose proof (K_quiet _ _ _ _ _ _ Q6 L6 K5) as K6.
        pose proof (solved_trans _ _ _ V5 (quiet_solved _ _ Q6)) as V6.
        apply wp_bind, wp_ret, wp_ret. cbn [fst].
        assert (Hgood : forall a, sat a (p_cls (s_prob s2)) /\ lits_true a (blit ++ ls) ->
          vle (ic os a) cs /\ bk F os (D ++ ch1) a /\ ndom os cs a).
        { intros a [Ha1 Ha2]. apply lits_true_app in Ha2. destruct Ha2 as [Ha2 Ha3].
          assert (Hbk : bk F os (D ++ ch1) a) by (apply (inv_sound _ _ _ _ _ (k_inv _ _ _ _ _ K2)), Ha1).
          split; [now apply S2|]. split; [exact Hbk|]. destruct sw' as [b|].
          - destruct Hsw2 as [_ Hsw2]. apply Hsw2; [exact Ha1|]. apply Ha2. rewrite Hblit. now left.
          - destruct Hbk as [_ Hbk]. apply Hbk. apply in_or_app. now right. }
        assert (Hbk' : forall a, sat a (p_cls (s_prob s2)) /\ lits_true a (blit ++ ls) ->
          bk F os (D ++ ch1 ++ swpend sw' cs) a).
        { intros a Ha. destruct (Hgood a Ha) as (_ & H1 & H2). rewrite app_assoc, (bk_app F). split; [exact H1|].
          intros d Hd. destruct sw'; [|destruct Hd]. destruct Hd as [<-|[]]. exact H2. }
        destruct (Hgood m') as (Hle & _ & Hnd); [split; [exact Hm'|apply lits_true_app; split; assumption]|].
        assert (Hle' : vle cs' cs) by (eapply vle_trans; eassumption).
        split.
        2:{ pose proof (vsum_le _ _ Hlf2). pose proof (vle_sum_lt _ _ Hle Hnd). lia. }
        split; [eapply keep_trans; [exact Hk02|apply solved_keep, V6]|].
        split; [intros Heo; destruct sw' as [b|]; [contradiction|reflexivity]|].
        exists mf, ch1, cs. split; [|split; [exact Hlf1|split; [|split; [|split; [|split; [exact K6|]]]]]].
        + destruct Hrep' as (v & Hv & ->). exists v. split; [|reflexivity].
          rewrite (ext_enc _ _ _ (ad_ext _ _ _ (kp_adv _ _ _ Hk02))) in Hv. exact Hv.
        + eapply att_mono; [exact Hbk'|exact Hattf].
        + apply Hbk'. auto.
        + intros d Hd. eapply vle_trans; [exact Hle'|]. apply in_app_or in Hd.
          destruct Hd as [Hd|Hd]; [now apply Hch1|]. destruct sw'; [|destruct Hd].
          destruct Hd as [<-|[]]. apply vle_refl.
        + eapply (swOK_ext SP s0); [exact Hsw2|]. rewrite (sv_prob _ _ V6). apply ext_refl.
      - (* the candidate is minimal *)
        intros core s3 V3 L3 O3 Hcore Hent.
        pose proof (K_solved _ _ _ _ _ _ V3 L3 K2) as K3.
        apply wp_bind, wp_log_end; [exact L3| |].
        2:{ intros x s4 Q4 G4. apply HPX; [now apply good_xok|].
            eapply solved_trans; [exact V3|apply quiet_solved, Q4]. }
        intros s4 Q4 L4. pose proof (K_quiet _ _ _ _ _ _ Q4 L4 K3) as K4.
        pose proof (solved_trans _ _ _ V3 (quiet_solved _ _ Q4)) as V4.
        apply wp_ret.
        split; [eapply keep_trans; [exact Hk02|apply solved_keep, V4]|].
        assert (Hmin : forall a, bk F os (D ++ ch1) a -> vle (ic os a) cs -> vle cs (ic os a)).
        { intros a Ha Hle. destruct (vle_dec cs (ic os a)) as [Hd|Hd]; [exact Hd|]. exfalso.
          destruct (inv_comp _ _ _ _ _ (k_inv _ _ _ _ _ K2) a Ha) as (m2 & G1 & G2 & G3 & G4).
          assert (Eic : ic os a = ic os m2).
          { rewrite <- Eos2. apply (ic_agree SP F _ _ _ (inv_wf _ _ _ _ _ (k_inv _ _ _ _ _ K2)) G1). }
          specialize (Hent m2 G2). apply clause_true_iff in Hent.
          destruct Hent as (l & Hl1 & Hl2). apply Hcore in Hl1.
          assert (Ht : lits_true m2 (blit ++ ls)).
          { apply lits_true_app. split.
            - rewrite Hblit. destruct sw' as [b|]; [|apply lits_true_nil].
              intros l' [<-|[]]. apply G4. change (ndom os cs m2). unfold ndom. rewrite <- Eic. exact Hd.
            - apply C2; [| exact G3 | rewrite <- Eic; exact Hle].
              apply (inv_AF _ _ _ _ _ (k_inv _ _ _ _ _ K2)), (inv_sound _ _ _ _ _ (k_inv _ _ _ _ _ K2)), G2. }
          apply Ht in Hl1. rewrite lit_true_lnot, Hl2 in Hl1. discriminate. }
        assert (Ecs : cs = ic os m).
        { apply vle_antisym; [|exact Hcs]. destruct (vle_dec cs (ic os m)) as [Hd|Hd]; [exact Hd|].
          apply Hmin; [|exact Hcs]. apply Hm1. left. exact Hd. }
        exists m, ch1. split; [exact Hrep|]. split; [exact Ecs|].
        split; [rewrite (bk_app F) in Hm; apply Hm|]. split; [exact Hch1|]. split; [exact Hmin|split; [exact K4|split]].
        + eapply (swOK_ext SP s0); [exact Hsw2|]. rewrite (sv_prob _ _ V4). apply ext_refl.
        + destruct sw'; split; try assumption. apply Hm1. right. discriminate.
      - intros x s3 V3 G3. apply HPX; [now apply good_xok|exact V3].
    Qed.

    Lemma p_minimization_t_ok cs sol m s : keep s0 s -> sol_rep me m sol -> bk F os D m ->
      vle (ic os m) cs -> att (bk F os D) os cs -> list_sum cs <= B ->
      K (bk F os D) (fun _ => True) s ->
      wp (p_minimization_t E Fl w cs sol []) PQ PX s.
    Proof.
      intros Hk Hrep Hm Hcs Hatt HB HK. unfold p_minimization_t.
      assert (Eos : p_objs (s_prob s) = os) by apply (adv_objs _ _ _ (kp_adv _ _ _ Hk)).
      assert (HK' : K (bk F os (D ++ [])) (fun _ => True) s) by (rewrite app_nil_r; exact HK).
      apply wp_bind, wp_gets, wp_bind, wp_guard.
      { apply Nat.eqb_eq. rewrite (proj1 Hatt), (k_nobjs _ _ _ _ _ HK). now rewrite Eos. }
      apply wp_bind, wp_log_start; [apply HK| |].
      2:{ intros x s1 Q1 G1. eapply (PX_keep SP E F B D s0) with (s := s) (D' := []);
            [now apply good_xok|exact Hk|apply quiet_keep, Q1|apply Q1|intros _; exact HK']. }
      intros s1 Q1 L1.
      apply wp_loop with (Inv := PIs) (mu := fun x _ => list_sum (fst (fst x))).
      - apply pmin_body_t_ok.
      - split; [eapply keep_trans; [exact Hk|apply quiet_keep, Q1]|]. split; [auto|].
        exists m, [], []. split; [exact Hrep|]. split; [exact Hcs|]. cbn [swpend app].
        rewrite app_nil_r. split; [exact Hatt|]. split; [exact Hm|]. split; [intros ? []|].
        split; [|exact Logic.I]. apply (K_quiet _ _ _ _ _ _ Q1 L1 HK).
      - intros [[cs' sol'] sw'] s' (Hk' & Hno & m' & ch & prev & _ & _ & _ & _ & _ & K' & _) Hle.
        cbn [fst] in Hle. eapply (PX_keep SP E F B D s0) with (s := s') (D' := ch); auto using keep_refl.
        + right. split; [reflexivity|]. lia.
        + intros _. exact K'.
    Qed.
  End PMinRun.
End Stale.
