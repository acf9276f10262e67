(** * Correctness of P-minimization and of the shared step of P-minimal and LowerBounding *)
From Coq Require Import List Bool Arith Lia ZArith.
From Verif Require Import Base BaseLemmas MTypes MKernel MPMinimal EncSpec Wp Sem Kern Yield.
Import ListNotations.

Lemma enumerate_split {A} (l : list A) pre i c post :
  enumerate l = pre ++ (i, c) :: post ->
  i = length pre /\ nth_error l i = Some c /\
  forall j d, In (j, d) pre -> j < i /\ nth_error l j = Some d.
Proof.
  unfold enumerate. intros H.
  assert (G : forall k j d, nth_error (combine (seq 0 (length l)) l) k = Some (j, d) ->
            j = k /\ nth_error l k = Some d).
  { clear. assert (G : forall (l : list A) b k j d,
      nth_error (combine (seq b (length l)) l) k = Some (j, d) -> j = b + k /\ nth_error l k = Some d).
    { induction l0 as [|x l0 IH]; intros b [|k] j d H; cbn in *; try discriminate.
      - injection H as <- <-. split; [lia|reflexivity].
      - apply IH in H. destruct H. split; [lia|assumption]. }
    intros k j d H. apply (G l 0) in H. exact H. }
  assert (Hi : nth_error (pre ++ (i, c) :: post) (length pre) = Some (i, c)).
  { rewrite nth_error_app2, Nat.sub_diag by lia. reflexivity. }
  rewrite <- H in Hi. apply G in Hi. destruct Hi as [-> Hi]. repeat split; auto.
  - apply In_nth_error in H0. destruct H0 as [k Hk].
    assert (Hlt : k < length pre) by (apply nth_error_Some; congruence).
    assert (Hk' : nth_error (pre ++ (length pre, c) :: post) k = Some (j, d)).
    { rewrite nth_error_app1 by lia. assumption. }
    rewrite <- H in Hk'. apply G in Hk'. lia.
  - apply In_nth_error in H0. destruct H0 as [k Hk].
    assert (Hlt : k < length pre) by (apply nth_error_Some; congruence).
    assert (Hk' : nth_error (pre ++ (length pre, c) :: post) k = Some (j, d)).
    { rewrite nth_error_app1 by lia. assumption. }
    rewrite <- H in Hk'. apply G in Hk'. destruct Hk' as [-> ?]. assumption.
Qed.
Lemma enumerate_in {A} (l : list A) i c : nth_error l i = Some c -> In (i, c) (enumerate l).
Proof.
  unfold enumerate. intros H.
  assert (G : forall (l : list A) b k, nth_error l k = Some c ->
    In (b + k, c) (combine (seq b (length l)) l)).
  { induction l0 as [|x l0 IH]; intros b [|k] Hk; cbn in *; try discriminate.
    - injection Hk as ->. left. f_equal. lia.
    - right. replace (b + S k) with (S b + k) by lia. now apply IH. }
  apply (G l 0 i H).
Qed.

Lemma not_vle_ex c d : length c = length d -> ~ vle c d ->
  exists i x y, nth_error c i = Some x /\ nth_error d i = Some y /\ y < x.
Proof.
  revert d. induction c as [|x c IH]; intros [|y d] Hl H; try discriminate.
  - exfalso. apply H. constructor.
  - destruct (le_lt_dec x y) as [Hxy|Hxy].
    + destruct (IH d) as (i & u & v & H1 & H2 & H3); [cbn in Hl; lia| |].
      * intros Hv. apply H. constructor; assumption.
      * exists (S i), u, v. auto.
    + exists 0, x, y. auto.
Qed.

Lemma vle_sum c d : vle c d -> list_sum c <= list_sum d.
Proof. unfold vle. induction 1; cbn [list_sum fold_right]; [lia|]. unfold list_sum in *. cbn. lia. Qed.
Lemma vle_sum_lt c d : vle c d -> ~ vle d c -> list_sum c < list_sum d.
Proof.
  unfold vle. induction 1 as [|x y c d Hxy Hcd IH]; intros Hn.
  - exfalso. apply Hn. constructor.
  - change (x + list_sum c < y + list_sum d). pose proof (vle_sum _ _ Hcd).
    destruct (Nat.eq_dec x y) as [->|Hne]; [|lia].
    assert (list_sum c < list_sum d); [|lia]. apply IH. intros Hd. apply Hn. constructor; auto.
Qed.

(** Assignments in [F] whose cost no vector of [D] weakly dominates *)
Definition bk (F : asg -> Prop) (os : list objective) (D : list (list nat)) (a : asg) : Prop :=
  F a /\ forall d, In d D -> ~ vle d (ic os a).

Section PMin.
  Context {I : enc_impl} (SP : enc_spec I).
  Notation M := (M I).
  Notation st := (st I).
  Variable E : environ.
  Hypothesis HO : oracle_ok E.
  Variable F : asg -> Prop.
  Variable B : nat.

  Notation K := (K SP F).
  Notation keep := (keep SP).

  (** ** [enforce_dominating] *)
  Lemma wp_enforce_dominating A S a0 cs (Q : list lit -> st -> Prop) (X : exit -> st -> Prop) s :
    K A S s -> F a0 -> ic (p_objs (s_prob s)) a0 = cs ->
    (forall ls s', K A S s' -> keep s s' -> s_lims s' = s_lims s ->
       (forall m, sat m (p_cls (s_prob s')) -> lits_true m ls ->
          vle (ic (p_objs (s_prob s')) m) cs) ->
       (forall m, F m -> Exact SP (s_prob s') m -> vle (ic (p_objs (s_prob s')) m) cs ->
          lits_true m ls) -> Q ls s') ->
    wp (enforce_dominating cs) Q X s.
  Proof.
    intros HK Ha0 Hcs HQ. unfold enforce_dominating.
    assert (Hlen : length cs = length (p_objs (s_prob s))) by (rewrite <- Hcs; apply ic_length).
    apply wp_bind, wp_gets, wp_bind, wp_guard.
    { apply Nat.eqb_eq. rewrite Hlen. symmetry. apply HK. }
    apply wp_bind. unfold encode_all.
    apply wp_forM with (P := fun pre s' => K A S s' /\ keep s s' /\ s_lims s' = s_lims s /\
      forall j c e, In (j, c) pre -> nth_error (p_encs (s_prob s')) j = Some e ->
        oe_enforce_ub e c <> None).
    - intros pre [i c] post s1 Hl (K1 & K2 & K3 & K4). cbn [fst snd].
      apply enumerate_split in Hl. destruct Hl as (Hi & Hc & Hpre).
      assert (Eos : p_objs (s_prob s1) = p_objs (s_prob s)) by apply (adv_objs _ _ _ (kp_adv _ _ _ K2)).
      rewrite <- Hcs in Hc. apply ic_nth_inv in Hc. destruct Hc as (o & Ho & Hc).
      rewrite <- Eos in Ho.
      destruct (obj_encoding SP F _ _ _ (inv_wf _ _ _ _ _ (k_inv _ _ _ _ _ K1)) Ho) as [e He].
      eapply wp_extend_encoding; [exact K1|exact He|].
      intros e' s2 G1 G2 G3 G4 G5 G6 G7 G8 G9. split; [exact G1|].
      split; [eapply keep_trans; eauto|]. split; [congruence|].
      intros j d x Hin Hx. apply in_app_or in Hin. destruct Hin as [Hin|[Heq|[]]].
      + destruct (Hpre _ _ Hin) as [Hj _]. rewrite G4, set_nth_other in Hx by lia. eauto.
      + injection Heq as <- <-. assert (x = e') by congruence. subst x. apply G9; [|lia].
        rewrite Hc. eapply (wf_off _ _ _ (inv_wf _ _ _ _ _ (k_inv _ _ _ _ _ K1))); eauto.
    - split; [exact HK|]. split; [apply keep_refl|]. split; [reflexivity|]. intros ? ? ? [].
    - intros s1 (K1 & K2 & K3 & K4).
      assert (Eos : p_objs (s_prob s1) = p_objs (s_prob s)) by apply (adv_objs _ _ _ (kp_adv _ _ _ K2)).
      pose proof (inv_wf _ _ _ _ _ (k_inv _ _ _ _ _ K1)) as W1.
      unfold enforce_all. apply wp_bind.
      apply wp_mapM with (P := fun pre bs s' => s' = s1 /\
        (forall m, sat m (p_cls (s_prob s1)) -> lits_true m (concat bs) ->
           forall i c o, In (i, c) pre -> nth_error (p_objs (s_prob s1)) i = Some o -> icost o m <= c) /\
        (forall m, F m -> Exact SP (s_prob s1) m ->
           (forall i c o, In (i, c) pre -> nth_error (p_objs (s_prob s1)) i = Some o -> icost o m <= c) ->
           lits_true m (concat bs))).
      + intros pre [i c] post bs s' Hl (-> & P1 & P2). cbn [fst snd].
        assert (Hinic : In (i, c) (enumerate cs)) by (rewrite Hl; apply in_or_app; right; now left).
        apply enumerate_split in Hl. destruct Hl as (Hi & Hc & Hpre).
        rewrite <- Hcs in Hc. apply ic_nth_inv in Hc. destruct Hc as (o & Ho & Hc).
        rewrite <- Eos in Ho.
        destruct (obj_encoding SP F _ _ _ W1 Ho) as [e He].
        apply wp_bind. unfold get_enc. apply wp_bind, wp_gets, (wp_unwrap _ e); [exact He|].
        destruct (oe_enforce_ub e c) as [ls|] eqn:Hls; [|exfalso; eapply K4; eauto].
        apply (wp_unwrap _ ls); [reflexivity|]. split; [reflexivity|].
        rewrite concat_app. cbn [concat]. rewrite app_nil_r. split.
        * intros m Hm Hl j d o' Hin Ho'. apply lits_true_app in Hl. destruct Hl as [Hl1 Hl2].
          apply in_app_or in Hin. destruct Hin as [Hin|[Heq|[]]]; [eapply P1; eauto|].
          injection Heq as <- <-. assert (o' = o) by congruence. subst o'.
          assert (D : {e = EConstant} + {e <> EConstant}).
          { destruct e; [right; discriminate|right; discriminate|left; reflexivity]. }
          destruct D as [->|D].
          -- rewrite Hc. apply Nat.eq_le_incl.
             apply (wf_const _ _ _ W1 i o m a0 Ho He).
             ++ apply (inv_AF _ _ _ _ _ (k_inv _ _ _ _ _ K1)), (inv_sound _ _ _ _ _ (k_inv _ _ _ _ _ K1)), Hm.
             ++ exact Ha0.
          -- eapply enforce_sound; eauto.
        * intros m Hm Hx Hle. apply lits_true_app. split.
          -- apply P2; auto. intros j d o' Hin. apply Hle. apply in_or_app; now left.
          -- eapply enforce_complete; eauto. apply (Hle i c o); auto. apply in_or_app; right; now left.
      + split; [reflexivity|]. split; [intros ? ? ? ? ? ? []|]. intros. apply lits_true_nil.
      + intros bs s' (-> & P1 & P2). apply wp_ret. apply HQ; auto.
        * intros m Hm Hl. apply vle_nth. split; [rewrite ic_length; congruence|].
          intros i x y Hx Hy. apply ic_nth_inv in Hx. destruct Hx as (o & Ho & ->).
          eapply P1; eauto. now apply enumerate_in.
        * intros m Hm Hx Hle. apply P2; auto. intros i c o Hin Ho.
          apply vle_nth in Hle. destruct Hle as [_ Hle].
          apply (Hle i); [now apply ic_nth|].
          apply in_split in Hin. destruct Hin as (l1 & l2 & Hin).
          apply enumerate_split in Hin. destruct Hin as (_ & Hin & _). exact Hin.
  Qed.

  (** ** The blocking clause *)
  Lemma wp_block_lits A S a0 i c o (Q : clause -> st -> Prop) (X : exit -> st -> Prop) s :
    K A S s -> A a0 -> nth_error (p_objs (s_prob s)) i = Some o -> icost o a0 = c ->
    (forall cl s', keep s s' -> s_lims s' = s_lims s ->
       K A (fun m => S m /\ (icost o m < c -> clause_true m cl = true)) s' ->
       (forall v, In v (lits_vars cl) -> live SP (s_prob s') v) ->
       (forall m, sat m (p_cls (s_prob s')) -> clause_true m cl = true -> icost o m < c) ->
       Q cl s') ->
    wp (block_lits (i, c)) Q X s.
  Proof.
    intros HK Ha0 Ho Hc HQ. unfold block_lits.
    pose proof (k_inv _ _ _ _ _ HK) as HI. pose proof (inv_wf _ _ _ _ _ HI) as W.
    destruct (obj_encoding SP F _ _ _ W Ho) as [e He].
    assert (Hic : forall p a b, WF SP F p -> p_objs p = p_objs (s_prob s) ->
              agree (live SP p) a b -> icost o a = icost o b).
    { intros p a b Wp Hp Hab. eapply icost_agree; [exact Wp| |].
      - rewrite Hp. eapply nth_error_In; eauto.
      - eapply low_live_agree; eauto. }
    (* the objective cannot get below [c] *)
    assert (Hnone : (forall m, A m -> ~ icost o m < c) -> Q [] s).
    { intros Hno. apply HQ; auto using keep_refl.
      - constructor; try apply HK. eapply inv_weaken; [exact HI| |].
        + intros m Hm _ _ HS. split; [exact HS|]. intros Hlt. exfalso. eapply Hno; eauto.
        + intros a b Hab [H1 H2]. split; [eapply (inv_Scl _ _ _ _ _ HI); eauto|].
          rewrite <- (Hic (s_prob s) a b W eq_refl Hab). intros Hlt. exfalso.
          apply H2 in Hlt. discriminate.
      - intros v [].
      - intros m _ Hf. discriminate. }
    apply wp_bind. unfold get_enc at 1. apply wp_bind, wp_gets, (wp_unwrap _ e); [exact He|].
    destruct (c <=? oe_offset e) eqn:Hoff.
    { apply Nat.leb_le in Hoff. apply wp_ret, Hnone. intros m Hm Hlt.
      pose proof (wf_off _ _ _ W _ _ _ _ Ho He (inv_AF _ _ _ _ _ HI _ Hm)). lia. }
    apply Nat.leb_gt in Hoff.
    assert (D : {e = EConstant} + {e <> EConstant}).
    { destruct e; [right; discriminate|right; discriminate|left; reflexivity]. }
    destruct D as [->|D].
    { apply wp_ret, Hnone. intros m Hm Hlt.
      pose proof (wf_const _ _ _ W i o m a0 Ho He (inv_AF _ _ _ _ _ HI _ Hm) (inv_AF _ _ _ _ _ HI _ Ha0)).
      lia. }
    assert (HH : wp (extend_encoding i (c - 1) c;;;
              (e' <- get_enc i;;
              (a <- or_err ErrEnc (oe_enforce_ub e' (c - 1));;
              match a with
              | [l] => ret [l]
              | _ => guard match a with [] => false | _ => true end ;;;
                     (v <- new_var;; (add_clauses (lit_impl_cube (pos v) a) ;;; ret [pos v]))
              end))) Q X s); [|destruct e; [exact HH|exact HH|congruence]].
    apply wp_bind. eapply wp_extend_encoding; [exact HK|exact He|].
    intros e' s1 K1 Hk1 L1 G4 G5 G6 G7 G8 G9.
    apply wp_bind. unfold get_enc. apply wp_bind, wp_gets, (wp_unwrap _ e'); [exact G5|].
    destruct (oe_enforce_ub e' (c - 1)) as [a|] eqn:Ha; [|exfalso; eapply (G9 (c - 1)); [lia|lia|exact Ha]].
    apply wp_bind, (wp_or_err _ _ a); [reflexivity|].
    assert (D' : e' <> EConstant) by tauto.
    assert (Eos : p_objs (s_prob s1) = p_objs (s_prob s)) by apply (adv_objs _ _ _ (kp_adv _ _ _ Hk1)).
    pose proof (k_inv _ _ _ _ _ K1) as HI1. pose proof (inv_wf _ _ _ _ _ HI1) as W1.
    assert (Ho1 : nth_error (p_objs (s_prob s1)) i = Some o) by (rewrite Eos; exact Ho).
    assert (Hsound : forall m, sat m (p_cls (s_prob s1)) -> lits_true m a -> icost o m < c).
    { intros m Hm Hl. pose proof (enforce_sound _ _ _ _ _ _ _ _ _ W1 Ho1 G5 D' Ha Hm Hl). lia. }
    assert (Hcomp : forall m, A m -> Exact SP (s_prob s1) m -> icost o m < c -> lits_true m a).
    { intros m Hm Hx Hlt. eapply enforce_complete; eauto; [apply HI, Hm|lia]. }
    assert (Hlive : forall l, In l a -> live SP (s_prob s1) (lvar l)).
    { intros l Hl. eapply enforce_live; eauto. }
    assert (Hne : a <> []).
    { intros ->. destruct (inv_comp _ _ _ _ _ HI1 a0 Ha0) as (m & M1 & M2 & M3 & M4).
      pose proof (Hsound m M2 (lits_true_nil m)) as Hlt.
      assert (icost o a0 = icost o m).
      { eapply icost_agree; [exact W1| |exact M1]. eapply nth_error_In; eauto. }
      lia. }
    assert (Hmany : wp (guard match a with [] => false | _ => true end ;;;
                     (v <- new_var;; (add_clauses (lit_impl_cube (pos v) a) ;;; ret [pos v]))) Q X s1).
    { apply wp_bind, wp_guard; [destruct a; congruence|].
      apply wp_bind. eapply (wp_new_var SP F A S (fun m => forallb (lit_true m) a)); [exact K1| |].
      { intros m m' Hmm. clear - Hmm Hlive. induction a as [|l a IH]; [reflexivity|]. cbn.
        rewrite (lit_true_agree _ m m' l Hmm) by (apply Hlive; now left).
        f_equal. apply IH. intros l' Hl'. apply Hlive. now right. }
      intros v s2 Hv K2 Hk2 L2 Lv1 Lv2 Ee2 Ec2.
      apply wp_bind. eapply wp_add_clauses; [exact K2| | |].
      - intros cl w Hcl Hw. unfold lit_impl_cube in Hcl. apply in_map_iff in Hcl.
        destruct Hcl as (l & <- & Hl). cbn in Hw. destruct Hw as [<-|[<-|[]]].
        + exact Lv1.
        + apply (ext_live _ _ _ (ad_ext _ _ _ (kp_adv _ _ _ Hk2))). auto.
      - intros cl m Hcl Hm Hs Hx [HS Hd]. unfold lit_impl_cube in Hcl. apply in_map_iff in Hcl.
        destruct Hcl as (l & <- & Hl). unfold clause_true. cbn [existsb].
        rewrite lit_true_lnot, lit_true_pos, Hd.
        destruct (forallb (lit_true m) a) eqn:Hfa; [|reflexivity].
        rewrite forallb_forall in Hfa. rewrite (Hfa l Hl). reflexivity.
      - intros s3 K3 Hk3 L3 Ee3 Ec3. apply wp_ret.
        pose proof (keep_trans _ _ _ _ Hk1 (keep_trans _ _ _ _ Hk2 Hk3)) as Hk03.
        assert (Hsat31 : forall m, sat m (p_cls (s_prob s3)) -> sat m (p_cls (s_prob s1))).
        { intros m. eapply ext_sat. apply (ad_ext _ _ _ (kp_adv _ _ _ (keep_trans _ _ _ _ Hk2 Hk3))). }
        assert (Lv3 : live SP (s_prob s3) v).
        { apply (ext_live _ _ _ (ad_ext _ _ _ (kp_adv _ _ _ Hk3))), Lv1. }
        pose proof (k_inv _ _ _ _ _ K3) as HI3. pose proof (inv_wf _ _ _ _ _ HI3) as W3.
        apply HQ; [exact Hk03|congruence| | |].
        + constructor; try apply K3. eapply inv_weaken; [exact HI3| |].
          * intros m Hm Hs Hx [HS Hd]. split; [exact HS|]. intros Hlt.
            unfold clause_true. cbn [existsb]. rewrite lit_true_pos, Hd, orb_false_r.
            apply forallb_forall. intros l Hl. apply Hcomp; auto.
            intros x Hxx. apply Hx. rewrite Ee3, Ee2. exact Hxx.
          * intros m m' Hmm [H1 H2]. split.
            -- eapply (inv_Scl _ _ _ _ _ HI1); [|exact H1]. eapply agree_mono; [|exact Hmm].
               apply (ext_live _ _ _ (ad_ext _ _ _ (kp_adv _ _ _ (keep_trans _ _ _ _ Hk2 Hk3)))).
            -- rewrite <- (Hic (s_prob s3) m m' W3) by
                 (auto; apply (adv_objs _ _ _ (kp_adv _ _ _ Hk03))).
               intros Hlt. rewrite <- (H2 Hlt). symmetry. eapply clause_true_agree; [exact Hmm|].
               intros w [<-|[]]. exact Lv3.
        + intros w [<-|[]]. exact Lv3.
        + intros m Hm Hcl. unfold clause_true in Hcl. cbn [existsb] in Hcl.
          rewrite orb_false_r in Hcl. apply Hsound; [auto|]. intros l Hl.
          assert (Hin : In [lnot (pos v); l] (p_cls (s_prob s3))).
          { apply Ec3. unfold lit_impl_cube. apply in_map_iff. eauto. }
          apply Hm in Hin. unfold clause_true in Hin. cbn [existsb] in Hin.
          rewrite lit_true_lnot, Hcl in Hin. cbn in Hin. now rewrite orb_false_r in Hin. }
    destruct a as [|l [|l' a']]; [congruence| |exact Hmany].
    apply wp_ret. apply HQ; [exact Hk1|exact L1| | |].
    - constructor; try apply K1. eapply inv_weaken; [exact HI1| |].
      + intros m Hm Hs Hx HS. split; [exact HS|]. intros Hlt. unfold clause_true. cbn [existsb].
        rewrite orb_false_r. apply Hcomp; auto. now left.
      + intros m m' Hmm [H1 H2]. split; [eapply (inv_Scl _ _ _ _ _ HI1); eauto|].
        rewrite <- (Hic (s_prob s1) m m' W1) by auto.
        intros Hlt. rewrite <- (H2 Hlt). symmetry. eapply clause_true_agree; [exact Hmm|].
        intros w [<-|[]]. apply Hlive. now left.
    - intros w [<-|[]]. apply Hlive. now left.
    - intros m Hm Hcl. unfold clause_true in Hcl. cbn [existsb] in Hcl. rewrite orb_false_r in Hcl.
      apply Hsound; [exact Hm|]. intros l' [<-|[]]. exact Hcl.
  Qed.

  (** [nd]: "not dominated by" *)
  Definition ndom (os : list objective) (c : list nat) (m : asg) : Prop := ~ vle c (ic os m).

  Lemma wp_dominated_block_clause A S a0 cs (Q : clause -> st -> Prop) (X : exit -> st -> Prop) s :
    K A S s -> A a0 -> ic (p_objs (s_prob s)) a0 = cs ->
    (forall cl s', keep s s' -> s_lims s' = s_lims s ->
       K A (fun m => S m /\ (ndom (p_objs (s_prob s)) cs m -> clause_true m cl = true)) s' ->
       (forall v, In v (lits_vars cl) -> live SP (s_prob s') v) ->
       (forall m, sat m (p_cls (s_prob s')) -> clause_true m cl = true ->
          ndom (p_objs (s_prob s)) cs m) ->
       Q cl s') ->
    wp (dominated_block_clause cs) Q X s.
  Proof.
    intros HK Ha0 Hcs HQ. unfold dominated_block_clause.
    set (os := p_objs (s_prob s)) in *.
    assert (Hlen : length cs = length os) by (rewrite <- Hcs; apply ic_length).
    apply wp_bind, wp_gets, wp_bind, wp_guard.
    { apply Nat.eqb_eq. rewrite Hlen. symmetry. apply (wf_len _ _ _ (inv_wf _ _ _ _ _ (k_inv _ _ _ _ _ HK))). }
    apply wp_bind.
    apply wp_mapM with (P := fun pre bs s' => keep s s' /\ s_lims s' = s_lims s /\
      K A (fun m => S m /\ forall i c o, In (i, c) pre -> nth_error os i = Some o ->
             icost o m < c -> clause_true m (concat bs) = true) s' /\
      (forall v, In v (lits_vars (concat bs)) -> live SP (s_prob s') v) /\
      (forall m, sat m (p_cls (s_prob s')) -> clause_true m (concat bs) = true ->
         exists i c o, In (i, c) pre /\ nth_error os i = Some o /\ icost o m < c)).
    - intros pre [i c] post bs s1 Hl (Hk1 & L1 & K1 & V1 & S1).
      apply enumerate_split in Hl. destruct Hl as (Hi & Hc & Hpre).
      rewrite <- Hcs in Hc. apply ic_nth_inv in Hc. destruct Hc as (o & Ho & Hc).
      assert (Eos : p_objs (s_prob s1) = os) by apply (adv_objs _ _ _ (kp_adv _ _ _ Hk1)).
      eapply (wp_block_lits _ _ a0 i c o); [exact K1|exact Ha0|rewrite Eos; exact Ho|congruence|].
      intros cl s2 Hk2 L2 K2 V2 S2.
      split; [eapply keep_trans; eauto|]. split; [congruence|].
      assert (Ecc : concat (bs ++ [cl : list lit]) = concat bs ++ cl).
      { rewrite concat_app. cbn. now rewrite app_nil_r. }
      rewrite Ecc.
      assert (V1' : forall v, In v (lits_vars (concat bs)) -> live SP (s_prob s2) v).
      { intros v Hv. apply (ext_live _ _ _ (ad_ext _ _ _ (kp_adv _ _ _ Hk2))); auto. }
      assert (V12 : forall v, In v (lits_vars (concat bs ++ cl)) -> live SP (s_prob s2) v).
      { intros v Hv. rewrite lits_vars_app in Hv. apply in_app_or in Hv. destruct Hv; auto. }
      split; [|split; [exact V12|]].
      + constructor; try apply K2. pose proof (k_inv _ _ _ _ _ K2) as HI2.
        pose proof (inv_wf _ _ _ _ _ HI2) as W2.
        eapply inv_weaken; [exact HI2| |].
        * intros m Hm Hs Hx [[HS H1] H2]. split; [exact HS|].
          intros j d o' Hin Ho' Hlt. rewrite clause_true_app. apply orb_true_iff.
          apply in_app_or in Hin. destruct Hin as [Hin|[Heq|[]]]; [left; eauto|].
          injection Heq as <- <-. right. apply H2. congruence.
        * intros m m' Hmm [HS H1]. split.
          -- eapply (inv_Scl _ _ _ _ _ (k_inv _ _ _ _ _ HK)); [|exact HS].
             eapply agree_mono; [|exact Hmm].
             apply (ext_live _ _ _ (ad_ext _ _ _ (kp_adv _ _ _ (keep_trans _ _ _ _ Hk1 Hk2)))).
          -- intros j d o' Hin Ho' Hlt.
             rewrite <- (clause_true_agree (live SP (s_prob s2)) m m' _ Hmm V12).
             eapply H1; eauto. erewrite (icost_agree SP F (s_prob s2)); eauto.
             ++ rewrite (adv_objs _ _ _ (kp_adv _ _ _ Hk2)), Eos. eapply nth_error_In; eauto.
             ++ eapply low_live_agree; eauto.
      + intros m Hm Hcl. rewrite clause_true_app in Hcl. apply orb_true_iff in Hcl.
        destruct Hcl as [Hcl|Hcl].
        * destruct (S1 m) as (j & d & o' & H1 & H2 & H3); [|exact Hcl|].
          -- eapply ext_sat; [apply (ad_ext _ _ _ (kp_adv _ _ _ Hk2))|exact Hm].
          -- exists j, d, o'. repeat split; auto. apply in_or_app; now left.
        * exists i, c, o. repeat split; auto. apply in_or_app; right; now left.
    - split; [apply keep_refl|]. split; [reflexivity|]. split; [|split].
      + constructor; try apply HK. eapply inv_weaken; [apply HK| |].
        * intros m _ _ _ HS. split; [exact HS|]. intros ? ? ? [].
        * intros m m' Hmm [HS H1]. split; [eapply (inv_Scl _ _ _ _ _ (k_inv _ _ _ _ _ HK)); eauto|].
          intros ? ? ? [].
      + intros v [].
      + intros m _ Hf. discriminate.
    - intros bs s1 (Hk1 & L1 & K1 & V1 & S1). apply wp_ret. apply HQ; auto.
      + constructor; try apply K1. pose proof (k_inv _ _ _ _ _ K1) as HI1.
        pose proof (inv_wf _ _ _ _ _ HI1) as W1.
        assert (Eos : p_objs (s_prob s1) = os) by apply (adv_objs _ _ _ (kp_adv _ _ _ Hk1)).
        eapply inv_weaken; [exact HI1| |].
        * intros m Hm Hs Hx [HS H1]. split; [exact HS|]. intros Hnd.
          destruct (not_vle_ex cs (ic os m)) as (i & x & y & N1 & N2 & N3);
            [rewrite ic_length; exact Hlen|exact Hnd|].
          apply ic_nth_inv in N2. destruct N2 as (o & Ho & ->).
          apply (H1 i x o); auto. now apply enumerate_in.
        * intros m m' Hmm [HS H1]. split.
          -- eapply (inv_Scl _ _ _ _ _ (k_inv _ _ _ _ _ HK)); [|exact HS].
             eapply agree_mono; [|exact Hmm].
             apply (ext_live _ _ _ (ad_ext _ _ _ (kp_adv _ _ _ Hk1))).
          -- intros Hnd. rewrite <- (clause_true_agree (live SP (s_prob s1)) m m' _ Hmm V1).
             apply H1. unfold ndom in *. rewrite <- Eos in *.
             rewrite (ic_agree SP F (s_prob s1) m m' W1); [exact Hnd|]. eapply low_live_agree; eauto.
      + intros m Hm Hcl Hle. destruct (S1 m Hm Hcl) as (i & c & o & H1 & H2 & H3).
        apply vle_nth in Hle. destruct Hle as [_ Hle].
        apply in_split in H1. destruct H1 as (l1 & l2 & H1). apply enumerate_split in H1.
        destruct H1 as (_ & H1 & _).
        specialize (Hle i c (icost o m) H1 (ic_nth _ _ _ _ H2)). lia.
  Qed.

  Lemma K_iff A S s (A' : asg -> Prop) : K A S s -> (forall a, A a <-> A' a) -> K A' S s.
  Proof. intros [] H. constructor; auto. eapply inv_iff; eauto. Qed.
  Lemma K_top A S s : K A S s -> K A (fun _ => True) s.
  Proof. intros []. constructor; auto. eapply inv_top; eauto. Qed.

  (** adding a clause, as a step of the program *)
  Lemma wp_add_clause A S (A' : asg -> Prop) c (Q : unit -> st -> Prop) (X : exit -> st -> Prop) s :
    K A S s ->
    (forall v, In v (lits_vars c) -> live SP (s_prob s) v) ->
    (forall a, A' a -> A a) ->
    (forall a b, agree (low (s_prob s)) a b -> A' a -> A' b) ->
    (forall m, sat m (p_cls (s_prob s)) -> clause_true m c = true -> A' m) ->
    (forall m, A' m -> sat m (p_cls (s_prob s)) -> Exact SP (s_prob s) m -> S m ->
       clause_true m c = true) ->
    (forall s', K A' S s' -> keep s s' -> s_lims s' = s_lims s ->
       p_encs (s_prob s') = p_encs (s_prob s) -> In c (p_cls (s_prob s')) -> Q tt s') ->
    wp (add_clause c) Q X s.
  Proof.
    intros HK H1 H2 H3 H4 H5 HQ. apply wp_modify.
    destruct (K_add_clause SP F A S A' s c HK H1 H2 H3 H4 H5) as [K1 K2].
    apply HQ; auto. cbn. now left.
  Qed.

  Lemma wp_tmp_block_dominated A S a0 cs (Q : lit -> st -> Prop) (X : exit -> st -> Prop) s :
    K A S s -> A a0 -> ic (p_objs (s_prob s)) a0 = cs ->
    (forall b s', keep s s' -> s_lims s' = s_lims s ->
       K A (fun m => S m /\ (ndom (p_objs (s_prob s)) cs m -> lit_true m b = true)) s' ->
       live SP (s_prob s') (lvar b) ->
       (forall m, sat m (p_cls (s_prob s')) -> lit_true m b = true ->
          ndom (p_objs (s_prob s)) cs m) ->
       Q b s') ->
    wp (tmp_block_dominated cs) Q X s.
  Proof.
    intros HK Ha0 Hcs HQ. unfold tmp_block_dominated.
    set (os := p_objs (s_prob s)) in *.
    apply wp_bind, wp_gets, wp_bind, wp_guard.
    { apply Nat.eqb_eq. rewrite <- Hcs, ic_length. symmetry. apply HK. }
    apply wp_bind. eapply wp_dominated_block_clause; [exact HK|exact Ha0|exact Hcs|].
    intros cl s1 Hk1 L1 K1 V1 S1. fold os in K1, S1.
    apply wp_bind. eapply (wp_new_var SP F _ _ (fun m => negb (clause_true m cl))); [exact K1| |].
    { intros a b Hab. f_equal. eapply clause_true_agree; [exact Hab|exact V1]. }
    intros v s2 Hv K2 Hk2 L2 Lv1 Lv2 Ee2 Ec2.
    assert (Eos2 : p_objs (s_prob s2) = os).
    { rewrite (adv_objs _ _ _ (kp_adv _ _ _ Hk2)). apply (adv_objs _ _ _ (kp_adv _ _ _ Hk1)). }
    apply wp_bind. eapply (wp_add_clause _ _ A); [exact K2| |auto| | | |].
    - intros w Hw. rewrite lits_vars_app in Hw. apply in_app_or in Hw. destruct Hw as [Hw|[<-|[]]].
      + apply (ext_live _ _ _ (ad_ext _ _ _ (kp_adv _ _ _ Hk2))). auto.
      + exact Lv1.
    - apply (inv_Acl _ _ _ _ _ (k_inv _ _ _ _ _ K2)).
    - intros m Hm _. apply (inv_sound _ _ _ _ _ (k_inv _ _ _ _ _ K2)), Hm.
    - intros m Hm Hs Hx [_ Hd]. rewrite clause_true_app. unfold clause_true at 2. cbn [existsb].
      rewrite lit_true_pos, Hd, orb_false_r. destruct (clause_true m cl); reflexivity.
    - intros s3 K3 Hk3 L3 Ee3 Ec3. apply wp_ret.
      pose proof (keep_trans _ _ _ _ Hk1 (keep_trans _ _ _ _ Hk2 Hk3)) as Hk03.
      assert (Eos3 : p_objs (s_prob s3) = os).
      { rewrite (adv_objs _ _ _ (kp_adv _ _ _ Hk3)). exact Eos2. }
      pose proof (k_inv _ _ _ _ _ K3) as HI3. pose proof (inv_wf _ _ _ _ _ HI3) as W3.
      assert (Lv3 : live SP (s_prob s3) v)
        by (apply (ext_live _ _ _ (ad_ext _ _ _ (kp_adv _ _ _ Hk3))), Lv1).
      apply HQ; [exact Hk03|congruence| |exact Lv3|].
      + constructor; try apply K3. eapply inv_weaken; [exact HI3| |].
        * intros m Hm Hs Hx [[HS H1] Hd]. split; [exact HS|]. intros Hnd.
          rewrite lit_true_neg, Hd. rewrite (H1 Hnd). reflexivity.
        * intros m m' Hmm [HS H1]. split.
          -- eapply (inv_Scl _ _ _ _ _ (k_inv _ _ _ _ _ HK)); [|exact HS].
             eapply agree_mono; [|exact Hmm].
             apply (ext_live _ _ _ (ad_ext _ _ _ (kp_adv _ _ _ Hk03))).
          -- intros Hnd. rewrite <- (lit_true_agree (live SP (s_prob s3)) m m' (neg v) Hmm Lv3).
             apply H1. unfold ndom in *. rewrite <- Eos3 in *.
             rewrite (ic_agree SP F (s_prob s3) m m' W3); [exact Hnd|]. eapply low_live_agree; eauto.
      + intros m Hm Hb. apply S1.
        * eapply ext_sat; [|exact Hm].
          apply (ad_ext _ _ _ (kp_adv _ _ _ (keep_trans _ _ _ _ Hk2 Hk3))).
        * apply Hm in Ec3. rewrite clause_true_app in Ec3. unfold clause_true at 2 in Ec3.
          cbn [existsb] in Ec3. rewrite lit_true_neg in Hb. rewrite lit_true_pos in Ec3.
          apply negb_true_iff in Hb. rewrite Hb in Ec3. cbn in Ec3. now rewrite orb_false_r in Ec3.
  Qed.

  (** ** The minimisation loop *)

  Lemma bk_app os D1 D2 a : bk F os (D1 ++ D2) a <-> bk F os D1 a /\ forall d, In d D2 -> ndom os d a.
  Proof.
    unfold bk, ndom. split.
    - intros [H1 H2]. split; [split; [exact H1|]|]; intros d Hd; apply H2, in_or_app; auto.
    - intros [[H1 H2] H3]. split; [exact H1|]. intros d Hd. apply in_app_or in Hd.
      destruct Hd; [now apply H2|now apply H3].
  Qed.
  Lemma bk_agree (p : prob I) D a b : WF SP F p -> agree (low p) a b ->
    bk F (p_objs p) D a -> bk F (p_objs p) D b.
  Proof.
    intros W Hab [H1 H2]. split; [eapply (wf_Fcl _ _ _ W); eauto|].
    intros d Hd. rewrite <- (ic_agree SP F p a b W Hab). auto.
  Qed.

  (** Facts about the instance that never change *)
  Record Stat (os : list objective) (mo : nat) (o : kopts) : Prop := mkStat {
    st_sols : 2 ^ (Datatypes.S mo) <= B;
    st_sum : forall a, list_sum (ic os a) <= B;
    st_ext : forall a, F a -> exists exts, externalize_all os (ic os a) = Some exts;
    st_blk : blk_ok F o os mo }.

  Section PMinRun.
    Variables (D : list (list nat)) (s0 : st).
    Let os := p_objs (s_prob s0).
    Let mo := vm_max_orig (p_vm (s_prob s0)).
    Let me := vm_max_enc (p_vm (s_prob s0)).
    Let o := s_opts s0.
    Hypothesis HS : Stat os mo o.

    (** What the block switch [sw] of the last candidate [c] means *)
    Definition swS (sw : option lit) (c : list nat) (m : asg) : Prop :=
      match sw with None => True | Some b => ndom os c m -> lit_true m b = true end.
    Definition swOK (sw : option lit) (c : list nat) (s : st) : Prop :=
      match sw with
      | None => True
      | Some b => live SP (s_prob s) (lvar b) /\
          forall m, sat m (p_cls (s_prob s)) -> lit_true m b = true -> ndom os c m
      end.
    Definition swpend (sw : option lit) (c : list nat) : list (list nat) :=
      match sw with None => [] | Some _ => [c] end.

    (** Invariant: [ch] are the candidates that are blocked for good, [prev] the one the
        switch can block. *)
    Definition PI (x : pmin_state) (s : st) : Prop :=
      let '(cs, sol, sw) := x in
      keep s0 s /\ (o_enum o = NoEnum -> sw = None) /\
      exists m ch prev, sol_rep me m sol /\ cs = ic os m /\
        bk F os (D ++ ch ++ swpend sw prev) m /\
        (forall d, In d (ch ++ swpend sw prev) -> vle cs d) /\
        K (bk F os (D ++ ch)) (swS sw prev) s /\ swOK sw prev s.

    Definition PQ (x : pmin_state) (s : st) : Prop :=
      let '(cs, sol, sw) := x in
      keep s0 s /\
      exists m ch, sol_rep me m sol /\ cs = ic os m /\ bk F os D m /\
        (forall d, In d ch -> vle cs d) /\
        (forall a, bk F os (D ++ ch) a -> vle (ic os a) cs -> vle cs (ic os a)) /\
        K (bk F os (D ++ ch)) (swS sw cs) s /\ swOK sw cs s /\
        (if sw then bk F os (D ++ ch) m /\ o_enum o <> NoEnum else In cs ch /\ o_enum o = NoEnum).

    Definition PX (x : exit) (s : st) : Prop :=
      xok E B x /\ keep s0 s /\
      (o_enum o = NoEnum -> exists D', incl D D' /\ Inv SP F (s_prob s) (bk F os D') (fun _ => True)).

    Lemma PX_keep x A D' s s' : xok E B x -> keep s0 s -> keep s s' -> s_prob s' = s_prob s ->
      (o_enum o = NoEnum -> K (bk F os (D ++ D')) A s) -> PX x s'.
    Proof.
      intros Hx Hk Hk' Hp HK. split; [exact Hx|]. split; [eapply keep_trans; eauto|].
      intros Ho. exists (D ++ D'). split; [intros d Hd; apply in_or_app; now left|].
      rewrite Hp. eapply inv_top. apply (HK Ho).
    Qed.

    Lemma swOK_ext sw c s s' : swOK sw c s -> ext SP (s_prob s) (s_prob s') -> swOK sw c s'.
    Proof.
      destruct sw as [b|]; [|auto]. intros [H1 H2] He. split; [apply (ext_live _ _ _ He), H1|].
      intros m Hm. apply H2. eapply ext_sat; eauto.
    Qed.

    (** making the block of the last candidate permanent *)
    Lemma wp_settle sw c ch A (Q : unit -> st -> Prop) (X : exit -> st -> Prop) s :
      keep s0 s \/ adv SP s0 s ->
      K A (swS sw c) s -> swOK sw c s ->
      (forall a, A a <-> bk F os (D ++ ch) a) ->
      (forall s', keep s s' -> s_lims s' = s_lims s ->
         K (bk F os (D ++ ch ++ swpend sw c)) (fun _ => True) s' -> Q tt s') ->
      wp (match sw with Some b => add_clause [b] | None => ret tt end) Q X s.
    Proof.
      intros Hk HK Hsw HA HQ.
      assert (Hadv : adv SP s0 s) by (destruct Hk as [[]|]; assumption).
      assert (Eos : p_objs (s_prob s) = os) by apply (adv_objs _ _ _ Hadv).
      destruct sw as [b|].
      - destruct Hsw as [H1 H2]. cbn [swpend] in HQ.
        eapply (wp_add_clause _ _ (bk F os (D ++ ch ++ [c]))); [exact HK| | | | | |].
        + intros v [<-|[]]. exact H1.
        + intros a. rewrite app_assoc, bk_app. intros [Ha _]. now apply HA.
        + intros a a' Haa. rewrite <- Eos. apply bk_agree; [|exact Haa].
          apply (inv_wf _ _ _ _ _ (k_inv _ _ _ _ _ HK)).
        + intros m Hm Hb. rewrite app_assoc, bk_app. split.
          * apply HA, (inv_sound _ _ _ _ _ (k_inv _ _ _ _ _ HK)), Hm.
          * intros d [<-|[]]. apply H2; [exact Hm|]. unfold clause_true in Hb. cbn [existsb] in Hb.
            now rewrite orb_false_r in Hb.
        + intros m Hm _ _ Hs. rewrite app_assoc, bk_app in Hm. destruct Hm as [_ Hm].
          unfold clause_true. cbn [existsb]. rewrite orb_false_r. apply Hs, Hm. now left.
        + intros s' K' Hk' L' _ _. apply HQ; auto. eapply K_top; eauto.
      - apply wp_ret, HQ; [apply keep_refl|reflexivity|]. cbn [swpend]. rewrite app_nil_r.
        eapply K_top. eapply K_iff; eauto.
    Qed.

    Lemma pmin_body_ok x s : PI x s ->
      wp (pmin_body E [] x)
         (fun r s' => match r with
            | inl x' => PI x' s' /\ list_sum (fst (fst x')) < list_sum (fst (fst x))
            | inr x' => PQ x' s' end) PX s.
    Proof.
      destruct x as [[cs sol] sw]. intros (Hk & Hno & m & ch & prev & Hrep & Hcs & Hm & Hch & HK & Hsw).
      unfold pmin_body. apply wp_bind, wp_gets.
      assert (Eo : s_opts s = o) by apply (ad_opts _ _ _ (kp_adv _ _ _ Hk)). rewrite Eo.
      assert (Eos : p_objs (s_prob s) = os) by apply (adv_objs _ _ _ (kp_adv _ _ _ Hk)).
      assert (HF : F m) by apply Hm.
      (* block the current candidate *)
      apply wp_bind.
      set (Mid := fun (sw' : option lit) (s1 : st) =>
        keep s0 s1 /\ (if sw' then o_enum o <> NoEnum else o_enum o = NoEnum) /\
        exists ch1, (forall d, In d ch1 -> vle cs d) /\
          K (bk F os (D ++ ch1)) (swS sw' cs) s1 /\ swOK sw' cs s1 /\
          (if sw' then bk F os (D ++ ch1) m else In cs ch1)).
      assert (HMid : wp match o_enum o with
             | NoEnum => c <- dominated_block_clause cs;; (add_clause c;;; ret sw)
             | _ => match sw with Some b => add_clause [b] | None => ret tt end;;;
                    (b <- tmp_block_dominated cs;; ret (Some b))
             end Mid PX s).
      { assert (Henum : o_enum o <> NoEnum ->
          wp (match sw with Some b => add_clause [b] | None => ret tt end;;;
                    (b <- tmp_block_dominated cs;; ret (Some b))) Mid PX s).
        { intros Hen. apply wp_bind. eapply (wp_settle sw prev ch); [left; exact Hk|exact HK|exact Hsw|tauto|].
          intros s1 Hk1 L1 K1. apply wp_bind.
          assert (Eos1 : p_objs (s_prob s1) = os) by (rewrite (adv_objs _ _ _ (kp_adv _ _ _ Hk1)); exact Eos).
          eapply wp_tmp_block_dominated; [exact K1|exact Hm|rewrite Eos1; congruence|].
          intros b s2 Hk2 L2 K2 V2 S2. rewrite Eos1 in K2, S2. apply wp_ret.
          split; [eapply keep_trans; [exact Hk|eapply keep_trans; eauto]|]. split; [exact Hen|].
          exists (ch ++ swpend sw prev). split; [exact Hch|].
          split; [|split; [|exact Hm]].
          - constructor; try apply K2. eapply inv_weaken; [apply K2| |].
            + intros m' _ _ _ [_ H]. exact H.
            + intros a a' Haa H Hnd. destruct (inv_Scl _ _ _ _ _ (k_inv _ _ _ _ _ K2) a a' Haa) as [_ G]; auto.
          - split; [exact V2|exact S2]. }
        destruct (o_enum o) eqn:Heo; [|apply Henum; discriminate|apply Henum; discriminate].
        rewrite (Hno eq_refl) in *. cbn [swpend] in *. rewrite app_nil_r in Hm, Hch.
        apply wp_bind. eapply wp_dominated_block_clause; [exact HK|exact Hm|congruence|].
        intros cl s1 Hk1 L1 K1 V1 S1. rewrite Eos in K1, S1.
        apply wp_bind. eapply (wp_add_clause _ _ (bk F os (D ++ ch ++ [cs]))); [exact K1|exact V1| | | | |].
        - intros a. rewrite app_assoc, bk_app. tauto.
        - intros a a' Haa. pose proof (inv_wf _ _ _ _ _ (k_inv _ _ _ _ _ K1)) as W1.
          assert (Eos1 : p_objs (s_prob s1) = os) by (rewrite (adv_objs _ _ _ (kp_adv _ _ _ Hk1)); exact Eos).
          rewrite <- Eos1. now apply bk_agree.
        - intros m' Hm' Hc. rewrite app_assoc, bk_app. split.
          + apply (inv_sound _ _ _ _ _ (k_inv _ _ _ _ _ K1)), Hm'.
          + intros d [<-|[]]. now apply S1.
        - intros m' Hm' _ _ [_ H]. rewrite app_assoc, bk_app in Hm'. apply H, Hm'. now left.
        - intros s2 K2 Hk2 L2 Ee2 Ec2. apply wp_ret.
          split; [eapply keep_trans; [exact Hk|eapply keep_trans; eauto]|]. split; [reflexivity|].
          exists (ch ++ [cs]). split; [|split; [eapply K_top; eauto|split; [exact Logic.I|]]].
          + intros d Hd. apply in_app_or in Hd. destruct Hd as [Hd|[<-|[]]]; [now apply Hch|apply vle_refl].
          + apply in_or_app. right. now left. }
      eapply wp_mono; [exact HMid| |auto]. clear HMid.
      intros sw' s1 (Hk1 & Hen1 & ch1 & Hch1 & K1 & Hsw1 & Hm1). unfold Mid in *. clear Mid.
      assert (Eos1 : p_objs (s_prob s1) = os) by apply (adv_objs _ _ _ (kp_adv _ _ _ Hk1)).
      apply wp_bind. eapply wp_enforce_dominating; [exact K1|exact HF|rewrite Eos1; congruence|].
      intros ls s2 K2 Hk2 L2 S2 C2. rewrite (adv_objs _ _ _ (kp_adv _ _ _ Hk2)), Eos1 in S2, C2.
      pose proof (keep_trans _ _ _ _ Hk1 Hk2) as Hk02.
      assert (Hsw2 : swOK sw' cs s2) by (eapply swOK_ext; [exact Hsw1|apply (ad_ext _ _ _ (kp_adv _ _ _ Hk2))]).
      assert (Eos2 : p_objs (s_prob s2) = os) by apply (adv_objs _ _ _ (kp_adv _ _ _ Hk02)).
      assert (HPX : forall x s', xok E B x -> solved s2 s' -> PX x s').
      { intros x s' Hx Hs. eapply PX_keep; [exact Hx|exact Hk02|apply solved_keep, Hs|apply Hs|].
        intros _. exact K2. }
      set (blit := match o_enum o with
                   | NoEnum => []
                   | _ => match sw' with Some b => [b] | None => [] end
                   end).
      assert (Hblit : blit = match sw' with Some b => [b] | None => [] end).
      { unfold blit. destruct sw'; [|now rewrite Hen1]. destruct (o_enum o); congruence. }
      cbn [app]. apply wp_bind, wp_k_solve_assumps; [exact HO|apply K2| | |].
      - (* a better solution *)
        intros m' s3 V3 L3 O3 Hm' Hl'.
        apply lits_true_app in Hl'. destruct Hl' as [Hb' Hl'].
        pose proof (K_solved _ _ _ _ _ _ V3 L3 K2) as K3.
        apply wp_bind, wp_check_termination; [exact L3| |].
        2:{ intros x s4 Q4 G4. apply HPX; [now apply good_xok|].
            eapply solved_trans; [exact V3|apply quiet_solved, Q4]. }
        intros s4 Q4 L4. pose proof (K_quiet _ _ _ _ _ _ Q4 L4 K3) as K4.
        pose proof (solved_trans _ _ _ V3 (quiet_solved _ _ Q4)) as V4.
        apply wp_bind. eapply wp_get_solution_and_internal_costs;
          [exact K4|rewrite (qt_ora _ _ Q4); exact O3|].
        intros sol' Hrep'. rewrite (sv_prob _ _ V4) in *. rewrite Eos2.
        apply wp_bind, wp_log_candidate; [exact L4| | |].
        { rewrite ic_length. rewrite (k_nobjs _ _ _ _ _ K4), (sv_prob _ _ V4), Eos2. reflexivity. }
        2:{ intros x s5 Q5 G5. apply HPX; [now apply good_xok|].
            eapply solved_trans; [exact V4|apply quiet_solved, Q5]. }
        intros s5 Q5 L5. pose proof (K_quiet _ _ _ _ _ _ Q5 L5 K4) as K5.
        pose proof (solved_trans _ _ _ V4 (quiet_solved _ _ Q5)) as V5.
        apply wp_bind, wp_check_termination; [exact L5| |].
        2:{ intros x s6 Q6 G6. apply HPX; [now apply good_xok|].
            eapply solved_trans; [exact V5|apply quiet_solved, Q6]. }
        intros s6 Q6 L6. pose proof (K_quiet _ _ _ _ _ _ Q6 L6 K5) as K6.
        pose proof (solved_trans _ _ _ V5 (quiet_solved _ _ Q6)) as V6.
        apply wp_bind, wp_ret, wp_ret. cbn [fst].
        assert (Hle : vle (ic os m') cs) by (apply S2; assumption).
        assert (Hbk : bk F os (D ++ ch1) m') by (apply (inv_sound _ _ _ _ _ (k_inv _ _ _ _ _ K2)), Hm').
        assert (Hnd : ndom os cs m').
        { destruct sw' as [b|].
          - destruct Hsw2 as [_ Hsw2]. apply Hsw2; [exact Hm'|]. apply Hb'. rewrite Hblit. now left.
          - destruct Hbk as [_ Hbk]. apply Hbk. apply in_or_app. now right. }
        split; [|apply vle_sum_lt; assumption].
        split; [eapply keep_trans; [exact Hk02|apply solved_keep, V6]|].
        split; [intros Heo; destruct sw' as [b|]; [contradiction|reflexivity]|].
        exists m', ch1, cs. split; [|split; [reflexivity|split; [|split; [|split; [exact K6|]]]]].
        + destruct Hrep' as (v & Hv & ->). exists v. split; [|reflexivity].
          rewrite (ext_enc _ _ _ (ad_ext _ _ _ (kp_adv _ _ _ Hk02))) in Hv. exact Hv.
        + rewrite app_assoc, bk_app. split; [exact Hbk|]. intros d Hd. destruct sw'; [|destruct Hd].
          destruct Hd as [<-|[]]. exact Hnd.
        + intros d Hd. eapply vle_trans; [exact Hle|]. apply in_app_or in Hd.
          destruct Hd as [Hd|Hd]; [now apply Hch1|]. destruct sw'; [|destruct Hd].
          destruct Hd as [<-|[]]. apply vle_refl.
        + eapply swOK_ext; [exact Hsw2|]. rewrite (sv_prob _ _ V6). apply ext_refl.
      - (* the candidate is minimal *)
        intros core s3 V3 L3 O3 Hcore Hent.
        pose proof (K_solved _ _ _ _ _ _ V3 L3 K2) as K3.
        apply wp_bind, wp_log_end; [exact L3| |].
        2:{ intros x s4 Q4 G4. apply HPX; [now apply good_xok|].
            eapply solved_trans; [exact V3|apply quiet_solved, Q4]. }
        intros s4 Q4 L4. pose proof (K_quiet _ _ _ _ _ _ Q4 L4 K3) as K4.
        pose proof (solved_trans _ _ _ V3 (quiet_solved _ _ Q4)) as V4.
        apply wp_ret.
        split; [eapply keep_trans; [exact Hk02|apply solved_keep, V4]|].
        exists m, ch1. split; [exact Hrep|]. split; [exact Hcs|].
        split; [rewrite bk_app in Hm; apply Hm|]. split; [exact Hch1|]. split; [|split; [exact K4|split]].
        + intros a Ha Hle. destruct (vle_dec cs (ic os a)) as [Hd|Hd]; [exact Hd|]. exfalso.
          destruct (inv_comp _ _ _ _ _ (k_inv _ _ _ _ _ K2) a Ha) as (m2 & G1 & G2 & G3 & G4).
          assert (Eic : ic os a = ic os m2).
          { rewrite <- Eos2. apply (ic_agree SP F _ _ _ (inv_wf _ _ _ _ _ (k_inv _ _ _ _ _ K2)) G1). }
          specialize (Hent m2 G2). apply clause_true_iff in Hent.
          destruct Hent as (l & Hl1 & Hl2). apply Hcore in Hl1.
          assert (Ht : lits_true m2 (blit ++ ls)).
          { apply lits_true_app. split.
            - rewrite Hblit. destruct sw' as [b|]; [|apply lits_true_nil].
              intros l' [<-|[]]. apply G4. unfold ndom. rewrite <- Eic. exact Hd.
            - apply C2; [| exact G3 | rewrite <- Eic; exact Hle].
              apply (inv_AF _ _ _ _ _ (k_inv _ _ _ _ _ K2)), (inv_sound _ _ _ _ _ (k_inv _ _ _ _ _ K2)), G2. }
          apply Ht in Hl1. rewrite lit_true_lnot, Hl2 in Hl1. discriminate.
        + eapply swOK_ext; [exact Hsw2|]. rewrite (sv_prob _ _ V4). apply ext_refl.
        + destruct sw'; split; assumption.
      - intros x s3 V3 G3. apply HPX; [now apply good_xok|exact V3].
    Qed.

    Lemma p_minimization_ok sol m s : keep s0 s -> sol_rep me m sol -> bk F os D m ->
      K (bk F os D) (fun _ => True) s ->
      wp (p_minimization E (ic os m) sol []) PQ PX s.
    Proof.
      intros Hk Hrep Hm HK. unfold p_minimization.
      assert (Eos : p_objs (s_prob s) = os) by apply (adv_objs _ _ _ (kp_adv _ _ _ Hk)).
      assert (HK' : K (bk F os (D ++ [])) (fun _ => True) s) by (rewrite app_nil_r; exact HK).
      apply wp_bind, wp_gets, wp_bind, wp_guard.
      { apply Nat.eqb_eq. rewrite ic_length, (k_nobjs _ _ _ _ _ HK). now rewrite Eos. }
      apply wp_bind, wp_log_start; [apply HK| |].
      2:{ intros x s1 Q1 G1. eapply PX_keep with (s := s) (D' := []);
            [now apply good_xok|exact Hk|apply quiet_keep, Q1|apply Q1|intros _; exact HK']. }
      intros s1 Q1 L1.
      apply wp_loop with (Inv := PI) (mu := fun x _ => list_sum (fst (fst x))).
      - apply pmin_body_ok.
      - split; [eapply keep_trans; [exact Hk|apply quiet_keep, Q1]|]. split; [auto|].
        exists m, [], []. split; [exact Hrep|]. split; [reflexivity|]. cbn [swpend app].
        rewrite app_nil_r. split; [exact Hm|]. split; [intros ? []|].
        split; [|exact Logic.I]. apply (K_quiet _ _ _ _ _ _ Q1 L1 HK).
      - intros [[cs' sol'] sw'] s' (Hk' & Hno & m' & ch & prev & _ & _ & _ & _ & K' & _) Hle.
        cbn [fst] in Hle. eapply PX_keep with (s := s') (D' := ch); auto using keep_refl.
        + right. split; [reflexivity|]. pose proof (st_sum _ _ _ HS m). lia.
        + intros _. exact K'.
    Qed.
  End PMinRun.
End PMin.
