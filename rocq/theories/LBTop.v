(** * Correctness of LowerBounding *)
From Coq Require Import List Bool Arith Lia ZArith.
From Verif Require Import Base BaseLemmas MTypes MKernel MPMinimal MLowerBounding EncSpec Wp Sem
  Kern Yield PMin PMinTop.
Import ListNotations.

Lemma nth_error_ext_eq {A} (l l' : list A) : (forall i, nth_error l i = nth_error l' i) -> l = l'.
Proof.
  revert l'; induction l as [|x l IH]; intros [|y l'] H; auto.
  - specialize (H 0); discriminate.
  - specialize (H 0); discriminate.
  - f_equal; [specialize (H 0); cbn in H; congruence|]. apply IH. intros i. apply (H (S i)).
Qed.

(** Room left below the caps *)
Fixpoint room (f : fence) (caps : list nat) : nat :=
  match f, caps with
  | (b, _) :: f', c :: caps' => (c - b) + room f' caps'
  | _, _ => 0
  end.
Lemma room_le f caps : room f caps <= list_sum caps.
Proof.
  revert caps; induction f as [|[b a] f IH]; intros [|c caps]; cbn; try lia.
  specialize (IH caps). change (fold_right Nat.add 0 caps) with (list_sum caps). lia.
Qed.
Lemma room_set f caps i b a b' a' c : nth_error f i = Some (b, a) -> nth_error caps i = Some c ->
  b < c -> b < b' -> room (set_nth i (b', a') f) caps < room f caps.
Proof.
  revert f caps; induction i as [|i IH]; intros [|[b1 a1] f] [|c1 caps] H1 H2 H3 H4; cbn in *; try discriminate.
  - injection H1 as -> ->. injection H2 as ->. lia.
  - specialize (IH _ _ H1 H2 H3 H4). lia.
Qed.

Section LB.
  Context {I : enc_impl} (SP : enc_spec I).
  Notation M := (M I).
  Notation st := (st I).
  Variable E : environ.
  Hypothesis HO : oracle_ok E.
  Variable F : asg -> Prop.
  Variable B : nat.

  Notation K := (K SP F).
  Notation keep := (keep SP).
  Notation adv := (adv SP).
  Notation Stat := (Stat F B).
  Notation rrel := (rrel SP).

  Definition caps (p : prob I) : list nat := map (oe_cap SP) (p_encs p).
  Lemma ext_caps p p' : ext SP p p' -> caps p' = caps p.
  Proof.
    intros H. apply nth_error_ext_eq. intros i. unfold caps. rewrite !nth_error_map.
    destruct (nth_error (p_encs p) i) as [e|] eqn:He.
    - destruct (ext_encs _ _ _ H i e He) as (e' & -> & _ & Hc & _). cbn. now rewrite Hc.
    - apply nth_error_None in He. rewrite <- (ext_len _ _ _ H) in He.
      apply nth_error_None in He. now rewrite He.
  Qed.

  (** A fence that fits the encodings *)
  Record FI (f : fence) (p : prob I) : Prop := mkFI {
    fi_len : length f = length (p_encs p);
    fi_ent : forall i b a e, nth_error f i = Some (b, a) -> nth_error (p_encs p) i = Some e ->
      oe_offset e <= b /\ (a <> [] -> b < oe_cap SP e) }.
  Lemma FI_ext f p p' : FI f p -> ext SP p p' -> FI f p'.
  Proof.
    intros [H1 H2] H. constructor; [rewrite H1; symmetry; apply H|].
    intros i b a e' Hf He'.
    destruct (nth_error (p_encs p) i) as [e|] eqn:He.
    - destruct (ext_encs _ _ _ H i e He) as (e2 & He2 & Ho & Hc & _).
      rewrite He' in He2. injection He2 as <-. destruct (H2 i b a e Hf He) as [G1 G2]. split; [lia|].
      rewrite Hc. exact G2.
    - apply nth_error_None in He. rewrite <- (ext_len _ _ _ H) in He.
      apply nth_error_None in He. congruence.
  Qed.

  Lemma room_ext f p p' : ext SP p p' -> room f (caps p') = room f (caps p).
  Proof. intros H. now rewrite (ext_caps _ _ H). Qed.

  (** ** Raising the fence *)
  (** [f'] results from [f] by raising exactly the entries marked in [found] *)
  Record raised (A : asg -> Prop) (p : prob I) (f : fence) (found : list bool) (f' : fence) : Prop := mkRaised {
    ra_len : length f' = length f;
    ra_flen : length found = length f;
    ra_no : forall i, nth_error found i = Some false -> nth_error f' i = nth_error f i;
    ra_yes : forall i b a, nth_error found i = Some true -> nth_error f i = Some (b, a) ->
      exists b' a', nth_error f' i = Some (b', a') /\ b < b' /\
        (forall o m, nth_error (p_objs p) i = Some o -> A m -> icost o m <= b \/ b' <= icost o m) }.

  Lemma raised_ext A p p' f found f' : raised A p f found f' -> ext SP p p' -> raised A p' f found f'.
  Proof. intros [] H. constructor; auto. rewrite (ext_objs _ _ _ H). exact ra_yes0. Qed.

  Lemma find_match_some c f found i0 i : find_match c i0 found f = Some i ->
    exists j b a, i = i0 + j /\ nth_error f j = Some (b, a) /\ nth_error found j = Some false /\ a <> [].
  Proof.
    revert found i0; induction f as [|[b a] f IH]; intros [|x found] i0 H; cbn in H; try discriminate.
    destruct (negb x && existsb _ a) eqn:e.
    - injection H as <-. apply andb_prop in e. destruct e as [e1 e2]. exists 0, b, a.
      split; [lia|]. split; [reflexivity|]. split; [destruct x; [discriminate|reflexivity]|].
      intros ->. discriminate.
    - destruct (IH _ _ H) as (j & b' & a' & -> & G1 & G2 & G3). exists (S j), b', a'.
      split; [lia|]. auto.
  Qed.
  Lemma find_match_none c f found i0 : find_match c i0 found f = None -> length found = length f ->
    forall j b a, nth_error f j = Some (b, a) -> nth_error found j = Some false -> ~ In (lnot c) a.
  Proof.
    revert found i0; induction f as [|[b a] f IH]; intros [|x found] i0 H Hl j b' a' Hj Hf Hin;
      cbn in *; try discriminate; try lia.
    - destruct j; discriminate.
    - destruct (negb x && existsb _ a) eqn:e; [discriminate|].
      destruct j as [|j]; cbn in Hj, Hf.
      + injection Hj as -> ->. injection Hf as ->. cbn in e.
        assert (Ht : existsb (fun alit => lit_eqb (lnot alit) c) a' = true).
        { apply existsb_exists. exists (lnot c). split; [exact Hin|]. apply lit_eqb_eq. apply lnot_lnot. }
        congruence.
      + eapply (IH found (S i0)); eauto.
  Qed.

  (** [fence_raise] *)
  Lemma wp_fence_raise A idx b a (Q : unit -> st -> Prop) (X : exit -> st -> Prop) s :
    K A (fun _ => True) s -> FI (s_fence s) (s_prob s) -> nth_error (s_fence s) idx = Some (b, a) -> a <> [] ->
    (forall s' b' a', K A (fun _ => True) s' -> s_fence s' = set_nth idx (b', a') (s_fence s) ->
       FI (s_fence s') (s_prob s') -> s_front s' = s_front s -> rrel s s' ->
       b < b' -> (forall o m, nth_error (p_objs (s_prob s)) idx = Some o -> A m ->
                    icost o m <= b \/ b' <= icost o m) ->
       room (s_fence s') (caps (s_prob s')) < room (s_fence s) (caps (s_prob s)) -> Q tt s') ->
    wp (fence_raise idx) Q X s.
  Proof.
    intros HK HF Hi Ha HQ. unfold fence_raise.
    pose proof (inv_wf _ _ _ _ _ (k_inv _ _ _ _ _ HK)) as W.
    apply wp_bind, wp_gets, wp_bind, (wp_unwrap _ (b, a)); [exact Hi|].
    assert (Hlt : idx < length (p_encs (s_prob s))).
    { rewrite <- (fi_len _ _ HF). apply nth_error_Some. congruence. }
    destruct (nth_error (p_encs (s_prob s)) idx) as [e|] eqn:He; [|apply nth_error_None in He; lia].
    destruct (fi_ent _ _ HF idx b a e Hi He) as [Hoff Hcap]. specialize (Hcap Ha).
    apply wp_bind. unfold get_enc at 1. apply wp_bind, wp_gets, (wp_unwrap _ e); [exact He|].
    assert (Hnc : e <> EConstant) by (intros ->; unfold oe_cap in Hcap; cbn in Hcap; lia).
    assert (Hnx : exists b', oe_next_higher e b = Some b' /\ b < b' /\
              (forall o m, nth_error (p_objs (s_prob s)) idx = Some o -> A m ->
                 icost o m <= b \/ b' <= icost o m)).
    { assert (Hg : forall b', (forall m, oe_ecost SP e m <= b \/ b' <= oe_ecost SP e m) ->
                forall o m, nth_error (p_objs (s_prob s)) idx = Some o -> A m ->
                  icost o m <= b \/ b' <= icost o m).
      { intros b' Hb o m Ho Hm.
        destruct (inv_comp _ _ _ _ _ (k_inv _ _ _ _ _ HK) m Hm) as (m' & G1 & G2 & G3 & _).
        rewrite (icost_agree _ _ _ _ _ _ W (nth_error_In _ _ Ho) G1).
        rewrite (wf_eq _ _ _ W idx o e m' Ho He Hnc); [apply Hb| |].
        - apply (inv_AF _ _ _ _ _ (k_inv _ _ _ _ _ HK)).
          eapply (inv_Acl _ _ _ _ _ (k_inv _ _ _ _ _ HK)); eauto.
        - apply G3. eapply nth_error_In; eauto. }
      destruct e as [e off|e off|]; cbn [oe_offset oe_next_higher] in Hoff |- *; [| |congruence].
      - destruct (b <? off) eqn:e1; [apply Nat.ltb_lt in e1; lia|]. eexists. split; [reflexivity|].
        pose proof (es_next_gt _ SP e (b - off)). split; [lia|]. apply Hg. intros m. unfold oe_ecost; cbn.
        destruct (le_lt_dec (es_cost SP e m) (b - off)) as [Hle|Hgt]; [left; lia|right].
        pose proof (es_next_ge _ SP e (b - off) m Hgt). lia.
      - exists (b + 1). split; [reflexivity|]. split; [lia|]. apply Hg. intros m. lia. }
    destruct Hnx as (b' & Hnx & Hbb & Hskip).
    apply wp_bind. cbn [fst]. apply (wp_unwrap _ b'); [exact Hnx|].
    apply wp_bind. eapply wp_extend_encoding; [exact HK|exact He|].
    intros e' s1 K1 Hk1 L1 Hs1 Hn1 Ho1 Hc1 Hcc1 Henf.
    apply wp_bind. unfold get_enc. apply wp_bind, wp_gets, (wp_unwrap _ e'); [exact Hn1|].
    destruct (oe_enforce_ub e' b') as [a'|] eqn:Ha'; [|exfalso; apply (Henf b'); auto; lia].
    apply wp_bind, (wp_unwrap _ a'); [reflexivity|]. apply wp_modify.
    pose proof (kp_adv _ _ _ Hk1) as Hadv.
    pose proof (ad_ext _ _ _ Hadv) as Hext.
    apply (HQ _ b' a'); cbn [s_fence set_fence s_prob s_front].
    - destruct K1. constructor; assumption.
    - now rewrite (ad_fence _ _ _ Hadv).
    - rewrite (ad_fence _ _ _ Hadv).
      pose proof (FI_ext _ _ _ HF Hext) as [G1 G2]. constructor; [now rewrite set_nth_length|].
      intros j bj aj ej Hj Hej. destruct (Nat.eq_dec j idx) as [->|Hne].
      + rewrite set_nth_same in Hj by (rewrite (fi_len _ _ HF); exact Hlt). injection Hj as <- <-.
        rewrite Hn1 in Hej. injection Hej as <-. split; [lia|]. intros Hne.
        destruct (le_lt_dec (oe_cap SP e') b') as [Hle|]; [|assumption].
        exfalso. apply Hne. eapply oe_enforce_cap; eauto.
      + rewrite set_nth_other in Hj by auto. eauto.
    - exact (kp_front _ _ _ Hk1).
    - destruct (adv_rrel _ _ _ Hadv). constructor; assumption.
    - exact Hbb.
    - exact Hskip.
    - rewrite (ad_fence _ _ _ Hadv), (room_ext _ _ _ Hext).
      eapply room_set; [exact Hi| |exact Hcap|exact Hbb]. unfold caps.
      apply (map_nth_error (oe_cap SP)). exact He.
  Qed.

  (** the loop over the core *)
  Lemma wp_fence_core_loop A (f0 : fence) core : forall found (Q : unit -> st -> Prop) (X : exit -> st -> Prop) s,
    K A (fun _ => True) s -> FI (s_fence s) (s_prob s) -> raised A (s_prob s) f0 found (s_fence s) ->
    (forall s' found', K A (fun _ => True) s' -> FI (s_fence s') (s_prob s') ->
       raised A (s_prob s') f0 found' (s_fence s') -> s_front s' = s_front s -> rrel s s' ->
       room (s_fence s') (caps (s_prob s')) <= room (s_fence s) (caps (s_prob s)) ->
       ((exists clit j b a, In clit core /\ nth_error f0 j = Some (b, a) /\
           nth_error found j = Some false /\ In (lnot clit) a) ->
        room (s_fence s') (caps (s_prob s')) < room (s_fence s) (caps (s_prob s)) /\
        exists j, nth_error found' j = Some true) ->
       (forall j, nth_error found j = Some true -> nth_error found' j = Some true) ->
       Q tt s') ->
    wp (fence_core_loop core found) Q X s.
  Proof.
    induction core as [|c core IH]; intros found Q X s HK HF HR HQ; cbn [fence_core_loop].
    - apply wp_ret. eapply HQ; eauto using rrel_refl. intros (clit & j & b & a & [] & _).
    - apply wp_bind, wp_gets.
      destruct (find_match c 0 found (s_fence s)) as [idx|] eqn:Hm.
      + destruct (find_match_some _ _ _ _ _ Hm) as (j & b & a & Hj & Hf & Hfo & Ha). cbn in Hj. subst j.
        apply wp_bind. eapply wp_fence_raise; [exact HK|exact HF|exact Hf|exact Ha|].
        intros s1 b' a' K1 Hs1 F1 Hfr1 R1 Hbb Hsk Hro.
        assert (Hlt : idx < length found) by (apply nth_error_Some; congruence).
        assert (Hlt2 : idx < length (s_fence s)) by (apply nth_error_Some; congruence).
        assert (HR1 : raised A (s_prob s1) f0 (set_nth idx true found) (s_fence s1)).
        { apply raised_ext with (p := s_prob s); [|apply R1]. destruct HR as [G1 G2 G3 G4]. rewrite Hs1.
          constructor.
          - now rewrite set_nth_length.
          - now rewrite set_nth_length.
          - intros i Hi. destruct (Nat.eq_dec i idx) as [->|Hne].
            + rewrite set_nth_same in Hi by exact Hlt. discriminate.
            + rewrite set_nth_other in Hi by auto. rewrite set_nth_other by auto. auto.
          - intros i bi ai Hi Hfi. destruct (Nat.eq_dec i idx) as [->|Hne].
            + rewrite (G3 idx Hfo), Hfi in Hf. injection Hf as -> ->. exists b', a'.
              rewrite set_nth_same by exact Hlt2. split; [reflexivity|]. split; [exact Hbb|exact Hsk].
            + rewrite set_nth_other in Hi by auto. rewrite set_nth_other by auto. eauto. }
        eapply IH; [exact K1|exact F1|exact HR1|].
        intros s2 found' K2 F2 R2 Hfr2 Rr2 Hro2 _ Hmono. eapply HQ; eauto.
        * congruence.
        * eapply rrel_trans; eauto.
        * lia.
        * intros _. split; [lia|]. exists idx. apply Hmono. now apply set_nth_same.
        * intros j Hj. apply Hmono. destruct (Nat.eq_dec j idx) as [->|Hne].
          -- now apply set_nth_same.
          -- rewrite set_nth_other by auto. exact Hj.
      + eapply IH; [exact HK|exact HF|exact HR|].
        intros s2 found' K2 F2 R2 Hfr2 Rr2 Hro2 Hex Hmono. eapply HQ; eauto.
        intros (clit & j & b & a & [->|Hin] & Hj & Hfo & Hina); [|apply Hex; eauto 10].
        exfalso. eapply find_match_none; [exact Hm| | |exact Hfo|exact Hina].
        * rewrite (ra_flen _ _ _ _ _ HR). symmetry. apply HR.
        * rewrite (ra_no _ _ _ _ _ HR j Hfo). exact Hj.
  Qed.

  Lemma raised_increased A p f found f' : raised A p f found f' ->
    (exists j, nth_error found j = Some true) ->
    fence_increased (fence_bounds f) (fence_bounds f') = true.
  Proof.
    intros HR [j Hj]. unfold fence_increased. apply andb_true_intro.
    assert (Hnth : forall i b b', nth_error (combine (fence_bounds f) (fence_bounds f')) i = Some (b, b') ->
              exists a a', nth_error f i = Some (b, a) /\ nth_error f' i = Some (b', a')).
    { unfold fence_bounds. clear. revert f'. induction f as [|[b a] f IH]; intros [|[b' a'] f'] [|i] x y H;
        cbn in *; try discriminate.
      - injection H as <- <-. eauto.
      - eauto. }
    split.
    - apply forallb_forall. intros [b b'] Hin. apply In_nth_error in Hin. destruct Hin as [i Hi].
      destruct (Hnth _ _ _ Hi) as (a & a' & H1 & H2). cbn [fst snd]. apply Nat.leb_le.
      destruct (nth_error found i) as [[]|] eqn:e.
      + destruct (ra_yes _ _ _ _ _ HR i b a e H1) as (b2 & a2 & G1 & G2 & _).
        rewrite H2 in G1. injection G1 as -> ->. lia.
      + rewrite (ra_no _ _ _ _ _ HR i e), H1 in H2. injection H2 as -> ->. lia.
      + apply nth_error_None in e. rewrite (ra_flen _ _ _ _ _ HR) in e. apply nth_error_None in e. congruence.
    - destruct (nth_error f j) as [[b a]|] eqn:Hf.
      2:{ apply nth_error_None in Hf. rewrite <- (ra_flen _ _ _ _ _ HR) in Hf.
          apply nth_error_None in Hf. congruence. }
      destruct (ra_yes _ _ _ _ _ HR j b a Hj Hf) as (b' & a' & G1 & G2 & _).
      apply existsb_exists. exists (b, b'). split; [|now apply Nat.ltb_lt].
      clear - Hf G1. revert j f f' Hf G1. induction j as [|j IH]; intros [|[b1 a1] f] [|[b2 a2] f'] Hf G1;
        cbn in *; try discriminate.
      + injection Hf as -> ->. injection G1 as -> ->. now left.
      + right. eapply IH; eauto.
  Qed.

  (** ** [update_fence] *)
  Lemma wp_update_fence A core (Q : unit -> st -> Prop) (X : exit -> st -> Prop) s :
    K A (fun _ => True) s -> FI (s_fence s) (s_prob s) -> core <> [] ->
    (forall l, In l core -> In (lnot l) (fence_assumps (s_fence s))) ->
    (forall s' found, K A (fun _ => True) s' -> FI (s_fence s') (s_prob s') ->
       raised A (s_prob s') (s_fence s) found (s_fence s') -> (exists j, nth_error found j = Some true) ->
       s_front s' = s_front s -> rrel s s' ->
       room (s_fence s') (caps (s_prob s')) < room (s_fence s) (caps (s_prob s)) -> Q tt s') ->
    (forall x s', good_exit x -> Inv SP F (s_prob s') A (fun _ => True) -> FI (s_fence s') (s_prob s') ->
       s_front s' = s_front s -> rrel s s' -> X x s') ->
    wp (update_fence E core) Q X s.
  Proof.
    intros HK HF Hne Hcore HQ HX. unfold update_fence.
    apply wp_bind, wp_gets, wp_bind. set (f0 := s_fence s) in *.
    eapply wp_fence_core_loop with (A := A) (f0 := f0); [exact HK|exact HF| |].
    { constructor.
      - reflexivity.
      - apply repeat_length.
      - reflexivity.
      - intros i b a Hi. exfalso. apply nth_error_In, repeat_spec in Hi. discriminate. }
    intros s1 found K1 F1 R1 Hfr1 Rr1 Hro1 Hex _.
    assert (Hex' : exists clit j b a, In clit core /\ nth_error f0 j = Some (b, a) /\
           nth_error (repeat false (length f0)) j = Some false /\ In (lnot clit) a).
    { destruct core as [|c core]; [congruence|]. specialize (Hcore c (or_introl eq_refl)).
      unfold fence_assumps in Hcore. apply in_flat_map in Hcore. destruct Hcore as ([b a] & Hin & Ha).
      apply In_nth_error in Hin. destruct Hin as [j Hj]. exists c, j, b, a.
      split; [now left|]. split; [exact Hj|]. split; [|exact Ha].
      apply nth_error_repeat. apply nth_error_Some. congruence. }
    specialize (Hex Hex'). destruct Hex as [Hlt Hfd].
    apply wp_bind, wp_gets. apply wp_emit.
    - intros s2 Q2 L2.
      assert (L2' : lims_ok s2) by (unfold lims_ok; rewrite L2; apply K1).
      pose proof (K_quiet _ _ _ _ _ _ Q2 L2' K1) as K2.
      assert (Hf2 : s_fence s2 = s_fence s1) by apply (fr_fence _ _ (qt_fr _ _ Q2)).
      assert (Hp2 : s_prob s2 = s_prob s1) by apply Q2.
      eapply (HQ s2 found); rewrite ?Hf2, ?Hp2; auto.
      + rewrite (fr_front _ _ (qt_fr _ _ Q2)). exact Hfr1.
      + eapply rrel_trans; [exact Rr1|]. apply adv_rrel, (kp_adv _ _ _ (quiet_keep _ _ _ Q2)).
    - intros s2 Q2.
      assert (Hf2 : s_fence s2 = s_fence s1) by apply (fr_fence _ _ (qt_fr _ _ Q2)).
      assert (Hp2 : s_prob s2 = s_prob s1) by apply Q2.
      apply HX; rewrite ?Hf2, ?Hp2; auto.
      + exact Logic.I.
      + apply K1.
      + rewrite (fr_front _ _ (qt_fr _ _ Q2)). exact Hfr1.
      + eapply rrel_trans; [exact Rr1|]. apply adv_rrel, (kp_adv _ _ _ (quiet_keep _ _ _ Q2)).
  Qed.

  (** ** Initialising the fence *)
  Lemma wp_fence_init A (Q : unit -> st -> Prop) (X : exit -> st -> Prop) s :
    K A (fun _ => True) s -> (s_fence s = [] \/ FI (s_fence s) (s_prob s)) ->
    (forall s', K A (fun _ => True) s' -> FI (s_fence s') (s_prob s') ->
       s_front s' = s_front s -> rrel s s' -> Q tt s') ->
    wp fence_init Q X s.
  Proof.
    intros HK HF HQ. unfold fence_init. apply wp_bind, wp_gets.
    destruct (s_fence s) as [|x f] eqn:Ef.
    2:{ apply wp_ret. destruct HF as [HF|HF]; [discriminate|]. rewrite <- Ef in HF.
        apply HQ; auto using rrel_refl. }
    clear HF. apply wp_bind, wp_gets.
    apply wp_forM with (P := fun pre s' => K A (fun _ => True) s' /\ s_front s' = s_front s /\
      rrel s s' /\ length (s_fence s') = length pre /\
      forall i b a e, nth_error (s_fence s') i = Some (b, a) -> nth_error (p_encs (s_prob s')) i = Some e ->
        oe_offset e <= b /\ (a <> [] -> b < oe_cap SP e)).
    - intros pre idx post s1 Hl (K1 & Hf1 & R1 & Hlen & Hent).
      assert (Hidx : idx = length pre /\ idx < length (p_encs (s_prob s))).
      { assert (Hle : length (seq 0 (length (p_encs (s_prob s)))) = length (pre ++ idx :: post)) by congruence.
        rewrite seq_length, app_length in Hle. cbn in Hle.
        assert (Hn : nth (length pre) (seq 0 (length (p_encs (s_prob s)))) 0 = idx).
        { rewrite Hl, app_nth2, Nat.sub_diag by lia. reflexivity. }
        rewrite seq_nth in Hn by lia. lia. }
      destruct Hidx as [Hidx Hlt]. rewrite <- (ext_len _ _ _ (rr_ext _ _ _ R1)) in Hlt.
      unfold fence_init_one.
      destruct (nth_error (p_encs (s_prob s1)) idx) as [e|] eqn:He; [|apply nth_error_None in He; lia].
      apply wp_bind. unfold get_enc at 1. apply wp_bind, wp_gets, (wp_unwrap _ e); [exact He|].
      apply wp_bind. eapply wp_extend_encoding; [exact K1|exact He|].
      intros e' s2 K2 Hk2 L2 Hs2 Hn2 Ho2 Hc2 Hcc2 Henf.
      apply wp_bind. unfold get_enc. apply wp_bind, wp_gets, (wp_unwrap _ e'); [exact Hn2|].
      destruct (oe_enforce_ub e' (oe_offset e')) as [a|] eqn:Ha;
        [|exfalso; apply (Henf (oe_offset e')); auto; lia].
      apply wp_bind, (wp_unwrap _ a); [reflexivity|]. apply wp_modify.
      pose proof (kp_adv _ _ _ Hk2) as Hadv. pose proof (ad_ext _ _ _ Hadv) as Hext.
      cbn [s_fence set_fence s_prob s_front]. rewrite (ad_fence _ _ _ Hadv). split; [|split; [|split; [|split]]].
      + destruct K2. constructor; assumption.
      + rewrite <- Hf1. exact (kp_front _ _ _ Hk2).
      + eapply rrel_trans; [exact R1|]. destruct (adv_rrel _ _ _ Hadv). constructor; assumption.
      + rewrite !app_length, Hlen. reflexivity.
      + intros i bi ai ei Hi Hei.
        destruct (lt_dec i (length (s_fence s1))) as [Hil|Hil].
        * rewrite nth_error_app1 in Hi by exact Hil.
          destruct (nth_error (p_encs (s_prob s1)) i) as [ei1|] eqn:Hei1.
          -- destruct (ext_encs _ _ _ Hext i ei1 Hei1) as (e2 & G1 & G2 & G3 & _).
             rewrite Hei in G1. injection G1 as <-. rewrite G2, G3. eapply Hent; eauto.
          -- apply nth_error_None in Hei1. rewrite <- (ext_len _ _ _ Hext) in Hei1.
             apply nth_error_None in Hei1. congruence.
        * rewrite nth_error_app2 in Hi by lia.
          destruct (i - length (s_fence s1)) as [|k] eqn:Hk; [|destruct k; discriminate].
          cbn in Hi. injection Hi as <- <-. assert (i = idx) by lia. subst i.
          rewrite Hn2 in Hei. injection Hei as <-. split; [lia|]. intros Hne.
          destruct (le_lt_dec (oe_cap SP e') (oe_offset e')) as [Hle|]; [|assumption].
          exfalso. apply Hne. eapply oe_enforce_cap; eauto.
    - split; [exact HK|]. split; [reflexivity|]. split; [apply rrel_refl|].
      rewrite Ef. split; [reflexivity|]. intros [|i] ? ? ? H; discriminate.
    - intros s' (K1 & Hf1 & R1 & Hlen & Hent). apply HQ; auto. constructor; [|exact Hent].
      rewrite Hlen, seq_length. symmetry. apply R1.
  Qed.

  (** ** The main loop *)
  Section Run.
    Variables (D0 L0 : list (list nat)) (s0 : st).
    Let os := p_objs (s_prob s0).
    Let mo := vm_max_orig (p_vm (s_prob s0)).
    Let o := s_opts s0.
    Hypothesis HS : Stat os mo o.
    Notation MI := (MI SP F D0 L0 s0).
    Notation XI := (XI SP E F B D0 L0 s0).
    Notation QI := (QI SP F D0 L0 s0).

    Definition LX (x : exit) (s : st) : Prop :=
      XI x s /\ (s_fence s = [] \/ FI (s_fence s) (s_prob s)).
    Definition LQ (s : st) : Prop := QI s /\ FI (s_fence s) (s_prob s).

    Lemma FI_solved s s' : FI (s_fence s) (s_prob s) -> solved s s' -> FI (s_fence s') (s_prob s').
    Proof. intros H [V1 V2]. rewrite (fr_fence _ _ V1), V2. exact H. Qed.
    Lemma MI_LX k s x s' : MI k s -> FI (s_fence s) (s_prob s) -> solved s s' -> xok E B x -> LX x s'.
    Proof.
      intros HM HF V Hx. split; [eapply MI_XI; eauto|right; eapply FI_solved; eauto].
    Qed.

    Lemma harvest_ok k0 s : MI k0 s -> k0 <= B -> FI (s_fence s) (s_prob s) ->
      (exists m, sat m (p_cls (s_prob s)) /\ lits_true m (fence_assumps (s_fence s))) ->
      wp (harvest E [])
         (fun _ s' => exists k', k' < k0 /\ MI k' s' /\ FI (s_fence s') (s_prob s') /\
            room (s_fence s') (caps (s_prob s')) = room (s_fence s) (caps (s_prob s)))
         LX s.
    Proof.
      intros HM HkB HF Hsat. unfold harvest.
      destruct (MI_K _ _ _ _ _ _ _ HM) as [D HK].
      apply wp_bind, wp_gets, wp_bind, wp_gets, wp_bind, wp_guard.
      { apply Nat.eqb_eq. rewrite (wf_len _ _ _ (inv_wf _ _ _ _ _ (k_inv _ _ _ _ _ HK))).
        symmetry. apply HK. }
      apply wp_bind, wp_log_start; [apply HK| |].
      2:{ intros x s2 Q2 G2. eapply MI_LX; [exact HM|exact HF|apply quiet_solved, Q2|now apply good_xok]. }
      intros s1 Q1 L1.
      set (HI := fun (k : nat) (_ : unit) (t : st) =>
        MI k t /\ FI (s_fence t) (s_prob t) /\ k <= k0 /\
        room (s_fence t) (caps (s_prob t)) = room (s_fence s) (caps (s_prob s)) /\
        (k < k0 \/ exists m, sat m (p_cls (s_prob t)) /\ lits_true m (fence_assumps (s_fence t)))).
      apply wp_loop_idx with (Inv := HI) (k := k0).
      - clear s1 Q1 L1 HM HF Hsat HK. intros k [] s1 (M1 & F1 & Hk1 & Hr1 & Hs1). unfold harvest_body.
        apply wp_bind, wp_gets. cbn [app].
        apply wp_bind, wp_k_solve_assumps; [exact HO|eapply MI_lims; eauto| | |].
        + intros m s2 V2 L2 O2 Hm Hfm. pose proof (MI_solved _ _ _ _ _ _ _ _ M1 V2 L2) as M2.
          pose proof (FI_solved _ _ F1 V2) as F2.
          apply wp_bind, wp_check_termination; [exact L2| |].
          2:{ intros x s3 Q3 G3. eapply MI_LX; [exact M2|exact F2|apply quiet_solved, Q3|now apply good_xok]. }
          intros s3 Q3 L3. pose proof (MI_quiet _ _ _ _ _ _ _ _ M2 Q3 L3) as M3.
          pose proof (FI_solved _ _ F2 (quiet_solved _ _ Q3)) as F3.
          apply wp_bind. eapply wp_mono; [eapply (step_ok SP E HO F B D0 L0 s0 HS k s3 m M3)| |].
          * rewrite (qt_ora _ _ Q3). exact O2.
          * rewrite (qt_prob _ _ Q3), (sv_prob _ _ V2). exact Hm.
          * intros [] s4 ((k' & Hk' & M4) & Hf4 & E4). apply wp_ret. exists k'. split; [exact Hk'|].
            split; [exact M4|]. split; [rewrite Hf4; eapply FI_ext; eauto|]. split; [lia|].
            split; [|left; lia]. rewrite (room_ext _ _ _ E4), Hf4.
            rewrite (qt_prob _ _ Q3), (sv_prob _ _ V2).
            rewrite (fr_fence _ _ (qt_fr _ _ Q3)), (fr_fence _ _ (sv_fr _ _ V2)). exact Hr1.
          * intros x s4 (X4 & Hf4 & E4). split; [exact X4|]. right. rewrite Hf4. eapply FI_ext; eauto.
        + intros core s2 V2 L2 O2 Hcore Hent. pose proof (MI_solved _ _ _ _ _ _ _ _ M1 V2 L2) as M2.
          pose proof (FI_solved _ _ F1 V2) as F2.
          apply wp_bind, wp_log_end; [exact L2| |].
          2:{ intros x s3 Q3 G3. eapply MI_LX; [exact M2|exact F2|apply quiet_solved, Q3|now apply good_xok]. }
          intros s3 Q3 L3. apply wp_ret. exists k.
          destruct Hs1 as [Hlt|(m & Hm1 & Hm2)].
          * split; [exact Hlt|]. split; [eapply MI_quiet; eauto|].
            split; [apply (FI_solved _ _ F2 (quiet_solved _ _ Q3))|].
            rewrite (qt_prob _ _ Q3), (sv_prob _ _ V2).
            rewrite (fr_fence _ _ (qt_fr _ _ Q3)), (fr_fence _ _ (sv_fr _ _ V2)). exact Hr1.
          * exfalso. specialize (Hent m Hm1). apply clause_true_iff in Hent. destruct Hent as (l & Hl & Ht).
            specialize (Hcore l Hl). specialize (Hm2 _ Hcore). rewrite lit_true_lnot, Ht in Hm2. discriminate.
        + intros x s2 V2 G2. eapply MI_LX; [exact M1|exact F1|exact V2|now apply good_xok].
      - pose proof (quiet_solved _ _ Q1) as V1. split; [eapply MI_quiet; eauto|].
        split; [eapply FI_solved; eauto|]. split; [lia|].
        rewrite (qt_prob _ _ Q1), (fr_fence _ _ (qt_fr _ _ Q1)). split; [reflexivity|right; exact Hsat].
      - intros k' [] s' (M' & F' & _) Hle. eapply MI_LX; [exact M'|exact F'|apply solved_refl|].
        right. split; [reflexivity|lia].
    Qed.

    (** invariant of the main loop: [k] bounds the cost vectors still to find plus the room
        below the caps of the encodings *)
    Definition LI (k : nat) (s : st) : Prop :=
      exists k1, MI k1 s /\ FI (s_fence s) (s_prob s) /\
        k1 + room (s_fence s) (caps (s_prob s)) <= k /\ k <= B.

    Lemma lb_body_ok k u s : LI k s ->
      wp (lb_body E u)
         (fun r s' => match r with
            | inl _ => exists k', k' < k /\ LI k' s'
            | inr _ => LQ s' end) LX s.
    Proof.
      intros (k1 & HM & HF & Hk & HkB). unfold lb_body.
      apply wp_bind, wp_gets.
      apply wp_bind, wp_k_solve_assumps; [exact HO|eapply MI_lims; eauto| | |].
      - intros m s1 V1 L1 O1 Hm Hfm. pose proof (MI_solved _ _ _ _ _ _ _ _ HM V1 L1) as M1.
        pose proof (FI_solved _ _ HF V1) as F1. apply wp_bind.
        eapply wp_mono; [eapply (harvest_ok k1 s1 M1)| |auto].
        + lia.
        + exact F1.
        + exists m. rewrite (sv_prob _ _ V1), (fr_fence _ _ (sv_fr _ _ V1)). split; assumption.
        + intros [] s2 (k' & Hk' & M2 & F2 & Hr2). apply wp_ret.
          exists (k' + room (s_fence s2) (caps (s_prob s2))).
          rewrite Hr2, (sv_prob _ _ V1), (fr_fence _ _ (sv_fr _ _ V1)). split; [lia|].
          exists k'. split; [exact M2|]. split; [exact F2|].
          rewrite Hr2, (sv_prob _ _ V1), (fr_fence _ _ (sv_fr _ _ V1)). lia.
      - intros core s1 V1 L1 O1 Hcore Hent. pose proof (MI_solved _ _ _ _ _ _ _ _ HM V1 L1) as M1.
        pose proof (FI_solved _ _ HF V1) as F1.
        apply wp_bind. eapply wp_oracle_core; [exact O1|].
        destruct core as [|c core].
        + apply wp_bind, wp_log_end; [exact L1| |].
          2:{ intros x s2 Q2 G2. eapply MI_LX; [exact M1|exact F1|apply quiet_solved, Q2|now apply good_xok]. }
          intros s2 Q2 L2. pose proof (MI_quiet _ _ _ _ _ _ _ _ M1 Q2 L2) as M2. apply wp_ret.
          split; [|apply (FI_solved _ _ F1 (quiet_solved _ _ Q2))].
          destruct M2 as [R (D & news & Ln & H1 & H2 & H3 & H4 & H5 & H6 & H7)].
          split; [exact R|]. exists D, news, Ln. repeat (split; [assumption|]).
          intros a Ha. destruct (inv_comp _ _ _ _ _ (k_inv _ _ _ _ _ H1) a Ha) as (m & G1 & G2 & _).
          rewrite (qt_prob _ _ Q2), (sv_prob _ _ V1) in G2. specialize (Hent m G2). discriminate.
        + assert (Ef : s_fence s1 = s_fence s) by apply (fr_fence _ _ (sv_fr _ _ V1)).
          assert (Ep : s_prob s1 = s_prob s) by apply (sv_prob _ _ V1).
          destruct M1 as [R (D & news & Ln & H1 & H2 & H3 & H4 & H5 & H6 & H7)].
          apply wp_bind. eapply wp_update_fence; [exact H1|exact F1|discriminate|now rewrite Ef| |].
          * intros s2 found K2 F2 Ra2 Hfd Hfr2 R2 Hro2.
            apply wp_bind, wp_gets, wp_bind, wp_guard.
            { rewrite <- Ef. eapply raised_increased; eauto. }
            apply wp_ret. exists (k1 + room (s_fence s2) (caps (s_prob s2))).
            rewrite Ef, Ep in Hro2. split; [lia|]. exists k1. split; [|split; [exact F2|lia]].
            constructor; [eapply rrel_trans; eauto|]. exists D, news, Ln.
            split; [exact K2|]. split; [congruence|]. repeat (split; [assumption|]). assumption.
          * intros x s2 G2 I2 F2 Hfr2 R2. split; [|right; exact F2].
            split; [now apply good_xok|]. split; [eapply rrel_trans; eauto|].
            exists news, Ln. split; [congruence|].
            split; [clear - H3; induction H3; constructor; tauto|]. split; [exact H4|].
            intros _. exists D. split; [exact H5|split; [exact I2|auto]].
      - intros x s1 V1 G1. eapply MI_LX; [exact HM|exact HF|exact V1|now apply good_xok].
    Qed.

    Lemma lb_main_ok s k : MI k s -> k + list_sum (caps (s_prob s)) <= B ->
      (s_fence s = [] \/ FI (s_fence s) (s_prob s)) ->
      wp (lb_main E) (fun _ => LQ) LX s.
    Proof.
      intros HM HkB HF. unfold lb_main.
      destruct (MI_K _ _ _ _ _ _ _ HM) as [D1 HK].
      assert (HX : forall x s', good_exit x -> quiet s s' -> LX x s').
      { intros x s' G Q'. split; [eapply MI_XI; [exact HM|apply quiet_solved, Q'|now apply good_xok]|].
        rewrite (fr_fence _ _ (qt_fr _ _ Q')), (qt_prob _ _ Q'). exact HF. }
      apply wp_bind, wp_gets, wp_bind, wp_gets, wp_bind, wp_guard.
      { apply Nat.eqb_eq. rewrite (wf_len _ _ _ (inv_wf _ _ _ _ _ (k_inv _ _ _ _ _ HK))).
        symmetry. apply HK. }
      apply wp_bind, wp_log_start; [apply HK| |intros; apply HX; auto].
      intros s1 Q1 L1. pose proof (MI_quiet _ _ _ _ _ _ _ _ HM Q1 L1) as M1.
      assert (HF1 : s_fence s1 = [] \/ FI (s_fence s1) (s_prob s1)).
      { rewrite (fr_fence _ _ (qt_fr _ _ Q1)), (qt_prob _ _ Q1). exact HF. }
      destruct M1 as [R (D & news & Ln & H1 & H2 & H3 & H4 & H5 & H6 & H7)].
      apply wp_bind. eapply wp_fence_init; [exact H1|exact HF1|].
      intros s2 K2 F2 Hfr2 R2.
      apply wp_loop_idx with (Inv := fun k (_ : unit) s => LI k s) (k := k + list_sum (caps (s_prob s))).
      - intros k' u s' H. apply lb_body_ok, H.
      - exists k. split; [|split; [exact F2|]].
        + constructor; [eapply rrel_trans; eauto|]. exists D, news, Ln.
          split; [exact K2|]. split; [congruence|]. repeat (split; [assumption|]). assumption.
        + rewrite (ext_caps _ _ (rr_ext _ _ _ R2)), (qt_prob _ _ Q1).
          pose proof (room_le (s_fence s2) (caps (s_prob s))). lia.
      - intros k' [] s' (k1 & M' & F' & _) Hle. eapply MI_LX; [exact M'|exact F'|apply solved_refl|].
        right. split; [reflexivity|lia].
    Qed.
  End Run.
End LB.
