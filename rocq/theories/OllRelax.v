(** * Correctness of core-guided search: relaxing and reformulating cores *)
From Coq Require Import List Bool Arith Lia ZArith.
From Verif Require Import Base BaseLemmas MTypes MKernel EncSpec Wp Sem Kern Ext MOll TotSpec
  OllSide OllData OllThm OllRun.
Import ListNotations.

Lemma aok_relax i i' assumps : iwf i -> aok i assumps -> iwf i' -> (un i' <-> un i) -> ikeys i' = ikeys i ->
  (forall l w, In (l, w) (iact i') -> 0 < w -> exists w', In (l, w') (iact i) /\ 0 < w') -> aok i' assumps.
Proof.
  destruct i as [m|lits act|], i' as [m'|lits' act'|]; cbn; try tauto.
  intros _ (A1 & A2 & A3) _ _ Hk H. split; [exact A1|]. split; [now rewrite Hk|].
  intros l w Hin Hp. destruct (H l w Hin Hp) as (w' & G1 & G2). eauto.
Qed.
Lemma aok_insert i i' assumps l w : iwf i -> aok i assumps -> iwf i' -> (un i' <-> un i) ->
  ikeys i' = ikeys i ++ [l] -> ~ In l (ikeys i) ->
  (forall l' w', In (l', w') (iact i') <-> In (l', w') (iact i) \/ (l' = l /\ w' = w)) ->
  aok i' (assumps ++ [lnot l]).
Proof.
  destruct i as [m|lits act|], i' as [m'|lits' act'|]; cbn; try tauto.
  intros _ (A1 & A2 & A3) _ _ Hk Hn H. split; [|split].
  - apply NoDup_app_snoc; [exact A1|]. intros G. apply A2 in G. rewrite lnot_lnot in G. exact (Hn G).
  - intros a Ha. rewrite Hk. apply in_or_app. apply in_app_or in Ha. destruct Ha as [Ha|[<-|[]]].
    + left. auto.
    + right. rewrite lnot_lnot. now left.
  - intros l' w' Hin Hp. apply in_or_app. apply H in Hin. destruct Hin as [Hin|[-> ->]].
    + left. eauto.
    + right. now left.
Qed.

Section Relax.
  Context {I : enc_impl} {SP : enc_spec I} {T : tot_impl I} (TS : tot_spec SP T).
  Notation M := (M I).
  Notation st := (st I).
  Notation db := (ti_db T).
  Variable E : environ.
  Hypothesis HO : oracle_ok E.
  Hypothesis HN : core_nodup E.
  Variable F : asg -> Prop.
  Variable ob : objective.
  Variable me : nat.
  Variable fin : list db.
  Variable s0 : st.
  Variable B : nat.
  Notation gv := (gv TS).
  Notation Fo := (Fo F).
  Notation tg := (tg ob).
  Notation kvo := (kvo TS).
  Notation pot := (pot TS).
  Notation Ost := (Ost TS me).
  Notation stepd := (stepd TS).
  Notation conok := (conok TS).
  Notation Kd := (Kd TS F me fin s0).
  Notation XX := (XX TS E F me fin s0 B).

  Lemma kd_same d d' s : Kd d s -> tb_same SP T TS d d' ->
    (forall v, tb_leafv SP T TS d' v -> v <= me) ->
    (forall v, tb_leafv SP T TS d v -> tb_leafv SP T TS d' v) -> Kd d' s.
  Proof.
    intros HK Hs Hl Hm. destruct HK as [K1 K2 K3 K4]. constructor; auto.
    - eapply side_same; [exact K3|exact Hs| |exact Hm].
      intros v Hv. unfold low. rewrite (gr_enc _ _ _ K2). auto.
    - intros v Hv. destruct Hs as (_ & Hf & _). apply Hf in Hv. exact (K4 v Hv).
  Qed.

  (** Relaxing the literals of a core *)
  Section Fold.
    Variables (core : list lit) (i0 : inactives) (refs0 : list (lit * reform_data)) (d0 : db) (cw off1 : nat).
    Hypothesis Hcw : 0 < cw.
    Hypothesis Hcore : NoDup core.
    Definition Rx (pre : list lit) (x : reform * db * list lit * list con) (s : st) : Prop :=
      let '(rf, d, assumps, ncs) := x in
      let i := rf_inact rf in let refs := rf_refs rf in
      Kd d s /\ rf_offset rf = off1 /\ stepd d0 d /\ Ost i refs d /\ aok i assumps /\ (un i <-> un i0) /\
      length ncs = length pre /\ (forall c, In c ncs -> conok d c) /\
      (forall o, pot d0 o i0 refs0 = pot d o i refs + cw * cons_app (gv d o) ncs) /\
      (forall o, cons_app (gv d o) ncs = list_sum (map (kvo d0 o refs0) pre)) /\
      (forall l, In l core -> ~ In l pre ->
         (exists w, In (l, w) (iact i) /\ cw <= w) /\ forall o, kvo d o refs l = kvo d0 o refs0 l).

    Lemma relax_step pre l post x s : core = pre ++ l :: post -> Rx pre x s ->
      wp (relax_lit T cw x l) (fun x' s' => Rx (pre ++ [l]) x' s') XX s.
    Proof.
      destruct x as [[[rf d] assumps] ncs]. destruct rf as [i refs off].
      intros Hl (HK & Ho & Hst & HOs & Ha & Hu & Hlen & Hcs & Hpot & Hsum & Hrest).
      cbn [rf_inact rf_refs rf_offset] in *. unfold relax_lit. cbn [rf_inact rf_refs rf_offset].
      assert (Hlc : In l core) by (rewrite Hl; apply in_or_app; right; now left).
      assert (Hnd : ~ In l pre).
      { intros H. rewrite Hl in Hcore. apply NoDup_remove_2 in Hcore. apply Hcore, in_or_app. now left. }
      destruct (Hrest l Hlc Hnd) as [(w & Hin & Hle) Hkv].
      assert (Hc : 0 < cw <= w) by lia.
      destruct (relax_ok i l w cw (os_nodup _ _ _ _ _ HOs) (os_wf _ _ _ _ _ HOs) Hin Hc)
        as (i' & E1 & Rk & Rw & Ru & Rs & Ro & Rl & Rp).
      rewrite E1. apply wp_bind. eapply wp_unwrap; [reflexivity|]. cbn beta iota.
      assert (Ha' : aok i' assumps).
      { eapply aok_relax; [apply HOs|exact Ha|exact Rw|exact Ru|exact Rk|].
        intros l' w' Hi Hp. destruct (lit_eq_dec l' l) as [->|Hne]; [exists w; split; [exact Hin|lia]|].
        exists w'. split; [|exact Hp]. now apply Ro. }
      (* what is common to all cases *)
      assert (Hfin : forall i2 refs2 d2 assumps2 c s2, Kd d2 s2 -> stepd d d2 -> Ost i2 refs2 d2 ->
        aok i2 assumps2 -> (un i2 <-> un i) -> conok d2 c ->
        (forall o, con_app (gv d2 o) c = kvo d o refs l) ->
        (forall o, pot d o i refs = pot d2 o i2 refs2 + cw * kvo d o refs l) ->
        (forall l' w', l' <> l -> In (l', w') (iact i) -> In (l', w') (iact i2)) ->
        (forall l' o, l' <> l -> In l' (ikeys i) -> kvo d2 o refs2 l' = kvo d o refs l') ->
        Rx (pre ++ [l]) (mkRef i2 refs2 off, d2, assumps2, ncs ++ [c]) s2).
      { intros i2 refs2 d2 assumps2 c s2 A1 A2 A3 A4 A5 A6 A7 A8 A9 A10.
        assert (Hn : forall o, cons_app (gv d2 o) ncs = cons_app (gv d o) ncs).
        { intros o. apply cons_app_ext. intros c' Hc'. apply stepd_gv; [apply A2|].
          destruct (Hcs c' Hc') as [G _]. exact G. }
        unfold Rx. cbn [rf_inact rf_refs rf_offset].
        split; [exact A1|]. split; [exact Ho|]. split; [eapply stepd_trans; eauto|]. split; [exact A3|].
        split; [exact A4|]. split; [tauto|]. split; [rewrite !app_length, Hlen; reflexivity|].
        split; [|split; [|split]].
        - intros c' Hc'. apply in_app_or in Hc'. destruct Hc' as [Hc'|[<-|[]]]; [|exact A6].
          eapply conok_ext; [apply A2|auto].
        - intros o. rewrite Hpot, A8, cons_app_app, Hn.
          replace (cons_app (gv d2 o) [c]) with (con_app (gv d2 o) c) by (unfold cons_app; cbn; lia).
          rewrite A7. lia.
        - intros o. rewrite cons_app_app, Hn, Hsum, map_app, list_sum_app. f_equal.
          replace (cons_app (gv d2 o) [c]) with (con_app (gv d2 o) c) by (unfold cons_app; cbn; lia).
          rewrite A7, Hkv. cbn. lia.
        - intros l' H1 H2. assert (H3 : ~ In l' pre /\ l' <> l).
          { split; intros H; apply H2, in_or_app; [now left|right; left; congruence]. }
          destruct H3 as [H3 H4]. destruct (Hrest l' H1 H3) as [(w' & G1 & G2) G3]. split.
          + exists w'. split; [|exact G2]. auto.
          + intros o. rewrite A10; [apply G3|exact H4|]. eapply iact_keys; eauto. }
      destruct (hm_get l refs) as [[root oidx tw]|] eqn:Hg.
      - pose proof (hm_get_in _ _ _ Hg) as Hr.
        destruct (os_ref _ _ _ _ _ HOs _ _ Hr) as (B1 & B2 & B3 & B4 & B5 & _). cbn in B1, B2, B3, B4, B5.
        assert (Nr : tb_node SP T TS d root) by now apply tb_int_node.
        destruct (tb_int_len SP T TS _ _ B1) as [Len Wr].
        assert (Hkvl : forall o, kvo d o refs l = if oidx <? gv d o root then 1 else 0).
        { intros o. unfold OllThm.kvo, kv. rewrite Hg. reflexivity. }
        assert (Hca : forall g, con_app g (con_single root (oidx + 1) 1) = if oidx <? g root then 1 else 0).
        { intros g. unfold con_app, con_single. cbn [cn_mult cn_limit cn_id cn_off lim].
          destruct (oidx <? g root) eqn:e; [apply Nat.ltb_lt in e|apply Nat.ltb_ge in e]; lia. }
        assert (Hco : conok d (con_single root (oidx + 1) 1)).
        { split; [exact Nr|]. split; [exact Wr|]. split; [reflexivity|]. rewrite Hca.
          apply Nat.ltb_lt in B3. now rewrite B3. }
        destruct (0 <? w - cw) eqn:ew.
        + apply Nat.ltb_lt in ew. apply wp_ret. apply Hfin; auto.
          * apply stepd_refl.
          * eapply ost_relax_keep; eauto.
          * intros o. rewrite Hca, Hkvl. reflexivity.
          * intros o. eapply pot_relax; eauto.
          * intros l' w' Hne Hi. now apply Ro.
        + apply Nat.ltb_ge in ew. assert (Hz : w - cw = 0) by lia. clear ew.
          assert (HOd : Ost i' (hm_remove l refs) d) by (eapply ost_relax_drop; eauto).
          assert (Hpd : forall o, pot d o i refs = pot d o i' (hm_remove l refs) + cw * kvo d o refs l
                     + tw * (gv d o root - (oidx + 1))).
          { intros o. etransitivity; [eapply (pot_relax_drop TS me i i' refs d l w cw); eauto|reflexivity]. }
          destruct (ti_len T d root <=? oidx + 1) eqn:el.
          * apply Nat.leb_le in el. apply wp_ret. apply Hfin; auto.
            -- apply stepd_refl.
            -- intros o. rewrite Hca, Hkvl. reflexivity.
            -- intros o. rewrite Hpd. pose proof (gv_max TS d o root Nr).
               replace (gv d o root - (oidx + 1)) with 0 by lia. lia.
            -- intros l' w' Hne Hi. now apply Ro.
            -- intros l' o Hne _. now apply kvo_drop.
          * apply Nat.leb_gt in el. apply wp_bind. eapply wp_build; [exact HK|exact B1|lia|].
            intros d' l' s' HK' Hs' Hout.
            assert (HO' : Ost i refs d') by (eapply ost_ext; eauto).
            assert (Hkeys : forall l2 j, In l2 (ikeys i) -> tb_out SP T TS d' root j = Some l2 -> j <= oidx).
            { intros l2 j Hk Hj. destruct (os_key _ _ _ _ _ HO' l2 Hk) as [G|(r & j' & G & G')].
              - pose proof (kd_aux TS F me fin s0 d' s' (lvar l2) HK' (tb_out_aux SP T TS _ _ _ _ Hj)). lia.
              - destruct (tb_out_inj SP T TS _ _ _ _ _ _ Hj G) as [<- <-].
                exact (G' l _ Hr eq_refl). }
            assert (Hfr : ~ In l' (ikeys i')).
            { rewrite Rk. intros Hk. specialize (Hkeys l' (oidx + 1) Hk Hout). lia. }
            destruct (insert_ok i' l' tw Rw Hfr) as (i2 & J1 & J2 & J3 & J4 & J5 & J6); [now rewrite Ru|].
            rewrite J1. apply wp_bind. eapply wp_unwrap; [reflexivity|].
            assert (HOd' : Ost i' (hm_remove l refs) d') by (eapply ost_ext; eauto).
            assert (B1' : tb_int SP T TS d' root) by (apply (proj1 Hs' root Nr); exact B1).
            assert (Mx : tb_max SP T TS d' root = tb_max SP T TS d root) by apply (proj1 Hs' root Nr).
            assert (Hroot : forall l2 rd, In (l2, rd) (hm_remove l refs) -> rd_root rd <> root).
            { intros l2 rd Hi He. apply hm_remove_in in Hi. destruct Hi as [Hne Hi].
              assert (Q := NoDup_map_eq (fun lr => rd_root (snd lr)) refs (l2, rd) (l, mkRd root oidx tw)
                        (os_roots _ _ _ _ _ HOs) Hi Hr He). congruence. }
            assert (Hun' : un i' -> tw = 1) by (rewrite Ru; exact B5).
            assert (Hlt' : oidx + 1 < tb_max SP T TS d' root) by lia.
            assert (Hk2 : forall l2 j, In l2 (ikeys i') -> tb_out SP T TS d' root j = Some l2 -> j <= oidx + 1).
            { intros l2 j Hk Hj. rewrite Rk in Hk. specialize (Hkeys l2 j Hk Hj). lia. }
            assert (Hff : ~ In l' (map fst (hm_remove l refs))) by (eapply (insert_fresh TS me i' i2 (hm_remove l refs) d' l' root (oidx + 1) tw); eauto).
            rewrite (hm_insert_new _ _ _ Hff). apply wp_ret. apply Hfin; auto.
            -- eapply ost_insert; eauto.
            -- eapply (aok_insert i' i2 assumps l' tw); eauto.
            -- rewrite J4. exact Ru.
            -- eapply conok_ext; [apply Hs'|exact Hco].
            -- intros o. rewrite Hca, Hkvl. now rewrite (stepd_gv TS d d' o root (proj1 Hs') Nr).
            -- intros o. assert (PI : pot d' o i2 (hm_remove l refs ++ [(l', mkRd root (oidx + 1) tw)]) = pot d' o i' (hm_remove l refs) + tw * (gv d' o root - (oidx + 1))) by (eapply (pot_insert TS me i' i2); eauto). rewrite PI.
               rewrite (pot_ext TS me i' (hm_remove l refs) d d' o (proj1 Hs') HOd).
               rewrite (stepd_gv TS d d' o root (proj1 Hs') Nr), Hpd. lia.
            -- intros l2 w2 Hne Hi. apply J6. left. now apply Ro.
            -- intros l2 o Hne Hi.
               rewrite kvo_insert; [|intros ->; apply Hfr; now rewrite Rk].
               rewrite kvo_drop by exact Hne. eapply kvo_ext; [apply Hs'|exact HOs].
      - destruct (ti_leaf T d l) as [d' id] eqn:Hlf.
        destruct (tb_leaf_ok SP T TS _ _ _ _ Hlf) as (C1 & C2 & C3 & C4 & C5 & C6 & C7 & C8).
        assert (Hme : lvar l <= me) by (eapply (os_plain _ _ _ _ _ HOs); [exact Hin|lia|exact Hg]).
        assert (Hs' : stepd d d').
        { split; [exact C1|]. destruct C2 as (_ & _ & _ & _ & Q). intros ? ? ? Hq. now rewrite Q. }
        assert (Hca : forall o, con_app (gv d' o) (con_full id) = bv o l).
        { intros o. unfold con_app, con_full. cbn [cn_mult cn_limit cn_id cn_off lim].
          destruct o as [a|]; cbn; [rewrite C6; destruct (lit_true a l)|rewrite C7]; lia. }
        apply wp_ret. apply Hfin; auto.
        + eapply kd_same; [exact HK|exact C2| |exact C4]. intros v Hv. apply C3 in Hv.
          destruct Hv as [Hv|Hv]; [eapply (kd_leaf TS F me fin s0); eauto|lia].
        + eapply ost_ext; [exact Hs'|]. eapply ost_relax_keep; eauto.
        + split; [exact C5|]. split; [exact C8|]. split; [reflexivity|]. exact (Hca None).
        + intros o. rewrite Hca. unfold OllThm.kvo, kv. now rewrite Hg.
        + intros o. rewrite (pot_ext TS me i' refs d d' o C1).
          * eapply pot_relax; eauto.
          * eapply ost_relax_keep; eauto.
        + intros l' w' Hne Hi. now apply Ro.
        + intros l' o Hne _. eapply kvo_ext; [exact C1|exact HOs].
    Qed.
  End Fold.
End Relax.
