(** * Correctness of core-guided search: the main loop *)
From Coq Require Import List Bool Arith Lia ZArith.
From Verif Require Import Base BaseLemmas MTypes MKernel EncSpec Wp Sem Kern Ext MOll TotSpec
  OllSide OllData OllThm OllRun OllRelax.
Import ListNotations.

Lemma csum_cons g cs cd cores :
  csum g cs (cd :: cores) = cd_weight cd * (cons_app g (slice cs cd) - 1) + csum g cs cores.
Proof. reflexivity. Qed.
Lemma csum_app g cs x y : csum g cs (x ++ y) = csum g cs x + csum g cs y.
Proof. unfold csum. now rewrite map_app, list_sum_app. Qed.

Section Main.
  Context {I : enc_impl} {SP : enc_spec I} {T : tot_impl I} (TS : tot_spec SP T).
  Notation M := (M I).
  Notation st := (st I).
  Notation db := (ti_db T).
  Variable E : environ.
  Hypothesis HO : oracle_ok E.
  Hypothesis HN : core_nodup E.
  Variable F : asg -> Prop.
  Variable ob : objective.
  Variable me : nat.
  Variable fin : list db.
  Variable s0 : st.
  Variable B : nat.
  Hypothesis HB : 2 * wtotal (obj_iter ob) + 1 <= B.
  Hypothesis Hmax : (Z.of_nat (wtotal (obj_iter ob)) <= usize_max_z)%Z.
  Notation gv := (gv TS).
  Notation Fo := (Fo F).
  Notation tg := (tg ob).
  Notation kvo := (kvo TS).
  Notation pot := (pot TS).
  Notation Ost := (Ost TS me).
  Notation stepd := (stepd TS).
  Notation conok := (conok TS).
  Notation Kd := (Kd TS F me fin s0).
  Notation XX := (XX TS E F me fin s0 B).
  Notation Deadok := (Deadok F s0).

  Lemma usize_add_ok a b : a + b <= wtotal (obj_iter ob) -> usize_add a b = Some (a + b).
  Proof.
    intros H. unfold usize_add. destruct (Z.leb_spec (Z.of_nat a + Z.of_nat b) usize_max_z) as [Hl|Hl]; [reflexivity|].
    exfalso. lia.
  Qed.

  Lemma kvo_none i refs d l : Ost i refs d -> In l (ikeys i) -> kvo d None refs l = 1.
  Proof.
    intros H _. unfold OllThm.kvo, kv. destruct (hm_get l refs) as [rd|] eqn:e; [|reflexivity].
    apply hm_get_in in e. destruct (os_ref _ _ _ _ _ H _ _ e) as (_ & _ & G & _). cbn [OllThm.gv].
    apply Nat.ltb_lt in G. now rewrite G.
  Qed.

  (** Reformulating the collected cores *)
  Definition Coresok (d : db) (cs : list con) (cores : list core_data) (i : inactives) : Prop :=
    (forall c, In c cs -> conok d c) /\
    forall cd, In cd cores -> 0 < cd_weight cd /\ 1 < cd_len cd /\ cd_idx cd + cd_len cd <= length cs /\
      (un i -> cd_weight cd = 1) /\ forall o, Fo o -> 1 <= cons_app (gv d o) (slice cs cd).
  Lemma coresok_ext d d' cs cores i : tb_ext SP T TS d d' -> Coresok d cs cores i -> Coresok d' cs cores i.
  Proof.
    intros He [H1 H2]. split; [intros c Hc; eapply conok_ext; eauto|].
    intros cd Hcd. destruct (H2 cd Hcd) as (A1 & A2 & A3 & A4 & A5). repeat (split; [assumption|]).
    intros o Hfo. rewrite (cons_app_ext (gv d' o) (gv d o)); [auto|]. intros c Hc.
    apply stepd_gv; [exact He|]. apply slice_in in Hc. now destruct (H1 c Hc).
  Qed.

  Section Reform.
    Variables (cs : list con) (cores : list core_data) (d0 : db) (i0 : inactives) (off0 : nat).
    Hypothesis HC : Coresok d0 cs cores i0.
    Definition Rf (pre : list core_data) (x : reform * db * list lit) (s : st) : Prop :=
      let '(rf, d, assumps) := x in
      let i := rf_inact rf in let refs := rf_refs rf in
      Kd d s /\ stepd d0 d /\ Ost i refs d /\ aok i assumps /\ (un i <-> un i0) /\ off0 <= rf_offset rf /\
      (forall o, Fo o -> tg o = rf_offset rf + pot d o i refs + csum (gv d o) cs (skipn (length pre) cores)).

    Lemma reform_step pre cd post x s : cores = pre ++ cd :: post -> Rf pre x s ->
      wp (reform_core T E cs x cd) (fun x' s' => Rf (pre ++ [cd]) x' s') XX s.
    Proof.
      destruct x as [[rf d] assumps]. destruct rf as [i refs off].
      intros Hl (HK & Hst & HOs & Ha & Hu & Hoff & Hid). cbn [rf_inact rf_refs rf_offset] in *.
      assert (Hcd : In cd cores) by (rewrite Hl; apply in_or_app; right; now left).
      assert (Hsk : skipn (length pre) cores = cd :: post).
      { rewrite Hl, skipn_app, skipn_all, Nat.sub_diag. reflexivity. }
      assert (Hsk' : skipn (length (pre ++ [cd])) cores = post).
      { rewrite Hl, app_length, Nat.add_comm. cbn [length Nat.add].
        replace (pre ++ cd :: post) with ((pre ++ [cd]) ++ post) by now rewrite <- app_assoc.
        replace (S (length pre)) with (length (pre ++ [cd])) by (rewrite app_length; cbn; lia).
        rewrite skipn_app, skipn_all, Nat.sub_diag. reflexivity. }
      pose proof (coresok_ext _ d _ _ _ (proj1 Hst) HC) as [HC1 HC2].
      destruct (HC2 cd Hcd) as (W1 & W2 & W3 & W4 & W5).
      unfold reform_core. cbn [rf_inact rf_refs rf_offset]. fold (slice cs cd).
      destruct (ti_merge T d (slice cs cd)) as [d1 c] eqn:Hm.
      assert (Hsl : length (slice cs cd) = cd_len cd) by now apply slice_length.
      assert (Hsc : forall x, In x (slice cs cd) -> conok d x) by (intros x Hx; apply HC1; eapply slice_in; eauto).
      destruct (tb_merge_ok SP T TS _ _ _ _ Hm) as (M1 & M2 & M3 & M4 & M5 & M6 & M7 & M8); [lia| |].
      { intros x Hx. destruct (Hsc x Hx) as (? & ? & ? & _). auto. }
      set (root := cn_id c) in *. rewrite M4. cbn [cn_off cn_mult con_full Nat.eqb].
      apply wp_bind, wp_guard; [reflexivity|]. apply wp_bind, wp_guard; [reflexivity|]. cbn [cn_id].
      assert (Hs1 : stepd d d1).
      { split; [exact M1|]. destruct M2 as (_ & _ & _ & _ & Q). intros ? ? ? Hq. now rewrite Q. }
      assert (HK1 : Kd d1 s).
      { eapply kd_same; [exact HK|exact M2| |intros v Hv; now apply M3].
        intros v Hv. apply M3 in Hv. eapply (kd_leaf TS F me fin s0); eauto. }
      assert (Hgv : forall o, gv d1 o root = cons_app (gv d o) (slice cs cd)).
      { intros [a|]; [exact (M7 a)|exact M8]. }
      assert (Hmx : tb_max SP T TS d1 root = cd_len cd).
      { rewrite M8, conok_max; [exact Hsl|exact Hsc]. }
      apply wp_bind. eapply (wp_exhaust_core TS E HO HN F me fin s0 B); [exact HK1|exact M6|lia| | |auto].
      { intros o Hfo. rewrite Hgv. auto. }
      intros d2 olit oidx s2 HK2 Hs2 Hr Hout Hge. rewrite Hmx in Hr, Hout.
      assert (N1 : tb_node SP T TS d1 root) by now apply tb_int_node.
      assert (Hs02 : stepd d d2) by (eapply stepd_trans; eauto).
      assert (Hg2 : forall o, gv d2 o root = cons_app (gv d o) (slice cs cd)).
      { intros o. rewrite (stepd_gv TS d1 d2 o root (proj1 Hs2) N1). apply Hgv. }
      assert (Hge2 : forall o, Fo o -> oidx <= cons_app (gv d o) (slice cs cd)).
      { intros o Hfo. rewrite <- Hgv. auto. }
      assert (Hid2 : forall o, Fo o -> tg o = (off + (oidx - 1) * cd_weight cd) + pot d o i refs
        + cd_weight cd * (cons_app (gv d o) (slice cs cd) - oidx) + csum (gv d o) cs post).
      { intros o Hfo. rewrite (Hid o Hfo), Hsk, csum_cons. specialize (Hge2 o Hfo).
        replace (cons_app (gv d o) (slice cs cd) - 1) with
          ((oidx - 1) + (cons_app (gv d o) (slice cs cd) - oidx)) by lia. lia. }
      assert (Hcx : forall o, csum (gv d2 o) cs post = csum (gv d o) cs post).
      { intros o. apply csum_ext. intros c' Hc'. apply stepd_gv; [apply Hs02|]. now destruct (HC1 c' Hc'). }
      assert (HO2 : Ost i refs d2) by (eapply ost_ext; eauto).
      assert (Hpx : forall o, pot d2 o i refs = pot d o i refs).
      { intros o. eapply pot_ext; [apply Hs02|exact HOs]. }
      (* the offset *)
      apply wp_bind.
      assert (Hoffwp : forall (Q : nat -> st -> Prop),
        (forall s3, Kd d2 s3 -> Q (off + (oidx - 1) * cd_weight cd) s3) ->
        wp (if 1 <? oidx then
              off' <- unwrap (usize_add off ((oidx - 1) * cd_weight cd)) ;;
              emit E (EvExhaustion oidx (cd_weight cd)) ;;; ret off'
            else ret off) Q XX s2).
      { intros Q HQ. destruct (1 <? oidx) eqn:eo.
        - apply wp_bind. eapply wp_unwrap.
          { apply usize_add_ok. pose proof (Hid2 None Logic.I) as G. cbn [OllThm.tg] in G. rewrite G, <- !Nat.add_assoc. apply Nat.add_le_mono_l, Nat.le_add_r. }
          apply wp_bind, wp_emit.
          + intros s3 Hq Hlm. apply wp_ret, HQ. eapply kd_solved; [apply quiet_solved, Hq| |exact HK2].
            unfold lims_ok. rewrite Hlm. apply HK2.
          + intros s3 Hq. eapply kd_exit; [exact HK2|apply quiet_solved, Hq|exact Logic.I].
        - apply Nat.ltb_ge in eo. apply wp_ret. specialize (HQ s2 HK2).
          replace (oidx - 1) with 0 in HQ by lia. cbn in HQ. now rewrite Nat.add_0_r in HQ. }
      apply Hoffwp. clear Hoffwp. intros s3 HK3.
      assert (Hlen : ti_len T d2 root = cd_len cd).
      { destruct (proj1 Hs2 root N1) as (_ & _ & _ & _ & Q & _). rewrite Q.
        destruct (tb_int_len SP T TS _ _ M6) as [Q' _]. congruence. }
      rewrite Hlen. destruct (oidx <? cd_len cd) eqn:el.
      - apply Nat.ltb_lt in el. specialize (Hout el).
        assert (Hold : forall l2 j, In l2 (ikeys i) -> tb_out SP T TS d2 root j = Some l2 -> False).
        { intros l2 j Hk Hj. destruct (os_key _ _ _ _ _ HOs l2 Hk) as [G|(r & j' & G & _)].
          - pose proof (kd_aux TS F me fin s0 d2 s2 (lvar l2) HK2 (tb_out_aux SP T TS _ _ _ _ Hj)). lia.
          - assert (G2 := proj2 Hs02 _ _ _ G). destruct (tb_out_inj SP T TS _ _ _ _ _ _ Hj G2) as [<- _].
            apply M5. apply tb_int_node. eapply tb_out_int; eauto. }
        assert (Hfr : ~ In olit (ikeys i)) by (intros Hk; exact (Hold _ _ Hk Hout)).
        assert (Hun : un i -> cd_weight cd = 1) by (intros G; apply W4; now apply Hu).
        destruct (insert_ok i olit (cd_weight cd) (os_wf _ _ _ _ _ HOs) Hfr Hun) as (i2 & J1 & J2 & J3 & J4 & J5 & J6).
        rewrite J1. apply wp_bind. eapply wp_unwrap; [reflexivity|].
        assert (M6' : tb_int SP T TS d2 root) by (apply (proj1 Hs2 root N1); exact M6).
        assert (Mx2 : tb_max SP T TS d2 root = cd_len cd).
        { destruct (proj1 Hs2 root N1) as (_ & _ & Q & _). now rewrite Q. }
        assert (Hroot : forall l2 rd, In (l2, rd) refs -> rd_root rd <> root).
        { intros l2 rd Hi He. apply M5. rewrite <- He. eapply ost_node; eauto. }
        assert (Hlt : oidx < tb_max SP T TS d2 root) by lia.
        assert (Hkey : forall l2 j, In l2 (ikeys i) -> tb_out SP T TS d2 root j = Some l2 -> j <= oidx).
        { intros l2 j Hk Hj. destruct (Hold _ _ Hk Hj). }
        assert (Hff : ~ In olit (map fst refs)) by (eapply (insert_fresh TS me i i2 refs d2 olit root oidx (cd_weight cd)); eauto).
        rewrite (hm_insert_new _ _ _ Hff). apply wp_ret. unfold Rf. cbn [rf_inact rf_refs rf_offset].
        split; [exact HK3|]. split; [eapply stepd_trans; eauto|].
        split; [eapply (ost_insert TS me i i2 refs d2 olit root oidx (cd_weight cd)); eauto|].
        split; [eapply (aok_insert i i2 assumps olit (cd_weight cd)); eauto; apply HOs|].
        split; [tauto|]. split; [eapply Nat.le_trans; [exact Hoff|apply Nat.le_add_r]|]. intros o Hfo. rewrite Hsk', (Hid2 o Hfo).
        assert (PI : pot d2 o i2 (refs ++ [(olit, mkRd root oidx (cd_weight cd))]) =
          pot d2 o i refs + cd_weight cd * (gv d2 o root - oidx)) by (eapply (pot_insert TS me i i2); eauto).
        rewrite PI, Hpx, Hcx, Hg2. ring.
      - apply Nat.ltb_ge in el. apply wp_ret. unfold Rf. cbn [rf_inact rf_refs rf_offset].
        split; [exact HK3|]. split; [eapply stepd_trans; eauto|]. split; [exact HO2|]. split; [exact Ha|].
        split; [exact Hu|]. split; [eapply Nat.le_trans; [exact Hoff|apply Nat.le_add_r]|]. intros o Hfo. rewrite Hsk', (Hid2 o Hfo), Hpx, Hcx.
        assert (G : cons_app (gv d o) (slice cs cd) <= cd_len cd).
        { rewrite <- Hgv, <- Hmx. now apply gv_max. }
        replace (cons_app (gv d o) (slice cs cd) - oidx) with 0 by lia. lia.
    Qed.
  End Reform.

  (** ** Dead mode: the clauses have become unsatisfiable while shrinking a core *)
  Definition dead (s : st) : Prop := forall m, ~ sat m (p_cls (s_prob s)).
  Lemma wp_dead {A C} (c : M A) (k : A -> M C) (Q : C -> st -> Prop) (X : exit -> st -> Prop) s :
    mono c -> dead s -> (forall x s', X x s') -> (forall a s', dead s' -> wp (k a) Q X s') ->
    wp (bind c k) Q X s.
  Proof.
    intros Hm Hd HX Hk. unfold wp, bind. specialize (Hm s). destruct (c s) as [[a|x] s'] eqn:e; [|auto].
    cbn in Hm. specialize (Hk a s'). unfold wp in Hk. apply Hk. intros m Hs. apply (Hd m).
    intros cl Hc. apply Hs, Hm, Hc.
  Qed.
  Lemma wp_dead_solve {C} assumps (k : sres -> M C) (Q : C -> st -> Prop) (X : exit -> st -> Prop) s :
    dead s -> (forall x s', X x s') -> (forall r s', r <> RSat -> dead s' -> wp (k r) Q X s') ->
    wp (bind (k_solve_assumps E assumps) k) Q X s.
  Proof.
    intros Hd HX Hk. change (k_solve_assumps E assumps) with (solve_gen (I := I) E false assumps).
    assert (G : wp (solve_gen (I := I) E false assumps) (fun r s' => r <> RSat /\ dead s') X s).
    { unfold solve_gen. apply wp_dead; [apply mono_emit|exact Hd|exact HX|]. intros [] s1 Hd1.
      apply wp_bind. unfold wp at 1, oracle_solve. set (q := mkQuery _ _ _ _ _). pose proof (HO q) as Hok.
      assert (Hrest : forall r s2, r <> RSat -> dead s2 ->
        wp (log_end E ;;; check_termination E ;;; log_oracle_call E r ;;; ret r) (fun r s' => r <> RSat /\ dead s') X s2).
      { intros r s2 Hr Hd2. apply wp_dead; [apply mono_emit|exact Hd2|exact HX|]. intros [] s3 Hd3.
        apply wp_dead; [apply mono_check|exact Hd3|exact HX|]. intros [] s4 Hd4.
        apply wp_dead; [apply mono_log_oracle_call|exact Hd4|exact HX|]. intros [] s5 Hd5. now apply wp_ret. }
      destruct (ev_oracle E q) as [m|core| |] eqn:Hq; [|apply Hrest|apply Hrest|apply HX]; try discriminate; auto.
      cbn in Hok. destruct Hok as [Hok _]. destruct (Hd1 m Hok). }
    apply wp_bind. eapply wp_mono; [exact G| |auto]. intros r s' [H1 H2]. auto.
  Qed.
  Lemma mono_build d root k : mono (build_output T d root k).
  Proof.
    unfold build_output. apply mono_bind; [apply mono_gets|]. intros n.
    destruct (ti_define T d root k n) as [[[d' l] cl] n']. apply mono_bind.
    - apply mono_modify. intros s. cbn. apply incl_refl.
    - intros _. apply mono_bind; [apply mono_add_clauses|]. intros _. apply mono_ret.
  Qed.
  Lemma mono_minimize core : mono (minimize_core (I := I) E core).
  Proof.
    unfold minimize_core. apply mono_bind; [apply mono_gets|]. intros o.
    destruct (negb _); [apply mono_ret|]. destruct (length core <=? 1); [apply mono_ret|].
    apply mono_bind; [apply mono_emit|]. intros _. apply mono_bind.
    - apply mono_foldM. intros b a. unfold minimize_step.
      apply mono_bind; [apply (mono_solve_gen E true)|]. intros []; auto using mono_ret, mono_oracle_core.
    - intros c. apply mono_bind; [apply mono_emit|]. intros _. apply mono_ret.
  Qed.
  Lemma mono_trim core : mono (trim_core (I := I) E core).
  Proof.
    unfold trim_core. apply mono_bind; [apply mono_gets|]. intros o.
    destruct (negb _); [apply mono_ret|]. destruct (length core <=? 1); [apply mono_ret|].
    apply mono_bind; [apply mono_emit|]. intros _. apply mono_bind.
    - apply mono_loop. intros c. unfold trim_body. destruct (length c <=? 1); [apply mono_ret|].
      apply mono_bind; [apply (mono_solve_gen E false)|]. intros r.
      apply mono_bind; [apply mono_guard|]. intros _. apply mono_bind; [apply mono_oracle_core|].
      intros c'. destruct (_ =? _); apply mono_ret.
    - intros c. apply mono_bind; [apply mono_emit|]. intros _. apply mono_ret.
  Qed.
  Lemma mono_relax cw x l : mono (relax_lit T cw x l).
  Proof.
    destruct x as [[[rf d] assumps] ncs]. unfold relax_lit. apply mono_bind; [apply mono_unwrap|].
    intros [i w]. destruct (hm_get l (rf_refs rf)) as [[root oidx tw]|].
    - destruct (0 <? w); [apply mono_ret|]. destruct (_ <=? _); [apply mono_ret|].
      apply mono_bind; [apply mono_build|]. intros [d' l']. apply mono_bind; [apply mono_unwrap|].
      intros i'. apply mono_ret.
    - destruct (ti_leaf T d l). apply mono_ret.
  Qed.

  Definition Qend (r : reform * db * option assignment) (s : st) : Prop :=
    match r with
    | (rf, d, Some _) => Fin TS F ob me rf d /\ Side TS F (s_prob s) (fin ++ [d]) /\ gro me s0 s /\ lims_ok s /\
        (forall l rd, In (l, rd) (rf_refs rf) -> tb_out SP T TS d (rd_root rd) (rd_oidx rd) = Some l)
    | (_, _, None) => (forall a, ~ F a) /\
        ((exists d, Side TS F (s_prob s) (fin ++ [d]) /\ gro me s0 s) \/ Deadok)
    end.
  Definition Dd (x : oll_st T) (s : st) : Prop := dead s /\ Deadok.
  Lemma dead_step x s : Dd x s ->
    wp (oll_body T E x) (fun r s' => match r with inl x' => Dd x' s' | inr a => Qend a s' end) XX s.
  Proof.
    intros [Hd Hdo]. assert (HX : forall x s', XX x s') by (intros; now right).
    destruct x as [rf d assumps cores cs]. unfold oll_body.
    apply wp_dead; [apply mono_unwrap|exact Hd|exact HX|]. intros [i as1] s1 Hd1.
    apply wp_dead_solve; [exact Hd1|exact HX|]. intros r s2 Hr Hd2. destruct r; [congruence| |apply wp_throw, HX].
    unfold oll_unsat. apply wp_dead; [apply mono_oracle_core|exact Hd2|exact HX|].
    intros core s3 Hd3. destruct core as [|l core].
    - apply wp_dead; [apply mono_emit|exact Hd3|exact HX|]. intros [] s4 _. apply wp_ret. cbn. split; [apply Hdo|now right].
    - apply wp_dead; [apply mono_minimize|exact Hd3|exact HX|]. intros c1 s4 Hd4.
      apply wp_dead; [apply mono_trim|exact Hd4|exact HX|]. intros c2 s5 Hd5.
      apply wp_dead; [apply mono_unwrap|exact Hd5|exact HX|]. intros cw s6 Hd6.
      apply wp_dead; [apply mono_unwrap|exact Hd6|exact HX|]. intros off s7 Hd7.
      apply wp_dead; [apply mono_emit|exact Hd7|exact HX|]. intros [] s8 Hd8.
      apply wp_dead; [apply mono_foldM, mono_relax|exact Hd8|exact HX|].
      intros [[[rf' d'] as'] ncs] s9 Hd9. apply wp_dead; [apply mono_guard|exact Hd9|exact HX|].
      intros [] s10 Hd10. destruct (1 <? length ncs); apply wp_ret; split; assumption.
  Qed.

  (** ** Live mode *)
  Definition Live (x : oll_st T) (s : st) : Prop :=
    let i := rf_inact (ol_ref T x) in let refs := rf_refs (ol_ref T x) in
    Kd (ol_db T x) s /\ Ost i refs (ol_db T x) /\ aok i (ol_assumps T x) /\
    Coresok (ol_db T x) (ol_cons T x) (ol_cores T x) i /\
    forall o, Fo o -> tg o = rf_offset (ol_ref T x) + pot (ol_db T x) o i refs
      + csum (gv (ol_db T x) o) (ol_cons T x) (ol_cores T x).
  Definition mu (x : oll_st T) (s : st) : nat :=
    2 * (wtotal (obj_iter ob) - rf_offset (ol_ref T x)) + match ol_cores T x with [] => 0 | _ => 1 end.

  Lemma ost_same_act i i' refs d : Ost i refs d -> NoDup (ikeys i') -> iwf i' -> (un i' <-> un i) ->
    iact i' = iact i -> incl (ikeys i') (ikeys i) -> Ost i' refs d.
  Proof.
    intros [O1 O2 O3 O4 O5 O6 O7 O8] Hn Hw Hu Ha Hi. constructor; auto.
    - intros l rd Hin. rewrite Ha, Hu. auto.
    - rewrite Ha. exact O7.
    - rewrite Ha. exact O8.
  Qed.

  (** Values of literals in exact extensions and in models *)
  Lemma kvo_model d s i refs a m l w : Kd d s -> Ost i refs d -> In (l, w) (iact i) -> 0 < w ->
    agree (fun v => v <= me) a m -> tb_exact SP T TS d m ->
    (forall id, tb_node SP T TS d id -> tb_val SP T TS d id m = tb_val SP T TS d id a) ->
    kvo d (Some a) refs l = if lit_true m l then 1 else 0.
  Proof.
    intros HK HOs Hin Hp Hag Hex Hval. unfold OllThm.kvo, kv. destruct (hm_get l refs) as [rd|] eqn:e.
    - apply hm_get_in in e. destruct (os_ref _ _ _ _ _ HOs _ _ e) as (A1 & A2 & _).
      rewrite (tb_out_exact SP T TS _ _ _ _ m A2 Hex), Hval by now apply tb_int_node. reflexivity.
    - pose proof (os_plain _ _ _ _ _ HOs _ _ Hin Hp e). cbn. unfold lit_true. rewrite (Hag (lvar l)); [reflexivity|assumption].
  Qed.

  Lemma unsat_step rf d assumps cores cs core s : Live (mkOll T rf d assumps cores cs) s ->
    s_ora s = OCore core -> NoDup core ->
    (forall l, In l core -> exists w, In (l, w) (iact (rf_inact rf)) /\ 0 < w) ->
    (forall m, sat m (p_cls (s_prob s)) -> clause_true m core = true) ->
    wp (oll_unsat T E (mkOll T rf d assumps cores cs))
       (fun r s' => match r with
          | inl x' => (Live x' s' /\ mu x' s' < mu (mkOll T rf d assumps cores cs) s) \/ Dd x' s'
          | inr a => Qend a s' end) XX s.
  Proof.
    destruct rf as [i refs off]. unfold Live. cbn [ol_ref ol_db ol_assumps ol_cores ol_cons rf_inact rf_refs rf_offset].
    intros (HK & HOs & Ha & HC & Hid) Hora Hnd Hact Hent. unfold oll_unsat. cbn [rf_inact rf_refs rf_offset].
    apply wp_bind. eapply wp_oracle_core; [exact Hora|].
    assert (Hdeadp : forall c s', Kd d s' -> cgood core c s' -> c = [] -> (forall a, ~ F a) /\ dead s').
    { intros c s' HK' (_ & _ & G) ->. split.
      - intros a Hfa. destruct (kd_comp TS F me fin s0 d s' a HK' Hfa) as (m & _ & Hm & _). specialize (G m Hm). discriminate.
      - intros m Hm. specialize (G m Hm). discriminate. }
    assert (Hg0 : cgood core core s) by (split; [exact Hnd|]; split; [apply incl_refl|exact Hent]).
    destruct core as [|l0 core0].
    - apply wp_bind, wp_log_end; [apply HK| |].
      + intros s1 Hq HL. apply wp_ret. split; [exact (proj1 (Hdeadp [] s HK Hg0 eq_refl))|]. left. exists d.
        pose proof (kd_solved TS F me fin s0 d s s1 (quiet_solved _ _ Hq) HL HK) as HK1. split; apply HK1.
      + intros x s1 Hq Hx. eapply kd_exit; eauto using quiet_solved.
    - set (core := l0 :: core0) in *.
      assert (Hwk : length core <= wk (fun _ => 1) (iact i)) by now apply wk_core_len.
      assert (Hwt : wk (fun _ => 1) (iact i) + off <= wtotal (obj_iter ob)).
      { pose proof (Hid None Logic.I) as G. cbn [OllThm.tg] in G. unfold OllThm.pot in G.
        rewrite (wk_ext (kvo d None refs) (fun _ => 1)) in G; [lia|].
        intros l w Hin _. eapply kvo_none; [exact HOs|]. eapply iact_keys; eauto. }
      apply wp_bind. eapply (wp_minimize TS E HO HN F me fin s0 B); [exact HK|exact Hg0| |auto].
      intros c1 s1 HK1 Hs1 Hg1 Hc1.
      assert (Hg1' : cgood c1 c1 s1) by (destruct Hg1 as (A1 & A2 & A3); split; [exact A1|]; split; [apply incl_refl|exact A3]).
      apply wp_bind. eapply (wp_trim TS E HO HN F me fin s0 B); [exact HK1|exact Hg1'| | |auto].
      { destruct Hg1 as (A1 & A2 & _). pose proof (NoDup_incl_length A1 A2). lia. }
      intros c2 s2 HK2 Hs2 Hg2 Hc2.
      assert (Hg : cgood core c2 s2).
      { destruct Hg1 as (_ & A2 & _), Hg2 as (B1 & B2 & B3). split; [exact B1|]. split; [eapply incl_tran; eauto|exact B3]. }
      destruct c2 as [|l2 c2'].
      + (* the core has become empty *)
        destruct (Hdeadp [] s2 HK2 Hg eq_refl) as [HF Hd].
        assert (Hdo : Deadok).
        { split; [exact HF|]. destruct (o_core_minimization (s_opts s0)) eqn:em; [now left|right].
          destruct (o_core_trimming (s_opts s0)) eqn:et; [reflexivity|].
          rewrite (Hc1 eq_refl) in Hc2. specialize (Hc2 eq_refl). discriminate. }
        assert (HX : forall x s', XX x s') by (intros; now right).
        apply wp_dead; [apply mono_unwrap|exact Hd|exact HX|]. intros cw s6 Hd6.
        apply wp_dead; [apply mono_unwrap|exact Hd6|exact HX|]. intros off' s7 Hd7.
        apply wp_dead; [apply mono_emit|exact Hd7|exact HX|]. intros [] s8 Hd8.
        cbn [foldM]. apply wp_bind, wp_ret. cbn [length Nat.eqb]. apply wp_bind, wp_guard; [reflexivity|].
        apply wp_ret. right. split; assumption.
      + set (core2 := l2 :: c2') in *. destruct Hg as (Hn2 & Hi2 & He2).
        assert (Hact2 : forall l, In l core2 -> exists w, In (l, w) (iact i) /\ 0 < w) by (intros; apply Hact, Hi2; assumption).
        destruct (core_weight_ok i core2 (os_nodup _ _ _ _ _ HOs) (os_wf _ _ _ _ _ HOs)) as (cw & C1 & C2 & C3 & C4);
          [discriminate|exact Hact2|].
        rewrite C1. apply wp_bind. eapply wp_unwrap; [reflexivity|].
        destruct (C4 l2 (or_introl eq_refl)) as (w2 & Hw2 & Hw2').
        assert (Hle : w2 + off <= wtotal (obj_iter ob)).
        { pose proof (wk_ge (fun _ => 1) _ _ _ Hw2) as Q. cbv beta in Q. rewrite Nat.mul_1_r in Q. lia. }
        apply wp_bind. eapply wp_unwrap; [apply usize_add_ok; lia|].
        apply wp_bind, wp_emit.
        2:{ intros s3 Hq. eapply kd_exit; [exact HK2|apply quiet_solved, Hq|exact Logic.I]. }
        intros s3 Hq3 Hlm3. assert (HK3 : Kd d s3).
        { eapply kd_solved; [apply quiet_solved, Hq3| |exact HK2]. unfold lims_ok. rewrite Hlm3. apply HK2. }
        apply wp_bind.
        apply wp_foldM with (P := Rx TS F me fin s0 core2 i refs d cw (off + cw)).
        * intros pre l post x s4 Hl HR. eapply (relax_step TS E F me fin s0 B); eauto.
        * unfold Rx. cbn [rf_inact rf_refs rf_offset]. split; [exact HK3|]. split; [reflexivity|].
          split; [apply stepd_refl|]. split; [exact HOs|]. split; [exact Ha|]. split; [tauto|].
          split; [reflexivity|]. split; [intros c []|]. split; [intros o; cbn; lia|].
          split; [reflexivity|]. intros l Hl _. split; [auto|reflexivity].
        * intros [[[rf' d'] as'] ncs] s4. destruct rf' as [i' refs' off']. unfold Rx. cbn [rf_inact rf_refs rf_offset].
          intros (HK4 & -> & Hst & HO4 & Ha4 & Hu4 & Hl4 & Hcs4 & Hp4 & Hs4 & _).
          apply wp_bind, wp_guard; [rewrite Hl4; apply Nat.eqb_refl|].
          assert (Hge1 : forall o, Fo o -> 1 <= cons_app (gv d' o) ncs).
          { intros o Hfo. rewrite Hs4. destruct o as [a|].
            - destruct (kd_comp TS F me fin s0 d s2 a HK2 Hfo) as (m & G1 & G2 & G3 & G4).
              specialize (He2 m G2). apply clause_true_iff in He2. destruct He2 as (l & L1 & L2).
              destruct (Hact2 l L1) as (w & W1 & W2).
              pose proof (kvo_model d s2 i refs a m l w HK2 HOs W1 W2 G1 G3 G4) as K. rewrite L2 in K.
              rewrite <- K. apply list_sum_ge. apply in_map. exact L1.
            - assert (K : kvo d None refs l2 = 1).
              { eapply kvo_none; [exact HOs|]. eapply iact_keys; eauto. }
              rewrite <- K. apply list_sum_ge. apply in_map. now left. }
          assert (Hcx : forall o, csum (gv d' o) cs cores = csum (gv d o) cs cores).
          { intros o. apply csum_ext. intros c Hc. apply stepd_gv; [apply Hst|]. destruct HC as [HC1 _].
            now destruct (HC1 c Hc). }
          assert (Hid' : forall o, Fo o -> tg o = (off + cw) + pot d' o i' refs' + csum (gv d' o) cs cores
            + cw * (cons_app (gv d' o) ncs - 1)).
          { intros o Hfo. rewrite (Hid o Hfo), Hp4, Hcx. specialize (Hge1 o Hfo).
            destruct (cons_app (gv d' o) ncs) as [|n]; [lia|]. cbn [Nat.sub]. rewrite Nat.sub_0_r. lia. }
          assert (HC' : Coresok d' cs cores i').
          { destruct (coresok_ext _ d' _ _ _ (proj1 Hst) HC) as [Q1 Q2]. split; [exact Q1|].
            intros cd Hcd. rewrite Hu4. auto. }
          assert (Hoffle : off + cw <= wtotal (obj_iter ob)) by lia.
          assert (Hn0 : length ncs <> 0).
          { rewrite Hl4. cbn. lia. }
          destruct (1 <? length ncs) eqn:en.
          -- apply Nat.ltb_lt in en. apply wp_ret. left. split.
             ++ unfold Live. cbn [ol_ref ol_db ol_assumps ol_cores ol_cons rf_inact rf_refs rf_offset].
                split; [exact HK4|]. split; [exact HO4|]. split; [exact Ha4|]. destruct HC' as [Q1 Q2].
                split; [split|].
                ** intros c Hc. apply in_app_or in Hc. destruct Hc; auto.
                ** intros cd Hcd. apply in_app_or in Hcd. destruct Hcd as [Hcd|[<-|[]]].
                   --- destruct (Q2 cd Hcd) as (R1 & R2 & R3 & R4 & R5). split; [exact R1|]. split; [exact R2|].
                       split; [rewrite app_length; lia|]. split; [exact R4|]. rewrite slice_app by exact R3. exact R5.
                   --- cbn [cd_weight cd_len cd_idx]. rewrite slice_last.
                       split; [exact C2|]. split; [exact en|]. split; [rewrite app_length; lia|].
                       split; [rewrite Hu4; exact C3|exact Hge1].
                ** intros o Hfo. rewrite csum_app, csum_cons, slice_last. cbn [cd_weight].
                   replace (csum (gv d' o) (cs ++ ncs) cores) with (csum (gv d' o) cs cores).
                   2:{ unfold csum. f_equal. apply map_ext_in. intros cd Hcd. destruct (Q2 cd Hcd) as (_ & _ & R3 & _).
                       now rewrite slice_app. }
                   rewrite (Hid' o Hfo). cbn. lia.
             ++ unfold mu. cbn [ol_ref ol_db ol_assumps ol_cores ol_cons rf_inact rf_refs rf_offset].
                destruct (cores ++ _), cores; lia.
          -- apply Nat.ltb_ge in en. apply wp_ret. left. split.
             ++ unfold Live. cbn [ol_ref ol_db ol_assumps ol_cores ol_cons rf_inact rf_refs rf_offset].
                split; [exact HK4|]. split; [exact HO4|]. split; [exact Ha4|]. split; [exact HC'|].
                intros o Hfo. rewrite (Hid' o Hfo). destruct ncs as [|c [|c' ncs]]; cbn in en, Hn0; try lia.
                assert (con_app (gv d' o) c <= 1) by (apply conok_le, Hcs4; now left).
                replace (cons_app (gv d' o) [c] - 1) with 0 by (unfold cons_app; cbn; lia). lia.
             ++ unfold mu. cbn [ol_ref ol_db ol_assumps ol_cores ol_cons rf_inact rf_refs rf_offset].
                destruct cores; lia.
  Qed.

  Lemma reserve_ok refs : forall d n d' n', reserve_outputs T refs d n = (d', n') ->
    n <= n' /\ stepd d d' /\ (forall v, tb_leafv SP T TS d' v <-> tb_leafv SP T TS d v) /\
    (forall v, tb_aux SP T TS d' v <-> tb_aux SP T TS d v) /\
    (forall v, tb_free SP T TS d' v -> tb_free SP T TS d v \/ n <= v < n') /\
    (forall m, tb_exact SP T TS d' m <-> tb_exact SP T TS d m) /\ tb_cls SP T TS d' = tb_cls SP T TS d.
  Proof.
    unfold reserve_outputs. induction refs as [|lr refs IH]; intros d n d' n'; cbn [fold_left].
    - intros H. injection H as <- <-. split; [lia|]. split; [apply stepd_refl|]. repeat (split; [tauto|]). reflexivity.
    - cbn [fst snd]. destruct (ti_reserve T d (rd_root (snd lr)) (rd_oidx (snd lr) + 1) n) as [d1 n1] eqn:e.
      intros H. destruct (tb_reserve_ok SP T TS _ _ _ _ _ _ e) as (A1 & A2 & A3 & A4 & A5 & A6 & A7 & A8).
      destruct (IH _ _ _ _ H) as (B1 & B2 & B3 & B4 & B5 & B6 & B7).
      split; [lia|]. split.
      { eapply stepd_trans; [|exact B2]. split; [exact A2|]. intros i j x Hx. now rewrite A8. }
      split; [intros v; now rewrite B3|]. split; [intros v; now rewrite B4|]. split.
      { intros v Hv. apply B5 in Hv. destruct Hv as [Hv|Hv]; [|right; lia].
        apply A5 in Hv. destruct Hv as [Hv|Hv]; [now left|right; lia]. }
      split; [intros m; now rewrite B6|congruence].
  Qed.

  Lemma sat_step rf d assumps cores cs m s : Live (mkOll T rf d assumps cores cs) s ->
    s_ora s = OModel m -> sat m (p_cls (s_prob s)) ->
    (forall l w, In (l, w) (iact (rf_inact rf)) -> 0 < w -> lit_true m l = false) ->
    wp (oll_sat T E (mkOll T rf d assumps cores cs))
       (fun r s' => match r with
          | inl x' => (Live x' s' /\ mu x' s' < mu (mkOll T rf d assumps cores cs) s) \/ Dd x' s'
          | inr a => Qend a s' end) XX s.
  Proof.
    destruct rf as [i refs off]. unfold Live. cbn [ol_ref ol_db ol_assumps ol_cores ol_cons rf_inact rf_refs rf_offset].
    intros (HK & HOs & Ha & HC & Hid) Hora Hm Hfalse. unfold oll_sat. cbn [rf_inact rf_refs rf_offset].
    destruct cores as [|cd cores].
    - apply wp_bind. eapply wp_oracle_solution; [exact Hora| |].
      { pose proof (wf_enc _ _ _ (side_wf TS F _ _ (kd_side _ _ _ _ _ _ _ HK))). lia. }
      apply wp_bind, wp_gets.
      destruct (reserve_outputs T refs d (vm_next (p_vm (s_prob s)))) as [d' n'] eqn:e.
      destruct (reserve_ok _ _ _ _ _ e) as (B1 & B2 & B3 & B4 & B5 & B6 & B7).
      apply wp_bind, wp_modify.
      set (s1 := set_prob _ s).
      assert (Hp1 : s_prob s1 = p_defined (s_prob s) [] n').
      { cbn. unfold p_defined. cbn. now destruct (s_prob s). }
      assert (Hsd : Side TS F (s_prob s1) (fin ++ [d'])).
      { rewrite Hp1. eapply side_reserve; [apply HK|exact B1|exact B3|exact B4| |exact B6|exact B7].
        intros v Hv. apply B5 in Hv. destruct Hv as [Hv|Hv]; [|exact Hv]. destruct (kd_free _ _ _ _ _ _ _ HK v Hv). }
      assert (Hgr : gro me s0 s1).
      { destruct (kd_gro _ _ _ _ _ _ _ HK) as [K1 K2 K3 K4 K5]. constructor; rewrite ?Hp1; cbn; auto.
        eapply fr_trans; [exact K1|]. now constructor. }
      apply wp_bind, wp_log_end.
      { change (lims_ok s). apply HK. }
      2:{ intros x s2 Hq Hx. left. split; [now left|]. exists d'. split.
          - destruct Hq as [_ -> _]. exact Hsd.
          - eapply gro_solved; [apply quiet_solved, Hq|exact Hgr]. }
      intros s2 Hq HL2. apply wp_ret. cbn [Qend].
      destruct (final_ok i (os_wf _ _ _ _ _ HOs) (os_nodup _ _ _ _ _ HOs)) as (G1 & G2 & G3).
      destruct (kd_sound TS F me fin s0 d s m HK Hm) as [HFm Hcm].
      assert (Hgz : forall l rd, In (l, rd) refs -> tb_val SP T TS d (rd_root rd) m <= rd_oidx rd).
      { intros l rd Hin. destruct (os_ref _ _ _ _ _ HOs _ _ Hin) as (A1 & A2 & A3 & A4 & A5 & w & A6 & A7).
        destruct (le_lt_dec (tb_val SP T TS d (rd_root rd) m) (rd_oidx rd)) as [Hle|Hlt]; [exact Hle|exfalso].
        pose proof (tb_out_sound SP T TS _ _ _ _ m A2 Hcm Hlt) as G. rewrite (Hfalse _ _ A6 A7) in G. discriminate. }
      split; [|split; [|split; [|split; [exact HL2|]]]].
      + constructor; cbn [rf_inact rf_refs rf_offset].
        * intros o Hfo. rewrite G1, (Hid o Hfo). unfold csum. cbn [map list_sum fold_right].
          assert (Hp := pot_ext TS me i refs d d' o (proj1 B2) HOs). unfold OllThm.pot in *. lia.
        * exists m. split; [exact HFm|]. pose proof (Hid (Some m) HFm) as G. cbn [OllThm.tg] in G. rewrite G.
          unfold csum. cbn [map list_sum fold_right]. unfold OllThm.pot. rewrite wk_zero.
          -- enough (Hr : rsum (gv d (Some m)) refs = 0) by lia. unfold rsum.
             assert (Q : forall x, In x (map (fun lr => rterm (gv d (Some m)) (snd lr)) refs) -> x = 0).
             { intros x Hx. apply in_map_iff in Hx. destruct Hx as ([l rd] & <- & Hx). specialize (Hgz l rd Hx).
               unfold rterm. cbn. replace (tb_val SP T TS d (rd_root rd) m - (rd_oidx rd + 1)) with 0 by lia. lia. }
             clear - Q. induction refs as [|lr refs IH]; [reflexivity|]. cbn [map] in *. rewrite ls_cons, IH.
             ++ rewrite (Q _ (or_introl eq_refl)). reflexivity.
             ++ intros x Hx. apply Q. now right.
          -- intros l w Hin Hp. unfold OllThm.kvo, kv. destruct (hm_get l refs) as [rd|] eqn:eg.
             ++ apply hm_get_in in eg. specialize (Hgz l rd eg). cbn [OllThm.gv].
                destruct (rd_oidx rd <? tb_val SP T TS d (rd_root rd) m) eqn:el; [apply Nat.ltb_lt in el; lia|reflexivity].
             ++ cbn. now rewrite (Hfalse l w Hin Hp).
        * intros l w Hin. apply G2 in Hin. tauto.
        * intros l w Hin Hg. apply G2 in Hin. destruct Hin as [Hin Hp]. eapply (os_plain _ _ _ _ _ HOs); eauto.
        * exact G3.
        * apply HOs.
        * intros l rd Hin. pose proof (ost_ext TS me i refs d d' B2 HOs) as HOs'.
          destruct (os_ref _ _ _ _ _ HOs' _ _ Hin) as (A1 & A2 & A3 & A4 & A5 & w & A6 & A7).
          split; [exact A1|]. split; [exact A3|]. split; [exact A4|].
          apply in_map_iff. exists (l, w). split; [reflexivity|]. apply G2. auto.
        * unfold in_final_cleanup. destruct (in_cleanup i) as [[|? ?]|[|? ?] ?|]; cbn; congruence.
        * apply HOs.
        * intros l rd w Hr Hin. apply G2 in Hin. eapply (os_le _ _ _ _ _ HOs); [exact Hr|apply Hin].
      + destruct Hq as [_ -> _]. exact Hsd.
      + eapply gro_solved; [apply quiet_solved, Hq|exact Hgr].
      + cbn [rf_refs]. intros l rd Hin. pose proof (ost_ext TS me i refs d d' B2 HOs) as HOs'.
        now destruct (os_ref _ _ _ _ _ HOs' _ _ Hin) as (_ & A2 & _).
    - apply wp_bind. set (cores' := cd :: cores) in *.
      apply wp_foldM with (P := Rf cs cores' d i off).
      + intros pre x post b s1 Hl HR. eapply reform_step; eauto.
      + unfold Rf. cbn [rf_inact rf_refs rf_offset length skipn]. split; [exact HK|]. split; [apply stepd_refl|].
        split; [exact HOs|]. split; [exact Ha|]. split; [tauto|]. split; [lia|exact Hid].
      + intros [[rf' d'] as'] s1. destruct rf' as [i' refs' off']. unfold Rf. cbn [rf_inact rf_refs rf_offset].
        intros (HK1 & Hst & HO1 & Ha1 & Hu1 & Hoff & Hid1). apply wp_ret. left. split.
        * unfold Live. cbn [ol_ref ol_db ol_assumps ol_cores ol_cons rf_inact rf_refs rf_offset].
          split; [exact HK1|]. split; [exact HO1|]. split; [exact Ha1|]. split; [split; intros ? []|].
          intros o Hfo. rewrite (Hid1 o Hfo), skipn_all. reflexivity.
        * unfold mu. cbn [ol_ref ol_db ol_assumps ol_cores ol_cons rf_inact rf_refs rf_offset]. change (match cores' with [] => 0 | _ => 1 end) with 1. lia.
  Qed.

  Lemma live_step x s : Live x s ->
    wp (oll_body T E x) (fun r s' => match r with
          | inl x' => (Live x' s' /\ mu x' s' < mu x s) \/ Dd x' s'
          | inr a => Qend a s' end) XX s.
  Proof.
    destruct x as [rf d assumps cores cs]. destruct rf as [i refs off].
    intros HL0. pose proof HL0 as (HK & HOs & Ha & HC & Hid).
    cbn [ol_ref ol_db ol_assumps ol_cores ol_cons rf_inact rf_refs rf_offset] in *.
    unfold oll_body. cbn [rf_inact rf_refs rf_offset].
    destruct (prep_ok i assumps (os_nodup _ _ _ _ _ HOs) (os_wf _ _ _ _ _ HOs) Ha)
      as (i' & as' & P1 & P2 & P3 & P4 & P5 & P6 & P7 & P8).
    rewrite P1. apply wp_bind. eapply wp_unwrap; [reflexivity|]. apply wp_bind.
    assert (Hlive : forall s', Kd d s' -> Live (mkOll T (mkRef i' refs off) d as' cores cs) s').
    { intros s' HK'. unfold Live. cbn [ol_ref ol_db ol_assumps ol_cores ol_cons rf_inact rf_refs rf_offset].
      split; [exact HK'|]. split; [eapply ost_same_act; eauto|]. split; [exact P8|]. split.
      - destruct HC as [Q1 Q2]. split; [exact Q1|]. intros cd Hcd. rewrite P5. auto.
      - unfold OllThm.pot. rewrite P6. exact Hid. }
    assert (Hmu : forall s' s'', mu (mkOll T (mkRef i' refs off) d as' cores cs) s' = mu (mkOll T (mkRef i refs off) d assumps cores cs) s'') by reflexivity.
    destruct P2 as [D1 D2 D3].
    eapply (wp_unlimited TS E HO HN F me fin s0 B); [exact HK| | |auto].
    - intros m s1 Hs1 HK1 Ho Hm Hl. eapply wp_mono; [eapply (sat_step _ _ _ _ _ m); [apply Hlive, HK1|exact Ho| |]| |auto].
      + destruct Hs1 as [_ ->]. exact Hm.
      + cbn [rf_inact]. intros l w Hin Hp. specialize (Hl _ (D3 l w Hin Hp)). rewrite lit_true_lnot in Hl.
        now destruct (lit_true m l).
      + intros [x'|a] s'; [|auto]. now rewrite (Hmu s1 s).
    - intros core s1 Hs1 HK1 Ho Hsub Hnd Hent.
      eapply wp_mono; [eapply (unsat_step _ _ _ _ _ core); [apply Hlive, HK1|exact Ho|apply Hnd, D1| |]| |auto].
      + cbn [rf_inact]. intros l Hl. apply Hsub in Hl. destruct (D2 _ Hl) as (w & W1 & W2). rewrite lnot_lnot in W1. eauto.
      + destruct Hs1 as [_ ->]. exact Hent.
      + intros [x'|a] s'; [|auto]. now rewrite (Hmu s1 s).
  Qed.

  (** The whole search *)
  Lemma wp_oll d s : obj_is_constant ob = false -> NoDup (map fst (obj_iter ob)) ->
    (forall v, In v (lits_vars (map fst (obj_iter ob))) -> v <= me) ->
    d = ti_new T -> Kd d s ->
    wp (oll T E (reform_of ob) d) Qend XX s.
  Proof.
    intros Hc Hnd Hv -> HK. set (d := ti_new T) in *.
    assert (Hkeys : ikeys (rf_inact (reform_of ob)) = map fst (obj_iter ob)).
    { destruct ob; cbn; [reflexivity| |reflexivity]. rewrite map_map. cbn. now rewrite map_id. }
    assert (Hit : iact (rf_inact (reform_of ob)) = obj_iter ob).
    { destruct ob; cbn; [reflexivity| |reflexivity]. f_equal.
      clear. match goal with |- filter _ ?l = ?l => induction l as [|x r IH]; [reflexivity|cbn; exact (f_equal _ IH)] end. }
    assert (Hwf : iwf (rf_inact (reform_of ob))).
    { destruct ob; cbn in *; [exact Logic.I|intros x []|discriminate]. }
    assert (Haok : aok (rf_inact (reform_of ob)) (in_assumps (rf_inact (reform_of ob)))).
    { destruct ob as [off lits idx lb|off uw lits idx lb|off idx lb]; cbn; auto. unfold in_assumps. cbn [in_iter].
      cbn [obj_iter] in Hnd. split; [|split].
      - rewrite <- (map_map fst lnot). now apply NoDup_lnot.
      - intros a Ha. apply in_map_iff in Ha. destruct Ha as (lw & <- & Ha). rewrite lnot_lnot. now apply in_map.
      - intros l w Hin _. apply in_map_iff. exists (l, w). auto. }
    assert (HOs : Ost (rf_inact (reform_of ob)) [] d).
    { constructor.
      - exact Hwf.
      - now rewrite Hkeys.
      - constructor.
      - constructor.
      - intros l rd [].
      - intros l Hl. left. rewrite Hkeys in Hl. apply Hv. now apply in_map.
      - intros l w Hin _ _. apply iact_keys in Hin. rewrite Hkeys in Hin. apply Hv. now apply in_map.
      - intros l rd w []. }
    assert (HL : forall s', Kd d s' -> Live (mkOll T (reform_of ob) d (in_assumps (rf_inact (reform_of ob))) [] []) s').
    { intros s' HK'. unfold Live. cbn [ol_ref ol_db ol_assumps ol_cores ol_cons].
      replace (rf_refs (reform_of ob)) with (@nil (lit * reform_data)) by reflexivity.
      replace (rf_offset (reform_of ob)) with 0 by reflexivity.
      split; [exact HK'|]. split; [exact HOs|]. split; [exact Haok|]. split; [split; intros ? []|].
      intros o _. unfold OllThm.pot, csum, rsum. cbn [map list_sum fold_right]. rewrite Hit.
      destruct o as [a|]; cbn [OllThm.tg].
      - unfold icost. rewrite <- wk_wsum. cbn. unfold OllThm.kvo, kv. cbn. lia.
      - rewrite <- wk_wtotal. cbn. unfold OllThm.kvo, kv. cbn. lia. }
    unfold oll.
    assert (G : wp (log_start E RtOll ;;; loop (ev_fuel E) (oll_body T E)
      (mkOll T (reform_of ob) d (in_assumps (rf_inact (reform_of ob))) [] [])) Qend XX s).
    { apply wp_bind, wp_log_start; [apply HK| |intros; eapply kd_exit; eauto using quiet_solved].
      intros s1 Hq HL1. assert (HK1 : Kd d s1) by (eapply kd_solved; eauto using quiet_solved).
      eapply wp_loop2 with (L := Live) (D := Dd) (mu := mu).
      - apply live_step.
      - apply dead_step.
      - intros x s' [_ G]. now right.
      - apply HL, HK1.
      - intros x' s' HL' Hle. left. split.
        + right. split; [reflexivity|]. unfold mu in Hle.
          cbn [ol_ref ol_db ol_assumps ol_cores ol_cons rf_inact rf_refs rf_offset reform_of] in Hle. lia.
        + exists (ol_db T x'). destruct HL' as (HK' & _). split; apply HK'. }
    destruct (rf_inact (reform_of ob)); [exact G|exact G|destruct Hwf].
  Qed.
End Main.
