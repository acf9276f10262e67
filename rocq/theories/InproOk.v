(** * Rebuilding the encodings after harmless inprocessing *)
From Coq Require Import List Bool Arith Lia ZArith Permutation.
From Verif Require Import Base BaseLemmas Spec MTypes MKernel MPMinimal MLowerBounding MBiOptSat
  EncSpec Wp Sem Kern Yield PMin PMinTop Init ApiSpec Ext Blk Api ApiTop MOll TotSpec
  OllSide OllData OllThm OllRun OllMain CbMerge CbTop CbSpec CbApi MPrepro PreSpec MMaxPre MaxPreSpec
  MInpro InproSpec PreProofThm PreproThm MaxPreThm InproThm InproOkSpec InproSlots.
From Verif Require ProofCert.
Import ListNotations.

(** ** Active outputs of a totalizer *)
Fixpoint dsum (g k : nat) (dat : list bool) : nat :=
  match dat with
  | [] => 0
  | a :: r => (if a && (k <? g) then 1 else 0) + dsum g (S k) r
  end.
Lemma dsum_false g n : forall k, dsum g k (repeat false n) = 0.
Proof. induction n as [|n IH]; intros k; cbn; auto. Qed.
Lemma dsum_true g n : forall k, g <= k + n -> dsum g k (repeat true n) = g - k.
Proof.
  induction n as [|n IH]; intros k H; cbn [repeat dsum andb]; [lia|]. rewrite IH by lia.
  destruct (k <? g) eqn:e; [apply Nat.ltb_lt in e|apply Nat.ltb_ge in e]; lia.
Qed.
Lemma dsum_app g x : forall k y, dsum g k (x ++ y) = dsum g k x + dsum g (k + length x) y.
Proof.
  induction x as [|a x IH]; intros k y; cbn [app dsum length]; [now rewrite Nat.add_0_r|]. rewrite IH.
  replace (S k + length x) with (k + S (length x)) by lia. lia.
Qed.
Lemma dsum_set g j : forall k dat, nth_error dat j = Some false ->
  dsum g k (set_nth j true dat) = dsum g k dat + (if k + j <? g then 1 else 0).
Proof.
  induction j as [|j IH]; intros k [|a dat] H; try discriminate; cbn [set_nth dsum nth_error] in *.
  - injection H as ->. cbn [andb]. rewrite Nat.add_0_r. lia.
  - rewrite IH by exact H. replace (k + S j) with (S k + j) by lia. lia.
Qed.
Lemma up_form : forall dat : list bool,
  (forall j j', nth_error dat j = Some true -> j < j' < length dat -> nth_error dat j' = Some true) ->
  exists a b, dat = repeat false a ++ repeat true b.
Proof.
  induction dat as [|x dat IH]; intros H; [exists 0, 0; reflexivity|].
  destruct IH as (a & b & E).
  { intros j j' H1 H2. apply (H (S j) (S j') H1). cbn. lia. }
  destruct x.
  - exists 0, (S (a + b)). cbn [repeat app]. f_equal. rewrite E. destruct a as [|a].
    + reflexivity.
    + exfalso. specialize (H 0 1 eq_refl). rewrite E in H. cbn in H. specialize (H ltac:(lia)). discriminate.
  - exists (S a), b. cbn. now rewrite E.
Qed.
Lemma scan_true n : forall k o, o < k -> ip_scan k (repeat true n) (Some o) None = Some (Some o, None).
Proof.
  induction n as [|n IH]; intros k o H; cbn [repeat ip_scan andb]; [reflexivity|].
  rewrite Nat.min_r by lia. apply IH. lia.
Qed.
Lemma scan_up b : forall a k, 0 < b -> ip_scan k (repeat false a ++ repeat true b) None None = Some (Some (k + a), None).
Proof.
  intros a. induction a as [|a IH]; intros k Hb; cbn [repeat app ip_scan andb].
  - destruct b as [|b]; [lia|]. cbn [repeat ip_scan andb]. rewrite scan_true by lia. now rewrite Nat.add_0_r.
  - rewrite IH by exact Hb. do 3 f_equal. lia.
Qed.

Lemma tots_get_in m : forall k v, tots_get k m = Some v -> In (k, v) m.
Proof.
  induction m as [|[k' v'] m IH]; cbn; intros k v H; [discriminate|]. destruct (k =? k') eqn:e.
  - apply Nat.eqb_eq in e. left. congruence.
  - right. now apply IH.
Qed.
Lemma tots_get_none m : forall k, tots_get k m = None -> ~ In k (map fst m).
Proof.
  induction m as [|[k' v'] m IH]; cbn; intros k H; [tauto|]. destruct (k =? k') eqn:e; [discriminate|].
  apply Nat.eqb_neq in e. intros [G|G]; [lia|]. exact (IH k H G).
Qed.
Lemma tots_set_new m : forall k v, ~ In k (map fst m) -> tots_set k v m = m ++ [(k, v)].
Proof.
  induction m as [|[k' v'] m IH]; cbn; intros k v H; [reflexivity|]. destruct (k =? k') eqn:e.
  - apply Nat.eqb_eq in e. subst. destruct H. now left.
  - rewrite IH; [reflexivity|tauto].
Qed.
Lemma tots_set_old m : forall k v, NoDup (map fst m) -> In (k, v) m -> exists m1 m2, m = m1 ++ (k, v) :: m2 /\
  forall v', tots_set k v' m = m1 ++ (k, v') :: m2.
Proof.
  induction m as [|[k' v'] m IH]; intros k v Hn Hin; [destruct Hin|]. cbn [map fst] in Hn. inversion Hn as [|? ? N1 N2]; subst.
  cbn [tots_set]. destruct Hin as [Hin|Hin].
  - injection Hin as -> ->. exists [], m. split; [reflexivity|]. intros x. now rewrite Nat.eqb_refl.
  - destruct (k =? k') eqn:e.
    + apply Nat.eqb_eq in e. subst. destruct N1. apply in_map_iff. exists (k', v). auto.
    + destruct (IH k v N2 Hin) as (m1 & m2 & -> & H). exists ((k', v') :: m1), m2. split; [reflexivity|]. intros x. now rewrite H.
Qed.

Definition tval (g : nat -> nat) (t : nat * (list bool * nat)) : nat :=
  let '(root, (dat, tw)) := t in tw * dsum (g root) 0 dat.
Definition tvals g (ts : tots) : nat := list_sum (map (tval g) ts).
Lemma tvals_app g x y : tvals g (x ++ y) = tvals g x + tvals g y.
Proof. unfold tvals. now rewrite map_app, list_sum_app. Qed.

Section Build.
  Context {I : enc_impl} {SP : enc_spec I} {T : tot_impl I} (TS : tot_spec SP T).
  Notation db := (ti_db T).
  Notation st := (st I).
  Notation int := (tb_int SP T TS).
  Notation tmax := (tb_max SP T TS).
  Notation gv := (gv TS).
  Variable F : asg -> Prop.
  Variable me : nat.
  Variable re : db -> db.
  Variables (d : db) (ob : objective) (rf : reform).
  Let d0 := re d.
  Variables (dk : db) (outs : list (lit * reform_data)) (xs : list slot).
  Hypothesis HS : Slots TS F me re d ob rf dk outs xs.
  Hypothesis Hleaf : forall v, tb_leafv SP T TS dk v -> v <= me.

  Definition tot_ok (pre : list slot) (mlw : nat) (t : nat * (list bool * nat)) : Prop :=
    let '(root, (dat, tw)) := t in
    int d0 root /\ length dat = tmax d0 root /\ tw <= mlw /\
    (exists j, nth_error dat j = Some true) /\
    (forall j, nth_error dat j = Some true <->
       exists l rd, In (l, tw, Some rd) pre /\ rd_root rd = root /\ rd_oidx rd = j /\ rd_weight rd = tw).
  Record JI (pre : list slot) (x : db * list con * tots * nat) : Prop := mkJI {
    ji_ext : let '(d1, _, _, _) := x in tb_ext SP T TS dk d1;
    ji_same : let '(d1, _, _, _) := x in tb_same SP T TS dk d1;
    ji_leaf : let '(d1, _, _, _) := x in forall v, tb_leafv SP T TS d1 v -> v <= me;
    ji_cs : let '(d1, cs, _, mlw) := x in forall c, In c cs ->
      tb_node SP T TS d1 (cn_id c) /\ cn_mult c * tb_w SP T TS d1 (cn_id c) <= mlw /\
      (forall k, cn_limit c = Some k -> k = 1 /\ int d0 (cn_id c) /\
         exists l w rd, In (l, w, Some rd) pre /\ rd_root rd = cn_id c /\ rd_oidx rd = cn_off c) /\
      (cn_off c = 0 \/ int d1 (cn_id c));
    ji_ts : let '(_, _, ts, mlw) := x in NoDup (map fst ts) /\ Forall (tot_ok pre mlw) ts;
    ji_all : let '(_, _, ts, _) := x in forall l rd, In (l, rd_weight rd, Some rd) pre -> In (rd_root rd) (map fst ts);
    ji_val : let '(d1, cs, ts, _) := x in forall o,
      cons_app (gv d1 o) cs + tvals (gv d0 o) ts = svals (gv d0 o) (bv o) pre;
    ji_ne : let '(_, cs, ts, _) := x in pre <> [] -> cs <> [] \/ ts <> [] }.

  Lemma ext0 d1 : tb_ext SP T TS dk d1 -> tb_ext SP T TS d0 d1.
  Proof. intros H. eapply ext_trans_db; [exact (sl_ext _ _ _ _ _ _ _ _ _ _ HS)|exact H]. Qed.

  Lemma tot_mono pre y mlw mlw' t : mlw <= mlw' -> tot_ok pre mlw t ->
    (forall rd, snd y = Some rd -> snd (fst y) < rd_weight rd \/ rd_root rd <> fst t) ->
    tot_ok (pre ++ [y]) mlw' t.
  Proof.
    destruct t as [root [dat tw]]. intros Hm (T1 & T2 & T3 & T4 & T5) Hy. split; [exact T1|]. split; [exact T2|].
    split; [lia|]. split; [exact T4|]. intros j. rewrite T5. split.
    - intros (l & rd & H1 & H2). exists l, rd. split; [|exact H2]. apply in_or_app. now left.
    - intros (l & rd & H1 & H2 & H3 & H4). apply in_app_or in H1. destruct H1 as [H1|[H1|[]]]; [exists l, rd; auto|].
      rewrite H1 in Hy. cbn [snd fst] in Hy. destruct (Hy rd eq_refl) as [G|G]; [lia|]. congruence.
  Qed.

  Lemma soft_step pre y post x (X : exit -> st -> Prop) s : xs = pre ++ y :: post -> JI pre x ->
    wp (ip_soft (I := I) T outs x (soft_of y)) (fun x' s' => s' = s /\ JI (pre ++ [y]) x') X s.
  Proof.
    destruct x as [[[d1 cs] ts] mlw]. intros He [J1 J2 J3 J4 [J5 J5'] J6 J7 J8].
    assert (Hy : In y xs) by (rewrite He; apply in_or_app; right; now left).
    assert (Hpre : forall z, In z pre -> In z xs) by (intros z Hz; rewrite He; apply in_or_app; now left).
    assert (Hok : slot_ok TS me re d dk outs y).
    { pose proof (sl_ok _ _ _ _ _ _ _ _ _ _ HS) as G. rewrite Forall_forall in G. now apply G. }
    destruct y as [[l w] r]. cbn [soft_of ip_soft]. rewrite lnot_lnot.
    assert (Hcs : forall new, (forall c, In c cs -> tb_node SP T TS d1 (cn_id c)) -> forall o,
      cons_app (gv d1 o) (cs ++ new) = cons_app (gv d1 o) cs + cons_app (gv d1 o) new).
    { intros new _ o. apply cons_app_app. }
    destruct r as [[root oidx tw]|].
    - destruct Hok as (K0 & K1 & K2 & K3 & K4 & K5). cbn [rd_root rd_oidx rd_weight] in *. fold d0 in K2, K3. rewrite K1.
      destruct (ext0 _ J1 root (tb_int_node SP T TS _ _ K2)) as (B1 & B2 & B3 & B4 & B5 & B6). specialize (B6 K2).
      destruct (tb_int_len SP T TS _ _ K2) as [C1 C2].
      assert (Hg : forall o, gv d1 o root = gv d0 o root) by (intros o; destruct o; cbn [OllThm.gv]; auto).
      destruct (w <? tw) eqn:ew.
      + apply Nat.ltb_lt in ew. apply wp_ret. split; [reflexivity|]. constructor; try assumption.
        * intros c Hc. apply in_app_or in Hc. destruct Hc as [Hc|[<-|[]]].
          -- destruct (J4 c Hc) as (G1 & G2 & G3 & G4). split; [exact G1|]. split; [lia|]. split; [|exact G4].
             intros k Hk. destruct (G3 k Hk) as (G5 & G6 & l' & w' & rd' & G7 & G8). split; [exact G5|]. split; [exact G6|].
             exists l', w', rd'. split; [|exact G8]. apply in_or_app. now left.
          -- unfold con_single. cbn [cn_id cn_mult cn_limit cn_off]. split; [exact B1|]. split; [rewrite B4, C2; lia|].
             split; [|now right]. intros k Hk. injection Hk as <-. split; [reflexivity|]. split; [exact K2|].
             exists l, w, (mkRd root oidx tw). split; [apply in_or_app; right; now left|]. cbn. split; [reflexivity|lia].
        * split; [exact J5|]. eapply Forall_impl; [|exact J5']. intros t Ht.
          eapply tot_mono; [|exact Ht|]; [lia|]. cbn [snd fst]. intros rd Hrd. injection Hrd as <-. left. exact ew.
        * intros l' rd' H'. apply in_app_or in H'. destruct H' as [H'|[H'|[]]]; [eauto|]. injection H' as _ E1 E2. subst rd'. cbn in E1. lia.
        * intros o. rewrite Hcs by (intros c Hc; now apply J4). rewrite svals_app, <- J7.
          change (cons_app (gv d1 o) [con_single root (oidx + 1) w]) with (con_app (gv d1 o) (con_single root (oidx + 1) w) + 0).
          rewrite (app_single), Hg. unfold svals. cbn [map list_sum fold_right sval rd_oidx rd_root]. lia.
        * intros _. left. intros H. now destruct cs.
      + apply Nat.ltb_ge in ew. assert (w = tw) by lia. subst w. clear ew K5.
        assert (Hkey : ~ In (root, oidx) (keys pre)).
        { pose proof (sl_nodup _ _ _ _ _ _ _ _ _ _ HS) as N. rewrite He, keys_app in N. cbn in N.
          apply NoDup_remove_2 in N. intros G. apply N. apply in_or_app. now left. }
        (* the entry with one more active output *)
        assert (Hent : forall dat, length dat = tmax d0 root -> nth_error dat oidx = Some false ->
          (forall j, nth_error dat j = Some true <->
             exists l' rd, In (l', tw, Some rd) pre /\ rd_root rd = root /\ rd_oidx rd = j /\ rd_weight rd = tw) ->
          tot_ok (pre ++ [(l, tw, Some (mkRd root oidx tw))]) (Nat.max tw mlw) (root, (set_nth oidx true dat, tw))).
        { intros dat D1 D2 D3. split; [exact K2|]. split; [now rewrite set_nth_length|]. split; [lia|].
          assert (Hs : nth_error (set_nth oidx true dat) oidx = Some true) by (apply set_nth_same; lia).
          split; [eauto|]. intros j. destruct (Nat.eq_dec j oidx) as [->|Hne].
          - rewrite Hs. split; [|reflexivity]. intros _. exists l, (mkRd root oidx tw).
            split; [apply in_or_app; right; now left|auto].
          - rewrite set_nth_other by lia. rewrite D3. split; intros (l' & rd & G1 & G2 & G3 & G4).
            + exists l', rd. split; [apply in_or_app; now left|auto].
            + apply in_app_or in G1. destruct G1 as [G1|[G1|[]]]; [eauto 7|]. injection G1 as _ <-. cbn in G3. lia. }
        assert (Hother : forall t, In t ts -> fst t <> root -> tot_ok (pre ++ [(l, tw, Some (mkRd root oidx tw))]) (Nat.max tw mlw) t).
        { intros t Ht Hne. rewrite Forall_forall in J5'. eapply tot_mono; [|apply J5', Ht|]; [lia|].
          cbn [snd fst]. intros rd Hrd. injection Hrd as <-. right. cbn. congruence. }
        assert (Hcs' : forall c, In c cs -> tb_node SP T TS d1 (cn_id c) /\ cn_mult c * tb_w SP T TS d1 (cn_id c) <= Nat.max tw mlw /\
          (forall k, cn_limit c = Some k -> k = 1 /\ int d0 (cn_id c) /\
            exists l' w' rd, In (l', w', Some rd) (pre ++ [(l, tw, Some (mkRd root oidx tw))]) /\ rd_root rd = cn_id c /\ rd_oidx rd = cn_off c) /\
          (cn_off c = 0 \/ int d1 (cn_id c))).
        { intros c Hc. destruct (J4 c Hc) as (G1 & G2 & G3 & G4). split; [exact G1|]. split; [lia|]. split; [|exact G4].
          intros k Hk. destruct (G3 k Hk) as (G5 & G6 & l' & w' & rd' & G7 & G8). split; [exact G5|]. split; [exact G6|].
          exists l', w', rd'. split; [|exact G8]. apply in_or_app. now left. }
        assert (Hd : forall o k dat, nth_error dat oidx = Some false -> k = gv d0 o root ->
          tw * dsum k 0 (set_nth oidx true dat) = tw * dsum k 0 dat + sval (gv d0 o) (bv o) (l, tw, Some (mkRd root oidx tw))).
        { intros o k dat Hf ->. rewrite dsum_set by exact Hf. cbn [sval rd_oidx rd_root Nat.add]. lia. }
        assert (Hsv : forall o, svals (gv d0 o) (bv o) [(l, tw, Some (mkRd root oidx tw))] = sval (gv d0 o) (bv o) (l, tw, Some (mkRd root oidx tw))).
        { intros o. unfold svals. cbn [map list_sum fold_right]. lia. }
        destruct (tots_get root ts) as [[dat tw']|] eqn:et.
        * apply tots_get_in in et. rewrite Forall_forall in J5'. destruct (J5' _ et) as (T1 & T2 & T3 & (j0 & T4) & T5).
          assert (tw' = tw).
          { destruct (proj1 (T5 j0) T4) as (l' & rd' & G1 & G2 & G3 & G4).
            pose proof (sl_weight _ _ _ _ _ _ _ _ _ _ HS _ _ _ _ _ _ (Hpre _ G1) Hy) as G. cbn [rd_root rd_weight] in G.
            rewrite G2 in G. specialize (G eq_refl). congruence. }
          subst tw'.
          assert (Hf : nth_error dat oidx = Some false).
          { destruct (nth_error dat oidx) as [[|]|] eqn:en; [|reflexivity|apply nth_error_None in en; lia]. exfalso. apply Hkey.
            destruct (proj1 (T5 oidx) en) as (l' & rd' & G1 & G2 & G3 & G4). apply in_keys. exists l', tw, rd'. auto. }
          apply wp_bind, wp_guard; [rewrite (nth_error_nth _ _ _ Hf); reflexivity|].
          apply wp_ret. split; [reflexivity|].
          destruct (tots_set_old ts root (dat, tw) J5 et) as (m1 & m2 & -> & Hset). rewrite Hset.
          constructor; try assumption.
          -- split; [rewrite map_app in *; exact J5|]. apply Forall_app. rewrite map_app in J5. cbn [map fst] in J5.
             apply NoDup_remove_2 in J5.
             assert (Hne : forall t, In t m1 \/ In t m2 -> fst t <> root).
             { intros t Ht G. apply J5. apply in_or_app. destruct Ht as [Ht|Ht]; [left|right]; apply in_map_iff; exists t; auto. }
             split; [|constructor].
             ++ apply Forall_forall. intros t Ht. apply Hother; [apply in_or_app; now left|auto].
             ++ apply Hent; assumption.
             ++ apply Forall_forall. intros t Ht. apply Hother; [apply in_or_app; right; now right|auto].
          -- rewrite map_app in *. cbn [map fst] in *. intros l' rd' H'. apply in_app_or in H'.
             destruct H' as [H'|[H'|[]]]; [eauto|]. injection H' as _ _ E2. subst rd'. cbn. apply in_or_app. right. now left.
          -- intros o. rewrite svals_app, <- J7, Hsv, !tvals_app.
             change (tvals (gv d0 o) ((root, ?x) :: m2)) with (tval (gv d0 o) (root, x) + tvals (gv d0 o) m2).
             cbn [tval]. rewrite (Hd o _ dat Hf eq_refl). lia.
          -- intros _. right. intros H. now destruct m1.
        * apply tots_get_none in et. apply wp_bind, wp_guard; [apply Nat.ltb_lt; rewrite B5, C1; exact K3|].
          apply wp_ret. split; [reflexivity|]. rewrite tots_set_new by exact et.
          assert (Hf : nth_error (repeat false (ti_len T d1 root)) oidx = Some false).
          { apply nth_error_repeat. rewrite B5, C1. exact K3. }
          assert (Hnone : forall j l' rd, In (l', tw, Some rd) pre /\ rd_root rd = root /\ rd_oidx rd = j /\ rd_weight rd = tw -> False).
          { intros j l' rd (G1 & G2 & _ & G4). apply et. rewrite <- G2. apply (J6 l'). now rewrite G4. }
          constructor; try assumption.
          -- split.
             { rewrite map_app. cbn [map fst]. apply ProofCert.NoDup_app_intro; [exact J5|repeat constructor; intros []|].
               intros z Hz [<-|[]]. exact (et Hz). }
             apply Forall_app. split; [|constructor; [|constructor]].
             ++ apply Forall_forall. intros t Ht. apply Hother; [exact Ht|]. intros <-. apply et. now apply in_map.
             ++ apply Hent; [rewrite repeat_length; congruence|exact Hf|]. intros j. split.
                ** intros G. apply nth_error_In, repeat_spec in G. discriminate.
                ** intros (l' & rd & G). destruct (Hnone j l' rd G).
          -- intros l' rd' H'. rewrite map_app. apply in_or_app. apply in_app_or in H'.
             destruct H' as [H'|[H'|[]]]; [left; eauto|]. injection H' as _ _ E2. subst rd'. right. now left.
          -- intros o. rewrite svals_app, <- J7, Hsv, tvals_app.
             change (tvals (gv d0 o) [(root, ?x)]) with (tval (gv d0 o) (root, x) + 0).
             cbn [tval]. rewrite (Hd o _ _ Hf eq_refl), dsum_false. lia.
          -- intros _. right. intros H. now destruct ts.
    - destruct Hok as (K0 & K1 & K2). rewrite K1. destruct (ti_leaf T d1 l) as [d2 id] eqn:el.
      destruct (tb_leaf_ok SP T TS _ _ _ _ el) as (L1 & L2 & L3 & L4 & L5 & L6 & L7 & L8).
      apply wp_ret. split; [reflexivity|]. constructor.
      + eapply ext_trans_db; eauto.
      + eapply same_trans; eauto.
      + intros v Hv. apply L3 in Hv. destruct Hv as [Hv| ->]; auto.
      + intros c Hc. apply in_app_or in Hc. destruct Hc as [Hc|[<-|[]]].
        * destruct (J4 c Hc) as (D1 & D2 & D3 & D4). destruct (L1 _ D1) as (F1 & F2 & F3 & F4 & F5 & F6).
          split; [exact F1|]. split; [rewrite F4; lia|]. split; [|tauto].
          intros k Hk. destruct (D3 k Hk) as (G5 & G6 & l' & w' & rd' & G7 & G8). split; [exact G5|]. split; [exact G6|].
          exists l', w', rd'. split; [|exact G8]. apply in_or_app. now left.
        * cbn [con_weighted cn_id cn_mult cn_limit cn_off]. split; [exact L5|]. split; [rewrite L8; lia|].
          split; [discriminate|now left].
      + split; [exact J5|]. eapply Forall_impl; [|exact J5']. intros t Ht.
        eapply tot_mono; [|exact Ht|]; [lia|]. intros rd Hrd. discriminate.
      + intros l' rd' H'. apply in_app_or in H'. destruct H' as [H'|[H'|[]]]; [eauto|discriminate].
      + intros o. rewrite cons_app_app, svals_app, <- J7.
        rewrite (cons_app_ext (gv d2 o) (gv d1 o) cs).
        2:{ intros c Hc. apply gv_ext; [exact L1|]. now apply J4. }
        unfold svals, cons_app, con_app. cbn [map list_sum fold_right con_weighted cn_mult cn_limit cn_id cn_off lim sval].
        assert (Hg : gv d2 o id = bv o l) by (destruct o; cbn [OllThm.gv OllThm.bv]; [apply L6|exact L7]).
        rewrite Hg, Nat.sub_0_r. lia.
      + intros _. left. intros H. now destruct cs.
  Qed.

  (** the totalizers *)
  Definition tcon (t : nat * (list bool * nat)) (c : con) : Prop :=
    let '(root, (dat, tw)) := t in int d0 root /\ exists a, c = con_offset_weighted root a tw /\
      forall g, g root <= tmax d0 root -> con_app g c = tval g t.
  Lemma tot_step mlw t cs (X : exit -> st -> Prop) s : tot_ok xs mlw t ->
    wp (ip_tot (I := I) cs t) (fun cs' s' => s' = s /\ exists c, cs' = cs ++ [c] /\ tcon t c) X s.
  Proof.
    destruct t as [root [dat tw]]. intros (T1 & T2 & T3 & (j0 & T4) & T5). unfold ip_tot.
    assert (Hup : forall j j', nth_error dat j = Some true -> j < j' < length dat -> nth_error dat j' = Some true).
    { intros j j' H1 H2. destruct (proj1 (T5 j) H1) as (l & rd & G1 & G2 & G3 & G4).
      destruct (sl_up _ _ _ _ _ _ _ _ _ _ HS _ _ _ j' G1) as (l' & Hl'); [lia|fold d0; rewrite G2; lia|].
      apply T5. rewrite G2, G4 in Hl'. exists l', (mkRd root j' tw). auto. }
    destruct (up_form dat Hup) as (a & b & Ed).
    assert (Hb : 0 < b).
    { destruct b as [|b]; [|lia]. rewrite Ed in T4. cbn in T4. rewrite app_nil_r in T4. apply nth_error_In, repeat_spec in T4. discriminate. }
    rewrite Ed, scan_up by exact Hb. apply wp_ret. split; [reflexivity|]. eexists. split; [reflexivity|].
    split; [exact T1|]. exists (0 + a). split; [reflexivity|]. intros g Hg. rewrite app_offset. cbn [tval Nat.add].
    rewrite Ed, app_length, !repeat_length in T2.
    rewrite dsum_app, dsum_false, repeat_length, dsum_true by lia. reflexivity.
  Qed.
  Lemma tots_steps mlw s (X : exit -> st -> Prop) : forall ts cs, Forall (tot_ok xs mlw) ts ->
    wp (foldM (ip_tot (I := I)) ts cs) (fun cs' s' => s' = s /\ exists new, cs' = cs ++ new /\ Forall2 tcon ts new) X s.
  Proof.
    induction ts as [|t ts IH]; intros cs H; cbn [foldM].
    - apply wp_ret. split; [reflexivity|]. exists []. rewrite app_nil_r. split; [reflexivity|constructor].
    - inversion H as [|? ? H1 H2]; subst. apply wp_bind. eapply wp_mono; [apply (tot_step mlw t cs X); exact H1| |auto].
      intros cs1 s1 [-> (c & -> & Hc)]. eapply wp_mono; [apply IH, H2| |auto].
      intros cs2 s2 [-> (new & -> & Hn)]. split; [reflexivity|]. exists (c :: new). split; [now rewrite <- app_assoc|].
      constructor; assumption.
  Qed.
  Lemma tcons_val o : forall ts new, Forall2 tcon ts new -> cons_app (gv d0 o) new = tvals (gv d0 o) ts.
  Proof.
    induction 1 as [|[root [dat tw]] c ts new (H1 & a & H2 & H3) H IH]; [reflexivity|].
    change (con_app (gv d0 o) c + cons_app (gv d0 o) new = tval (gv d0 o) (root, (dat, tw)) + tvals (gv d0 o) ts).
    rewrite IH, H3; [reflexivity|]. destruct o; cbn [OllThm.gv]; [apply tb_val_max, tb_int_node, H1|lia].
  Qed.
  Lemma tcons_in : forall ts new, Forall2 tcon ts new -> forall c, In c new -> exists t, In t ts /\ tcon t c.
  Proof.
    induction 1 as [|t c ts new H1 H IH]; [intros c []|]. intros c' [<-|Hc]; [exists t; split; [now left|exact H1]|].
    destruct (IH c' Hc) as (t' & G1 & G2). exists t'. split; [now right|exact G2].
  Qed.

  (** the connections of a whole objective *)
  Lemma final_cons d1 cs ts mlw new : xs <> [] -> JI xs (d1, cs, ts, mlw) -> Forall2 tcon ts new ->
    forall (Q : obj_enc I -> st -> Prop) (X : exit -> st -> Prop) s,
    (forall e, Encok TS F ob me dk e (rf_offset rf) -> Q e s) ->
    wp (merge_cons T d1 (cs ++ new) (rf_offset rf) mlw) Q X s.
  Proof.
    intros Hne [J1 J2 J3 J4 [J5 J5'] J6 J7 J8] Hnew Q X s HQ. pose proof (ext0 _ J1) as Hx.
    assert (Hl : length new = length ts) by (clear - Hnew; induction Hnew; cbn; lia).
    apply (merge_cons_ok TS F ob me dk).
    - exact J2.
    - exact J3.
    - intros c Hc. apply in_app_or in Hc. destruct Hc as [Hc|Hc].
      + destruct (J4 c Hc) as (G1 & G2 & G3 & G4). split; [exact G1|]. split; [exact G2|]. split; [|exact G4].
        intros k Hk. destruct (G3 k Hk) as (-> & G6 & l & w & rd & G7 & G8 & G9).
        destruct (Hx _ (tb_int_node SP T TS _ _ G6)) as (_ & _ & M3 & _). rewrite M3.
        destruct (le_lt_dec (tmax d0 (cn_id c)) (cn_off c + 1)) as [Hle|Hlt]; [now left|right].
        destruct (sl_up _ _ _ _ _ _ _ _ _ _ HS _ _ _ (S (cn_off c)) G7) as (l' & Hl'); [lia|fold d0; rewrite G8; lia|].
        pose proof (J6 l' (mkRd (rd_root rd) (S (cn_off c)) (rd_weight rd)) Hl') as K. rewrite app_length, Hl.
        destruct cs; [destruct Hc|]. destruct ts; [destruct K|]. cbn. lia.
      + destruct (tcons_in _ _ Hnew c Hc) as ([root [dat tw]] & Ht & (H1 & a & -> & _)).
        cbn [con_offset_weighted cn_id cn_mult cn_limit cn_off].
        destruct (Hx _ (tb_int_node SP T TS _ _ H1)) as (B1 & _ & _ & B4 & _ & B6). destruct (tb_int_len SP T TS _ _ H1) as [_ C2].
        split; [exact B1|]. rewrite Forall_forall in J5'. destruct (J5' _ Ht) as (_ & _ & T3 & _). split; [rewrite B4, C2; lia|].
        split; [discriminate|right; auto].
    - intros o Ho. rewrite (sl_val _ _ _ _ _ _ _ _ _ _ HS o Ho). f_equal. rewrite cons_app_app. fold d0. rewrite <- J7. f_equal.
      rewrite <- (tcons_val o ts new Hnew). apply cons_app_ext. intros c Hc.
      destruct (tcons_in _ _ Hnew c Hc) as ([root [dat tw]] & _ & (H1 & a & -> & _)). cbn [con_offset_weighted cn_id].
      symmetry. apply gv_ext; [exact Hx|]. now apply tb_int_node.
    - destruct (J8 Hne) as [G|G]; intros H; apply app_eq_nil in H; destruct H as [H H']; [exact (G H)|].
      apply G. apply length_zero_iff_nil. rewrite <- Hl, H'. reflexivity.
    - exact HQ.
  Qed.
End Build.
