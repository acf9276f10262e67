(** * Correctness of merging a reformulation into an objective encoding *)
From Coq Require Import List Bool Arith Lia ZArith.
From Verif Require Import Base BaseLemmas MTypes MKernel EncSpec Wp Sem Kern Ext MOll TotSpec
  OllSide OllData OllThm.
Import ListNotations.

(** The remaining terms, summed over the literals of the objective *)
Definition oterm (g : nat -> nat) (refs : list (lit * reform_data)) (l : lit) : nat :=
  match hm_get l refs with Some rd => rterm g rd | None => 0 end.
Definition osum (g : nat -> nat) (refs : list (lit * reform_data)) (ls : list (lit * nat)) : nat :=
  list_sum (map (fun lw => oterm g refs (fst lw)) ls).
Lemma osum_app g refs x y : osum g refs (x ++ y) = osum g refs x + osum g refs y.
Proof. unfold osum. now rewrite map_app, list_sum_app. Qed.

Lemma osum_rsum g refs : forall ls, NoDup (map fst ls) -> NoDup (map fst refs) ->
  (forall l rd, In (l, rd) refs -> In l (map fst ls)) -> osum g refs ls = rsum g refs.
Proof.
  induction refs as [|[k x] refs IH]; intros ls Hl Hr Hin.
  - unfold osum, oterm. cbn [hm_get]. unfold rsum. cbn. clear. induction ls as [|a ls IH]; [reflexivity|]. cbn. exact IH.
  - cbn [map fst] in Hr. inversion Hr as [|? ? R1 R2]; subst.
    rewrite <- (app_nil_l ((k, x) :: refs)). change (rsum g ([] ++ (k, x) :: refs)) with (rterm g x + rsum g refs).
    rewrite <- (IH ls Hl R2) by (intros l rd H; apply (Hin l rd); now right).
    rewrite app_nil_l.
    assert (Hk : In k (map fst ls)) by (apply (Hin k x); now left).
    assert (N : hm_get k refs = None) by (now apply hm_get_none).
    clear - Hk Hl N.
    assert (Z : forall ls, ~ In k (map fst ls) -> osum g ((k, x) :: refs) ls = osum g refs ls).
    { clear. induction ls as [|[l w] ls IH]; [reflexivity|]. cbn [map fst]. intros H.
      unfold osum in *. cbn [map fst]. rewrite !ls_cons. rewrite IH by (intros G; apply H; now right).
      f_equal. unfold oterm. cbn [hm_get]. destruct (lit_eqb l k) eqn:e; [|reflexivity].
      apply lit_eqb_eq in e. subst. destruct H. now left. }
    induction ls as [|[l w] ls IH]; [destruct Hk|]. cbn [map fst] in *. inversion Hl as [|? ? L1 L2]; subst.
    change (oterm g ((k, x) :: refs) l + osum g ((k, x) :: refs) ls
            = rterm g x + (oterm g refs l + osum g refs ls)).
    destruct (lit_eqb l k) eqn:e.
    + apply lit_eqb_eq in e. subst l. rewrite Z by exact L1. unfold oterm. cbn [hm_get].
      rewrite lit_eqb_refl, N. lia.
    + destruct Hk as [->|Hk]; [rewrite lit_eqb_refl in e; discriminate|].
      rewrite (IH L2 Hk). unfold oterm. cbn [hm_get]. rewrite e. lia.
Qed.

Section Merge.
  Context {I : enc_impl} {SP : enc_spec I} {T : tot_impl I} (TS : tot_spec SP T).
  Notation M := (M I).
  Notation st := (st I).
  Notation db := (ti_db T).
  Variable F : asg -> Prop.
  Variable ob : objective.
  Variable me : nat.
  Notation gv := (gv TS).
  Notation kvo := (kvo TS).

  (** What is needed of the encoding that replaces the old one *)
  Record Encok (d : db) (e : obj_enc I) (off : nat) : Prop := mkEncok {
    en_used : forall v, oe_used SP e v -> v <= me \/ tb_aux SP T TS d v;
    en_free : forall v, oe_free SP e v -> tb_free SP T TS d v;
    en_exact : forall m, tb_exact SP T TS d m -> oe_exact SP e m;
    en_ecls : forall c, In c (oe_ecls SP e) -> In c (tb_cls SP T TS d);
    en_cost : forall a, F a -> e <> EConstant -> oe_ecost SP e a = icost ob a;
    en_const : forall a, F a -> e = EConstant -> icost ob a = off;
    en_off : e <> EConstant -> oe_offset e = off;
    en_cap : e <> EConstant -> oe_cap SP e = wtotal (obj_iter ob) }.

  Lemma fin_ext rf d d' : tb_ext SP T TS d d' -> Fin TS F ob me rf d -> Fin TS F ob me rf d'.
  Proof.
    intros Hx [H1 H2 H3 H4 H5 H6 H7 H8 H9 H10].
    assert (G : forall o l rd, In (l, rd) (rf_refs rf) -> gv d o (rd_root rd) = gv d' o (rd_root rd)).
    { intros o l rd Hin. destruct (H7 l rd Hin) as (A & _). apply (tb_int_node SP T TS) in A.
      destruct (Hx _ A) as (_ & B & C & _). destruct o; cbn [OllThm.gv]; auto. }
    constructor; auto.
    - intros o Ho. rewrite (H1 o Ho). rewrite (rsum_ext _ (gv d' o)) by (intros; eapply G; eauto).
      f_equal. f_equal. apply wk_ext. intros l w _ _. unfold OllThm.kvo. apply kv_ext. intros; eapply G; eauto.
    - intros l rd Hin. destruct (H7 l rd Hin) as (A & B & C & D).
      destruct (Hx _ (tb_int_node SP T TS _ _ A)) as (_ & _ & X & _ & _ & Y). rewrite X. auto.
  Qed.

  Lemma same_trans d1 d2 d3 : tb_same SP T TS d1 d2 -> tb_same SP T TS d2 d3 -> tb_same SP T TS d1 d3.
  Proof.
    intros (A1 & A2 & A3 & A4 & A5) (B1 & B2 & B3 & B4 & B5).
    split; [intros v; now rewrite B1|]. split; [intros v; now rewrite B2|].
    split; [intros v; now rewrite B3|]. split; [congruence|]. intros id k. now rewrite B5.
  Qed.
  Lemma same_refl d : tb_same SP T TS d d.
  Proof. repeat split; auto. Qed.
  Lemma gv_ext d d' o id : tb_ext SP T TS d d' -> tb_node SP T TS d id -> gv d' o id = gv d o id.
  Proof. intros H Hn. destruct (H id Hn) as (_ & A & B & _). destruct o; cbn [OllThm.gv]; auto. Qed.

  (** Merging connections that are worth the objective *)
  Lemma merge_cons_ok d0 d cs off mlw (Q : obj_enc I -> st -> Prop) (X : exit -> st -> Prop) s :
    tb_same SP T TS d0 d -> (forall v, tb_leafv SP T TS d v -> v <= me) ->
    (forall c, In c cs -> tb_node SP T TS d (cn_id c) /\ cn_mult c * tb_w SP T TS d (cn_id c) <= mlw /\
       (forall k, cn_limit c = Some k -> tb_max SP T TS d (cn_id c) <= cn_off c + k \/ 2 <= length cs) /\
       (cn_off c = 0 \/ tb_int SP T TS d (cn_id c))) ->
    (forall o, Fo F o -> tg ob o = off + cons_app (gv d o) cs) -> cs <> [] ->
    (forall e, Encok d0 e off -> Q e s) -> wp (merge_cons T d cs off mlw) Q X s.
  Proof.
    intros M2 M3 M4 M5 M6 HQ.
    unfold merge_cons. destruct (ti_merge_thorough T d cs) as [d' c] eqn:et.
    destruct (tb_thorough_ok SP T TS _ _ _ _ et M6) as (T1 & T2 & T3 & T4 & T5 & T6 & T7 & T8).
    { intros x Hx. now apply M4. }
    assert (Hw : cn_mult c * tb_w SP T TS d' (cn_id c) <= mlw).
    { apply T7. intros x Hx. now apply M4. }
    assert (Hlim : forall k, cn_limit c = Some k -> tb_max SP T TS d' (cn_id c) <= cn_off c + k).
    { destruct T8 as [(x & -> & -> & ->)|[_ ->]]; [|discriminate].
      intros k Hk. destruct (M4 x (or_introl eq_refl)) as (_ & _ & G & _). destruct (G k Hk) as [|G']; [assumption|].
      cbn in G'. lia. }
    assert (Hkind : cn_off c = 0 \/ tb_int SP T TS d' (cn_id c)).
    { destruct T8 as [(x & -> & -> & ->)|[-> _]]; [|now left]. apply M4. now left. }
    assert (Hval : forall o, Fo F o -> tg ob o = off + cn_mult c * (gv d' o (cn_id c) - cn_off c)).
    { intros o Ho. rewrite (M5 o Ho). f_equal.
      assert (Hc : cons_app (gv d o) cs = con_app (gv d' o) c).
      { destruct o as [a|]; cbn [OllThm.gv]; symmetry; [exact (T5 a)|exact T6]. }
      rewrite Hc. unfold con_app. f_equal.
      destruct (cn_limit c) as [k|]; [|reflexivity]. cbn [lim].
      specialize (Hlim k eq_refl).
      assert (gv d' o (cn_id c) <= tb_max SP T TS d' (cn_id c)).
      { destruct o; cbn [OllThm.gv]; [now apply tb_val_max|lia]. }
      lia. }
    assert (Hsame : tb_same SP T TS d0 d') by (eapply same_trans; eauto).
    destruct Hsame as (S1 & S2 & S3 & S4 & _).
    assert (Hlf : forall v, tb_leafv SP T TS d' v \/ tb_aux SP T TS d' v -> v <= me \/ tb_aux SP T TS d0 v).
    { intros v [Hv|Hv]; [left; apply M3; now apply T3|right; now apply S1]. }
    assert (Hgte : Q (EWeighted (ti_gte T d' c mlw) (off)) s).
    { apply HQ. constructor; cbn.
      - intros v Hv. apply Hlf. eapply tb_gte_used; eauto.
      - intros v Hv. apply S2. eapply tb_gte_free; eauto.
      - intros m Hm. eapply (tb_gte_exact SP T TS). now apply S3.
      - intros x Hx. rewrite <- S4. eapply tb_gte_cls; eauto.
      - intros a Ha _. unfold oe_ecost. cbn. rewrite (tb_gte_cost SP T TS) by assumption.
        pose proof (Hval (Some a) Ha) as G. cbn [OllThm.tg OllThm.gv] in G. lia.
      - intros; discriminate.
      - reflexivity.
      - intros _. unfold oe_cap. cbn. rewrite (tb_gte_max SP T TS) by assumption.
        pose proof (Hval None Logic.I) as G. cbn [OllThm.tg OllThm.gv] in G. lia. }
    assert (Htot : cn_mult c = 1 -> ti_kind T d' (cn_id c) <> KGeneral ->
      Q (EUnweighted (ti_tot T d' (cn_id c) (cn_off c)) (off)) s).
    { intros Hm Hk. apply HQ. constructor; cbn.
      - intros v Hv. apply Hlf. eapply tb_tot_used; eauto.
      - intros v Hv. apply S2. eapply tb_tot_free; eauto.
      - intros m Hx. eapply (tb_tot_exact SP T TS). now apply S3.
      - intros x Hx. rewrite <- S4. eapply tb_tot_cls; eauto.
      - intros a Ha _. unfold oe_ecost. cbn. rewrite (tb_tot_cost SP T TS) by assumption.
        pose proof (Hval (Some a) Ha) as G. rewrite Hm in G. cbn [OllThm.tg OllThm.gv] in G. lia.
      - intros; discriminate.
      - reflexivity.
      - intros _. unfold oe_cap. cbn. rewrite (tb_tot_max SP T TS) by assumption.
        pose proof (Hval None Logic.I) as G. rewrite Hm in G. cbn [OllThm.tg OllThm.gv] in G. lia. }
    destruct (cn_mult c =? 1) eqn:em; [|now apply wp_ret]. apply Nat.eqb_eq in em.
    destruct (ti_kind T d' (cn_id c)) eqn:ek.
    + apply wp_ret, Htot; congruence.
    + apply wp_ret, Htot; congruence.
    + apply wp_bind, wp_guard; [|now apply wp_ret]. apply Nat.eqb_eq.
      destruct Hkind as [G|G]; [exact G|]. destruct (tb_int_kind SP T TS _ _ G ek).
  Qed.

  Section Run.
    Variables (rf : reform) (d0 : db) (rebase : bool).
    Hypothesis HF : Fin TS F ob me rf d0.
    Hypothesis Hleaf : forall v, tb_leafv SP T TS d0 v -> v <= me.
    Let refs := rf_refs rf.

    Definition MI (pre : list (lit * nat)) (x : db * list con * nat) : Prop :=
      let '(d, cs, mlw) := x in
      tb_ext SP T TS d0 d /\ tb_same SP T TS d0 d /\ (forall v, tb_leafv SP T TS d v -> v <= me) /\
      (forall c, In c cs -> tb_node SP T TS d (cn_id c) /\ cn_mult c * tb_w SP T TS d (cn_id c) <= mlw /\
         (forall k, cn_limit c = Some k -> tb_max SP T TS d (cn_id c) <= cn_off c + k \/ 2 <= length cs) /\
         (cn_off c = 0 \/ tb_int SP T TS d (cn_id c))) /\
      (forall o, cons_app (gv d o) cs = wk (kvo d0 o refs) pre + osum (gv d0 o) refs pre) /\
      (pre <> [] -> cs <> []).

    (** Values of the connections for one reformulated literal *)
    Lemma app_single g root k w : con_app g (con_single root (k + 1) w) = w * (if k <? g root then 1 else 0).
    Proof.
      unfold con_app, con_single. cbn [cn_mult cn_limit cn_id cn_off lim].
      replace (k + 1 - 1) with k by lia. f_equal.
      destruct (k <? g root) eqn:e; [apply Nat.ltb_lt in e|apply Nat.ltb_ge in e]; lia.
    Qed.
    Lemma app_offset g root k w : con_app g (con_offset_weighted root k w) = w * (g root - k).
    Proof. reflexivity. Qed.
    Lemma app_seq g root tw : forall n k, g root <= k + n ->
      cons_app g (map (fun idx => con_single root (idx + 1) tw) (seq k n)) = tw * (g root - k).
    Proof.
      induction n as [|n IH]; intros k H; cbn [seq map].
      - unfold cons_app. cbn. replace (g root - k) with 0 by lia. lia.
      - change (cons_app g (?c :: ?r)) with (con_app g c + cons_app g r).
        rewrite app_single, IH by lia. destruct (k <? g root) eqn:e.
        + apply Nat.ltb_lt in e. replace (g root - k) with (1 + (g root - S k)) by lia. ring.
        + apply Nat.ltb_ge in e. replace (g root - k) with 0 by lia. replace (g root - S k) with 0 by lia. lia.
    Qed.

    Lemma merge_lit_ok pre l w post x (X : exit -> st -> Prop) s : in_iter (rf_inact rf) = pre ++ (l, w) :: post -> MI pre x ->
      wp (merge_lit T rebase refs x (l, w)) (fun x' s' => s' = s /\ MI (pre ++ [(l, w)]) x') X s.
    Proof.
      destruct x as [[d cs] mlw]. intros Hl (M1 & M2 & M3 & M4 & M5 & M6). unfold merge_lit.
      assert (Hin : In (l, w) (in_iter (rf_inact rf))) by (rewrite Hl; apply in_or_app; right; now left).
      destruct (hm_get l refs) as [[root oidx tw]|] eqn:eg.
      - pose proof (hm_get_in _ _ _ eg) as Hr. destruct (fi_ref _ _ _ _ _ _ HF _ _ Hr) as (A1 & A2 & A3 & A4).
        cbn [rd_root rd_oidx rd_weight] in *.
        pose proof (tb_int_node SP T TS _ _ A1) as An.
        destruct (M1 _ An) as (B1 & B2 & B3 & B4 & B5 & B6).
        destruct (tb_int_len SP T TS _ _ A1) as [C1 C2].
        apply wp_bind, wp_guard.
        { pose proof (fi_pos _ _ _ _ _ _ HF _ _ Hin). destruct w; [lia|reflexivity]. }
        apply wp_bind, wp_guard. { rewrite B5, C1. now apply Nat.ltb_lt. }
        apply wp_ret. split; [reflexivity|].
        set (len := ti_len T d root). assert (Hlen : len = tb_max SP T TS d0 root) by (unfold len; congruence).
        set (new := if rebase then _ else _).
        assert (V : forall o, cons_app (gv d o) new = w * kvo d0 o refs l + oterm (gv d0 o) refs l).
        { intros o. assert (Hg : gv d o root = gv d0 o root) by (now apply gv_ext).
          assert (Hm : gv d0 o root <= len).
          { rewrite Hlen. destruct o; cbn [OllThm.gv]; [now apply tb_val_max|lia]. }
          unfold OllThm.kvo, kv, oterm, rterm. rewrite eg. cbn [rd_root rd_oidx rd_weight]. rewrite <- Hg in *.
          unfold new. destruct rebase; [|destruct (tw =? w) eqn:ew; [|destruct (oidx + 1 <? len) eqn:el]].
          - change (cons_app (gv d o) (?c :: ?r)) with (con_app (gv d o) c + cons_app (gv d o) r).
            rewrite app_single, app_seq by lia. reflexivity.
          - apply Nat.eqb_eq in ew. subst tw. change (cons_app (gv d o) [?c]) with (con_app (gv d o) c + 0).
            rewrite app_offset. destruct (oidx <? gv d o root) eqn:e.
            + apply Nat.ltb_lt in e. replace (gv d o root - oidx) with (1 + (gv d o root - (oidx + 1))) by lia. ring.
            + apply Nat.ltb_ge in e. replace (gv d o root - oidx) with 0 by lia.
              replace (gv d o root - (oidx + 1)) with 0 by lia. lia.
          - change (cons_app (gv d o) (?c :: [?r])) with (con_app (gv d o) c + (con_app (gv d o) r + 0)).
            rewrite app_single, app_offset. ring.
          - apply Nat.ltb_ge in el. change (cons_app (gv d o) [?c]) with (con_app (gv d o) c + 0).
            rewrite app_single. replace (gv d o root - (oidx + 1)) with 0 by lia. ring. }
        assert (Hnew : forall c, In c new -> cn_id c = root /\ (cn_mult c = w \/ cn_mult c = tw) /\
          (forall k, cn_limit c = Some k -> len <= cn_off c + k \/ 2 <= length new)).
        { unfold new. destruct rebase; [|destruct (tw =? w) eqn:ew; [|destruct (oidx + 1 <? len) eqn:el]].
          - intros c [<-|Hc].
            + split; [reflexivity|]. split; [now left|]. cbn [con_single cn_limit cn_off]. intros k Hk. injection Hk as <-.
              destruct (le_lt_dec len (oidx + 1)) as [Hle|Hlt]; [left; lia|right].
              cbn [length]. rewrite map_length, seq_length. lia.
            + apply in_map_iff in Hc. destruct Hc as (idx & <- & Hi). split; [reflexivity|]. split; [now right|].
              intros k _. right. cbn [length]. rewrite map_length, seq_length.
              destruct (len - (oidx + 1)) as [|n] eqn:en; [destruct Hi|lia].
          - intros c [<-|[]]. split; [reflexivity|]. split; [now left|]. discriminate.
          - intros c [<-|[<-|[]]]; (split; [reflexivity|]); (split; [tauto|]); intros k Hk; right; cbn; lia.
          - apply Nat.ltb_ge in el. intros c [<-|[]]. split; [reflexivity|]. split; [now left|].
            cbn [con_single cn_limit cn_off]. intros k Hk. injection Hk as <-. left. lia. }
        split; [exact M1|]. split; [exact M2|]. split; [exact M3|]. split; [|split].
        + intros c Hc. apply in_app_or in Hc. destruct Hc as [Hc|Hc].
          * destruct (M4 c Hc) as (D1 & D2 & D3 & D4). split; [exact D1|]. split; [lia|]. split; [|exact D4].
            intros k Hk. rewrite app_length. destruct (D3 k Hk); [now left|right; lia].
          * destruct (Hnew c Hc) as (D1 & D2 & D3). rewrite D1. split; [exact B1|]. split.
            { rewrite B4, C2. destruct D2 as [->| ->]; lia. }
            split; [|right; auto]. intros k Hk. rewrite B3, <- Hlen, app_length.
            destruct (D3 k Hk); [now left|right; lia].
        + intros o. rewrite cons_app_app, wk_app, osum_app, M5, V.
          unfold osum, wk. cbn [map list_sum fold_right fst snd]. lia.
        + intros _ G. apply app_eq_nil in G. destruct G as [_ G]. unfold new in G.
          destruct rebase; [discriminate|]. destruct (tw =? w); discriminate.
      - destruct (ti_leaf T d l) as [d' id] eqn:el.
        destruct (tb_leaf_ok SP T TS _ _ _ _ el) as (L1 & L2 & L3 & L4 & L5 & L6 & L7 & L8).
        apply wp_ret. split; [reflexivity|].
        assert (X0 : tb_ext SP T TS d0 d') by (eapply ext_trans_db; eauto).
        split; [exact X0|]. split; [eapply same_trans; eauto|]. split; [|split; [|split]].
        + intros v Hv. apply L3 in Hv. destruct Hv as [Hv| ->]; [auto|]. eapply (fi_plain _ _ _ _ _ _ HF); eauto.
        + intros c Hc. apply in_app_or in Hc. destruct Hc as [Hc|[<-|[]]].
          * destruct (M4 c Hc) as (D1 & D2 & D3 & D4). destruct (L1 _ D1) as (F1 & F2 & F3 & F4 & F5 & F6).
            split; [exact F1|]. split; [rewrite F4; lia|]. split; [|tauto].
            intros k Hk. rewrite F3, app_length. destruct (D3 k Hk); [now left|right; lia].
          * cbn [con_weighted cn_id cn_mult cn_limit cn_off]. split; [exact L5|]. split; [rewrite L8; lia|].
            split; [discriminate|now left].
        + intros o. rewrite cons_app_app, wk_app, osum_app.
          rewrite (cons_app_ext (gv d' o) (gv d o) cs), M5.
          2:{ intros c Hc. apply gv_ext; [exact L1|]. now apply M4. }
          unfold osum, wk, cons_app, con_app. cbn [map list_sum fold_right fst snd con_weighted cn_mult cn_limit cn_id cn_off lim].
          rewrite Nat.sub_0_r.
          assert (Hg : gv d' o id = kvo d0 o refs l).
          { unfold OllThm.kvo, kv. rewrite eg. destruct o; cbn [OllThm.gv OllThm.bv]; [apply L6|exact L7]. }
          rewrite Hg. unfold oterm. rewrite eg. lia.
        + intros _ G. apply app_eq_nil in G. destruct G as [_ G]. discriminate.
    Qed.

    Lemma merge_reform_ok (Q : obj_enc I -> st -> Prop) (X : exit -> st -> Prop) s :
      (forall e, Encok d0 e (rf_offset rf) -> Q e s) ->
      wp (merge_reform T rf d0 rebase) Q X s.
    Proof.
      intros HQ. unfold merge_reform.
      assert (HC : rf_inact rf = IConstant -> wp (ret EConstant) Q X s).
      { intros Hc. apply wp_ret, HQ.
        assert (Hit : in_iter (rf_inact rf) = []) by (now rewrite Hc).
        assert (Hrf : rf_refs rf = []).
        { destruct (rf_refs rf) as [|[l rd] r] eqn:er; [reflexivity|].
          destruct (fi_ref _ _ _ _ _ _ HF l rd) as (_ & _ & _ & G); [rewrite er; now left|].
          rewrite Hit in G. destruct G. }
        constructor; cbn; try tauto; try congruence.
        intros a Ha _. pose proof (fi_id _ _ _ _ _ _ HF (Some a) Ha) as G. cbn [OllThm.tg] in G.
        rewrite G, Hit, Hrf. unfold wk, rsum. cbn. lia. }
      assert (HG : in_iter (rf_inact rf) <> [] ->
        wp (x <- foldM (merge_lit T rebase (rf_refs rf)) (in_iter (rf_inact rf)) (d0, [], 0) ;;
            let '(d', cs, mlw) := x in merge_cons T d' cs (rf_offset rf) mlw) Q X s).
      2:{ destruct (rf_inact rf) as [m|ls act|] eqn:ei; [| |now apply HC].
          - apply HG. intros G. pose proof (fi_ne _ _ _ _ _ _ HF) as N. rewrite ei in N. discriminate (N G).
          - apply HG. intros G. pose proof (fi_ne _ _ _ _ _ _ HF) as N. rewrite ei in N. discriminate (N G). }
      intros Hne. apply wp_bind.
      apply wp_foldM with (P := fun pre x s' => s' = s /\ MI pre x).
      - intros pre [l w] post x s1 Hl [-> HM]. eapply merge_lit_ok; eauto.
      - split; [reflexivity|]. cbn [MI]. split; [intros id Hn; repeat split; auto|]. split; [apply same_refl|].
        split; [exact Hleaf|]. split; [intros c []|]. split; [reflexivity|congruence].
      - intros [[d cs] mlw] s1 [-> (M1 & M2 & M3 & M4 & M5 & M6)]. specialize (M6 Hne).
        apply (merge_cons_ok d0); auto. intros o Ho. rewrite (fi_id _ _ _ _ _ _ HF o Ho).
        rewrite <- (osum_rsum _ _ _ (fi_nodup _ _ _ _ _ _ HF) (fi_rnodup _ _ _ _ _ _ HF)).
        2:{ intros l rd Hin. now apply (fi_ref _ _ _ _ _ _ HF _ _ Hin). }
        rewrite <- Nat.add_assoc. f_equal. symmetry. apply M5.
    Qed.
  End Run.
End Merge.
