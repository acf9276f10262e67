(** * Correctness of core-guided search *)
From Coq Require Import List Bool Arith Lia ZArith.
From Verif Require Import Base BaseLemmas MTypes MKernel EncSpec Wp Sem Kern Ext MOll TotSpec
  OllSide OllData.
Import ListNotations.

(** Value of a literal of the reformulated objective, given values of nodes and literals *)
Definition kv (g : nat -> nat) (b : lit -> nat) (refs : list (lit * reform_data)) (l : lit) : nat :=
  match hm_get l refs with
  | Some rd => if rd_oidx rd <? g (rd_root rd) then 1 else 0
  | None => b l
  end.
(** The part of the reformulated cores that is not in the objective yet *)
Definition rterm (g : nat -> nat) (rd : reform_data) : nat :=
  rd_weight rd * (g (rd_root rd) - (rd_oidx rd + 1)).
Definition rsum (g : nat -> nat) (refs : list (lit * reform_data)) : nat :=
  list_sum (map (fun lr => rterm g (snd lr)) refs).
(** Cores that are not reformulated yet *)
Definition slice (cs : list con) (cd : core_data) : list con :=
  firstn (cd_len cd) (skipn (cd_idx cd) cs).
Definition csum (g : nat -> nat) (cs : list con) (cores : list core_data) : nat :=
  list_sum (map (fun cd => cd_weight cd * (cons_app g (slice cs cd) - 1)) cores).

Lemma ls_cons x l : list_sum (x :: l) = x + list_sum l.
Proof. reflexivity. Qed.
Lemma rsum_app g x y : rsum g (x ++ y) = rsum g x + rsum g y.
Proof. unfold rsum. now rewrite map_app, list_sum_app. Qed.
Lemma hm_remove_none {V} l (m : list (lit * V)) : ~ In l (map fst m) -> hm_remove l m = m.
Proof.
  unfold hm_remove. induction m as [|[k x] m IH]; cbn; [reflexivity|]. intros H.
  destruct (lit_eqb l k) eqn:e; cbn.
  - apply lit_eqb_eq in e. subst. destruct H. now left.
  - rewrite IH; [reflexivity|tauto].
Qed.
Lemma rsum_remove g refs l rd : NoDup (map fst refs) -> hm_get l refs = Some rd ->
  rsum g refs = rterm g rd + rsum g (hm_remove l refs).
Proof.
  induction refs as [|[k x] refs IH]; [discriminate|]. cbn [map fst hm_get]. intros Hd H.
  inversion Hd as [|? ? H1 H2]; subst. destruct (lit_eqb l k) eqn:e.
  - apply lit_eqb_eq in e. subst k. injection H as <-.
    assert (R : hm_remove l ((l, x) :: refs) = refs).
    { unfold hm_remove. cbn. rewrite lit_eqb_refl. cbn. now apply hm_remove_none. }
    rewrite R. reflexivity.
  - assert (R : hm_remove l ((k, x) :: refs) = (k, x) :: hm_remove l refs).
    { unfold hm_remove. cbn. now rewrite e. }
    rewrite R. unfold rsum in *. cbn [map]. rewrite !ls_cons. rewrite (IH H2 H). lia.
Qed.
Lemma rsum_ext g g' refs : (forall l rd, In (l, rd) refs -> g (rd_root rd) = g' (rd_root rd)) ->
  rsum g refs = rsum g' refs.
Proof.
  intros H. unfold rsum. f_equal. apply map_ext_in. intros [l rd] Hin. unfold rterm. cbn. now rewrite (H l rd).
Qed.
Lemma kv_ext g g' b refs l : (forall l rd, In (l, rd) refs -> g (rd_root rd) = g' (rd_root rd)) ->
  kv g b refs l = kv g' b refs l.
Proof.
  intros H. unfold kv. destruct (hm_get l refs) as [rd|] eqn:e; [|reflexivity].
  apply hm_get_in in e. now rewrite (H l rd).
Qed.
Lemma con_app_ext g g' c : g (cn_id c) = g' (cn_id c) -> con_app g c = con_app g' c.
Proof. unfold con_app. now intros ->. Qed.
Lemma cons_app_ext g g' cs : (forall c, In c cs -> g (cn_id c) = g' (cn_id c)) ->
  cons_app g cs = cons_app g' cs.
Proof.
  intros H. unfold cons_app. f_equal. apply map_ext_in. intros c Hc. apply con_app_ext. auto.
Qed.
Lemma cons_app_app g x y : cons_app g (x ++ y) = cons_app g x + cons_app g y.
Proof. unfold cons_app. now rewrite map_app, list_sum_app. Qed.
Lemma slice_in cs cd c : In c (slice cs cd) -> In c cs.
Proof.
  unfold slice. intros H.
  assert (H' : In c (skipn (cd_idx cd) cs)).
  { rewrite <- (firstn_skipn (cd_len cd) (skipn (cd_idx cd) cs)). apply in_or_app. now left. }
  rewrite <- (firstn_skipn (cd_idx cd) cs). apply in_or_app. now right.
Qed.
Lemma slice_length cs cd : cd_idx cd + cd_len cd <= length cs -> length (slice cs cd) = cd_len cd.
Proof. intros H. unfold slice. rewrite firstn_length, skipn_length. lia. Qed.
Lemma slice_app cs cs' cd : cd_idx cd + cd_len cd <= length cs -> slice (cs ++ cs') cd = slice cs cd.
Proof.
  intros H. unfold slice. rewrite skipn_app. replace (cd_idx cd - length cs) with 0 by lia.
  cbn [skipn]. rewrite firstn_app, skipn_length.
  replace (cd_len cd - (length cs - cd_idx cd)) with 0 by lia. cbn [firstn]. now rewrite app_nil_r.
Qed.
Lemma slice_last cs cs' w : slice (cs ++ cs') (mkCd (length cs) (length cs') w) = cs'.
Proof.
  unfold slice. cbn [cd_idx cd_len]. rewrite skipn_app, skipn_all, Nat.sub_diag. cbn.
  apply firstn_all.
Qed.
Lemma csum_ext g g' cs cores : (forall c, In c cs -> g (cn_id c) = g' (cn_id c)) ->
  csum g cs cores = csum g' cs cores.
Proof.
  intros H. unfold csum. f_equal. apply map_ext. intros cd. f_equal. f_equal.
  apply cons_app_ext. intros c Hc. apply H. eapply slice_in; eauto.
Qed.
Lemma list_sum_ge (l : list nat) x : In x l -> x <= list_sum l.
Proof.
  induction l as [|y l IH]; [intros []|]. rewrite ls_cons. intros [->|H]; [lia|]. specialize (IH H). lia.
Qed.

Section Vals.
  Context {I : enc_impl} {SP : enc_spec I} {T : tot_impl I} (TS : tot_spec SP T).
  Notation db := (ti_db T).
  Variable F : asg -> Prop.
  Variable ob : objective.

  (** Two kinds of valuations are followed at the same time: those by feasible assignments
      and the maximal one ([None]) *)
  Definition gv (d : db) (o : option asg) (id : nat) : nat :=
    match o with Some a => tb_val SP T TS d id a | None => tb_max SP T TS d id end.
  Definition bv (o : option asg) (l : lit) : nat :=
    match o with Some a => if lit_true a l then 1 else 0 | None => 1 end.
  Definition tg (o : option asg) : nat :=
    match o with Some a => icost ob a | None => wtotal (obj_iter ob) end.
  Definition Fo (o : option asg) : Prop := match o with Some a => F a | None => True end.
  Definition kvo d o refs l := kv (gv d o) (bv o) refs l.

  (** What is known of the reformulation after the search: *)
  Record Fin (me : nat) (rf : reform) (d : db) : Prop := mkFin {
    fi_id : forall o, Fo o -> tg o = rf_offset rf + wk (kvo d o (rf_refs rf)) (in_iter (rf_inact rf))
      + rsum (gv d o) (rf_refs rf);
    fi_opt : exists a, F a /\ icost ob a = rf_offset rf;
    fi_pos : forall l w, In (l, w) (in_iter (rf_inact rf)) -> 0 < w;
    fi_plain : forall l w, In (l, w) (in_iter (rf_inact rf)) -> hm_get l (rf_refs rf) = None -> lvar l <= me;
    fi_nodup : NoDup (map fst (in_iter (rf_inact rf)));
    fi_rnodup : NoDup (map fst (rf_refs rf));
    fi_ref : forall l rd, In (l, rd) (rf_refs rf) -> tb_int SP T TS d (rd_root rd) /\
      rd_oidx rd < tb_max SP T TS d (rd_root rd) /\ 0 < rd_weight rd /\
      In l (map fst (in_iter (rf_inact rf)));
    fi_ne : in_iter (rf_inact rf) = [] -> rf_inact rf = IConstant;
    fi_roots : NoDup (map (fun lr => rd_root (snd lr)) (rf_refs rf));
    fi_le : forall l rd w, In (l, rd) (rf_refs rf) -> In (l, w) (in_iter (rf_inact rf)) -> w <= rd_weight rd }.

  (** [d'] has the nodes and outputs of [d] *)
  Definition stepd (d d' : db) : Prop :=
    tb_ext SP T TS d d' /\ (forall i j x, tb_out SP T TS d i j = Some x -> tb_out SP T TS d' i j = Some x).
  Lemma stepd_refl d : stepd d d.
  Proof. split; [intros id H; repeat split; auto|auto]. Qed.
  Lemma ext_trans_db d1 d2 d3 : tb_ext SP T TS d1 d2 -> tb_ext SP T TS d2 d3 -> tb_ext SP T TS d1 d3.
  Proof.
    intros H1 H2 id Hn. destruct (H1 id Hn) as (A1 & A2 & A3 & A4 & A5 & A6).
    destruct (H2 id A1) as (B1 & B2 & B3 & B4 & B5 & B6).
    split; [exact B1|]. split; [intros m; rewrite B2; apply A2|]. split; [congruence|].
    split; [congruence|]. split; [congruence|auto].
  Qed.
  Lemma stepd_trans d1 d2 d3 : stepd d1 d2 -> stepd d2 d3 -> stepd d1 d3.
  Proof.
    intros [H1 O1] [H2 O2]. split; [|auto]. eapply ext_trans_db; eauto.
  Qed.
  Lemma stepd_gv d d' o id : tb_ext SP T TS d d' -> tb_node SP T TS d id -> gv d' o id = gv d o id.
  Proof.
    intros H Hn. destruct (H id Hn) as (_ & A2 & A3 & _). destruct o; cbn; auto.
  Qed.
  Lemma gv_max d o id : tb_node SP T TS d id -> gv d o id <= tb_max SP T TS d id.
  Proof. intros H. destruct o; cbn; [now apply tb_val_max|lia]. Qed.

  (** Connections of collected cores *)
  Definition conok (d : db) (c : con) : Prop :=
    tb_node SP T TS d (cn_id c) /\ tb_w SP T TS d (cn_id c) = 1 /\ cn_mult c = 1 /\
    con_app (tb_max SP T TS d) c = 1.
  Lemma conok_ext d d' c : tb_ext SP T TS d d' -> conok d c -> conok d' c.
  Proof.
    intros H (A & B & C & D). destruct (H _ A) as (A1 & A2 & A3 & A4 & A5 & A6).
    split; [exact A1|]. split; [congruence|]. split; [exact C|]. rewrite <- D. apply con_app_ext. exact A3.
  Qed.
  Lemma conok_max d cs : (forall c, In c cs -> conok d c) -> cons_app (tb_max SP T TS d) cs = length cs.
  Proof.
    induction cs as [|c cs IH]; intros H; [reflexivity|]. unfold cons_app in *. cbn [map length].
    rewrite ls_cons, IH by (intros; apply H; now right).
    destruct (H c (or_introl eq_refl)) as (_ & _ & _ & ->). reflexivity.
  Qed.
  Lemma conok_le d o c : conok d c -> con_app (gv d o) c <= 1.
  Proof.
    intros (A & B & C & D). rewrite <- D. unfold con_app. apply Nat.mul_le_mono_l.
    pose proof (gv_max d o _ A). unfold lim. destruct (cn_limit c); lia.
  Qed.

  (** Structural invariant *)
  Variable me : nat.
  Record Ost (i : inactives) (refs : list (lit * reform_data)) (d : db) : Prop := mkOst {
    os_wf : iwf i;
    os_nodup : NoDup (ikeys i);
    os_rnodup : NoDup (map fst refs);
    os_roots : NoDup (map (fun lr => rd_root (snd lr)) refs);
    os_ref : forall l rd, In (l, rd) refs ->
      tb_int SP T TS d (rd_root rd) /\ tb_out SP T TS d (rd_root rd) (rd_oidx rd) = Some l /\
      rd_oidx rd < tb_max SP T TS d (rd_root rd) /\ 0 < rd_weight rd /\ (un i -> rd_weight rd = 1) /\
      exists w, In (l, w) (iact i) /\ 0 < w;
    os_key : forall l, In l (ikeys i) -> lvar l <= me \/
      exists r j, tb_out SP T TS d r j = Some l /\
        forall l' rd, In (l', rd) refs -> rd_root rd = r -> j <= rd_oidx rd;
    os_plain : forall l w, In (l, w) (iact i) -> 0 < w -> hm_get l refs = None -> lvar l <= me;
    os_le : forall l rd w, In (l, rd) refs -> In (l, w) (iact i) -> w <= rd_weight rd }.

  Definition pot (d : db) (o : option asg) (i : inactives) (refs : list (lit * reform_data)) : nat :=
    wk (kvo d o refs) (iact i) + rsum (gv d o) refs.

  Lemma ost_node i refs d l rd : Ost i refs d -> In (l, rd) refs -> tb_node SP T TS d (rd_root rd).
  Proof. intros H Hin. apply tb_int_node. now apply (os_ref _ _ _ H) in Hin. Qed.
  Lemma kvo_ext i refs d d' o l : tb_ext SP T TS d d' -> Ost i refs d -> kvo d' o refs l = kvo d o refs l.
  Proof.
    intros He HO. apply kv_ext. intros l' rd Hin. apply stepd_gv; [exact He|]. eapply ost_node; eauto.
  Qed.
  Lemma pot_ext i refs d d' o : tb_ext SP T TS d d' -> Ost i refs d -> pot d' o i refs = pot d o i refs.
  Proof.
    intros He HO. unfold pot. f_equal.
    - apply wk_ext. intros l w _ _. eapply kvo_ext; eauto.
    - apply rsum_ext. intros l rd Hin. apply stepd_gv; [exact He|]. eapply ost_node; eauto.
  Qed.
  Lemma ost_ext i refs d d' : stepd d d' -> Ost i refs d -> Ost i refs d'.
  Proof.
    intros [He Ho] HO. destruct HO as [O1 O2 O3 O4 O5 O6 O7 O8]. constructor; auto.
    - intros l rd Hin. destruct (O5 l rd Hin) as (A1 & A2 & A3 & A4 & A5).
      destruct (He _ (tb_int_node SP T TS _ _ A1)) as (B1 & B2 & B3 & B4 & B5 & B6).
      split; [auto|]. split; [auto|]. split; [now rewrite B3|auto].
    - intros l Hl. destruct (O6 l Hl) as [G|(r & j & G & G')]; [now left|right]. exists r, j. auto.
  Qed.

  (** Relaxing a literal *)
  Section Relax.
    Variables (i i' : inactives) (refs : list (lit * reform_data)) (d : db) (l : lit) (w cw : nat).
    Hypothesis HO : Ost i refs d.
    Hypothesis Hin : In (l, w) (iact i).
    Hypothesis Hc : 0 < cw <= w.
    Hypothesis Rk : ikeys i' = ikeys i.
    Hypothesis Rw : iwf i'.
    Hypothesis Ru : un i' <-> un i.
    Hypothesis Rs : forall f, wk f (iact i) = wk f (iact i') + cw * f l.
    Hypothesis Ro : forall l' w', l' <> l -> (In (l', w') (iact i') <-> In (l', w') (iact i)).
    Hypothesis Rl : forall w', In (l, w') (iact i') -> w' = w - cw.
    Hypothesis Rp : 0 < w - cw -> In (l, w - cw) (iact i').

    Lemma ost_relax_keep : (0 < w - cw \/ hm_get l refs = None) -> Ost i' refs d.
    Proof.
      intros Hk. destruct HO as [O1 O2 O3 O4 O5 O6 O7 O8]. constructor; auto.
      - now rewrite Rk.
      - intros l' rd Hr. destruct (O5 l' rd Hr) as (A1 & A2 & A3 & A4 & A5 & w' & A6 & A7).
        split; [auto|]. split; [auto|]. split; [auto|]. split; [auto|]. split; [now rewrite Ru|].
        destruct (lit_eq_dec l' l) as [->|Hne].
        + destruct Hk as [Hk|Hk]; [exists (w - cw); auto|].
          rewrite (hm_in_get refs l rd O3 Hr) in Hk. discriminate.
        + exists w'. split; [|exact A7]. now apply Ro.
      - rewrite Rk. exact O6.
      - intros l' w' Hi Hp Hg. destruct (lit_eq_dec l' l) as [->|Hne].
        + apply (O7 l w); [exact Hin|lia|exact Hg].
        + apply Ro in Hi; [|exact Hne]. eapply O7; eauto.
      - intros l' rd w' Hr Hi. destruct (lit_eq_dec l' l) as [->|Hne].
        + apply Rl in Hi. specialize (O8 l rd w Hr Hin). lia.
        + apply Ro in Hi; [|exact Hne]. eapply O8; eauto.
    Qed.
    Lemma ost_relax_drop : w - cw = 0 -> Ost i' (hm_remove l refs) d.
    Proof.
      intros Hz. destruct HO as [O1 O2 O3 O4 O5 O6 O7 O8]. constructor; auto.
      - now rewrite Rk.
      - now apply NoDup_map_filter.
      - now apply NoDup_map_filter.
      - intros l' rd Hr. apply hm_remove_in in Hr. destruct Hr as [Hne Hr].
        destruct (O5 l' rd Hr) as (A1 & A2 & A3 & A4 & A5 & w' & A6 & A7).
        split; [auto|]. split; [auto|]. split; [auto|]. split; [auto|]. split; [now rewrite Ru|].
        exists w'. split; [|exact A7]. now apply Ro.
      - rewrite Rk. intros l' Hl. destruct (O6 l' Hl) as [G|(r & j & G & G')]; [now left|right].
        exists r, j. split; [exact G|]. intros l2 rd Hr. apply hm_remove_in in Hr. apply (G' l2). tauto.
      - intros l' w' Hi Hp Hg. destruct (lit_eq_dec l' l) as [->|Hne].
        + apply Rl in Hi. lia.
        + apply Ro in Hi; [|exact Hne]. apply (O7 l' w' Hi Hp). rewrite hm_get_remove in Hg.
          destruct (lit_eqb l l') eqn:e; [apply lit_eqb_eq in e; congruence|exact Hg].
      - intros l' rd w' Hr Hi. apply hm_remove_in in Hr. destruct Hr as [Hne Hr].
        apply Ro in Hi; [|congruence]. eapply O8; eauto.
    Qed.
    Lemma pot_relax o : pot d o i refs = pot d o i' refs + cw * kvo d o refs l.
    Proof. unfold pot. rewrite (Rs (kvo d o refs)). lia. Qed.
    Lemma pot_relax_drop o rd : hm_get l refs = Some rd -> w - cw = 0 ->
      pot d o i refs = pot d o i' (hm_remove l refs) + cw * kvo d o refs l + rterm (gv d o) rd.
    Proof.
      intros Hg Hz. rewrite pot_relax. unfold pot.
      rewrite (rsum_remove _ _ _ _ (os_rnodup _ _ _ HO) Hg).
      replace (wk (kvo d o (hm_remove l refs)) (iact i')) with (wk (kvo d o refs) (iact i')); [lia|].
      apply wk_ext. intros l' w' Hi Hp. unfold kvo, kv. rewrite hm_get_remove.
      destruct (lit_eqb l l') eqn:e; [|reflexivity]. apply lit_eqb_eq in e. subst l'. apply Rl in Hi. lia.
    Qed.
    Lemma kvo_drop o l' : l' <> l -> kvo d o (hm_remove l refs) l' = kvo d o refs l'.
    Proof.
      intros Hne. unfold kvo, kv. rewrite hm_get_remove.
      destruct (lit_eqb l l') eqn:e; [apply lit_eqb_eq in e; congruence|reflexivity].
    Qed.
  End Relax.

  (** Adding an output of a reformulated core *)
  Section Insert.
    Variables (i i' : inactives) (refs : list (lit * reform_data)) (d : db) (l : lit) (root oidx w : nat).
    Hypothesis HO : Ost i refs d.
    Hypothesis Hn : ~ In l (ikeys i).
    Hypothesis Rk : ikeys i' = ikeys i ++ [l].
    Hypothesis Rw : iwf i'.
    Hypothesis Ru : un i' <-> un i.
    Hypothesis Rs : forall f, wk f (iact i') = wk f (iact i) + w * f l.
    Hypothesis Ro : forall l' w', In (l', w') (iact i') <-> In (l', w') (iact i) \/ (l' = l /\ w' = w).
    Hypothesis Hint : tb_int SP T TS d root.
    Hypothesis Hout : tb_out SP T TS d root oidx = Some l.
    Hypothesis Hlt : oidx < tb_max SP T TS d root.
    Hypothesis Hw : 0 < w.
    Hypothesis Hun : un i -> w = 1.
    Hypothesis Hroot : forall l' rd, In (l', rd) refs -> rd_root rd <> root.
    Hypothesis Hkey : forall l' j, In l' (ikeys i) -> tb_out SP T TS d root j = Some l' -> j <= oidx.
    Let rd := mkRd root oidx w.

    Lemma insert_fresh : ~ In l (map fst refs).
    Proof.
      intros H. apply in_map_iff in H. destruct H as ([l' rd'] & <- & H).
      destruct (os_ref _ _ _ HO _ _ H) as (_ & _ & _ & _ & _ & w' & G & _).
      apply Hn. eapply iact_keys; eauto.
    Qed.
    Lemma ost_insert : Ost i' (refs ++ [(l, rd)]) d.
    Proof.
      pose proof insert_fresh as Hf. destruct HO as [O1 O2 O3 O4 O5 O6 O7 O8]. constructor; auto.
      - rewrite Rk. now apply NoDup_app_snoc.
      - rewrite map_app. now apply NoDup_app_snoc.
      - rewrite map_app. apply NoDup_app_snoc; [exact O4|]. intros H. apply in_map_iff in H.
        destruct H as ([l' rd'] & He & H). cbn in He. exact (Hroot _ _ H He).
      - intros l' rd' Hr. apply in_app_or in Hr. destruct Hr as [Hr|[Hr|[]]].
        + destruct (O5 l' rd' Hr) as (A1 & A2 & A3 & A4 & A5 & w' & A6 & A7).
          split; [auto|]. split; [auto|]. split; [auto|]. split; [auto|]. split; [now rewrite Ru|].
          exists w'. split; [|exact A7]. apply Ro. now left.
        + injection Hr as <- <-. unfold rd. cbn. split; [auto|]. split; [auto|]. split; [auto|].
          split; [auto|]. split; [now rewrite Ru|]. exists w. split; [|exact Hw]. apply Ro. now right.
      - intros l' Hl. rewrite Rk in Hl. apply in_app_or in Hl. destruct Hl as [Hl|[<-|[]]].
        + destruct (O6 l' Hl) as [G|(r & j & G & G')]; [now left|right].
          exists r, j. split; [exact G|]. intros l2 rd2 Hr He. apply in_app_or in Hr.
          destruct Hr as [Hr|[Hr|[]]]; [eapply G'; eauto|]. injection Hr as <- <-. cbn in He |- *.
          subst r. eapply Hkey; eauto.
        + right. exists root, oidx. split; [exact Hout|]. intros l2 rd2 Hr He. apply in_app_or in Hr.
          destruct Hr as [Hr|[Hr|[]]]; [destruct (Hroot _ _ Hr He)|]. injection Hr as <- <-. cbn. lia.
      - intros l' w' Hi Hp Hg. rewrite hm_get_app in Hg.
        destruct (hm_get l' refs) as [x|] eqn:e; [discriminate|]. apply Ro in Hi. destruct Hi as [Hi|[-> ->]].
        + eapply O7; eauto.
        + cbn in Hg. rewrite lit_eqb_refl in Hg. discriminate.
      - intros l' rd' w' Hr Hi. apply Ro in Hi. apply in_app_or in Hr. destruct Hr as [Hr|[Hr|[]]].
        + destruct Hi as [Hi|[-> _]]; [eapply O8; eauto|]. destruct Hf. apply in_map_iff. exists (l, rd'). auto.
        + injection Hr as <- <-. destruct Hi as [Hi|[_ ->]]; [|cbn; lia]. destruct Hn. eapply iact_keys; eauto.
    Qed.
    Lemma kvo_insert o l' : l' <> l -> kvo d o (refs ++ [(l, rd)]) l' = kvo d o refs l'.
    Proof.
      intros Hne. unfold kvo, kv. rewrite hm_get_app. destruct (hm_get l' refs); [reflexivity|].
      cbn. destruct (lit_eqb l' l) eqn:e; [apply lit_eqb_eq in e; congruence|reflexivity].
    Qed.
    Lemma pot_insert o : pot d o i' (refs ++ [(l, rd)]) = pot d o i refs + w * (gv d o root - oidx).
    Proof.
      unfold pot. rewrite Rs, rsum_app.
      replace (wk (kvo d o (refs ++ [(l, rd)])) (iact i)) with (wk (kvo d o refs) (iact i)).
      2:{ apply wk_ext. intros l' w' Hi _. symmetry. apply kvo_insert. intros ->. apply Hn.
          eapply iact_keys; eauto. }
      assert (K : kvo d o (refs ++ [(l, rd)]) l = if oidx <? gv d o root then 1 else 0).
      { unfold kvo, kv. rewrite hm_get_app. pose proof insert_fresh as Hf. apply hm_get_none in Hf.
        rewrite Hf. cbn. now rewrite lit_eqb_refl. }
      rewrite K. unfold rsum. cbn [map snd]. rewrite ls_cons. cbn [list_sum fold_right].
      unfold rterm, rd. cbn [rd_weight rd_root rd_oidx].
      destruct (oidx <? gv d o root) eqn:e.
      - apply Nat.ltb_lt in e. replace (gv d o root - oidx) with (1 + (gv d o root - (oidx + 1))) by lia.
        unfold list_sum. cbn. lia.
      - apply Nat.ltb_ge in e. replace (gv d o root - oidx) with 0 by lia.
        replace (gv d o root - (oidx + 1)) with 0 by lia. unfold list_sum. cbn. lia.
    Qed.
  End Insert.
End Vals.
