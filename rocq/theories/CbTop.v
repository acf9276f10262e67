(** * Correctness of core boosting *)
From Coq Require Import List Bool Arith Lia ZArith.
From Verif Require Import Base BaseLemmas Spec MTypes MKernel MPMinimal MLowerBounding MBiOptSat
  EncSpec Wp Sem Kern Yield PMin PMinTop Init ApiSpec Ext Blk Api MOll TotSpec
  OllSide OllData OllThm OllRun OllMain CbMerge.
Import ListNotations.

Section Base.
  Context {I : enc_impl} {SP : enc_spec I} {T : tot_impl I} (TS : tot_spec SP T).
  Notation db := (ti_db T).
  Notation prob := (prob I).
  Variable F : asg -> Prop.
  Notation aux := (tb_aux SP T TS).
  Notation free := (tb_free SP T TS).

  (** The clauses and the databases, without the encodings *)
  Record Base (p : prob) (ds : list db) : Prop := mkBase {
    bs_orig : vm_max_orig (p_vm p) <= vm_max_enc (p_vm p);
    bs_enc : vm_max_enc (p_vm p) < vm_next (p_vm p);
    bs_vars : forall v, In v (cls_vars (p_cls p)) -> v < vm_next (p_vm p);
    bs_aux : forall d v, In d ds -> aux d v -> v < vm_next (p_vm p) /\ ~ low p v;
    bs_free : forall d v, In d ds -> free d v ->
      v < vm_next (p_vm p) /\ ~ low p v /\ ~ In v (cls_vars (p_cls p)) /\
      (forall d', In d' ds -> ~ aux d' v);
    bs_disj : forall i j d1 d2 v, nth_error ds i = Some d1 -> nth_error ds j = Some d2 -> i <> j ->
      free d1 v -> free d2 v -> False;
    bs_cls : forall d c, In d ds -> In c (tb_cls SP T TS d) -> In c (p_cls p);
    bs_objs : forall o v, In o (p_objs p) -> In v (lits_vars (map fst (obj_iter o))) -> low p v;
    bs_Fcl : forall a b, agree (low p) a b -> F a -> F b;
    bs_sound : forall m, sat m (p_cls p) -> F m;
    bs_comp : forall a, F a -> exists m, agree (low p) a m /\ sat m (p_cls p) /\
      (forall d, In d ds -> tb_exact SP T TS d m) }.

  Lemma side_base p ds : Side TS F p ds -> Base p ds.
  Proof.
    intros [[W I1 I2 I3 I4 I5] H2 H3 H4 H5 H6 _].
    destruct W as [w1 w2 w3 w4 w5 w6 w7 w8 w9 w10 w11 w12 w13 w14 w15]. constructor; auto.
    - intros v Hv. apply (w4 v Hv).
    - intros d v Hd Hv. destruct (H3 d v Hd Hv) as [[A _] B]. auto.
    - intros a Ha. destruct (I5 a Ha) as (m & A & B & _ & C). eauto.
  Qed.

  (** An encoding is right for an objective *)
  Definition entry (me : nat) (ob : objective) (d : db) (e : obj_enc I) (off : nat) : Prop :=
    if obj_is_constant ob then e = EConstant /\ off = 0 else Encok TS F ob me d e off.

  Lemma const_icost ob a : obj_is_constant ob = true -> icost ob a = 0.
  Proof. destruct ob; try discriminate. reflexivity. Qed.

  Lemma entry_used me ob d e off v : entry me ob d e off -> oe_used SP e v -> v <= me \/ aux d v.
  Proof. unfold entry. destruct (obj_is_constant ob); [intros [-> _] []|intros H; apply H]. Qed.
  Lemma entry_free me ob d e off v : entry me ob d e off -> oe_free SP e v -> free d v.
  Proof. unfold entry. destruct (obj_is_constant ob); [intros [-> _] []|intros H; apply H]. Qed.
  Lemma entry_exact me ob d e off m : entry me ob d e off -> tb_exact SP T TS d m -> oe_exact SP e m.
  Proof. unfold entry. destruct (obj_is_constant ob); [intros [-> _] _; exact Logic.I|intros H; apply H]. Qed.
  Lemma entry_ecls me ob d e off c : entry me ob d e off -> In c (oe_ecls SP e) -> In c (tb_cls SP T TS d).
  Proof. unfold entry. destruct (obj_is_constant ob); [intros [-> _] []|intros H; apply H]. Qed.
  Lemma entry_cost me ob d e off a : entry me ob d e off -> F a -> e <> EConstant ->
    oe_ecost SP e a = icost ob a.
  Proof. unfold entry. destruct (obj_is_constant ob); [intros [-> _] _ G; now destruct G|intros H; apply H]. Qed.
  Lemma entry_const me ob d e off a : entry me ob d e off -> F a -> e = EConstant -> icost ob a = off.
  Proof.
    unfold entry. destruct (obj_is_constant ob) eqn:ec; [|intros H; apply H].
    intros [_ ->] _ _. now apply const_icost.
  Qed.
  Lemma entry_off me ob d e off : entry me ob d e off -> oe_offset e <= off.
  Proof.
    unfold entry. destruct (obj_is_constant ob) eqn:ec; [intros [-> ->]; cbn; lia|].
    intros H. destruct e as [x n|x n|]; [| |cbn; lia]; rewrite <- (en_off _ _ _ _ _ _ _ H) by discriminate; lia.
  Qed.
  Lemma entry_cap me ob d e off : entry me ob d e off -> oe_cap SP e <= wtotal (obj_iter ob).
  Proof.
    unfold entry. destruct (obj_is_constant ob) eqn:ec; [intros [-> ->]; cbn; lia|].
    intros H. destruct e as [x n|x n|]; [| |cbn; lia]; rewrite <- (en_cap _ _ _ _ _ _ _ H) by discriminate; lia.
  Qed.

  Lemma base_inv p ds es :
    Base p ds -> length es = length (p_objs p) ->
    (forall k e ob, nth_error es k = Some e -> nth_error (p_objs p) k = Some ob ->
      exists d off, nth_error ds k = Some d /\ entry (vm_max_enc (p_vm p)) ob d e off /\
        (forall a, F a -> off <= icost ob a)) ->
    Inv SP F (set_encs es p) F (fun _ => True).
  Proof.
    intros [B1 B2 B3 B4 B5 B6 B7 B8 B9 B10 B11] Hlen Hent.
    set (p' := set_encs es p).
    assert (Hin : forall e, In e es -> exists k ob d off, nth_error es k = Some e /\ nth_error (p_objs p) k = Some ob /\
      nth_error ds k = Some d /\ In d ds /\ entry (vm_max_enc (p_vm p)) ob d e off).
    { intros e He. apply In_nth_error in He. destruct He as [k He].
      assert (Hk : k < length (p_objs p)) by (rewrite <- Hlen; apply nth_error_Some; congruence).
      destruct (nth_error (p_objs p) k) as [ob|] eqn:eo; [|apply nth_error_None in eo; lia].
      destruct (Hent k e ob He eo) as (d & off & H1 & H2 & _). exists k, ob, d, off.
      repeat split; auto. eapply nth_error_In; eauto. }
    assert (Hlive : forall v, v < vm_next (p_vm p) ->
      (forall d, In d ds -> ~ free d v) -> live SP p' v).
    { intros v Hv Hf. split; [exact Hv|]. intros e He Hfr. destruct (Hin e He) as (k & ob & d & off & _ & _ & _ & Hd & Hen).
      eapply Hf; [exact Hd|]. eapply entry_free; eauto. }
    assert (Hlow : forall v, low p v -> live SP p' v).
    { intros v Hv. apply Hlive; [unfold low in Hv; lia|]. intros d Hd Hf. destruct (B5 d v Hd Hf) as (_ & G & _). exact (G Hv). }
    assert (W : WF SP F p').
    { constructor; cbn; auto.
      - intros v Hv. apply Hlive; [auto|]. intros d Hd Hf. destruct (B5 d v Hd Hf) as (_ & _ & G & _). exact (G Hv).
      - intros e v He Hu. destruct (Hin e He) as (k & ob & d & off & _ & _ & _ & Hd & Hen).
        destruct (entry_used _ _ _ _ _ _ Hen Hu) as [Hv|Hv]; [now apply Hlow|].
        apply Hlive; [now apply (B4 d v)|]. intros d' Hd' Hf. destruct (B5 d' v Hd' Hf) as (_ & _ & _ & G).
        exact (G d Hd Hv).
      - intros e v He Hu. destruct (Hin e He) as (k & ob & d & off & _ & _ & _ & Hd & Hen).
        apply (B5 d v Hd). eapply entry_free; eauto.
      - intros i j e1 e2 v H1 H2 Hij F1 F2.
        assert (G : forall k e, nth_error es k = Some e -> oe_free SP e v -> exists d, nth_error ds k = Some d /\ free d v).
        { intros k e He Hf. assert (Hk : k < length (p_objs p)) by (rewrite <- Hlen; apply nth_error_Some; congruence).
          destruct (nth_error (p_objs p) k) as [ob|] eqn:eo; [|apply nth_error_None in eo; lia].
          destruct (Hent k e ob He eo) as (d & off & K1 & K2 & _). exists d. split; [exact K1|]. eapply entry_free; eauto. }
        destruct (G i e1 H1 F1) as (d1 & ? & ?). destruct (G j e2 H2 F2) as (d2 & ? & ?). eapply (B6 i j); eauto.
      - intros e c He Hc. destruct (Hin e He) as (k & ob & d & off & _ & _ & _ & Hd & Hen).
        eapply B7; [exact Hd|]. eapply entry_ecls; eauto.
      - intros i o e m Ho He Hne Hs. destruct (Hent i e o He Ho) as (d & off & _ & Hen & _).
        rewrite (entry_cost _ _ _ _ _ m Hen); auto.
      - intros i o e m Ho He Hne Hm _. destruct (Hent i e o He Ho) as (d & off & _ & Hen & _).
        now rewrite (entry_cost _ _ _ _ _ m Hen).
      - intros i o a b Ho He Ha Hb. destruct (Hent i _ o He Ho) as (d & off & _ & Hen & _).
        rewrite (entry_const _ _ _ _ _ a Hen), (entry_const _ _ _ _ _ b Hen); auto.
      - intros i o e a Ho He Ha. destruct (Hent i e o He Ho) as (d & off & _ & Hen & Hle).
        specialize (Hle a Ha). pose proof (entry_off _ _ _ _ _ Hen). lia. }
    constructor; auto.
    intros a Ha. destruct (B11 a Ha) as (m & M1 & M2 & M3). exists m. split; [exact M1|]. split; [exact M2|].
    split; [|exact Logic.I]. intros e He. destruct (Hin e He) as (k & ob & d & off & _ & _ & _ & Hd & Hen).
    eapply entry_exact; eauto.
  Qed.

  (** The same if only some of the encodings have been replaced *)
  Lemma mix_inv p ds es :
    Side TS F p ds -> length es = length (p_objs p) ->
    (forall k e ob, nth_error es k = Some e -> nth_error (p_objs p) k = Some ob ->
      nth_error (p_encs p) k = Some e \/
      exists d off, nth_error ds k = Some d /\ entry (vm_max_enc (p_vm p)) ob d e off /\
        (forall a, F a -> off <= icost ob a)) ->
    Inv SP F (set_encs es p) F (fun _ => True).
  Proof.
    intros [[W I1 I2 I3 I4 I5] S2 S3 S4 S5 S6 S7] Hlen Hent.
    set (p' := set_encs es p).
    assert (Hin : forall e, In e es -> In e (p_encs p) \/
      exists d ob off, In d ds /\ entry (vm_max_enc (p_vm p)) ob d e off).
    { intros e He. apply In_nth_error in He. destruct He as [k He].
      assert (Hk : k < length (p_objs p)) by (rewrite <- Hlen; apply nth_error_Some; congruence).
      destruct (nth_error (p_objs p) k) as [ob|] eqn:eo; [|apply nth_error_None in eo; lia].
      destruct (Hent k e ob He eo) as [H|(d & off & H1 & H2 & _)]; [left|right; exists d, ob, off; split; auto];
        eapply nth_error_In; eauto. }
    assert (Hlive : forall v, live SP p v -> (forall d, In d ds -> ~ free d v) -> live SP p' v).
    { intros v [Hv Hvf] Hf. split; [exact Hv|]. intros e He Hfr. destruct (Hin e He) as [H|(d & ob & off & Hd & Hen)].
      - exact (Hvf e H Hfr).
      - eapply Hf; [exact Hd|]. eapply entry_free; eauto. }
    assert (Hlow : forall v, low p v -> live SP p' v).
    { intros v Hv. apply Hlive; [now apply (wf_low _ _ _ W)|]. intros d Hd Hf.
      destruct (S4 d v Hd Hf) as (_ & G & _). exact (G Hv). }
    assert (W' : WF SP F p').
    { destruct W as [w1 w2 w3 w4 w5 w6 w7 w8 w9 w10 w11 w12 w13 w14 w15]. constructor; cbn; auto.
      - intros v Hv. apply Hlive; [auto|]. intros d Hd Hf. destruct (S4 d v Hd Hf) as (_ & _ & G & _). exact (G Hv).
      - intros e v He Hu. destruct (Hin e He) as [H|(d & ob & off & Hd & Hen)].
        + apply Hlive; [eauto|]. intros d Hd Hf. exact (proj1 (S7 d e v Hd H Hf) Hu).
        + destruct (entry_used _ _ _ _ _ _ Hen Hu) as [Hv|Hv]; [now apply Hlow|].
          apply Hlive; [now apply (S3 d v)|]. intros d' Hd' Hf. destruct (S4 d' v Hd' Hf) as (_ & _ & _ & G).
          exact (G d Hd Hv).
      - intros e v He Hu. destruct (Hin e He) as [H|(d & ob & off & Hd & Hen)]; [eauto|].
        apply (S4 d v Hd). eapply entry_free; eauto.
      - intros i j e1 e2 v H1 H2 Hij F1 F2.
        assert (G : forall k e, nth_error es k = Some e -> oe_free SP e v ->
          nth_error (p_encs p) k = Some e \/ exists d, nth_error ds k = Some d /\ free d v).
        { intros k e He Hf. assert (Hk : k < length (p_objs p)) by (rewrite <- Hlen; apply nth_error_Some; congruence).
          destruct (nth_error (p_objs p) k) as [ob|] eqn:eo; [|apply nth_error_None in eo; lia].
          destruct (Hent k e ob He eo) as [K|(d & off & K1 & K2 & _)]; [now left|right]. exists d.
          split; [exact K1|]. eapply entry_free; eauto. }
        destruct (G i e1 H1 F1) as [K1|(d1 & K1 & L1)], (G j e2 H2 F2) as [K2|(d2 & K2 & L2)].
        + eapply (w8 i j); eauto.
        + apply nth_error_In in K1, K2. exact (proj2 (S7 d2 e1 v K2 K1 L2) F1).
        + apply nth_error_In in K1, K2. exact (proj2 (S7 d1 e2 v K1 K2 L1) F2).
        + eapply (S5 i j); eauto.
      - intros e c He Hc. destruct (Hin e He) as [H|(d & ob & off & Hd & Hen)]; [eauto|].
        eapply S6; [exact Hd|]. eapply entry_ecls; eauto.
      - intros i o e m Ho He Hne Hs. destruct (Hent i e o He Ho) as [K|(d & off & _ & Hen & _)]; [eauto|].
        rewrite (entry_cost _ _ _ _ _ m Hen); auto.
      - intros i o e m Ho He Hne Hm Hx. destruct (Hent i e o He Ho) as [K|(d & off & _ & Hen & _)]; [eauto|].
        now rewrite (entry_cost _ _ _ _ _ m Hen).
      - intros i o a b Ho He Ha Hb. destruct (Hent i _ o He Ho) as [K|(d & off & _ & Hen & _)]; [eauto|].
        rewrite (entry_const _ _ _ _ _ a Hen), (entry_const _ _ _ _ _ b Hen); auto.
      - intros i o e a Ho He Ha. destruct (Hent i e o He Ho) as [K|(d & off & _ & Hen & Hle)]; [eauto|].
        specialize (Hle a Ha). pose proof (entry_off _ _ _ _ _ Hen). lia. }
    constructor; auto.
    intros a Ha. destruct (I5 a Ha) as (m & M1 & M2 & M3 & M4). exists m. split; [exact M1|]. split; [exact M2|].
    split; [|exact Logic.I]. intros e He. destruct (Hin e He) as [H|(d & ob & off & Hd & Hen)]; [auto|].
    eapply entry_exact; eauto.
  Qed.

  (** Encodings that have not got any variables of their own *)
  Definition bare (es : list (obj_enc I)) (me : nat) : Prop := forall e, In e es ->
    (forall v, oe_used SP e v -> v <= me) /\ (forall v, ~ oe_free SP e v) /\
    (forall m, oe_exact SP e m) /\ oe_ecls SP e = [].
End Base.

Lemma skipn_cons_inv {A} (l : list A) : forall k x r, skipn k l = x :: r ->
  nth_error l k = Some x /\ skipn (S k) l = r.
Proof.
  induction l as [|y l IH]; intros [|k] x r H; cbn in *; try discriminate.
  - injection H as -> ->. auto.
  - apply IH in H. destruct H as [H1 H2]. split; [exact H1|]. destruct l; exact H2.
Qed.

Section CbTop.
  Context {I : enc_impl} {SP : enc_spec I} {T : tot_impl I} (TS : tot_spec SP T).
  Notation M := (M I).
  Notation st := (st I).
  Notation db := (ti_db T).
  Variable E : environ.
  Hypothesis HO : oracle_ok E.
  Hypothesis HN : core_nodup E.
  Variables (i : inst) (o : kopts).
  Hypothesis HI : inst_ok i.
  Let F := Feas i.
  Let bos := build_objs 0 (in_objs i).
  Let me := vm_max_enc (in_vm i).
  Hypothesis HD : forall ob, In ob bos -> NoDup (map fst (obj_iter ob)).
  Variable B : nat.
  Hypothesis HB : 2 * list_sum (totals bos) + 1 <= B.

  (** A solver ready for core boosting *)
  Record ready (s : st) : Prop := mkReady {
    rd_start : start SP i o s;
    rd_lims : lims_ok s;
    rd_me : vm_max_enc (p_vm (s_prob s)) = me;
    rd_const : forall k ob, nth_error (p_objs (s_prob s)) k = Some ob -> obj_is_constant ob = true ->
      nth_error (p_encs (s_prob s)) k = Some EConstant;
    rd_cnf : s_cnf s = if o_store_cnf o then Some (in_cls i) else None }.

  Variable s0 : st.
  Hypothesis HS : ready s0.

  Definition deadok : Prop := (forall a, ~ F a) /\
    (o_core_minimization o = true \/ o_core_trimming o = true).
  (** What a core boosting that is stopped leaves behind *)
  Record kept (opts : cb_opts) (s : st) : Prop := mkKept {
    kp_fr : fr s0 s;
    kp_inv : Inv SP F (s_prob s) F (fun _ => True);
    kp_objs : sim (p_objs (s_prob s)) bos;
    kp_me : vm_max_enc (p_vm (s_prob s)) = me;
    kp_mo : vm_max_orig (p_vm (s_prob s)) = vm_max_orig (in_vm i);
    kp_const : forall k ob, nth_error (p_objs (s_prob s)) k = Some ob -> obj_is_constant ob = true ->
      nth_error (p_encs (s_prob s)) k = Some EConstant;
    kp_encs : forall k e ob, nth_error (p_encs (s_prob s)) k = Some e -> nth_error (p_objs (s_prob s)) k = Some ob ->
      nth_error (p_encs (s_prob s0)) k = Some e \/ oe_cap SP e <= wtotal (obj_iter ob);
    kp_bare : cb_reset opts = true -> bare (SP := SP) (p_encs (s_prob s0)) me ->
      bare (SP := SP) (p_encs (s_prob s)) me }.
  (** Stopping is harmless if the oracle is not reset or no encoding has variables yet *)
  Definition safe (opts : cb_opts) : Prop :=
    cb_reset opts = false \/ bare (SP := SP) (p_encs (s_prob s0)) me.
  Definition XC (opts : cb_opts) (x : exit) (s : st) : Prop :=
    (xok E B x /\ (safe opts -> kept opts s)) \/ deadok.

  Definition finok (ob : objective) (rf : reform) (d : db) : Prop :=
    if obj_is_constant ob then rf_offset rf = 0 /\ d = ti_new T /\ rf_inact rf = IConstant else Fin TS F ob me rf d.
  Lemma finok_lb b ob rf d : finok ob rf d -> finok (obj_set_lb b ob) rf d.
  Proof.
    unfold finok. destruct ob; cbn [obj_set_lb obj_is_constant]; try (intros H; exact H);
    intros [f1 f2 f3 f4 f5 f6 f7 f8 f9 f10]; constructor; auto.
  Qed.
  Lemma finok_le ob rf d a : finok ob rf d -> F a -> rf_offset rf <= icost ob a.
  Proof.
    unfold finok. destruct (obj_is_constant ob) eqn:e.
    - intros [-> _] _. lia.
    - intros H Ha. pose proof (fi_id _ _ _ _ _ _ H (Some a) Ha) as G. cbn [OllThm.tg] in G. lia.
  Qed.

  (** The literals of the reformulated cores are outputs of the database *)
  Definition refs_out (rf : reform) (d : db) : Prop := forall l rd, In (l, rd) (rf_refs rf) ->
    tb_out SP T TS d (rd_root rd) (rd_oidx rd) = Some l.

  Record CB (acc : list (reform * db)) (s : st) : Prop := mkCB {
    cb_lims : lims_ok s;
    cb_fr : fr s0 s;
    cb_side : Side TS F (s_prob s) (map snd acc);
    cb_encs : p_encs (s_prob s) = p_encs (s_prob s0);
    cb_objs : sim (p_objs (s_prob s)) bos;
    cb_me : vm_max_enc (p_vm (s_prob s)) = me;
    cb_mo : vm_max_orig (p_vm (s_prob s)) = vm_max_orig (in_vm i);
    cb_fin : forall j rf d, nth_error acc j = Some (rf, d) ->
      exists ob, nth_error (p_objs (s_prob s)) j = Some ob /\ finok ob rf d /\ obj_lb ob = rf_offset rf;
    cb_out : forall j rf d, nth_error acc j = Some (rf, d) -> refs_out rf d }.

  Lemma sim_nth os os' k ob : sim os os' -> nth_error os k = Some ob ->
    exists ob', nth_error os' k = Some ob' /\ obj_set_lb 0 ob = obj_set_lb 0 ob'.
  Proof.
    intros H Hk. apply (map_nth_error (obj_set_lb 0)) in Hk. unfold sim in H. rewrite H, nth_error_map in Hk.
    destruct (nth_error os' k) as [ob'|]; [|discriminate]. exists ob'. cbn in Hk. split; congruence.
  Qed.
  Lemma lb0_iter ob ob' : obj_set_lb 0 ob = obj_set_lb 0 ob' ->
    obj_iter ob = obj_iter ob' /\ obj_is_constant ob = obj_is_constant ob'.
  Proof. destruct ob, ob'; cbn; intros H; try discriminate H; injection H; intros; subst; auto. Qed.
  Lemma sim_set_nth os k b ob : nth_error os k = Some ob -> sim (set_nth k (obj_set_lb b ob) os) os.
  Proof.
    unfold sim. revert k. induction os as [|x os IH]; intros [|k] H; cbn in *; try discriminate.
    - injection H as <-. f_equal. now destruct x.
    - f_equal. now apply IH.
  Qed.
  Lemma sim_iters os os' : sim os os' -> map obj_iter os = map obj_iter os'.
  Proof.
    assert (G : forall os, map obj_iter os = map obj_iter (map (obj_set_lb 0) os)).
    { clear. intros os. rewrite map_map. apply map_ext. intros ob. now rewrite obj_iter_lb. }
    intros H. rewrite (G os), (G os'). now rewrite H.
  Qed.

  Lemma bos_total ob : In ob bos -> wtotal (obj_iter ob) <= list_sum (totals bos) /\
    (Z.of_nat (wtotal (obj_iter ob)) <= usize_max_z)%Z.
  Proof.
    intros Hin. split.
    - apply list_sum_ge. unfold totals. apply in_map_iff. eauto.
    - destruct (build_In _ _ _ Hin) as (r & j & Hr & ->). destruct HI as [_ _ _ _ H1 H2].
      rewrite Forall_forall in H1, H2. destruct (H2 r Hr) as [H3 _].
      enough (wtotal (obj_iter (obj_new (fst r) (snd r) j)) <= wtotal (fst r)).
      { assert (isize_max <= usize_max_z)%Z by (unfold isize_max, usize_max_z; lia). lia. }
      destruct (H1 r Hr) as [H4 H5]. clear - H4 H5. destruct r as [[|[l w] ls] off]; [cbn; lia|].
      cbn [fst snd] in *. unfold obj_new. set (al := (l, w) :: ls) in *. destruct (existsb _ al) eqn:e; cbn [obj_iter].
      + destruct H4 as [H4|H4]; [now rewrite hm_collect_distinct|].
        exfalso. apply existsb_exists in e. destruct e as (lw & Hin & He).
        rewrite (H4 lw (l, w) Hin (or_introl eq_refl)) in He. cbn [snd] in He. rewrite Nat.eqb_refl in He. discriminate.
      + assert (Hall : forall lw, In lw al -> snd lw = w).
        { intros lw Hin. destruct (Nat.eq_dec (snd lw) w) as [|Hne]; [assumption|]. exfalso.
          assert (Ht : existsb (fun lw => negb (snd lw =? w)) al = true).
          { apply existsb_exists. exists lw. split; [exact Hin|]. apply negb_true_iff, Nat.eqb_neq, Hne. }
          congruence. }
        assert (0 < w).
        { destruct H5 as [H5|(lw & Hin & Hne)]; [discriminate|]. rewrite (Hall lw Hin) in Hne. lia. }
        clearbody al. clear - Hall H. induction al as [|[x y] al IH]; [cbn; lia|]. cbn [map fst wtotal].
        specialize (IH (fun lw Hl => Hall lw (or_intror Hl))). pose proof (Hall (x, y) (or_introl eq_refl)) as G.
        cbn in G. lia.
  Qed.

  (** before the merging the encodings are the old ones *)
  Lemma kept_same opts s ds : fr s0 s -> Side TS F (s_prob s) ds -> p_encs (s_prob s) = p_encs (s_prob s0) ->
    sim (p_objs (s_prob s)) bos -> vm_max_enc (p_vm (s_prob s)) = me ->
    vm_max_orig (p_vm (s_prob s)) = vm_max_orig (in_vm i) -> kept opts s.
  Proof.
    intros Hf Hs He Ho Hm Hg. constructor; auto.
    - eapply inv_weaken; [apply (sd_inv _ _ _ _ Hs)| |]; intros; exact Logic.I.
    - rewrite He. intros k ob Hk Hc. destruct (sim_nth _ _ _ _ Ho Hk) as (ob' & Ho' & Hs').
      assert (Hs0 : sim bos (p_objs (s_prob s0))) by (symmetry; apply (sa_objs _ _ _ _ (rd_start _ HS))).
      destruct (sim_nth _ _ _ _ Hs0 Ho') as (ob2 & Ho2 & Hs2).
      apply (rd_const _ HS k ob2 Ho2). destruct (lb0_iter _ _ Hs') as [_ G1]. destruct (lb0_iter _ _ Hs2) as [_ G2]. congruence.
    - rewrite He. auto.
    - rewrite He. auto.
  Qed.
  Lemma kept_cb opts acc s : CB acc s -> kept opts s.
  Proof. intros H. eapply kept_same; apply H. Qed.
  Lemma kept_quiet opts s s' : quiet s s' -> kept opts s -> kept opts s'.
  Proof.
    intros [Hf Hp _] [k1 k2 k3 k4 k5 k6 k7 k8]. constructor; rewrite ?Hp; auto. eapply fr_trans; eauto.
  Qed.
  Lemma kept_gro opts acc s s' d : CB acc s -> Side TS F (s_prob s') (map snd acc ++ [d]) -> gro me s s' -> kept opts s'.
  Proof.
    intros HC Hs [g1 g2 g3 g4 g5]. eapply kept_same; [|exact Hs| | |exact g4|].
    - eapply fr_trans; [apply HC|exact g1].
    - rewrite g3. apply HC.
    - rewrite g2. apply HC.
    - rewrite g5. apply HC.
  Qed.
  Lemma cb_xc opts acc s s' x : CB acc s -> quiet s s' -> good_exit x -> XC opts x s'.
  Proof. intros HC Hq Hx. left. split; [now left|]. intros _. eapply kept_quiet; [exact Hq|]. eapply kept_cb; eauto. Qed.

  Lemma loop_ok opts n : forall acc s, length acc + n = length bos -> CB acc s ->
    wp (core_boost_loop T E n (length acc) acc)
      (fun r s' => match r with
         | (true, acc') => CB acc' s' /\ length acc' = length bos
         | (false, _) => (forall a, ~ F a) /\ (kept opts s' \/ deadok) end) (XC opts) s.
  Proof.
    induction n as [|n IH]; intros acc s Hl HC; cbn [core_boost_loop].
    - apply wp_ret. split; [exact HC|lia].
    - apply wp_bind, wp_gets.
      destruct (nth_error (p_objs (s_prob s)) (length acc)) as [ob|] eqn:eo.
      2:{ apply nth_error_None in eo. rewrite (sim_length _ _ (cb_objs _ _ HC)) in eo. lia. }
      apply wp_bind. eapply wp_unwrap; [reflexivity|].
      destruct (sim_nth _ _ _ _ (cb_objs _ _ HC) eo) as (ob' & Hob' & Hsim).
      destruct (lb0_iter _ _ Hsim) as [Hiter Hcon].
      assert (Hin : In ob' bos) by (eapply nth_error_In; eauto).
      destruct (bos_total ob' Hin) as [Ht1 Ht2].
      apply wp_bind.
      apply wp_mono with (Q := fun r s' => match r with
        | Some (rf, d) => finok ob rf d /\ Side TS F (s_prob s') (map snd acc ++ [d]) /\ gro me s s' /\ lims_ok s' /\
            refs_out rf d
        | None => (forall a, ~ F a) /\ (kept opts s' \/ deadok) end) (X := XC opts); [| |auto].
      + destruct (obj_is_constant ob) eqn:ec.
        * apply wp_ret. split; [unfold finok; rewrite ec; now destruct ob|].
          split; [apply side_new, HC|]. split; [|split; [apply HC|]].
          { constructor; auto using fr_refl. apply HC. }
          intros l rd Hrd. destruct ob; try discriminate. destruct Hrd.
        * apply wp_bind.
          eapply wp_mono; [eapply (wp_oll TS E HO HN F ob me (map snd acc) s B)| |].
          -- rewrite Hiter. lia.
          -- rewrite Hiter. exact Ht2.
          -- exact ec.
          -- rewrite Hiter. now apply HD.
          -- intros v Hv. rewrite <- (cb_me _ _ HC). eapply (wf_objs _ _ _ (side_wf _ _ _ _ (cb_side _ _ HC))); [|exact Hv].
             eapply nth_error_In; eauto.
          -- reflexivity.
          -- constructor; [apply HC| |apply side_new, HC|apply tb_new_free].
             constructor; auto using fr_refl. apply HC.
          -- intros [[rf d] [sol|]] s' H; apply wp_ret.
             ++ destruct H as (H1 & H2 & H3 & H4 & H5). unfold finok. rewrite ec. auto 6.
             ++ destruct H as [H1 [(d' & H2 & H3)|[_ H2]]]; (split; [exact H1|]).
                ** left. eapply kept_gro; eauto.
                ** right. split; [exact H1|].
                   rewrite (fr_opts _ _ (cb_fr _ _ HC)), (sa_opts _ _ _ _ (rd_start _ HS)) in H2. exact H2.
          -- intros x s' [[Hx (d' & H2 & H3)]|[H1 H2]].
             ++ left. split; [exact Hx|]. intros _. eapply kept_gro; eauto.
             ++ right. split; [exact H1|].
                rewrite (fr_opts _ _ (cb_fr _ _ HC)), (sa_opts _ _ _ _ (rd_start _ HS)) in H2. exact H2.
      + intros [[rf d]|] s' H; [|apply wp_ret; exact H]. destruct H as (H1 & H2 & H3 & H4 & H5).
        apply wp_bind, wp_modify. set (s2 := set_prob _ s').
        assert (Hobjs : p_objs (s_prob s2) = set_nth (length acc) (obj_set_lb (rf_offset rf) ob) (p_objs (s_prob s))).
        { cbn. now rewrite (gr_objs _ _ _ H3). }
        replace (S (length acc)) with (length (acc ++ [(rf, d)])) by (rewrite app_length; cbn; lia).
        apply IH; [rewrite app_length; cbn; lia|].
        assert (Hlen : length acc < length (p_objs (s_prob s))) by (apply nth_error_Some; congruence).
        constructor.
        * exact H4.
        * eapply fr_trans; [apply HC|]. eapply fr_trans; [apply H3|]. now constructor.
        * rewrite map_app. cbn [map snd].
          change (s_prob s2) with (set_objs (set_nth (length acc) (obj_set_lb (rf_offset rf) ob) (p_objs (s_prob s'))) (s_prob s')).
          apply side_objs; [exact H2|]. apply sim_iters. apply sim_set_nth. now rewrite (gr_objs _ _ _ H3).
        * cbn. rewrite (gr_encs _ _ _ H3). apply HC.
        * rewrite Hobjs. eapply sim_trans; [|apply HC]. now apply sim_set_nth.
        * cbn. apply H3.
        * cbn. rewrite (gr_orig _ _ _ H3). apply HC.
        * rewrite Hobjs. intros j rf' d' Hj. apply nth_snoc in Hj. destruct Hj as [Hj|[-> Hj]].
          -- destruct (cb_fin _ _ HC j rf' d' Hj) as (ob2 & K1 & K2). exists ob2. split; [|exact K2].
             rewrite set_nth_other; [exact K1|]. assert (j < length acc) by (apply nth_error_Some; congruence). lia.
          -- injection Hj as -> ->. exists (obj_set_lb (rf_offset rf) ob). rewrite set_nth_same by exact Hlen.
             split; [reflexivity|]. split; [now apply finok_lb|]. now destruct ob.
        * intros j rf' d' Hj. apply nth_snoc in Hj. destruct Hj as [Hj|[-> Hj]]; [exact (cb_out _ _ HC _ _ _ Hj)|].
          injection Hj as -> ->. exact H5.
  Qed.

  Lemma cb_init : CB [] s0.
  Proof.
    destruct HS as [[a1 a2 a3 a4 a5 a6 a7] r2 r3 r4 r5]. constructor; auto using fr_refl.
    - constructor; cbn; try contradiction.
      + eapply inv_weaken; [exact a1| |]; intros; contradiction.
      + intros [|?]; discriminate.
    - intros [|j]; discriminate.
    - intros [|j]; discriminate.
  Qed.
  Lemma cb_quiet acc s s' : quiet s s' -> lims_ok s' -> CB acc s -> CB acc s'.
  Proof.
    intros [Hf Hp _] HL []. constructor; rewrite ?Hp; auto. eapply fr_trans; eauto.
  Qed.

  Lemma kernel_ok opts : wp (kernel_core_boost T E)
    (fun r s' => match r with
       | Some acc => CB acc s' /\ length acc = length bos
       | None => (forall a, ~ F a) /\ (kept opts s' \/ deadok) end) (XC opts) s0.
  Proof.
    unfold kernel_core_boost. apply wp_bind, wp_log_start; [apply HS| |intros x s' Hq Hx; eapply cb_xc; eauto using cb_init].
    intros s1 Hq HL. apply wp_bind, wp_gets. apply wp_bind.
    rewrite (fr_nobjs _ _ (qt_fr _ _ Hq)), (sa_n _ _ _ _ (rd_start _ HS)), (sim_length _ _ (sa_objs _ _ _ _ (rd_start _ HS))).
    eapply wp_mono; [apply (loop_ok opts (length bos) [] s1)| |auto].
    - reflexivity.
    - eapply cb_quiet; eauto using cb_init.
    - intros [[|] acc] s2; cbn [snd fst].
      + intros [HC Hl]. apply wp_bind, wp_log_end; [apply HC| |intros x s' Hq' Hx; eapply cb_xc; eauto].
        intros s3 Hq3 HL3. pose proof (cb_quiet _ _ _ Hq3 HL3 HC) as HC3.
        apply wp_bind, wp_emit; [|intros s' Hq'; eapply cb_xc; eauto; exact Logic.I].
        intros s4 Hq4 HL4. apply wp_ret. split; [|exact Hl].
        assert (lims_ok s4) by (unfold lims_ok; rewrite HL4; exact HL3).
        eapply cb_quiet; eauto.
      + intros [H HK]. apply wp_bind, wp_log_end'.
        * intros s3 Hq3 HL3. apply wp_bind, wp_emit.
          -- intros s4 Hq4 HL4. apply wp_ret. split; [exact H|]. destruct HK as [HK|HK]; [left|now right].
             eapply kept_quiet; [exact Hq4|]. eapply kept_quiet; eauto.
          -- intros s' Hq4. destruct HK as [HK|HK]; [left|now right]. split; [left; exact Logic.I|]. intros _.
             eapply kept_quiet; [exact Hq4|]. eapply kept_quiet; eauto.
        * intros x s' Hq' Hx. destruct HK as [HK|HK]; [left|now right]. split; [now left|]. intros _.
          eapply kept_quiet; eauto.
  Qed.

  (** The result of core boosting: a solver that is ready for [solve], whose lower bounds are
      the single-objective optima *)
  Record boosted (s : st) : Prop := mkBoosted {
    bo_ready : ready s;
    bo_solves : n_solve_calls (s_stats s) = n_solve_calls (s_stats s0);
    bo_enc : forall k ob e, nth_error (p_objs (s_prob s)) k = Some ob ->
      nth_error (p_encs (s_prob s)) k = Some e ->
      oe_cap SP e <= wtotal (obj_iter ob) /\ oe_offset e <= obj_lb ob /\
      (e = EConstant -> forall a, F a -> icost ob a = obj_lb ob);
    bo_lb : forall k ob a, nth_error (p_objs (s_prob s)) k = Some ob -> F a -> obj_lb ob <= icost ob a;
    bo_opt : forall k ob, nth_error (p_objs (s_prob s)) k = Some ob -> obj_is_constant ob = false ->
      exists a, F a /\ icost ob a = obj_lb ob }.

  Section MergeLoop.
    Variable opts : cb_opts.
    Variable acc : list (reform * db).
    Variable s1 : st.
    Hypothesis Hlen : length acc = length (p_objs (s_prob s1)).
    Hypothesis Hlene : length (p_encs (s_prob s1)) = length (p_objs (s_prob s1)).
    Let sel (d : db) : db := if cb_reset opts then ti_reset T d else d.
    Hypothesis Hfin : forall j rf d, nth_error acc j = Some (rf, d) ->
      exists ob, nth_error (p_objs (s_prob s1)) j = Some ob /\ finok ob rf d /\ obj_lb ob = rf_offset rf.
    Hypothesis Hconst : forall k ob, nth_error (p_objs (s_prob s1)) k = Some ob -> obj_is_constant ob = true ->
      nth_error (p_encs (s_prob s1)) k = Some EConstant.
    Hypothesis Hleaf : forall d v, In d (map snd acc) -> tb_leafv SP T TS d v -> v <= me.

    Definition MLw (k : nat) (s : st) : Prop :=
      fr s1 s /\ exists es, s_prob s = set_encs es (s_prob s1) /\
        length es = length (p_objs (s_prob s1)) /\
        (forall j e, k <= j -> nth_error es j = Some e -> nth_error (p_encs (s_prob s1)) j = Some e) /\
        (forall j e ob, j < k -> nth_error es j = Some e -> nth_error (p_objs (s_prob s1)) j = Some ob ->
           exists rf d, nth_error acc j = Some (rf, d) /\ entry TS F me ob (sel d) e (obj_lb ob)).
    Definition ML (k : nat) (s : st) : Prop := lims_ok s /\ MLw k s.
    Lemma ml_quiet k s s' : quiet s s' -> MLw k s -> MLw k s'.
    Proof.
      intros Hq (Hf & es & Hp & Hrest). split; [eapply fr_trans; [exact Hf|apply Hq]|].
      exists es. split; [|exact Hrest]. destruct Hq as [_ -> _]. exact Hp.
    Qed.

    Lemma sel_ext d : tb_ext SP T TS d (sel d).
    Proof.
      unfold sel. destruct (cb_reset opts); [apply (tb_reset_ok SP T TS)|].
      intros id Hn. repeat split; auto.
    Qed.
    Lemma sel_leaf d v : tb_leafv SP T TS (sel d) v -> tb_leafv SP T TS d v.
    Proof.
      unfold sel. destruct (cb_reset opts); [|auto]. intros H. now apply (tb_reset_ok SP T TS).
    Qed.

    Lemma merge_loop_ok : forall rs k s, skipn k acc = rs -> k <= length acc -> ML k s ->
      wp (merge_loop T E opts k rs) (fun _ s' => ML (length acc) s')
        (fun x s' => good_exit x /\ exists k', k' <= length acc /\ MLw k' s') s.
    Proof.
      induction rs as [|[rf d] rs IH]; intros k s Hacc Hk HM; cbn [merge_loop].
      - apply wp_ret. apply (f_equal (@length _)) in Hacc. rewrite skipn_length in Hacc. cbn in Hacc.
        now replace (length acc) with k by lia.
      - destruct HM as (HL & Hf & es & Hp & Hes & Hold & Hnew).
        destruct (skipn_cons_inv _ _ _ _ Hacc) as [Hkn Hacc'].
        assert (Hk' : k < length acc) by (apply nth_error_Some; congruence).
        destruct (Hfin k rf d Hkn) as (ob & Hob & Hfo & Hlb).
        apply wp_bind, wp_gets. rewrite Hp. cbn [set_encs p_objs]. rewrite Hob.
        apply wp_bind. eapply wp_unwrap; [reflexivity|].
        assert (Hkes : k < length es) by lia.
        apply wp_bind.
        apply wp_mono with (Q := fun _ s' => ML (S k) s')
          (X := fun x s' => good_exit x /\ exists k', k' <= length acc /\ MLw k' s'); [| |auto].
        + unfold finok in Hfo. destruct (obj_is_constant ob) eqn:ec.
          * apply wp_ret. split; [exact HL|]. split; [exact Hf|]. exists es. split; [exact Hp|].
            split; [exact Hes|]. split; [intros j e Hj; apply Hold; lia|].
            intros j e ob' Hj He Ho. destruct (Nat.eq_dec j k) as [->|Hne]; [|apply Hnew; [lia|assumption|assumption]].
            assert (ob' = ob) by congruence. subst ob'. exists rf, d. split; [exact Hkn|].
            unfold entry. rewrite ec. apply Hold in He; [|lia]. rewrite (Hconst _ _ Hob ec) in He.
            destruct Hfo as [Hfo _]. split; congruence.
          * apply wp_bind. apply (merge_reform_ok TS F ob me rf (sel d)).
            -- eapply fin_ext; [apply sel_ext|exact Hfo].
            -- intros v Hv. apply (Hleaf d); [|now apply sel_leaf].
               apply in_map_iff. exists (rf, d). split; [reflexivity|]. eapply nth_error_In; eauto.
            -- intros e He. apply wp_modify. split; [exact HL|]. split; [eapply fr_trans; [exact Hf|now constructor]|].
               exists (set_nth k e es). split; [cbn; now rewrite Hp|]. rewrite set_nth_length. split; [exact Hes|].
               split.
               ++ intros j e' Hj. rewrite set_nth_other by lia. apply Hold. lia.
               ++ intros j e' ob' Hj He' Ho. destruct (Nat.eq_dec j k) as [->|Hne].
                  ** rewrite set_nth_same in He' by exact Hkes. injection He' as <-.
                     assert (ob' = ob) by congruence. subst ob'. exists rf, d. split; [exact Hkn|].
                     unfold entry. rewrite ec, Hlb. exact He.
                  ** rewrite set_nth_other in He' by lia. eapply Hnew; eauto. lia.
        + intros _ s2 HM2. apply wp_bind, wp_check_termination; [apply HM2| |].
          * intros s3 Hq HL3. apply IH; [exact Hacc'|lia|]. split; [exact HL3|]. eapply ml_quiet; [exact Hq|apply HM2].
          * intros x s' Hq Hx. split; [exact Hx|]. exists (S k). split; [lia|]. eapply ml_quiet; [exact Hq|apply HM2].
    Qed.
  End MergeLoop.

  (** The clauses after the search or after a reset *)
  Lemma base_sel acc s reset : CB acc s -> (reset = true -> s_cnf s = Some (in_cls i)) ->
    let p := s_prob s in
    let p' := if reset then set_vm (vm_forget_from (p_vm p) (S (vm_max_enc (p_vm p)))) (set_cls (in_cls i) p)
              else p in
    Base TS F p' (map (fun x => if reset then ti_reset T (snd x) else snd x) acc).
  Proof.
    intros HC Hcnf p p'. subst p'. destruct reset.
    2:{ apply side_base. apply HC. }
    pose proof (side_base _ _ _ _ (cb_side _ _ HC)) as [B1 B2 B3 B4 B5 B6 B7 B8 B9 B10 B11]. fold p in B1, B2, B3, B4, B5, B6, B7, B8, B9, B10, B11.
    assert (R : forall d, In d (map (fun x : reform * db => ti_reset T (snd x)) acc) ->
      (forall v, ~ tb_aux SP T TS d v) /\ (forall v, ~ tb_free SP T TS d v) /\
      (forall m, tb_exact SP T TS d m) /\ tb_cls SP T TS d = []).
    { intros d Hd. apply in_map_iff in Hd. destruct Hd as (x & <- & _).
      destruct (tb_reset_ok SP T TS (snd x)) as (_ & _ & R1 & R2 & R3 & R4). auto. }
    constructor; cbn; auto.
    - lia.
    - intros v Hv. apply (io_cls _ HI) in Hv. pose proof (cb_me _ _ HC) as G. fold p in G. unfold me in G. lia.
    - intros d v Hd Hv. destruct (R d Hd) as (G & _). destruct (G v Hv).
    - intros d v Hd Hv. destruct (R d Hd) as (_ & G & _). destruct (G v Hv).
    - intros j k d1 d2 v H1 _ _ Hv _. apply nth_error_In in H1. destruct (R d1 H1) as (_ & G & _). exact (G v Hv).
    - intros d c Hd Hc. destruct (R d Hd) as (_ & _ & _ & G). rewrite G in Hc. destruct Hc.
    - intros a Ha. exists a. split; [apply agree_refl|]. split; [exact Ha|]. intros d Hd. now apply R.
  Qed.

  Lemma merged_ok opts acc s1 s2 s : CB acc s1 -> length acc = length bos ->
    (cb_reset opts = true -> s_cnf s1 = Some (in_cls i)) -> fr s1 s2 ->
    s_prob s2 = (let p := s_prob s1 in
       if cb_reset opts then set_vm (vm_forget_from (p_vm p) (S (vm_max_enc (p_vm p)))) (set_cls (in_cls i) p)
       else p) ->
    ML opts acc s2 (length acc) s -> boosted s.
  Proof.
    intros HC Hlen Hcnf Hf2 Hp2 (HL & Hf & es & Hp & Hes & _ & Hnew).
    pose proof (base_sel acc s1 (cb_reset opts) HC Hcnf) as HBs. cbv zeta in HBs, Hp2. rewrite <- Hp2 in HBs.
    assert (Hobjs : p_objs (s_prob s2) = p_objs (s_prob s1)) by (rewrite Hp2; now destruct (cb_reset opts)).
    assert (Hme : vm_max_enc (p_vm (s_prob s2)) = me).
    { rewrite Hp2. destruct (cb_reset opts); cbn; apply HC. }
    assert (Hmo : vm_max_orig (p_vm (s_prob s2)) = vm_max_orig (in_vm i)).
    { rewrite Hp2. destruct (cb_reset opts); cbn; apply HC. }
    assert (Hlo : length (p_objs (s_prob s2)) = length acc).
    { rewrite Hobjs, Hlen. apply sim_length, HC. }
    assert (Hall : forall k ob, nth_error (p_objs (s_prob s2)) k = Some ob ->
      exists rf d, nth_error acc k = Some (rf, d) /\ finok ob rf d /\ obj_lb ob = rf_offset rf).
    { intros k ob Ho. assert (k < length acc) by (rewrite <- Hlo; apply nth_error_Some; congruence).
      destruct (nth_error acc k) as [[rf d]|] eqn:ea; [|apply nth_error_None in ea; lia].
      destruct (cb_fin _ _ HC k rf d ea) as (ob' & G1 & G2). rewrite <- Hobjs in G1.
      assert (ob' = ob) by congruence. subst. exists rf, d. auto. }
    assert (Hle : forall k ob a, nth_error (p_objs (s_prob s2)) k = Some ob -> F a -> obj_lb ob <= icost ob a).
    { intros k ob a Ho Ha. destruct (Hall k ob Ho) as (rf & d & _ & H1 & ->). eapply finok_le; eauto. }
    destruct HS as [[a1 a2 a3 a4 a5 a6 a7] r2 r3 r4 r5].
    assert (Hfr : fr s0 s).
    { eapply fr_trans; [apply HC|]. eapply fr_trans; [exact Hf2|exact Hf]. }
    assert (Hent : forall k e ob, nth_error es k = Some e -> nth_error (p_objs (s_prob s2)) k = Some ob ->
      exists rf d, nth_error acc k = Some (rf, d) /\
        entry TS F me ob (if cb_reset opts then ti_reset T d else d) e (obj_lb ob)).
    { intros k e ob He Ho. apply Hnew; auto. rewrite <- Hlo. apply nth_error_Some. congruence. }
    constructor.
    - constructor.
      + constructor; rewrite ?Hp; cbn [set_encs p_objs p_vm].
        * eapply base_inv; [exact HBs|exact Hes|].
          intros k e ob He Ho. destruct (Hent k e ob He Ho) as (rf & d & H1 & H2).
          exists (if cb_reset opts then ti_reset T d else d), (obj_lb ob). split; [|split].
          -- rewrite (map_nth_error _ _ _ H1). reflexivity.
          -- rewrite Hme. exact H2.
          -- intros a Ha. eapply Hle; eauto.
        * rewrite (fr_nobjs _ _ Hfr), a2, (sim_length _ _ a3). fold bos. congruence.
        * rewrite Hobjs. apply HC.
        * exact Hmo.
        * rewrite (fr_opts _ _ Hfr). exact a5.
        * rewrite (fr_front _ _ Hfr). exact a6.
        * rewrite (fr_fence _ _ Hfr). exact a7.
      + exact HL.
      + rewrite Hp. exact Hme.
      + rewrite Hp. cbn. intros k ob Ho Hc.
        assert (k < length es) by (rewrite Hes; apply nth_error_Some; congruence).
        destruct (nth_error es k) as [e|] eqn:ee; [|apply nth_error_None in ee; lia].
        destruct (Hent k e ob ee Ho) as (rf & d & _ & G). unfold entry in G. rewrite Hc in G. destruct G. congruence.
      + rewrite (fr_cnf _ _ Hfr). exact r5.
    - apply Hfr.
    - rewrite Hp. cbn. intros k ob e Ho He. destruct (Hent k e ob He Ho) as (rf & d & _ & G).
      split; [eapply entry_cap; eauto|]. split; [eapply entry_off; eauto|].
      intros Hc a Ha. eapply entry_const; eauto.
    - rewrite Hp. exact Hle.
    - rewrite Hp. cbn. intros k ob Ho Hc. destruct (Hall k ob Ho) as (rf & d & _ & H1 & ->).
      unfold finok in H1. rewrite Hc in H1. apply (fi_opt _ _ _ _ _ _ H1).
  Qed.

  (** The problem after a reset, with encodings that have no variables *)
  Lemma side_sel acc s : CB acc s -> bare (SP := SP) (p_encs (s_prob s)) me ->
    Side TS F (set_vm (vm_forget_from (p_vm (s_prob s)) (S (vm_max_enc (p_vm (s_prob s))))) (set_cls (in_cls i) (s_prob s)))
      (map (fun x => ti_reset T (snd x)) acc).
  Proof.
    intros HC Hb. pose proof (cb_me _ _ HC) as Hm. pose proof (cb_mo _ _ HC) as Ho.
    pose proof (side_wf _ _ _ _ (cb_side _ _ HC)) as [w1 w2 w3 w4 w5 w6 w7 w8 w9 w10 w11 w12 w13 w14 w15].
    pose proof (sd_low _ _ _ _ (cb_side _ _ HC)) as Hleaf.
    set (p := s_prob s) in *. set (p' := set_vm _ _).
    assert (R : forall d, In d (map (fun x : reform * db => ti_reset T (snd x)) acc) ->
      (forall v, ~ tb_aux SP T TS d v) /\ (forall v, ~ tb_free SP T TS d v) /\
      (forall m, tb_exact SP T TS d m) /\ tb_cls SP T TS d = [] /\ (forall v, tb_leafv SP T TS d v -> low p v)).
    { intros d Hd. apply in_map_iff in Hd. destruct Hd as (x & <- & Hx).
      destruct (tb_reset_ok SP T TS (snd x)) as (_ & R0 & R1 & R2 & R3 & R4). repeat (split; [now auto|]).
      intros v Hv. apply (Hleaf (snd x)); [now apply in_map|now apply R0]. }
    assert (Hlow : forall v, v <= me -> live SP p' v).
    { intros v Hv. split; [cbn; lia|]. intros e He. apply (Hb e He). }
    assert (HF : forall m, sat m (in_cls i) -> F m) by (intros m H; exact H).
    assert (W : WF SP F p').
    { constructor; cbn; auto.
      - lia.
      - intros v Hv. apply Hlow. apply (io_cls _ HI) in Hv. unfold me. lia.
      - intros v Hv. apply Hlow. unfold low in Hv. cbn in Hv. lia.
      - intros e v He Hu. apply Hlow. now apply (Hb e He).
      - intros e v He Hu. destruct (Hb e He) as (_ & G & _). destruct (G v Hu).
      - intros e c He Hc. destruct (Hb e He) as (_ & _ & _ & G). rewrite G in Hc. destruct Hc.
      - intros k ob e m H1 H2 H3 Hs. rewrite (w13 k ob e m H1 H2 H3 (HF m Hs)); [lia|].
        apply (Hb e). eapply nth_error_In; eauto. }
    constructor.
    - constructor; auto.
      + intros a b _ _ d Hd. now apply R.
      + intros a Ha. exists a. split; [apply agree_refl|]. split; [exact Ha|]. split.
        * intros e He. now apply (Hb e).
        * intros d Hd. now apply R.
    - intros d v Hd Hv. now apply (R d Hd).
    - intros d v Hd Hv. destruct (proj1 (R d Hd) v Hv).
    - intros d v Hd Hv. destruct (proj1 (proj2 (R d Hd)) v Hv).
    - intros j k d1 d2 v H1 _ _ Hv _. apply nth_error_In in H1. exact (proj1 (proj2 (R d1 H1)) v Hv).
    - intros d c Hd Hc. destruct (R d Hd) as (_ & _ & _ & G & _). rewrite G in Hc. destruct Hc.
    - intros d e v Hd _ Hv. destruct (proj1 (proj2 (R d Hd)) v Hv).
  Qed.

  (** A stop while the encodings are being merged *)
  Lemma mixed_ok opts acc s1 s2 k s : CB acc s1 -> length acc = length bos -> fr s1 s2 ->
    s_prob s2 = (let p := s_prob s1 in
       if cb_reset opts then set_vm (vm_forget_from (p_vm p) (S (vm_max_enc (p_vm p)))) (set_cls (in_cls i) p)
       else p) ->
    MLw opts acc s2 k s -> safe opts -> kept opts s.
  Proof.
    intros HC Hlen Hf2 Hp2 (Hf & es & Hp & Hes & Hold & Hnew) Hsafe. cbv zeta in Hp2.
    assert (Henc : p_encs (s_prob s2) = p_encs (s_prob s0)).
    { rewrite Hp2, <- (cb_encs _ _ HC). now destruct (cb_reset opts). }
    assert (Hobjs : p_objs (s_prob s2) = p_objs (s_prob s1)) by (rewrite Hp2; now destruct (cb_reset opts)).
    assert (Hme : vm_max_enc (p_vm (s_prob s2)) = me).
    { rewrite Hp2. destruct (cb_reset opts); cbn; apply HC. }
    assert (Hmo : vm_max_orig (p_vm (s_prob s2)) = vm_max_orig (in_vm i)).
    { rewrite Hp2. destruct (cb_reset opts); cbn; apply HC. }
    assert (HSd : Side TS F (s_prob s2) (map (fun x => if cb_reset opts then ti_reset T (snd x) else snd x) acc)).
    { rewrite Hp2. destruct (cb_reset opts) eqn:er.
      - apply side_sel; [exact HC|]. rewrite (cb_encs _ _ HC). destruct Hsafe as [H|H]; [congruence|exact H].
      - apply HC. }
    assert (Hso : sim (p_objs (s_prob s2)) bos) by (rewrite Hobjs; apply HC).
    assert (Hlb : forall k ob a, nth_error (p_objs (s_prob s2)) k = Some ob -> F a -> obj_lb ob <= icost ob a).
    { intros j ob a Ho Ha. rewrite Hobjs in Ho.
      assert (Hj : j < length acc).
      { rewrite Hlen, <- (sim_length _ _ (cb_objs _ _ HC)). apply nth_error_Some. congruence. }
      destruct (nth_error acc j) as [[rf d]|] eqn:ea; [|apply nth_error_None in ea; lia].
      destruct (cb_fin _ _ HC j rf d ea) as (ob' & G1 & G2 & G3). assert (ob' = ob) by congruence. subst.
      rewrite G3. eapply finok_le; eauto. }
    assert (Hcon : forall j ob, nth_error (p_objs (s_prob s2)) j = Some ob -> obj_is_constant ob = true ->
      nth_error (p_encs (s_prob s0)) j = Some EConstant).
    { intros j ob Ho Hc. destruct (sim_nth _ _ _ _ Hso Ho) as (ob' & Ho' & Hs').
      assert (Hs0 : sim bos (p_objs (s_prob s0))) by (symmetry; apply (sa_objs _ _ _ _ (rd_start _ HS))).
      destruct (sim_nth _ _ _ _ Hs0 Ho') as (ob2 & Ho2 & Hs2).
      apply (rd_const _ HS j ob2 Ho2). destruct (lb0_iter _ _ Hs') as [_ G1]. destruct (lb0_iter _ _ Hs2) as [_ G2]. congruence. }
    assert (Hcase : forall j e ob, nth_error es j = Some e -> nth_error (p_objs (s_prob s2)) j = Some ob ->
      nth_error (p_encs (s_prob s0)) j = Some e \/
      exists rf d, nth_error acc j = Some (rf, d) /\ entry TS F me ob (if cb_reset opts then ti_reset T d else d) e (obj_lb ob)).
    { intros j e ob He Ho. destruct (le_lt_dec k j) as [Hj|Hj].
      - left. rewrite <- Henc. now apply Hold.
      - right. now apply Hnew. }
    constructor; rewrite ?Hp; cbn [set_encs p_objs p_encs p_vm]; auto.
    - eapply fr_trans; [apply HC|]. eapply fr_trans; eauto.
    - eapply mix_inv; [exact HSd|exact Hes|]. intros j e ob He Ho.
      destruct (Hcase j e ob He Ho) as [H|(rf & d & H1 & H2)]; [left; now rewrite Henc|right].
      exists (if cb_reset opts then ti_reset T d else d), (obj_lb ob). split; [|split].
      + rewrite (map_nth_error _ _ _ H1). reflexivity.
      + rewrite Hme. exact H2.
      + intros a Ha. eapply Hlb; eauto.
    - intros j ob Ho Hc. assert (Hj : j < length es) by (rewrite Hes; apply nth_error_Some; congruence).
      destruct (nth_error es j) as [e|] eqn:ee; [|apply nth_error_None in ee; lia].
      destruct (Hcase j e ob ee Ho) as [H|(rf & d & _ & H2)]; [rewrite <- H; eapply Hcon; eauto|].
      unfold entry in H2. rewrite Hc in H2. destruct H2. congruence.
    - intros j e ob He Ho. destruct (Hcase j e ob He Ho) as [H|(rf & d & _ & H2)]; [now left|right].
      eapply entry_cap; eauto.
    - intros Hr Hb e He. apply In_nth_error in He. destruct He as [j He].
      assert (Hj : j < length (p_objs (s_prob s2))) by (rewrite <- Hes; apply nth_error_Some; congruence).
      destruct (nth_error (p_objs (s_prob s2)) j) as [ob|] eqn:eo; [|apply nth_error_None in eo; lia].
      destruct (Hcase j e ob He eo) as [H|(rf & d & _ & H2)]; [apply Hb; eapply nth_error_In; eauto|].
      rewrite Hr in H2. destruct (tb_reset_ok SP T TS d) as (_ & _ & R1 & R2 & R3 & R4).
      split; [|split; [|split]].
      + intros v Hv. destruct (entry_used _ _ _ _ _ _ _ _ H2 Hv) as [G|G]; [exact G|destruct (R1 v G)].
      + intros v Hv. apply (entry_free _ _ _ _ _ _ _ _ H2) in Hv. destruct (R2 v Hv).
      + intros m. apply (entry_exact _ _ _ _ _ _ _ _ H2). apply R3.
      + destruct (oe_ecls SP e) as [|c cs] eqn:ec; [reflexivity|].
        pose proof (entry_ecls _ _ _ _ _ _ _ c H2) as G. rewrite ec, R4 in G. destruct (G (or_introl eq_refl)).
  Qed.

  (** Core boosting: the three outcomes *)
  Theorem core_boost_ok opts : n_solve_calls (s_stats s0) = 0 ->
    (cb_reset opts = true -> o_store_cnf o = true) ->
    wp (alg_core_boost T E opts) (fun r s' => if r then boosted s' /\ (safe opts -> kept opts s')
                                    else (forall a, ~ F a) /\ (kept opts s' \/ deadok)) (XC opts) s0.
  Proof.
    intros Hn Hst. unfold alg_core_boost. apply wp_bind, wp_gets. rewrite Hn. apply wp_bind, wp_ret.
    apply wp_bind. eapply wp_mono; [apply (kernel_ok opts)| |auto].
    intros [acc|] s1; [|intros H; apply wp_ret; exact H].
    intros [HC Hlen]. apply wp_bind, wp_check_termination; [apply HC| |intros x s' Hq Hx; eapply cb_xc; eauto].
    intros s2 Hq2 HL2. pose proof (cb_quiet _ _ _ Hq2 HL2 HC) as HC2.
    assert (Hcnf : cb_reset opts = true -> s_cnf s2 = Some (in_cls i)).
    { intros Hr. rewrite (fr_cnf _ _ (cb_fr _ _ HC2)), (rd_cnf _ HS), (Hst Hr). reflexivity. }
    assert (Hlene : length (p_encs (s_prob s2)) = length (p_objs (s_prob s2))).
    { apply (side_wf _ _ _ _ (cb_side _ _ HC2)). }
    assert (HM0 : forall s3 : st, s_prob s3 = (let p := s_prob s2 in
       if cb_reset opts then set_vm (vm_forget_from (p_vm p) (S (vm_max_enc (p_vm p)))) (set_cls (in_cls i) p)
       else p) -> MLw opts acc s3 0 s3).
    { intros s3 Hp3. assert (Hle : length (p_encs (s_prob s3)) = length (p_objs (s_prob s3))).
      { rewrite Hp3. destruct (cb_reset opts); exact Hlene. }
      split; [apply fr_refl|]. exists (p_encs (s_prob s3)). split; [now destruct (s_prob s3)|].
      split; [exact Hle|]. split; [auto|]. intros; lia. }
    apply wp_bind.
    apply wp_mono with (Q := fun _ s3 => lims_ok s3 /\ fr s2 s3 /\
      s_prob s3 = (let p := s_prob s2 in
       if cb_reset opts then set_vm (vm_forget_from (p_vm p) (S (vm_max_enc (p_vm p)))) (set_cls (in_cls i) p)
       else p)) (X := XC opts); [| |auto].
    - destruct (cb_reset opts) eqn:er.
      + apply wp_bind. unfold reset_oracle. apply wp_bind, wp_gets.
        rewrite (fr_opts _ _ (cb_fr _ _ HC2)), (sa_opts _ _ _ _ (rd_start _ HS)), (Hst eq_refl).
        apply wp_bind, wp_ret. apply wp_bind, wp_log_start; [exact HL2| |intros x s' Hq Hx; eapply cb_xc; eauto].
        intros s3 Hq3 HL3. apply wp_bind, wp_ret. apply wp_bind, wp_gets.
        rewrite (fr_cnf _ _ (qt_fr _ _ Hq3)), (Hcnf eq_refl). apply wp_bind. eapply wp_unwrap; [reflexivity|].
        apply wp_bind, wp_modify. apply wp_bind, wp_modify. set (s4 := set_prob _ _).
        assert (Hp4 : s_prob s4 = set_vm (vm_forget_from (p_vm (s_prob s2)) (S (vm_max_enc (p_vm (s_prob s2)))))
          (set_cls (in_cls i) (s_prob s2))).
        { cbn. rewrite (qt_prob _ _ Hq3). reflexivity. }
        assert (Hf4 : fr s2 s4).
        { eapply fr_trans; [apply Hq3|]. now constructor. }
        assert (HX4 : forall x (s' : st), quiet s4 s' -> good_exit x -> XC opts x s').
        { intros x s' Hq' Hx. left. split; [now left|]. intros Hs. eapply kept_quiet; [exact Hq'|].
          eapply (mixed_ok opts acc s2 s4 0 s4); try eassumption.
          - rewrite er. exact Hp4.
          - apply HM0. exact Hp4. }
        apply wp_log_end; [exact HL3| |exact HX4].
        intros s5 Hq5 HL5. apply wp_check_termination; [exact HL5| |].
        2:{ intros x s' Hq' Hx. apply HX4; [eapply quiet_trans; eauto|exact Hx]. }
        intros s6 Hq6 HL6. split; [exact HL6|]. split.
        * eapply fr_trans; [exact Hf4|]. eapply fr_trans; [apply Hq5|apply Hq6].
        * rewrite (qt_prob _ _ Hq6), (qt_prob _ _ Hq5). exact Hp4.
      + apply wp_ret. split; [exact HL2|]. split; [apply fr_refl|reflexivity].
    - intros _ s3 (HL3 & Hf3 & Hp3).
      apply wp_bind, wp_log_start; [exact HL3| |].
      2:{ intros x s' Hq' Hx. left. split; [now left|]. intros Hs. eapply kept_quiet; [exact Hq'|].
          eapply (mixed_ok opts acc s2 s3 0 s3); eauto. }
      intros s4 Hq4 HL4. apply wp_bind.
      assert (Hp4 := Hp3). rewrite <- (qt_prob _ _ Hq4) in Hp4.
      assert (Hf4 : fr s2 s4) by (eapply fr_trans; [exact Hf3|apply Hq4]).
      assert (Hobjs : p_objs (s_prob s4) = p_objs (s_prob s2)) by (rewrite Hp4; now destruct (cb_reset opts)).
      assert (Hencs : p_encs (s_prob s4) = p_encs (s_prob s2)) by (rewrite Hp4; now destruct (cb_reset opts)).
      eapply wp_mono; [apply (merge_loop_ok opts acc s4)| |].
      + rewrite Hobjs, Hlen. symmetry. apply sim_length, HC2.
      + rewrite Hobjs, Hencs. exact Hlene.
      + rewrite Hobjs. apply HC2.
      + rewrite Hobjs, Hencs. rewrite (cb_encs _ _ HC2). intros k ob Ho Hc.
        destruct (sim_nth _ _ _ _ (cb_objs _ _ HC2) Ho) as (ob' & Ho' & Hs').
        assert (Hs0 : sim bos (p_objs (s_prob s0))) by (symmetry; apply (sa_objs _ _ _ _ (rd_start _ HS))).
        destruct (sim_nth _ _ _ _ Hs0 Ho') as (ob2 & Ho2 & Hs2).
        apply (rd_const _ HS k ob2 Ho2). destruct (lb0_iter _ _ Hs') as [_ G1]. destruct (lb0_iter _ _ Hs2) as [_ G2]. congruence.
      + intros d v Hd Hv. rewrite <- (cb_me _ _ HC2). exact (sd_low _ _ _ _ (cb_side _ _ HC2) d v Hd Hv).
      + reflexivity.
      + lia.
      + split; [exact HL4|]. apply HM0. exact Hp4.
      + intros u s5 HM; cbv beta in HM. apply wp_bind, wp_log_end'.
        * intros s6 Hq6 HL6. apply wp_ret.
          assert (HM6 : MLw opts acc s4 (length acc) s6) by (eapply ml_quiet; [exact Hq6|apply HM]).
          split.
          -- eapply (merged_ok opts acc s2 s4 s6); eauto. split; [apply HL6, HM|exact HM6].
          -- intros Hs. eapply (mixed_ok opts acc s2 s4 (length acc) s6); eauto.
        * intros x s' Hq' Hx. left. split; [now left|]. intros Hs. eapply kept_quiet; [exact Hq'|].
          eapply (mixed_ok opts acc s2 s4 (length acc) s5); eauto. apply HM.
      + intros x s' (Hx & k' & _ & HM). left. split; [now left|]. intros Hs.
        eapply (mixed_ok opts acc s2 s4 k' s'); eauto.
  Qed.
End CbTop.
