(** * What is handed to MaxPre after core boosting is the instance of the user *)
From Coq Require Import List Bool Arith Lia ZArith.
From Verif Require Import Base BaseLemmas Spec MTypes MKernel MPMinimal MLowerBounding MBiOptSat
  EncSpec Wp Sem Kern Yield PMin PMinTop Init ApiSpec Ext Blk Api ApiTop MOll TotSpec
  OllSide OllData OllThm OllRun OllMain CbMerge CbTop CbSpec CbApi MPrepro PreSpec MMaxPre MaxPreSpec
  MInpro InproSpec PreProofThm PreproThm MaxPreThm.
Import ListNotations.

Lemma violated_app a x y : violated a (x ++ y) = violated a x + violated a y.
Proof. induction x as [|[c w] x IH]; [reflexivity|]. cbn [app violated]. rewrite IH. lia. Qed.
Lemma violated_unit a l w : violated a [([lnot l], w)] = w * (if lit_true a l then 1 else 0).
Proof.
  cbn [violated]. unfold clause_true. cbn [existsb]. rewrite lit_true_lnot, orb_false_r.
  destruct (lit_true a l); cbn [negb]; lia.
Qed.

Lemma nth_mid {A} (l1 : list A) x y l2 k z : nth_error (l1 ++ x :: l2) k = Some z ->
  (k = length l1 /\ z = x) \/ (k <> length l1 /\ nth_error (l1 ++ y :: l2) k = Some z).
Proof.
  intros H. destruct (lt_eq_lt_dec k (length l1)) as [[Hk|Hk]|Hk].
  - right. split; [lia|]. rewrite nth_error_app1 in * by lia. exact H.
  - left. split; [exact Hk|]. subst k. rewrite nth_error_app2, Nat.sub_diag in H by lia. cbn in H. congruence.
  - right. split; [lia|]. rewrite nth_error_app2 in * by lia.
    destruct (k - length l1) as [|j] eqn:e; [lia|exact H].
Qed.

Section Hand.
  Context {I : enc_impl} {SP : enc_spec I} {T : tot_impl I} (TS : tot_spec SP T).
  Notation db := (ti_db T).
  Notation aux := (tb_aux SP T TS).
  Notation free := (tb_free SP T TS).
  Notation leafv := (tb_leafv SP T TS).
  Notation exact_ := (tb_exact SP T TS).
  Variable F : asg -> Prop.
  Variable me : nat.

  (** Clauses, next variable and databases *)
  Record Hand (cnf : list clause) (n : nat) (ds : list db) : Prop := mkHand {
    h_me : me < n;
    h_vars : forall v, In v (cls_vars cnf) -> v < n;
    h_leaf : forall d v, In d ds -> leafv d v -> v <= me;
    h_aux : forall d v, In d ds -> aux d v -> v < n /\ me < v;
    h_free : forall d v, In d ds -> free d v -> v < n /\ me < v /\ ~ In v (cls_vars cnf) /\
      (forall d', In d' ds -> ~ aux d' v);
    h_disj : forall j k d1 d2 v, nth_error ds j = Some d1 -> nth_error ds k = Some d2 -> j <> k ->
      free d1 v -> free d2 v -> False;
    h_cls : forall d c, In d ds -> In c (tb_cls SP T TS d) -> In c cnf;
    h_sound : forall m, sat m cnf -> F m;
    h_comp : forall a, F a -> exists m, agree (fun v => v <= me) a m /\ sat m cnf /\
      (forall d, In d ds -> exact_ d m) }.

  Lemma hand_define cnf n ds1 d ds2 id k d' l cl n' : Hand cnf n (ds1 ++ d :: ds2) ->
    ti_define T d id k n = (d', l, cl, n') -> tb_int SP T TS d id -> k < tb_max SP T TS d id ->
    Hand (cnf ++ cl) n' (ds1 ++ d' :: ds2).
  Proof.
    intros [H1 H2 H3 H4 H5 H6 H7 H8 H9] Hdef Hint Hk.
    destruct (tb_define_ok SP T TS _ _ _ _ _ _ _ _ Hdef Hint Hk)
      as (Hn & Hxt & Hlf & _ & _ & Hau & Hmo & Hfr & Hvs & Hcl & Hex).
    assert (Hin : In d (ds1 ++ d :: ds2)) by (apply in_or_app; right; now left).
    assert (Hother : forall x, In x (ds1 ++ d' :: ds2) -> x = d' \/ In x (ds1 ++ d :: ds2)).
    { intros x Hx. apply in_app_or in Hx. destruct Hx as [Hx|[<-|Hx]]; [right|now left|right]; apply in_or_app; [now left|right; now right]. }
    assert (Hap : forall v, aux d' v -> v < n' /\ me < v).
    { intros v Hv. apply Hau in Hv. destruct Hv as [Hv|[Hv|Hv]].
      - destruct (H4 d v Hin Hv). lia.
      - destruct (H5 d v Hin Hv) as (? & ? & _). lia.
      - lia. }
    assert (Hcv : forall v, In v (cls_vars (cnf ++ cl)) -> In v (cls_vars cnf) \/ v <= me \/ aux d' v).
    { intros v Hv. rewrite cls_vars_app in Hv. apply in_app_or in Hv. destruct Hv as [Hv|Hv]; [now left|right].
      destruct (Hvs v Hv) as [Hv'|Hv']; [left|now right]. apply (H3 d v Hin). now apply Hlf. }
    constructor.
    - lia.
    - intros v Hv. destruct (Hcv v Hv) as [G|[G|G]]; [apply H2 in G; lia|lia|now apply Hap].
    - intros x v Hx Hv. destruct (Hother x Hx) as [->|Hx']; [|eauto]. apply (H3 d v Hin). now apply Hlf.
    - intros x v Hx Hv. destruct (Hother x Hx) as [->|Hx']; [now apply Hap|]. destruct (H4 x v Hx' Hv). lia.
    - assert (G : forall x v, In x (ds1 ++ d :: ds2) -> free x v -> ~ aux d' v ->
        v < n' /\ me < v /\ ~ In v (cls_vars (cnf ++ cl)) /\ (forall y, In y (ds1 ++ d' :: ds2) -> ~ aux y v)).
      { intros x v Hx Hf Hna. destruct (H5 x v Hx Hf) as (G1 & G2 & G3 & G4).
        split; [lia|]. split; [exact G2|]. split.
        - intros Hv. destruct (Hcv v Hv) as [K|[K|K]]; [exact (G3 K)|lia|exact (Hna K)].
        - intros y Hy. destruct (Hother y Hy) as [->|Hy']; [exact Hna|now apply G4]. }
      intros x v Hx Hf. apply in_app_or in Hx.
      assert (Hsub : x = d' \/ exists j, j <> length ds1 /\ nth_error (ds1 ++ d :: ds2) j = Some x).
      { destruct Hx as [Hx|[<-|Hx]]; [|now left|].
        - right. apply In_nth_error in Hx. destruct Hx as [j Hj]. exists j.
          assert (j < length ds1) by (apply nth_error_Some; congruence). split; [lia|]. now rewrite nth_error_app1.
        - right. apply In_nth_error in Hx. destruct Hx as [j Hj]. exists (S (length ds1 + j)). split; [lia|].
          rewrite nth_error_app2 by lia. now replace (S (length ds1 + j) - length ds1) with (S j) by lia. }
      destruct Hsub as [->|(j & Hj & Hx')].
      + destruct (Hfr v Hf) as [K1 K2]. now apply (G d v Hin K1).
      + apply (G x v); [eapply nth_error_In; eauto|exact Hf|]. intros K. apply Hau in K. destruct K as [K|[K|K]].
        * destruct (H5 x v (nth_error_In _ _ Hx') Hf) as (_ & _ & _ & K4). exact (K4 d Hin K).
        * eapply (H6 j (length ds1)); [exact Hx'| |exact Hj|exact Hf|exact K].
          rewrite nth_error_app2, Nat.sub_diag by lia. reflexivity.
        * destruct (H5 x v (nth_error_In _ _ Hx') Hf). lia.
    - assert (L : nth_error (ds1 ++ d :: ds2) (length ds1) = Some d)
        by (rewrite nth_error_app2, Nat.sub_diag by lia; reflexivity).
      intros j q d1 d2 v G1 G2 Hjq F1 F2. apply (nth_mid _ _ d) in G1. apply (nth_mid _ _ d) in G2.
      destruct G1 as [[-> ->]|[K1 G1]], G2 as [[-> ->]|[K2 G2]]; [lia| | |eauto].
      + apply Hfr in F1. destruct F1 as [F1 _]. eapply (H6 (length ds1) q); eauto.
      + apply Hfr in F2. destruct F2 as [F2 _]. eapply (H6 j (length ds1)); eauto.
    - intros x c Hx Hc. apply in_or_app. destruct (Hother x Hx) as [->|Hx']; [|left; eauto].
      apply Hcl in Hc. destruct Hc as [Hc|Hc]; [left; eauto|now right].
    - intros m Hm. apply H8. now apply sat_app in Hm.
    - intros a Ha. destruct (H9 a Ha) as (m & A1 & A2 & A3).
      destruct (tb_define_ext SP T TS _ _ _ _ _ _ _ _ m Hdef Hint Hk) as (m' & G1 & G2 & G3).
      + intros v [Hv|Hv]; [apply (H3 d v Hin) in Hv; lia|now apply (H4 d v Hin)].
      + intros v Hv. now apply (H5 d v Hin).
      + intros v Hv. destruct (H5 d v Hin Hv) as (K1 & K2 & K3 & K4). intros [K|K]; [apply (H3 d v Hin) in K; lia|exact (K4 d Hin K)].
      + apply A3, Hin.
      + exists m'. split; [|split].
        * eapply agree_trans; [exact A1|]. eapply agree_mono; [|exact G1]. intros v Hv. cbv beta in Hv. split; [lia|].
          intros K. destruct (H5 d v Hin K). lia.
        * apply sat_app. split; [|exact G3]. eapply sat_agree; [exact G1| |exact A2].
          intros v Hv. split; [now apply H2|]. intros K. destruct (H5 d v Hin K) as (_ & _ & K3 & _). exact (K3 Hv).
        * intros x Hx. destruct (Hother x Hx) as [->|Hx']; [exact G2|].
          eapply tb_exact_dep; [|apply A3, Hx']. eapply agree_mono; [|exact G1].
          intros v [Hv|Hv].
          -- apply (H3 x v Hx') in Hv. split; [lia|]. intros K. destruct (H5 d v Hin K). lia.
          -- split; [now apply (H4 x v Hx')|]. intros K. destruct (H5 d v Hin K) as (_ & _ & _ & K4). exact (K4 x Hx' Hv).
  Qed.

  Section Obj.
    Variables (ds1 ds2 : list db) (d0 : db) (cnf0 : list clause).
    Notation gv := (gv TS).
    Notation kvo := (kvo TS).

    (** The soft clauses [softs] are worth [X m] *)
    Definition OI (X : asg -> nat) (x : ip_state T) : Prop :=
      let '(d, cnf, nx, _, softs) := x in
      Hand cnf nx (ds1 ++ d :: ds2) /\ tb_ext SP T TS d0 d /\ incl cnf0 cnf /\
      (forall m, exact_ d m -> violated m softs = X m) /\
      (forall m, sat m cnf -> X m <= violated m softs) /\
      (forall cw, In cw softs -> exists l, fst cw = [l]).

    Definition outval (root oidx tw w idx : nat) (m : asg) : nat :=
      (if idx =? oidx then w else tw) * (if idx <? tb_val SP T TS d0 root m then 1 else 0).

    Lemma output_ok X x root oidx tw w idx : OI X x ->
      tb_int SP T TS d0 root -> idx < tb_max SP T TS d0 root ->
      OI (fun m => X m + outval root oidx tw w idx m) (ip_output T root oidx tw w x idx).
    Proof.
      destruct x as [[[[d cnf] nx] outs] softs]. intros (H1 & H2 & H3 & H4 & H5 & H6) Hint Hidx. unfold ip_output.
      destruct (ti_define T d root idx nx) as [[[d' l] cl] nx'] eqn:ed.
      destruct (H2 root (tb_int_node SP T TS _ _ Hint)) as (E1 & E2 & E3 & E4 & E5 & E6).
      specialize (E6 Hint). rewrite <- E3 in Hidx.
      destruct (tb_define_ok SP T TS _ _ _ _ _ _ _ _ ed E6 Hidx)
        as (Hn & Hxt & Hlf & Hout & Hpres & Hau & Hmo & Hfr & Hvs & Hcl & Hex).
      pose proof (hand_define _ _ _ _ _ _ _ _ _ _ _ H1 ed E6 Hidx) as HH.
      assert (Hin : In d' (ds1 ++ d' :: ds2)) by (apply in_or_app; right; now left).
      assert (Hx : tb_ext SP T TS d0 d') by (eapply ext_trans_db; eauto).
      destruct (Hxt root E1) as (_ & V & _).
      assert (G : forall wt, wt = (if idx =? oidx then w else tw) -> forall outs',
        OI (fun m => X m + outval root oidx tw w idx m) (d', cnf ++ cl, nx', outs', softs ++ [([lnot l], wt)])).
      { intros wt -> outs'. split; [exact HH|]. split; [exact Hx|].
        split; [intros c Hc; apply in_or_app; left; auto|]. split; [|split].
        - intros m Hm. rewrite violated_app, violated_unit, (H4 m (Hex m Hm)). f_equal. unfold outval. f_equal.
          rewrite (tb_out_exact SP T TS _ _ _ _ _ Hout Hm), V, E2. reflexivity.
        - intros m Hm. rewrite violated_app, violated_unit.
          assert (Hm' : sat m cnf) by (now apply sat_app in Hm).
          specialize (H5 m Hm'). apply Nat.add_le_mono; [exact H5|]. unfold outval. apply Nat.mul_le_mono_l.
          destruct (idx <? tb_val SP T TS d0 root m) eqn:ev; [|lia]. apply Nat.ltb_lt in ev.
          rewrite (tb_out_sound SP T TS _ _ _ _ m Hout); [lia| |now rewrite V, E2].
          intros c Hc. apply Hm. eapply h_cls; [exact HH|exact Hin|exact Hc].
        - intros cw Hcw. apply in_app_or in Hcw. destruct Hcw as [Hcw|[<-|[]]]; [eauto|]. now exists (lnot l). }
      destruct (idx =? oidx) eqn:ei; apply G; reflexivity.
    Qed.

    Lemma outputs_ok root oidx tw w : tb_int SP T TS d0 root -> forall js X x, OI X x ->
      (forall j, In j js -> j < tb_max SP T TS d0 root) ->
      OI (fun m => X m + list_sum (map (fun j => outval root oidx tw w j m) js)) (fold_left (ip_output T root oidx tw w) js x).
    Proof.
      intros Hint. induction js as [|j js IH]; intros X x HX Hj; cbn [fold_left map list_sum fold_right].
      - destruct x as [[[[d cnf] nx] outs] softs]. destruct HX as (H1 & H2 & H3 & H4 & H5 & H6).
        split; [exact H1|]. split; [exact H2|]. split; [exact H3|].
        split; [intros m Hm; rewrite H4 by assumption; lia|]. split; [intros m Hm; specialize (H5 m Hm); lia|exact H6].
      - assert (HO : OI (fun m => X m + outval root oidx tw w j m) (ip_output T root oidx tw w x j)).
        { apply output_ok; [exact HX|exact Hint|]. apply Hj. now left. }
        specialize (IH _ _ HO (fun k Hk => Hj k (or_intror Hk))). cbv beta in IH.
        destruct (fold_left _ js _) as [[[[d cnf] nx] outs] softs]. destruct IH as (H1 & H2 & H3 & H4 & H5 & H6).
        split; [exact H1|]. split; [exact H2|]. split; [exact H3|].
        split; [intros m Hm; rewrite H4 by assumption; unfold list_sum; lia|]. split; [|exact H6].
        intros m Hm; specialize (H5 m Hm); unfold list_sum in *; lia.
    Qed.

    Lemma seq_val root oidx tw w m : forall n k, oidx < k -> tb_val SP T TS d0 root m <= k + n ->
      list_sum (map (fun j => outval root oidx tw w j m) (seq k n)) = tw * (tb_val SP T TS d0 root m - k).
    Proof.
      induction n as [|n IH]; intros k Hk H; cbn [seq map].
      - cbn. replace (tb_val SP T TS d0 root m - k) with 0 by lia. lia.
      - rewrite ls_cons, IH by lia. unfold outval. rewrite (proj2 (Nat.eqb_neq k oidx)) by lia.
        destruct (k <? tb_val SP T TS d0 root m) eqn:e.
        + apply Nat.ltb_lt in e. replace (tb_val SP T TS d0 root m - k) with (1 + (tb_val SP T TS d0 root m - S k)) by lia. ring.
        + apply Nat.ltb_ge in e. replace (tb_val SP T TS d0 root m - k) with 0 by lia.
          replace (tb_val SP T TS d0 root m - S k) with 0 by lia. lia.
    Qed.

    Variables (ob : objective) (rf : reform).
    Hypothesis HF : Fin TS F ob me rf d0.
    Notation refs := (rf_refs rf).

    Definition litval (lw : lit * nat) (m : asg) : nat :=
      snd lw * kvo d0 (Some m) refs (fst lw) + oterm (gv d0 (Some m)) refs (fst lw).

    Lemma lit_ok X x l w : In (l, w) (in_iter (rf_inact rf)) -> OI X x ->
      OI (fun m => X m + litval (l, w) m) (ip_lit T refs x (l, w)).
    Proof.
      intros Hin HX. unfold ip_lit. destruct (hm_get l refs) as [[root oidx tw]|] eqn:eg.
      - pose proof (hm_get_in _ _ _ eg) as Hr. destruct (fi_ref _ _ _ _ _ _ HF _ _ Hr) as (A1 & A2 & A3 & A4).
        cbn [rd_root rd_oidx rd_weight] in *.
        destruct x as [[[[d cnf] nx] outs] softs].
        assert (Hlen : ti_len T d root = tb_max SP T TS d0 root).
        { destruct HX as (_ & Hx & _). destruct (Hx root (tb_int_node SP T TS _ _ A1)) as (_ & _ & _ & _ & E5 & _).
          rewrite E5. apply (tb_int_len SP T TS _ _ A1). }
        rewrite Hlen.
        pose proof (outputs_ok root oidx tw w A1 (seq oidx (tb_max SP T TS d0 root - oidx)) X _ HX) as G.
        assert (Hj : forall j, In j (seq oidx (tb_max SP T TS d0 root - oidx)) -> j < tb_max SP T TS d0 root).
        { intros j Hj. apply in_seq in Hj. lia. }
        specialize (G Hj).
        assert (V : forall m, list_sum (map (fun j => outval root oidx tw w j m) (seq oidx (tb_max SP T TS d0 root - oidx)))
          = litval (l, w) m).
        { intros m. pose proof (tb_val_max SP T TS d0 root m (tb_int_node SP T TS _ _ A1)) as Hm.
          replace (tb_max SP T TS d0 root - oidx) with (S (tb_max SP T TS d0 root - S oidx)) by lia.
          cbn [seq map]. rewrite ls_cons, seq_val by lia.
          unfold litval, OllThm.kvo, kv, oterm, rterm. cbn [fst snd]. rewrite eg. cbn [rd_root rd_oidx rd_weight OllThm.gv].
          unfold outval. rewrite Nat.eqb_refl. replace (oidx + 1) with (S oidx) by lia. reflexivity. }
        destruct (fold_left _ (seq _ _) _) as [[[[d2 cnf2] nx2] outs2] softs2].
        destruct G as (H1 & H2 & H3 & H4 & H5 & H6).
        split; [exact H1|]. split; [exact H2|]. split; [exact H3|].
        split; [intros m Hm; rewrite <- V; now apply H4|]. split; [|exact H6].
        intros m Hm. rewrite <- V. now apply H5.
      - destruct x as [[[[d cnf] nx] outs] softs]. destruct HX as (H1 & H2 & H3 & H4 & H5 & H6).
        assert (V : forall m, violated m [([lnot l], w)] = litval (l, w) m).
        { intros m. rewrite violated_unit. unfold litval, OllThm.kvo, kv, oterm. cbn [fst snd]. rewrite eg.
          cbn [OllThm.bv]. lia. }
        split; [exact H1|]. split; [exact H2|]. split; [exact H3|].
        split; [intros m Hm; rewrite violated_app, V, H4 by assumption; reflexivity|]. split.
        + intros m Hm. rewrite violated_app, V. specialize (H5 m Hm). lia.
        + intros cw Hcw. apply in_app_or in Hcw. destruct Hcw as [Hcw|[<-|[]]]; [eauto|]. now exists (lnot l).
    Qed.

    Lemma lits_ok : forall ls X x, (forall lw, In lw ls -> In lw (in_iter (rf_inact rf))) -> OI X x ->
      OI (fun m => X m + list_sum (map (fun lw => litval lw m) ls)) (fold_left (ip_lit T refs) ls x).
    Proof.
      induction ls as [|[l w] ls IH]; intros X x Hl HX; cbn [fold_left map].
      - destruct x as [[[[d cnf] nx] outs] softs]. destruct HX as (H1 & H2 & H3 & H4 & H5 & H6).
        split; [exact H1|]. split; [exact H2|]. split; [exact H3|]. cbn [list_sum fold_right].
        split; [intros m Hm; rewrite H4 by assumption; lia|]. split; [intros m Hm; specialize (H5 m Hm); lia|exact H6].
      - assert (HO : OI (fun m => X m + litval (l, w) m) (ip_lit T refs x (l, w))).
        { apply lit_ok; [|exact HX]. apply Hl. now left. }
        specialize (IH _ _ (fun k Hk => Hl k (or_intror Hk)) HO). cbv beta in IH.
        destruct (fold_left _ ls _) as [[[[d cnf] nx] outs] softs]. destruct IH as (H1 & H2 & H3 & H4 & H5 & H6).
        split; [exact H1|]. split; [exact H2|]. split; [exact H3|].
        split; [intros m Hm; rewrite ls_cons, H4 by assumption; lia|]. split; [|exact H6].
        intros m Hm; specialize (H5 m Hm); rewrite ls_cons; lia.
    Qed.

    Lemma litvals m : F m -> rf_offset rf + list_sum (map (fun lw => litval lw m) (in_iter (rf_inact rf))) = icost ob m.
    Proof.
      intros Hm. pose proof (fi_id _ _ _ _ _ _ HF (Some m) Hm) as G. cbn [OllThm.tg] in G. rewrite G.
      rewrite <- (osum_rsum _ _ _ (fi_nodup _ _ _ _ _ _ HF) (fi_rnodup _ _ _ _ _ _ HF)).
      2:{ intros l rd Hin. now apply (fi_ref _ _ _ _ _ _ HF _ _ Hin). }
      rewrite <- Nat.add_assoc. f_equal. unfold wk, osum, litval. generalize (in_iter (rf_inact rf)) as ls.
      induction ls as [|[l w] ls IH]; [reflexivity|]. cbn [map fst snd]. rewrite !ls_cons, IH. lia.
    Qed.
  End Obj.

  (** *** One objective *)
  Variable re : db -> db.
  Hypothesis HR : reset_enc_ok TS re.
  Definition fok (ob : objective) (rf : reform) (d : db) : Prop :=
    if obj_is_constant ob then rf_offset rf = 0 /\ d = ti_new T /\ rf_inact rf = IConstant else Fin TS F ob me rf d.

  (** What the soft clauses of an objective are worth *)
  Definition worth (cls : list clause) (ds : list db) (ob : objective) (x : (reform * db) * soft_obj) : Prop :=
    let '((rf, _), (softs, z)) := x in z = 0%Z /\
    (forall cw, In cw softs -> exists l, fst cw = [l]) /\
    (forall m, sat m cls -> icost ob m <= rf_offset rf + violated m softs) /\
    (forall m, F m -> (forall d, In d ds -> exact_ d m) -> icost ob m = rf_offset rf + violated m softs).
  Lemma worth_mono cls cls' ds ds' ob x : incl cls cls' -> incl ds ds' -> worth cls ds ob x -> worth cls' ds' ob x.
  Proof.
    intros H1 H2. destruct x as [[rf d] [softs z]]. intros (G1 & G2 & G3 & G4).
    split; [exact G1|]. split; [exact G2|]. split.
    - intros m Hm. apply G3. intros c Hc. apply Hm, H1, Hc.
    - intros m Hm Hd. apply G4; auto.
  Qed.

  Lemma ipobj_ok ds1 ds2 ob rf d cnf nx : fok ob rf d -> Hand cnf nx (ds1 ++ re d :: ds2) ->
    let '(d', cnf', nx', _, softs) := ip_obj T re rf d cnf nx in
    Hand cnf' nx' (ds1 ++ d' :: ds2) /\ incl cnf cnf' /\ worth cnf' [d'] ob ((rf, d), (softs, 0%Z)).
  Proof.
    intros Hf HH. unfold ip_obj. unfold fok in Hf. destruct (obj_is_constant ob) eqn:ec.
    - destruct Hf as (Ho & _ & ->). cbn [in_iter fold_left]. split; [exact HH|]. split; [apply incl_refl|].
      split; [reflexivity|]. split; [intros cw []|]. rewrite Ho. cbn [violated].
      split; intros; rewrite (const_icost ob) by assumption; lia.
    - destruct (HR d) as (Hx & _). pose proof (fin_ext TS F ob me rf d (re d) Hx Hf) as HF.
      assert (H0 : OI ds1 ds2 (re d) cnf (fun _ => 0) (re d, cnf, nx, rf_refs rf, [])).
      { split; [exact HH|]. split; [intros id Hn; repeat split; auto|]. split; [apply incl_refl|].
        split; [reflexivity|]. split; [intros; lia|intros cw []]. }
      pose proof (lits_ok ds1 ds2 (re d) cnf ob rf HF (in_iter (rf_inact rf)) _ _ (fun lw H => H) H0) as G.
      destruct (fold_left _ _ _) as [[[[d' cnf'] nx'] outs] softs]. destruct G as (H1 & H2 & H3 & H4 & H5 & H6).
      split; [exact H1|]. split; [exact H3|]. split; [reflexivity|]. split; [exact H6|].
      split.
      + intros m Hm. rewrite <- (litvals (re d) ob rf HF m (h_sound _ _ _ H1 m Hm)). specialize (H5 m Hm). cbn in H5. lia.
      + intros m Hm Hd. rewrite <- (litvals (re d) ob rf HF m Hm). rewrite H4; [reflexivity|]. apply Hd. now left.
  Qed.

  Lemma collect_ok : forall rs obs ds1 cnf nx, Forall2 (fun ob x => fok ob (fst x) (snd x)) obs rs ->
    Hand cnf nx (ds1 ++ map (fun x => re (snd x)) rs) ->
    let '(cls, nx', os, _) := ip_collect T re rs cnf nx in
    exists ds', Hand cls nx' (ds1 ++ ds') /\ incl cnf cls /\ length os = length rs /\
      Forall2 (worth cls ds') obs (combine rs os).
  Proof.
    induction rs as [|[rf d] rs IH]; intros obs ds1 cnf nx Hobs HH; cbn [ip_collect].
    - inversion Hobs; subst. exists []. split; [exact HH|]. split; [apply incl_refl|]. split; [reflexivity|constructor].
    - inversion Hobs as [|ob x obs' rs' Hf Hobs']; subst. cbn [fst snd map] in *.
      pose proof (ipobj_ok ds1 _ ob rf d cnf nx Hf HH) as G.
      destruct (ip_obj T re rf d cnf nx) as [[[[d' cnf'] nx'] outs] softs]. destruct G as (G1 & G2 & G3).
      specialize (IH obs' (ds1 ++ [d']) cnf' nx' Hobs'). rewrite <- app_assoc in IH. specialize (IH G1).
      destruct (ip_collect T re rs cnf' nx') as [[[cls nx2] os] kept]. destruct IH as (ds' & K1 & K2 & K3 & K4).
      exists (d' :: ds'). rewrite <- app_assoc in K1. split; [exact K1|]. split; [eapply incl_tran; eauto|].
      split; [cbn; lia|]. cbn [combine]. constructor.
      + eapply worth_mono; [exact K2| |exact G3]. intros x [<-|[]]. now left.
      + clear - K4. induction K4 as [|a b la lb H K4 IH]; constructor; [|exact IH]. revert H.
        apply worth_mono; [apply incl_refl|]. intros x Hx. now right.
  Qed.
End Hand.

Lemma obj_unit r k : obj_ok r -> factor (obj_new (fst r) (snd r) k) = unit_of r.
Proof.
  destruct r as [[|[l w] ls] off]; [reflexivity|]. intros _. unfold unit_of, obj_new. cbn [fst snd].
  cbn [existsb]. rewrite Nat.eqb_refl. cbn [negb orb].
  assert (G : existsb (fun lw : lit * nat => negb (snd lw =? w)) ls = negb (forallb (fun lw => snd lw =? w) ls)).
  { clear. induction ls as [|x ls IH]; [reflexivity|]. cbn [existsb forallb]. rewrite IH, negb_andb. reflexivity. }
  cbn [snd]. rewrite G. destruct (forallb _ ls); reflexivity.
Qed.

Definition ival (ob : objective) (x : (reform * soft_obj)) (R : nat -> nat -> Prop) (m : asg) : Prop :=
  snd (snd x) = 0%Z /\ R (icost ob m) (rf_offset (fst x) + violated m (fst (snd x))).
Lemma user_rel (R : nat -> nat -> Prop) (Q : Z -> Z -> Prop) m :
  (forall a b u z, 0 < u -> R a b -> Q (z + Z.of_nat u * Z.of_nat a)%Z (z + Z.of_nat u * Z.of_nat b)%Z) ->
  forall ros k obs (rs : list reform) os, Forall obj_ok ros -> sim obs (build_objs k ros) -> length os = length rs ->
  Forall2 (fun ob x => ival ob x R m) obs (combine rs os) ->
  Forall2 Q (costs ros m) (in_user ros (map rf_offset rs) (soft_costs os m)).
Proof.
  intros HQ. induction ros as [|r ros IH]; intros k obs rs os Hok Hsim Hlen H2.
  - constructor.
  - inversion Hok as [|? ? O1 O2]; subst. destruct obs as [|ob obs]; [discriminate|]. unfold sim in Hsim. cbn [build_objs map] in Hsim.
    injection Hsim as S1 S2. destruct rs as [|rf rs]; [inversion H2|]. destruct os as [|[softs z] os]; [discriminate|].
    cbn [combine] in H2. inversion H2 as [|? ? ? ? V1 V2]; subst. unfold costs, in_user, soft_costs. cbn [map combine].
    constructor.
    + destruct V1 as [V0 V1]. cbn [fst snd] in V0, V1. subst z. unfold soft_cost. cbn [fst snd].
      destruct (icost_value r k m O1) as (Hi & Hf & _). rewrite (obj_unit r k O1) in Hi, Hf.
      assert (Hc : icost ob m = icost (obj_new (fst r) (snd r) k) m).
      { unfold icost. destruct (lb0_iter _ _ S1) as [-> _]. reflexivity. }
      rewrite <- Hc in Hi. replace (obj_value r m) with (snd r + Z.of_nat (unit_of r) * Z.of_nat (icost ob m))%Z by lia.
      replace (Z.of_nat (rf_offset rf) + (0 + Z.of_nat (violated m softs)))%Z
        with (Z.of_nat (rf_offset rf + violated m softs)) by lia.
      now apply HQ.
    + apply (IH (S k) obs rs os O2 S2); [cbn in Hlen; lia|exact V2].
Qed.
Lemma combine_fst {A B C} (x : list (A * B)) : forall y : list C,
  combine (map fst x) y = map (fun p => (fst (fst p), snd p)) (combine x y).
Proof. induction x as [|[a b] x IH]; intros [|c y]; cbn; congruence. Qed.
Lemma forall2_map_r {A B C} (R : A -> C -> Prop) (f : B -> C) xs ys :
  Forall2 (fun a b => R a (f b)) xs ys -> Forall2 R xs (map f ys).
Proof. induction 1; cbn; constructor; auto. Qed.
Lemma forall2_impl {A B} (R Q : A -> B -> Prop) xs ys :
  (forall a b, R a b -> Q a b) -> Forall2 R xs ys -> Forall2 Q xs ys.
Proof. intros H. induction 1; constructor; auto. Qed.
Lemma forall2_eq {A} (xs ys : list A) : Forall2 eq xs ys -> xs = ys.
Proof. induction 1; congruence. Qed.
Lemma forall2_of_nth {A B} (R : A -> B -> Prop) : forall xs ys, length xs = length ys ->
  (forall k a b, nth_error xs k = Some a -> nth_error ys k = Some b -> R a b) -> Forall2 R xs ys.
Proof.
  induction xs as [|x xs IH]; intros [|y ys] Hl H; try discriminate; constructor.
  - exact (H 0 x y eq_refl eq_refl).
  - apply IH; [cbn in Hl; lia|]. intros k a b. exact (H (S k) a b).
Qed.

Lemma unit_pos r : obj_ok r -> 0 < unit_of r.
Proof. intros H. rewrite <- (obj_unit r 0 H). exact (proj1 (proj2 (icost_value r 0 (fun _ => false) H))). Qed.
Lemma in_user_cons r ros o offs z c :
  in_user (r :: ros) (o :: offs) (z :: c) = (snd r + Z.of_nat (unit_of r) * (Z.of_nat o + z))%Z :: in_user ros offs c.
Proof. reflexivity. Qed.
Lemma in_user_le : forall ros offs x y, Forall obj_ok ros -> length offs = length ros ->
  length x = length ros -> length y = length ros ->
  (weakly_dominates (in_user ros offs x) (in_user ros offs y) <-> weakly_dominates x y).
Proof.
  induction ros as [|r ros IH]; intros [|o offs] [|z x] [|w y] Hok H1 H2 H3; try discriminate.
  - split; intros; constructor.
  - inversion Hok as [|? ? O1 O2]; subst. rewrite !in_user_cons. pose proof (unit_pos r O1) as Hp.
    specialize (IH offs x y O2 ltac:(cbn in *; lia) ltac:(cbn in *; lia) ltac:(cbn in *; lia)).
    split; intros H; inversion H as [|? ? ? ? G1 G2]; subst; constructor; try (now apply IH); nia.
Qed.
Lemma in_user_dom ros offs x y : Forall obj_ok ros -> length offs = length ros ->
  length x = length ros -> length y = length ros ->
  (dominates (in_user ros offs x) (in_user ros offs y) <-> dominates x y).
Proof.
  intros Hok H1 H2 H3. unfold dominates. rewrite in_user_le by assumption. split; intros [G1 G2]; (split; [exact G1|]).
  - intros ->. now apply G2.
  - intros He. apply G2. apply wd_antisym; [exact G1|].
    apply (in_user_le ros offs); try assumption. rewrite He. apply wd_refl.
Qed.

Section Top.
  Context {I : enc_impl} {SP : enc_spec I} {T : tot_impl I} (TS : tot_spec SP T).
  Notation st := (st I).
  Notation db := (ti_db T).
  Variable E : environ.
  Hypothesis HO : oracle_ok E.
  Hypothesis HN : core_nodup E.
  Variable re : db -> db.
  Hypothesis HR : reset_enc_ok TS re.
  Variables (i : inst) (o : kopts) (al : alg) (s : st).
  Hypothesis HI : inst_ok i.
  Hypothesis HD : lits_distinct i.
  Hypothesis HS : alg_new al i o = Some s.
  Variables (cls : list clause) (os : list soft_obj) (offs : list nat).
  Hypothesis HH : handed T E re s = Some (cls, os, offs).
  Notation me := (vm_max_enc (in_vm i)).

  (** The clauses of the user with the databases of core boosting, before anything is built again *)
  Lemma cb_hand s0 rs s1 : CB TS i s0 rs s1 ->
    Hand TS (Feas i) me (in_cls i) (vm_next (p_vm (s_prob s1))) ([] ++ map (fun x => re (snd x)) rs).
  Proof.
    intros HC.
    pose proof (cb_side _ _ _ _ _ HC) as HSd. pose proof (side_base _ _ _ _ HSd) as HB.
    pose proof (cb_me _ _ _ _ _ HC) as Hme.
    assert (Hd : forall d, In d (map (fun x : reform * db => re (snd x)) rs) -> exists d0, In d0 (map snd rs) /\ d = re d0).
    { intros d Hd. apply in_map_iff in Hd. destruct Hd as (x & <- & Hx). exists (snd x). split; [|reflexivity].
      apply in_map_iff. eauto. }
    destruct HB as [B1 B2 B3 B4 B5 B6 B7 B8 B9 B10 B11]. unfold low in *. rewrite Hme in *. cbn [app]. constructor.
    - exact B2.
    - intros v Hv. apply (io_cls _ HI) in Hv. lia.
    - intros d v Hin Hv. destruct (Hd d Hin) as (d0 & G & ->). destruct (HR d0) as (_ & R1 & _). apply R1 in Hv.
      pose proof (sd_low _ _ _ _ HSd d0 v G Hv) as K. unfold low in K. lia.
    - intros d v Hin Hv. destruct (Hd d Hin) as (d0 & G & ->). destruct (HR d0) as (_ & _ & R1 & _). apply R1 in Hv.
      destruct (B4 d0 v G Hv). lia.
    - intros d v Hin Hv. destruct (Hd d Hin) as (d0 & G & ->). destruct (HR d0) as (_ & _ & _ & R1 & _). apply R1 in Hv.
      destruct (B5 d0 v G Hv) as (K1 & K2 & K3 & K4). split; [exact K1|]. split; [lia|]. split.
      + intros Hc. apply (io_cls _ HI) in Hc. lia.
      + intros d' Hd'. destruct (Hd d' Hd') as (d1 & G' & ->). destruct (HR d1) as (_ & _ & R2 & _).
        intros Ha. apply R2 in Ha. exact (K4 d1 G' Ha).
    - intros j k d1 d2 v G1 G2 Hjk F1 F2. rewrite nth_error_map in G1, G2.
      destruct (nth_error rs j) as [x1|] eqn:e1; [|discriminate]. destruct (nth_error rs k) as [x2|] eqn:e2; [|discriminate].
      cbn [option_map] in G1, G2. injection G1 as <-. injection G2 as <-.
      destruct (HR (snd x1)) as (_ & _ & _ & R1 & _). destruct (HR (snd x2)) as (_ & _ & _ & R2 & _).
      eapply (B6 j k (snd x1) (snd x2) v); auto; rewrite nth_error_map; [rewrite e1|rewrite e2]; reflexivity.
    - intros d c Hin Hc. destruct (Hd d Hin) as (d0 & G & ->). destruct (HR d0) as (_ & _ & _ & _ & _ & R1).
      rewrite R1 in Hc. destruct Hc.
    - intros m Hm. exact Hm.
    - intros a Ha. destruct (B11 a Ha) as (m & M1 & _ & M3). exists m. split; [exact M1|]. split.
      + exact (B9 a m M1 Ha).
      + intros d Hin. destruct (Hd d Hin) as (d0 & G & ->). destruct (HR d0) as (_ & _ & _ & _ & R1 & _). apply R1. auto.
  Qed.

  Lemma handed_hand : exists obs rs ds n, sim obs (build_objs 0 (in_objs i)) /\
    offs = map (fun x : reform * db => rf_offset (fst x)) rs /\
    length os = length rs /\ length rs = length obs /\
    Hand TS (Feas i) me cls n ds /\ Forall2 (worth TS (Feas i) cls ds) obs (combine rs os).
  Proof.
    destruct (new_ready SP i o HI al s HS) as [Hrd _].
    pose proof (kernel_ok TS E HO HN i o HI (obj_distinct i HD) (iter_bound i) (two_le_bound i) s Hrd
      (mkCb false false)) as K.
    unfold wp in K. unfold handed in HH. destruct (kernel_core_boost T E s) as [[[rs|]|x] s1]; try discriminate HH.
    destruct K as [HC Hlen].
    destruct (s_cnf s1) as [cnf|] eqn:ec; [|discriminate].
    assert (Hcnf : cnf = in_cls i).
    { rewrite (fr_cnf _ _ (cb_fr _ _ _ _ _ HC)), (rd_cnf _ _ _ Hrd) in ec. destruct (o_store_cnf o); congruence. }
    subst cnf.
    assert (Hlo : length (p_objs (s_prob s1)) = length rs).
    { rewrite Hlen. apply sim_length. apply HC. }
    assert (Hf2 : Forall2 (fun ob x => fok TS (Feas i) me ob (fst x) (snd x)) (p_objs (s_prob s1)) rs).
    { apply forall2_of_nth; [exact Hlo|]. intros k ob [rf d] Ho Hr.
      destruct (cb_fin _ _ _ _ _ HC k rf d Hr) as (ob' & G1 & G2 & _). assert (ob' = ob) by congruence. subst. exact G2. }
    pose proof (cb_hand _ _ _ HC) as Hh.
    pose proof (collect_ok TS (Feas i) me re HR rs (p_objs (s_prob s1)) [] (in_cls i) _ Hf2 Hh) as G.
    destruct (ip_collect T re rs (in_cls i) (vm_next (p_vm (s_prob s1)))) as [[[cls' nx'] os'] kept].
    injection HH as <- <- <-. destruct G as (ds' & G1 & G2 & G3 & G4).
    exists (p_objs (s_prob s1)), rs, ds', nx'. split; [apply HC|]. split; [reflexivity|].
    split; [exact G3|]. split; [congruence|]. split; [exact G1|exact G4].
  Qed.

  Theorem handed_ok :
    length os = length (in_objs i) /\ length offs = length (in_objs i) /\
    (forall so cw, In so os -> In cw (fst so) -> exists l, fst cw = [l]) /\
    (forall m, sat m cls -> sat m (in_cls i) /\
       weakly_dominates (costs (in_objs i) m) (in_user (in_objs i) offs (soft_costs os m))) /\
    (forall a, sat a (in_cls i) -> exists m, (forall v, v <= me -> a v = m v) /\ sat m cls /\
       in_user (in_objs i) offs (soft_costs os m) = costs (in_objs i) a).
  Proof.
    destruct handed_hand as (obs & rs & ds & n & H1 & -> & H3 & H4 & H5 & H6).
    assert (Hn : length obs = length (in_objs i)) by (rewrite (sim_length _ _ H1); apply build_length).
    assert (Hmap : map (fun x : reform * db => rf_offset (fst x)) rs = map rf_offset (map fst rs)) by (now rewrite map_map).
    assert (Hrel : forall (R : nat -> nat -> Prop) m, (forall ob x, worth TS (Feas i) cls ds ob x ->
        R (icost ob m) (rf_offset (fst (fst x)) + violated m (fst (snd x)))) ->
      Forall2 (fun ob x => ival ob x R m) obs (combine (map fst rs) os)).
    { intros R m HR'. rewrite combine_fst. apply forall2_map_r. eapply forall2_impl; [|exact H6].
      intros ob x Hw. split; [|now apply HR']. destruct x as [[rf d] [softs z]]. now destruct Hw. }
    split; [lia|]. split; [rewrite map_length; lia|]. split; [|split].
    - intros so cw Hso Hcw. apply In_nth_error in Hso. destruct Hso as [k Hk].
      assert (Hlt : k < length rs) by (rewrite <- H3; apply nth_error_Some; congruence).
      destruct (nth_error rs k) as [[rf d]|] eqn:er; [|apply nth_error_None in er; lia].
      assert (Hc : In ((rf, d), so) (combine rs os)).
      { clear - Hk er. revert os k Hk er. induction rs as [|x rs IH]; intros [|y os] [|k] Hk er; try discriminate.
        - cbn in *. left. congruence.
        - cbn in *. right. eauto. }
      destruct (Forall2_In_r _ _ _ _ H6 Hc) as (ob & _ & Hw). destruct so as [softs z]. destruct Hw as (_ & Hw & _). now apply Hw.
    - intros m Hm. split; [exact (h_sound _ _ _ _ _ _ H5 m Hm)|]. rewrite Hmap.
      apply (user_rel le Z.le m) with (k := 0) (obs := obs).
      + intros a b u z _ Hab. nia.
      + apply (io_ok _ HI).
      + exact H1.
      + rewrite map_length. exact H3.
      + apply Hrel. intros ob [[rf d] [softs z]] (_ & _ & Hw & _). now apply Hw.
    - intros a Ha. destruct (h_comp _ _ _ _ _ _ H5 a Ha) as (m & M1 & M2 & M3). exists m. split; [exact M1|]. split; [exact M2|].
      rewrite Hmap. transitivity (costs (in_objs i) m).
      + symmetry. apply forall2_eq. apply (user_rel eq eq m) with (k := 0) (obs := obs).
        * intros; subst; reflexivity.
        * apply (io_ok _ HI).
        * exact H1.
        * rewrite map_length. exact H3.
        * apply Hrel. intros ob [[rf d] [softs z]] (_ & _ & _ & Hw). apply Hw; [|exact M3]. exact (h_sound _ _ _ _ _ _ H5 m M2).
      + unfold costs. apply map_ext_in. intros r Hr. unfold obj_value. do 2 f_equal. symmetry.
        eapply wsum_agree; [exact M1|]. intros v Hv. exact (io_objs _ HI r v Hr Hv).
  Qed.

  Lemma soft_len (a : asg) : length (soft_costs os a) = length (in_objs i).
  Proof. unfold soft_costs. rewrite map_length. apply handed_ok. Qed.

  Theorem handed_optimal c : pareto_optimal (in_cls i) (in_objs i) c <->
    exists z, soft_optimal cls os z /\ in_user (in_objs i) offs z = c.
  Proof.
    destruct handed_ok as (_ & Hoff & _ & Hs & Hc). pose proof (io_ok _ HI) as Hok.
    assert (DOM : forall a b, dominates (in_user (in_objs i) offs (soft_costs os a)) (in_user (in_objs i) offs (soft_costs os b))
      <-> dominates (soft_costs os a) (soft_costs os b)).
    { intros a b. apply in_user_dom; auto using soft_len. }
    split.
    - intros [(a & Ha & <-) Hn]. destruct (Hc a Ha) as (m & _ & Hm & He). exists (soft_costs os m). split; [|exact He].
      split; [eauto|]. intros b Hb Hd. destruct (Hs b Hb) as [Hfb Hwb]. apply DOM in Hd. rewrite He in Hd.
      apply (Hn b Hfb). destruct Hd as [D1 D2]. split; [eapply wd_trans; eauto|].
      intros e. apply D2. apply wd_antisym; [exact D1|]. rewrite <- e. exact Hwb.
    - intros (z & [(a & Ha & <-) Hn] & <-). destruct (Hs a Ha) as [Hfa Hwa].
      destruct (Hc a Hfa) as (m & _ & Hm & He).
      assert (Hmz : soft_costs os m = soft_costs os a).
      { destruct (Zl_dec (soft_costs os m) (soft_costs os a)) as [e|ne]; [exact e|]. exfalso. apply (Hn m Hm).
        split; [|exact ne]. apply (in_user_le (in_objs i) offs); auto using soft_len. now rewrite He. }
      rewrite Hmz in He. split; [exists a; split; [exact Hfa|congruence]|].
      intros b Hb Hd. destruct (Hc b Hb) as (mb & _ & Hmb & Heb). rewrite <- Heb in Hd. apply DOM in Hd. exact (Hn mb Hmb Hd).
  Qed.
End Top.
