(** * The state of a new solver satisfies the invariant *)
From Coq Require Import List Bool Arith Lia ZArith.
From Verif Require Import Base BaseLemmas MTypes MKernel EncSpec Wp Sem Kern PMin PMinTop LBTop.
Import ListNotations.

(** An objective whose weighted form has distinct literals (a hash map in the code) *)
Definition obj_wf (o : objective) : Prop :=
  match o with OWeighted _ lits _ _ => NoDup (map fst lits) | _ => True end.

Section Init.
  Context {I : enc_impl} (SP : enc_spec I).

  Record encinit (o : objective) (e : obj_enc I) : Prop := mkEncinit {
    ei_used : forall v, oe_used SP e v -> In v (lits_vars (map fst (obj_iter o)));
    ei_exact : forall m, oe_exact SP e m;
    ei_ecls : oe_ecls SP e = [];
    ei_off : oe_offset e = 0;
    ei_cost : forall m, e <> EConstant -> oe_ecost SP e m = icost o m;
    ei_const : e = EConstant -> forall m, icost o m = 0;
    ei_cap : oe_cap SP e = wtotal (obj_iter o) }.

  Lemma wtotal_units ls : wtotal (map (fun l : lit => (l, 1)) ls) = length ls.
  Proof.
    induction ls as [|l ls IH]; [reflexivity|]. unfold wtotal in *. cbn.
    change (fold_right Nat.add 0) with list_sum. cbn in IH. lia.
  Qed.

  Lemma init_encs_ok reserve os : forall next es next', Forall obj_wf os ->
    init_encs reserve os next = (es, next') ->
    next <= next' /\ Forall2 encinit os es /\
    (forall e v, In e es -> oe_free SP e v -> next <= v < next') /\
    (forall i j e1 e2 v, nth_error es i = Some e1 -> nth_error es j = Some e2 -> i <> j ->
       oe_free SP e1 v -> oe_free SP e2 v -> False).
  Proof.
    induction os as [|o os IH]; intros next es next' Hwf H; cbn [init_encs] in H.
    - injection H as <- <-. split; [lia|]. split; [constructor|]. split; [intros ? ? []|].
      intros [] ? ? ? ?; discriminate.
    - inversion Hwf; subst.
      set (r := match o with OWeighted _ lits _ _ => _ | OUnweighted _ _ lits _ _ => _ | OConstant _ _ _ => _ end) in H.
      assert (Hr : let '(e, n1) := r in next <= n1 /\ encinit o e /\ (forall v, oe_free SP e v -> next <= v < n1)).
      { unfold r. destruct o as [off lits idx lb|off uw lits idx lb|off idx lb].
        - unfold oe_new_weighted. destruct reserve.
          + destruct (ei_reserve I (ei_from_wlits I lits) next) as [e' n] eqn:He.
            split; [eapply es_reserve_next; eauto|]. split.
            * constructor; unfold oe_used, oe_exact, oe_ecls, oe_ecost, oe_cap, icost; cbn.
              -- intros v Hv. apply (es_wlits_used _ SP). eapply es_reserve_used; eauto.
              -- intros m. apply (es_reserve_exact _ SP _ _ _ _ _ He). apply es_wlits_exact.
              -- rewrite (es_reserve_cls _ SP _ _ _ _ He). apply es_wlits_cls.
              -- reflexivity.
              -- intros m _. rewrite (es_reserve_cost _ SP _ _ _ _ _ He), es_wlits_cost by assumption. lia.
              -- discriminate.
              -- rewrite (es_reserve_max _ SP _ _ _ _ He), es_wlits_max by assumption. lia.
            * intros v Hv. unfold oe_free in Hv; cbn in Hv.
              apply (es_reserve_free _ SP _ _ _ _ _ He) in Hv. destruct Hv as [Hv|Hv]; [|exact Hv].
              exfalso. exact (es_wlits_free _ SP _ _ Hv).
          + split; [lia|]. split.
            * constructor; unfold oe_used, oe_exact, oe_ecls, oe_ecost, oe_cap, icost; cbn.
              -- intros v Hv. now apply (es_wlits_used _ SP).
              -- intros m. apply es_wlits_exact.
              -- apply es_wlits_cls.
              -- reflexivity.
              -- intros m _. rewrite es_wlits_cost by assumption. lia.
              -- discriminate.
              -- rewrite es_wlits_max by assumption. lia.
            * intros v Hv. exfalso. exact (es_wlits_free _ SP _ _ Hv).
        - assert (Hu : lits_vars (map fst (obj_iter (OUnweighted off uw lits idx lb))) = lits_vars lits).
          { cbn [obj_iter]. rewrite map_map. cbn [fst]. now rewrite map_id. }
          unfold oe_new_unweighted. destruct reserve.
          + destruct (ei_reserve I (ei_from_lits I lits) next) as [e' n] eqn:He.
            split; [eapply es_reserve_next; eauto|]. split.
            * constructor; rewrite ?Hu; unfold oe_used, oe_exact, oe_ecls, oe_ecost, oe_cap, icost; cbn.
              -- intros v Hv. apply (es_lits_used _ SP). eapply es_reserve_used; eauto.
              -- intros m. apply (es_reserve_exact _ SP _ _ _ _ _ He). apply es_lits_exact.
              -- rewrite (es_reserve_cls _ SP _ _ _ _ He). apply es_lits_cls.
              -- reflexivity.
              -- intros m _. rewrite (es_reserve_cost _ SP _ _ _ _ _ He), es_lits_cost. lia.
              -- discriminate.
              -- rewrite (es_reserve_max _ SP _ _ _ _ He), es_lits_max, wtotal_units. lia.
            * intros v Hv. unfold oe_free in Hv; cbn in Hv.
              apply (es_reserve_free _ SP _ _ _ _ _ He) in Hv. destruct Hv as [Hv|Hv]; [|exact Hv].
              exfalso. exact (es_lits_free _ SP _ _ Hv).
          + split; [lia|]. split.
            * constructor; rewrite ?Hu; unfold oe_used, oe_exact, oe_ecls, oe_ecost, oe_cap, icost; cbn.
              -- intros v Hv. now apply (es_lits_used _ SP).
              -- intros m. apply es_lits_exact.
              -- apply es_lits_cls.
              -- reflexivity.
              -- intros m _. rewrite es_lits_cost. lia.
              -- discriminate.
              -- rewrite es_lits_max, wtotal_units. lia.
            * intros v Hv. exfalso. exact (es_lits_free _ SP _ _ Hv).
        - split; [lia|]. split.
          + constructor; unfold oe_used, oe_exact, oe_ecls, oe_ecost, oe_cap, icost; cbn; (intros; tauto) || auto.
          + intros v []. }
      destruct r as [e n1]. destruct Hr as (Hn1 & He & Hfr).
      destruct (init_encs reserve os n1) as [es1 n2] eqn:Hrec. injection H as <- <-.
      destruct (IH _ _ _ ltac:(assumption) Hrec) as (Hn2 & Hall & Hfree & Hdisj).
      split; [lia|]. split; [constructor; assumption|]. split.
      + intros e0 v [<-|Hin] Hv; [specialize (Hfr v Hv); lia|]. specialize (Hfree _ _ Hin Hv). lia.
      + intros [|i] [|j] e1 e2 v G1 G2 Hne Hv1 Hv2; cbn in G1, G2.
        * congruence.
        * injection G1 as <-. apply nth_error_In in G2. specialize (Hfree _ _ G2 Hv2). specialize (Hfr v Hv1). lia.
        * injection G2 as <-. apply nth_error_In in G1. specialize (Hfree _ _ G1 Hv1). specialize (Hfr v Hv2). lia.
        * eapply Hdisj; [exact G1|exact G2|congruence|exact Hv1|exact Hv2].
  Qed.

  Lemma Forall2_nth {X Y} (R : X -> Y -> Prop) l l' i x y : Forall2 R l l' ->
    nth_error l i = Some x -> nth_error l' i = Some y -> R x y.
  Proof.
    intros H. revert i; induction H as [|a b l l' Hab H IH]; intros [|i] Hx Hy; cbn in *; try discriminate.
    - congruence.
    - eauto.
  Qed.
  Lemma Forall2_len {X Y} (R : X -> Y -> Prop) l l' : Forall2 R l l' -> length l = length l'.
  Proof. induction 1; cbn; congruence. Qed.
  Lemma Forall2_In_r {X Y} (R : X -> Y -> Prop) l l' y : Forall2 R l l' -> In y l' -> exists x, In x l /\ R x y.
  Proof.
    induction 1 as [|a b l l' Hab H IH]; intros []; [subst; eexists; split; [now left|eassumption]|].
    destruct IH as (x & ? & ?); auto. exists x. split; [now right|assumption].
  Qed.

  Record vm_ok (cls : list clause) (os : list objective) (vm : var_manager) : Prop := mkVmOk {
    vo_orig : vm_max_orig vm <= vm_max_enc vm;
    vo_enc : vm_max_enc vm < vm_next vm;
    vo_cls : forall v, In v (cls_vars cls) -> v <= vm_max_enc vm;
    vo_objs : forall o v, In o os -> In v (lits_vars (map fst (obj_iter o))) -> v <= vm_max_enc vm }.

  Record fresh_st (cls : list clause) (os : list objective) (vm : var_manager) (o : kopts) (s : st I) : Prop := mkFresh {
    fs_K : K SP (fun a => sat a cls) (fun a => sat a cls) (fun _ => True) s;
    fs_objs : p_objs (s_prob s) = os;
    fs_mo : vm_max_orig (p_vm (s_prob s)) = vm_max_orig vm;
    fs_front : s_front s = [];
    fs_fence : s_fence s = [];
    fs_opts : s_opts s = o;
    fs_caps : caps SP (s_prob s) = totals os;
    fs_offs : forall e, In e (p_encs (s_prob s)) -> oe_offset e = 0;
    fs_stats : s_stats s = mkStats 0 0 0 0 0 (length os) (count_real os) (length cls);
    fs_const : forall i e ob, nth_error (p_encs (s_prob s)) i = Some e -> nth_error os i = Some ob ->
      e = EConstant -> forall m, icost ob m = 0;
    fs_logger : s_logger s = false;
    fs_trace : s_trace s = [];
    fs_me : vm_max_enc (p_vm (s_prob s)) = vm_max_enc vm }.

  Lemma kernel_new_ok cls os vm o : vm_ok cls os vm -> Forall obj_wf os ->
    exists s, kernel_new (I := I) cls os vm o = Some s /\ fresh_st cls os vm o s.
  Proof.
    intros [V1 V2 V3 V4] Hwf. unfold kernel_new, vm_max_var.
    destruct (vm_next vm) as [|n] eqn:Hn; [lia|]. rewrite <- Hn in *.
    destruct (init_encs (o_reserve_enc_vars o) os (vm_next vm)) as [es next] eqn:He.
    eexists. split; [reflexivity|].
    destruct (init_encs_ok _ _ _ _ _ Hwf He) as (Hle & Hall & Hfree & Hdisj).
    set (p := mkProb cls (vm_set_next vm next) os es).
    assert (Hlow : forall v, v <= vm_max_enc vm -> live SP p v).
    { intros v Hv. split; [cbn; lia|]. intros e Hin Hf. specialize (Hfree _ _ Hin Hf). lia. }
    assert (W : WF SP (fun a => sat a cls) p).
    { constructor; cbn.
      - symmetry. eapply Forall2_len; eauto.
      - exact V1.
      - lia.
      - auto.
      - auto.
      - intros e v Hin Hu. apply Hlow. destruct (Forall2_In_r _ _ _ _ Hall Hin) as (ob & Ho & Hi).
        eapply V4; eauto. now apply Hi.
      - intros e v Hin Hf. specialize (Hfree _ _ Hin Hf). lia.
      - exact Hdisj.
      - intros e c Hin Hc. destruct (Forall2_In_r _ _ _ _ Hall Hin) as (ob & Ho & Hi).
        rewrite (ei_ecls _ _ Hi) in Hc. destruct Hc.
      - auto.
      - intros a b Hab. apply sat_agree with (U := low p); [exact Hab|].
        intros v Hv. unfold low; cbn. auto.
      - intros i ob e m Ho Hie Hne _. rewrite (ei_cost _ _ (Forall2_nth _ _ _ _ _ _ Hall Ho Hie) m Hne). lia.
      - intros i ob e m Ho Hie Hne _ _. rewrite (ei_cost _ _ (Forall2_nth _ _ _ _ _ _ Hall Ho Hie) m Hne). lia.
      - intros i ob a b Ho Hie _ _. pose proof (Forall2_nth _ _ _ _ _ _ Hall Ho Hie) as Hi.
        now rewrite !(ei_const _ _ Hi eq_refl).
      - intros i ob e a Ho Hie _. rewrite (ei_off _ _ (Forall2_nth _ _ _ _ _ _ Hall Ho Hie)). lia. }
    constructor; cbn; try reflexivity.
    - constructor.
      + unfold lims_ok; cbn. repeat split; discriminate.
      + reflexivity.
      + constructor; cbn; auto.
        * intros a b Hab. apply (wf_Fcl _ _ _ W). exact Hab.
        * intros a Ha. exists a. split; [apply agree_refl|]. split; [exact Ha|]. split; [|exact Logic.I].
          intros e Hin. destruct (Forall2_In_r _ _ _ _ Hall Hin) as (ob & Ho & Hi). apply Hi.
    - unfold caps, totals; cbn. clear - Hall. induction Hall; cbn; [reflexivity|]. f_equal; [apply H|assumption].
    - intros e Hin. destruct (Forall2_In_r _ _ _ _ Hall Hin) as (ob & Ho & Hi). apply Hi.
    - intros i e ob Hie Ho. apply (ei_const _ _ (Forall2_nth _ _ _ _ _ _ Hall Ho Hie)).
  Qed.
End Init.
