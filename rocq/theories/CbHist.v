(** * Core boosting followed by solving *)
From Coq Require Import List Bool Arith Lia ZArith.
From Verif Require Import Base BaseLemmas Spec MTypes MKernel MPMinimal MLowerBounding MBiOptSat MOll
  EncSpec TotSpec Wp Sem Kern Yield PMin PMinTop LBTop Linsu BiTop Init ApiSpec Ext Blk Struct Book Api
  ApiThm FeasInv Intr ApiTop OllSide OllData OllThm OllRun OllRelax OllMain CbMerge CbTop CbSpec CbApi.
Import ListNotations.

(** Ways a call can end that are part of the API, as [proper_exit] *)
Definition proper_end {A} (i : inst) (E : environ) (r : res A) : Prop :=
  match r with Done _ => True | Exit x => proper_exit i E (Exit x) end.

Section Hist.
  Context {I : enc_impl} {SP : enc_spec I} {T : tot_impl I} (TS : tot_spec SP T).
  Notation st := (st I).
  Variables (i : inst) (o : kopts).
  Hypothesis HI : inst_ok i.
  Hypothesis HD : lits_distinct i.

  Lemma boost_stop E opts s : oracle_ok E -> core_nodup E -> (cb_reset opts = true -> o_store_cnf o = true) ->
    ready (SP := SP) i o s -> n_solve_calls (s_stats s) = 0 ->
    match alg_core_boost T E opts s with
    | (Done true, s') => boosted (SP := SP) i o s s' /\ (safe (SP := SP) i s opts -> kept (SP := SP) i s opts s')
    | (Done false, s') => (forall a, ~ feasible (in_cls i) a) /\ (kept (SP := SP) i s opts s' \/ deadok i o)
    | (Exit x, s') => (xok E (iter_bound i) x /\ (safe (SP := SP) i s opts -> kept (SP := SP) i s opts s')) \/ deadok i o
    end.
  Proof.
    intros HO HN Hr HR Hn.
    pose proof (wp_run _ _ _ _ (core_boost_ok TS E HO HN i o HI (obj_distinct i HD) (iter_bound i)
      (two_le_bound i) s HR opts Hn Hr)) as H.
    destruct (alg_core_boost T E opts s) as [[[|]|x] s']; exact H.
  Qed.
  Lemma boost_any E opts s : oracle_ok E -> core_nodup E -> (cb_reset opts = true -> o_store_cnf o = true) ->
    ready (SP := SP) i o s -> n_solve_calls (s_stats s) = 0 ->
    match alg_core_boost T E opts s with
    | (Done true, s') => boosted (SP := SP) i o s s'
    | (Done false, _) => forall a, ~ feasible (in_cls i) a
    | (Exit x, _) => xok E (iter_bound i) x \/ deadok i o
    end.
  Proof.
    intros HO HN Hr HR Hn. pose proof (boost_stop E opts s HO HN Hr HR Hn) as H.
    destruct (alg_core_boost T E opts s) as [[[|]|x] s']; [apply H|apply H|tauto].
  Qed.

  (** what the solver guarantees between core boosting and solving *)
  Record prepared (s : st) : Prop := mkPrep {
    pr_ready : ready (SP := SP) i o s;
    pr_n : n_solve_calls (s_stats s) = 0;
    pr_bound : bound SP i s <= iter_bound i;
    pr_bi : length (in_objs i) = 2 -> no_fixed_cost i -> bi_start i s }.

  Lemma prep_new al s : alg_new al i o = Some s -> prepared s.
  Proof.
    intros H. destruct (new_ready SP i o HI al s H) as [H1 H2].
    pose proof (new_fresh SP i o HI al s H) as Hf. constructor; auto.
    - now rewrite (bound_eq SP i o s Hf).
    - intros H3 _. eapply (fresh_bi SP i o); eauto.
  Qed.
  Lemma prep_logger b s : prepared s -> prepared (set_logger b s).
  Proof. intros [[[] ] ]. constructor; auto. constructor; auto. constructor; auto. Qed.
  Lemma prep_boosted s0 s : prepared s0 -> boosted (SP := SP) i o s0 s -> prepared s.
  Proof.
    intros H0 HB. constructor.
    - apply HB.
    - rewrite (bo_solves _ _ _ _ HB). apply H0.
    - eapply (after_bound i o); eauto.
    - eapply (after_bi i o HI); eauto.
  Qed.

  (** the bounds found by core boosting *)
  Definition ideal (s : st) : Prop := forall k r ob, nth_error (in_objs i) k = Some r ->
    nth_error (p_objs (s_prob s)) k = Some ob -> fst r <> [] ->
    exists z, externalize_one ob (obj_lb ob) = Some z /\ optimum i r z.

  Lemma boosts_run bs : forall s, boosts_ok o bs -> prepared s ->
    match boosts T bs s with
    | (Done true, s') => prepared s' /\ ((exists x, In x bs /\ is_boost x) \/ ideal s -> ideal s') /\
        length (p_objs (s_prob s')) = length (in_objs i)
    | (Done false, _) => forall a, ~ feasible (in_cls i) a
    | (Exit x, _) => deadok i o \/ exists E opts, In (Boost E opts) bs /\ proper_exit i E (Exit x)
    end.
  Proof.
    induction bs as [|x bs IH]; intros s Hok HP; cbn [boosts].
    - split; [exact HP|]. split; [intros [(? & [] & _)|H]; exact H|].
      pose proof (sa_objs _ _ _ _ (rd_start _ _ _ (pr_ready _ HP))) as H. apply (f_equal (@length _)) in H.
      now rewrite !map_length, build_length in H.
    - inversion Hok as [|? ? Hx Hbs]; subst. destruct x as [E opts| |]; cbn in Hx.
      + destruct Hx as (HO & HN & Hr).
        pose proof (boost_any E opts s HO HN Hr (pr_ready _ HP) (pr_n _ HP)) as G.
        destruct (alg_core_boost T E opts s) as [[[|]|y] s1]; [|exact G|].
        * pose proof (prep_boosted _ _ HP G) as HP1. specialize (IH s1 Hbs HP1).
          destruct (boosts T bs s1) as [[[|]|y] s2]; [|exact IH|].
          -- destruct IH as (H1 & H2 & H3). split; [exact H1|]. split; [|exact H3]. intros _. apply H2. right.
             intros k r ob Hk Hob Hne. eapply (after_lb i o HI); eauto.
          -- destruct IH as [H|(E' & o' & H1 & H2)]; [now left|right]. exists E', o'. split; [now right|exact H2].
        * destruct G as [G|G]; [right|now left]. exists E, opts. split; [now left|]. now apply xok_proper.
      + specialize (IH (set_logger true s) Hbs (prep_logger true s HP)). cbn [attach_logger snd modify] in *.
        destruct (boosts T bs (set_logger true s)) as [[[|]|y] s2]; [|exact IH|].
        * destruct IH as (H1 & H2 & H3). split; [exact H1|]. split; [|exact H3]. intros H. apply H2.
          destruct H as [(y & [<-|Hy] & Hb)|H]; [destruct Hb|left; eauto|now right].
        * destruct IH as [H|(E' & o' & H1 & H2)]; [now left|right]. exists E', o'. split; [now right|exact H2].
      + specialize (IH (set_logger false s) Hbs (prep_logger false s HP)). cbn [detach_logger snd modify] in *.
        destruct (boosts T bs (set_logger false s)) as [[[|]|y] s2]; [|exact IH|].
        * destruct IH as (H1 & H2 & H3). split; [exact H1|]. split; [|exact H3]. intros H. apply H2.
          destruct H as [(y & [<-|Hy] & Hb)|H]; [destruct Hb|left; eauto|now right].
        * destruct IH as [H|(E' & o' & H1 & H2)]; [now left|right]. exists E', o'. split; [now right|exact H2].
  Qed.

  (** ** Statements *)
  Section New.
    Variables (al : alg) (s0 : st) (bs : list bstep).
    Hypothesis Hnew : alg_new al i o = Some s0.
    Hypothesis Hbs : boosts_ok o bs.
    Let HP := prep_new al s0 Hnew.

    Lemma cb_false s1 : boosts T bs s0 = (Done false, s1) -> forall a, ~ feasible (in_cls i) a.
    Proof. intros H. pose proof (boosts_run bs s0 Hbs HP) as G. now rewrite H in G. Qed.

    Lemma cb_true s1 : boosts T bs s0 = (Done true, s1) -> (exists x, In x bs /\ is_boost x) ->
      forall k r, nth_error (in_objs i) k = Some r -> fst r <> [] ->
      exists ob z, nth_error (p_objs (s_prob s1)) k = Some ob /\ externalize_one ob (obj_lb ob) = Some z /\
        optimum i r z.
    Proof.
      intros H Hb k r Hk Hne. pose proof (boosts_run bs s0 Hbs HP) as G. rewrite H in G.
      destruct G as (_ & H2 & H3). destruct (nth_error (p_objs (s_prob s1)) k) as [ob|] eqn:e.
      - destruct (H2 (or_introl Hb) k r ob Hk e Hne) as (z & Hz). exists ob, z. tauto.
      - apply nth_error_None in e. assert (k < length (in_objs i)) by (apply nth_error_Some; congruence). lia.
    Qed.
    Lemma cb_exit x s1 : boosts T bs s0 = (Exit x, s1) ->
      ((forall a, ~ feasible (in_cls i) a) /\ (o_core_minimization o = true \/ o_core_trimming o = true)) \/
      exists E opts, In (Boost E opts) bs /\ proper_exit i E (Exit x).
    Proof. intros H. pose proof (boosts_run bs s0 Hbs HP) as G. now rewrite H in G. Qed.

    Variable s1 : st.
    Hypothesis Hrun : boosts T bs s0 = (Done true, s1).
    Hypothesis Hal : al = ABiOptSat -> no_fixed_cost i.
    Lemma cb_prep : prepared s1.
    Proof. pose proof (boosts_run bs s0 Hbs HP) as G. rewrite Hrun in G. apply G. Qed.
    Lemma cb_start : start SP i o s1.
    Proof. apply rd_start, cb_prep. Qed.
    Lemma cb_bi : al = ABiOptSat -> bi_start i s1.
    Proof.
      intros Ha. apply (pr_bi _ cb_prep); [|now apply Hal]. eapply (new_two i o s0). now rewrite <- Ha.
    Qed.
    Lemma cb_first E l : enum_ok i o -> oracle_ok E -> lims_pos l ->
      match alg_solve al E l s1 with
      | (Done _, s') => exact_front i (s_front s') /\ sound_front i (s_front s')
      | (Exit x, s') => xok E (iter_bound i) x /\ sound_front i (s_front s')
      end.
    Proof.
      intros HE. exact (from_first SP i o HI al s1 cb_start (pr_bound _ cb_prep) cb_bi HE E l).
    Qed.
    Lemma cb_term E : enum_ok i o -> oracle_ok E -> calm E -> iter_bound i < ev_fuel E ->
      exists s', alg_solve al E lims_none s1 = (Done tt, s').
    Proof. intros HE. exact (from_term SP i o HI al s1 cb_start (pr_bound _ cb_prep) cb_bi HE E). Qed.
    Lemma cb_enum_all E l s' : enum_ok i o -> oracle_ok E -> lims_pos l -> alg_solve al E l s1 = (Done tt, s') ->
      o_enum o = Solutions None -> forall nd, In nd (s_front s') ->
      NoDup (nd_sols nd) /\ forall sol, In sol (nd_sols nd) <->
        valid_solution (in_cls i) (in_objs i) (n_orig i) (nd_costs nd) sol.
    Proof. intros HE. exact (from_enum_all SP i o HI al s1 cb_start cb_bi HE E l s'). Qed.
    Lemma cb_history h : al <> ABiOptSat -> o_enum o = NoEnum -> run_ok h ->
      sound_front i (s_front (run al h s1)).
    Proof. exact (from_history SP i o HI al s1 cb_start h). Qed.
    Lemma cb_exits h E l : o_enum o = NoEnum -> run_ok h -> oracle_ok E -> lims_pos l ->
      proper_exit i E (fst (alg_solve al E l (run al h s1))).
    Proof. exact (from_exits SP i o HI al s1 cb_start (pr_bound _ cb_prep) cb_bi h E l). Qed.
  End New.

  (** undisturbed core boosting finishes *)
  Definition bcalm (x : bstep) : Prop :=
    match x with Boost E _ => calm E /\ iter_bound i < ev_fuel E | _ => True end.
  Lemma boosts_term bs : forall s, boosts_ok o bs -> Forall bcalm bs -> prepared s -> s_lims s = lims_none ->
    ~ deadok i o -> exists b s', boosts T bs s = (Done b, s').
  Proof.
    induction bs as [|x bs IH]; intros s Hok Hc HP Hl Hd; cbn [boosts]; [eauto|].
    inversion Hok as [|? ? Hx Hbs]; subst. inversion Hc as [|? ? Cx Cbs]; subst.
    destruct x as [E opts| |]; cbn [bstep_ok bcalm] in Hx, Cx.
    - destruct Hx as (HO & HN & Hr). destruct Cx as [HC HF].
      pose proof (boost_any E opts s HO HN Hr (pr_ready _ HP) (pr_n _ HP)) as G.
      pose proof (wp_run _ _ _ _ (calm_boost TS E HC opts s Hl)) as C.
      destruct (alg_core_boost T E opts s) as [[[|]|y] s1]; [|eauto|].
      + apply IH; auto. eapply prep_boosted; eauto.
      + exfalso. destruct G as [G|G]; [|contradiction]. unfold calmX in C. destruct G as [G|[-> G]]; [|lia].
        destruct y as [t|[]| |]; cbn in *; tauto.
    - apply IH; auto. now apply (prep_logger true).
    - apply IH; auto. now apply (prep_logger false).
  Qed.
  Lemma cb_finishes al s0 bs : alg_new al i o = Some s0 -> boosts_ok o bs -> Forall bcalm bs -> ~ deadok i o ->
    exists b s', boosts T bs s0 = (Done b, s').
  Proof.
    intros Hn Hb Hc Hd. apply boosts_term; auto; [eapply prep_new; eauto|].
    assert (G : forall s, kernel_new (I := I) (in_cls i) (build_objs 0 (in_objs i)) (in_vm i) o = Some s -> s_lims s = lims_none).
    { intros s. unfold kernel_new. destruct (vm_max_var _); [|discriminate]. destruct (init_encs _ _ _). now intros [= <-]. }
    apply G. destruct al; cbn in Hn; auto. unfold bi_new in Hn. destruct (kernel_new _ _ _ _); [|discriminate].
    destruct (_ =? _); [auto|discriminate].
  Qed.
End Hist.
