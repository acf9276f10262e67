(** * What the logger is told after core boosting *)
From Coq Require Import List Bool Arith Lia ZArith.
From Verif Require Import Base BaseLemmas Spec MTypes MKernel MPMinimal MLowerBounding MBiOptSat MOll
  EncSpec TotSpec ApiSpec Wp Sem Kern Init Ext Blk Struct Book Api FeasInv ApiTop CbTop CbSpec CbApi CbHist CbStop LogStruct LogTrue.
Import ListNotations.

Definition quiet_ev (ev : event) : Prop := match ev with EvCandidate _ _ | EvNonDom _ => False | _ => True end.

(** Core boosting tells the logger neither of candidates nor of points *)
Section Boost.
  Context {I : enc_impl} {T : tot_impl I}.
  Notation M := (M I).
  Notation st := (st I).
  Variable i : inst.
  Variable E : environ.
  Hypothesis HO : oracle_ok E.
  Variable lg : bool.
  Variable t0 : list event.

  Record qb (s : st) : Prop := mkQb {
    qb_cls : forall m, sat m (p_cls (s_prob s)) -> feasible (in_cls i) m;
    qb_ora : forall m, s_ora s = OModel m -> feasible (in_cls i) m;
    qb_cnf : forall c, s_cnf s = Some c -> c = in_cls i;
    qb_logger : s_logger s = lg;
    qb_front : s_front s = [];
    qb_trace : exists l, s_trace s = l ++ t0 /\ Forall quiet_ev l }.
  Definition ck {A} (c : M A) : Prop := forall s, qb s -> qb (snd (c s)).

  Lemma ck_ret {A} (a : A) : ck (ret a).
  Proof. intros s H. exact H. Qed.
  Lemma ck_throw {A} x : ck (A := A) (throw x).
  Proof. intros s H. exact H. Qed.
  Lemma ck_bind {A B} (c : M A) (k : A -> M B) : ck c -> (forall a, ck (k a)) -> ck (bind c k).
  Proof.
    intros H1 H2 s H. unfold bind. specialize (H1 s H). destruct (c s) as [[a|x] s']; [|exact H1]. apply H2, H1.
  Qed.
  Lemma ck_gets {A} (f : st -> A) : ck (gets f).
  Proof. intros s H. exact H. Qed.
  Lemma ck_prob (f : st -> prob I) : (forall s, incl (p_cls (s_prob s)) (p_cls (f s))) -> ck (modify (fun s => set_prob (f s) s)).
  Proof.
    intros Hf s []. constructor; auto. intros m Hm. apply qb_cls0. intros c Hc. apply Hm. cbn. apply Hf, Hc.
  Qed.
  Lemma ck_ora (f : st -> prob I) : (forall s, incl (p_cls (s_prob s)) (p_cls (f s))) ->
    ck (modify (fun s => set_ora OIdle (set_prob (f s) s))).
  Proof.
    intros Hf s []. constructor; auto; [|discriminate]. intros m Hm. apply qb_cls0. intros c Hc. apply Hm. cbn. apply Hf, Hc.
  Qed.
  Lemma ck_emit ev : quiet_ev ev -> ck (emit E ev).
  Proof.
    intros He s H. unfold emit. destruct (s_logger s) eqn:el; [|exact H].
    assert (G : qb (set_trace (ev :: s_trace s) s)).
    { destruct H as [? ? ? ? ? (l & Hl & Hp)]. constructor; auto. exists (ev :: l). cbn. rewrite Hl. auto. }
    destruct (ev_logfail E _); exact G.
  Qed.
  Lemma ck_check : ck (check_termination E).
  Proof. intros s []. unfold check_termination. destruct (ev_flag E _); now constructor. Qed.
  Lemma ck_guard b : ck (guard b).
  Proof. intros s H. unfold guard. now destruct b. Qed.
  Lemma ck_unwrap {A} (o : option A) : ck (unwrap o).
  Proof. intros s H. unfold unwrap. now destruct o. Qed.
  Lemma ck_core : ck oracle_core.
  Proof. unfold oracle_core. apply ck_bind; [apply ck_gets|]. intros []; apply ck_ret || apply ck_throw. Qed.
  Lemma ck_osolve b a : ck (oracle_solve E b a).
  Proof.
    intros s []. unfold oracle_solve. set (q := mkQuery _ _ _ _ _). pose proof (HO q) as Hq.
    destruct (ev_oracle E q); cbn in Hq; constructor; auto; try discriminate.
    cbn. intros m' [= <-]. apply qb_cls0, Hq.
  Qed.
  Lemma ck_tick g p t : ck (tick (I := I) g p t).
  Proof.
    intros s []. unfold tick. destruct (g (s_lims s)) as [[|n]|]; try (now constructor).
    destruct (n =? 0); now constructor.
  Qed.
  Lemma ck_ocall r : ck (log_oracle_call E r).
  Proof.
    unfold log_oracle_call. apply ck_bind; [intros s []; now constructor|]. intros _.
    apply ck_bind; [apply ck_emit; exact Logic.I|]. intros _. apply ck_tick.
  Qed.
  Lemma ck_solve a : ck (k_solve_assumps E a).
  Proof.
    unfold k_solve_assumps. apply ck_bind; [apply ck_emit; exact Logic.I|]. intros _. apply ck_bind; [apply ck_osolve|].
    intros r. apply ck_bind; [apply ck_emit; exact Logic.I|]. intros _. apply ck_bind; [apply ck_check|]. intros _.
    apply ck_bind; [apply ck_ocall|]. intros _. apply ck_ret.
  Qed.
  Lemma ck_limited a : ck (k_solve_limited E a).
  Proof.
    unfold k_solve_limited. apply ck_bind; [apply ck_emit; exact Logic.I|]. intros _. apply ck_bind; [apply ck_osolve|].
    intros r. apply ck_bind; [apply ck_emit; exact Logic.I|]. intros _. apply ck_bind; [apply ck_check|]. intros _.
    apply ck_bind; [apply ck_ocall|]. intros _. apply ck_ret.
  Qed.
  Lemma ck_solution : ck oracle_solution.
  Proof.
    unfold oracle_solution. apply ck_bind; [apply ck_gets|]. intros v. apply ck_bind; [apply ck_unwrap|]. intros n.
    apply ck_bind; [apply ck_gets|]. intros []; apply ck_ret || apply ck_throw.
  Qed.
  Lemma ck_add_clauses cs : ck (add_clauses cs).
  Proof.
    unfold add_clauses. induction cs as [|c cs IH]; cbn [forM]; [apply ck_ret|]. apply ck_bind; [|intros _; exact IH].
    apply ck_ora. intros s. cbn. apply incl_tl, incl_refl.
  Qed.
  Lemma ck_loop {S A} n (body : S -> M (S + A)) : (forall x, ck (body x)) -> forall x, ck (loop n body x).
  Proof.
    intros H. induction n as [|n IH]; intros x; cbn [loop]; [apply ck_throw|]. apply ck_bind; [apply H|].
    intros [y|a]; [apply IH|apply ck_ret].
  Qed.
  Lemma ck_foldM {A B} (f : B -> A -> M B) l : (forall b a, ck (f b a)) -> forall b, ck (foldM f l b).
  Proof.
    intros H. induction l as [|a l IH]; intros b; cbn [foldM]; [apply ck_ret|].
    apply ck_bind; [apply H|]. intros b'. apply IH.
  Qed.

  Ltac ckt :=
    repeat first
      [ apply ck_ret | (apply ck_emit; exact Logic.I) | apply ck_check | apply ck_guard | apply ck_unwrap | apply ck_core
      | apply ck_solve | apply ck_solution | apply ck_add_clauses | apply ck_limited | apply ck_gets
      | apply ck_throw
      | apply ck_prob; intros; cbn; auto using incl_refl
      | apply ck_ora; intros; cbn; auto using incl_refl
      | apply ck_bind; [|intros ?]
      | apply ck_loop; intros ?
      | apply ck_foldM; intros ? ?
      | match goal with |- ck (let '(_, _) := ?x in _) => destruct x end
      | match goal with |- ck (if ?b then _ else _) => destruct b end
      | match goal with |- ck (match ?b with _ => _ end) => destruct b end ].

  Lemma ck_build d r k : ck (build_output T d r k).
  Proof.
    unfold build_output. apply ck_bind; [apply ck_gets|]. intros n.
    destruct (ti_define T d r k _) as [[[d' l] cl] n']. ckt.
  Qed.
  Lemma ck_exhaust_loop n : forall d r b l, ck (exhaust_loop T E n d r b l).
  Proof.
    induction n as [|n IH]; intros d r b l; cbn [exhaust_loop]; [ckt|].
    apply ck_bind; [apply ck_build|]. intros [d' l']. apply ck_bind; [apply ck_limited|].
    intros []; ckt. apply IH.
  Qed.
  Lemma ck_exhaust d r : ck (exhaust_core T E d r).
  Proof.
    unfold exhaust_core. apply ck_bind; [apply ck_gets|]. intros o. destruct (negb _).
    - apply ck_bind; [apply ck_build|]. intros x. ckt.
    - apply ck_bind; [apply ck_emit; exact Logic.I|]. intros _. apply ck_bind; [apply ck_guard|]. intros _.
      apply ck_bind; [apply ck_exhaust_loop|]. intros x. ckt.
  Qed.
  Lemma ck_reform cs x cd : ck (reform_core T E cs x cd).
  Proof.
    unfold reform_core. destruct x as [[rf d] a]. destruct (ti_merge T d _) as [d1 c].
    do 2 (apply ck_bind; [apply ck_guard|]; intros _). apply ck_bind; [apply ck_exhaust|].
    intros [[d2 l] k]. ckt.
  Qed.
  Lemma ck_relax cw x l : ck (relax_lit T cw x l).
  Proof.
    unfold relax_lit. destruct x as [[[rf d] a] cs]. apply ck_bind; [apply ck_unwrap|]. intros [j w].
    destruct (hm_get l (rf_refs rf)) as [[root oidx tw]|]; [|ckt].
    destruct (0 <? w); [ckt|]. destruct (_ <=? _); [ckt|]. apply ck_bind; [apply ck_build|]. intros [d' l']. ckt.
  Qed.
  Lemma ck_minimize c : ck (minimize_core E c).
  Proof. unfold minimize_core, minimize_step. ckt. Qed.
  Lemma ck_trim c : ck (trim_core E c).
  Proof. unfold trim_core, trim_body. ckt. Qed.
  Lemma ck_body x : ck (oll_body T E x).
  Proof.
    unfold oll_body. destruct x as [rf d a cores cs]. apply ck_bind; [apply ck_unwrap|]. intros [j a'].
    apply ck_bind; [apply ck_solve|]. intros [| |].
    - unfold oll_sat. destruct cores as [|cd cores].
      { apply ck_bind; [apply ck_solution|]. intros sol. apply ck_bind; [apply ck_gets|]. intros n.
        destruct (reserve_outputs T _ d _) as [d' n']. ckt. }
      apply ck_bind; [apply ck_foldM; intros; apply ck_reform|]. intros [[? ?] ?]. ckt.
    - unfold oll_unsat. apply ck_bind; [apply ck_core|]. intros [|l core]; [ckt|].
      apply ck_bind; [apply ck_minimize|]. intros c1. apply ck_bind; [apply ck_trim|]. intros c2.
      apply ck_bind; [apply ck_unwrap|]. intros w. apply ck_bind; [apply ck_unwrap|]. intros off.
      apply ck_bind; [apply ck_emit; exact Logic.I|]. intros _.
      apply ck_bind; [apply ck_foldM; intros; apply ck_relax|]. intros [[[? ?] ?] ?]. ckt.
    - ckt.
  Qed.
  Lemma ck_oll rf d : ck (oll T E rf d).
  Proof.
    unfold oll. destruct (rf_inact rf); try (apply ck_bind; [apply ck_emit; exact Logic.I|]; intros _; apply ck_loop; intros; apply ck_body).
    ckt.
  Qed.
  Lemma ck_cbloop n : forall k acc, ck (core_boost_loop T E n k acc).
  Proof.
    induction n as [|n IH]; intros k acc; cbn [core_boost_loop]; [ckt|].
    apply ck_bind; [apply ck_gets|]. intros x. apply ck_bind; [apply ck_unwrap|]. intros ob.
    apply ck_bind.
    { destruct (obj_is_constant ob); [ckt|]. apply ck_bind; [apply ck_oll|]. intros [[rf d] [sol|]]; ckt. }
    intros [[rf d]|]; [|ckt]. apply ck_bind; [apply ck_prob; intros; cbn; auto using incl_refl|]. intros _. apply IH.
  Qed.
  Lemma ck_merge rf d b : ck (merge_reform T rf d b).
  Proof.
    unfold merge_reform, merge_cons, merge_lit. destruct (rf_inact rf); ckt.
  Qed.
  Lemma ck_mloop opts : forall rs k, ck (merge_loop T E opts k rs).
  Proof.
    induction rs as [|[rf d] rs IH]; intros k; cbn [merge_loop]; [ckt|].
    apply ck_bind; [apply ck_gets|]. intros x. apply ck_bind; [apply ck_unwrap|]. intros ob.
    apply ck_bind.
    { destruct (obj_is_constant ob); [ckt|]. apply ck_bind; [apply ck_merge|]. intros e. ckt. }
    intros _. apply ck_bind; [apply ck_check|]. intros _. apply IH.
  Qed.
  Lemma ck_reset b : ck (reset_oracle E b).
  Proof.
    unfold reset_oracle. apply ck_bind; [apply ck_gets|]. intros o. apply ck_bind; [destruct (o_store_cnf o); ckt|].
    intros _. apply ck_bind; [apply ck_emit; exact Logic.I|]. intros _. apply ck_bind; [ckt|]. intros _.
    intros s H. unfold bind at 1, gets at 1. destruct (s_cnf s) as [cnf|] eqn:ec; [|exact H].
    assert (G : ck ((if b then modify (fun s => set_prob
         (set_vm (vm_forget_from (p_vm (s_prob s)) (S (vm_max_enc (p_vm (s_prob s)))))
                 (s_prob s)) s) else ret tt) ;;; log_end E)) by ckt.
    apply G. destruct H. apply qb_cnf0 in ec. subst cnf. constructor; auto. discriminate.
  Qed.
  Lemma ck_boost opts : ck (alg_core_boost T E opts).
  Proof.
    unfold alg_core_boost. apply ck_bind; [apply ck_gets|]. intros n.
    apply ck_bind; [destruct (n =? 0); ckt|]. intros _. apply ck_bind.
    { unfold kernel_core_boost. apply ck_bind; [apply ck_emit; exact Logic.I|]. intros _. apply ck_bind; [apply ck_gets|].
      intros m. apply ck_bind; [apply ck_cbloop|]. intros x. ckt. }
    intros [rs|]; [|ckt]. apply ck_bind; [apply ck_check|]. intros _. apply ck_bind.
    { destruct (cb_reset opts); [|ckt]. apply ck_bind; [apply ck_reset|]. intros _. ckt. }
    intros _. apply ck_bind; [apply ck_emit; exact Logic.I|]. intros _. apply ck_bind; [apply ck_mloop|]. intros _. ckt.
  Qed.
End Boost.
Section BoostRun.
  Context {I : enc_impl} {SP : enc_spec I} {T : tot_impl I} (TS : tot_spec SP T).
  Notation st := (st I).
  Variables (i : inst) (o : kopts).
  Hypothesis HI : inst_ok i.
  Hypothesis HD : lits_distinct i.

  Definition no_bdetach (x : bstep) : Prop := match x with BDetach => False | _ => True end.

  Lemma qb_set b lg t (s : st) : qb i lg t s -> qb i b t (set_logger b s).
  Proof. intros []. now constructor. Qed.
  Lemma qb_tries bs : boosts_ok o bs -> forall lg t (s : st), qb i lg t s ->
    exists lg', qb i lg' t (tries T bs s) /\ (lg = true -> Forall no_bdetach bs -> lg' = true).
  Proof.
    induction 1 as [|x bs Hx Hbs IH]; intros lg t s H; cbn [tries]; [eauto|]. destruct x as [E opts| |].
    - destruct Hx as (HO & _). destruct (IH lg t _ (ck_boost (T := T) i E HO lg t opts s H)) as (lg' & H1 & H2).
      exists lg'. split; [exact H1|]. intros Hl Hd. inversion Hd; auto.
    - destruct (IH true t _ (qb_set true _ _ _ H)) as (lg' & H1 & H2).
      exists lg'. split; [exact H1|]. intros Hl Hd. inversion Hd; auto.
    - destruct (IH false t _ (qb_set false _ _ _ H)) as (lg' & H1 & H2).
      exists lg'. split; [exact H1|]. intros Hl Hd. inversion Hd. contradiction.
  Qed.
  Lemma qb_new al (s : st) : alg_new al i o = Some s -> qb i (s_logger s) [] s.
  Proof.
    intros H. pose proof (core_new SP i HI al o s H) as HC. destruct (new_trace i al o s H) as [Ht Hf].
    pose proof (hd_ready _ _ _ (new_held (SP := SP) i o HI al s H)) as HR. constructor; auto.
    - apply HC.
    - apply HC.
    - intros c Hc. rewrite (rd_cnf _ _ _ HR) in Hc. destruct (o_store_cnf o); congruence.
    - exists []. auto.
  Qed.
  Lemma tr_qb full lg (s : st) : qb i lg [] s -> (full = true -> lg = true) -> tr i full s.
  Proof.
    intros [_ _ _ Hl Hf (l & Ht & Hp)] Hfull. rewrite app_nil_r in Ht. rewrite Forall_forall in Hp.
    constructor; rewrite ?Ht, ?Hf.
    - intros cs ph Hin. destruct (Hp _ Hin).
    - intros p Hin. destruct (Hp _ Hin).
    - intros H. rewrite Hl. split; [auto|]. destruct (logged_points l) as [|p r] eqn:e; [reflexivity|].
      assert (Hin : In (EvNonDom p) l) by (apply logged_points_in; rewrite e; now left). destruct (Hp _ Hin).
  Qed.
  Lemma core_held lg t (s : st) : held (SP := SP) i o s -> qb i lg t s -> core i (vm_max_enc (p_vm (s_prob s))) s.
  Proof.
    intros HH HQ. destruct (rd_start _ _ _ (hd_ready _ _ _ HH)) as [K3 K2 H2 H3 H4 H5 H6].
    pose proof (inv_wf _ _ _ _ _ K3) as HW. constructor.
    - apply HQ.
    - exact H2.
    - intros ob v Hob Hv. eapply wf_objs; eauto.
    - exact H3.
    - reflexivity.
    - destruct HW. rewrite <- H3. lia.
    - exact K2.
    - apply HQ.
    - rewrite H5. constructor.
  Qed.

  Lemma log_tried al (s0 : st) bs full h : alg_new al i o = Some s0 -> boosts_ok o bs -> resets_ok T o bs s0 ->
    no_empty_core i o -> run_ok h ->
    (full = true -> exists bs', bs = BAttach :: bs' /\ Forall no_bdetach bs' /\ Forall no_detach h) ->
    exists me, core i me (run al h (tries T bs s0)) /\ tr i full (run al h (tries T bs s0)).
  Proof.
    intros Hn Hb Hr Hd Hh Hf. pose proof (qb_new al s0 Hn) as HQ.
    assert (G : exists lg, qb i lg [] (tries T bs s0) /\ (full = true -> lg = true)).
    { destruct full.
      - destruct (Hf eq_refl) as (bs' & -> & Hd' & _). cbn [tries]. inversion Hb as [|? ? _ Hb']; subst.
        destruct (qb_tries bs' Hb' true [] _ (qb_set true _ _ _ HQ)) as (lg & H1' & H2').
        exists lg. split; [exact H1'|]. auto.
      - destruct (qb_tries bs Hb _ _ _ HQ) as (lg & H1' & _). exists lg. split; [exact H1'|discriminate]. }
    destruct G as (lg & HQ' & Hlg). eexists. apply (log_run SP i HI); [exact Hh| | |].
    - intros Hfu. destruct (Hf Hfu) as (_ & _ & _ & H). exact H.
    - eapply core_held; [|exact HQ']. eapply (ct_held TS i o HI HD al s0 bs); eauto.
    - eapply tr_qb; eauto.
  Qed.
End BoostRun.

