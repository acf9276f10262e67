(** * Preprocessing with MaxPre *)
From Coq Require Import List Bool Arith Lia ZArith.
From Verif Require Import Base BaseLemmas Spec MTypes MKernel MOll EncSpec TotSpec ApiSpec MPrepro MMain PreSpec
  PreproThm PreProofThm CbSpec PreTop MMaxPre MaxPreSpec.
Import ListNotations.

(** ** Clauses as constraints, and back *)
Definition pe_cl : pb_encoder := fun c n =>
  match pb_kind c with
  | PbLb => if (pb_bound c =? 1)%Z && forallb (fun lw => snd lw =? 1) (pb_lits c)
      then Some ([map fst (pb_lits c)], n) else None
  | _ => None
  end.
Lemma pe_cl_inv c n x : pe_cl c n = Some x -> exists cl, c = pb_of_clause cl /\ x = ([cl], n).
Proof.
  unfold pe_cl. destruct c as [k ls b]; cbn [pb_kind pb_bound pb_lits]. destruct k; try discriminate.
  destruct (b =? 1)%Z eqn:eb; [|discriminate]. destruct (forallb _ _) eqn:ef; [|discriminate]. cbn [andb].
  intros [= <-]. exists (map fst ls). split; [|reflexivity]. unfold pb_of_clause. apply Z.eqb_eq in eb. subst b.
  f_equal. clear -ef. induction ls as [|[l w] r IH]; [reflexivity|]. cbn [forallb map snd fst] in *.
  apply andb_true_iff in ef. destruct ef as [e1 e2]. apply Nat.eqb_eq in e1. subst w. f_equal. now apply IH.
Qed.
Lemma pe_cl_of cl n : pe_cl (pb_of_clause cl) n = Some ([cl], n).
Proof.
  unfold pe_cl, pb_of_clause. cbn [pb_kind pb_bound pb_lits].
  assert (H : forallb (fun lw : lit * nat => snd lw =? 1) (map (fun l => (l, 1)) cl) = true).
  { apply forallb_forall. intros lw H. apply in_map_iff in H. destruct H as (l & <- & _). reflexivity. }
  rewrite H. cbn [Z.eqb Pos.eqb andb]. rewrite map_map. cbn [fst]. now rewrite map_id.
Qed.
Lemma pe_cl_ok : pb_enc_ok pe_cl.
Proof.
  intros c n cls n' H Hv. destruct (pe_cl_inv _ _ _ H) as (cl & -> & Hx). injection Hx as -> ->.
  assert (Hs : forall a, sat a [cl] <-> clause_true a cl = true).
  { intros a. split; [intros Ha; apply Ha; now left|intros Ha x [<-|[]]; exact Ha]. }
  split; [lia|]. split; [|split].
  - intros v Hin. unfold cls_vars in Hin. cbn [flat_map] in Hin. rewrite app_nil_r in Hin.
    apply Hv. rewrite pb_of_clause_vars. exact Hin.
  - intros a Ha. apply (proj2 (pb_of_clause_holds a cl)), (proj1 (Hs a)), Ha.
  - intros a Ha. exists a. split; [reflexivity|]. apply (proj2 (Hs a)), (proj1 (pb_of_clause_holds a cl)), Ha.
Qed.
Lemma encode_cl cls : forall n, encode_constrs pe_cl (map pb_of_clause cls) n = Some (cls, n).
Proof.
  induction cls as [|cl r IH]; intros n; cbn [map encode_constrs]; [reflexivity|].
  rewrite pe_cl_of, IH. reflexivity.
Qed.
Lemma softs_units cws : forall lws s, mp_softs cws = Some lws -> process_softs cws s = Some (lws, s).
Proof.
  induction cws as [|[cl w] r IH]; intros lws s H; cbn [mp_softs process_softs] in *; [now injection H as <-|].
  unfold mp_soft in H. cbn [fst snd] in H. destruct cl as [|x [|y z]]; try discriminate.
  destruct (mp_softs r) as [lws'|]; [|discriminate]. injection H as <-.
  cbn [process_soft]. rewrite (IH _ s eq_refl). reflexivity.
Qed.
Lemma objectives_units os : forall ros s, mp_raw os = Some ros -> process_objectives os s = Some (ros, s).
Proof.
  induction os as [|ob r IH]; intros ros s H; cbn [mp_raw process_objectives] in *; [now injection H as <-|].
  destruct (mp_softs (fst ob)) as [lws|] eqn:e; [|discriminate]. destruct (mp_raw r) as [ros'|]; [|discriminate].
  injection H as <-. rewrite (softs_units _ _ s e), (IH _ s eq_refl). reflexivity.
Qed.
Lemma mp_softs_some cws : (forall cw, In cw cws -> exists l, fst cw = [l]) -> exists lws, mp_softs cws = Some lws.
Proof.
  induction cws as [|[cl w] r IH]; intros H; cbn [mp_softs]; [eauto|].
  destruct (H _ (or_introl eq_refl)) as (l & Hl). unfold mp_soft. cbn [fst snd] in *. subst cl.
  destruct IH as (lws & ->); [intros cw Hc; apply H; now right|]. eauto.
Qed.
Lemma mp_raw_some os : (forall o cw, In o os -> In cw (fst o) -> exists l, fst cw = [l]) ->
  exists ros, mp_raw os = Some ros.
Proof.
  induction os as [|ob r IH]; intros H; [exists []; reflexivity|].
  destruct (mp_softs_some (fst ob)) as (lws & e1); [intros cw Hc; apply (H ob); [now left|exact Hc]|].
  destruct IH as (ros & e2); [intros x cw Hx Hc; apply (H x); [now right|exact Hc]|].
  exists ((lws, snd ob) :: ros). change (match mp_softs (fst ob), mp_raw r with
    Some lws, Some ros => Some ((lws, snd ob) :: ros) | _, _ => None end = Some ((lws, snd ob) :: ros)).
  now rewrite e1, e2.
Qed.

(** ** The maximum variable *)
Lemma max_clause cl : forall m, m <= fold_left (fun m l => Nat.max m (lvar l)) cl m /\
  forall v, In v (lits_vars cl) -> v <= fold_left (fun m l => Nat.max m (lvar l)) cl m.
Proof.
  induction cl as [|l r IH]; intros m; cbn [fold_left]; [split; [lia|intros v []]|].
  destruct (IH (Nat.max m (lvar l))) as [H1 H2]. split; [lia|]. intros v [<-|Hv]; [lia|now apply H2].
Qed.
Lemma max_clauses cls : forall m,
  m <= fold_left (fun m cl => fold_left (fun m l => Nat.max m (lvar l)) cl m) cls m /\
  forall v, In v (cls_vars cls) -> v <= fold_left (fun m cl => fold_left (fun m l => Nat.max m (lvar l)) cl m) cls m.
Proof.
  induction cls as [|cl r IH]; intros m; cbn [fold_left]; [split; [lia|intros v []]|].
  destruct (max_clause cl m) as [H1 H2].
  destruct (IH (fold_left (fun m l => Nat.max m (lvar l)) cl m)) as [H3 H4]. split; [lia|].
  intros v Hv. rewrite cls_vars_cons in Hv. apply in_app_or in Hv. destruct Hv as [Hv|Hv]; [|now apply H4].
  specialize (H2 v Hv). lia.
Qed.
Lemma mp_max_var_ge cls v : In v (cls_vars cls) -> v <= mp_max_var cls.
Proof. intros H. now apply (proj2 (max_clauses cls 0)). Qed.

(** ** The problem MaxPre hands back *)
Section Out.
  Variable out : mp_out.
  Let q := mp_problem out.
  Lemma mp_clausal ros : mp_raw (mp_objs out) = Some ros ->
    to_clausal pe_cl q = POk (mkInst (mp_cls out) ros
      (mkVm (S (mp_max_var (mp_cls out))) (mp_max_var (mp_cls out)) (mp_max_var (mp_cls out)))).
  Proof.
    intros H. unfold to_clausal, q, mp_problem. cbn [pa_objs pa_constrs pa_vm].
    rewrite (objectives_units _ _ _ H). cbn [ss_constrs ss_vm]. rewrite encode_cl.
    unfold vm_mark_max_enc. cbn [vm_set_next vm_next vm_max_orig]. reflexivity.
  Qed.
  Lemma mp_parsed_ok cls os : mp_ok cls os out -> mp_covered out -> parsed_ok q.
  Proof.
    intros HM HC. constructor; unfold q, mp_problem; cbn [pa_objs pa_constrs pa_vm vm_next vm_max_orig].
    - reflexivity.
    - intros c v Hc Hv. apply in_map_iff in Hc. destruct Hc as (cl & <- & Hcl). rewrite pb_of_clause_vars in Hv.
      apply Nat.lt_succ_r, mp_max_var_ge, in_cls_vars. eauto.
    - intros o cw v Ho Hcw Hv. destruct (HC o cw v Ho Hcw Hv) as [-> | (u & Hu & Hle)]; [lia|].
      apply mp_max_var_ge in Hu. lia.
    - exact (mo_softs _ _ _ HM).
  Qed.
  Lemma q_feasible a : p_feasible q a <-> sat a (mp_cls out).
  Proof.
    unfold p_feasible, q, mp_problem. cbn [pa_constrs]. rewrite Forall_map, Forall_forall. split.
    - intros H c Hc. apply pb_of_clause_holds. now apply H.
    - intros H c Hc. apply pb_of_clause_holds. now apply H.
  Qed.
  Lemma q_costs a : p_costs q a = soft_costs (mp_objs out) a.
  Proof. reflexivity. Qed.
End Out.

Lemma wd_antisym : forall a b, weakly_dominates a b -> weakly_dominates b a -> a = b.
Proof.
  intros a b H. induction H as [|x y a b Hx H IH]; intros G; [reflexivity|]. inversion G; subst. f_equal; [lia|auto].
Qed.
Definition Zl_dec : forall a b : list Z, {a = b} + {a <> b} := list_eq_dec Z.eq_dec.

Section Mp.
  Variables (pe : pb_encoder) (mp : maxpre) (p : parsed) (cls : list clause) (n : nat).
  Hypothesis Hpe : pb_enc_ok pe.
  Hypothesis Hp : parsed_ok p.
  Hypothesis Hcls : encode_constrs pe (pa_constrs p) (vm_next (pa_vm p)) = Some (cls, n).
  Let out := mp cls (pa_objs p).
  Hypothesis HM : mp_ok cls (pa_objs p) out.
  Let q := mp_problem out.

  Lemma enc_sound a : sat a cls -> p_feasible p a.
  Proof.
    intros Ha. destruct (encode_constrs_ok pe Hpe _ _ _ _ _ Hcls (le_n _) (po_constrs p Hp)) as (_ & _ & H & _).
    apply Forall_forall. now apply H.
  Qed.
  Lemma enc_complete a : p_feasible p a -> exists b, sat b cls /\ p_costs p b = p_costs p a.
  Proof.
    intros Ha. destruct (encode_constrs_ok pe Hpe _ _ _ _ _ Hcls (le_n _) (po_constrs p Hp)) as (_ & _ & _ & H).
    unfold p_feasible in Ha. rewrite Forall_forall in Ha. destruct (H a Ha) as (b & Hb & Hs).
    exists b. split; [exact Hs|]. now apply p_costs_agree.
  Qed.
  (** any solution of the output gives one of the problem that is at least as good *)
  Lemma total_ext b v : exists sol : assignment, (forall a, extends a sol -> forall u, u < v -> a u = b u).
  Proof.
    exists (map (fun u => Some (b u)) (seq 0 v)). intros a Ha u Hu. apply (Ha u). rewrite nth_error_map.
    rewrite (nth_error_nth' _ 0) by (rewrite seq_length; lia). cbn [option_map]. now rewrite seq_nth by lia.
  Qed.
  Lemma back b : mp_covered out -> p_feasible q b ->
    exists a, p_feasible p a /\ weakly_dominates (p_costs p a) (p_costs q b).
  Proof.
    intros HC Hb. pose proof (mp_parsed_ok out _ _ HM HC) as Hq.
    destruct (total_ext b (vm_next (pa_vm q))) as (sol & Hsol).
    destruct (mo_sound _ _ _ HM (p_costs q b) sol) as (c' & Hc & Hd).
    { intros a Ha. pose proof (Hsol a Ha) as Hag. split.
      - apply (q_feasible out). apply (p_feasible_agree q b a Hq); [|exact Hb]. intros v Hv. symmetry. now apply Hag.
      - change (p_costs q a = p_costs q b). apply (p_costs_agree q a b Hq). exact Hag. }
    set (a := fun v => match nth_error (mp_rec out sol) v with Some (Some x) => x | _ => false end).
    destruct (Hc a) as [H1 H2].
    { intros v x Hx. unfold a. now rewrite Hx. }
    exists a. split; [now apply enc_sound|]. change (p_costs p a = c') in H2. now rewrite H2.
  Qed.
  Lemma forth a : p_feasible p a -> exists b, p_feasible q b /\ weakly_dominates (p_costs q b) (p_costs p a).
  Proof.
    intros Ha. destruct (enc_complete a Ha) as (a' & Hs & Hc). destruct (mo_complete _ _ _ HM a' Hs) as (b & Hb & Hd).
    exists b. split; [now apply (q_feasible out)|]. rewrite <- Hc. exact Hd.
  Qed.
  Lemma mp_optimal c : mp_covered out -> p_optimal q c <-> p_optimal p c.
  Proof.
    intros HC. split.
    - intros [(b & Hb & <-) Hn]. destruct (back b HC Hb) as (a & Ha & Hd). destruct (forth a Ha) as (b' & Hb' & Hd').
      assert (He : p_costs q b' = p_costs q b).
      { destruct (Zl_dec (p_costs q b') (p_costs q b)) as [e|ne]; [exact e|]. exfalso.
        apply (Hn b' Hb'). split; [eapply wd_trans; eauto|exact ne]. }
      assert (Hec : p_costs p a = p_costs q b) by (apply wd_antisym; [exact Hd|now rewrite <- He]).
      split; [exists a; auto|]. intros x Hx [Hd1 Hd2]. destruct (forth x Hx) as (y & Hy & Hdy).
      apply (Hn y Hy). split; [eapply wd_trans; eauto|]. intros e. apply Hd2. apply wd_antisym; [exact Hd1|now rewrite <- e].
    - intros [(a & Ha & <-) Hn]. destruct (forth a Ha) as (b & Hb & Hd). destruct (back b HC Hb) as (a' & Ha' & Hd').
      assert (He : p_costs p a' = p_costs p a).
      { destruct (Zl_dec (p_costs p a') (p_costs p a)) as [e|ne]; [exact e|]. exfalso.
        apply (Hn a' Ha'). split; [eapply wd_trans; eauto|exact ne]. }
      assert (Hec : p_costs q b = p_costs p a) by (apply wd_antisym; [exact Hd|now rewrite <- He]).
      split; [exists b; auto|]. intros x Hx [Hd1 Hd2]. destruct (back x HC Hx) as (y & Hy & Hdy).
      apply (Hn y Hy). split; [eapply wd_trans; eauto|]. intros e. apply Hd2. apply wd_antisym; [exact Hd1|now rewrite <- e].
  Qed.
  Lemma mp_exact f : mp_covered out -> p_exact q f -> p_exact p (front_convert (mp_rec out) f).
  Proof.
    intros HC [H1 H2]. split; rewrite front_convert_costs; [exact H1|]. intros c. rewrite H2. now apply mp_optimal.
  Qed.
  Lemma mp_sound_front f : mp_covered out -> p_front q f -> mp_front p (front_convert (mp_rec out) f).
  Proof.
    intros HC [H1 H2]. split; [now rewrite front_convert_costs|]. apply Forall_forall. intros nd Hnd.
    unfold front_convert in Hnd. apply in_map_iff in Hnd. destruct Hnd as (nd0 & <- & Hnd0).
    rewrite Forall_forall in H2. destruct (H2 nd0 Hnd0) as (A & B & C). unfold nd_convert. cbn [nd_costs nd_sols].
    assert (A' : p_optimal p (nd_costs nd0)) by now apply mp_optimal.
    split; [exact A'|]. split; [intros He; apply map_eq_nil in He; contradiction|].
    apply Forall_forall. intros s Hs. apply in_map_iff in Hs. destruct Hs as (s0 & <- & Hs0).
    rewrite Forall_forall in C. destruct (C s0 Hs0) as [_ Hsol].
    destruct (mo_sound _ _ _ HM (nd_costs nd0) s0) as (c' & Hc & Hd).
    { intros a Ha. destruct (Hsol a Ha) as [F1 F2]. split; [now apply (q_feasible out)|exact F2]. }
    intros a Ha. destruct (Hc a Ha) as [F1 F2]. split; [now apply enc_sound|]. change (p_costs p a = c') in F2.
    rewrite F2. destruct (Zl_dec c' (nd_costs nd0)) as [e|ne]; [exact e|]. exfalso.
    apply (proj2 A' a (enc_sound a F1)). rewrite F2. now split.
  Qed.
  Lemma mp_run I (T : tot_impl I) reindex al o cb E l :
    run_main_mp T pe mp reindex al o cb E l p =
    reconstructed (mp_rec out) (run_main T pe_cl reindex al o cb E l q).
  Proof.
    unfold run_main_mp, max_pre, run_main. rewrite Hcls. fold out.
    destruct (mp_raw_some (mp_objs out) (mo_units _ _ _ HM)) as (ros & Hr).
    unfold q. rewrite (mp_clausal out ros Hr), Hr. unfold vm_new. now rewrite Nat.leb_refl.
  Qed.
  Lemma mp_dead o cb : mp_covered out -> cb_dead o cb q <-> cb_dead o cb p.
  Proof.
    intros HC. unfold cb_dead. split; intros (H1 & H2 & H3); (split; [exact H1|split; [|exact H3]]); intros a Ha.
    - destruct (forth a Ha) as (b & Hb & _). exact (H2 b Hb).
    - destruct (back a HC Ha) as (b & Hb & _). exact (H2 b Hb).
  Qed.
End Mp.
