(** * Correctness of core-guided search: runs *)
From Coq Require Import List Bool Arith Lia ZArith.
From Verif Require Import Base BaseLemmas MTypes MKernel EncSpec Wp Sem Kern Ext MOll TotSpec
  OllSide OllData OllThm.
Import ListNotations.

Section Run.
  Context {I : enc_impl} {SP : enc_spec I} {T : tot_impl I} (TS : tot_spec SP T).
  Notation M := (M I).
  Notation st := (st I).
  Notation db := (ti_db T).
  Variable E : environ.
  Hypothesis HO : oracle_ok E.
  Hypothesis HN : core_nodup E.
  Variable F : asg -> Prop.
  Variable ob : objective.
  Variable me : nat.
  Variable fin : list db.
  Variable s0 : st.
  (** bound on the fuel *)
  Variable B : nat.

  Notation gv := (gv TS).
  Notation Fo := (Fo F).
  Notation tg := (tg ob).
  Notation kvo := (kvo TS).
  Notation pot := (pot TS).
  Notation Ost := (Ost TS me).
  Notation stepd := (stepd TS).
  Notation conok := (conok TS).

  (** What the search leaves alone *)
  Record gro (s : st) : Prop := mkGro {
    gr_fr : fr s0 s;
    gr_objs : p_objs (s_prob s) = p_objs (s_prob s0);
    gr_encs : p_encs (s_prob s) = p_encs (s_prob s0);
    gr_enc : vm_max_enc (p_vm (s_prob s)) = me;
    gr_orig : vm_max_orig (p_vm (s_prob s)) = vm_max_orig (p_vm (s_prob s0)) }.
  Record Kd (d : db) (s : st) : Prop := mkKd {
    kd_lims : lims_ok s;
    kd_gro : gro s;
    kd_side : Side TS F (s_prob s) (fin ++ [d]);
    kd_free : forall v, ~ tb_free SP T TS d v }.

  (** The search only fails if the clauses are unsatisfiable and cores are shrunk *)
  Definition Deadok : Prop := (forall a, ~ F a) /\
    (o_core_minimization (s_opts s0) = true \/ o_core_trimming (s_opts s0) = true).
  Definition XX (x : exit) (s : st) : Prop :=
    (xok E B x /\ exists d, Side TS F (s_prob s) (fin ++ [d]) /\ gro s) \/ Deadok.

  Lemma gro_solved s s' : solved s s' -> gro s -> gro s'.
  Proof.
    intros [Hf Hp] []. constructor; rewrite ?Hp; auto. eapply fr_trans; eauto.
  Qed.
  Lemma kd_solved d s s' : solved s s' -> lims_ok s' -> Kd d s -> Kd d s'.
  Proof.
    intros Hs HL []. constructor; auto.
    - eapply gro_solved; eauto.
    - destruct Hs as [_ ->]. assumption.
  Qed.
  Lemma kd_exit d s s' x : Kd d s -> solved s s' -> good_exit x -> XX x s'.
  Proof.
    intros [] Hs Hx. left. split; [now left|]. exists d. split.
    - destruct Hs as [_ ->]. assumption.
    - eapply gro_solved; eauto.
  Qed.
  Lemma kd_low d s v : Kd d s -> (low (s_prob s) v <-> v <= me).
  Proof. intros []. unfold low. rewrite (gr_enc _ kd_gro0). reflexivity. Qed.
  Lemma last_in (d : db) : In d (fin ++ [d]).
  Proof. apply in_or_app. right. now left. Qed.
  Lemma kd_leaf d s v : Kd d s -> tb_leafv SP T TS d v -> v <= me.
  Proof. intros H Hv. apply (kd_low d s v H). eapply (sd_low TS F _ _ (kd_side _ _ H)); [apply last_in|exact Hv]. Qed.
  Lemma kd_aux d s v : Kd d s -> tb_aux SP T TS d v -> me < v.
  Proof.
    intros H Hv. destruct (sd_aux TS F _ _ (kd_side _ _ H) d v (last_in d) Hv) as [_ G].
    destruct (le_lt_dec v me) as [Hle|Hlt]; [|exact Hlt]. destruct G. apply (kd_low d s v H). exact Hle.
  Qed.

  (** Feasible assignments extend to exact models *)
  Lemma kd_comp d s a : Kd d s -> F a -> exists m,
    agree (fun v => v <= me) a m /\ sat m (p_cls (s_prob s)) /\ tb_exact SP T TS d m /\
    (forall id, tb_node SP T TS d id -> tb_val SP T TS d id m = tb_val SP T TS d id a).
  Proof.
    intros H Ha. destruct (inv_comp _ _ _ _ _ (sd_inv TS F _ _ (kd_side _ _ H)) a Ha) as (m & H1 & H2 & _ & H4).
    assert (G : agree (fun v => v <= me) a m).
    { eapply agree_mono; [|exact H1]. intros v Hv. now apply (kd_low d s v H). }
    exists m. split; [exact G|]. split; [exact H2|]. split; [apply H4, last_in|].
    intros id Hn. apply tb_val_dep; [exact Hn|]. apply agree_sym. eapply agree_mono; [|exact G].
    intros v Hv. eapply kd_leaf; eauto.
  Qed.
  Lemma kd_sound d s m : Kd d s -> sat m (p_cls (s_prob s)) -> F m /\ sat m (tb_cls SP T TS d).
  Proof.
    intros H Hm. split; [exact (inv_sound _ _ _ _ _ (sd_inv TS F _ _ (kd_side _ _ H)) m Hm)|].
    intros c Hc. apply Hm. eapply (sd_cls TS F _ _ (kd_side _ _ H)); [apply last_in|exact Hc].
  Qed.

  Lemma add_clauses_run l (s : st) : wp (add_clauses l)
    (fun _ s' => s_prob s' = set_cls (rev l ++ p_cls (s_prob s)) (s_prob s) /\
       s_lims s' = s_lims s /\ fr s s') (fun _ _ => False) s.
  Proof.
    revert s. induction l as [|c l IH]; intros s; unfold add_clauses; cbn [forM].
    - apply wp_ret. split; [|split; [reflexivity|apply fr_refl]]. now destruct (s_prob s).
    - apply wp_bind, wp_modify. eapply wp_mono; [apply IH| |auto].
      intros [] s' (G1 & G2 & G3). split; [|split].
      + rewrite G1. cbn. now rewrite <- app_assoc.
      + rewrite G2. reflexivity.
      + eapply fr_trans; [|exact G3]. now constructor.
  Qed.

  Lemma wp_build d root k (Q : db * lit -> st -> Prop) (X : exit -> st -> Prop) s : Kd d s ->
    tb_int SP T TS d root -> k < tb_max SP T TS d root ->
    (forall d' l s', Kd d' s' -> stepd d d' -> tb_out SP T TS d' root k = Some l -> Q (d', l) s') ->
    wp (build_output T d root k) Q X s.
  Proof.
    intros HK Hint Hk HQ. unfold build_output. apply wp_bind, wp_gets.
    destruct (ti_define T d root k (vm_next (p_vm (s_prob s)))) as [[[d' l] cl] n'] eqn:Hdef.
    destruct (tb_define_ok SP T TS _ _ _ _ _ _ _ _ Hdef Hint Hk)
      as (Hn & Hxt & _ & Hout & Hom & _).
    destruct (side_define TS F _ _ _ _ _ _ _ _ _ (kd_side _ _ HK) (kd_free _ _ HK) Hdef Hint Hk) as [Hs Hf].
    apply wp_bind, wp_modify, wp_bind. eapply wp_mono; [apply add_clauses_run| |intros ? ? []].
    intros [] s' (G1 & G2 & G3). apply wp_ret. cbn in G1, G2.
    apply HQ; [|split; assumption|exact Hout].
    constructor.
    - unfold lims_ok. rewrite G2. apply HK.
    - destruct (kd_gro _ _ HK) as [K1 K2 K3 K4 K5]. constructor; rewrite ?G1; cbn; auto.
      eapply fr_trans; [exact K1|]. eapply fr_trans; [|exact G3]. now constructor.
    - rewrite G1. exact Hs.
    - exact Hf.
  Qed.

  Lemma wp_limited d assumps (Q : sres -> st -> Prop) (X : exit -> st -> Prop) s : Kd d s ->
    (forall m s', solved s s' -> Kd d s' -> s_ora s' = OModel m ->
       sat m (p_cls (s_prob s)) -> lits_true m assumps -> Q RSat s') ->
    (forall core s', solved s s' -> Kd d s' -> s_ora s' = OCore core ->
       (forall l, In l core -> In (lnot l) assumps) -> (NoDup assumps -> NoDup core) ->
       (forall m, sat m (p_cls (s_prob s)) -> clause_true m core = true) -> Q RUnsat s') ->
    (forall s', solved s s' -> Kd d s' -> Q RInterrupted s') ->
    (forall x s', XX x s' -> X x s') ->
    wp (k_solve_limited E assumps) Q X s.
  Proof.
    intros HK H1 H2 H3 HX. change (k_solve_limited E assumps) with (solve_gen (I := I) E true assumps).
    apply wp_solve_gen; auto.
    - apply HK.
    - intros m s' Hs HL. apply H1; [exact Hs|]. eapply kd_solved; eauto.
    - intros core s' Hs HL. apply H2; [exact Hs|]. eapply kd_solved; eauto.
    - intros s' _ Hs HL. apply H3; [exact Hs|]. eapply kd_solved; eauto.
    - intros x s' Hs Hx. apply HX. eapply kd_exit; eauto.
  Qed.
  Lemma wp_unlimited d assumps (Q : sres -> st -> Prop) (X : exit -> st -> Prop) s : Kd d s ->
    (forall m s', solved s s' -> Kd d s' -> s_ora s' = OModel m ->
       sat m (p_cls (s_prob s)) -> lits_true m assumps -> Q RSat s') ->
    (forall core s', solved s s' -> Kd d s' -> s_ora s' = OCore core ->
       (forall l, In l core -> In (lnot l) assumps) -> (NoDup assumps -> NoDup core) ->
       (forall m, sat m (p_cls (s_prob s)) -> clause_true m core = true) -> Q RUnsat s') ->
    (forall x s', XX x s' -> X x s') ->
    wp (k_solve_assumps E assumps) Q X s.
  Proof.
    intros HK H1 H2 HX. change (k_solve_assumps E assumps) with (solve_gen (I := I) E false assumps).
    apply wp_solve_gen; auto.
    - apply HK.
    - intros m s' Hs HL. apply H1; [exact Hs|]. eapply kd_solved; eauto.
    - intros core s' Hs HL. apply H2; [exact Hs|]. eapply kd_solved; eauto.
    - discriminate.
    - intros x s' Hs Hx. apply HX. eapply kd_exit; eauto.
  Qed.

  (** ** Core exhaustion *)
  Lemma wp_exhaust_loop root L : forall n d bound olit (Q : db * lit * nat -> st -> Prop) (X : exit -> st -> Prop) s,
    Kd d s -> tb_int SP T TS d root -> tb_max SP T TS d root = L -> n = L - bound -> 1 <= bound <= L ->
    (forall o, Fo o -> bound <= gv d o root) ->
    (forall d' olit' oidx s', Kd d' s' -> stepd d d' -> 1 <= oidx <= L ->
       (oidx < L -> tb_out SP T TS d' root oidx = Some olit') ->
       (forall o, Fo o -> oidx <= gv d o root) -> Q (d', olit', oidx) s') ->
    (forall x s', XX x s' -> X x s') ->
    wp (exhaust_loop T E n d root bound olit) Q X s.
  Proof.
    induction n as [|n IH]; intros d bound olit Q X s HK Hint HL Hn Hb Hge HQ HX; cbn [exhaust_loop].
    - apply wp_ret. apply HQ; auto using stepd_refl. lia.
    - apply wp_bind. apply wp_build; [exact HK|exact Hint|lia|].
      intros d1 l1 s1 HK1 Hs1 Ho1. apply wp_bind.
      assert (Hn1 : tb_node SP T TS d root) by now apply tb_int_node.
      destruct (proj1 Hs1 root Hn1) as (N1 & _ & M1 & _ & _ & I1).
      eapply wp_limited; [exact HK1| | | |exact HX].
      + intros m s2 _ HK2 _ _ _. apply wp_ret. apply HQ; auto.
      + intros core s2 Hsv HK2 _ Hsub _ Hent. eapply IH; [exact HK2|auto|congruence|lia|lia| | |exact HX].
        * intros o Hfo. destruct o as [a|]; cbn in Hfo |- *; [|lia].
          destruct (kd_comp d1 s1 a HK1 Hfo) as (m & G1 & G2 & G3 & G4).
          specialize (Hent m G2). apply clause_true_iff in Hent. destruct Hent as (x & Hx1 & Hx2).
          specialize (Hsub x Hx1). destruct Hsub as [Hsub|[]]. apply lnot_inj in Hsub. subst x.
          rewrite (tb_out_exact SP T TS _ _ _ _ _ Ho1 G3), (G4 root N1) in Hx2.
          apply Nat.ltb_lt in Hx2. lia.
        * intros d' olit' oidx s' HK' Hs' Hr Ho' Hge'. apply HQ; auto.
          -- eapply stepd_trans; eauto.
          -- intros o Hfo. specialize (Hge' o Hfo). now rewrite (stepd_gv TS _ _ o root (proj1 Hs1) Hn1) in Hge'.
      + intros s2 _ HK2. apply wp_ret. apply HQ; auto.
  Qed.

  Lemma wp_exhaust_core d root (Q : db * lit * nat -> st -> Prop) (X : exit -> st -> Prop) s :
    Kd d s -> tb_int SP T TS d root -> 1 < tb_max SP T TS d root ->
    (forall o, Fo o -> 1 <= gv d o root) ->
    (forall d' olit oidx s', Kd d' s' -> stepd d d' -> 1 <= oidx <= tb_max SP T TS d root ->
       (oidx < tb_max SP T TS d root -> tb_out SP T TS d' root oidx = Some olit) ->
       (forall o, Fo o -> oidx <= gv d o root) -> Q (d', olit, oidx) s') ->
    (forall x s', XX x s' -> X x s') ->
    wp (exhaust_core T E d root) Q X s.
  Proof.
    intros HK Hint HL Hge HQ HX. unfold exhaust_core. apply wp_bind, wp_gets.
    destruct (negb _).
    - apply wp_bind, wp_build; auto. intros d' l s' HK' Hs' Ho'. apply wp_ret. apply HQ; auto. cbn. lia.
    - apply wp_bind, wp_log_start; [apply HK| |intros; apply HX; eapply kd_exit; eauto using quiet_solved].
      intros s1 Hq1 HL1. assert (HK1 : Kd d s1) by (eapply kd_solved; eauto using quiet_solved).
      destruct (tb_int_len SP T TS _ _ Hint) as [Hlen _]. cbv zeta. rewrite Hlen.
      apply wp_bind, wp_guard; [now apply Nat.ltb_lt|]. apply wp_bind.
      eapply (wp_exhaust_loop root (tb_max SP T TS d root)); auto; [lia|].
      intros d' olit oidx s2 HK2 Hs2 Hr Ho Hge2. apply wp_bind, wp_log_end; [apply HK2| |].
      + intros s3 Hq3 HL3. apply wp_ret. apply HQ; auto. eapply kd_solved; eauto using quiet_solved.
      + intros. apply HX. eapply kd_exit; eauto using quiet_solved.
  Qed.

  (** ** Shrinking cores *)
  Definition cgood (core0 core : list lit) (s : st) : Prop :=
    NoDup core /\ incl core core0 /\ forall m, sat m (p_cls (s_prob s)) -> clause_true m core = true.
  Lemma cgood_solved c0 c s s' : solved s s' -> cgood c0 c s -> cgood c0 c s'.
  Proof. intros [_ Hp] (H1 & H2 & H3). split; [exact H1|]. split; [exact H2|]. rewrite Hp. exact H3. Qed.

  Lemma flat_map_drop drop core :
    flat_map (fun l => if lit_eqb l drop then [] else [lnot l]) core =
    map lnot (filter (fun l => negb (lit_eqb l drop)) core).
  Proof.
    induction core as [|l core IH]; cbn; [reflexivity|]. destruct (lit_eqb l drop); cbn; now rewrite IH.
  Qed.

  Lemma wp_minimize d core (Q : list lit -> st -> Prop) (X : exit -> st -> Prop) s :
    Kd d s -> cgood core core s ->
    (forall core' s', Kd d s' -> solved s s' -> cgood core core' s' ->
       (o_core_minimization (s_opts s0) = false -> core' = core) -> Q core' s') ->
    (forall x s', XX x s' -> X x s') ->
    wp (minimize_core E core) Q X s.
  Proof.
    intros HK Hc HQ HX. unfold minimize_core. apply wp_bind, wp_gets.
    assert (Hopt : s_opts s = s_opts s0) by apply (kd_gro _ _ HK). rewrite Hopt.
    destruct (o_core_minimization (s_opts s0)) eqn:e; cbn [negb]; [|apply wp_ret, HQ; auto using solved_refl].
    destruct (length core <=? 1); [apply wp_ret, HQ; auto using solved_refl; congruence|].
    apply wp_bind, wp_log_start; [apply HK| |intros; apply HX; eapply kd_exit; eauto using quiet_solved].
    intros s1 Hq1 HL1. assert (HK1 : Kd d s1) by (eapply kd_solved; eauto using quiet_solved).
    apply wp_bind.
    apply wp_foldM with (P := fun _ c s' => Kd d s' /\ solved s1 s' /\ cgood core c s').
    - intros _ drop _ c s2 _ (HK2 & Hs2 & Hc2). unfold minimize_step. apply wp_bind.
      rewrite flat_map_drop.
      eapply wp_limited; [exact HK2| | | |exact HX].
      + intros m s3 Hs3 HK3 _ _ _. apply wp_ret. split; [exact HK3|].
        split; [eapply solved_trans; eauto|]. eapply cgood_solved; eauto.
      + intros c3 s3 Hs3 HK3 Ho Hsub Hnd Hent. eapply wp_oracle_core; [exact Ho|].
        split; [exact HK3|]. split; [eapply solved_trans; eauto|]. destruct Hc2 as (C1 & C2 & C3).
        split; [apply Hnd, NoDup_lnot, NoDup_filter, C1|]. split.
        * intros l Hl. apply Hsub in Hl. apply in_map_iff in Hl. destruct Hl as (y & Hy1 & Hy2). apply lnot_inj in Hy1. subst y. apply filter_In in Hy2. apply C2, Hy2.
        * destruct Hs3 as [_ ->]. exact Hent.
      + intros s3 Hs3 HK3. apply wp_ret. split; [exact HK3|].
        split; [eapply solved_trans; eauto|]. eapply cgood_solved; eauto.
    - split; [exact HK1|]. split; [apply solved_refl|]. eapply cgood_solved; [|exact Hc]. now apply quiet_solved.
    - intros c s2 (HK2 & Hs2 & Hc2). apply wp_bind, wp_log_end; [apply HK2| |].
      + intros s3 Hq3 HL3. apply wp_ret. apply HQ; [eapply kd_solved; eauto using quiet_solved| | |congruence].
        * eapply solved_trans; [apply quiet_solved, Hq1|]. eapply solved_trans; [exact Hs2|]. now apply quiet_solved.
        * eapply cgood_solved; [|exact Hc2]. now apply quiet_solved.
      + intros. apply HX. eapply kd_exit; eauto using quiet_solved.
  Qed.

  Lemma wp_trim d core (Q : list lit -> st -> Prop) (X : exit -> st -> Prop) s :
    Kd d s -> cgood core core s -> length core <= B ->
    (forall core' s', Kd d s' -> solved s s' -> cgood core core' s' ->
       (o_core_trimming (s_opts s0) = false -> core' = core) -> Q core' s') ->
    (forall x s', XX x s' -> X x s') ->
    wp (trim_core E core) Q X s.
  Proof.
    intros HK Hc HB HQ HX. unfold trim_core. apply wp_bind, wp_gets.
    assert (Hopt : s_opts s = s_opts s0) by apply (kd_gro _ _ HK). rewrite Hopt.
    destruct (o_core_trimming (s_opts s0)) eqn:e; cbn [negb]; [|apply wp_ret, HQ; auto using solved_refl].
    destruct (length core <=? 1); [apply wp_ret, HQ; auto using solved_refl; congruence|].
    apply wp_bind, wp_log_start; [apply HK| |intros; apply HX; eapply kd_exit; eauto using quiet_solved].
    intros s1 Hq1 HL1. assert (HK1 : Kd d s1) by (eapply kd_solved; eauto using quiet_solved).
    apply wp_bind.
    eapply wp_loop with (Inv := fun c s' => Kd d s' /\ solved s1 s' /\ cgood core c s')
                        (mu := fun c _ => length c).
    - intros c s2 (HK2 & Hs2 & Hc2). unfold trim_body.
      assert (Hfin : forall c' s3, Kd d s3 -> solved s1 s3 -> cgood core c' s3 ->
        wp (log_end E ;;; ret c') Q X s3).
      { intros c' s3 HK3 Hs3 Hc3. apply wp_bind, wp_log_end; [apply HK3| |].
        + intros s4 Hq4 HL4. apply wp_ret. apply HQ; [eapply kd_solved; eauto using quiet_solved| | |congruence].
          * eapply solved_trans; [apply quiet_solved, Hq1|]. eapply solved_trans; [exact Hs3|]. now apply quiet_solved.
          * eapply cgood_solved; [|exact Hc3]. now apply quiet_solved.
        + intros. apply HX. eapply kd_exit; eauto using quiet_solved. }
      destruct (length c <=? 1). { apply wp_ret. now apply Hfin. }
      apply wp_bind. eapply wp_unlimited; [exact HK2| | |exact HX].
      + intros m s3 _ _ _ Hm Hl. exfalso. destruct Hc2 as (_ & _ & C3). specialize (C3 m Hm).
        apply clause_true_iff in C3. destruct C3 as (l & L1 & L2).
        assert (Hl' : lit_true m (lnot l) = true) by (apply Hl, in_map, L1).
        rewrite lit_true_lnot, L2 in Hl'. discriminate.
      + intros c3 s3 Hs3 HK3 Ho Hsub Hnd Hent. apply wp_bind, wp_guard; [reflexivity|].
        apply wp_bind. eapply wp_oracle_core; [exact Ho|].
        destruct Hc2 as (C1 & C2 & C3).
        assert (S1 : incl c3 c).
        { intros l Hl. apply Hsub in Hl. apply in_map_iff in Hl. destruct Hl as (y & Hy1 & Hy2). apply lnot_inj in Hy1. now subst y. }
        assert (N1 : NoDup c3) by (apply Hnd, NoDup_lnot, C1).
        assert (G : cgood core c3 s3).
        { split; [exact N1|]. split; [eapply incl_tran; eauto|]. destruct Hs3 as [_ ->]. exact Hent. }
        assert (Ls : solved s1 s3) by (eapply solved_trans; eauto).
        pose proof (NoDup_incl_length N1 S1).
        destruct (length c3 =? length c) eqn:el; apply wp_ret; [now apply Hfin|].
        apply Nat.eqb_neq in el. split; [auto|lia].
    - split; [exact HK1|]. split; [apply solved_refl|]. eapply cgood_solved; [|exact Hc]. now apply quiet_solved.
    - intros c s2 (HK2 & _ & _) Hle. apply HX. left. split.
      + right. split; [reflexivity|lia].
      + exists d. split; apply HK2.
  Qed.
End Run.
