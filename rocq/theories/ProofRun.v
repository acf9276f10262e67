(** * The lines written by the proof logger are accepted by the checker *)
From Coq Require Import List Arith ZArith Lia Bool.
From Verif Require Import Base BaseLemmas Spec MTypes MKernel MPMinimal MPrepro EncSpec Sem Kern Init ApiSpec Ext VeriPB VeriThm MProofs ProofThm.
Import ListNotations.
Local Open Scope Z_scope.

Lemma wsum_ext : forall a b ls, (forall lw, In lw ls -> lit_true a (fst lw) = lit_true b (fst lw)) -> wsum a ls = wsum b ls.
Proof.
  intros a b ls H. induction ls as [|[l w] ls IH]; [reflexivity|]. cbn [wsum].
  pose proof (H (l, w) (or_introl eq_refl)) as X. cbn [fst] in X. rewrite X, IH; [reflexivity|].
  intros lw Hl. apply H. right. exact Hl.
Qed.

(** ** Checker bookkeeping *)
Lemma steps_next_app : forall s1 s2 k, steps_next k (s1 ++ s2) = steps_next (steps_next k s1) s2.
Proof. induction s1 as [|s s1 IH]; intros s2 k; [reflexivity|]. cbn [app steps_next]. apply IH. Qed.
Lemma steps_valid_app : forall s1 s2 k, steps_valid k (s1 ++ s2) <-> steps_valid k s1 /\ steps_valid (steps_next k s1) s2.
Proof.
  induction s1 as [|s s1 IH]; intros s2 k; cbn [app steps_next steps_valid]; [tauto|]. rewrite IH. tauto.
Qed.
Definition cvars (c : pconstr) : list pv := map (fun t => ax_var (snd t)) (lb_terms c).

(** [p] is a proof log whose lines are all accepted from [k0] on: ids agree with those of
    the checker, proof-only variables in use are below the next one *)
Definition kof (k0 : chk) (p : pst) : chk := steps_next k0 (ps_log p).
Record wok (k0 : chk) (p : pst) : Prop := mkWok {
  wk_ids : ids_ok (kof k0 p);
  wk_valid : steps_valid k0 (ps_log p);
  wk_next : k_next (kof k0 p) = ps_next p;
  wk_fresh : forall e n, In e (k_all (kof k0 p)) -> In (PVp n) (cvars (snd e)) -> (n < ps_nextvar p)%nat
}.
Lemma kof_wr_id : forall k0 s p, kof k0 (snd (wr_id s p)) = step_next (kof k0 p) s.
Proof. intros. unfold kof, wr_id. cbn [snd ps_log]. rewrite steps_next_app. reflexivity. Qed.
Lemma kof_wr : forall k0 s p, kof k0 (wr s p) = step_next (kof k0 p) s.
Proof. intros. unfold kof, wr. cbn [ps_log]. rewrite steps_next_app. reflexivity. Qed.

Lemma wok_step : forall k0 p p' s, wok k0 p -> ps_log p' = ps_log p ++ [s] ->
  step_valid (kof k0 p) s -> k_next (step_next (kof k0 p) s) = ps_next p' ->
  (forall e n, In e (k_all (step_next (kof k0 p) s)) -> In (PVp n) (cvars (snd e)) -> (n < ps_nextvar p')%nat) ->
  wok k0 p'.
Proof.
  intros k0 p p' s [H1 H2 H3 H4] E Hv Hn Hf.
  assert (Ek : kof k0 p' = step_next (kof k0 p) s) by (unfold kof; rewrite E, steps_next_app; reflexivity).
  constructor.
  - rewrite Ek. apply step_ids. exact H1.
  - rewrite E. apply steps_valid_app. split; [exact H2|]. cbn [steps_valid]. split; [exact Hv|exact Logic.I].
  - rewrite Ek. exact Hn.
  - rewrite Ek. exact Hf.
Qed.
(** a line deriving one constraint *)
Lemma in_add_der : forall k c e, In e (k_all (add_der k c)) <-> e = (k_next k, c) \/ In e (k_all k).
Proof. intros k c e. rewrite !in_k_all. unfold add_der. cbn [k_core k_der In]. intuition. Qed.
Lemma wok_der : forall k0 p s c, wok k0 p -> step_valid (kof k0 p) s -> step_next (kof k0 p) s = add_der (kof k0 p) c ->
  (forall n, In (PVp n) (cvars c) -> (n < ps_nextvar p)%nat) ->
  wok k0 (snd (wr_id s p)) /\ In (fst (wr_id s p), c) (k_all (kof k0 (snd (wr_id s p)))) /\
  (forall e, In e (k_all (kof k0 p)) -> In e (k_all (kof k0 (snd (wr_id s p))))).
Proof.
  intros k0 p s c W Hv E Hc.
  assert (Hn : k_next (kof k0 p) = ps_next p) by (destruct W; assumption).
  split; [|split].
  - eapply wok_step; [exact W|reflexivity|exact Hv| |].
    + rewrite E. cbn [add_der k_next]. rewrite Hn. reflexivity.
    + intros e n He. rewrite E in He. apply in_add_der in He. cbn [snd wr_id ps_nextvar]. destruct He as [->|He].
      * apply Hc.
      * intros Hx. destruct W as [_ _ _ W]. exact (W e n He Hx).
  - rewrite kof_wr_id, E. apply in_add_der. left. cbn [fst wr_id]. rewrite Hn. reflexivity.
  - intros e He. rewrite kof_wr_id, E. apply in_add_der. right. exact He.
Qed.

(** ids *)
Lemma e_get_some : forall es i c, (forall i c c', In (i, c) es -> In (i, c') es -> c = c') -> In (i, c) es -> e_get es i = Some c.
Proof.
  intros es i c Hu H. induction es as [|[j d] es IH]; [destruct H|]. cbn [e_get].
  destruct (Nat.eqb_spec j i) as [->|Hj].
  - f_equal. apply (Hu i); [left; reflexivity|exact H].
  - apply IH; [|destruct H as [H|H]; [congruence|exact H]].
    intros i' c1 c2 X Y. apply (Hu i'); right; assumption.
Qed.
Lemma k_get : forall k i c, ids_ok k -> In (i, c) (k_all k) -> e_get (k_all k) i = Some c.
Proof. intros k i c (H & _). apply e_get_some. exact H. Qed.
Lemma e_get_skip : forall es j d i, j <> i -> e_get ((j, d) :: es) i = e_get es i.
Proof. intros. cbn [e_get]. destruct (Nat.eqb_spec j i); [contradiction|reflexivity]. Qed.

(** goals that always hold *)
Lemma goal_trivial : forall es n g, (forall a, lb_holds a g) -> goal_ok es n None g.
Proof.
  intros es n g H. left. apply (up_conflict _ _ (lb_negate g)); [left; reflexivity|].
  intros a _ Hn. apply lb_negate_holds in Hn. exact (Hn (H a)).
Qed.
Lemma goal_member : forall es n g d, In d (map snd es) -> (forall a, lb_holds a d -> lb_holds a g) -> goal_ok es n None g.
Proof. intros es n g d Hd H. right. exists d. split; assumption. Qed.

(** the substitution of one proof-only variable *)
Lemma su_one : forall v b (a : pv -> bool) x, su_asg pv_eqd [(v, b)] a x = if pv_eqd v x then b else a x.
Proof. intros v b a x. unfold su_asg. cbn [su_get]. destruct (pv_eqd v x); reflexivity. Qed.
Lemma order_goal_refl : forall ord w o, In o ord -> (forall a, ord_holds ord a a) ->
  (forall v, su_get pv_eqd w (PVs v) = None) -> forall a, lb_holds a (ord_goal w o).
Proof.
  intros ord w o Ho Hr Hw a. apply ord_goal_holds.
  assert (E : forall v, on_solver (su_asg pv_eqd w a) v = on_solver a v).
  { intros v. unfold on_solver, su_asg. rewrite Hw. reflexivity. }
  pose proof (Hr (on_solver a)) as X. unfold ord_holds in X. rewrite Forall_forall in X. specialize (X o Ho).
  apply (lb_holds_ext (ov_asg (on_solver a) (on_solver a) (on_solver a))); [|exact X].
  intros t _. destruct (ax_var (snd t)) as [v|v|v]; cbn [ov_asg]; try reflexivity. symmetry. apply E.
Qed.
(** redundance with a witness over a fresh variable *)
Lemma red_fresh : forall es next ord c v b,
  (forall a, ord_holds ord a a) -> (forall x, v <> PVs x) ->
  (forall a, a v = b -> lb_holds a c) ->
  (forall e, In e es -> ~ In v (cvars (snd e)) \/
     forall a, ~ lb_holds a c -> lb_holds (su_asg pv_eqd [(v, b)] a) (snd e)) ->
  red_ok es es next ord c [(v, b)] [].
Proof.
  intros es next ord c v b Hr Hv Hc He. split; [|split].
  - cbn [g_get]. apply goal_trivial. intros a. apply lb_subst_holds. apply Hc. rewrite su_one.
    destruct (pv_eqd v v); congruence.
  - intros i o Ho. cbn [g_get]. apply goal_trivial. apply (order_goal_refl ord).
    + exact (nth_error_In _ _ Ho).
    + exact Hr.
    + intros x. cbn [su_get]. destruct (pv_eqd v (PVs x)) as [E|]; [exfalso; exact (Hv x E)|reflexivity].
  - intros e Hi. destruct (He e Hi) as [Hn|Hn].
    + apply (goal_member _ _ _ (snd e)).
      * right. apply in_map. exact Hi.
      * intros a Ha. rewrite lb_subst_id; [exact Ha|]. intros x Hx. cbn [su_get].
        destruct (pv_eqd v x) as [->|]; [|reflexivity]. exfalso. apply Hn. apply (in_lb_vars pv_eqd). exact Hx.
    + apply (goal_member _ _ _ (lb_negate c)).
      * left. reflexivity.
      * intros a Ha. apply lb_subst_holds. apply lb_negate_holds in Ha. apply Hn. exact Ha.
Qed.

(** redundance with a witness over one variable that does not occur in the order *)
Definition ord_free (ord : list (lbc ov)) (v : pv) : Prop :=
  forall o t x, In o ord -> In t (lb_terms o) -> ax_var (snd t) = OvU x -> v <> PVs x.
Lemma order_goal_free : forall ord v b o, In o ord -> (forall a, ord_holds ord a a) -> ord_free ord v ->
  forall a, lb_holds a (ord_goal [(v, b)] o).
Proof.
  intros ord v b o Ho Hr Hf a. apply ord_goal_holds.
  pose proof (Hr (on_solver a)) as X. unfold ord_holds in X. rewrite Forall_forall in X. specialize (X o Ho).
  apply (lb_holds_ext (ov_asg (on_solver a) (on_solver a) (on_solver a))); [|exact X].
  intros t Ht. destruct (ax_var (snd t)) as [x|x|x] eqn:E; cbn [ov_asg]; try reflexivity.
  unfold on_solver. rewrite su_one. destruct (pv_eqd v (PVs x)) as [Ev|]; [|reflexivity].
  exfalso. exact (Hf o t x Ho Ht E Ev).
Qed.
Lemma red_free : forall es next ord c v b,
  (forall a, ord_holds ord a a) -> ord_free ord v ->
  (forall a, a v = b -> lb_holds a c) ->
  (forall e, In e es -> ~ In v (cvars (snd e)) \/
     forall a, ~ lb_holds a c -> lb_holds (su_asg pv_eqd [(v, b)] a) (snd e)) ->
  red_ok es es next ord c [(v, b)] [].
Proof.
  intros es next ord c v b Hr Hv Hc He. split; [|split].
  - cbn [g_get]. apply goal_trivial. intros a. apply lb_subst_holds. apply Hc. rewrite su_one.
    destruct (pv_eqd v v); congruence.
  - intros i o Ho. cbn [g_get]. apply goal_trivial. apply (order_goal_free ord); [exact (nth_error_In _ _ Ho)|exact Hr|exact Hv].
  - intros e Hi. destruct (He e Hi) as [Hn|Hn].
    + apply (goal_member _ _ _ (snd e)).
      * right. apply in_map. exact Hi.
      * intros a Ha. rewrite lb_subst_id; [exact Ha|]. intros x Hx. cbn [su_get].
        destruct (pv_eqd v x) as [->|]; [|reflexivity]. exfalso. apply Hn. apply (in_lb_vars pv_eqd). exact Hx.
    + apply (goal_member _ _ _ (lb_negate c)).
      * left. reflexivity.
      * intros a Ha. apply lb_subst_holds. apply lb_negate_holds in Ha. apply Hn. exact Ha.
Qed.

(** ** Reified objective bounds *)
Lemma bound_def_1_vars : forall o v r x, In x (cvars (bound_def_1 o v r)) -> x = r \/ exists y, x = PVs y.
Proof.
  intros o v r x H. unfold cvars, bound_def_1 in H. cbn [lb_terms] in H. rewrite map_app, in_app_iff in H.
  destruct H as [H|[H|[]]]; [|left; symmetry; exact H]. right.
  rewrite map_map in H. apply in_map_iff in H. destruct H as (lw & <- & _). eexists. reflexivity.
Qed.
Lemma bound_def_2_vars : forall o v r x, In x (cvars (bound_def_2 o v r)) -> x = r \/ exists y, x = PVs y.
Proof.
  intros o v r x H. unfold cvars, bound_def_2 in H. cbn [lb_terms] in H. rewrite map_app, in_app_iff in H.
  destruct H as [H|[H|[]]]; [|left; symmetry; exact H]. right.
  rewrite map_map in H. apply in_map_iff in H. destruct H as (lw & <- & _). eexists. reflexivity.
Qed.

(** cached bounds are defined by constraints of the proof *)
Definition bounds_ok (k0 : chk) (objs : list objective) (p : pst) : Prop :=
  forall i v l d1 d2, bound_get (ps_bounds p) (i, v) = Some (l, d1, d2) ->
    exists o n, In o objs /\ obj_idx o = i /\ l = mkAx (PVp n) false /\
      In (d1, bound_def_1 o v (PVp n)) (k_all (kof k0 p)) /\
      In (d2, bound_def_2 o v (PVp n)) (k_all (kof k0 p)) /\
      In (l, VObjAtLeast i v) (ps_vmap p).

Lemma key_eqb_spec : forall a b, reflect (a = b) (key_eqb a b).
Proof.
  intros [a1 a2] [b1 b2]. unfold key_eqb. cbn [fst snd].
  destruct (Nat.eqb_spec a1 b1), (Nat.eqb_spec a2 b2); cbn; constructor; congruence.
Qed.

Lemma get_obj_bound_ok : forall k0 objs o v p l d1 d2 p',
  (forall a, ord_holds (k_order (kof k0 p)) a a) ->
  (forall o1 o2, In o1 objs -> In o2 objs -> obj_idx o1 = obj_idx o2 -> o1 = o2) -> In o objs ->
  wok k0 p -> bounds_ok k0 objs p ->
  get_obj_bound v o p = ((l, d1, d2), p') ->
  wok k0 p' /\ bounds_ok k0 objs p' /\
  (exists n, l = mkAx (PVp n) false /\
    In (d1, bound_def_1 o v (PVp n)) (k_all (kof k0 p')) /\
    In (d2, bound_def_2 o v (PVp n)) (k_all (kof k0 p'))) /\
  In (l, VObjAtLeast (obj_idx o) v) (ps_vmap p') /\
  (forall e, In e (k_all (kof k0 p)) -> In e (k_all (kof k0 p'))) /\
  k_order (kof k0 p') = k_order (kof k0 p) /\ k_excl (kof k0 p') = k_excl (kof k0 p) /\
  k_core (kof k0 p') = k_core (kof k0 p) /\
  ps_reg p' = ps_reg p /\ (ps_nextvar p <= ps_nextvar p')%nat /\
  ((ps_vmap p' = ps_vmap p /\ k_der (kof k0 p') = k_der (kof k0 p)) \/
   (l = mkAx (PVp (ps_nextvar p)) false /\ ps_nextvar p' = S (ps_nextvar p) /\
    ps_vmap p' = ps_vmap p ++ [(l, VObjAtLeast (obj_idx o) v)] /\
    k_der (kof k0 p') = (d2, bound_def_2 o v (PVp (ps_nextvar p))) :: (d1, bound_def_1 o v (PVp (ps_nextvar p))) :: k_der (kof k0 p))).
Proof.
  intros k0 objs o v p l d1 d2 p' Hr Hidx Ho W B E. unfold get_obj_bound in E.
  destruct (bound_get (ps_bounds p) (obj_idx o, v)) as [[[l0 e1] e2]|] eqn:G.
  - injection E as <- <- <- <-. destruct (B _ _ _ _ _ G) as (o' & n & Ho' & Ei & -> & B1 & B2 & B3).
    assert (o' = o) by (apply Hidx; assumption). subst o'.
    do 2 (split; [assumption|]). split; [exists n; tauto|]. split; [exact B3|].
    split; [tauto|]. do 3 (split; [reflexivity|]).
    split; [reflexivity|]. split; [lia|]. left. split; reflexivity.
  - unfold new_proof_var in E.
    set (n := ps_nextvar p) in *.
    set (p1 := push_value (mkAx (PVp n) false, VObjAtLeast (obj_idx o) v)
                 (mkPst (ps_next p) (S n) (ps_log p) (ps_vmap p) (ps_bounds p) (ps_reg p))) in *.
    assert (W1 : wok k0 p1).
    { destruct W as [w1 w2 w3 w4]. constructor; try assumption. intros e m He Hm. specialize (w4 e m He Hm).
      cbn [p1 push_value ps_nextvar]. unfold n. lia. }
    assert (K1 : kof k0 p1 = kof k0 p) by reflexivity.
    assert (Hfr : forall e, In e (k_all (kof k0 p1)) -> ~ In (PVp n) (cvars (snd e))).
    { intros e He Hx. rewrite K1 in He. destruct W as [_ _ _ w4]. specialize (w4 e n He Hx). unfold n in w4. lia. }
    set (c1 := bound_def_1 o v (PVp n)) in *. set (c2 := bound_def_2 o v (PVp n)) in *.
    assert (Hv1 : step_valid (kof k0 p1) (SRed c1 [(PVp n, true)] [])).
    { cbn [step_valid]. apply red_fresh.
      - rewrite K1. exact Hr.
      - discriminate.
      - intros a Ha. apply bound_def_1_holds. congruence.
      - intros e He. left. exact (Hfr e He). }
    destruct (wok_der k0 p1 _ c1 W1 Hv1 eq_refl) as (W2 & I2 & M2).
    { intros m Hm. apply bound_def_1_vars in Hm. destruct Hm as [Hm|(y & Hm)]; [|discriminate].
      injection Hm as ->. cbn [p1 push_value ps_nextvar]. lia. }
    destruct (wr_id (SRed c1 [(PVp n, true)] []) p1) as [i1 p2] eqn:E1. cbn [fst snd] in W2, I2, M2.
    assert (K2 : kof k0 p2 = add_der (kof k0 p) c1).
    { pose proof (kof_wr_id k0 (SRed c1 [(PVp n, true)] []) p1) as X. rewrite E1 in X. cbn [snd] in X. rewrite X. reflexivity. }
    assert (Hv2 : step_valid (kof k0 p2) (SRed c2 [(PVp n, false)] [])).
    { cbn [step_valid]. apply red_fresh.
      - rewrite K2. exact Hr.
      - discriminate.
      - intros a Ha. apply bound_def_2_holds. congruence.
      - intros e He. rewrite K2 in He. apply in_add_der in He. destruct He as [->|He].
        + right. intros a Hn. cbn [snd]. apply bound_def_1_holds. intros _.
          assert (X : (icost o (on_solver a) < v)%nat).
          { destruct (le_lt_dec v (icost o (on_solver a))) as [L|L]; [|exact L]. exfalso. apply Hn.
            apply bound_def_2_holds. intros _. exact L. }
          replace (icost o (on_solver (su_asg pv_eqd [(PVp n, false)] a))) with (icost o (on_solver a)); [exact X|].
          unfold icost. apply wsum_ext. intros lw _. unfold lit_true, on_solver. rewrite su_one.
          destruct (pv_eqd (PVp n) (PVs (lvar (fst lw)))); [discriminate|reflexivity].
        + left. rewrite <- K1 in He. exact (Hfr e He). }
    destruct (wok_der k0 p2 _ c2 W2 Hv2 eq_refl) as (W3 & I3 & M3).
    { intros m Hm. apply bound_def_2_vars in Hm. destruct Hm as [Hm|(y & Hm)]; [|discriminate].
      injection Hm as ->. unfold wr_id in E1. injection E1 as _ <-. cbn [ps_nextvar p1 push_value]. lia. }
    destruct (wr_id (SRed c2 [(PVp n, false)] []) p2) as [i2 p3] eqn:E2. cbn [fst snd] in W3, I3, M3.
    assert (K3 : kof k0 p3 = add_der (add_der (kof k0 p) c1) c2).
    { pose proof (kof_wr_id k0 (SRed c2 [(PVp n, false)] []) p2) as X. rewrite E2 in X. cbn [snd] in X. rewrite X, K2. reflexivity. }
    unfold wr_id in E1, E2. injection E1 as <- <-. injection E2 as <- <-.
    injection E as <- <- <- <-.
    match goal with |- wok k0 ?x /\ _ => set (pf := x) end.
    assert (Kf : kof k0 pf = add_der (add_der (kof k0 p) c1) c2) by exact K3.
    assert (Wf : wok k0 pf) by (destruct W3 as [w1 w2 w3 w4]; constructor; assumption).
    assert (If1 : In (ps_next p, c1) (k_all (kof k0 pf))) by exact (M3 _ I2).
    assert (If2 : In (S (ps_next p), c2) (k_all (kof k0 pf))) by exact I3.
    assert (Mf : forall e, In e (k_all (kof k0 p)) -> In e (k_all (kof k0 pf))) by (intros e He; exact (M3 e (M2 e He))).
    split; [exact Wf|]. split.
    { intros i w l e1 e2 Hg. cbn [pf add_bound ps_bounds p1 push_value bound_get] in Hg.
      destruct (key_eqb_spec (obj_idx o, v) (i, w)) as [Ek|Ek].
      - injection Ek as <- <-. injection Hg as <- <- <-. exists o, n.
        do 3 (split; [first [assumption|reflexivity]|]). split; [exact If1|]. split; [exact If2|].
        cbn [pf add_bound ps_vmap p1 push_value]. apply in_or_app. right. left. reflexivity.
      - destruct (B _ _ _ _ _ Hg) as (o' & n' & X1 & X2 & X3 & X4 & X5 & X6). exists o', n'.
        do 3 (split; [assumption|]). split; [exact (Mf _ X4)|]. split; [exact (Mf _ X5)|].
        cbn [pf add_bound ps_vmap p1 push_value]. apply in_or_app. left. exact X6. }
    split; [exists n; split; [reflexivity|]; split; assumption|].
    split; [cbn [pf add_bound ps_vmap p1 push_value]; apply in_or_app; right; left; reflexivity|].
    split; [exact Mf|]. rewrite Kf. do 3 (split; [reflexivity|]).
    split; [reflexivity|]. split; [cbn [pf add_bound ps_nextvar p1 push_value]; unfold n; lia|].
    right. split; [reflexivity|]. split; [reflexivity|]. split; [reflexivity|]. unfold add_der. cbn [k_der k_next].
    destruct W as [_ _ w3 _]. rewrite w3. reflexivity.
Qed.
