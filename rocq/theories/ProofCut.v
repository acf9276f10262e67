(** * The cut of a Pareto-optimal solution is accepted by the checker *)
From Coq Require Import List Arith ZArith Lia Bool.
From Verif Require Import Base BaseLemmas Spec MTypes MKernel MPMinimal MPrepro EncSpec Sem Kern Init ApiSpec Ext VeriPB VeriThm MProofs ProofThm ProofRun.
Import ListNotations.
Local Open Scope Z_scope.

(** ** Propagation *)
Section Prop_.
Context {V : Type}.
Implicit Types (cs : list (lbc V)) (r ls : list (ax V)).
Lemma ax_all_incl : forall (a : V -> bool) r s, (forall l, In l r -> In l s) -> ax_all a s -> ax_all a r.
Proof. intros a r s H Hs l Hl. apply Hs. apply H. exact Hl. Qed.
Lemma propagates_more : forall r s (c : lbc V) l, (forall x, In x r -> In x s) -> propagates r c l -> propagates s c l.
Proof. intros r s c l H Hp a Ha. apply Hp. exact (ax_all_incl a r s H Ha). Qed.
Lemma up_many : forall cs ls r, (forall l, In l ls -> exists c, In c cs /\ propagates r c l) ->
  (forall s, (forall l, In l ls \/ In l r -> In l s) -> up cs s) -> up cs r.
Proof.
  intros cs ls. induction ls as [|l ls IH]; intros r H Hu.
  - apply Hu. intros l [[]|Hl]. exact Hl.
  - destruct (H l (or_introl eq_refl)) as (c & Hc & Hp). apply (up_step _ _ c l Hc Hp). apply IH.
    + intros x Hx. destruct (H x (or_intror Hx)) as (d & Hd & Hq). exists d. split; [exact Hd|].
      apply (propagates_more r); [|exact Hq]. intros y Hy. right. exact Hy.
    + intros s Hs. apply Hu. intros x [[<-|Hx]|Hx]; apply Hs.
      * right. left. reflexivity.
      * left. exact Hx.
      * right. right. exact Hx.
Qed.
Lemma up_to_more : forall cs ds r full, incl cs ds -> up_to cs r full -> up_to ds r full.
Proof.
  intros cs ds r full Hi H. induction H as [r full H|r full c l Hc Hp H IH].
  - apply upt_done. exact H.
  - apply (upt_step _ _ _ c l); [apply Hi; exact Hc|exact Hp|apply IH; exact Hi].
Qed.
End Prop_.

(** ** Values of constraints *)
Definition lb_val {V} (a : V -> bool) (c : lbc V) : Z := lb_sum a (lb_terms c) - lb_bound c.
Lemma val_holds : forall {V} (a : V -> bool) c, lb_holds a c <-> 0 <= lb_val a c.
Proof. intros. unfold lb_holds, lb_val. lia. Qed.
Lemma val_add : forall {V} (a : V -> bool) c d, lb_val a (lb_add c d) = lb_val a c + lb_val a d.
Proof. intros. unfold lb_val, lb_add. cbn [lb_terms lb_bound]. rewrite lb_sum_app. lia. Qed.
Lemma val_mul : forall {V} (a : V -> bool) k c, lb_val a (lb_mul k c) = k * lb_val a c.
Proof. intros. unfold lb_val, lb_mul. cbn [lb_terms lb_bound]. rewrite lb_sum_mul. lia. Qed.
Lemma val_negate : forall {V} (a : V -> bool) c, lb_val a (lb_negate c) = - lb_val a c - 1.
Proof. intros. unfold lb_val, lb_negate. cbn [lb_terms lb_bound]. rewrite lb_sum_opp. lia. Qed.
Lemma val_unit : forall {V} (a : V -> bool) l, lb_val a (lb_clause [l]) = b2z (ax_true a l) - 1.
Proof. intros. unfold lb_val, lb_clause. cbn [map lb_terms lb_bound lb_sum]. lia. Qed.

Lemma ones_sum : forall {V} (a : V -> bool) k ls,
  lb_sum a (map (fun l => (k, l)) ls) = k * Z.of_nat (length (filter (ax_true a) ls)).
Proof.
  intros V a k ls. induction ls as [|l ls IH]; [cbn; lia|]. cbn [map lb_sum filter]. rewrite IH.
  destruct (ax_true a l); cbn [length b2z]; lia.
Qed.
Lemma filter_all : forall {A} (f : A -> bool) ls, (forall l, In l ls -> f l = true) -> filter f ls = ls.
Proof.
  intros A f ls H. induction ls as [|l ls IH]; [reflexivity|]. cbn [filter]. rewrite (H l (or_introl eq_refl)), IH; [reflexivity|].
  intros x Hx. apply H. right. exact Hx.
Qed.
Lemma filter_none : forall {A} (f : A -> bool) ls, (forall l, In l ls -> f l = false) -> filter f ls = [].
Proof.
  intros A f ls H. induction ls as [|l ls IH]; [reflexivity|]. cbn [filter]. rewrite (H l (or_introl eq_refl)). apply IH.
  intros x Hx. apply H. right. exact Hx.
Qed.
Lemma filter_full : forall {A} (f : A -> bool) ls, (length ls <= length (filter f ls))%nat -> forall l, In l ls -> f l = true.
Proof.
  intros A f ls. induction ls as [|x ls IH]; intros H l Hl; [destruct Hl|]. cbn [filter length] in H.
  assert (L : (length (filter f ls) <= length ls)%nat) by (clear; induction ls as [|y l IH]; [cbn; lia|cbn; destruct (f y); cbn; lia]).
  destruct (f x) eqn:E; cbn [length] in H; [|lia]. destruct Hl as [<-|Hl]; [exact E|]. apply IH; [lia|exact Hl].
Qed.
Lemma filter_some : forall {A} (f : A -> bool) ls l, In l ls -> f l = true -> (1 <= length (filter f ls))%nat.
Proof.
  intros A f ls l Hl Hf. assert (X : In l (filter f ls)) by (apply filter_In; tauto).
  destruct (filter f ls); [destruct X|cbn; lia].
Qed.

(** the constraint mapping dominated solutions to the witness: if no literal of the cut is
    true, the assignment extends the witness *)
Lemma map_dom_holds : forall (a : pv -> bool) fw cut,
  lb_holds a (map_dom_constr fw cut) <-> ax_all a fw \/ exists l, In l cut /\ ax_true a l = true.
Proof.
  intros a fw cut. unfold lb_holds, map_dom_constr. cbn [lb_terms lb_bound]. rewrite lb_sum_app, !ones_sum.
  split.
  - intros H. destruct (filter (ax_true a) cut) as [|l r] eqn:E.
    + left. intros l Hl. apply (filter_full (ax_true a) fw); [|exact Hl]. cbn [length] in H. lia.
    + right. exists l. assert (X : In l (filter (ax_true a) cut)) by (rewrite E; left; reflexivity).
      apply filter_In in X. exact X.
  - intros [H|(l & Hl & Ht)].
    + rewrite (filter_all (ax_true a) fw H). nia.
    + pose proof (filter_some (ax_true a) cut l Hl Ht). nia.
Qed.

(** ** The witness as a substitution *)
Lemma fw_get : forall fw (a0 : pv -> bool), ax_all a0 fw -> forall l, In l fw ->
  su_get pv_eqd (map ax_subst fw) (ax_var l) = Some (a0 (ax_var l)).
Proof.
  intros fw a0. induction fw as [|x fw IH]; intros Ha l Hl; [destruct Hl|]. cbn [map su_get ax_subst].
  destruct (pv_eqd (ax_var x) (ax_var l)) as [E|N].
  - f_equal. pose proof (Ha x (or_introl eq_refl)) as X. unfold ax_true in X. rewrite E in X.
    destruct (ax_neg x), (a0 (ax_var l)); cbn in *; congruence.
  - destruct Hl as [->|Hl]; [contradiction|]. apply IH; [|exact Hl]. intros y Hy. apply Ha. right. exact Hy.
Qed.
Lemma fw_subst : forall fw (a0 a : pv -> bool), ax_all a0 fw -> ax_all (su_asg pv_eqd (map ax_subst fw) a) fw.
Proof.
  intros fw a0 a Ha l Hl. unfold ax_true, su_asg. rewrite (fw_get fw a0 Ha l Hl). exact (Ha l Hl).
Qed.

(** ** Sub-proofs *)
Lemma last_1 : forall es n c, id_get ((n, c) :: es) (S n) (CLast 1) = Some c.
Proof.
  intros es n c. cbn [id_get]. replace (1 <=? S n)%nat with true by (symmetry; apply Nat.leb_le; lia).
  replace (S n - 1)%nat with n by lia. cbn [e_get]. rewrite Nat.eqb_refl. reflexivity.
Qed.
Lemma last_2 : forall es n c d, id_get ((S n, d) :: (n, c) :: es) (S (S n)) (CLast 2) = Some c.
Proof.
  intros es n c d. cbn [id_get]. replace (2 <=? S (S n))%nat with true by (symmetry; apply Nat.leb_le; lia).
  replace (S (S n) - 2)%nat with n by lia. rewrite e_get_skip by lia. cbn [e_get]. rewrite Nat.eqb_refl. reflexivity.
Qed.
Lemma sub_end : forall es n c, contradictory c -> sub_ok ((n, c) :: es) (S n) [].
Proof. intros es n c H. exists c. split; [apply last_1|exact H]. Qed.
Lemma sub_pol : forall es n p c ds, pol_eval pv_eqd (id_get es n) p = Some c -> sub_ok ((n, c) :: es) (S n) ds ->
  sub_ok es n (DPol p :: ds).
Proof. intros es n p c ds H1 H2. exists c. split; assumption. Qed.
Lemma sub_rup : forall es n c hs cs ds, opt_all (map (id_get es n) hs) = Some cs -> rup cs c ->
  sub_ok ((n, c) :: es) (S n) ds -> sub_ok es n (DRup c hs :: ds).
Proof. intros es n c hs cs ds H1 H2 H3. exists cs. split; [exact H1|]. split; assumption. Qed.
Lemma dom_goal_idx : forall neg i d c n ds, dom_goal neg i d c = Some (n, ds) -> n = (i + 2)%nat.
Proof. intros neg i [[l|] [r|]] c n ds H; cbn [dom_goal] in H; try discriminate; injection H as <- _; reflexivity. Qed.
Lemma g_get_dom : forall neg ds cs i,
  g_get (dom_goals neg ds cs) (i + 2) =
  match nth_error (combine ds cs) i with
  | Some (d, c) => option_map snd (dom_goal neg i d c)
  | None => None
  end.
Proof.
  intros neg ds cs i. unfold dom_goals, enumerate. generalize (combine ds cs) as l. intros l.
  assert (G : forall l k i, g_get (filter_map (fun x => dom_goal neg (fst x) (fst (snd x)) (snd (snd x)))
                 (combine (seq k (length l)) l)) (k + i + 2) =
              match nth_error l i with Some (d, c) => option_map snd (dom_goal neg (k + i) d c) | None => None end).
  { clear l i. induction l as [|[d c] l IH]; intros k i; [destruct i; reflexivity|].
    cbn [length seq combine filter_map fst snd].
    destruct i as [|i].
    - cbn [nth_error]. rewrite Nat.add_0_r. destruct (dom_goal neg k d c) as [[n ss]|] eqn:E.
      + cbn [g_get]. rewrite (dom_goal_idx _ _ _ _ _ _ E), Nat.eqb_refl. reflexivity.
      + cbn [option_map].
        assert (N : forall l j, (k < j)%nat -> g_get (filter_map (fun x => dom_goal neg (fst x) (fst (snd x)) (snd (snd x)))
                 (combine (seq j (length l)) l)) (k + 2) = None).
        { clear. induction l as [|[d c] l IH]; intros j Hj; [reflexivity|]. cbn [length seq combine filter_map fst snd].
          destruct (dom_goal neg j d c) as [[n ss]|] eqn:E; [|apply IH; lia]. cbn [g_get].
          rewrite (dom_goal_idx _ _ _ _ _ _ E). destruct (Nat.eqb_spec (j + 2) (k + 2)); [lia|]. apply IH. lia. }
        apply N. lia.
    - cbn [nth_error]. replace (k + S i + 2)%nat with (S k + i + 2)%nat by lia. replace (k + S i)%nat with (S k + i)%nat by lia.
      destruct (dom_goal neg k d c) as [[n ss]|] eqn:E; [|apply IH]. cbn [g_get].
      rewrite (dom_goal_idx _ _ _ _ _ _ E). destruct (Nat.eqb_spec (k + 2) (S k + i + 2)); [lia|]. apply IH. }
  apply (G l 0%nat i).
Qed.
Lemma g_get_dom_1 : forall neg ds cs, g_get (dom_goals neg ds cs) 1 = None.
Proof.
  intros neg ds cs. unfold dom_goals. generalize (enumerate (combine ds cs)) as l.
  induction l as [|[i [d c]] l IH]; [reflexivity|]. cbn [filter_map fst snd].
  destruct (dom_goal neg i d c) as [[n ss]|] eqn:E; [|exact IH]. cbn [g_get].
  rewrite (dom_goal_idx _ _ _ _ _ _ E). destruct (Nat.eqb_spec (i + 2) 1); [lia|exact IH].
Qed.

(** The goal of one objective, as a value *)
Lemma ord_goal_val : forall (a : pv -> bool) w o,
  lb_val a (ord_goal w (obj_order o)) =
  Z.of_nat (obj_unit_weight o) *
    (Z.of_nat (icost o (on_solver a)) - Z.of_nat (icost o (on_solver (su_asg pv_eqd w a)))).
Proof.
  intros a w o. unfold ord_goal. destruct (og_terms w (lb_terms (obj_order o))) as [ts k] eqn:E.
  pose proof (og_terms_sum a w _ _ _ E) as X. unfold lb_val. cbn [lb_terms lb_bound].
  change (lb_bound (obj_order o)) with 0.
  replace (lb_sum a ts - (0 - k)) with (lb_sum a ts + k) by lia. rewrite <- X, obj_order_sum. cbn [ov_asg]. unfold icost. reflexivity.
Qed.

(** ** What the constraints used in the cut have to say *)

(** the reformulation constraint: objective - reformulated objective >= lower bound *)
Definition reform_says (R : pconstr) (o : objective) (rs : list (Z * ax pv)) (lb : nat) : Prop :=
  forall a, lb_val a R = Z.of_nat (icost o (on_solver a)) - lb_sum a rs - Z.of_nat lb.
(** a definition: rs + k * l >= k *)
Definition def_says (D : pconstr) (rs : list (Z * ax pv)) (k : Z) (l : ax pv) : Prop :=
  forall a, lb_val a D = lb_sum a rs + k * b2z (ax_true a l) - k.
Definition obj_terms (o : objective) : list (Z * ax pv) :=
  map (fun lw => (Z.of_nat (snd lw), axiom (fst lw))) (obj_iter o).

Inductive dat_ok (es : list entry) (c : cobj) : option (ax pv) * option nat -> Prop :=
| dat_zero : co_cost c = 0%nat -> dat_ok es c (None, None)
| dat_lb : forall r R rs, In (r, R) es -> reform_says R (co_obj c) rs (obj_lb (co_obj c)) ->
    (forall t, In t rs -> 0 <= fst t) -> (co_cost c <= obj_lb (co_obj c))%nat -> obj_unit_weight (co_obj c) = 1%nat ->
    dat_ok es c (None, Some r)
| dat_one : forall l0 w, obj_iter (co_obj c) = [(l0, w)] -> dat_ok es c (Some (axiom (lnot l0)), None)
| dat_out1 : forall l r R W, In (r, R) es ->
    reform_says R (co_obj c) [(W, ax_not l)] (obj_lb (co_obj c)) ->
    W + Z.of_nat (obj_lb (co_obj c)) = Z.of_nat (wtotal (obj_iter (co_obj c))) ->
    dat_ok es c (Some l, None)
| dat_def : forall l d D rs, In (d, D) es ->
    def_says D rs (Z.of_nat (co_cost c) - Z.of_nat (obj_lb (co_obj c))) l ->
    (obj_lb (co_obj c) <= co_cost c)%nat ->
    match co_reform c with
    | None => rs = obj_terms (co_obj c) /\ obj_lb (co_obj c) = 0%nat
    | Some r => exists R, In (r, R) es /\ reform_says R (co_obj c) rs (obj_lb (co_obj c))
    end ->
    dat_ok es c (Some l, Some d).

Lemma dat_mono : forall es fs c d, (forall e, In e es -> In e fs) -> dat_ok es c d -> dat_ok fs c d.
Proof.
  intros es fs c d H X. destruct X as [X|r R rs X1 X2 X3 X4 X5|l0 w X|l r R W X1 X2 X3|l d D rs X1 X2 X3 X4].
  - apply dat_zero. exact X.
  - apply (dat_lb _ _ r R rs); auto.
  - apply (dat_one _ _ l0 w X).
  - apply (dat_out1 _ _ l r R W); auto.
  - apply (dat_def _ _ l d D rs); auto. destruct (co_reform c) as [r|]; [|exact X4].
    destruct X4 as (R & Y1 & Y2). exists R. auto.
Qed.
Lemma nonneg_sum : forall (a : pv -> bool) rs, (forall t, In t rs -> 0 <= fst t) -> 0 <= lb_sum a rs.
Proof.
  intros a rs H. induction rs as [|[z l] rs IH]; [cbn; lia|]. cbn [lb_sum].
  pose proof (H (z, l) (or_introl eq_refl)) as X. cbn [fst] in X. pose proof (b2z_range (ax_true a l)).
  assert (0 <= lb_sum a rs) by (apply IH; intros t Ht; apply H; right; exact Ht). nia.
Qed.
Lemma wsum_pos_all : forall a ls, (forall l w, In (l, w) ls -> (0 < w)%nat -> lit_true a l = true) -> wsum a ls = wtotal ls.
Proof.
  intros a ls. induction ls as [|[l w] ls IH]; intros H; [reflexivity|]. cbn [wsum wtotal]. rewrite IH.
  - destruct (lit_true a l) eqn:E; [reflexivity|]. destruct w as [|w]; [reflexivity|].
    rewrite (H l (S w)) in E; [discriminate|left; reflexivity|lia].
  - intros l' w' Hl. apply H. right. exact Hl.
Qed.
Lemma wsum_all_pos : forall a ls, (wtotal ls <= wsum a ls)%nat -> forall l w, In (l, w) ls -> (0 < w)%nat -> lit_true a l = true.
Proof.
  intros a ls. induction ls as [|[l w] ls IH]; intros H l' w' Hl Hw; [destruct Hl|]. cbn [wsum wtotal] in H.
  pose proof (wsum_le_total a ls) as L.
  destruct Hl as [Hl|Hl].
  - injection Hl as -> ->. destruct (lit_true a l'); [reflexivity|lia].
  - apply (IH ltac:(destruct (lit_true a l); lia) l' w' Hl Hw).
Qed.

(** the negated mapping constraint forces all literals of the cut to be false *)
Lemma neg_map_dom : forall (a : pv -> bool) fw cut, lb_holds a (lb_negate (map_dom_constr fw cut)) ->
  forall l, In l cut -> ax_true a l = false.
Proof.
  intros a fw cut H l Hl. apply lb_negate_holds in H. destruct (ax_true a l) eqn:E; [|reflexivity].
  exfalso. apply H. apply map_dom_holds. right. exists l. split; assumption.
Qed.

(** the goal of one objective *)
Lemma dom_goal_ok : forall k fw cut c d i (a0 : pv -> bool), ids_ok k -> dat_ok (k_all k) c d ->
  (forall l, fst d = Some l -> In l cut) ->
  ax_all a0 fw -> (forall a, ax_all a fw -> icost (co_obj c) (on_solver a) = co_cost c) ->
  goal_ok ((k_next k, lb_negate (map_dom_constr fw cut)) :: k_all k) (S (k_next k))
    (option_map snd (dom_goal (k_next k) i d c)) (ord_goal (map ax_subst fw) (obj_order (co_obj c))).
Proof.
  intros k fw cut c d i a0 Hid Hd Hcut Ha0 Hc.
  set (nm := lb_negate (map_dom_constr fw cut)). set (g := ord_goal (map ax_subst fw) (obj_order (co_obj c))).
  set (n := k_next k) in *. set (uw := Z.of_nat (obj_unit_weight (co_obj c))).
  assert (Hg : forall a, lb_val a g = uw * (Z.of_nat (icost (co_obj c) (on_solver a)) - Z.of_nat (co_cost c))).
  { intros a. unfold g. rewrite ord_goal_val. rewrite (Hc _ (fw_subst fw a0 a Ha0)). reflexivity. }
  assert (Hlt : forall j e, In (j, e) (k_all k) -> (j < n)%nat) by (intros j e He; destruct Hid as (_ & X); exact (X (j, e) He)).
  assert (Hget : forall j e x, In (j, e) (k_all k) -> e_get ((S n, x) :: (n, nm) :: k_all k) j = Some e).
  { intros j e x He. pose proof (Hlt j e He). rewrite !e_get_skip by lia. exact (k_get k j e Hid He). }
  destruct Hd as [H0|r R rs HR HS Hrs Hle Huw|l0 w Hit|l r R W HR HS HW|l d D rs HD HS Hle Hre]; cbn [dom_goal option_map snd].
  - (* cost zero *)
    apply goal_trivial. intros a. apply val_holds. rewrite Hg, H0. unfold uw. nia.
  - (* cost at the lower bound *)
    cbn [goal_ok]. eapply sub_pol.
    + cbn [pol_eval]. rewrite last_1. cbn [id_get]. rewrite (Hget r R _ HR). reflexivity.
    + apply sub_end.
    intros a _ Hh. apply val_holds in Hh. rewrite val_add, val_negate, Hg, HS in Hh.
    pose proof (nonneg_sum a rs Hrs). unfold uw in Hh. rewrite Huw in Hh. lia.
  - (* one literal *)
    left. apply (up_step _ _ nm (axiom l0)); [right; left; reflexivity| |].
    + intros a _ Hn. pose proof (neg_map_dom a fw cut Hn (axiom (lnot l0)) (Hcut _ eq_refl)) as X.
      rewrite axiom_true in *. unfold lit_true, lnot in *. cbn [lneg lvar] in X.
      destruct (lneg l0), (on_solver a (lvar l0)); cbn in *; congruence.
    + apply (up_conflict _ _ (lb_negate g)); [left; reflexivity|]. intros a Ha Hn.
      apply val_holds in Hn. rewrite val_negate, Hg in Hn.
      assert (Hw : icost (co_obj c) (on_solver a) = w).
      { unfold icost. rewrite Hit. cbn [wsum]. pose proof (Ha (axiom l0) (or_introl eq_refl)) as X. rewrite axiom_true in X.
        rewrite X. lia. }
      assert (Hcw : (co_cost c <= w)%nat).
      { rewrite <- (Hc a0 Ha0). unfold icost. rewrite Hit. cbn [wsum]. destruct (lit_true (on_solver a0) l0); lia. }
      rewrite Hw in Hn. unfold uw in Hn. nia.
  - (* one output *)
    left. apply (up_step _ _ nm (ax_not l)); [right; left; reflexivity| |].
    { intros a _ Hn. rewrite ax_not_true, (neg_map_dom a fw cut Hn l (Hcut _ eq_refl)). reflexivity. }
    apply (up_many _ (map (fun lw => axiom (fst lw)) (filter (fun lw => 0 <? snd lw)%nat (obj_iter (co_obj c))))).
    + intros x Hx. apply in_map_iff in Hx. destruct Hx as ([lx wx] & <- & Hx). apply filter_In in Hx.
      destruct Hx as (Hx & Hw). cbn [fst snd] in *. apply Nat.ltb_lt in Hw.
      exists R. split; [right; right; apply (in_map snd _ (r, R)); exact HR|].
      intros a Ha Hh. apply val_holds in Hh. rewrite HS in Hh. cbn [lb_sum] in Hh.
      rewrite (Ha (ax_not l)) in Hh by (left; reflexivity). cbn [b2z] in Hh. rewrite axiom_true.
      apply (wsum_all_pos (on_solver a) (obj_iter (co_obj c))) with (w := wx); [|exact Hx|exact Hw].
      unfold icost in Hh. lia.
    + intros s Hs. apply (up_conflict _ _ (lb_negate g)); [left; reflexivity|]. intros a Ha Hn.
      apply val_holds in Hn. rewrite val_negate, Hg in Hn.
      assert (Hw : icost (co_obj c) (on_solver a) = wtotal (obj_iter (co_obj c))).
      { unfold icost. apply wsum_pos_all. intros lx wx Hx Hw. rewrite <- axiom_true. apply Ha. apply Hs. left.
        apply in_map_iff. exists (lx, wx). split; [reflexivity|]. apply filter_In. split; [exact Hx|]. cbn [snd]. apply Nat.ltb_lt. exact Hw. }
      assert (Hcw : (co_cost c <= wtotal (obj_iter (co_obj c)))%nat).
      { rewrite <- (Hc a0 Ha0). unfold icost. apply wsum_le_total. }
      rewrite Hw in Hn. unfold uw in Hn. nia.
  - (* a definition *)
    cbn [goal_ok].
    assert (Hr : rup [nm] (lb_clause [ax_not l])).
    { (* the unit clause *)
      apply (up_step _ _ (lb_negate (lb_clause [ax_not l])) l); [left; reflexivity| |].
      - intros a _ Hh. apply lb_negate_holds in Hh. destruct (ax_true a l) eqn:E; [reflexivity|]. exfalso. apply Hh.
        apply lb_clause_holds. exists (ax_not l). split; [left; reflexivity|]. rewrite ax_not_true, E. reflexivity.
      - apply (up_conflict _ _ nm); [right; left; reflexivity|]. intros a Ha Hn.
        pose proof (neg_map_dom a fw cut Hn l (Hcut _ eq_refl)) as X. rewrite (Ha l (or_introl eq_refl)) in X. discriminate. }
    set (u := lb_clause [ax_not l]) in *.
    apply (sub_rup _ _ u [CAbs n] [nm]); [|exact Hr|].
    { cbn [map opt_all id_get]. rewrite e_get_skip by lia. cbn [e_get]. rewrite Nat.eqb_refl. reflexivity. }
    assert (G3 : forall j e, In (j, e) (k_all k) -> id_get ((S (S n), u) :: (S n, lb_negate g) :: (n, nm) :: k_all k) (S (S (S n))) (CAbs j) = Some e).
    { intros j e He. cbn [id_get]. pose proof (Hlt j e He). rewrite e_get_skip by lia. apply Hget. exact He. }
    set (dk := Z.of_nat (co_cost c) - Z.of_nat (obj_lb (co_obj c))) in *.
    assert (Hdk : (0 <=? dk) = true) by (apply Z.leb_le; unfold dk; lia).
    assert (Huw : (0 <=? uw) = true) by (apply Z.leb_le; unfold uw; lia).
    assert (Hval : forall a P, (forall a, lb_val a P = - dk * b2z (ax_true a l) + lb_val a D +
                      (Z.of_nat (icost (co_obj c) (on_solver a)) - lb_sum a rs - Z.of_nat (obj_lb (co_obj c)))) ->
              ~ lb_holds a (lb_add (lb_mul uw P) (lb_negate g))).
    { intros a P HP Hh. apply val_holds in Hh. rewrite val_add, val_mul, val_negate, Hg, HP, HS in Hh.
      unfold dk in Hh. nia. }
    assert (Hu : forall a, lb_val a u = - b2z (ax_true a l)).
    { intros a. unfold u. rewrite val_unit, ax_not_true, b2z_negb. lia. }
    destruct (co_reform c) as [r|] eqn:Er.
    + destruct Hre as (R & HR & HRS).
      eapply sub_pol.
      { cbn [pol_eval]. rewrite last_1, last_2, (G3 d D HD), (G3 r R HR). fold uw. rewrite Hdk, Huw. cbn [option_map]. reflexivity. }
      apply sub_end. intros a _. apply Hval. clear a. intros a.
      rewrite !val_add, val_mul, Hu, HRS. lia.
    + destruct Hre as (-> & Hlb0).
      eapply sub_pol.
      { cbn [pol_eval]. rewrite last_1, last_2, (G3 d D HD). fold uw. rewrite Hdk, Huw. cbn [option_map]. reflexivity. }
      apply sub_end. intros a _. apply Hval. clear a. intros a.
      rewrite !val_add, val_mul, Hu, Hlb0. unfold obj_terms. rewrite obj_terms_sum. unfold icost. lia.
Qed.

(** ** All lines of the cut *)
Definition cut_steps (fw cut trunc : list (ax pv)) (ds : list (option (ax pv) * option nat)) (cs : list cobj) (n : nat) : list step :=
  [SRed (map_dom_constr fw cut) (map ax_subst fw) (dom_goals n ds cs);
   SSolx trunc fw;
   SRup (lb_clause cut) [CAbs n; CAbs (S n)];
   SCore [CAbs (S (S n))];
   SDel [CAbs (S n); CAbs n] [(1%nat, [DRup (lb_clause []) [CLast 1; CAbs (S (S n))]])]].

Lemma cut_lits_in : forall ds l, In l (cut_lits ds) <-> exists r, In (Some l, r) ds.
Proof.
  intros ds l. unfold cut_lits. induction ds as [|[o r] ds IH]; cbn [filter_map In fst].
  - split; [intros []|intros (r & [])].
  - destruct o as [x|].
    + cbn [In]. rewrite IH. split.
      * intros [->|(r' & H)]; [exists r; left; reflexivity|exists r'; right; exact H].
      * intros (r' & [H|H]); [left; congruence|right; exists r'; exact H].
    + rewrite IH. split; intros (r' & H); exists r'; [right; exact H|destruct H as [H|H]; [discriminate|exact H]].
Qed.
Lemma Forall2_nth : forall {A B} (P : A -> B -> Prop) l m, Forall2 P l m -> forall i y, nth_error l i = Some y ->
  exists x, nth_error m i = Some x /\ P y x.
Proof.
  intros A B P l m H. induction H as [|y x l m Hp H IH]; intros i z Hz; [destruct i; discriminate|].
  destruct i as [|i]; cbn [nth_error] in *; [injection Hz as <-; exists x; split; [reflexivity|exact Hp]|exact (IH i z Hz)].
Qed.
Lemma nth_combine : forall {A B} (l : list A) (m : list B) i x y, nth_error l i = Some x -> nth_error m i = Some y ->
  nth_error (combine l m) i = Some (x, y).
Proof.
  induction l as [|a l IH]; intros m i x y H1 H2; [destruct i; discriminate|].
  destruct m as [|b m]; [destruct i; discriminate|]. destruct i as [|i]; cbn [nth_error combine] in *; [congruence|].
  apply IH; assumption.
Qed.

Section Cut.
  Variables (k : chk) (cs : list cobj) (ds : list (option (ax pv) * option nat)) (fw trunc : list (ax pv)).
  Variable a0 : pv -> bool.
  Hypothesis Hid : ids_ok k.
  Hypothesis Hord : k_order k = map obj_order (map co_obj cs).
  Hypothesis Hdat : Forall2 (dat_ok (k_all k)) cs ds.
  Hypothesis Ha0 : ax_all a0 fw.
  Hypothesis Hsat : forall a, ax_all a fw -> db_holds a (k_all k).
  Hypothesis Hcost : forall a c, ax_all a fw -> In c cs -> icost (co_obj c) (on_solver a) = co_cost c.
  Hypothesis Hfalse : forall a l, ax_all a fw -> In l (cut_lits ds) -> ax_true a l = false.
  Hypothesis Hprop : up_to (map snd (k_all k)) trunc fw.

  Let n := k_next k.
  Let cut := cut_lits ds.
  Let md := map_dom_constr fw cut.
  Let ex : pconstr := lb_clause (map ax_not fw).
  Let k1 := add_der k md.
  Let k2 := step_next k1 (SSolx trunc fw).
  Let k3 := add_der k2 (lb_clause cut).
  Let k4 := step_next k3 (SCore [CAbs (S (S n))]).
  Let k5 := step_next k4 (SDel [CAbs (S n); CAbs n] [(1%nat, [DRup (lb_clause []) [CLast 1; CAbs (S (S n))]])]).

  Lemma cut_k : steps_next k (cut_steps fw cut trunc ds cs n) = k5.
  Proof. reflexivity. Qed.

  Lemma md_valid : step_valid k (SRed md (map ax_subst fw) (dom_goals n ds cs)).
  Proof.
    cbn [step_valid]. split; [|split].
    - rewrite g_get_dom_1. apply goal_trivial. intros a. apply lb_subst_holds. apply map_dom_holds. left.
      exact (fw_subst fw a0 a Ha0).
    - intros i o Ho. rewrite Hord, map_map in Ho.
      assert (X : exists c, nth_error cs i = Some c /\ obj_order (co_obj c) = o).
      { clear - Ho. revert i Ho. induction cs as [|c l IH]; intros i H; [destruct i; discriminate|].
        destruct i as [|i]; cbn [map nth_error] in *; [injection H as <-; exists c; tauto|exact (IH i H)]. }
      destruct X as (c & Hc & <-).
      assert (Hd : exists d, nth_error ds i = Some d /\ dat_ok (k_all k) c d).
      { exact (Forall2_nth _ _ _ Hdat i c Hc). }
      destruct Hd as (d & Hd & Hok). rewrite g_get_dom, (nth_combine _ _ _ _ _ Hd Hc).
      apply dom_goal_ok with (a0 := a0); try assumption.
      + intros l El. apply cut_lits_in. destruct d as [x r]. cbn [fst] in El. subst x. exists r. exact (nth_error_In _ _ Hd).
      + intros a Ha. apply (Hcost a c Ha). exact (nth_error_In _ _ Hc).
    - intros e He. apply goal_trivial. intros a. apply lb_subst_holds.
      exact (Hsat _ (fw_subst fw a0 a Ha0) e He).
  Qed.
  Lemma solx_valid : step_valid k1 (SSolx trunc fw).
  Proof.
    cbn [step_valid]. split.
    - apply (up_to_more (map snd (k_all k))); [|exact Hprop]. intros c Hc. apply in_map_iff in Hc.
      destruct Hc as (e & <- & He). apply in_map. apply in_add_der. right. exact He.
    - exists a0. split; [exact Ha0|]. intros e He. apply in_add_der in He. destruct He as [->|He].
      + cbn [snd]. apply map_dom_holds. left. exact Ha0.
      + exact (Hsat a0 Ha0 e He).
  Qed.
  Lemma ids1 : ids_ok k1. Proof. exact (step_ids k (SRup md []) Hid). Qed.
  Lemma ids2 : ids_ok k2. Proof. exact (step_ids k1 _ ids1). Qed.
  Lemma ids3 : ids_ok k3. Proof. exact (step_ids k2 (SRup (lb_clause cut) []) ids2). Qed.
  Lemma ids4 : ids_ok k4. Proof. exact (step_ids k3 _ ids3). Qed.
  Lemma in_k2 : forall e, In e (k_all k2) <-> e = (S n, ex) \/ e = (n, md) \/ In e (k_all k).
  Proof.
    intros e. rewrite !in_k_all. unfold k2, k1, add_der. cbn [step_next k_core k_der k_next In].
    fold n. fold ex. intuition.
  Qed.
  Lemma cut_valid : step_valid k2 (SRup (lb_clause cut) [CAbs n; CAbs (S n)]).
  Proof.
    exists [md; ex]. split.
    - cbn [map opt_all id_get].
      rewrite (k_get k2 n md ids2) by (apply in_k2; tauto).
      rewrite (k_get k2 (S n) ex ids2) by (apply in_k2; tauto). reflexivity.
    - unfold rup. apply (up_many _ (map ax_not cut)).
      + intros l Hl. apply in_map_iff in Hl. destruct Hl as (x & <- & Hx).
        exists (lb_negate (lb_clause cut)). split; [left; reflexivity|]. intros a _ Hh. apply lb_negate_holds in Hh.
        rewrite ax_not_true. destruct (ax_true a x) eqn:E; [|reflexivity]. exfalso. apply Hh. apply lb_clause_holds. exists x. tauto.
      + intros s Hs. apply (up_many _ fw).
        * intros l Hl. exists md. split; [right; left; reflexivity|]. intros a Ha Hh. apply map_dom_holds in Hh.
          destruct Hh as [Hh|(x & Hx & Ht)]; [exact (Hh l Hl)|]. exfalso.
          pose proof (Ha (ax_not x)) as X. rewrite ax_not_true, Ht in X. cbn in X.
          assert (false = true); [|discriminate]. apply X. apply Hs. left. apply in_map. exact Hx.
        * intros s' Hs'. apply (up_conflict _ _ ex); [right; right; left; reflexivity|]. intros a Ha Hh.
          apply (proj2 (clause_not_all a fw)) in Hh; [exact Hh|]. intros l Hl. apply Ha. apply Hs'. left. exact Hl.
  Qed.
  Lemma der_lt : forall e, In e (k_all k) -> (fst e < n)%nat.
  Proof. intros e He. destruct Hid as (_ & X). exact (X e He). Qed.
  Lemma in_core4 : forall e, In e (k_core k4) <-> e = (S (S n), lb_clause cut) \/ e = (S n, ex) \/ In e (k_core k).
  Proof.
    intros e. unfold k4, k3, k2, k1, add_der. cbn [step_next k_core k_der k_next map cid_abs pick_ids].
    fold n. fold ex. unfold pick_ids. rewrite in_app_iff, filter_In. cbn [In existsb]. split.
    - intros [(H & Hb)|[H|H]].
      + rewrite orb_false_r in Hb. apply Nat.eqb_eq in Hb. destruct H as [H|[H|H]].
        * left. symmetry. exact H.
        * subst e. cbn [fst] in Hb. lia.
        * pose proof (der_lt e (proj2 (in_k_all k e) (or_intror H))). lia.
      + right. left. symmetry. exact H.
      + right. right. exact H.
    - intros [->|[->|H]].
      + left. split; [left; reflexivity|]. cbn [fst]. rewrite Nat.eqb_refl. reflexivity.
      + right. left. reflexivity.
      + right. right. exact H.
  Qed.
  Lemma in_der4 : forall e, In e (k_der k4) <-> e = (n, md) \/ In e (k_der k).
  Proof.
    intros e. unfold k4, k3, k2, k1, add_der. cbn [step_next k_core k_der k_next map cid_abs].
    fold n. unfold rm_ids. rewrite filter_In. cbn [In existsb]. split.
    - intros ([H|[H|H]] & Hb).
      + subst e. cbn [fst] in Hb. rewrite Nat.eqb_refl in Hb. discriminate.
      + left. symmetry. exact H.
      + right. exact H.
    - intros [->|H].
      + split; [right; left; reflexivity|]. cbn [fst]. destruct (Nat.eqb_spec n (S (S n))); [lia|reflexivity].
      + split; [right; right; exact H|]. pose proof (der_lt e (proj2 (in_k_all k e) (or_intror H))).
        destruct (Nat.eqb_spec (fst e) (S (S n))); [lia|reflexivity].
  Qed.
  Lemma rm_in : forall ns es (e : entry), In e (rm_ids ns es) <-> In e es /\ ~ In (fst e) ns.
  Proof.
    intros ns es e. unfold rm_ids. rewrite filter_In. split; intros (H1 & H2); (split; [exact H1|]).
    - intros Hi. apply negb_true_iff in H2. rewrite <- not_true_iff_false in H2. apply H2.
      apply existsb_exists. exists (fst e). split; [exact Hi|apply Nat.eqb_refl].
    - apply negb_true_iff. apply not_true_iff_false. intros Hx. apply existsb_exists in Hx.
      destruct Hx as (x & Hx & Ex). apply Nat.eqb_eq in Ex. subst x. contradiction.
  Qed.
  Lemma del_valid : step_valid k4 (SDel [CAbs (S n); CAbs n] [(1%nat, [DRup (lb_clause []) [CLast 1; CAbs (S (S n))]])]).
  Proof.
    assert (Hn4 : k_next k4 = S (S (S n))) by reflexivity.
    assert (Hu : forall i c c', In (i, c) (k_core k4) -> In (i, c') (k_core k4) -> c = c').
    { intros i c c' X Y. destruct ids4 as (U & _). apply (U i); apply in_k_all; left; assumption. }
    cbn [step_valid map cid_abs]. cbn [del_ok].
    rewrite (e_get_some (k_core k4) (S n) ex Hu) by (apply in_core4; tauto).
    set (rest := rm_ids [S n] (k_core k4)).
    assert (Hur : forall i c c', In (i, c) rest -> In (i, c') rest -> c = c').
    { intros i c c' X Y. apply (Hu i); eapply rm_ids_incl; eassumption. }
    split.
    - cbn [g_get Nat.eqb goal_ok].
      apply (sub_rup _ _ (lb_clause []) [CLast 1; CAbs (S (S n))] [lb_negate ex; lb_clause cut]).
      + cbn [map]. rewrite last_1. cbn [opt_all id_get]. rewrite Hn4.
        rewrite !e_get_skip by lia. rewrite (e_get_some rest (S (S n)) (lb_clause cut) Hur); [reflexivity|].
        unfold rest. apply rm_in. split; [apply in_core4; tauto|]. cbn [fst]. intros [H|[]]. lia.
      + unfold rup. apply (up_many _ fw).
        * intros l Hl. exists (lb_negate ex). split; [right; left; reflexivity|]. intros a _ Hh.
          apply lb_negate_holds in Hh. exact (proj1 (clause_not_all a fw) Hh l Hl).
        * intros s Hs. apply (up_conflict _ _ (lb_clause cut)); [right; right; left; reflexivity|].
          intros a Ha Hh. apply lb_clause_holds in Hh. destruct Hh as (l & Hl & Ht).
          assert (X : ax_all a fw) by (intros x Hx; apply Ha; apply Hs; left; exact Hx).
          rewrite (Hfalse a l X Hl) in Ht. discriminate.
      + apply sub_end. intros a _ Hh. apply lb_clause_holds in Hh. destruct Hh as (l & [] & _).
    - destruct (e_get rest n) as [c|] eqn:E; [|exact Logic.I]. exfalso. apply e_get_in in E.
      unfold rest in E. apply rm_in in E. destruct E as (E & _). apply in_core4 in E. destruct E as [E|[E|E]].
      + injection E as E _. lia.
      + injection E as E _. lia.
      + pose proof (der_lt _ (proj2 (in_k_all k _) (or_introl E))) as X. cbn [fst] in X. lia.
  Qed.
  Lemma in_core5 : forall e, In e (k_core k5) <-> e = (S (S n), lb_clause cut) \/ In e (k_core k).
  Proof.
    intros e. unfold k5. cbn [step_next k_core map cid_abs]. rewrite rm_in, in_core4. cbn [In]. split.
    - intros ([H|[H|H]] & Hn); [left; exact H| |right; exact H]. exfalso. apply Hn. subst e. left. reflexivity.
    - intros [->|H].
      + split; [left; reflexivity|]. cbn [fst]. intros [X|[X|[]]]; lia.
      + split; [right; right; exact H|]. pose proof (der_lt e (proj2 (in_k_all k e) (or_introl H))). intros [X|[X|[]]]; lia.
  Qed.
  Lemma in_der5 : forall e, In e (k_der k5) <-> In e (k_der k).
  Proof.
    intros e. unfold k5. cbn [step_next k_der map cid_abs]. rewrite rm_in, in_der4. cbn [In]. split.
    - intros ([H|H] & Hn); [|exact H]. exfalso. apply Hn. subst e. right. left. reflexivity.
    - intros H. split; [right; exact H|]. pose proof (der_lt e (proj2 (in_k_all k e) (or_intror H))). intros [X|[X|[]]]; lia.
  Qed.

  Lemma cut_steps_ok : exists kf, kf = steps_next k (cut_steps fw cut trunc ds cs n) /\
    steps_valid k (cut_steps fw cut trunc ds cs n) /\
    (forall e, In e (k_core kf) <-> e = (S (S n), lb_clause cut) \/ In e (k_core k)) /\
    (forall e, In e (k_der kf) <-> In e (k_der k)) /\
    k_next kf = S (S (S n)) /\ k_order kf = k_order k /\ k_excl kf = trunc :: k_excl k /\ ids_ok kf.
  Proof.
    exists k5. split; [reflexivity|]. split; [|split; [exact in_core5|split; [exact in_der5|]]].
    - cbn [cut_steps steps_valid]. split; [exact md_valid|]. split; [exact solx_valid|]. split; [exact cut_valid|].
      split; [exact Logic.I|]. split; [exact del_valid|exact Logic.I].
    - do 3 (split; [reflexivity|]). exact (step_ids k4 _ ids4).
  Qed.
End Cut.
