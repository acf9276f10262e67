(** * Theorems about the proof writing functions *)
From Coq Require Import List Arith ZArith Lia Bool.
From Verif Require Import Base BaseLemmas Spec MTypes MKernel MPMinimal MPrepro EncSpec Sem Kern Init ApiSpec Ext VeriPB VeriThm MProofs.
Import ListNotations.
Local Open Scope Z_scope.

(** ** Sums over objectives *)
Lemma axiom_true : forall (a : pv -> bool) l, ax_true a (axiom l) = lit_true (on_solver a) l.
Proof. intros a [v n]. reflexivity. Qed.
Lemma obj_terms_sum : forall (a : pv -> bool) ls,
  lb_sum a (map (fun lw => (Z.of_nat (snd lw), axiom (fst lw))) ls) = Z.of_nat (wsum (on_solver a) ls).
Proof.
  intros a ls. induction ls as [|[l w] ls IH]; [reflexivity|]. cbn [map lb_sum wsum fst snd]. rewrite IH, axiom_true.
  destruct (lit_true (on_solver a) l); cbn [b2z]; lia.
Qed.
Lemma wsum_total : forall a ls, (wsum a ls <= wtotal ls)%nat.
Proof. intros a ls. apply wsum_le_total. Qed.
Lemma obj_terms_neg_sum : forall (a : pv -> bool) ls,
  lb_sum a (map (fun lw => (Z.of_nat (snd lw), ax_not (axiom (fst lw)))) ls) =
  Z.of_nat (wtotal ls) - Z.of_nat (wsum (on_solver a) ls).
Proof.
  intros a ls. induction ls as [|[l w] ls IH]; [reflexivity|]. cbn [map lb_sum wsum wtotal fst snd].
  rewrite IH, ax_not_true, axiom_true, b2z_negb.
  destruct (lit_true (on_solver a) l); cbn [b2z]; lia.
Qed.

(** ** The order *)
Lemma obj_order_sum : forall (a : ov -> bool) o,
  lb_sum a (lb_terms (obj_order o)) =
  Z.of_nat (obj_unit_weight o) *
    (Z.of_nat (wsum (fun v => a (OvV v)) (obj_iter o)) - Z.of_nat (wsum (fun v => a (OvU v)) (obj_iter o))).
Proof.
  intros a o. unfold obj_order. cbn [lb_terms]. induction (obj_iter o) as [|[l w] ls IH]; [cbn; lia|].
  cbn [flat_map app lb_sum wsum fst snd]. rewrite IH.
  unfold ax_true, lit_true. cbn [ax_neg ax_var].
  destruct (xorb (lneg l) (a (OvU (lvar l)))), (xorb (lneg l) (a (OvV (lvar l)))); cbn [b2z]; lia.
Qed.
Lemma obj_order_no_w : forall o, no_w (obj_order o).
Proof.
  intros o t Ht v. unfold obj_order in Ht. cbn [lb_terms] in Ht. apply in_flat_map in Ht.
  destruct Ht as (lw & _ & [<-|[<-|[]]]); cbn; discriminate.
Qed.
Lemma obj_order_holds : forall o a b,
  lb_holds (ov_asg a b b) (obj_order o) <->
  (obj_unit_weight o * icost o a <= obj_unit_weight o * icost o b)%nat.
Proof.
  intros o a b. unfold lb_holds. rewrite obj_order_sum. cbn [obj_order lb_bound ov_asg]. unfold icost.
  change (fun v : nat => a v) with a. change (fun v : nat => b v) with b. nia.
Qed.

Lemma enumerate_nth : forall {A} (l : list A) i x, In (i, x) (enumerate l) -> nth_error l i = Some x.
Proof.
  intros A l i x. unfold enumerate.
  assert (G : forall l k, In (i, x) (combine (seq k (length l)) l) -> (k <= i)%nat /\ nth_error l (i - k) = Some x).
  { clear l. induction l as [|y l IH]; intros k H; [destruct H|]. cbn [length seq combine] in H.
    destruct H as [H|H].
    - injection H as <- <-. rewrite Nat.sub_diag. split; [lia|reflexivity].
    - apply IH in H. destruct H as (H1 & H2). split; [lia|].
      replace (i - k)%nat with (S (i - S k)) by lia. exact H2. }
  intros H. apply G in H. rewrite Nat.sub_0_r in H. tauto.
Qed.
Lemma order_fst : forall objs, map fst (objectives_as_order objs) = map obj_order objs.
Proof.
  intros objs. unfold objectives_as_order. rewrite map_map. cbn [fst].
  rewrite <- (map_map snd obj_order). f_equal. unfold enumerate.
  assert (G : forall (l : list objective) k, map snd (combine (seq k (length l)) l) = l).
  { induction l as [|x l IH]; intros k; [reflexivity|]. cbn. rewrite IH. reflexivity. }
  apply G.
Qed.

Lemma order_accepted : forall objs, order_ok (objectives_as_order objs).
Proof.
  intros objs c p H. unfold objectives_as_order in H. apply in_map_iff in H.
  destruct H as ([i o] & E & Hi). cbn [fst snd] in E. injection E as <- <-.
  apply enumerate_nth in Hi. rewrite order_fst.
  assert (Hlen : (i < length objs)%nat) by (apply nth_error_Some; congruence).
  split.
  - unfold order_trans. cbn [pol_eval].
    assert (G1 : order_get (map obj_order objs) (obj_order o) (CAbs (i + 1)) = Some (obj_order o)).
    { replace (i + 1)%nat with (S i) by lia. cbn [order_get]. rewrite nth_error_app1 by (rewrite map_length; exact Hlen).
      apply map_nth_error. exact Hi. }
    assert (G2 : order_get (map obj_order objs) (obj_order o) (CAbs (length objs + i + 1)) = Some (ov_map ov_vw (obj_order o))).
    { replace (length objs + i + 1)%nat with (S (length objs + i)) by lia. cbn [order_get].
      rewrite nth_error_app2 by (rewrite map_length; lia). rewrite map_length.
      replace (length objs + i - length objs)%nat with i by lia. do 2 apply map_nth_error. exact Hi. }
    rewrite G1, G2. cbn [order_get]. eexists. split; [reflexivity|].
    intros a _ Hh.
    assert (X : forall f, lb_sum a (lb_terms (ov_map f (obj_order o))) = lb_sum (fun x => a (f x)) (lb_terms (obj_order o))).
    { intros f. unfold ov_map. cbn [lb_terms]. generalize (lb_terms (obj_order o)) as ts.
      induction ts as [|[z l] ts IH]; [reflexivity|]. cbn [map lb_sum fst snd]. rewrite IH. reflexivity. }
    unfold lb_holds, lb_add, lb_negate in Hh. cbn [lb_bound lb_terms] in Hh.
    rewrite !lb_sum_app, lb_sum_opp, !X, !obj_order_sum in Hh. cbn [ov_vw ov_uw] in Hh.
    cbn [obj_order ov_map lb_bound] in Hh. nia.
  - intros a _ Hh. apply lb_negate_holds in Hh. apply Hh. apply ov_map_holds.
    unfold lb_holds. rewrite obj_order_sum. cbn [ov_uu obj_order lb_bound]. nia.
Qed.
Lemma order_no_w : forall objs c p, In (c, p) (objectives_as_order objs) -> no_w c.
Proof.
  intros objs c p H. unfold objectives_as_order in H. apply in_map_iff in H.
  destruct H as ([i o] & E & _). injection E as <- _. apply obj_order_no_w.
Qed.

Lemma ord_holds_objs : forall objs a b, ord_holds (map obj_order objs) a b <->
  Forall (fun o => (obj_unit_weight o * icost o a <= obj_unit_weight o * icost o b)%nat) objs.
Proof.
  intros objs a b. unfold ord_holds. rewrite Forall_map. split; intros H.
  - eapply Forall_impl; [|exact H]. intros o. apply obj_order_holds.
  - eapply Forall_impl; [|exact H]. intros o. apply obj_order_holds.
Qed.
Lemma order_meaning : forall rs k a b, Forall obj_ok rs ->
  (ord_holds (map obj_order (build_objs k rs)) a b <-> weakly_dominates (costs rs a) (costs rs b)).
Proof.
  intros rs k a b H. rewrite ord_holds_objs. revert k. induction H as [|r rs Hr H IH]; intros k; cbn [build_objs costs map].
  - split; intros _; constructor.
  - destruct (icost_value r k a Hr) as (Ea & Hf & _). destruct (icost_value r k b Hr) as (Eb & _). unfold factor in *.
    split; intros X; inversion X as [|x1 x2 X1 X2]; subst.
    + constructor; [|apply (IH (S k)); exact X2]. nia.
    + constructor; [|apply (IH (S k)); assumption]. nia.
Qed.

(** ** Reified objective bounds *)
Lemma bound_def_1_holds : forall (a : pv -> bool) o v r,
  lb_holds a (bound_def_1 o v r) <-> (a r = false -> (icost o (on_solver a) < v)%nat).
Proof.
  intros a o v r. unfold lb_holds, bound_def_1. cbn [lb_bound lb_terms].
  rewrite lb_sum_app, obj_terms_neg_sum. cbn [lb_sum]. unfold ax_true. cbn [ax_neg ax_var].
  pose proof (wsum_total (on_solver a) (obj_iter o)) as Ht. unfold icost.
  rewrite xorb_false_l. destruct (a r); cbn [b2z].
  - split; [discriminate|]. intros _. lia.
  - split; [intros X _; lia|]. intros X. specialize (X eq_refl). lia.
Qed.
Lemma bound_def_2_holds : forall (a : pv -> bool) o v r,
  lb_holds a (bound_def_2 o v r) <-> (a r = true -> (v <= icost o (on_solver a))%nat).
Proof.
  intros a o v r. unfold lb_holds, bound_def_2. cbn [lb_bound lb_terms].
  rewrite lb_sum_app, obj_terms_sum. cbn [lb_sum]. unfold ax_true. cbn [ax_neg ax_var]. unfold icost.
  rewrite xorb_true_l. destruct (a r); cbn [b2z negb].
  - split; [intros X _; lia|]. intros X. specialize (X eq_refl). lia.
  - split; [discriminate|]. intros _. lia.
Qed.
