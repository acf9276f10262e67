(** * Internal and external costs *)
From Coq Require Import List Bool Arith Lia ZArith.
From Verif Require Import Base BaseLemmas Spec MTypes MKernel EncSpec Sem Kern Init ApiSpec.
Import ListNotations.

Lemma hm_insert_keys {V} k (v : V) m x : In x (map fst (hm_insert k v m)) <-> x = k \/ In x (map fst m).
Proof.
  induction m as [|[k' v'] m IH]; cbn; [intuition|].
  destruct (lit_eqb k k') eqn:e; cbn.
  - apply lit_eqb_eq in e. subst. intuition.
  - rewrite IH. intuition.
Qed.
Lemma hm_insert_nodup {V} k (v : V) m : NoDup (map fst m) -> NoDup (map fst (hm_insert k v m)).
Proof.
  induction m as [|[k' v'] m IH]; cbn; intros H; [repeat constructor; intros []|].
  inversion H; subst. destruct (lit_eqb k k') eqn:e; cbn.
  - apply lit_eqb_eq in e. subst. now constructor.
  - constructor; [|auto]. rewrite hm_insert_keys. intros [->|Hin]; [|contradiction].
    assert (lit_eqb k k = true) by now apply lit_eqb_eq. congruence.
Qed.
Lemma hm_collect_nodup {V} (l : list (lit * V)) : NoDup (map fst (hm_collect l)).
Proof.
  unfold hm_collect. assert (G : forall m : list (lit * V), NoDup (map fst m) ->
    NoDup (map fst (fold_left (fun m kv => hm_insert (fst kv) (snd kv) m) l m))).
  { induction l as [|x l IH]; cbn; intros m H; [exact H|]. apply IH, hm_insert_nodup, H. }
  apply G. constructor.
Qed.
Lemma hm_insert_new {V} k (v : V) m : ~ In k (map fst m) -> hm_insert k v m = m ++ [(k, v)].
Proof.
  induction m as [|[k' v'] m IH]; cbn; intros H; [reflexivity|].
  destruct (lit_eqb k k') eqn:e; [apply lit_eqb_eq in e; subst; tauto|]. rewrite IH; tauto.
Qed.
Lemma hm_collect_distinct {V} (l : list (lit * V)) : NoDup (map fst l) -> hm_collect l = l.
Proof.
  unfold hm_collect. intros H.
  assert (G : forall l m : list (lit * V), NoDup (map fst (m ++ l)) ->
    fold_left (fun m kv => hm_insert (fst kv) (snd kv) m) l m = m ++ l).
  { clear. induction l as [|[k v] l IH]; cbn; intros m H; [now rewrite app_nil_r|].
    rewrite hm_insert_new.
    - rewrite IH; rewrite <- app_assoc; [reflexivity|exact H].
    - rewrite map_app in H. cbn in H. apply NoDup_remove_2 in H. intros Hin. apply H, in_or_app. now left. }
  rewrite G; [reflexivity|exact H].
Qed.

Lemma obj_new_wf ls off k : obj_wf (obj_new ls off k).
Proof.
  unfold obj_new. destruct ls as [|[l w] r]; [exact Logic.I|].
  destruct (existsb _ _); [|exact Logic.I]. cbn [obj_wf]. apply hm_collect_nodup.
Qed.
Lemma hm_collect_incl {V} (l : list (lit * V)) k : In k (map fst (hm_collect l)) -> In k (map fst l).
Proof.
  unfold hm_collect. assert (G : forall m : list (lit * V),
    In k (map fst (fold_left (fun m kv => hm_insert (fst kv) (snd kv) m) l m)) -> In k (map fst m) \/ In k (map fst l)).
  { induction l as [|x l IH]; cbn; intros m H; [now left|]. apply IH in H. destruct H as [H|H]; [|tauto].
    apply hm_insert_keys in H. destruct H as [->|H]; tauto. }
  intros H. apply G in H. destruct H as [[]|H]. exact H.
Qed.
Lemma obj_new_vars ls off k v : In v (lits_vars (map fst (obj_iter (obj_new ls off k)))) ->
  In v (lits_vars (map fst ls)).
Proof.
  unfold obj_new. destruct ls as [|[l w] r]; [auto|]. destruct (existsb _ _); cbn [obj_iter].
  - unfold lits_vars. rewrite !in_map_iff. intros (x & Hx & Hin). exists x. split; [exact Hx|].
    now apply hm_collect_incl in Hin.
  - rewrite map_map. cbn [fst]. rewrite map_id. auto.
Qed.

Lemma wsum_units a (ls : list (lit * nat)) w : (forall lw, In lw ls -> snd lw = w) ->
  wsum a (map (fun l => (l, 1)) (map fst ls)) * w = wsum a ls.
Proof.
  induction ls as [|[l x] ls IH]; intros H; [reflexivity|]. cbn [map fst wsum].
  rewrite <- IH by (intros lw Hl; apply H; now right).
  specialize (H (l, x) (or_introl eq_refl)). cbn in H. subst x.
  destruct (lit_true a l); lia.
Qed.

(** How internal costs of an objective relate to the user's objective *)
Definition factor (o : objective) : nat := obj_unit_weight o.
Lemma icost_value r k a : obj_ok r ->
  Z.of_nat (icost (obj_new (fst r) (snd r) k) a * factor (obj_new (fst r) (snd r) k)) = (obj_value r a - snd r)%Z /\
  0 < factor (obj_new (fst r) (snd r) k) /\ obj_offset (obj_new (fst r) (snd r) k) = snd r.
Proof.
  destruct r as [ls off]. cbn [fst snd]. intros [H1 H2]. cbn [fst snd] in H1, H2. unfold obj_value; cbn [fst snd].
  replace (off + Z.of_nat (wsum a ls) - off)%Z with (Z.of_nat (wsum a ls)) by lia.
  unfold obj_new. destruct ls as [|[l w] r].
  - unfold factor, icost; cbn. lia.
  - set (ls := (l, w) :: r) in *.
    destruct (existsb (fun lw => negb (snd lw =? w)) ls) eqn:e; unfold factor, icost; cbn [obj_iter obj_unit_weight obj_offset].
    + split; [|split; [lia|reflexivity]]. rewrite Nat.mul_1_r. f_equal.
      destruct H1 as [H1|H1]; [now rewrite hm_collect_distinct|].
      exfalso. apply existsb_exists in e. destruct e as (lw & Hin & He).
      rewrite (H1 lw (l, w) Hin (or_introl eq_refl)) in He. cbn [snd] in He. rewrite Nat.eqb_refl in He. discriminate.
    + assert (Hall : forall lw, In lw ls -> snd lw = w).
      { intros lw Hin. destruct (Nat.eq_dec (snd lw) w) as [|Hne]; [assumption|]. exfalso.
        assert (Ht : existsb (fun lw => negb (snd lw =? w)) ls = true).
        { apply existsb_exists. exists lw. split; [exact Hin|]. apply negb_true_iff, Nat.eqb_neq, Hne. }
        congruence. }
      split; [now rewrite wsum_units|]. split; [|reflexivity].
      destruct H2 as [H2|(lw & Hin & Hne)]; [discriminate|]. rewrite (Hall lw Hin) in Hne. lia.
Qed.
Lemma icost_le r k a b : obj_ok r ->
  (icost (obj_new (fst r) (snd r) k) a <= icost (obj_new (fst r) (snd r) k) b <->
   (obj_value r a <= obj_value r b)%Z).
Proof.
  intros H. destruct (icost_value r k a H) as (Ha & Hf & _). destruct (icost_value r k b H) as (Hb & _).
  split; intros Hle; nia.
Qed.

Lemma to_isize_ok z : (isize_min <= z <= isize_max)%Z -> to_isize z = Some z.
Proof.
  intros H. unfold to_isize. destruct (isize_min <=? z)%Z eqn:e1; [|apply Z.leb_gt in e1; lia].
  destruct (z <=? isize_max)%Z eqn:e2; [reflexivity|apply Z.leb_gt in e2; lia].
Qed.
Lemma externalize_value r k a : obj_ok r -> obj_fits r ->
  externalize_one (obj_new (fst r) (snd r) k) (icost (obj_new (fst r) (snd r) k) a) = Some (obj_value r a).
Proof.
  intros H (F1 & F2 & F3). destruct (icost_value r k a H) as (Ha & Hf & Ho).
  assert (Hw : wsum a (fst r) <= wtotal (fst r)) by apply wsum_le_total.
  assert (Hv : obj_value r a = (snd r + Z.of_nat (wsum a (fst r)))%Z) by reflexivity.
  assert (Hmin : (isize_min < 0)%Z) by reflexivity.
  destruct (obj_new (fst r) (snd r) k) as [off ls i lb|off uw ls i lb|off i lb];
    cbn [externalize_one factor obj_unit_weight obj_offset] in *.
  - rewrite Nat.mul_1_r in Ha. rewrite to_isize_ok by lia. rewrite to_isize_ok by lia. f_equal. lia.
  - rewrite Nat2Z.inj_mul in Ha. rewrite to_isize_ok by lia. rewrite to_isize_ok by lia. f_equal. lia.
  - unfold icost in *; cbn in *. f_equal. lia.
Qed.

Section Objs.
  Variable rs : list raw_obj.
  Hypothesis Hok : Forall obj_ok rs.

  Lemma build_nth k i : nth_error (build_objs k rs) i =
    match nth_error rs i with Some r => Some (obj_new (fst r) (snd r) (k + i)) | None => None end.
  Proof.
    clear Hok. revert k i; induction rs as [|r l IH]; intros k [|i]; cbn; try reflexivity.
    - now rewrite Nat.add_0_r.
    - rewrite IH. now rewrite Nat.add_succ_r.
  Qed.
  Lemma build_length k : length (build_objs k rs) = length rs.
  Proof. clear Hok. revert k; induction rs; intros k; cbn; auto. Qed.

  Lemma ic_le k a b : vle (ic (build_objs k rs) a) (ic (build_objs k rs) b) <->
    weakly_dominates (costs rs a) (costs rs b).
  Proof.
    revert k. induction Hok as [|r l Hr Hl IH]; intros k; cbn.
    - split; intros _; constructor.
    - split; intros H; inversion H; subst; constructor.
      + now apply (icost_le r k).
      + eapply IH; eauto.
      + now apply (icost_le r k).
      + eapply IH; eauto.
  Qed.
  Lemma ic_eq k a b : ic (build_objs k rs) a = ic (build_objs k rs) b <-> costs rs a = costs rs b.
  Proof.
    assert (Hwd : forall a b, costs rs a = costs rs b <->
      weakly_dominates (costs rs a) (costs rs b) /\ weakly_dominates (costs rs b) (costs rs a)).
    { clear. intros a b. unfold weakly_dominates. split.
      - intros ->. split; induction (costs rs b); constructor; auto; lia.
      - generalize (costs rs b). induction (costs rs a) as [|x l IH]; intros [|y l'] [H1 H2]; inversion H1; inversion H2; subst; [reflexivity|].
        f_equal; [lia|]. apply IH. auto. }
    rewrite Hwd, <- !(ic_le k). split.
    - intros ->. split; apply vle_refl.
    - intros [H1 H2]. now apply vle_antisym.
  Qed.
  Lemma ext_all k a : Forall obj_fits rs ->
    externalize_all (build_objs k rs) (ic (build_objs k rs) a) = Some (costs rs a).
  Proof.
    revert k. induction Hok as [|r l Hr Hl IH]; intros k Hf; [reflexivity|]. inversion Hf; subst.
    cbn [build_objs ic map externalize_all costs]. change (map (fun o => icost o a) (build_objs (S k) l)) with (ic (build_objs (S k) l) a).
    rewrite externalize_value by assumption. rewrite IH by assumption. reflexivity.
  Qed.

  Variable cls : list clause.
  Lemma ipareto_iff k a : feasible cls a ->
    (ipareto (fun a => sat a cls) (build_objs k rs) (ic (build_objs k rs) a) <->
     pareto_optimal cls rs (costs rs a)).
  Proof.
    intros Ha. split.
    - intros [_ Hmin]. split; [exists a; auto|]. intros b Hb [Hd Hne].
      apply Hne. apply (ic_eq k). apply Hmin; [exact Hb|]. now apply (ic_le k).
    - intros [_ Hmin]. split; [exists a; auto|]. intros b Hb Hle. apply (ic_eq k).
      destruct (list_eq_dec Z.eq_dec (costs rs b) (costs rs a)) as [He|Hne]; [exact He|].
      exfalso. apply (Hmin b Hb). split; [now apply (ic_le k)|exact Hne].
  Qed.
End Objs.
