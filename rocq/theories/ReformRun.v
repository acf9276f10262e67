(** * The proof of the objective reformulation: running the bookkeeping of core-guided search *)
From Coq Require Import List Arith ZArith Lia Bool.
From Verif Require Import Base BaseLemmas Spec MTypes MPMinimal MPrepro MOll Ext OllData OllThm VeriPB VeriThm MProofs ProofThm ProofRun ProofCut MTracer TracerThm MReform ReformSpec ReformThm.
Import ListNotations.
Local Open Scope Z_scope.

(** ** Lines that combine constraints *)
Lemma lb_of_vars : forall (vs : list pv) f d v, In v (cvars (lb_of vs f d)) -> In v vs.
Proof. intros vs f d v H. unfold cvars, lb_of in H. cbn [lb_terms] in H. rewrite map_map in H. apply in_map_iff in H. destruct H as (x & <- & H). destruct (0 <=? f x); exact H. Qed.
Lemma pol_vars : forall get p c v, pol_eval pv_eqd get p = Some c -> In v (cvars c) -> exists i d, get i = Some d /\ In v (cvars d).
Proof.
  intros get p. induction p as [i|p IHp q IHq|p IH k|p IH k|p IH]; intros c v E Hv; cbn [pol_eval] in E.
  - exists i, c. split; assumption.
  - destruct (pol_eval pv_eqd get p) as [c1|]; [|discriminate]. destruct (pol_eval pv_eqd get q) as [c2|]; [|discriminate].
    injection E as <-. unfold cvars, lb_add in Hv. cbn [lb_terms] in Hv. rewrite map_app in Hv. apply in_app_or in Hv.
    destruct Hv as [Hv|Hv]; [exact (IHp c1 v eq_refl Hv)|exact (IHq c2 v eq_refl Hv)].
  - destruct (0 <=? k); [|discriminate]. destruct (pol_eval pv_eqd get p) as [c1|]; [|discriminate]. injection E as <-.
    unfold cvars, lb_mul in Hv. cbn [lb_terms] in Hv. rewrite map_map in Hv. exact (IH c1 v eq_refl Hv).
  - destruct (0 <? k); [|discriminate]. destruct (pol_eval pv_eqd get p) as [c1|]; [|discriminate]. injection E as <-.
    apply lb_of_vars in Hv. apply in_lb_vars in Hv. exact (IH c1 v eq_refl Hv).
  - destruct (pol_eval pv_eqd get p) as [c1|]; [|discriminate]. injection E as <-.
    apply lb_of_vars in Hv. apply in_lb_vars in Hv. exact (IH c1 v eq_refl Hv).
Qed.
Lemma e_get_in : forall es i c, e_get es i = Some c -> In (i, c) es.
Proof.
  induction es as [|[j d] es IH]; intros i c E; cbn [e_get] in E; [discriminate|].
  destruct (Nat.eqb_spec j i) as [->|N]; [injection E as ->; left; reflexivity|right; exact (IH i c E)].
Qed.
Lemma id_get_in : forall es n i c, id_get es n i = Some c -> exists j, In (j, c) es.
Proof.
  intros es n [j|k] c E; cbn [id_get] in E; [exists j; apply e_get_in; exact E|].
  destruct (k <=? n)%nat; [|discriminate]. exists (n - k)%nat. apply e_get_in. exact E.
Qed.
Definition kget (k : chk) : cid -> option pconstr := id_get (k_all k) (k_next k).

Lemma wok_pol : forall k0 p pl C, wok k0 p -> pol_eval pv_eqd (kget (kof k0 p)) pl = Some C ->
  wok k0 (snd (wr_id (SPol pl) p)) /\ kof k0 (snd (wr_id (SPol pl) p)) = add_der (kof k0 p) C.
Proof.
  intros k0 p pl C W E.
  assert (Es : step_next (kof k0 p) (SPol pl) = add_der (kof k0 p) C).
  { cbn [step_next]. unfold kget in E. rewrite E. reflexivity. }
  split; [|rewrite kof_wr_id; exact Es].
  eapply wok_der; [exact W| |exact Es|].
  - cbn [step_valid]. unfold kget in E. rewrite E. discriminate.
  - intros n Hn. destruct (pol_vars _ _ _ _ E Hn) as (i & d & Ed & Hd). destruct (id_get_in _ _ _ _ Ed) as (j & Hj).
    exact (wk_fresh _ _ W (j, d) n Hj Hd).
Qed.
Lemma del_ok_der : forall core next ord ns gs, (forall n C, In n ns -> ~ In (n, C) core) -> del_ok core next ord ns gs.
Proof.
  intros core next ord ns gs. induction ns as [|n ns IH]; intros H; cbn [del_ok]; [exact Logic.I|].
  destruct (e_get core n) as [c|] eqn:E.
  - exfalso. exact (H n c (or_introl eq_refl) (e_get_in _ _ _ E)).
  - apply IH. intros m C Hm. apply H. right. exact Hm.
Qed.
Lemma abs_map : forall n ids, map (cid_abs n) (map CAbs ids) = ids.
Proof. intros n ids. rewrite map_map. cbn [cid_abs]. apply map_id. Qed.
Lemma wok_del : forall k0 p ids, wok k0 p -> (forall i C, In i ids -> ~ In (i, C) (k_core (kof k0 p))) ->
  wok k0 (wr (SDel (map CAbs ids) []) p) /\
  (forall i C, In (i, C) (k_all (kof k0 (wr (SDel (map CAbs ids) []) p))) <-> In (i, C) (k_all (kof k0 p)) /\ ~ In i ids) /\
  (forall e, In e (k_core (kof k0 (wr (SDel (map CAbs ids) []) p))) -> In e (k_core (kof k0 p))).
Proof.
  intros k0 p ids W H.
  assert (A : forall i C, In (i, C) (k_all (step_next (kof k0 p) (SDel (map CAbs ids) []))) <-> In (i, C) (k_all (kof k0 p)) /\ ~ In i ids).
  { intros i C. rewrite del_all, abs_map. reflexivity. }
  split; [|rewrite kof_wr; split; [exact A|intros e; apply del_core]].
  eapply wok_step; [exact W|reflexivity| | |].
  - cbn [step_valid]. rewrite abs_map. apply del_ok_der. exact H.
  - cbn [step_next k_next wr ps_next]. exact (wk_next _ _ W).
  - intros [i C] n He Hn. apply A in He. destruct He as [He _]. exact (wk_fresh _ _ W (i, C) n He Hn).
Qed.

Lemma nd_l : forall {A} (x y : list A), NoDup (x ++ y) -> NoDup x.
Proof.
  intros A x y. induction x as [|a x IH]; cbn [app]; intros H; [constructor|]. inversion H as [|b c Hb Hc]; subst.
  constructor; [intros X; apply Hb; apply in_or_app; left; exact X|exact (IH Hc)].
Qed.
Lemma nd_r : forall {A} (x y : list A), NoDup (x ++ y) -> NoDup y.
Proof. intros A x y. induction x as [|a x IH]; cbn [app]; intros H; [exact H|]. inversion H as [|b c Hb Hc]; subst. exact (IH Hc). Qed.

(** ** Totalizers *)
Local Open Scope nat_scope.
(** inputs plus negated outputs [s+1 .. m], at least [m] *)
Definition shape_ls (t : tinfo) (s m : nat) : list (ax pv) := leaf_ax t ++ map (fun j => ax_not (out_ax t j)) (seq (s + 1) (m - s)).
Definition shape (C : pconstr) (t : tinfo) (s m : nat) : Prop := card C (shape_ls t s m) (Z.of_nat m).

Lemma shape_vars : forall t s m, map ax_var (shape_ls t s m) = map ax_var (leaf_ax t ++ map (out_ax t) (seq (s + 1) (m - s))).
Proof. intros. unfold shape_ls. rewrite !map_app, !map_map. reflexivity. Qed.
Lemma shape_proper : forall t s m, tot_wf t -> 1 <= s -> m <= nleaf t -> proper_ls (shape_ls t s m).
Proof.
  intros t s m H Hs Hm. unfold proper_ls. rewrite shape_vars. unfold tot_wf, proper_ls in H.
  destruct (Nat.le_gt_cases m s) as [L|L].
  { replace (m - s) with 0 by lia. cbn [seq map]. rewrite app_nil_r. rewrite map_app in H. exact (nd_l _ _ H). }
  replace (seq 2 (nleaf t - 1)) with (seq 2 (s - 1) ++ seq (s + 1) (m - s) ++ seq (m + 1) (nleaf t - m)) in H.
  2: { replace (s + 1) with (2 + (s - 1)) by lia. replace (m + 1) with (2 + (s - 1) + (m - s)) by lia.
       rewrite <- !seq_app. f_equal. lia. }
  rewrite !map_app in *. rewrite !app_assoc in H. apply nd_l in H. rewrite <- app_assoc in H.
  revert H. generalize (map ax_var (leaf_ax t)) (map ax_var (map (out_ax t) (seq 2 (s - 1)))) (map ax_var (map (out_ax t) (seq (s + 1) (m - s)))).
  intros A B D H. induction A as [|a A IH]; cbn [app] in *; [exact (nd_r _ _ H)|].
  inversion H as [|x xs Hx Hr]; subst. constructor; [|exact (IH Hr)]. intros X. apply Hx. apply in_app_or in X. apply in_or_app.
  destruct X as [X|X]; [left; exact X|right; apply in_or_app; right; exact X].
Qed.
Lemma shape_snoc : forall t s m, s <= m -> shape_ls t s (S m) = shape_ls t s m ++ [ax_not (out_ax t (S m))].
Proof.
  intros t s m H. unfold shape_ls. replace (S m - s) with (m - s + 1) by lia. rewrite seq_app, map_app, app_assoc. cbn [seq map].
  replace (s + 1 + (m - s)) with (S m) by lia. reflexivity.
Qed.
Lemma shape_fresh : forall t s m, tot_wf t -> 1 <= s -> s <= m -> m < nleaf t -> ~ In (ax_var (out_ax t (S m))) (map ax_var (shape_ls t s m)).
Proof.
  intros t s m H Hs Hm Hl. pose proof (shape_proper t s (S m) H Hs ltac:(lia)) as P. rewrite shape_snoc in P by exact Hm.
  unfold proper_ls in P. rewrite map_app in P. cbn [map] in P. apply NoDup_remove_2 in P. rewrite app_nil_r in P. exact P.
Qed.
Lemma shape_leaf : forall t s m, incl (leaf_ax t) (shape_ls t s m).
Proof. intros t s m x H. unfold shape_ls. apply in_or_app. left. exact H. Qed.
Lemma leaf_proper : forall t, tot_wf t -> proper_ls (leaf_ax t).
Proof. intros t H. unfold tot_wf, proper_ls in *. rewrite map_app in H. exact (nd_l _ _ H). Qed.

Lemma cnt_one : forall a l, cnt a [l] = b2z (ax_true a l).
Proof. intros a l. unfold cnt, ones. cbn [map lb_sum fst snd]. destruct (ax_true a l); reflexivity. Qed.
Lemma b2z_not : forall (a : pv -> bool) l, b2z (ax_true a (ax_not l)) = (1 - b2z (ax_true a l))%Z.
Proof. intros a l. unfold ax_true, ax_not. cbn [ax_var ax_neg]. destruct (ax_neg l), (a (ax_var l)); reflexivity. Qed.
(** the value of a reformulation constraint *)
Definition osum (a : pv -> bool) (t : tinfo) (js : list nat) : Z := cnt a (map (out_ax t) js).
Lemma cnt_nots : forall a t js, cnt a (map (fun j => ax_not (out_ax t j)) js) = (Z.of_nat (length js) - osum a t js)%Z.
Proof.
  intros a t js. unfold osum. induction js as [|j js IH]; [reflexivity|]. cbn [map length].
  change (cnt a ([ax_not (out_ax t j)] ++ map (fun j => ax_not (out_ax t j)) js) = (Z.of_nat (S (length js)) - cnt a ([out_ax t j] ++ map (out_ax t) js))%Z).
  rewrite !cnt_app, IH, !cnt_one, b2z_not. lia.
Qed.
Lemma shape_val : forall C t s m a, tot_wf t -> 1 <= s -> s <= m -> m <= nleaf t -> shape C t s m ->
  (lb_val a C = cnt a (leaf_ax t) - Z.of_nat s - osum a t (seq (s + 1) (m - s)))%Z.
Proof.
  intros C t s m a H Hs Hm Hl HC. rewrite (card_val C (shape_ls t s m) (Z.of_nat m) a); [|apply shape_proper; assumption|exact HC].
  unfold shape_ls. rewrite cnt_app, cnt_nots, seq_length. lia.
Qed.

Lemma shape_step : forall C D t s m, tot_wf t -> 1 <= s -> s <= m -> S m <= nleaf t -> shape C t s m ->
  odef D (leaf_ax t) (out_ax t (S m)) (Z.of_nat (S m)) ->
  shape (lb_div pv_eqd (Z.of_nat (S m)) (lb_add (lb_mul (Z.of_nat m) C) D)) t s (S m).
Proof.
  intros C D t s m H Hs Hm Hl HC HD. unfold shape. rewrite shape_snoc by exact Hm.
  replace (Z.of_nat m) with (Z.of_nat (S m) - 1)%Z by lia.
  apply (reform_step C D (shape_ls t s m) (leaf_ax t)).
  - apply shape_proper; [assumption|assumption|lia].
  - apply shape_leaf.
  - apply shape_fresh; try assumption.
  - lia.
  - replace (Z.of_nat (S m) - 1)%Z with (Z.of_nat m) by lia. exact HC.
  - exact HD.
Qed.
Lemma lb_mul_1 : forall c : pconstr, lb_mul 1 c = c.
Proof.
  intros [ts b]. unfold lb_mul. cbn [lb_terms lb_bound]. rewrite Z.mul_1_l. f_equal.
  rewrite <- (map_id ts) at 2. apply map_ext. intros [x y]. cbn [fst snd]. rewrite Z.mul_1_l. reflexivity.
Qed.
Lemma shape_nil : forall t s, shape_ls t s s = leaf_ax t.
Proof. intros t s. unfold shape_ls. rewrite Nat.sub_diag. cbn [seq map]. apply app_nil_r. Qed.
Lemma has_get : forall k id t v, ids_ok k -> has_def k id t v ->
  exists D, kget k (CAbs id) = Some D /\ odef D (leaf_ax t) (out_ax t v) (Z.of_nat v).
Proof. intros k id t v W (D & H & HD). exists D. split; [|exact HD]. cbn [kget id_get]. apply k_get; assumption. Qed.

(** one step of a line *)
Lemma ev_step : forall k e C t s m d, ids_ok k -> tot_wf t -> 1 <= s -> s <= m -> S m <= nleaf t ->
  pol_eval pv_eqd (kget k) e = Some C -> shape C t s m -> has_def k d t (S m) ->
  exists C', pol_eval pv_eqd (kget k) (PDiv (PAdd (PMul e (Z.of_nat m)) (PC (CAbs d))) (Z.of_nat (S m))) = Some C' /\ shape C' t s (S m).
Proof.
  intros k e C t s m d W H Hs Hm Hl E HC Hd. destruct (has_get _ _ _ _ W Hd) as (D & ED & HD).
  eexists. split; [|exact (shape_step C D t s m H Hs Hm Hl HC HD)].
  cbn [pol_eval]. rewrite (proj2 (Z.ltb_lt 0 (Z.of_nat (S m))) ltac:(lia)), (proj2 (Z.leb_le 0 (Z.of_nat m)) ltac:(lia)), E, ED. reflexivity.
Qed.
Lemma ev_init : forall k t c C d, ids_ok k -> tot_wf t -> 2 <= nleaf t -> In (c, C) (k_all k) -> clausal C (leaf_ax t) -> has_def k d t 2 ->
  exists C', pol_eval pv_eqd (kget k) (reform_init c d) = Some C' /\ shape C' t 1 2.
Proof.
  intros k t c C d W H Hl HC Hcl Hd. destruct (has_get _ _ _ _ W Hd) as (D & ED & HD).
  assert (HS : shape C t 1 1) by (unfold shape; rewrite shape_nil; exact Hcl).
  pose proof (shape_step C D t 1 1 H (le_n 1) (le_n 1) Hl HS HD) as X. change (Z.of_nat 1) with 1%Z in X. rewrite lb_mul_1 in X.
  eexists. split; [|exact X]. unfold reform_init. cbn [pol_eval].
  assert (EC : kget k (CAbs c) = Some C) by (cbn [kget id_get]; apply k_get; assumption). rewrite EC, ED. reflexivity.
Qed.
Lemma ev_extend : forall k t s oidx pid C d, ids_ok k -> tot_wf t -> 1 <= s -> s <= oidx + 1 -> oidx + 2 <= nleaf t ->
  In (pid, C) (k_all k) -> shape C t s (oidx + 1) -> has_def k d t (oidx + 2) ->
  exists C', pol_eval pv_eqd (kget k) (reform_extend (PC (CAbs pid)) d oidx) = Some C' /\ shape C' t s (oidx + 2).
Proof.
  intros k t s oidx pid C d W H Hs Hm Hl HC HS Hd. unfold reform_extend. replace (oidx + 2) with (S (oidx + 1)) in * by lia.
  apply (ev_step k (PC (CAbs pid)) C); try assumption. cbn [pol_eval kget id_get]. apply k_get; assumption.
Qed.
Lemma ev_all : forall k t f s j m e C, ids_ok k -> tot_wf t -> 1 <= s -> s <= m -> m + j <= nleaf t ->
  pol_eval pv_eqd (kget k) e = Some C -> shape C t s m -> (forall v, m < v <= m + j -> has_def k (f v) t v) ->
  exists C', pol_eval pv_eqd (kget k) (reform_all e f (seq (S m) j)) = Some C' /\ shape C' t s (m + j).
Proof.
  intros k t f s j. induction j as [|j IH]; intros m e C W H Hs Hm Hl E HS Hd; cbn [seq reform_all].
  - exists C. rewrite Nat.add_0_r. split; assumption.
  - replace (Z.of_nat (S m) - 1)%Z with (Z.of_nat m) by lia.
    destruct (ev_step k e C t s m (f (S m)) W H Hs Hm ltac:(lia) E HS (Hd (S m) ltac:(lia))) as (C1 & E1 & S1).
    replace (m + S j) with (S m + j) by lia.
    apply (IH (S m) _ C1); try assumption; try lia. intros v Hv. apply Hd. lia.
Qed.
Lemma ev_exhaust : forall k t f j b e C us, ids_ok k -> tot_wf t -> 1 <= b -> b + j = nleaf t ->
  pol_eval pv_eqd (kget k) e = Some C -> shape C t b b -> length us <= j ->
  (forall v, b < v <= b + Nat.min j (length us + 1) -> has_def k (f v) t v) ->
  (forall i u, nth_error us i = Some u -> exists U, In (u, U) (k_all k) /\ clausal U [out_ax t (b + 1 + i)]) ->
  exists C', pol_eval pv_eqd (kget k) (reform_exhaust e b (map f (seq (S b) j)) us) = Some C' /\
    shape C' t (b + length us) (Nat.min (nleaf t) (b + length us + 1)).
Proof.
  intros k t f j. induction j as [|j IH]; intros b e C us W H Hb Hl E HS Hu Hd Hus; cbn [seq map reform_exhaust].
  - destruct us as [|u us]; [|cbn [length] in Hu; lia]. exists C. split; [exact E|]. cbn [length]. rewrite Nat.add_0_r.
    replace (Nat.min (nleaf t) (b + 1)) with b by lia. exact HS.
  - destruct (ev_step k e C t b b (f (S b)) W H Hb (le_n b) ltac:(lia) E HS) as (C1 & E1 & S1).
    { apply Hd. lia. }
    replace (b + 1) with (S b) by lia. destruct us as [|u us].
    + exists C1. split; [exact E1|]. cbn [length]. replace (Nat.min (nleaf t) (b + 0 + 1)) with (S b) by lia. rewrite Nat.add_0_r. exact S1.
    + destruct (Hus 0 u eq_refl) as (U & HU & CU). replace (b + 1 + 0) with (S b) in CU by lia.
      assert (S2 : shape (lb_add C1 U) t (S b) (S b)).
      { unfold shape in *. rewrite shape_nil. rewrite shape_snoc in S1 by lia. rewrite shape_nil in S1.
        apply (reform_unit C1 U (leaf_ax t) (out_ax t (S b))); [exact (leaf_proper t H)| |exact S1|exact CU].
        pose proof (shape_fresh t b b H Hb (le_n b) ltac:(lia)) as X. rewrite shape_nil in X. exact X. }
      replace (b + length (u :: us)) with (S b + length us) by (cbn [length]; lia).
      apply (IH (S b) _ (lb_add C1 U)); try assumption; try lia.
      * change (pol_eval pv_eqd (kget k) (PAdd (PDiv (PAdd (PMul e (Z.of_nat b)) (PC (CAbs (f (S b))))) (Z.of_nat (S b))) (PC (CAbs u))))
          with (match pol_eval pv_eqd (kget k) (PDiv (PAdd (PMul e (Z.of_nat b)) (PC (CAbs (f (S b))))) (Z.of_nat (S b))), kget k (CAbs u) with
                | Some c, Some d => Some (lb_add c d) | _, _ => None end).
        rewrite E1. assert (EU : kget k (CAbs u) = Some U) by (cbn [kget id_get]; apply k_get; assumption). rewrite EU. reflexivity.
      * cbn [length] in Hu. lia.
      * intros v Hv. apply Hd. cbn [length] in *. lia.
      * intros i x Hx. destruct (Hus (S i) x Hx) as (U' & HU' & CU'). exists U'. split; [exact HU'|].
        replace (S b + 1 + i) with (b + 1 + S i) by lia. exact CU'.
Qed.
