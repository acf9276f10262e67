(** * The proof of the objective reformulation: the invariant *)
From Coq Require Import List Arith ZArith Lia Bool Permutation.
From Verif Require Import Base BaseLemmas Spec MTypes MPMinimal MPrepro MOll Ext OllData OllThm VeriPB VeriThm MProofs ProofThm ProofRun ProofCut MTracer TracerThm MReform ReformSpec ReformThm ReformRun.
Import ListNotations.

Definition cval (es : list entry) (a : pv -> bool) (i : nat) : Z := match e_get es i with Some C => lb_val a C | None => 0 end.
Definition psum (es : list entry) (a : pv -> bool) (ws : list (nat * nat)) : Z :=
  fold_right (fun iw z => (Z.of_nat (snd iw) * cval es a (fst iw) + z)%Z) 0%Z ws.
Definition rem (a : pv -> bool) (ls : list (lit * nat)) : Z := lb_sum a (wterms ls).

Lemma psum_perm : forall es a x y, Permutation x y -> psum es a x = psum es a y.
Proof. intros es a x y H. induction H; cbn [psum fold_right] in *; unfold psum in *; lia. Qed.
Lemma psum_cons : forall es a i w x, psum es a ((i, w) :: x) = (Z.of_nat w * cval es a i + psum es a x)%Z.
Proof. reflexivity. Qed.
Lemma psum_app : forall es a x y, psum es a (x ++ y) = (psum es a x + psum es a y)%Z.
Proof. intros es a x y. induction x as [|[i w] x IH]; [reflexivity|]. cbn [app]. rewrite !psum_cons, IH. lia. Qed.
Lemma cval_in : forall k a i C, ids_ok k -> In (i, C) (k_all k) -> cval (k_all k) a i = lb_val a C.
Proof. intros k a i C W H. unfold cval. rewrite (k_get k i C W H). reflexivity. Qed.
Lemma psum_keep : forall k k' a ws, ids_ok k -> ids_ok k' ->
  (forall i, In i (map fst ws) -> exists C, In (i, C) (k_all k) /\ In (i, C) (k_all k')) ->
  psum (k_all k') a ws = psum (k_all k) a ws.
Proof.
  intros k k' a ws W W' H. induction ws as [|[i w] ws IH]; [reflexivity|]. rewrite !psum_cons, IH.
  - destruct (H i (or_introl eq_refl)) as (C & H1 & H2). rewrite (cval_in k a i C W H1), (cval_in k' a i C W' H2). reflexivity.
  - intros j Hj. apply H. right. exact Hj.
Qed.
Lemma rem_cons : forall a l w x, rem a ((l, w) :: x) = (Z.of_nat w * b2z (ax_true a (axiom l)) + rem a x)%Z.
Proof. reflexivity. Qed.
Lemma rem_app : forall a x y, rem a (x ++ y) = (rem a x + rem a y)%Z.
Proof. intros a x y. unfold rem, wterms. rewrite map_app. apply lb_sum_app. Qed.
Lemma rem_replace : forall a m l w v, NoDup (map fst m) -> hm_get l m = Some w ->
  rem a (hm_insert l v m) = (rem a m + (Z.of_nat v - Z.of_nat w) * b2z (ax_true a (axiom l)))%Z.
Proof.
  intros a m l w v. induction m as [|[k x] m IH]; intros Hd E; cbn [hm_get] in E; [discriminate|].
  cbn [hm_insert]. destruct (lit_eqb l k) eqn:El.
  - apply lit_eqb_eq in El. subst k. injection E as ->. rewrite !rem_cons. lia.
  - inversion Hd as [|y ys H1 H2]; subst. rewrite !rem_cons, (IH H2 E). lia.
Qed.
Lemma rem_new : forall a m l v, ~ In l (map fst m) -> rem a (hm_insert l v m) = (rem a m + Z.of_nat v * b2z (ax_true a (axiom l)))%Z.
Proof. intros a m l v H. rewrite hm_insert_new by exact H. rewrite rem_app, rem_cons. unfold rem at 2. cbn [wterms map lb_sum]. lia. Qed.
Lemma hm_get_insert : forall {V} (m : list (lit * V)) l v k, hm_get k (hm_insert l v m) = if lit_eqb k l then Some v else hm_get k m.
Proof.
  intros V m l v k. induction m as [|[j w] m IH]; [reflexivity|]. cbn [hm_insert].
  destruct (lit_eqb l j) eqn:E.
  - apply lit_eqb_eq in E. subst j. cbn [hm_get]. destruct (lit_eqb k l); reflexivity.
  - cbn [hm_get]. rewrite IH. destruct (lit_eqb k j) eqn:E2; [|reflexivity]. apply lit_eqb_eq in E2. subst j.
    destruct (lit_eqb k l) eqn:E3; [|reflexivity]. apply lit_eqb_eq in E3. subst. rewrite lit_eqb_refl in E. discriminate.
Qed.
Lemma hm_remove_perm : forall {V} (m : list (lit * V)) l v, NoDup (map fst m) -> hm_get l m = Some v -> Permutation m ((l, v) :: hm_remove l m).
Proof.
  intros V m l v. induction m as [|[k x] m IH]; intros Hd E; cbn [hm_get] in E; [discriminate|].
  inversion Hd as [|y ys H1 H2]; subst. unfold hm_remove. cbn [filter fst]. destruct (lit_eqb l k) eqn:El.
  - apply lit_eqb_eq in El. subst k. injection E as ->. cbn [negb]. fold (hm_remove l m). cbn [fst] in H1. rewrite hm_remove_none by exact H1. reflexivity.
  - cbn [negb]. fold (hm_remove l m). rewrite (IH H2 E) at 1. apply perm_swap.
Qed.

(** ** The invariant *)
Definition ref_ok (k : chk) (x : lit * rdat) : Prop :=
  let d := snd x in let t := rt_tot d in
  tot_wf t /\ fst x = ti_out t (rt_oidx d + 1) /\ 1 <= rt_oidx d /\ rt_oidx d + 1 <= nleaf t /\
  exists s C, 1 <= s /\ s <= rt_oidx d /\ In (rt_pid d, C) (k_all k) /\ shape C t s (rt_oidx d + 1).
Definition pend_ok (k : chk) (c : (list lit * nat) * nat) : Prop :=
  2 <= length (fst (fst c)) /\ exists C, In (snd c, C) (k_all k) /\ clausal C (map axiom (fst (fst c))).
Definition live (k : chk) (i : nat) : Prop := (exists C, In (i, C) (k_all k)) /\ forall C, ~ In (i, C) (k_core k).
Record rinv (k0 : chk) (G : (pv -> bool) -> Z) (s : rst) : Prop := mkRinv {
  ri_wok : wok k0 (rs_p s);
  ri_in : NoDup (map fst (rs_in s));
  ri_rk : NoDup (map fst (rs_refs s));
  ri_sub : forall l, In l (map fst (rs_refs s)) -> In l (map fst (rs_in s));
  ri_nd : NoDup (used s);
  ri_live : forall i, In i (used s) -> live (kof k0 (rs_p s)) i;
  ri_ref : forall x, In x (rs_refs s) -> ref_ok (kof k0 (rs_p s)) x;
  ri_pend : forall c, In c (rs_pend s) -> pend_ok (kof k0 (rs_p s)) c;
  ri_val : forall a, psum (k_all (kof k0 (rs_p s))) a (wused s) = (G a - rem a (rs_in s))%Z
}.
(** what is not in use stays, nothing moves to the core set *)
Definition quiet (k0 : chk) (s s' : rst) : Prop :=
  (forall i C, In (i, C) (k_all (kof k0 (rs_p s))) -> ~ In i (used s) -> In (i, C) (k_all (kof k0 (rs_p s'))) /\ ~ In i (used s')) /\
  (forall e, In e (k_core (kof k0 (rs_p s'))) -> In e (k_core (kof k0 (rs_p s)))).
Lemma quiet_refl : forall k0 s, quiet k0 s s.
Proof. intros k0 s. split; auto. Qed.
Lemma quiet_trans : forall k0 s1 s2 s3, quiet k0 s1 s2 -> quiet k0 s2 s3 -> quiet k0 s1 s3.
Proof.
  intros k0 s1 s2 s3 [A B] [C D]. split; [|auto]. intros i c H1 H2. destruct (A i c H1 H2) as [H3 H4]. exact (C i c H3 H4).
Qed.
Lemma ref_part_in : forall (refs : list (lit * rdat)) x, In x refs -> In (rt_pid (snd x), rt_w (snd x)) (ref_parts refs).
Proof. intros refs x H. unfold ref_parts. apply in_map_iff. exists x. split; [reflexivity|exact H]. Qed.
Lemma used_ref : forall s x, In x (rs_refs s) -> In (rt_pid (snd x)) (used s).
Proof.
  intros s x H. unfold used, wused. apply in_map_iff. exists (rt_pid (snd x), rt_w (snd x)). split; [reflexivity|].
  apply in_or_app. right. apply in_or_app. left. apply ref_part_in. exact H.
Qed.
Lemma used_pend : forall s c, In c (rs_pend s) -> In (snd c) (used s).
Proof.
  intros s c H. unfold used, wused. apply in_map_iff. exists (snd c, snd (fst c)). split; [reflexivity|].
  apply in_or_app. right. apply in_or_app. right. unfold pend_parts. apply in_map_iff. exists c. split; [reflexivity|exact H].
Qed.
Lemma ref_ok_keep : forall k k' x, (forall C, In (rt_pid (snd x), C) (k_all k) -> In (rt_pid (snd x), C) (k_all k')) -> ref_ok k x -> ref_ok k' x.
Proof.
  intros k k' x H (A & B & C & D & s & c & E1 & E2 & E3 & E4). split; [exact A|split; [exact B|split; [exact C|split; [exact D|]]]].
  exists s, c. auto.
Qed.
Lemma pend_ok_keep : forall k k' x, (forall C, In (snd x, C) (k_all k) -> In (snd x, C) (k_all k')) -> pend_ok k x -> pend_ok k' x.
Proof. intros k k' x H (A & C & D & E). split; [exact A|]. exists C. auto. Qed.
(** the proof goes on without touching what is in use *)
Lemma rinv_proof : forall k0 G s p, rinv k0 G s -> wok k0 p ->
  (forall i C, In i (used s) -> In (i, C) (k_all (kof k0 (rs_p s))) -> In (i, C) (k_all (kof k0 p))) ->
  (forall i C, In i (used s) -> ~ In (i, C) (k_core (kof k0 p))) ->
  rinv k0 G (mkRst (rs_in s) (rs_refs s) (rs_ids s) (rs_pend s) (rs_off s) p).
Proof.
  intros k0 G s p R W HK HC. destruct R as [R1 R2 R3 R4 R5 R6 R7 R8 R9].
  constructor; cbn [rs_in rs_refs rs_ids rs_pend rs_off rs_p]; try assumption.
  - intros i Hi. split; [|intros C; apply HC; exact Hi]. destruct (R6 i Hi) as [[C X] _]. exists C. exact (HK i C Hi X).
  - intros x Hx. apply (ref_ok_keep (kof k0 (rs_p s))); [|exact (R7 x Hx)]. intros C. apply HK. apply used_ref. exact Hx.
  - intros c Hc. apply (pend_ok_keep (kof k0 (rs_p s))); [|exact (R8 c Hc)]. intros C. apply HK. apply used_pend. exact Hc.
  - intros a. rewrite <- R9. apply psum_keep; [exact (wk_ids _ _ R1)|exact (wk_ids _ _ W)|].
    intros i Hi. destruct (R6 i Hi) as [[C X] _]. exists C. split; [exact X|exact (HK i C Hi X)].
Qed.

Definition relax_frame (s s' : rst) (l : lit) : Prop :=
  (forall l', l' <> l -> In l' (map fst (rs_in s)) -> hm_get l' (rs_refs s') = hm_get l' (rs_refs s)) /\
  (forall l', In l' (map fst (rs_in s)) -> In l' (map fst (rs_in s'))) /\
  (forall l', In l' (map fst (rs_in s')) -> In l' (map fst (rs_in s)) \/
     exists d, hm_get l (rs_refs s) = Some d /\ rt_oidx d + 2 <= nleaf (rt_tot d) /\ l' = ti_out (rt_tot d) (rt_oidx d + 2)) /\
  rs_pend s' = rs_pend s /\ rs_off s' = rs_off s.

Lemma split_refs : forall s l d, NoDup (map fst (rs_refs s)) -> hm_get l (rs_refs s) = Some d ->
  Permutation (wused s) ((rt_pid d, rt_w d) :: rs_ids s ++ ref_parts (hm_remove l (rs_refs s)) ++ pend_parts (rs_pend s)).
Proof.
  intros s l d Hd E. unfold wused. pose proof (hm_remove_perm _ _ _ Hd E) as P.
  apply (Permutation_map (fun x => (rt_pid (snd x), rt_w (snd x)))) in P. fold (ref_parts (rs_refs s)) in P. cbn [map snd] in P.
  fold (ref_parts (hm_remove l (rs_refs s))) in P. rewrite P. cbn [app]. symmetry. apply Permutation_middle.
Qed.
Lemma remove_nodup : forall {V} (m : list (lit * V)) l, NoDup (map fst m) -> NoDup (map fst (hm_remove l m)).
Proof.
  intros V m l H. unfold hm_remove. induction m as [|[k v] m IH]; [exact H|]. inversion H as [|x xs H1 H2]; subst. cbn [filter fst].
  destruct (negb (lit_eqb l k)); [|exact (IH H2)]. cbn [map fst]. constructor; [|exact (IH H2)].
  intros X. apply H1. apply in_map_iff in X. destruct X as ([k' v'] & E & X). apply filter_In in X. apply in_map_iff. exists (k', v'). tauto.
Qed.
Lemma ref_parts_app : forall x y, ref_parts (x ++ y) = ref_parts x ++ ref_parts y.
Proof. intros. apply map_app. Qed.
Lemma insert_keys_same : forall (m : list (lit * nat)) l w v, NoDup (map fst m) -> hm_get l m = Some w -> map fst (hm_insert l v m) = map fst m.
Proof. intros m l w v Hd E. apply (hm_replace m l w v Hd). apply hm_get_in. exact E. Qed.

Lemma relax_inv : forall k0 G s s' cw l, rinv k0 G s -> relax_pre k0 s l -> relax_lit cw l s = Some s' ->
  rinv k0 (fun a => (G a - Z.of_nat cw * b2z (ax_true a (axiom l)))%Z) s' /\ quiet k0 s s' /\ relax_frame s s' l.
Proof.
  intros k0 G s s' cw l R Hpre E. unfold relax_lit in E. destruct (hm_get l (rs_in s)) as [w|] eqn:Ew; [|discriminate].
  destruct (w <? cw) eqn:Elt; [discriminate|]. apply Nat.ltb_ge in Elt.
  pose proof R as [R1 R2 R3 R4 R5 R6 R7 R8 R9].
  pose proof (insert_keys_same (rs_in s) l w (w - cw) R2 Ew) as EK.
  assert (EV : forall a, rem a (hm_insert l (w - cw) (rs_in s)) = (rem a (rs_in s) - Z.of_nat cw * b2z (ax_true a (axiom l)))%Z).
  { intros a. rewrite (rem_replace a _ _ _ _ R2 Ew). rewrite Nat2Z.inj_sub by exact Elt. ring. }
  assert (Simple : s' = mkRst (hm_insert l (w - cw) (rs_in s)) (rs_refs s) (rs_ids s) (rs_pend s) (rs_off s) (rs_p s) ->
    rinv k0 (fun a => (G a - Z.of_nat cw * b2z (ax_true a (axiom l)))%Z) s' /\ quiet k0 s s' /\ relax_frame s s' l).
  { intros ->. split; [|split; [exact (quiet_refl k0 s)|]].
    - constructor; cbn [rs_in rs_refs rs_ids rs_pend rs_off rs_p]; try assumption.
      + rewrite EK. exact R2.
      + rewrite EK. exact R4.
      + intros a. rewrite EV. specialize (R9 a). unfold wused in *. cbn [rs_in rs_refs rs_ids rs_pend]. lia.
    - split; [|split; [|split; [|split]]]; cbn [rs_in rs_refs rs_pend rs_off]; try reflexivity; rewrite EK; auto. }
  destruct (hm_get l (rs_refs s)) as [d|] eqn:Ed; [|apply Simple; injection E as <-; reflexivity].
  destruct d as [t oidx tw pid]. destruct (0 <? w - cw) eqn:Ez; [apply Simple; injection E as <-; reflexivity|]. clear Simple.
  pose proof (split_refs s l _ R3 Ed) as P. cbn [rt_pid rt_w] in P.
  pose proof (R7 (l, mkRdat t oidx tw pid) (hm_get_in _ _ _ Ed)) as RO. destruct RO as (T1 & T2 & T3 & T4 & s0 & C & S1 & S2 & S3 & S4).
  cbn [fst snd rt_tot rt_oidx rt_w rt_pid] in *.
  destruct (length (ti_leafs t) <=? oidx + 1) eqn:El.
  - injection E as <-. split; [|split].
    + assert (P2 : Permutation (wused s) ((rs_ids s ++ [(pid, tw)]) ++ ref_parts (hm_remove l (rs_refs s)) ++ pend_parts (rs_pend s))).
      { rewrite P, <- app_assoc. cbn [app]. apply Permutation_middle. }
      constructor; cbn [rs_in rs_refs rs_ids rs_pend rs_off rs_p]; try assumption.
      * rewrite EK. exact R2.
      * apply remove_nodup. exact R3.
      * rewrite EK. intros l' Hl'. apply R4. apply hm_remove_keys in Hl'. tauto.
      * unfold used, wused. cbn [rs_in rs_refs rs_ids rs_pend]. apply (Permutation_NoDup (Permutation_map fst P2)). exact R5.
      * unfold used, wused. cbn [rs_in rs_refs rs_ids rs_pend]. intros i Hi. apply R6. exact (Permutation_in i (Permutation_sym (Permutation_map fst P2)) Hi).
      * intros [k x] Hx. apply R7. apply hm_remove_in in Hx. tauto.
      * intros a. rewrite EV. unfold wused. cbn [rs_in rs_refs rs_ids rs_pend]. rewrite <- (psum_perm _ a _ _ P2). specialize (R9 a). lia.
    + assert (EU : forall i, In i (used (mkRst (hm_insert l (w - cw) (rs_in s)) (hm_remove l (rs_refs s)) (rs_ids s ++ [(pid, tw)]) (rs_pend s) (rs_off s) (rs_p s))) -> In i (used s)).
      { intros i Hi. apply (Permutation_in i (Permutation_sym (Permutation_map fst P))). unfold used, wused in Hi. cbn [rs_in rs_refs rs_ids rs_pend] in Hi.
        rewrite <- app_assoc in Hi. cbn [app] in Hi. apply (Permutation_in i (Permutation_map fst (Permutation_sym (Permutation_middle _ _ _))) Hi). }
      split; [|auto]. intros i c Hi Hn. split; [exact Hi|]. intros X. apply Hn. exact (EU i X).
    + split; [|split; [|split; [|split]]]; cbn [rs_in rs_refs rs_pend rs_off]; try reflexivity; try (rewrite EK; auto).
      intros l' Hl' _. rewrite hm_get_remove. destruct (lit_eqb l l') eqn:X; [apply lit_eqb_eq in X; congruence|reflexivity].
  - apply Nat.leb_gt in El. fold (nleaf t) in El.
    destruct (Hpre _ Ed) as (D1 & D2 & D3); [cbn [rt_tot rt_oidx]; lia|]. cbn [rt_tot rt_oidx] in D1, D2, D3.
    set (nl := ti_out t (oidx + 2)) in *. set (pl := reform_extend (PC (CAbs pid)) (ti_only_if t (oidx + 2)) oidx) in *.
    destruct (ev_extend (kof k0 (rs_p s)) t s0 oidx pid C _ (wk_ids _ _ R1) T1 S1 ltac:(lia) ltac:(lia) S3 S4 D1) as (C' & EC & SC).
    destruct (wok_pol k0 (rs_p s) pl C' R1 EC) as [W1 K1].
    assert (Epid : exists q, wr_id (SPol pl) (rs_p s) = (ps_next (rs_p s), q) /\ q = snd (wr_id (SPol pl) (rs_p s))) by (eexists; split; reflexivity).
    destruct Epid as (q & Eq & Eq2). rewrite <- Eq2 in W1, K1. rewrite Eq in E. injection E as <-. clear Eq2 Eq.
    pose proof (wk_next _ _ R1) as Nx. rewrite <- Nx in *. set (k := kof k0 (rs_p s)) in *. set (new := k_next k) in *.
    assert (In1 : forall i c, In (i, c) (k_all (kof k0 q)) <-> (i = new /\ c = C') \/ In (i, c) (k_all k)).
    { intros i c. rewrite K1, in_add_der. fold new. split; intros [X|X]; auto; [injection X as -> ->; auto|destruct X as [-> ->]; auto]. }
    assert (Upid : In pid (used s)) by exact (used_ref s (l, mkRdat t oidx tw pid) (hm_get_in _ _ _ Ed)).
    destruct (wok_del k0 q [pid] W1) as (W2 & In2 & Co2).
    { intros i c [<-|[]] X. rewrite K1 in X. cbn [add_der k_core] in X. exact (proj2 (R6 pid Upid) c X). }
    change (map CAbs [pid]) with [CAbs pid] in W2, In2, Co2. set (p2 := wr (SDel [CAbs pid] []) q) in *.
    assert (Lt : forall i c, In (i, c) (k_all k) -> i < new) by (intros i c X; exact (proj2 (wk_ids _ _ R1) (i, c) X)).
    assert (Unew : ~ In new (used s)).
    { intros X. destruct (R6 new X) as [[c Y] _]. pose proof (Lt new c Y). lia. }
    assert (Co : forall e, In e (k_core (kof k0 p2)) -> In e (k_core k)).
    { intros e X. apply Co2 in X. rewrite K1 in X. exact X. }
    set (rest := rs_ids s ++ ref_parts (hm_remove l (rs_refs s)) ++ pend_parts (rs_pend s)) in *.
    assert (Knl : ~ In nl (map fst (hm_remove l (rs_refs s)))).
    { intros X. apply hm_remove_keys in X. apply D3. apply R4. tauto. }
    set (inact := hm_insert l (w - cw) (rs_in s)) in *.
    set (s2 := mkRst (hm_insert nl tw inact) (hm_insert nl (mkRdat t (oidx + 1) tw new) (hm_remove l (rs_refs s))) (rs_ids s) (rs_pend s) (rs_off s) p2).
    assert (P2 : Permutation (wused s2) ((new, tw) :: rest)).
    { unfold wused, s2, rest. cbn [rs_in rs_refs rs_ids rs_pend]. rewrite (hm_insert_new nl _ _ Knl), ref_parts_app. cbn [ref_parts map snd rt_pid rt_w].
      fold (ref_parts (hm_remove l (rs_refs s))). rewrite <- app_assoc. cbn [app]. rewrite !app_assoc.
      symmetry. apply Permutation_middle. }
    assert (ND : NoDup (pid :: map fst rest)).
    { change (pid :: map fst rest) with (map fst ((pid, tw) :: rest)). apply (Permutation_NoDup (Permutation_map fst P)). exact R5. }
    assert (Ur : forall i, In i (map fst rest) -> In i (used s) /\ i <> pid).
    { intros i X. split; [|intros ->; inversion ND; contradiction].
      apply (Permutation_in i (Permutation_sym (Permutation_map fst P))). right. exact X. }
    assert (Us : forall i, In i (used s) -> i = pid \/ In i (map fst rest)).
    { intros i X. apply (Permutation_in i (Permutation_map fst P)) in X. destruct X as [X|X]; [left; symmetry; exact X|right; exact X]. }
    assert (U2 : forall i, In i (used s2) -> i = new \/ In i (map fst rest)).
    { intros i X. apply (Permutation_in i (Permutation_map fst P2)) in X. destruct X as [X|X]; [left; symmetry; exact X|right; exact X]. }
    assert (Npid : new <> pid) by (intros ->; contradiction).
    assert (Keep : forall i c, In (i, c) (k_all k) -> i <> pid -> In (i, c) (k_all (kof k0 p2))).
    { intros i c X N. apply In2. split; [apply In1; right; exact X|]. intros [Y|[]]. congruence. }
    assert (Hnew : In (new, C') (k_all (kof k0 p2))).
    { apply In2. split; [apply In1; left; auto|]. intros [Y|[]]. congruence. }
    assert (Nnl : ~ In nl (map fst inact)) by (rewrite EK; exact D3).
    split; [|split].
    + constructor; change (rs_p s2) with p2.
      * exact W2.
      * cbn [s2 rs_in]. apply hm_insert_nodup. rewrite EK. exact R2.
      * cbn [s2 rs_refs]. apply hm_insert_nodup. apply remove_nodup. exact R3.
      * cbn [s2 rs_refs rs_in]. intros l' X. apply hm_insert_keys in X. apply hm_insert_keys. destruct X as [X|X]; [left; exact X|right].
        rewrite EK. apply R4. apply hm_remove_keys in X. tauto.
      * apply (Permutation_NoDup (Permutation_sym (Permutation_map fst P2))). cbn [map fst]. constructor; [|inversion ND; assumption].
        intros X. apply Unew. exact (proj1 (Ur new X)).
      * intros i Hi. destruct (U2 i Hi) as [->|X].
        -- split; [exists C'; exact Hnew|]. intros c X. apply Co in X. pose proof (Lt new c ltac:(apply in_k_all; left; exact X)). lia.
        -- destruct (Ur i X) as [Y N]. destruct (R6 i Y) as [[c Z] Z2]. split; [exists c; exact (Keep i c Z N)|]. intros c' X'. exact (Z2 c' (Co _ X')).
      * intros x Hx. cbn [s2 rs_refs] in Hx. rewrite (hm_insert_new nl _ _ Knl) in Hx. apply in_app_or in Hx. destruct Hx as [Hx|[<-|[]]].
        -- assert (Hx2 : In x (rs_refs s)) by (destruct x as [kx vx]; apply hm_remove_in in Hx; tauto).
           apply (ref_ok_keep k); [|exact (R7 x Hx2)]. intros c Hc. apply Keep; [exact Hc|].
           apply (Ur (rt_pid (snd x))). unfold rest. apply in_map_iff. exists (rt_pid (snd x), rt_w (snd x)). split; [reflexivity|].
           apply in_or_app. right. apply in_or_app. left. apply ref_part_in. exact Hx.
        -- split; [exact T1|]. cbn [fst snd rt_tot rt_oidx rt_pid]. split; [unfold nl; f_equal; lia|]. split; [lia|]. split; [lia|].
           exists s0, C'. split; [exact S1|]. split; [lia|]. split; [exact Hnew|]. replace (oidx + 1 + 1) with (oidx + 2) by lia. exact SC.
      * intros c Hc. cbn [s2 rs_pend] in Hc. apply (pend_ok_keep k); [|exact (R8 c Hc)]. intros C0 HC0. apply Keep; [exact HC0|].
        apply (Ur (snd c)). unfold rest. apply in_map_iff. exists (snd c, snd (fst c)). split; [reflexivity|].
        apply in_or_app. right. apply in_or_app. right. unfold pend_parts. apply in_map_iff. exists c. split; [reflexivity|exact Hc].
      * intros a. rewrite (psum_perm _ a _ _ P2), psum_cons. cbn [s2 rs_in]. rewrite (rem_new a inact nl tw Nnl). rewrite EV.
        rewrite (cval_in (kof k0 p2) a new C' (wk_ids _ _ W2) Hnew).
        rewrite (psum_keep k (kof k0 p2) a rest (wk_ids _ _ R1) (wk_ids _ _ W2)).
        2: { intros i Hi. destruct (Ur i Hi) as [Y N]. destruct (R6 i Y) as [[c Z] _]. exists c. split; [exact Z|exact (Keep i c Z N)]. }
        specialize (R9 a). rewrite (psum_perm _ a _ _ P), psum_cons, (cval_in k a pid C (wk_ids _ _ R1) S3) in R9.
        rewrite (shape_val C t s0 (oidx + 1) a T1 S1 ltac:(lia) ltac:(lia) S4) in R9.
        rewrite (shape_val C' t s0 (oidx + 2) a T1 S1 ltac:(lia) ltac:(lia) SC).
        replace (oidx + 2 - s0) with (oidx + 1 - s0 + 1) by lia. rewrite seq_app. unfold osum in *. rewrite map_app, cnt_app. cbn [seq map].
        replace (s0 + 1 + (oidx + 1 - s0)) with (oidx + 2) by lia. rewrite cnt_one. change (out_ax t (oidx + 2)) with (axiom nl).
        set (T := cnt a (leaf_ax t)) in *. set (O := cnt a (map (out_ax t) (seq (s0 + 1) (oidx + 1 - s0)))) in *. set (b := b2z (ax_true a (axiom nl))) in *.
        set (PS := psum (k_all k) a rest) in *. lia.
    + split; [|exact Co]. intros i c Hi Hn. assert (N : i <> pid) by (intros ->; contradiction). split; [exact (Keep i c Hi N)|].
      intros X. destruct (U2 i X) as [->|Y]; [pose proof (Lt new c Hi); lia|]. apply Hn. exact (proj1 (Ur i Y)).
    + split; [|split; [|split; [|split]]]; cbn [s2 rs_in rs_refs rs_pend rs_off]; try reflexivity.
      * intros l' N Hl'. rewrite hm_get_insert. destruct (lit_eqb l' nl) eqn:X; [apply lit_eqb_eq in X; subst l'; contradiction|].
        rewrite hm_get_remove. destruct (lit_eqb l l') eqn:Y; [apply lit_eqb_eq in Y; congruence|reflexivity].
      * intros l' Hl'. apply hm_insert_keys. right. rewrite EK. exact Hl'.
      * intros l' Hl'. apply hm_insert_keys in Hl'. destruct Hl' as [->|Hl']; [right|left; rewrite EK in Hl'; exact Hl'].
        exists (mkRdat t oidx tw pid). split; [exact Ed|]. split; [cbn [rt_tot rt_oidx]; lia|reflexivity].
Qed.

Lemma has_def_quiet : forall k0 s s' i t v, quiet k0 s s' -> ~ In i (used s) -> has_def (kof k0 (rs_p s)) i t v -> has_def (kof k0 (rs_p s')) i t v.
Proof. intros k0 s s' i t v [Q _] N (D & H & HD). exists D. split; [exact (proj1 (Q i D H N))|exact HD]. Qed.
Lemma relax_lits_inv : forall k0 cw core G s s', rinv k0 G s -> relax_all_pre k0 s core -> relax_lits cw core s = Some s' ->
  rinv k0 (fun a => (G a - Z.of_nat cw * cnt a (map axiom core))%Z) s' /\ quiet k0 s s' /\ rs_pend s' = rs_pend s /\ rs_off s' = rs_off s /\
  (forall l, In l (map fst (rs_in s)) -> In l (map fst (rs_in s'))).
Proof.
  intros k0 cw core. induction core as [|l core IH]; intros G s s' R Hpre E; cbn [relax_lits] in E.
  - injection E as <-. split; [|split; [apply quiet_refl|split; [reflexivity|split; [reflexivity|auto]]]].
    destruct R as [R1 R2 R3 R4 R5 R6 R7 R8 R9]. constructor; try assumption. intros a. rewrite R9. cbn [map]. unfold cnt, ones. cbn [map lb_sum]. lia.
  - destruct (relax_lit cw l s) as [s1|] eqn:E1; [|discriminate]. destruct Hpre as (H1 & H2 & H3 & H4).
    destruct (relax_inv k0 G s s1 cw l R (H3 l (or_introl eq_refl)) E1) as (R' & Q & F1 & F2 & F3 & F4 & F5).
    inversion H1 as [|x xs Hx Hr]; subst.
    assert (Ne : forall l', In l' core -> l' <> l) by (intros l' X ->; contradiction).
    assert (Sub : incl core (map fst (rs_in s))) by (intros l' X; apply H2; right; exact X).
    assert (Get : forall l', In l' core -> hm_get l' (rs_refs s1) = hm_get l' (rs_refs s)) by (intros l' X; apply F1; [exact (Ne l' X)|exact (Sub l' X)]).
    destruct (IH _ s1 s' R') as (R'' & Q' & P' & O' & K'); [|exact E|].
    + split; [exact Hr|]. split; [intros l' X; apply F2; exact (Sub l' X)|]. split.
      * intros l' X d Ed Hl. rewrite (Get l' X) in Ed. destruct (H3 l' (or_intror X) d Ed Hl) as (D1 & D2 & D3).
        split; [exact (has_def_quiet k0 s s1 _ _ _ Q D2 D1)|]. split.
        -- destruct D1 as (D & HD & _). exact (proj2 (proj1 Q _ D HD D2)).
        -- intros Y. apply F3 in Y. destruct Y as [Y|(d0 & E0 & L0 & Y)]; [exact (D3 Y)|].
           exact (H4 l l' d0 d (or_introl eq_refl) (or_intror X) (fun e => Ne l' X (eq_sym e)) E0 L0 Ed Hl (eq_sym Y)).
      * intros m m' d d' X X' N Ed Hl Ed' Hl'. rewrite (Get m X) in Ed. rewrite (Get m' X') in Ed'.
        exact (H4 m m' d d' (or_intror X) (or_intror X') N Ed Hl Ed' Hl').
    + split; [|split; [exact (quiet_trans _ _ _ _ Q Q')|split; [congruence|split; [congruence|intros x Hx'; apply K'; apply F2; exact Hx']]]].
      destruct R'' as [A1 A2 A3 A4 A5 A6 A7 A8 A9]. constructor; try assumption. intros a. rewrite A9.
      change (map axiom (l :: core)) with ([axiom l] ++ map axiom core). rewrite cnt_app, cnt_one. lia.
Qed.
Lemma min_weights_in : forall m core w, min_weights m core = Some w -> incl core (map fst m).
Proof.
  intros m core. induction core as [|l core IH]; intros w E; [intros x []|].
  assert (G : hm_get l m <> None /\ (core = [] \/ exists w', min_weights m core = Some w')).
  { cbn [min_weights] in E. destruct core as [|l' r]; [rewrite E; split; [discriminate|left; reflexivity]|].
    destruct (hm_get l m) as [x|]; [|discriminate]. split; [discriminate|]. right.
    destruct (min_weights m (l' :: r)) as [w'|]; [exists w'; reflexivity|discriminate]. }
  destruct G as [G1 G2]. intros x [<-|Hx].
  - destruct (hm_get l m) as [v|] eqn:Ev; [|contradiction]. apply in_map_iff. exists (l, v). split; [reflexivity|]. apply hm_get_in. exact Ev.
  - destruct G2 as [->|(w' & Ew)]; [destruct Hx|]. exact (IH w' Ew x Hx).
Qed.
Lemma rinv_add : forall k0 G s ids' pend' off' id w C, rinv k0 G s -> In (id, C) (k_all (kof k0 (rs_p s))) ->
  (forall C, ~ In (id, C) (k_core (kof k0 (rs_p s)))) -> ~ In id (used s) ->
  Permutation (ids' ++ ref_parts (rs_refs s) ++ pend_parts pend') ((id, w) :: wused s) ->
  (forall c, In c pend' -> pend_ok (kof k0 (rs_p s)) c) ->
  rinv k0 (fun a => (G a + Z.of_nat w * lb_val a C)%Z) (mkRst (rs_in s) (rs_refs s) ids' pend' off' (rs_p s)).
Proof.
  intros k0 G s ids' pend' off' id w C R HC Hco Hn P HP. destruct R as [R1 R2 R3 R4 R5 R6 R7 R8 R9].
  constructor; cbn [rs_in rs_refs rs_ids rs_pend rs_off rs_p]; try assumption.
  - unfold used, wused. cbn [rs_in rs_refs rs_ids rs_pend rs_off rs_p]. apply (Permutation_NoDup (Permutation_sym (Permutation_map fst P))).
    cbn [map fst]. constructor; assumption.
  - intros i Hi. unfold used, wused in Hi. cbn [rs_in rs_refs rs_ids rs_pend rs_off rs_p] in Hi. apply (Permutation_in i (Permutation_map fst P)) in Hi.
    cbn [map fst] in Hi. destruct Hi as [<-|Hi]; [|exact (R6 i Hi)]. split; [exists C; exact HC|exact Hco].
  - intros a. unfold wused. cbn [rs_in rs_refs rs_ids rs_pend rs_off rs_p]. rewrite (psum_perm _ a _ _ P), psum_cons, R9.
    rewrite (cval_in _ a id C (wk_ids _ _ R1) HC). lia.
Qed.
Lemma rinv_ext : forall k0 G H s, (forall a, G a = H a) -> rinv k0 G s -> rinv k0 H s.
Proof. intros k0 G H s E [R1 R2 R3 R4 R5 R6 R7 R8 R9]. constructor; try assumption. intros a. rewrite <- E. apply R9. Qed.
Lemma rinv_off : forall k0 G s off, rinv k0 G s -> rinv k0 G (mkRst (rs_in s) (rs_refs s) (rs_ids s) (rs_pend s) off (rs_p s)).
Proof. intros k0 G s off [R1 R2 R3 R4 R5 R6 R7 R8 R9]. constructor; assumption. Qed.

Definition objinv (k0 : chk) (F : (pv -> bool) -> Z) (s : rst) : Prop := rinv k0 (fun a => (F a - Z.of_nat (rs_off s))%Z) s.
Lemma core_inv : forall k0 F s s' core id, objinv k0 F s -> core_pre k0 s core id -> on_core core id s = Some s' -> objinv k0 F s'.
Proof.
  intros k0 F s s' core id R (HP & Hne & Hpr & Hid & Hco & C & HC & Hcl) E. unfold on_core in E.
  destruct (min_weights (rs_in s) core) as [cw|] eqn:Ew; [|discriminate].
  set (s1 := mkRst (rs_in s) (rs_refs s) (rs_ids s) (rs_pend s) (rs_off s + cw) (rs_p s)) in *.
  destruct (relax_lits cw core s1) as [s2|] eqn:E2; [|discriminate].
  assert (R1 : rinv k0 (fun a => (F a - Z.of_nat (rs_off s))%Z) s1) by exact (rinv_off k0 _ s _ R).
  destruct (relax_lits_inv k0 cw core _ s1 s2 R1 HP E2) as (R2 & Q & P2 & O2 & _).
  destruct (proj1 Q id C HC Hid) as [HC2 Hid2].
  assert (Hco2 : forall C, ~ In (id, C) (k_core (kof k0 (rs_p s2)))) by (intros C' X; apply (proj2 Q) in X; exact (Hco C' X)).
  assert (Val : forall a, lb_val a C = (cnt a (map axiom core) - 1)%Z) by (intros a; apply card_val; [exact Hpr|exact Hcl]).
  assert (G : forall ids' pend', Permutation (ids' ++ ref_parts (rs_refs s2) ++ pend_parts pend') ((id, cw) :: wused s2) ->
    (forall c, In c pend' -> pend_ok (kof k0 (rs_p s2)) c) -> objinv k0 F (mkRst (rs_in s2) (rs_refs s2) ids' pend' (rs_off s2) (rs_p s2))).
  { intros ids' pend' P HPD. unfold objinv. cbn [rs_off]. eapply rinv_ext; [|exact (rinv_add k0 _ s2 ids' pend' (rs_off s2) id cw C R2 HC2 Hco2 Hid2 P HPD)].
    intros a. cbn beta. rewrite Val, O2. cbn [s1 rs_off]. lia. }
  destruct (1 <? length core) eqn:El; injection E as <-; apply G.
  - unfold wused, pend_parts. rewrite map_app. cbn [map fst snd]. rewrite !app_assoc. symmetry. apply Permutation_cons_append.
  - intros c Hc. apply in_app_or in Hc. destruct Hc as [Hc|[<-|[]]]; [exact (ri_pend _ _ _ R2 c Hc)|].
    apply Nat.ltb_lt in El. split; [cbn [fst]; lia|]. exists C. split; assumption.
  - unfold wused. rewrite <- app_assoc. cbn [app]. symmetry. apply Permutation_middle.
  - exact (ri_pend _ _ _ R2).
Qed.

Lemma exhaust_eval : forall exhaustion def k0 s t units w id r, wok k0 (rs_p s) -> rs_pend s = ((ti_leafs t, w), id) :: r ->
  pend_ok (kof k0 (rs_p s)) ((ti_leafs t, w), id) -> reform_pre exhaustion def k0 s t units ->
  exists C, pol_eval pv_eqd (kget (kof k0 (rs_p s))) (fst (exhaust_line exhaustion (def t) t id units)) = Some C /\
    shape C t (1 + length units) (Nat.min (nleaf t) (length units + 2)) /\
    snd (exhaust_line exhaustion (def t) t id units) = 1 + length units /\ 1 + length units <= nleaf t.
Proof.
  intros exhaustion def k0 s t units w id r W Ep (Hl & C & HC & Hcl) (_ & Hwf & H & _). cbn [fst snd] in *. fold (nleaf t) in Hl.
  fold (leaf_ax t) in Hcl. unfold exhaust_line. destruct exhaustion.
  - destruct H as (H1 & H2 & H3). cbn [fst snd]. fold (nleaf t).
    destruct (ev_exhaust (kof k0 (rs_p s)) t (def t) (nleaf t - 1) 1 (PC (CAbs id)) C units) as (C' & E' & S').
    + exact (wk_ids _ _ W).
    + exact Hwf.
    + lia.
    + lia.
    + cbn [pol_eval kget id_get]. apply k_get; [exact (wk_ids _ _ W)|exact HC].
    + unfold shape. rewrite shape_nil. exact Hcl.
    + exact H1.
    + intros v Hv. apply H2. lia.
    + intros i u Hu. replace (1 + 1 + i) with (2 + i) by lia. exact (H3 i u Hu).
    + exists C'. split; [exact E'|]. split; [replace (length units + 2) with (1 + length units + 1) by lia; exact S'|]. split; [reflexivity|lia].
  - destruct H as (-> & H2). cbn [fst snd length]. destruct (ev_init _ t id C _ (wk_ids _ _ W) Hwf Hl HC Hcl H2) as (C' & E' & S').
    exists C'. split; [exact E'|]. split; [replace (Nat.min (nleaf t) (0 + 2)) with 2 by lia; exact S'|]. split; [reflexivity|lia].
Qed.
Lemma reform_inv : forall exhaustion def k0 F s s' t units, objinv k0 F s -> reform_pre exhaustion def k0 s t units ->
  reform_next exhaustion def (t, units) s = Some s' -> objinv k0 F s'.
Proof.
  intros exhaustion def k0 F s s' t units R Hpre E. pose proof Hpre as ((w & id & r & Ep) & Hwf & _ & Hfr).
  pose proof R as [R1 R2 R3 R4 R5 R6 R7 R8 R9].
  assert (PO : pend_ok (kof k0 (rs_p s)) ((ti_leafs t, w), id)) by (apply R8; rewrite Ep; left; reflexivity).
  destruct (exhaust_eval exhaustion def k0 s t units w id r R1 Ep PO Hpre) as (C' & EC & SC & Eo & Hle).
  destruct PO as (Hl & C & HC & Hcl). cbn [fst snd] in *. fold (nleaf t) in Hl. fold (leaf_ax t) in Hcl.
  unfold reform_next in E. rewrite Ep in E. unfold reform_core in E.
  destruct (exhaust_line exhaustion (def t) t id units) as [line oidx] eqn:El. cbn [fst snd] in EC, Eo. subst oidx.
  destruct (wok_pol k0 (rs_p s) line C' R1 EC) as [W1 K1].
  assert (Epid : exists q, wr_id (SPol line) (rs_p s) = (ps_next (rs_p s), q) /\ q = snd (wr_id (SPol line) (rs_p s))) by (eexists; split; reflexivity).
  destruct Epid as (q & Eq & Eq2). rewrite <- Eq2 in W1, K1. cbn [rs_p rs_in rs_refs rs_ids rs_pend rs_off] in E. rewrite Eq in E. clear Eq2 Eq.
  pose proof (wk_next _ _ R1) as Nx. rewrite <- Nx in *. set (k := kof k0 (rs_p s)) in *. set (new := k_next k) in *.
  assert (In1 : forall i c, In (i, c) (k_all (kof k0 q)) <-> (i = new /\ c = C') \/ In (i, c) (k_all k)).
  { intros i c. rewrite K1, in_add_der. fold new. split; intros [X|X]; auto; [injection X as -> ->; auto|destruct X as [-> ->]; auto]. }
  assert (Lt : forall i c, In (i, c) (k_all k) -> i < new) by (intros i c X; exact (proj2 (wk_ids _ _ R1) (i, c) X)).
  assert (Unew : ~ In new (used s)).
  { intros X. destruct (R6 new X) as [[c Y] _]. pose proof (Lt new c Y). lia. }
  assert (Co : k_core (kof k0 q) = k_core k) by (rewrite K1; reflexivity).
  set (off' := if 1 <? 1 + length units then rs_off s + (1 + length units - 1) * w else rs_off s) in *.
  assert (Eoff : off' = rs_off s + length units * w).
  { unfold off'. destruct (Nat.ltb_spec 1 (1 + length units)) as [L|L]; [f_equal; f_equal; lia|]. replace (length units) with 0 by lia. lia. }
  set (rest := rs_ids s ++ ref_parts (rs_refs s) ++ pend_parts r).
  assert (P : Permutation (wused s) ((id, w) :: rest)).
  { unfold wused, rest. rewrite Ep. cbn [pend_parts map fst snd]. rewrite !app_assoc. symmetry. apply Permutation_middle. }
  assert (ND : NoDup (id :: map fst rest)).
  { change (id :: map fst rest) with (map fst ((id, w) :: rest)). apply (Permutation_NoDup (Permutation_map fst P)). exact R5. }
  assert (Ur : forall i, In i (map fst rest) -> In i (used s)).
  { intros i X. apply (Permutation_in i (Permutation_sym (Permutation_map fst P))). right. exact X. }
  assert (Hnew : In (new, C') (k_all (kof k0 q))) by (apply In1; left; auto).
  assert (Keep : forall i c, In (i, c) (k_all k) -> In (i, c) (k_all (kof k0 q))) by (intros i c X; apply In1; right; exact X).
  assert (Main : forall in' refs' ids', Permutation (ids' ++ ref_parts refs' ++ pend_parts r) ((new, w) :: rest) ->
    NoDup (map fst in') -> NoDup (map fst refs') -> (forall l, In l (map fst refs') -> In l (map fst in')) ->
    (forall x, In x refs' -> ref_ok (kof k0 q) x) ->
    (forall a, rem a in' = (rem a (rs_in s) + Z.of_nat w * (osum a t (seq (1 + length units + 1) (Nat.min (nleaf t) (length units + 2) - (1 + length units)))))%Z) ->
    objinv k0 F (mkRst in' refs' ids' r off' q)).
  { intros in' refs' ids' P2 N1 N2 Sb RO Rm. constructor; cbn [rs_in rs_refs rs_ids rs_pend rs_off rs_p]; try assumption.
    - unfold used, wused. cbn [rs_in rs_refs rs_ids rs_pend rs_off rs_p]. apply (Permutation_NoDup (Permutation_sym (Permutation_map fst P2))).
      cbn [map fst]. constructor; [|inversion ND; assumption]. intros X. exact (Unew (Ur new X)).
    - intros i Hi. unfold used, wused in Hi. cbn [rs_in rs_refs rs_ids rs_pend rs_off rs_p] in Hi. apply (Permutation_in i (Permutation_map fst P2)) in Hi.
      cbn [map fst] in Hi. unfold live. rewrite Co. destruct Hi as [<-|Hi].
      + split; [exists C'; exact Hnew|]. intros c X. pose proof (Lt new c ltac:(apply in_k_all; left; exact X)). lia.
      + destruct (R6 i (Ur i Hi)) as [[c Z] Z2]. split; [exists c; exact (Keep i c Z)|exact Z2].
    - intros c Hc. apply (pend_ok_keep k); [intros c0; apply Keep|]. apply R8. rewrite Ep. right. exact Hc.
    - intros a. unfold wused. cbn [rs_in rs_refs rs_ids rs_pend rs_off rs_p]. rewrite (psum_perm _ a _ _ P2), psum_cons, Rm.
      rewrite (cval_in _ a new C' (wk_ids _ _ W1) Hnew).
      rewrite (psum_keep k (kof k0 q) a rest (wk_ids _ _ R1) (wk_ids _ _ W1)).
      2: { intros i Hi. destruct (R6 i (Ur i Hi)) as [[c Z] _]. exists c. split; [exact Z|exact (Keep i c Z)]. }
      specialize (R9 a). rewrite (psum_perm _ a _ _ P), psum_cons, (cval_in k a id C (wk_ids _ _ R1) HC) in R9.
      rewrite (card_val C (leaf_ax t) 1 a (leaf_proper t Hwf) Hcl) in R9.
      rewrite (shape_val C' t (1 + length units) (Nat.min (nleaf t) (length units + 2)) a Hwf ltac:(lia) ltac:(lia) ltac:(lia) SC). rewrite Eoff, !Nat2Z.inj_add, Nat2Z.inj_mul. cbv beta in R9. change (Z.of_nat 1) with 1%Z.
      set (T := cnt a (leaf_ax t)) in *. set (O := osum a t _) in *. set (PS := psum (k_all k) a rest) in *. nia. }
  destruct (1 + length units <? length (ti_leafs t)) eqn:Elt; injection E as <-.
  - apply Nat.ltb_lt in Elt. fold (nleaf t) in Elt. set (nl := ti_out t (S (length units + 1))) in *.
    assert (Fr : ~ In nl (map fst (rs_in s))) by (unfold nl; replace (S (length units + 1)) with (length units + 2) by lia; apply Hfr; lia).
    assert (Fr2 : ~ In nl (map fst (rs_refs s))) by (intros X; exact (Fr (R4 _ X))).
    replace (Nat.min (nleaf t) (length units + 2)) with (1 + length units + 1) in * by lia.
    apply Main.
    + rewrite (hm_insert_new nl _ _ Fr2), ref_parts_app. cbn [ref_parts map snd rt_pid rt_w]. fold (ref_parts (rs_refs s)). unfold rest.
      rewrite <- app_assoc. cbn [app]. rewrite !app_assoc. symmetry. apply Permutation_middle.
    + apply hm_insert_nodup. exact R2.
    + apply hm_insert_nodup. exact R3.
    + intros l X. apply hm_insert_keys in X. apply hm_insert_keys. destruct X as [X|X]; [left; exact X|right; exact (R4 l X)].
    + intros x Hx. rewrite (hm_insert_new nl _ _ Fr2) in Hx. apply in_app_or in Hx. destruct Hx as [Hx|[<-|[]]].
      * apply (ref_ok_keep k); [intros c; apply Keep|exact (R7 x Hx)].
      * unfold ref_ok. cbn [fst snd rt_tot rt_oidx rt_pid]. split; [exact Hwf|]. split; [reflexivity|]. split; [lia|]. split; [lia|].
        exists (1 + length units), C'. split; [lia|]. split; [lia|]. split; [exact Hnew|exact SC].
    + intros a. rewrite (rem_new a _ nl w Fr). replace (1 + length units + 1 - (1 + length units)) with 1 by lia. unfold osum. cbn [seq map]. rewrite cnt_one. reflexivity.
  - apply Nat.ltb_ge in Elt. fold (nleaf t) in Elt. replace (Nat.min (nleaf t) (length units + 2)) with (1 + length units) in * by lia.
    apply Main; try assumption.
    + unfold rest. rewrite <- app_assoc. cbn [app]. symmetry. apply Permutation_middle.
    + intros x Hx. apply (ref_ok_keep k); [intros c; apply Keep|exact (R7 x Hx)].
    + intros a. rewrite Nat.sub_diag. unfold osum, cnt, ones. cbn [seq map lb_sum]. lia.
Qed.
