(** * The proof of the objective reformulation: whole runs and the final constraint *)
From Coq Require Import List Arith ZArith Lia Bool Permutation.
From Verif Require Import Base BaseLemmas Spec MTypes MPMinimal MPrepro MOll Sem Ext OllData OllThm VeriPB VeriThm MProofs ProofThm ProofRun ProofCut MTracer TracerThm MReform ReformSpec ReformThm ReformRun ReformInv.
Import ListNotations.

Lemma late_sum : forall a w t js, lb_sum a (map (fun j => (w, out_ax t j)) js) = (w * osum a t js)%Z.
Proof.
  intros a w t js. unfold osum, cnt, ones. induction js as [|j js IH]; cbn [map lb_sum fst snd]; [lia|]. rewrite IH. lia.
Qed.

Lemma extend_inv : forall k0 refs p others, wok k0 p -> NoDup (map fst (others ++ ref_parts refs)) ->
  (forall i, In i (map fst (others ++ ref_parts refs)) -> live (kof k0 p) i) ->
  (forall x, In x refs -> ref_ok (kof k0 p) x) ->
  late_pre (kof k0 p) (map fst (others ++ ref_parts refs)) refs ->
  forall refs' p', extend_refs refs p = (refs', p') ->
  wok k0 p' /\ NoDup (map fst (others ++ ref_parts refs')) /\
  (forall i, In i (map fst (others ++ ref_parts refs')) -> live (kof k0 p') i) /\
  (forall a, psum (k_all (kof k0 p')) a (others ++ ref_parts refs') = (psum (k_all (kof k0 p)) a (others ++ ref_parts refs) - lb_sum a (late_terms refs))%Z) /\
  Forall2 same_data refs refs' /\
  (forall e, In e (k_core (kof k0 p')) -> In e (k_core (kof k0 p))).
Proof.
  intros k0 refs. induction refs as [|[l [t oidx tw pid]] refs IH]; intros p others W ND LV RO LP refs' p' E.
  - cbn [extend_refs] in E. injection E as <- <-. split; [exact W|split; [exact ND|split; [exact LV|split; [|split; [constructor|auto]]]]].
    intros a. cbn [late_terms flat_map lb_sum]. lia.
  - assert (PA : forall i w r, others ++ ref_parts ((l, mkRdat t oidx w i) :: r) = (others ++ [(i, w)]) ++ ref_parts r).
    { intros i w r. cbn [ref_parts map snd rt_pid rt_w]. rewrite <- app_assoc. reflexivity. }
    rewrite PA in *. cbn [extend_refs] in E. fold (nleaf t) in E.
    destruct (RO _ (or_introl eq_refl)) as (T1 & T2 & T3 & T4 & s0 & C & S1 & S2 & S3 & S4). cbn [fst snd rt_tot rt_oidx rt_pid rt_w] in *.
    destruct (nleaf t <=? oidx + 1) eqn:El.
    + apply Nat.leb_le in El. destruct (extend_refs refs p) as [r1 p1] eqn:E1. injection E as <- <-.
      destruct (IH p (others ++ [(pid, tw)]) W ND LV (fun x Hx => RO x (or_intror Hx)) (fun x v Hx => LP x v (or_intror Hx)) r1 p1 E1) as (A1 & A2 & A3 & A4 & A5 & A6).
      rewrite PA. split; [exact A1|split; [exact A2|split; [exact A3|split; [|split; [constructor; [repeat split|exact A5]|exact A6]]]]].
      intros a. rewrite A4. cbn [late_terms flat_map snd rt_tot rt_oidx rt_w]. replace (nleaf t - (oidx + 1)) with 0 by lia. reflexivity.
    + apply Nat.leb_gt in El.
      set (pl := reform_all (PC (CAbs pid)) (ti_only_if t) (seq (oidx + 2) (nleaf t - (oidx + 1)))) in *.
      destruct (ev_all (kof k0 p) t (ti_only_if t) s0 (nleaf t - (oidx + 1)) (oidx + 1) (PC (CAbs pid)) C) as (C' & EC & SC).
      { exact (wk_ids _ _ W). } { exact T1. } { exact S1. } { lia. } { lia. }
      { cbn [pol_eval kget id_get]. apply k_get; [exact (wk_ids _ _ W)|exact S3]. } { exact S4. }
      { intros v Hv. apply (LP _ v (or_introl eq_refl)). cbn [fst snd rt_tot rt_oidx]. lia. }
      replace (S (oidx + 1)) with (oidx + 2) in EC by lia. replace (oidx + 1 + (nleaf t - (oidx + 1))) with (nleaf t) in SC by lia. fold pl in EC.
      destruct (wok_pol k0 p pl C' W EC) as [W1 K1].
      assert (Epid : exists q, wr_id (SPol pl) p = (ps_next p, q) /\ q = snd (wr_id (SPol pl) p)) by (eexists; split; reflexivity).
      destruct Epid as (q & Eq & Eq2). rewrite <- Eq2 in W1, K1. rewrite Eq in E. clear Eq2 Eq.
      pose proof (wk_next _ _ W) as Nx. rewrite <- Nx in *. set (k := kof k0 p) in *. set (new := k_next k) in *.
      assert (In1 : forall i c, In (i, c) (k_all (kof k0 q)) <-> (i = new /\ c = C') \/ In (i, c) (k_all k)).
      { intros i c. rewrite K1, in_add_der. fold new. split; intros [X|X]; auto; [injection X as -> ->; auto|destruct X as [-> ->]; auto]. }
      set (U := map fst ((others ++ [(pid, tw)]) ++ ref_parts refs)) in *.
      assert (Upid : In pid U).
      { unfold U. rewrite map_app. apply in_or_app. left. rewrite map_app. apply in_or_app. right. left. reflexivity. }
      destruct (wok_del k0 q [pid] W1) as (W2 & In2 & Co2).
      { intros i c [<-|[]] X. rewrite K1 in X. cbn [add_der k_core] in X. exact (proj2 (LV pid Upid) c X). }
      change (map CAbs [pid]) with [CAbs pid] in W2, In2, Co2. set (p2 := wr (SDel [CAbs pid] []) q) in *.
      assert (Lt : forall i c, In (i, c) (k_all k) -> i < new) by (intros i c X; exact (proj2 (wk_ids _ _ W) (i, c) X)).
      assert (Unew : ~ In new U).
      { intros X. destruct (LV new X) as [[c Y] _]. pose proof (Lt new c Y). lia. }
      assert (Npid : new <> pid) by (intros E'; rewrite <- E' in Upid; contradiction).
      assert (Keep : forall i c, In (i, c) (k_all k) -> i <> pid -> In (i, c) (k_all (kof k0 p2))).
      { intros i c X N. apply In2. split; [apply In1; right; exact X|]. intros [Y|[]]. congruence. }
      assert (Hnew : In (new, C') (k_all (kof k0 p2))).
      { apply In2. split; [apply In1; left; auto|]. intros [Y|[]]. congruence. }
      assert (Co : forall e, In e (k_core (kof k0 p2)) -> In e (k_core k)).
      { intros e X. apply Co2 in X. rewrite K1 in X. exact X. }
      set (rest := others ++ ref_parts refs).
      assert (P : forall i, Permutation ((others ++ [(i, tw)]) ++ ref_parts refs) ((i, tw) :: rest)).
      { intros i. unfold rest. rewrite <- app_assoc. cbn [app]. symmetry. apply Permutation_middle. }
      assert (NDr : NoDup (pid :: map fst rest)).
      { change (pid :: map fst rest) with (map fst ((pid, tw) :: rest)). apply (Permutation_NoDup (Permutation_map fst (P pid))). exact ND. }
      assert (Ur : forall i, In i (map fst rest) -> In i U /\ i <> pid).
      { intros i X. split; [|intros ->; inversion NDr; contradiction].
        apply (Permutation_in i (Permutation_sym (Permutation_map fst (P pid)))). right. exact X. }
      assert (U2 : forall i, In i (map fst ((others ++ [(new, tw)]) ++ ref_parts refs)) -> i = new \/ In i (map fst rest)).
      { intros i X. apply (Permutation_in i (Permutation_map fst (P new))) in X. destruct X as [X|X]; [left; symmetry; exact X|right; exact X]. }
      destruct (extend_refs refs p2) as [r1 p1] eqn:E1. injection E as <- <-.
      destruct (IH p2 (others ++ [(new, tw)]) W2) with (refs' := r1) (p' := p1) as (A1 & A2 & A3 & A4 & A5 & A6).
      * apply (Permutation_NoDup (Permutation_sym (Permutation_map fst (P new)))). cbn [map fst]. constructor; [|inversion NDr; assumption].
        intros X. apply Unew. exact (proj1 (Ur new X)).
      * intros i Hi. destruct (U2 i Hi) as [->|X].
        -- split; [exists C'; exact Hnew|]. intros c X. apply Co in X. pose proof (Lt new c ltac:(apply in_k_all; left; exact X)). lia.
        -- destruct (Ur i X) as [Y N]. destruct (LV i Y) as [[c Z] Z2]. split; [exists c; exact (Keep i c Z N)|]. intros c' X'. exact (Z2 c' (Co _ X')).
      * intros x Hx. apply (ref_ok_keep k); [|exact (RO x (or_intror Hx))]. intros c Hc. apply Keep; [exact Hc|].
        apply (Ur (rt_pid (snd x))). unfold rest. rewrite map_app. apply in_or_app. right. apply in_map_iff. exists (rt_pid (snd x), rt_w (snd x)).
        split; [reflexivity|]. apply ref_part_in. exact Hx.
      * intros x v Hx Hv. destruct (LP x v (or_intror Hx) Hv) as ((D & HD & HD2) & HN). split.
        -- exists D. split; [|exact HD2]. apply Keep; [exact HD|]. intros Y. rewrite Y in HN. contradiction.
        -- intros X. destruct (U2 _ X) as [Y|Y]; [rewrite Y in HD; pose proof (Lt new D HD); lia|]. apply HN. exact (proj1 (Ur _ Y)).
      * exact E1.
      * rewrite PA. split; [exact A1|split; [exact A2|split; [exact A3|split; [|split; [constructor; [repeat split|exact A5]|intros e X; exact (Co e (A6 e X))]]]]].
        intros a. rewrite A4. cbn [late_terms flat_map snd rt_tot rt_oidx rt_w]. fold (late_terms refs). rewrite lb_sum_app, late_sum.
        rewrite (psum_perm _ a _ _ (P new)), (psum_perm _ a _ _ (P pid)), !psum_cons.
        rewrite (cval_in _ a new C' (wk_ids _ _ W2) Hnew), (cval_in k a pid C (wk_ids _ _ W) S3).
        rewrite (psum_keep k (kof k0 p2) a rest (wk_ids _ _ W) (wk_ids _ _ W2)).
        2: { intros i Hi. destruct (Ur i Hi) as [Y N]. destruct (LV i Y) as [[c Z] _]. exists c. split; [exact Z|exact (Keep i c Z N)]. }
        rewrite (shape_val C t s0 (oidx + 1) a T1 S1 ltac:(lia) ltac:(lia) S4).
        rewrite (shape_val C' t s0 (nleaf t) a T1 S1 ltac:(lia) ltac:(lia) SC).
        replace (nleaf t - s0) with (oidx + 1 - s0 + (nleaf t - (oidx + 1))) by lia. rewrite seq_app. unfold osum. rewrite map_app, cnt_app.
        replace (s0 + 1 + (oidx + 1 - s0)) with (oidx + 2) by lia. lia.
Qed.

(** ** The sum *)
Lemma sum_fold : forall k a parts e C, ids_ok k -> (forall i, In i (map fst parts) -> exists D, In (i, D) (k_all k)) ->
  pol_eval pv_eqd (kget k) e = Some C ->
  exists R, pol_eval pv_eqd (kget k) (fold_left (fun seq cw => PAdd seq (PMul (PC (CAbs (fst cw))) (Z.of_nat (snd cw)))) parts e) = Some R /\
    lb_val a R = (lb_val a C + psum (k_all k) a parts)%Z.
Proof.
  intros k a parts. induction parts as [|[i w] parts IH]; intros e C W H E; cbn [fold_left fst snd].
  - exists C. split; [exact E|]. cbn [psum fold_right]. lia.
  - destruct (H i (or_introl eq_refl)) as (D & HD).
    assert (ED : kget k (CAbs i) = Some D) by (cbn [kget id_get]; apply k_get; assumption).
    destruct (IH (PAdd e (PMul (PC (CAbs i)) (Z.of_nat w))) (lb_add C (lb_mul (Z.of_nat w) D)) W (fun j Hj => H j (or_intror Hj))) as (R & ER & VR).
    + cbn [pol_eval]. rewrite E, ED, (proj2 (Z.leb_le 0 (Z.of_nat w)) ltac:(lia)). reflexivity.
    + exists R. split; [exact ER|]. rewrite VR, psum_cons, val_add, val_mul, (cval_in k a i D W HD). lia.
Qed.
Lemma sum_eval : forall k parts ops, ids_ok k -> (forall i, In i (map fst parts) -> exists D, In (i, D) (k_all k)) -> sum_ops parts = Some ops ->
  exists R, pol_eval pv_eqd (kget k) ops = Some R /\ forall a, lb_val a R = psum (k_all k) a parts.
Proof.
  intros k parts ops W H E. destruct parts as [|[c w] r]; [discriminate|]. cbn [sum_ops] in E. injection E as <-.
  destruct (H c (or_introl eq_refl)) as (D & HD).
  assert (E1 : pol_eval pv_eqd (kget k) (PMul (PC (CAbs c)) (Z.of_nat w)) = Some (lb_mul (Z.of_nat w) D)).
  { cbn [pol_eval]. rewrite (proj2 (Z.leb_le 0 (Z.of_nat w)) ltac:(lia)). cbn [kget id_get]. rewrite (k_get k c D W HD). reflexivity. }
  destruct (sum_fold k (fun _ => false) r _ _ W (fun j Hj => H j (or_intror Hj)) E1) as (R & ER & _). exists R. split; [exact ER|].
  intros a. destruct (sum_fold k a r _ _ W (fun j Hj => H j (or_intror Hj)) E1) as (R' & ER' & VR). rewrite ER in ER'. injection ER' as <-.
  rewrite VR, psum_cons, val_mul, (cval_in k a c D W HD). reflexivity.
Qed.

Lemma finish_inv : forall exact k0 F s, objinv k0 F s -> finish_pre exact k0 s ->
  forall r s', finish exact s = (r, s') ->
  wok k0 (rs_p s') /\ rs_off s' = rs_off s /\ rs_in s' = rs_in s /\ Forall2 same_data (rs_refs s) (rs_refs s') /\
  match r with
  | None => forall a, F a = (Z.of_nat (rs_off s) + rem a (rs_in s))%Z
  | Some id => exists R, In (id, R) (k_all (kof k0 (rs_p s'))) /\
      forall a, lb_val a R = (F a - lb_sum a (reform_terms exact s) - Z.of_nat (rs_off s))%Z
  end.
Proof.
  intros exact k0 F s R (Hp & Hl) r s' E. pose proof R as [R1 R2 R3 R4 R5 R6 R7 R8 R9].
  assert (EW : wused s = rs_ids s ++ ref_parts (rs_refs s)) by (unfold wused; rewrite Hp; cbn [pend_parts map]; rewrite app_nil_r; reflexivity).
  unfold finish in E.
  destruct (if exact then extend_refs (rs_refs s) (rs_p s) else (rs_refs s, rs_p s)) as [refs p] eqn:Ex.
  assert (A : wok k0 p /\ (forall i, In i (map fst (rs_ids s ++ ref_parts refs)) -> live (kof k0 p) i) /\
    NoDup (map fst (rs_ids s ++ ref_parts refs)) /\ Forall2 same_data (rs_refs s) refs /\
    forall a, psum (k_all (kof k0 p)) a (rs_ids s ++ ref_parts refs) = (F a - lb_sum a (reform_terms exact s) - Z.of_nat (rs_off s))%Z).
  { destruct exact.
    - unfold used in R5, R6. rewrite EW in R5, R6. specialize (Hl eq_refl). unfold used in Hl. rewrite EW in Hl.
      destruct (extend_inv k0 (rs_refs s) (rs_p s) (rs_ids s) R1 R5 R6 R7 Hl refs p Ex) as (A1 & A2 & A3 & A4 & A5 & A6).
      split; [exact A1|split; [exact A3|split; [exact A2|split; [exact A5|]]]]. intros a. rewrite A4. specialize (R9 a). rewrite EW in R9.
      unfold reform_terms. rewrite lb_sum_app. fold (rem a (rs_in s)). lia.
    - injection Ex as <- <-. unfold used in R5, R6. rewrite EW in R5, R6. split; [exact R1|split; [exact R6|split; [exact R5|split]]].
      + clear. induction (rs_refs s) as [|x l IH]; constructor; [repeat split|exact IH].
      + intros a. specialize (R9 a). rewrite EW in R9. unfold reform_terms. rewrite app_nil_r. fold (rem a (rs_in s)). lia. }
  destruct A as (A1 & A2 & A3 & A4 & A5).
  destruct (sum_ops (rs_ids s ++ ref_parts refs)) as [ops|] eqn:Es.
  - destruct (sum_eval (kof k0 p) _ ops (wk_ids _ _ A1) (fun i Hi => proj1 (A2 i Hi)) Es) as (C & EC & VC).
    destruct (wok_pol k0 p ops C A1 EC) as [W1 K1].
    assert (Epid : exists q, wr_id (SPol ops) p = (ps_next p, q) /\ q = snd (wr_id (SPol ops) p)) by (eexists; split; reflexivity).
    destruct Epid as (q & Eq & Eq2). rewrite <- Eq2 in W1, K1. rewrite Eq in E. clear Eq2 Eq. injection E as <- <-.
    cbn [rs_p rs_in rs_refs rs_ids rs_pend rs_off].
    pose proof (wk_next _ _ A1) as Nx. rewrite <- Nx. set (k := kof k0 p) in *.
    assert (Hnew : In (k_next k, C) (k_all (kof k0 q))) by (rewrite K1; apply in_add_der; left; reflexivity).
    assert (Fin : wok k0 (match rs_ids s with [] => q | _ => wr (SDel (map (fun cw => CAbs (fst cw)) (rs_ids s)) []) q end) /\
      In (k_next k, C) (k_all (kof k0 (match rs_ids s with [] => q | _ => wr (SDel (map (fun cw => CAbs (fst cw)) (rs_ids s)) []) q end)))).
    { assert (Hid : forall i, In i (map fst (rs_ids s)) -> live k i) by (intros i Hi; apply A2; rewrite map_app; apply in_or_app; left; exact Hi).
      destruct (rs_ids s) as [|x l]; [split; assumption|].
      replace (map (fun cw => CAbs (fst cw)) (x :: l)) with (map CAbs (map fst (x :: l))) by (rewrite map_map; reflexivity).
      destruct (wok_del k0 q (map fst (x :: l)) W1) as (W2 & In2 & _).
      { intros i c Hi X. rewrite K1 in X. exact (proj2 (Hid i Hi) c X). }
      split; [exact W2|]. apply In2. split; [exact Hnew|]. intros X. destruct (Hid _ X) as [[c Y] _].
      pose proof (proj2 (wk_ids _ _ A1) (k_next k, c) Y) as Z. cbn [fst] in Z. unfold k in Z. lia. }
    destruct Fin as [F1 F2]. split; [exact F1|split; [reflexivity|split; [reflexivity|split; [exact A4|]]]].
    exists C. split; [exact F2|]. intros a. rewrite VC. apply A5.
  - injection E as <- <-. cbn [rs_p rs_in rs_refs rs_ids rs_pend rs_off].
    split; [exact A1|split; [reflexivity|split; [reflexivity|split; [exact A4|]]]]. intros a.
    destruct (rs_ids s ++ ref_parts refs) as [|[i w] x] eqn:El; [|discriminate]. apply app_eq_nil in El. destruct El as [E1 E2].
    specialize (R9 a). rewrite EW, E1 in R9. destruct refs as [|y refs]; [|discriminate]. inversion A4 as [E3|]. rewrite <- E3 in R9.
    cbn [ref_parts map app psum fold_right] in R9. lia.
Qed.

Lemma event_inv : forall exhaustion def k0 F e s s', objinv k0 F s -> ev_pre exhaustion def k0 e s -> run_revent exhaustion def e s = Some s' -> objinv k0 F s'.
Proof.
  intros exhaustion def k0 F e s s' R H E. destruct e as [core id|t units|p]; cbn [ev_pre run_revent] in *.
  - exact (core_inv k0 F s s' core id R H E).
  - exact (reform_inv exhaustion def k0 F s s' t units R H E).
  - injection E as <-. destruct H as [W H]. unfold objinv. cbn [rs_off]. apply rinv_proof; [exact R|exact W| |].
    + intros i C Hi. exact (proj1 (H i Hi) C).
    + intros i C Hi. exact (proj2 (H i Hi) C).
Qed.
Lemma run_inv : forall exhaustion def k0 F es s s', objinv k0 F s -> run_pre exhaustion def k0 es s -> run_revents exhaustion def es s = Some s' -> objinv k0 F s'.
Proof.
  intros exhaustion def k0 F es. induction es as [|e es IH]; intros s s' R H E; cbn [run_revents] in E; [injection E as <-; exact R|].
  destruct H as [H1 H2]. destruct (run_revent exhaustion def e s) as [s1|] eqn:E1; [|discriminate].
  exact (IH s1 s' (event_inv _ _ _ _ _ _ _ R H1 E1) H2 E).
Qed.
Lemma start_inv : forall k0 o p, wok k0 p -> NoDup (map fst (obj_iter o)) ->
  objinv k0 (fun a => Z.of_nat (icost o (on_solver a))) (reform_start o p).
Proof.
  intros k0 o p W H. constructor; cbn [reform_start rs_in rs_refs rs_ids rs_pend rs_off rs_p].
  - exact W.
  - exact H.
  - constructor.
  - intros l [].
  - constructor.
  - intros i [].
  - intros x [].
  - intros c [].
  - intros a. unfold rem, wterms, wused. cbn [reform_start rs_in rs_refs rs_ids rs_pend]. rewrite obj_terms_sum. cbn [ref_parts pend_parts map app psum fold_right]. unfold icost. lia.
Qed.
Theorem reformulation_derived : forall exhaustion def k0 o p es s exact r s', wok k0 p -> NoDup (map fst (obj_iter o)) ->
  run_pre exhaustion def k0 es (reform_start o p) -> run_revents exhaustion def es (reform_start o p) = Some s ->
  finish_pre exact k0 s -> finish exact s = (r, s') ->
  wok k0 (rs_p s') /\ rs_off s' = rs_off s /\ rs_in s' = rs_in s /\ Forall2 same_data (rs_refs s) (rs_refs s') /\
  match r with
  | None => forall a, icost o (on_solver a) = rs_off s + wsum (on_solver a) (rs_in s)
  | Some id => exists R, In (id, R) (k_all (kof k0 (rs_p s'))) /\ reform_says R o (reform_terms exact s) (rs_off s)
  end.
Proof.
  intros exhaustion def k0 o p es s exact r s' W Hn HP E HF EF.
  pose proof (run_inv exhaustion def k0 _ es _ s (start_inv k0 o p W Hn) HP E) as R.
  destruct (finish_inv exact k0 _ s R HF r s' EF) as (A & B & C & D & H). split; [exact A|split; [exact B|split; [exact C|split; [exact D|]]]].
  destruct r as [id|]; [exact H|]. intros a. specialize (H a). unfold rem, wterms in H. rewrite obj_terms_sum in H. lia.
Qed.
