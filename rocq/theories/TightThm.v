(** * Solution tightening only improves *)
From Coq Require Import List Bool Arith Lia ZArith.
From Verif Require Import Base BaseLemmas Spec MTypes MKernel EncSpec Wp Sem Kern Ext Init Blk ApiSpec Api ApiTop CbSpec CbApi
  MTight InproSpec InproThm TightSpec.
Import ListNotations.

Lemma assign_at_length sol : forall v b, v < length sol -> length (assign_at sol v b) = length sol.
Proof. induction sol as [|t sol IH]; intros [|v] b H; cbn in *; try lia. rewrite IH; lia. Qed.
Lemma assign_at_nth sol : forall v b u, v < length sol ->
  nth_error (assign_at sol v b) u = if u =? v then Some (Some b) else nth_error sol u.
Proof.
  induction sol as [|t sol IH]; intros [|v] b [|u] H; cbn in H; try lia; try reflexivity.
  cbn [assign_at nth_error Nat.eqb]. apply IH. lia.
Qed.

Section Tight.
  Variables (O : flip_oracle) (i : inst) (v : nat) (tg : bool).
  Hypothesis HI : inst_ok i.
  Hypothesis HD : lits_distinct i.
  Hypothesis HP : forall r lw, In r (in_objs i) -> In lw (fst r) -> 0 < snd lw.
  Hypothesis HF : flip_ok (in_cls i) (in_objs i) O.
  Hypothesis Hv : vm_max_enc (in_vm i) <= v.
  Notation os := (build_objs 0 (in_objs i)).
  Notation model := (ora_model O).

  Definition olit (l : lit) : Prop := exists r w, In r (in_objs i) /\ In (l, w) (fst r).
  Lemma olit_iff l : olit l <-> exists o, In o os /\ In l (map fst (obj_iter o)).
  Proof.
    split.
    - intros (r & w & H1 & H2). apply In_nth_error in H1. destruct H1 as [k H1].
      assert (G : forall rs j k, nth_error rs k = Some r -> In (obj_new (fst r) (snd r) (j + k)) (build_objs j rs)).
      { clear. induction rs as [|x rs IH]; intros j [|k] H; try discriminate; cbn [build_objs nth_error] in *.
        - injection H as ->. rewrite Nat.add_0_r. now left.
        - right. specialize (IH (S j) k H). now replace (j + S k) with (S j + k) by lia. }
      exists (obj_new (fst r) (snd r) (0 + k)). split; [now apply G|]. apply obj_new_lits.
      apply in_map_iff. now exists (l, w).
    - intros (o & H1 & H2). destruct (build_In _ _ _ H1) as (r & j & Hr & ->). apply obj_new_lits in H2.
      apply in_map_iff in H2. destruct H2 as ([l' w] & <- & H2). exists r, w. auto.
  Qed.
  Lemma olit_low l : olit l -> lvar l <= v.
  Proof.
    intros (r & w & H1 & H2). eapply Nat.le_trans; [|exact Hv]. apply (io_objs _ HI r); [exact H1|].
    apply in_map_iff. exists l. split; [reflexivity|]. apply in_map_iff. now exists (l, w).
  Qed.
  Lemma key_olit l : has_key os l = true <-> olit l.
  Proof.
    unfold has_key, obj_keys. rewrite existsb_exists, olit_iff. split.
    - intros (x & H1 & H2). apply lit_eqb_eq in H2. subst. apply in_flat_map in H1. exact H1.
    - intros H. exists l. split; [now apply in_flat_map|apply lit_eqb_refl].
  Qed.
  Lemma weight_pos o l w : In o os -> In (l, w) (obj_iter o) -> 0 < w.
  Proof.
    intros H1 H2. destruct (build_In _ _ _ H1) as (r & j & Hr & ->).
    unfold obj_new in H2. destruct (fst r) as [|[l0 w0] ls] eqn:er; [destruct H2|].
    destruct (existsb _ _); cbn [obj_iter] in H2.
    - rewrite hm_collect_distinct in H2 by (rewrite <- er; now apply HD).
      apply (HP r (l, w) Hr). now rewrite er.
    - apply in_map_iff in H2. destruct H2 as (x & H2 & _). injection H2 as _ <-. lia.
  Qed.
  Lemma same_var l x : lvar x = lvar l -> x = l \/ x = lnot l.
  Proof. destruct l as [a [|]], x as [b [|]]; cbn; intros ->; auto. Qed.

  Section Obj.
    Variables (o : objective) (t0 : ora_st O).
    Hypothesis Ho : In o os.

    Definition TInv (pre : list (lit * nat)) (x : ora_st O * assignment * nat * nat) : Prop :=
      let '(t, sol, cost, red) := x in
      sat (model t) (in_cls i) /\ length sol = S v /\
      (forall l, olit l -> nth_error sol (lvar l) = Some (Some (model t (lvar l)))) /\
      cost = wsum (model t) pre /\
      (forall l, olit l -> lit_true (model t) l = true -> lit_true (model t0) l = true) /\
      (forall l, olit l -> ~ In l (map fst (obj_iter o)) -> lit_true (model t) l = lit_true (model t0) l) /\
      (red = 0 -> sol = sol_of (model t0) v /\ forall u, model t u = model t0 u) /\
      (tg = false -> red = 0 /\ t = t0).

    Lemma loop_inv : forall post pre x, obj_iter o = pre ++ post -> TInv pre x ->
      TInv (pre ++ post) (tight_loop O os tg post x).
    Proof.
      induction post as [|[l w] post IH]; intros pre x Hls HT; [now rewrite app_nil_r|].
      replace (pre ++ (l, w) :: post) with ((pre ++ [(l, w)]) ++ post) by (now rewrite <- app_assoc).
      destruct x as [[[t sol] cost] red]. cbn [tight_loop]. apply IH; [now rewrite <- app_assoc|].
      destruct HT as (H1 & H2 & H3 & H4 & H5 & H6 & H7 & H8).
      assert (Hin : In (l, w) (obj_iter o)) by (rewrite Hls; apply in_or_app; right; now left).
      assert (Hl : olit l).
      { apply olit_iff. exists o. split; [exact Ho|]. apply in_map_iff. now exists (l, w). }
      pose proof (olit_low l Hl) as Hlow.
      assert (Hval : lit_value sol l = Some (lit_true (model t) l)).
      { unfold lit_value, var_value. rewrite (H3 l Hl). reflexivity. }
      assert (Hpre : forall l' w', In (l', w') pre -> olit l' /\ l' <> l).
      { intros l' w' Hp. split.
        - apply olit_iff. exists o. split; [exact Ho|]. rewrite Hls, map_app. apply in_or_app. left.
          apply in_map_iff. now exists (l', w').
        - intros ->. pose proof (obj_distinct i HD o Ho) as Hnd. rewrite Hls, map_app in Hnd. cbn [map fst] in Hnd.
          apply NoDup_remove_2 in Hnd. apply Hnd. apply in_or_app. left. apply in_map_iff. now exists (l, w'). }
      assert (Hsnoc : forall a, wsum a (pre ++ [(l, w)]) = wsum a pre + (if lit_true a l then w else 0)).
      { intros a. rewrite wsum_app. cbn [wsum]. lia. }
      assert (Hcount : lit_true (model t) l = true -> TInv (pre ++ [(l, w)]) (t, sol, cost + w, red)).
      { intros e. unfold TInv. rewrite Hsnoc, e, H4. repeat (split; [assumption || reflexivity|]). exact H8. }
      rewrite Hval. destruct (lit_true (model t) l) eqn:el; cbn [is_true].
      2:{ unfold TInv. rewrite Hsnoc, el, Nat.add_0_r. repeat (split; [assumption|]). exact H8. }
      destruct (tg && negb (has_key os (lnot l))) eqn:ek; [|now apply Hcount].
      apply andb_true_iff in ek. destruct ek as [etg ek]. apply negb_true_iff in ek.
      assert (Hk : ~ olit (lnot l)) by (rewrite <- key_olit; congruence).
      destruct (ora_flip O t (lnot l)) as [t' b] eqn:ef. pose proof (HF _ _ _ _ H1 ef) as HB. destruct b.
      - destruct HB as (B1 & B2 & B3).
        assert (B4 : forall x, olit x -> x <> l -> model t' (lvar x) = model t (lvar x)).
        { intros x Hx Hne. destruct Hx as (r & w' & X1 & X2). apply (B3 r x w' X1 X2). intros e.
          apply same_var in e. destruct e as [e|e].
          - apply Hk. exists r, w'. rewrite <- e. auto.
          - apply Hne. rewrite e. destruct l as [a [|]]; reflexivity. }
        assert (B5 : lit_true (model t') l = false).
        { rewrite lit_true_lnot in B2. now apply negb_true_iff in B2. }
        assert (Bx : forall x, olit x -> x <> l -> lit_true (model t') x = lit_true (model t) x).
        { intros x Hx Hne. unfold lit_true. now rewrite B4. }
        unfold TInv. split; [exact B1|]. unfold assign_lit. cbn [lnot lvar lneg]. rewrite negb_involutive.
        split; [rewrite assign_at_length; lia|]. split; [|split; [|split; [|split; [|split]]]].
        + intros x Hx. rewrite assign_at_nth by lia. destruct (lvar x =? lvar l) eqn:e.
          * apply Nat.eqb_eq in e. rewrite e. do 2 f_equal. unfold lit_true in B5. destruct (lneg l), (model t' (lvar l)); cbn in B5; congruence.
          * apply Nat.eqb_neq in e. rewrite B4 by congruence. now apply H3.
        + rewrite Hsnoc, B5, Nat.add_0_r, H4. clear - Hpre Bx. induction pre as [|[l' w'] pre IH]; [reflexivity|]. cbn [wsum].
          destruct (Hpre l' w' (or_introl eq_refl)) as [G1 G2]. rewrite (Bx l' G1 G2). f_equal. apply IH.
          intros; apply (Hpre l'0 w'0). now right.
        + intros x Hx Ht. destruct (lit_eqb x l) eqn:e; [apply lit_eqb_eq in e; subst; congruence|].
          apply lit_eqb_neq in e. rewrite (Bx x Hx e) in Ht. auto.
        + intros x Hx Hn. rewrite Bx; [auto|exact Hx|]. intros ->. apply Hn. apply in_map_iff. now exists (l, w).
        + pose proof (weight_pos o l w Ho Hin). lia.
        + congruence.
      - unfold TInv. rewrite Hsnoc.
        assert (E1 : forall x, lit_true (model t') x = lit_true (model t) x) by (intros x; unfold lit_true; now rewrite HB).
        rewrite E1, el. split; [|split; [exact H2|split; [|split; [|split; [|split; [|split]]]]]].
        + eapply sat_agree with (U := fun _ => True); [|intros; exact Logic.I|exact H1]. intros u _. symmetry. apply HB.
        + intros x Hx. rewrite HB. now apply H3.
        + rewrite H4. f_equal. clear - E1. induction pre as [|[l' w'] pre IH]; [reflexivity|]. cbn [wsum]. now rewrite E1, IH.
        + intros x Hx. rewrite E1. now apply H5.
        + intros x Hx Hn. rewrite E1. now apply H6.
        + intros e. destruct (H7 e) as [G1 G2]. split; [exact G1|]. intros u. rewrite HB. apply G2.
        + congruence.
    Qed.
  End Obj.

  Lemma cost_of_model o m : In o os -> sol_cost o (sol_of m v) = icost o m.
  Proof.
    intros Ho. apply sol_cost_rep with (n := v); [|exists v; split; [lia|reflexivity]].
    intros u Hu. apply in_map_iff in Hu. destruct Hu as (l & <- & Hl). apply olit_low. apply olit_iff. eauto.
  Qed.

  Lemma one_ok idx o t : nth_error os idx = Some o -> sat (model t) (in_cls i) ->
    exists t', get_cost_tight O os tg idx t (sol_of (model t) v) = Some (t', sol_of (model t') v, icost o (model t')) /\
      sat (model t') (in_cls i) /\
      (forall l, olit l -> lit_true (model t') l = true -> lit_true (model t) l = true) /\
      (forall l, olit l -> ~ In l (map fst (obj_iter o)) -> lit_true (model t') l = lit_true (model t) l) /\
      (tg = false -> t' = t).
  Proof.
    intros Hidx Hs. pose proof (nth_error_In _ _ Hidx) as Ho. unfold get_cost_tight. rewrite Hidx.
    assert (H0 : TInv o t [] (t, sol_of (model t) v, 0, 0)).
    { split; [exact Hs|]. split; [apply sol_of_length|]. split; [intros l Hl; apply sol_of_nth, olit_low, Hl|].
      split; [reflexivity|]. split; [auto|]. split; [auto|]. split; auto. }
    pose proof (loop_inv o t Ho (obj_iter o) [] _ eq_refl H0) as G. cbn [app] in G.
    destruct (tight_loop O os tg (obj_iter o) _) as [[[t' sol'] cost] red].
    destruct G as (G1 & G2 & G3 & G4 & G5 & G6 & G7 & G8). exists t'.
    destruct (red =? 0) eqn:er.
    - apply Nat.eqb_eq in er. destruct (G7 er) as [-> K]. split; [|split; [exact G1|split; [exact G5|split; [exact G6|apply G8]]]].
      rewrite (sol_of_ext (model t) (model t')) by (intros u _; symmetry; apply K). now rewrite G4.
    - rewrite G2, (cost_of_model o _ Ho). rewrite G4. change (icost o (model t')) with (wsum (model t') (obj_iter o)).
      rewrite Nat.eqb_refl. split; [reflexivity|]. split; [exact G1|]. split; [exact G5|]. split; [exact G6|]. apply G8.
  Qed.

  Lemma icost_mono o a b : In o os -> (forall l, olit l -> lit_true a l = true -> lit_true b l = true) -> icost o a <= icost o b.
  Proof.
    intros Ho H. unfold icost. assert (G : forall l, In l (map fst (obj_iter o)) -> olit l) by (intros; apply olit_iff; eauto).
    revert G. induction (obj_iter o) as [|[l w] ls IH]; intros G; [cbn; lia|]. cbn [wsum].
    specialize (IH (fun x Hx => G x (or_intror Hx))). specialize (H l (G l (or_introl eq_refl))).
    destruct (lit_true a l); [rewrite H by reflexivity|]; lia.
  Qed.

  (** No literal is in two objectives *)
  Definition nsh : Prop := forall j k o1 o2 l, nth_error os j = Some o1 -> nth_error os k = Some o2 ->
    In l (map fst (obj_iter o1)) -> In l (map fst (obj_iter o2)) -> j = k.

  Lemma all_ok : forall n idx t, length os = idx + n -> sat (model t) (in_cls i) ->
    exists t' cs, get_costs_tight O os tg n idx t (sol_of (model t) v) = Some (t', sol_of (model t') v, cs) /\
      sat (model t') (in_cls i) /\
      (forall l, olit l -> lit_true (model t') l = true -> lit_true (model t) l = true) /\
      Forall2 le (ic (skipn idx os) (model t')) cs /\ Forall2 le cs (ic (skipn idx os) (model t)) /\
      (forall l, olit l -> (forall o, In o (skipn idx os) -> ~ In l (map fst (obj_iter o))) ->
         lit_true (model t') l = lit_true (model t) l) /\
      (nsh -> ic (skipn idx os) (model t') = cs) /\ (tg = false -> t' = t).
  Proof.
    induction n as [|n IH]; intros idx t Hlen Hs; cbn [get_costs_tight].
    - exists t, []. rewrite skipn_all2 by lia. split; [reflexivity|]. split; [exact Hs|]. split; [auto|].
      split; [constructor|]. split; [constructor|]. auto.
    - destruct (nth_error os idx) as [o|] eqn:eo; [|apply nth_error_None in eo; lia].
      assert (Hsk : skipn idx os = o :: skipn (S idx) os).
      { clear - eo. revert idx eo. induction os as [|x l IH]; intros [|idx] eo; try discriminate; cbn in *; [congruence|].
        now apply IH. }
      pose proof (nth_error_In _ _ eo) as Ho.
      destruct (one_ok idx o t eo Hs) as (t1 & -> & S1 & M1 & N1 & T1).
      destruct (IH (S idx) t1 ltac:(lia) S1) as (t2 & cs & -> & S2 & M2 & L1 & L2 & N2 & E2 & T2).
      exists t2, (icost o (model t1) :: cs). split; [reflexivity|]. split; [exact S2|]. split; [auto|].
      rewrite Hsk. unfold ic. cbn [map]. fold (ic (skipn (S idx) os)).
      assert (Hmono : Forall2 le (ic (skipn (S idx) os) (model t1)) (ic (skipn (S idx) os) (model t))).
      { assert (G : forall o', In o' (skipn (S idx) os) -> In o' os).
        { intros o' Ho'. rewrite <- (firstn_skipn (S idx) os). apply in_or_app. now right. }
        clear Hsk L1 L2 N2 E2 IH. revert G. unfold ic. induction (skipn (S idx) os) as [|o' l IHl]; intros G; constructor.
        - apply icost_mono; [apply G; now left|exact M1].
        - apply IHl. intros; apply G; now right. }
      split; [|split; [|split; [|split]]].
      + constructor; [now apply icost_mono|exact L1].
      + constructor; [now apply icost_mono|].
        clear - L2 Hmono. unfold ic in *. revert L2 Hmono. generalize (map (fun o => icost o (model t1)) (skipn (S idx) os)) as y.
        generalize (map (fun o => icost o (model t)) (skipn (S idx) os)) as z.
        intros z y H. revert z. induction H; intros z Hz; inversion Hz; subst; constructor; [lia|auto].
      + intros l Hl Hn. rewrite N2; [apply N1; [exact Hl|apply Hn; now left]|exact Hl|].
        intros o' Ho'. apply Hn. now right.
      + intros Hnsh. specialize (E2 Hnsh). unfold ic in E2. rewrite E2. f_equal.
        assert (G : forall l, In l (map fst (obj_iter o)) -> lit_true (model t2) l = lit_true (model t1) l).
        { intros l Hl. apply N2; [apply olit_iff; eauto|]. intros o' Ho' Hl'. apply In_nth_error in Ho'. destruct Ho' as [k Hk].
          assert (Hk' : nth_error os (S idx + k) = Some o').
          { rewrite <- Hk. clear. generalize (S idx) as m. induction os as [|x l IH]; intros [|m]; cbn; auto. now destruct k. }
          pose proof (Hnsh idx (S idx + k) o o' l eo Hk' Hl Hl'). lia. }
        unfold icost. clear - G. induction (obj_iter o) as [|[l w] ls IH]; [reflexivity|]. cbn [wsum].
        rewrite (G l (or_introl eq_refl)), IH; [reflexivity|]. intros; apply G. now right.
      + intros e. rewrite (T2 e). now apply T1.
  Qed.
End Tight.

Lemma user_ic ros a : Forall obj_ok ros -> forall k, user_costs ros (ic (build_objs k ros) a) = costs ros a.
Proof.
  induction 1 as [|r ros H1 H2 IH]; intros k; [reflexivity|]. cbn [build_objs]. unfold user_costs, ic, costs. cbn [map combine fst snd].
  f_equal; [|apply (IH (S k))].
  destruct (icost_value r k a H1) as (G1 & _ & _). rewrite (obj_unit r k H1) in G1. lia.
Qed.
Lemma user_le : forall ros xs ys, Forall2 le xs ys -> weakly_dominates (user_costs ros xs) (user_costs ros ys).
Proof.
  intros ros xs ys H. revert ros. induction H as [|x y xs ys H1 H2 IH]; intros [|r ros]; try constructor.
  - cbn. nia.
  - apply IH.
Qed.
