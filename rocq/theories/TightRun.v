(** * What tightening returns is what the solver has for its last model *)
From Coq Require Import List Bool Arith Lia ZArith.
From Verif Require Import Base BaseLemmas Spec MTypes MKernel EncSpec Wp Sem Kern Ext Init Blk ApiSpec Api ApiTop CbSpec CbApi
  MTight InproSpec InproThm TightSpec TightThm.
Import ListNotations.

Section Run.
  Variables (O : flip_oracle) (i : inst) (cls : list clause) (v : nat).
  Hypothesis HD : lits_distinct i.
  Hypothesis HP : forall r lw, In r (in_objs i) -> In lw (fst r) -> 0 < snd lw.
  Hypothesis HF : flip_ok cls (in_objs i) O.
  Notation os := (build_objs 0 (in_objs i)).
  Notation model := (ora_model O).
  Notation olit := (olit i).
  Definition lcost (sol : assignment) (lw : lit * nat) : nat := if is_true (lit_value sol (fst lw)) then snd lw else 0.

  Lemma sol_of_out m u : v < u -> nth_error (sol_of m v) u = None.
  Proof. intros H. apply nth_error_None. rewrite sol_of_length. lia. Qed.
  Lemma value_same m m' l : m (lvar l) = m' (lvar l) -> lit_value (sol_of m v) l = lit_value (sol_of m' v) l.
  Proof.
    intros H. unfold lit_value, var_value. destruct (le_lt_dec (lvar l) v) as [h|h].
    - now rewrite !sol_of_nth, H by exact h.
    - now rewrite !sol_of_out by exact h.
  Qed.

  Section Obj.
    Variables (o : objective) (t0 : ora_st O).
    Hypothesis Ho : In o os.

    Definition TI (pre : list (lit * nat)) (x : ora_st O * assignment * nat * nat) : Prop :=
      let '(t, sol, cost, red) := x in
      sat (model t) cls /\ length sol = S v /\
      (forall l, olit l -> nth_error sol (lvar l) = nth_error (sol_of (model t) v) (lvar l)) /\
      cost = list_sum (map (lcost (sol_of (model t) v)) pre) /\
      (forall l, olit l -> ~ In l (map fst (obj_iter o)) -> model t (lvar l) = model t0 (lvar l)) /\
      (red = 0 -> sol = sol_of (model t0) v /\ forall u, model t u = model t0 u).

    Lemma loop_ti : forall post pre x, obj_iter o = pre ++ post -> TI pre x ->
      TI (pre ++ post) (tight_loop O os true post x).
    Proof.
      induction post as [|[l w] post IH]; intros pre x Hls HT; [now rewrite app_nil_r|].
      replace (pre ++ (l, w) :: post) with ((pre ++ [(l, w)]) ++ post) by (now rewrite <- app_assoc).
      destruct x as [[[t sol] cost] red]. cbn [tight_loop]. apply IH; [now rewrite <- app_assoc|].
      destruct HT as (H1 & H2 & H3 & H4 & H6 & H7).
      assert (Hin : In (l, w) (obj_iter o)) by (rewrite Hls; apply in_or_app; right; now left).
      assert (Hl : olit l).
      { apply olit_iff. exists o. split; [exact Ho|]. apply in_map_iff. now exists (l, w). }
      assert (Hval : lit_value sol l = lit_value (sol_of (model t) v) l).
      { unfold lit_value, var_value. now rewrite (H3 l Hl). }
      assert (Hpre : forall l' w', In (l', w') pre -> olit l' /\ l' <> l).
      { intros l' w' Hp. split.
        - apply olit_iff. exists o. split; [exact Ho|]. rewrite Hls, map_app. apply in_or_app. left.
          apply in_map_iff. now exists (l', w').
        - intros ->. pose proof (obj_distinct i HD o Ho) as Hnd. rewrite Hls, map_app in Hnd. cbn [map fst] in Hnd.
          apply NoDup_remove_2 in Hnd. apply Hnd. apply in_or_app. left. apply in_map_iff. now exists (l, w'). }
      assert (Hsnoc : forall s, list_sum (map (lcost s) (pre ++ [(l, w)])) =
                list_sum (map (lcost s) pre) + (if is_true (lit_value s l) then w else 0)).
      { intros s. rewrite map_app, list_sum_app. f_equal. cbn [map list_sum fold_right]. unfold lcost. cbn [fst snd]. apply Nat.add_0_r. }
      assert (Hcong : forall s s', (forall x, olit x -> x <> l -> lit_value s x = lit_value s' x) ->
                list_sum (map (lcost s) pre) = list_sum (map (lcost s') pre)).
      { intros s s' Hx. f_equal. apply map_ext_in. intros [l' w'] Hp. unfold lcost. cbn [fst snd].
        destruct (Hpre _ _ Hp). now rewrite Hx. }
      destruct (is_true (lit_value sol l)) eqn:ev.
      2:{ unfold TI. rewrite Hsnoc, <- Hval, ev, Nat.add_0_r. repeat (split; [assumption|]). exact H7. }
      cbn [andb].
      destruct (has_key os (lnot l)) eqn:ek; cbn [negb].
      { unfold TI. rewrite Hsnoc, <- Hval, ev, H4. repeat (split; [assumption || reflexivity|]). exact H7. }
      assert (Hk : ~ olit (lnot l)) by (rewrite <- key_olit; congruence).
      assert (Hlow : lvar l <= v).
      { destruct (le_lt_dec (lvar l) v) as [h|h]; [exact h|]. exfalso. rewrite Hval in ev. unfold lit_value, var_value in ev.
        rewrite sol_of_out in ev by exact h. discriminate. }
      destruct (ora_flip O t (lnot l)) as [t' b] eqn:ef. pose proof (HF _ _ _ _ H1 ef) as HB. destruct b.
      - destruct HB as (B1 & B2 & B3).
        assert (B4 : forall x, olit x -> x <> l -> model t' (lvar x) = model t (lvar x)).
        { intros x Hx Hne. destruct Hx as (r & w' & X1 & X2). apply (B3 r x w' X1 X2). intros e.
          apply same_var in e. destruct e as [e|e].
          - apply Hk. exists r, w'. rewrite <- e. auto.
          - apply Hne. rewrite e. destruct l as [a [|]]; reflexivity. }
        assert (B5 : lit_true (model t') l = false).
        { rewrite lit_true_lnot in B2. now apply negb_true_iff in B2. }
        unfold TI. split; [exact B1|]. unfold assign_lit. cbn [lnot lvar lneg]. rewrite negb_involutive.
        split; [rewrite assign_at_length; lia|]. split; [|split; [|split]].
        + intros x Hx. rewrite assign_at_nth by lia. destruct (lvar x =? lvar l) eqn:e.
          * apply Nat.eqb_eq in e. rewrite e, sol_of_nth by exact Hlow. do 2 f_equal.
            unfold lit_true in B5. destruct (lneg l), (model t' (lvar l)); cbn in B5; congruence.
          * apply Nat.eqb_neq in e. rewrite (H3 x Hx). destruct (le_lt_dec (lvar x) v) as [h|h].
            -- rewrite !sol_of_nth by exact h. now rewrite B4 by congruence.
            -- now rewrite !sol_of_out by exact h.
        + rewrite Hsnoc.
          replace (is_true (lit_value (sol_of (model t') v) l)) with false.
          2:{ unfold lit_value, var_value. rewrite sol_of_nth by exact Hlow. unfold lit_true in B5.
              destruct (lneg l), (model t' (lvar l)); cbn in *; congruence. }
          rewrite Nat.add_0_r, H4. apply Hcong. intros x Hx Hne. apply value_same. symmetry. now apply B4.
        + intros x Hx Hn. rewrite B4; [auto|exact Hx|]. intros ->. apply Hn. apply in_map_iff. now exists (l, w).
        + pose proof (weight_pos i _ HD HP (le_n _) o l w Ho Hin). lia.
      - assert (E1 : sol_of (model t') v = sol_of (model t) v) by (apply sol_of_ext; intros u _; apply HB).
        unfold TI. rewrite E1, Hsnoc, <- Hval, ev, H4. split; [|split; [exact H2|split; [exact H3|split; [reflexivity|split]]]].
        + eapply sat_agree with (U := fun _ => True); [|intros; exact Logic.I|exact H1]. intros u _. symmetry. apply HB.
        + intros x Hx Hn. rewrite HB. auto.
        + intros e. destruct (H7 e) as [G1 G2]. split; [exact G1|]. intros u. rewrite HB. apply G2.
    Qed.
  End Obj.

  Lemma one_run idx o t : nth_error os idx = Some o -> sat (model t) cls ->
    exists t', get_cost_tight O os true idx t (sol_of (model t) v) =
        Some (t', sol_of (model t') v, sol_cost o (sol_of (model t') v)) /\
      sat (model t') cls /\
      (forall l, olit l -> ~ In l (map fst (obj_iter o)) -> model t' (lvar l) = model t (lvar l)).
  Proof.
    intros Hidx Hs. pose proof (nth_error_In _ _ Hidx) as Ho. unfold get_cost_tight. rewrite Hidx.
    assert (H0 : TI o t [] (t, sol_of (model t) v, 0, 0)).
    { split; [exact Hs|]. split; [apply sol_of_length|]. split; [reflexivity|].
      split; [reflexivity|]. split; [auto|]. auto. }
    pose proof (loop_ti o t Ho (obj_iter o) [] _ eq_refl H0) as G. cbn [app] in G.
    destruct (tight_loop O os true (obj_iter o) _) as [[[t' sol'] cost] red].
    destruct G as (G1 & G2 & G3 & G4 & G6 & G7). exists t'. change (cost = sol_cost o (sol_of (model t') v)) in G4.
    destruct (red =? 0) eqn:er.
    - apply Nat.eqb_eq in er. destruct (G7 er) as [-> K]. split; [|split; [exact G1|exact G6]].
      rewrite (sol_of_ext (model t) (model t')) by (intros u _; symmetry; apply K). now rewrite G4.
    - rewrite G2, <- G4, Nat.eqb_refl. split; [reflexivity|]. split; [exact G1|exact G6].
  Qed.

  Hypothesis HN : nsh i.

  Lemma all_run : forall n idx t, length os = idx + n -> sat (model t) cls ->
    exists t', get_costs_tight O os true n idx t (sol_of (model t) v) =
        Some (t', sol_of (model t') v, map (fun o => sol_cost o (sol_of (model t') v)) (skipn idx os)) /\
      sat (model t') cls /\
      (forall l, olit l -> (forall o, In o (skipn idx os) -> ~ In l (map fst (obj_iter o))) ->
         model t' (lvar l) = model t (lvar l)).
  Proof.
    induction n as [|n IH]; intros idx t Hlen Hs; cbn [get_costs_tight].
    - exists t. rewrite skipn_all2 by lia. auto.
    - destruct (nth_error os idx) as [o|] eqn:eo; [|apply nth_error_None in eo; lia].
      assert (Hsk : skipn idx os = o :: skipn (S idx) os).
      { clear - eo. revert idx eo. induction os as [|x l IH]; intros [|idx] eo; try discriminate; cbn in *; [congruence|].
        now apply IH. }
      pose proof (nth_error_In _ _ eo) as Ho.
      destruct (one_run idx o t eo Hs) as (t1 & -> & S1 & N1).
      destruct (IH (S idx) t1 ltac:(lia) S1) as (t2 & -> & S2 & N2).
      exists t2. rewrite Hsk. cbn [map]. split; [|split; [exact S2|]].
      + do 3 f_equal. unfold sol_cost. f_equal. apply map_ext_in. intros [l w] Hlw. cbn [fst snd].
        rewrite (value_same (model t1) (model t2)); [reflexivity|]. symmetry.
        assert (Hl : In l (map fst (obj_iter o))) by (apply in_map_iff; now exists (l, w)).
        apply N2; [apply olit_iff; eauto|]. intros o' Ho' Hl'. apply In_nth_error in Ho'. destruct Ho' as [k Hk].
        assert (Hk' : nth_error os (S idx + k) = Some o').
        { rewrite <- Hk. clear. generalize (S idx) as m. induction os as [|x l IH]; intros [|m]; cbn; auto. now destruct k. }
        pose proof (HN idx (S idx + k) o o' l eo Hk' Hl Hl'). lia.
      + intros l Hl Hn. rewrite N2; [apply N1; [exact Hl|apply Hn; now left]|exact Hl|].
        intros o' Ho'. apply Hn. now right.
  Qed.
End Run.

(** The same for objectives with other lower bounds (after core boosting) *)
Lemma loop_cong O os os' tg : map obj_iter os = map obj_iter os' -> forall ls x, tight_loop O os tg ls x = tight_loop O os' tg ls x.
Proof.
  intros H. assert (K : forall l, has_key os l = has_key os' l).
  { intros l. unfold has_key, obj_keys. f_equal. rewrite !flat_map_concat_map.
    rewrite <- (map_map obj_iter (map fst) os), <- (map_map obj_iter (map fst) os'). now rewrite H. }
  induction ls as [|[l w] ls IH]; intros x; [reflexivity|]. destruct x as [[[t sol] cost] red]. cbn [tight_loop]. rewrite K. apply IH.
Qed.
Lemma sol_cost_cong o o' sol : obj_iter o = obj_iter o' -> sol_cost o sol = sol_cost o' sol.
Proof. intros H. unfold sol_cost. now rewrite H. Qed.
Lemma cost_cong O os os' tg idx t sol : map obj_iter os = map obj_iter os' ->
  get_cost_tight O os tg idx t sol = get_cost_tight O os' tg idx t sol.
Proof.
  intros H. unfold get_cost_tight. assert (K : option_map obj_iter (nth_error os idx) = option_map obj_iter (nth_error os' idx)).
  { now rewrite <- !nth_error_map, H. }
  destruct (nth_error os idx) as [o|], (nth_error os' idx) as [o'|]; try discriminate; [|reflexivity]. injection K as K.
  rewrite (loop_cong O os os' tg H), K. destruct (tight_loop _ _ _ _ _) as [[[t' sol'] cost] red]. destruct (red =? 0); [reflexivity|].
  destruct (length sol'); [reflexivity|]. now rewrite (sol_cost_cong o o' _ K).
Qed.
Lemma costs_cong O os os' tg : map obj_iter os = map obj_iter os' -> forall n idx t sol,
  get_costs_tight O os tg n idx t sol = get_costs_tight O os' tg n idx t sol.
Proof.
  intros H. induction n as [|n IH]; intros idx t sol; [reflexivity|]. cbn [get_costs_tight]. rewrite (cost_cong O os os' tg idx t sol H).
  destruct (get_cost_tight O os' tg idx t sol) as [[[t' sol'] c]|]; [|reflexivity]. now rewrite IH.
Qed.
Lemma map_cost_cong os os' sol : map obj_iter os = map obj_iter os' ->
  map (fun o => sol_cost o sol) os = map (fun o => sol_cost o sol) os'.
Proof.
  revert os'. induction os as [|o os IH]; intros [|o' os'] H; try discriminate; [reflexivity|]. cbn [map] in *. injection H as H1 H2.
  f_equal; [now apply sol_cost_cong|now apply IH].
Qed.
Lemma one_run_os O i cls v os idx o t : lits_distinct i -> (forall r lw, In r (in_objs i) -> In lw (fst r) -> 0 < snd lw) ->
  flip_ok cls (in_objs i) O -> map obj_iter os = map obj_iter (build_objs 0 (in_objs i)) ->
  nth_error os idx = Some o -> sat (ora_model O t) cls ->
  exists t', get_cost_tight O os true idx t (sol_of (ora_model O t) v) =
      Some (t', sol_of (ora_model O t') v, sol_cost o (sol_of (ora_model O t') v)) /\ sat (ora_model O t') cls.
Proof.
  intros HD HP HF H Ho Hs. assert (K : option_map obj_iter (nth_error os idx) = option_map obj_iter (nth_error (build_objs 0 (in_objs i)) idx)).
  { now rewrite <- !nth_error_map, H. }
  rewrite Ho in K. destruct (nth_error (build_objs 0 (in_objs i)) idx) as [o'|] eqn:e; [|discriminate]. injection K as K.
  destruct (one_run O i cls v HD HP HF idx o' t e Hs) as (t' & G1 & G2 & _). exists t'.
  rewrite (cost_cong O _ _ true idx _ _ H), G1, (sol_cost_cong o o' _ K). auto.
Qed.
Lemma all_run_os O i cls v os t : lits_distinct i -> (forall r lw, In r (in_objs i) -> In lw (fst r) -> 0 < snd lw) ->
  flip_ok cls (in_objs i) O -> nsh i -> map obj_iter os = map obj_iter (build_objs 0 (in_objs i)) -> sat (ora_model O t) cls ->
  exists t', get_costs_tight O os true (length os) 0 t (sol_of (ora_model O t) v) =
      Some (t', sol_of (ora_model O t') v, map (fun o => sol_cost o (sol_of (ora_model O t') v)) os) /\ sat (ora_model O t') cls.
Proof.
  intros HD HP HF HN H Hs. assert (L : length os = length (build_objs 0 (in_objs i))).
  { rewrite <- (map_length obj_iter os), H. apply map_length. }
  destruct (all_run O i cls v HD HP HF HN (length os) 0 t (eq_sym L) Hs) as (t' & G1 & G2 & _). exists t'.
  rewrite (costs_cong O _ _ true H), G1, (map_cost_cong _ _ _ H). auto.
Qed.
