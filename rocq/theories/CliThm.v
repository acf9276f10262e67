(** * The terminal logger *)
From Coq Require Import List Bool Arith Lia ZArith.
From Verif Require Import Base BaseLemmas MTypes MKernel MOll ApiSpec EncSpec LogSpec CbSpec MCli CliSpec
  LogBal ApiTop BookTop LogCb.
Import ListNotations.

(** ** Structure of logs *)
Fixpoint fapp (f g : forest) : forest :=
  match f with
  | FNil => g
  | FMsg e r => FMsg e (fapp r g)
  | FRoutine r b rest => FRoutine r b (fapp rest g)
  end.
Lemma calls_app f g : calls (fapp f g) = calls f ++ calls g.
Proof.
  induction f as [|e f IH|r b _ f IH]; cbn [fapp calls app]; [reflexivity|now rewrite IH|].
  rewrite IH, <- app_assoc. reflexivity.
Qed.
Lemma ok_app f g : forest_ok f -> forest_ok g -> forest_ok (fapp f g).
Proof. induction f; cbn; tauto. Qed.
Definition spine_ok (sp : list (forest * routine)) : Prop := Forall (fun x => forest_ok (fst x)) sp.
Lemma open_calls_app sp sp' f : open_calls (sp ++ sp') f =
  concat (map (fun x => calls (fst x) ++ [EvStart (snd x)]) sp) ++ open_calls sp' f.
Proof.
  induction sp as [|[g r] sp IH]; cbn; [reflexivity|]. rewrite IH, <- !app_assoc. reflexivity.
Qed.
Lemma open_calls_eq sp f : open_calls sp f =
  concat (map (fun x => calls (fst x) ++ [EvStart (snd x)]) sp) ++ calls f.
Proof. rewrite <- (app_nil_r sp) at 1. now rewrite open_calls_app. Qed.

Lemma decompose evs : forall d, open_routines (rev evs) = Some d ->
  exists sp f, length sp = d /\ spine_ok sp /\ forest_ok f /\ evs = open_calls sp f.
Proof.
  induction evs as [|e evs IH] using rev_ind; intros d H.
  - injection H as <-. exists [], FNil. repeat split. constructor.
  - rewrite rev_app_distr in H. cbn in H. destruct (open_routines (rev evs)) as [d'|]; [|discriminate].
    destruct (IH d' eq_refl) as (sp & f & H1 & H2 & H3 & ->). clear IH.
    assert (Hm : is_msg e -> d = d' -> exists sp0 f0, length sp0 = d /\ spine_ok sp0 /\ forest_ok f0 /\
      open_calls sp f ++ [e] = open_calls sp0 f0).
    { intros He ->. exists sp, (fapp f (FMsg e FNil)). split; [exact H1|]. split; [exact H2|].
      split; [apply ok_app; cbn; auto|]. rewrite !open_calls_eq, calls_app, <- app_assoc. reflexivity. }
    destruct e as [cs ph|r| |p|fe|r| |c|w n k|x w|b1 b2 b3 b4]; try (apply Hm; [exact Logic.I|congruence]); clear Hm.
    + injection H as <-. exists (sp ++ [(f, r)]), FNil. rewrite app_length. cbn [length].
      split; [lia|]. split; [apply Forall_app; split; [exact H2|now repeat constructor]|]. split; [exact Logic.I|].
      rewrite open_calls_app, open_calls_eq. cbn [open_calls calls]. rewrite <- app_assoc. reflexivity.
    + destruct d' as [|d']; [discriminate|]. injection H as <-.
      destruct (exists_last (l := sp)) as (sp' & (g & r) & ->); [intros ->; discriminate|].
      rewrite app_length in H1. cbn in H1. apply Forall_app in H2. destruct H2 as [H2 H4].
      inversion H4 as [|? ? H5 _]; subst. exists sp', (fapp g (FRoutine r f FNil)).
      split; [lia|]. split; [exact H2|]. split; [apply ok_app; cbn in *; auto|].
      rewrite open_calls_app, (open_calls_eq sp' (fapp _ _)), calls_app. cbn [open_calls calls].
      rewrite <- !app_assoc. cbn [app]. rewrite <- ?app_assoc. reflexivity.
Qed.
Lemma open_calls_open sp f : spine_ok sp -> forest_ok f -> open_routines (rev (open_calls sp f)) = Some (length sp).
Proof.
  assert (G : forall g l, forest_ok g -> open_routines (rev (calls g) ++ l) = open_routines l).
  { induction g as [|e g IH|r b IHb g IHg]; intros l Hg; cbn [calls] in *; [reflexivity| |].
    - cbn [forest_ok] in Hg. destruct Hg as [He Hg]. cbn [rev]. rewrite <- app_assoc, IH by exact Hg. cbn.
      destruct (open_routines l); destruct e; try contradiction; reflexivity.
    - cbn [forest_ok] in Hg. destruct Hg as [Hb Hg]. cbn [rev]. rewrite rev_app_distr. cbn [rev].
      rewrite <- !app_assoc. rewrite IHg by exact Hg. cbn [app open_routines]. rewrite IHb by exact Hb.
      cbn [open_routines]. destruct (open_routines l); reflexivity. }
  assert (K : forall sp l d, spine_ok sp -> open_routines l = Some d ->
    open_routines (rev (open_calls sp f) ++ l) = Some (length sp + d) \/ ~ forest_ok f).
  { induction sp0 as [|[g r] sp0 IH]; intros l d Hs Hl; cbn [open_calls].
    - destruct f as [|e f'|r b f'] eqn:E; [left; exact Hl| |];
      (assert (D : forest_ok f \/ ~ forest_ok f) by (clear; induction f; cbn [forest_ok]; [tauto| |tauto];
         destruct e; cbn [is_msg]; tauto)); destruct D as [D|D]; rewrite E in D; try (now right);
      left; rewrite G by exact D; exact Hl.
    - inversion Hs as [|? ? Hg Hs']; subst. cbn [fst] in Hg. rewrite rev_app_distr. cbn [rev]. rewrite <- !app_assoc.
      destruct (IH ([EvStart r] ++ rev (calls g) ++ l) (S d) Hs') as [IH'|IH']; [| |now right].
      + cbn [app open_routines]. rewrite G by exact Hg. now rewrite Hl.
      + left. rewrite IH'. cbn [length]. f_equal. lia. }
  intros Hs Hf. destruct (K sp [] 0 Hs eq_refl) as [H|H]; [|contradiction].
  rewrite app_nil_r in H. rewrite H. f_equal. lia.
Qed.

(** ** What is printed *)
Lemma cli_events_app cfg a b lg : cli_events cfg (a ++ b) lg =
  match cli_events cfg a lg with Some lg' => cli_events cfg b lg' | None => None end.
Proof.
  revert lg. induction a as [|e a IH]; intros lg; [reflexivity|]. cbn [app cli_events].
  destruct (cli_event cfg e lg); [apply IH|reflexivity].
Qed.
Lemma cli_msg cfg e lg : is_msg e ->
  cli_event cfg e lg = Some (mkLog (cl_stack lg) (cl_out lg ++ msg_line cfg e)).
Proof.
  destruct lg as [st out]. intros H. destruct e; try contradiction; cbn [cli_event msg_line]; unfold print_if;
    match goal with |- context [if ?b then _ else _] => destruct b end; cbn [cl_stack cl_out];
    rewrite ?app_nil_r; reflexivity.
Qed.
Lemma cli_start cfg r st out : cli_event cfg (EvStart r) (mkLog st out) =
  Some (mkLog (r :: st) (out ++ if length st <? lc_routines cfg then [LnStart r] else [])).
Proof.
  cbn [cli_event cl_stack cl_out length]. unfold print_if. change (S (length st) <=? lc_routines cfg) with (length st <? lc_routines cfg).
  destruct (length st <? lc_routines cfg); cbn [cl_stack cl_out]; rewrite ?app_nil_r; reflexivity.
Qed.
Lemma cli_end cfg r st out : cli_event cfg EvEnd (mkLog (r :: st) out) =
  Some (mkLog st (out ++ if length st <? lc_routines cfg then [LnEnd r] else [])).
Proof.
  cbn [cli_event cl_stack cl_out]. unfold print_if.
  destruct (length st <? lc_routines cfg); cbn [cl_stack cl_out]; rewrite ?app_nil_r; reflexivity.
Qed.
Lemma cli_calls cfg f : forall st out, forest_ok f ->
  cli_events cfg (calls f) (mkLog st out) = Some (mkLog st (out ++ lines cfg (length st) f)).
Proof.
  induction f as [|e f IH|r b IHb f IHf]; intros st out Hf; cbn [calls lines forest_ok] in *.
  - cbn. now rewrite app_nil_r.
  - destruct Hf as [He Hf]. cbn [cli_events]. rewrite cli_msg by exact He. cbn [cl_stack cl_out].
    rewrite IH by exact Hf. now rewrite <- app_assoc.
  - destruct Hf as [Hb Hf]. cbn [cli_events]. rewrite cli_start. rewrite cli_events_app, IHb by exact Hb.
    cbn [cli_events length]. rewrite cli_end. rewrite IHf by exact Hf. f_equal. f_equal.
    destruct (length st <? lc_routines cfg); rewrite ?app_nil_r, <- ?app_assoc; reflexivity.
Qed.
Lemma cli_open cfg sp : forall f st out, spine_ok sp -> forest_ok f ->
  cli_events cfg (open_calls sp f) (mkLog st out)
  = Some (mkLog (rev (map snd sp) ++ st) (out ++ open_lines cfg (length st) sp f)).
Proof.
  induction sp as [|[g r] sp IH]; intros f st out Hs Hf; cbn [open_calls open_lines].
  - now apply cli_calls.
  - inversion Hs as [|? ? Hg Hs']; subst. rewrite cli_events_app, cli_calls by exact Hg. cbn [cli_events].
    rewrite cli_start, IH by assumption. cbn [map snd rev length]. rewrite <- !app_assoc. reflexivity.
Qed.
Lemma cli_ok cfg evs : (cli_events cfg evs new_cli_logger = None) <-> open_routines (rev evs) = None.
Proof.
  induction evs as [|e evs IH] using rev_ind; [split; discriminate|].
  rewrite cli_events_app, rev_app_distr. cbn [rev app open_routines].
  destruct (open_routines (rev evs)) as [d|] eqn:E.
  - destruct (decompose evs d E) as (sp & f & H1 & H2 & H3 & H4). subst evs. unfold new_cli_logger.
    rewrite cli_open by assumption. rewrite app_nil_r. cbn [cli_events].
    assert (Hl : length (rev (map snd sp)) = d) by (rewrite rev_length, map_length; exact H1).
    destruct e; cbn [cli_event cl_stack]; try (split; discriminate).
    rewrite <- Hl. destruct (rev (map snd sp)) as [|r rest]; split; try discriminate; reflexivity.
  - destruct (cli_events cfg evs new_cli_logger) as [lg|] eqn:E2; [|split; reflexivity].
    destruct IH as [_ IH]. specialize (IH eq_refl). discriminate.
Qed.

(** ** Verbosity *)
Lemma sub_refl {A} (l : list A) : subseq l l.
Proof. induction l; constructor; assumption. Qed.
Lemma sub_nil_l {A} (l : list A) : subseq [] l.
Proof. induction l; constructor; assumption. Qed.
Lemma sub_app {A} (a b c d : list A) : subseq a b -> subseq c d -> subseq (a ++ c) (b ++ d).
Proof. intros H G. induction H; cbn; [exact G|constructor; assumption|constructor; assumption]. Qed.
Lemma sub_app_l {A} (a b c : list A) : subseq a b -> subseq a (c ++ b).
Proof. intros H. induction c; cbn; [exact H|now constructor]. Qed.
Lemma sub_app_r {A} (a b c : list A) : subseq a b -> subseq a (b ++ c).
Proof. intros H. rewrite <- (app_nil_r a). apply sub_app; [exact H|apply sub_nil_l]. Qed.

Record cfg_le (c c' : logger_cfg) : Prop := mkCfgLe {
  cle_cand : lc_candidates c = true -> lc_candidates c' = true;
  cle_sols : lc_solutions c = true -> lc_solutions c' = true;
  cle_nd : lc_non_dom c = true -> lc_non_dom c' = true;
  cle_or : lc_oracle_calls c = true -> lc_oracle_calls c' = true;
  cle_fence : lc_fence c = true -> lc_fence c' = true;
  cle_rt : lc_routines c <= lc_routines c';
  cle_bp : lc_bound_points c = true -> lc_bound_points c' = true;
  cle_cores : lc_cores c = true -> lc_cores c' = true;
  cle_inpro : lc_inpro c = true -> lc_inpro c' = true }.
Lemma sub_if (b b' : bool) (x : line) : (b = true -> b' = true) ->
  subseq (if b then [x] else []) (if b' then [x] else []).
Proof.
  intros H. destruct b; [rewrite H by reflexivity; apply sub_refl|apply sub_nil_l].
Qed.
Lemma sub_msg c c' e : cfg_le c c' -> subseq (msg_line c e) (msg_line c' e).
Proof.
  intros [H1 H2 H3 H4 H5 H6 H7 H8 H9]. destruct e; cbn [msg_line]; try (now apply sub_if); constructor.
Qed.
Lemma lt_le c c' d : cfg_le c c' -> (d <? lc_routines c) = true -> (d <? lc_routines c') = true.
Proof. intros H G. apply Nat.ltb_lt in G. apply Nat.ltb_lt. pose proof (cle_rt _ _ H). lia. Qed.
Lemma sub_lines c c' f : cfg_le c c' -> forall d, subseq (lines c d f) (lines c' d f).
Proof.
  intros H. induction f as [|e f IH|r b IHb f IHf]; intros d; cbn [lines].
  - constructor.
  - apply sub_app; [now apply sub_msg|apply IH].
  - apply sub_app; [|apply IHf]. pose proof (lt_le c c' d H) as L.
    destruct (d <? lc_routines c).
    + rewrite L by reflexivity. apply sub_app; [apply sub_refl|]. apply sub_app; [apply IHb|apply sub_refl].
    + destruct (d <? lc_routines c'); [|apply IHb]. apply sub_app_l, sub_app_r, IHb.
Qed.
Lemma sub_open_lines c c' sp f : cfg_le c c' -> forall d, subseq (open_lines c d sp f) (open_lines c' d sp f).
Proof.
  intros H. induction sp as [|[g r] sp IH]; intros d; cbn [open_lines]; [now apply sub_lines|].
  apply sub_app; [now apply sub_lines|]. apply sub_app; [apply sub_if; now apply lt_le|apply IH].
Qed.
Lemma sub_events c c' evs lg lg' : cfg_le c c' ->
  cli_events c evs new_cli_logger = Some lg -> cli_events c' evs new_cli_logger = Some lg' ->
  cl_stack lg = cl_stack lg' /\ subseq (cl_out lg) (cl_out lg').
Proof.
  intros H H1 H2. destruct (open_routines (rev evs)) as [d|] eqn:E.
  2: { apply (cli_ok c) in E. congruence. }
  destruct (decompose evs d E) as (sp & f & _ & Hs & Hf & ->). unfold new_cli_logger in *.
  rewrite cli_open in H1, H2 by assumption. injection H1 as <-. injection H2 as <-. cbn.
  split; [reflexivity|now apply sub_open_lines].
Qed.
(** Arguments with a higher verbosity and otherwise equal *)
Definition at_verbosity (v : nat) (a : log_args) : log_args :=
  mkLogArgs v (ga_candidates a) (ga_solutions a) (ga_non_dom a) (ga_oracle_calls a) (ga_cores a)
    (ga_routines a) (ga_bound_points a) (ga_inprocessing a) (ga_print_solutions a).
Lemma or_leb_mono b n v v' : v <= v' -> b || (n <=? v) = true -> b || (n <=? v') = true.
Proof.
  intros H G. apply orb_true_iff in G. apply orb_true_iff. destruct G as [G|G]; [now left|right].
  apply Nat.leb_le in G. apply Nat.leb_le. lia.
Qed.
Lemma cfg_mono a v v' : v <= v' -> cfg_le (cfg_of_args (at_verbosity v a)) (cfg_of_args (at_verbosity v' a)).
Proof.
  intros H. constructor; cbn [cfg_of_args at_verbosity lc_candidates lc_solutions lc_non_dom lc_oracle_calls
    lc_fence lc_routines lc_bound_points lc_cores ga_verbosity ga_candidates ga_solutions ga_non_dom
    ga_oracle_calls ga_cores ga_routines ga_bound_points]; try (now apply or_leb_mono); try (now auto).
  lia.
Qed.

(** ** End to end *)
Lemma log_ghistory_ext {I} (T : tot_impl I) al h : forall s : st I,
  exists evs, s_trace (grun T al h s) = evs ++ s_trace s /\ open_routines evs <> None.
Proof.
  induction h as [|x h IH]; intros s.
  - exists []. split; [reflexivity|discriminate].
  - assert (G : exists evs, s_trace (grun_step T al x s) = evs ++ s_trace s /\ open_routines evs <> None).
    { destruct x as [E opts|[E l| |]]; cbn [grun_step run_step].
      - pose proof (wp_run _ _ _ _ (log_boost T E opts s)) as H.
        destruct (alg_core_boost T E opts s) as [[b|y] s']; destruct H as (evs & H1 & H2); exists evs; [|auto].
        split; [exact H1|]. rewrite H2. discriminate.
      - pose proof (wp_run _ _ _ _ (log_solve al E l s)) as H.
        destruct (alg_solve al E l s) as [[[]|y] s']; destruct H as (evs & H1 & H2); exists evs; [destruct H2|]; auto.
      - exists []. split; [reflexivity|discriminate].
      - exists []. split; [reflexivity|discriminate]. }
    destruct G as (ev1 & E1 & O1). cbn [grun]. destruct (IH (grun_step T al x s)) as (ev2 & E2 & O2).
    exists (ev2 ++ ev1). split; [now rewrite E2, E1, app_assoc|].
    destruct (open_routines ev1) as [d|] eqn:E; [|congruence]. pose proof (open_app_ge ev2 ev1 d E) as K.
    destruct (open_routines ev2); [|congruence]. rewrite K. discriminate.
Qed.
