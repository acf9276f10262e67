(** * Stopped runs and runs with a logger, with core boosting and inprocessing (C88)

    As PropSync.v, for histories that mix solving, core boosting and inprocessing. *)
From Coq Require Import List Bool Arith Lia ZArith.
From Verif Require Import Base BaseLemmas Spec MTypes MKernel MOll MInpro EncSpec ApiSpec Inst ExInst TotInst Struct SyncSpec SyncThm SyncOll PropSync.
Import ListNotations.

Section Calls.
  Context {I : enc_impl} {T : tot_impl I}.
  Notation st := (st I).
  Definition noF (P : Prop) : False -> P := fun x => match x with end.

  Lemma call_done al (c c0 : call T) (s s0 s' : st) r : calmer c c0 -> same_solver s s0 -> limits_le (s_lims s) (s_lims s0) ->
    do_call al c s = (r, s') -> finished r ->
    exists s0', do_call al c0 s0 = (r, s0') /\ same_solver s' s0' /\ limits_le (s_lims s') (s_lims s0').
  Proof.
    intros Hc Hs Hl Hd Hf. destruct Hc as [E E0 l l0 D Hll|E E0 opts D|E E0 re ip D]; cbn [do_call] in *.
    - destruct (alg_solve al E l s) as [x t] eqn:e. injection Hd as <- <-. destruct x as [[]|x]; [|destruct Hf].
      rewrite solve_main in e.
      pose proof (proj1 (r_main (I := I) E E0 D False (noF _) (noF _) (noF _) (noF _) al) _ _ (start_sim False l l0 s s0 Hs Hll (noF _))) as R.
      rewrite e in R. cbn [step_ok] in R. destruct R as (s1 & H1 & H2 & H3 & _). exists s1. rewrite solve_main, H1. auto.
    - destruct (alg_core_boost T E opts s) as [x t] eqn:e. injection Hd as <- <-. destruct x as [b|x]; [|destruct Hf].
      pose proof (proj1 (o_boost T E E0 D False (noF _) (noF _) (noF _) (noF _) opts) s s0 (conj Hs (conj Hl (noF _)))) as R.
      rewrite e in R. cbn [step_ok] in R. destruct R as (s1 & H1 & H2 & H3 & _). exists s1. rewrite H1. auto.
    - destruct (alg_core_boost_inpro T E re al ip s) as [x t] eqn:e. injection Hd as <- <-. destruct x as [b|x]; [|destruct Hf].
      pose proof (proj1 (o_inpro T E E0 D False (noF _) (noF _) (noF _) (noF _) re al ip) s s0 (conj Hs (conj Hl (noF _)))) as R.
      rewrite e in R. cbn [step_ok] in R. destruct R as (s1 & H1 & H2 & H3 & _). exists s1. rewrite H1. auto.
  Qed.
  Lemma call_begins al (c c0 : call T) (s s0 s0' : st) r0 : calmer c c0 -> same_solver s s0 -> limits_le (s_lims s) (s_lims s0) ->
    do_call al c0 s0 = (r0, s0') -> finished r0 -> begins (s_front (snd (do_call al c s))) (s_front s0').
  Proof.
    intros Hc Hs Hl Hd Hf. destruct Hc as [E E0 l l0 D Hll|E E0 opts D|E E0 re ip D]; cbn [do_call] in *.
    - destruct (alg_solve al E0 l0 s0) as [x t] eqn:e. injection Hd as <- <-. destruct x as [[]|x]; [|destruct Hf].
      destruct (alg_solve al E l s) as [y u] eqn:e1. cbn [snd]. change u with (snd (y, u)). rewrite <- e1.
      exact (C88_stopped_begins I al E E0 l l0 s s0 t D Hll Hs e).
    - destruct (alg_core_boost T E0 opts s0) as [x t] eqn:e. injection Hd as <- <-. destruct x as [b|x]; [|destruct Hf].
      pose proof (proj1 (o_boost T E E0 D False (noF _) (noF _) (noF _) (noF _) opts) s s0 (conj Hs (conj Hl (noF _)))) as R.
      rewrite e in R. destruct (alg_core_boost T E opts s) as [[a|y] u]; cbn [step_ok snd] in *.
      + destruct R as (s1 & H1 & H2 & _). injection H1 as <- <-. rewrite (ss_front _ _ H2). apply begins_refl.
      + exact (proj2 R _ _ eq_refl).
    - destruct (alg_core_boost_inpro T E0 re al ip s0) as [x t] eqn:e. injection Hd as <- <-. destruct x as [b|x]; [|destruct Hf].
      pose proof (proj1 (o_inpro T E E0 D False (noF _) (noF _) (noF _) (noF _) re al ip) s s0 (conj Hs (conj Hl (noF _)))) as R.
      rewrite e in R. destruct (alg_core_boost_inpro T E re al ip s) as [[a|y] u]; cbn [step_ok snd] in *.
      + destruct R as (s1 & H1 & H2 & _). injection H1 as <- <-. rewrite (ss_front _ _ H2). apply begins_refl.
      + exact (proj2 R _ _ eq_refl).
  Qed.
  Lemma call_lock al (c : call T) (s s0 : st) : (forall n, ev_logfail (call_env c) n = false) -> same_solver s s0 -> s_lims s = s_lims s0 ->
    fst (do_call al c s) = fst (do_call al c s0) /\ same_solver (snd (do_call al c s)) (snd (do_call al c s0)) /\
    s_lims (snd (do_call al c s)) = s_lims (snd (do_call al c s0)).
  Proof.
    intros Hn Hs Hl.
    assert (U : sim True s s0).
    { split; [exact Hs|]. split; [rewrite Hl; apply limits_le_refl|auto]. }
    assert (W : forall A (c c0 : M I A) (f : res A -> res unit + res bool) (s s0 : st), rel True c c0 -> sim True s s0 ->
      fst (let '(r, t) := c s in (f r, t)) = fst (let '(r, t) := c0 s0 in (f r, t)) /\
      same_solver (snd (let '(r, t) := c s in (f r, t))) (snd (let '(r, t) := c0 s0 in (f r, t))) /\
      s_lims (snd (let '(r, t) := c s in (f r, t))) = s_lims (snd (let '(r, t) := c0 s0 in (f r, t)))).
    { intros A k k0 f t t0 R H. pose proof (proj1 R t t0 H) as Q. destruct (k t) as [[a|x] t1]; cbn [step_ok] in Q.
      - destruct Q as (t2 & -> & H2 & _ & H3). cbn [fst snd]. auto.
      - destruct Q as [Q _]. destruct (Q Logic.I) as (t2 & -> & H2 & _ & H3). cbn [fst snd]. auto. }
    destruct c as [E l|E opts|E re ip]; cbn [do_call call_env] in *.
    - pose proof (W unit (alg_main al E) (alg_main al E) inl _ _
        (r_main (I := I) E E (disturbs_self E Hn) True (fun _ _ => eq_refl) (fun _ _ => eq_refl) (fun _ => Hn) (fun _ => eq_refl) al)
        (start_sim True l l s s0 Hs (limits_le_refl l) (fun _ => eq_refl))) as Q.
      rewrite !solve_main. exact Q.
    - exact (W bool _ _ inr s s0 (o_boost T E E (disturbs_self E Hn) True (fun _ _ => eq_refl) (fun _ _ => eq_refl) (fun _ => Hn) (fun _ => eq_refl) opts) U).
    - exact (W bool _ _ inr s s0 (o_inpro T E E (disturbs_self E Hn) True (fun _ _ => eq_refl) (fun _ _ => eq_refl) (fun _ => Hn) (fun _ => eq_refl) re al ip) U).
  Qed.
End Calls.

(** what was reported when the first disturbed call stops is the beginning of what the calmer
    history reports at this point, and before that both return the same *)
Theorem C88_calls_begin : forall I (T : tot_impl I) al (cs : list (call T)) c cs0 c0 (s s' s0' : st I) rs r rs0 r0,
  Forall2 calmer cs cs0 -> calmer c c0 ->
  outcomes al (map HCall (cs ++ [c])) s = (rs ++ [r], s') -> Forall finished rs ->
  outcomes al (map HCall (cs0 ++ [c0])) s = (rs0 ++ [r0], s0') -> finished r0 ->
  rs0 = rs /\ begins (s_front s') (s_front s0').
Proof.
  intros I T al cs c cs0 c0 s s' s0' rs r rs0 r0 Hcs Hc H Hrs H0 Hr0.
  assert (G : forall t t0, same_solver t t0 -> limits_le (s_lims t) (s_lims t0) ->
    outcomes al (map HCall (cs ++ [c])) t = (rs ++ [r], s') ->
    outcomes al (map HCall (cs0 ++ [c0])) t0 = (rs0 ++ [r0], s0') -> rs0 = rs /\ begins (s_front s') (s_front s0')).
  2:{ apply (G s s (same_refl s) (limits_le_refl _) H H0). }
  clear H H0. revert rs rs0 Hrs. induction Hcs as [|x x0 cs cs0 Hx Hcs IH]; intros rs rs0 Hrs t t0 Ht Hl H H0.
  - cbn [app map outcomes] in H, H0.
    destruct (do_call al c t) as [y u] eqn:e. destruct (do_call al c0 t0) as [y0 u0] eqn:e0.
    injection H as H1 H2. injection H0 as H3 H4. subst u u0.
    assert (rs = []) as -> by (destruct rs as [|? [|]]; [reflexivity|discriminate|discriminate]).
    assert (rs0 = []) as -> by (destruct rs0 as [|? [|]]; [reflexivity|discriminate|discriminate]).
    injection H1 as ->. injection H3 as ->. split; [reflexivity|].
    change s' with (snd (r, s')). rewrite <- e. eapply call_begins; eassumption.
  - cbn [app map outcomes] in H, H0.
    destruct (do_call al x t) as [y u] eqn:e. destruct (outcomes al (map HCall (cs ++ [c])) u) as [ys u'] eqn:e'.
    destruct (do_call al x0 t0) as [y0 u0] eqn:e0. destruct (outcomes al (map HCall (cs0 ++ [c0])) u0) as [ys0 u0'] eqn:e0'.
    injection H as H1 H2. injection H0 as H3 H4. subst u' u0'.
    assert (NE : forall al (k : list (hstep T)) b (t : st I) ys t', outcomes al (k ++ [HCall b]) t = (ys, t') -> ys <> []).
    { clear. intros al k b. induction k as [|[c| |] k IH]; intros t ys t' H; cbn [app outcomes] in H.
      - destruct (do_call al b t). injection H as <- <-. discriminate.
      - destruct (do_call al c t) as [r1 t1]. destruct (outcomes al (k ++ [HCall b]) t1). injection H as <- <-. discriminate.
      - eapply IH; exact H.
      - eapply IH; exact H. }
    assert (N1 : ys <> []) by (eapply (NE al (map HCall cs) c u ys s'); rewrite map_app in e'; exact e').
    assert (N2 : ys0 <> []) by (eapply (NE al (map HCall cs0) c0 u0 ys0 s0'); rewrite map_app in e0'; exact e0').
    destruct rs as [|z rs]; [cbn [app] in H1; injection H1 as -> ->; now destruct N1|].
    destruct rs0 as [|z0 rs0]; [cbn [app] in H3; injection H3 as -> ->; now destruct N2|].
    cbn [app] in H1, H3. injection H1 as -> ->. injection H3 as -> ->. inversion_clear Hrs as [|? ? Hz Hrs'].
    destruct (call_done al x x0 t t0 u z Hx Ht Hl e Hz) as (u1 & Hu1 & Hu2 & Hu3). rewrite e0 in Hu1. injection Hu1 as -> ->.
    destruct (IH rs rs0 Hrs' u u1 Hu2 Hu3 e' e0') as [-> Hb]. auto.
Qed.
Print Assumptions C88_calls_begin.

(** if all calls return in spite of the disturbances, the calmer calls return the same and leave the
    same solver *)
Theorem C88_calls_finished : forall I (T : tot_impl I) al (cs : list (call T)) cs0 (s s' : st I) rs,
  Forall2 calmer cs cs0 -> outcomes al (map HCall cs) s = (rs, s') -> Forall finished rs ->
  exists s0', outcomes al (map HCall cs0) s = (rs, s0') /\ same_solver s' s0'.
Proof.
  intros I T al cs cs0 s s' rs Hcs H Hrs.
  assert (G : forall t t0, same_solver t t0 -> limits_le (s_lims t) (s_lims t0) -> outcomes al (map HCall cs) t = (rs, s') ->
    exists s0', outcomes al (map HCall cs0) t0 = (rs, s0') /\ same_solver s' s0').
  2:{ exact (G s s (same_refl s) (limits_le_refl _) H). }
  clear s H. revert rs Hrs. induction Hcs as [|x x0 cs cs0 Hx Hcs IH]; intros rs Hrs t t0 Ht Hl H; cbn [map outcomes] in *.
  - injection H as <- <-. eauto.
  - destruct (do_call al x t) as [y u] eqn:e. destruct (outcomes al (map HCall cs) u) as [ys u'] eqn:e'.
    injection H as <- ->. inversion_clear Hrs as [|? ? Hz Hrs'].
    destruct (call_done al x x0 t t0 u y Hx Ht Hl e Hz) as (u1 & Hu1 & Hu2 & Hu3).
    destruct (IH ys Hrs' u u1 Hu2 Hu3 e') as (s0' & H1 & H2). exists s0'. rewrite Hu1, H1. auto.
Qed.
Print Assumptions C88_calls_finished.

(** attaching and detaching loggers anywhere in a history of solving, core boosting and inprocessing
    changes neither what the calls return nor the solver *)
Theorem C88_calls_logger : forall I (T : tot_impl I) al (h : list (hstep T)) (s : st I),
  Forall (fun x => match x with HCall c => forall n, ev_logfail (call_env c) n = false | _ => True end) h ->
  fst (outcomes al h s) = fst (outcomes al (filter is_call h) s) /\
  same_solver (snd (outcomes al h s)) (snd (outcomes al (filter is_call h) s)).
Proof.
  intros I T al h s Hf.
  assert (G : forall s s0 : st I, same_solver s s0 -> s_lims s = s_lims s0 ->
    fst (outcomes al h s) = fst (outcomes al (filter is_call h) s0) /\
    same_solver (snd (outcomes al h s)) (snd (outcomes al (filter is_call h) s0))).
  2:{ apply G; [apply same_refl|reflexivity]. }
  clear s. induction Hf as [|x h Hx Hf IH]; intros s s0 Hs Hl; [cbn; auto|].
  destruct x as [c| |]; cbn [filter is_call outcomes].
  - destruct (call_lock al c s s0 Hx Hs Hl) as (H1 & H2 & H3).
    destruct (do_call al c s) as [r t]. destruct (do_call al c s0) as [r0 t0]. cbn [fst snd] in *. subst r0.
    destruct (IH t t0 H2 H3) as [H4 H5]. destruct (outcomes al h t) as [rs u]. destruct (outcomes al (filter is_call h) t0) as [rs0 u0].
    cbn [fst snd] in *. subst rs0. auto.
  - apply IH; [|exact Hl]. destruct Hs; constructor; assumption.
  - apply IH; [|exact Hl]. destruct Hs; constructor; assumption.
Qed.
Print Assumptions C88_calls_logger.

(** ** Examples: core boosting, then solving, with a logger that fails and with an interrupt *)
Definition sc_run (al : alg) (h : list (hstep TI)) : option (list (res unit + res bool) * list (list Z * Z)) :=
  match alg_new (I := GI) al ex_inst (ex_opts (Solutions None)) with
  | Some s => let '(rs, s') := outcomes al h s in
      Some (rs, map (fun nd => (nd_costs nd, Z.of_nat (length (nd_sols nd)))) (s_front s'))
  | None => None
  end.
Example C88_example_calls :
  (sc_run APMinimal (map HCall [CBoost (env true 300) (mkCb false false); CSolve (cut_env 28) lims_none]),
   sc_run APMinimal (map HCall [CBoost (cut_env 3) (mkCb false false)]),
   sc_run APMinimal [HAttach; HCall (CBoost (env true 300) (mkCb false false)); HDetach; HCall (CSolve (env true 300) lims_none)],
   sc_run APMinimal (map HCall [CBoost (env true 300) (mkCb false false); CSolve (env true 300) lims_none])) =
  (Some ([inr (Done true); inl (Exit (ETerm Interrupted))], [([3; 0], 3); ([1; 1], 1)]),
   Some ([inr (Exit (ETerm Interrupted))], []),
   Some ([inr (Done true); inl (Done tt)], [([3; 0], 3); ([1; 1], 1); ([5; (-1)], 2)]),
   Some ([inr (Done true); inl (Done tt)], [([3; 0], 3); ([1; 1], 1); ([5; (-1)], 2)]))%Z.
Proof. vm_compute. reflexivity. Qed.
