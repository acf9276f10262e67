(** * Continuing a stopped run *)
From Coq Require Import List Bool Arith Lia ZArith.
From Verif Require Import Base BaseLemmas Spec MTypes MKernel MPMinimal MLowerBounding MBiOptSat
  EncSpec Wp Sem Kern Yield PMin PMinTop LBTop Linsu BiTop Init ApiSpec Ext Blk Struct Book Api ApiThm ApiTop
  BookTop StopAt ResumeSpec.
Import ListNotations.

Lemma run_app {I} al h1 h2 (s : st I) : run al (h1 ++ h2) s = run al h2 (run al h1 s).
Proof. revert s. induction h1 as [|x h1 IH]; intros s; cbn [app run]; auto. Qed.

Lemma resumable_cons {I} al x h (s : st I) : resumable al (x :: h) s ->
  (forall E l, x = Solve E l -> stopped_at_point (fst (alg_solve al E l s))) /\ resumable al h (run_step al x s).
Proof.
  intros H. split.
  - intros E l ->. exact (H [] E l h eq_refl).
  - intros h1 E l h2 ->. exact (H (x :: h1) E l h2 eq_refl).
Qed.

Section Resume.
  Context {I : enc_impl} (SP : enc_spec I).
  Notation st := (st I).
  Variables (i : inst) (o : kopts).
  Hypothesis HI : inst_ok i.
  Hypothesis Hn : o_enum o = NoEnum.
  Let HE := enum_none i o Hn.

  Section From.
    Variable s0 : st.
    Hypothesis H0 : start SP i o s0.

    Lemma run_points al h : al <> ABiOptSat -> forall L (s : st), run_ok h -> resumable al h s ->
      G SP i o s0 al true L s -> exists L', G SP i o s0 al true L' (run al h s).
    Proof.
      intros Hal. induction h as [|x h IH]; intros L s Hok Hr HG; cbn [run]; [eauto|].
      inversion Hok as [|? ? Hx Hh]; subst. apply resumable_cons in Hr. destruct Hr as [R1 R2].
      destruct x as [E l| |].
      - destruct Hx as [HO Hl]. specialize (R1 E l eq_refl).
        pose proof (wp_run _ _ _ _ (call_ok SP i o HI HE s0 H0 al E l true L s HG HO Hl Hal)) as C.
        assert (Q : exists L', G SP i o s0 al true L' (run_step al (Solve E l) s)).
        { cbn [run_step]. destruct (alg_solve al E l s) as [[[]|y] s']; cbn [fst snd] in *.
          - destruct C as (news & Ln & _ & _ & C & _). eauto.
          - destruct C as (_ & news & Ln & _ & _ & _ & C). destruct (C (or_introl Hn)) as (_ & _ & C').
            exists (L ++ Ln). apply C'. destruct y as [[]| | |]; cbn in R1; try contradiction; [now left|now right]. }
        destruct Q as (L' & HG'). eapply IH; eauto.
      - eapply IH; [exact Hh|exact R2|]. apply G_logger, HG.
      - eapply IH; [exact Hh|exact R2|]. apply G_logger, HG.
    Qed.

    Lemma resume_done al h E l s' : al <> ABiOptSat -> run_ok h -> resumable al h s0 -> oracle_ok E -> lims_pos l ->
      alg_solve al E l (run al h s0) = (Done tt, s') ->
      exact_front i (s_front s') /\ sound_front i (s_front s').
    Proof.
      intros Hal Hok Hr HO Hl Hs.
      destruct (run_points al h Hal [] s0 Hok Hr (G_start SP i o s0 H0 al)) as (L & HG).
      pose proof (wp_run _ _ _ _ (call_ok SP i o HI HE s0 H0 al E l true L _ HG HO Hl Hal)) as C.
      rewrite Hs in C. destruct C as (news & Ln & _ & _ & C1 & _ & C2).
      split.
      - eapply (pts_exact SP i o HI s0 H0); [apply C1|apply C1|now apply C2].
      - eapply (pts_sound SP i o HI s0 H0); apply C1.
    Qed.

    Lemma hist_sound al h : al <> ABiOptSat -> run_ok h -> sound_front i (s_front (run al h s0)).
    Proof.
      intros Hal Hok. destruct (run_noenum SP i o HI HE s0 H0 al h Hn Hal [] s0 Hok) as (L & G).
      { eapply G_weak. apply (G_start SP i o s0 H0 al). }
      eapply (pts_sound SP i o HI s0 H0); [apply G|apply G].
    Qed.
    Lemma resume_done_bi h E l s' : bi_start i s0 -> run_ok h -> oracle_ok E -> lims_pos l ->
      alg_solve ABiOptSat E l (run ABiOptSat h s0) = (Done tt, s') ->
      (forall c, In c (map nd_costs (s_front s')) <-> pareto_optimal (in_cls i) (in_objs i) c) /\
      Forall (sound_point i) (s_front s').
    Proof.
      intros Hb Hok HO Hl Hs.
      destruct (GB_run SP i o HI s0 h H0 Hb Hn s0 Hok (GB_start SP i o s0 H0)) as [G1 G2 G3 _ (L & D & G4 & GD & G5)].
      pose proof (wp_run _ _ _ _ (bi_call SP i o HI HE s0 H0 D E l _ Hb G1 G2 G3 G5 HO Hl)) as C.
      cbn [alg_solve] in Hs. rewrite Hs in C.
      destruct C as (_ & _ & _ & news & Ln & C1 & C2 & _ & C3 & _).
      assert (P : Forall2 (pt_ok (Feas i) (p_objs (s_prob s0)) (vm_max_orig (in_vm i))) (s_front s') (L ++ Ln)).
      { rewrite C1. apply Forall2_app_inv_len; [exact G4|]. exact (good_weak_pts i o s0 _ _ C2). }
      assert (Hc : complete i s0 (L ++ Ln)).
      { eapply all_covered_complete; [|exact P]. intros a Ha. destruct (C3 a Ha) as (d & Hd & Hv). exists d.
        split; [|exact Hv]. apply in_app_or in Hd. apply in_or_app. destruct Hd as [Hd|Hd]; [left; now apply GD|now right]. }
      assert (Hp : Forall (sound_point i) (s_front s')).
      { clear - P HI H0. induction P; constructor; [eapply (pt_sound SP i o HI s0 H0); eauto|assumption]. }
      split; [|exact Hp]. intros c. split.
      - intros Hin. apply in_map_iff in Hin. destruct Hin as (nd & <- & Hin). rewrite Forall_forall in Hp.
        apply (Hp nd Hin).
      - intros Hq. pose proof Hq as [(a & Ha & <-) _].
        apply (opt_iff SP i o HI s0 H0 a Ha) in Hq. apply Hc in Hq.
        clear - P Hq HI H0. induction P as [|nd c f M Hp P IH]; [destruct Hq|]. cbn.
        destruct Hq as [->|Hq]; [left|right; auto].
        destruct (pt_costs SP i o HI s0 H0 _ _ Hp) as (b & _ & Hb & ->). now apply (costs_ic SP i o HI s0 H0).
    Qed.
  End From.

  (** Every call from [s0] on ends properly *)
  Definition exits_ok al (s0 : st) : Prop := forall h E l, run_ok h -> oracle_ok E -> lims_pos l ->
    match fst (alg_solve al E l (run al h s0)) with Done _ => True | Exit x => xok E (iter_bound i) x end.
  Lemma new_exits al s0 : alg_new al i o = Some s0 -> exits_ok al s0.
  Proof. intros Hnew h E l. now apply (top_exits SP i o HI). Qed.

  (** A call of [solve] on a reachable state in an undisturbed environment *)
  Lemma calm_call al s0 h E l : exits_ok al s0 -> run_ok h -> oracle_ok E -> lims_pos l -> calm E ->
    iter_bound i < ev_fuel E -> l_candidates l = None -> l_oracle_calls l = None ->
    exists s', alg_solve al E l (run al h s0) = (Done tt, s') \/
      exists x, at_point x /\ alg_solve (I := I) al E l (run al h s0) = (Exit x, s').
  Proof.
    intros Hnew Hok HO Hl HC HF L1 L2.
    pose proof (Hnew h E l Hok HO Hl) as T.
    pose proof (wp_run _ _ _ _ (pts_solve SP E HC al l (run al h s0) L1 L2)) as C.
    destruct (alg_solve al E l (run al h s0)) as [[[]|x] s']; exists s'; [now left|right]. exists x.
    split; [|reflexivity]. destruct C as [C|C]; [|exact C]. cbn [fst] in T. exfalso.
    destruct T as [T|[-> T]]; [|lia]. destruct x as [t|[]| |]; cbn in *; tauto.
  Qed.
  Lemma calm_finishes al s0 h E : exits_ok al s0 -> run_ok h -> oracle_ok E -> calm E ->
    iter_bound i < ev_fuel E -> exists s', alg_solve (I := I) al E lims_none (run al h s0) = (Done tt, s').
  Proof.
    intros Hnew Hok HO HC HF. assert (Hl : lims_pos lims_none) by (repeat split; discriminate).
    pose proof (Hnew h E lims_none Hok HO Hl) as T.
    pose proof (wp_run _ _ _ _ (calm_solve SP E HC al (run al h s0))) as C.
    destruct (alg_solve al E lims_none (run al h s0)) as [[[]|x] s']; [eauto|]. exfalso. cbn [fst] in T.
    unfold calmX in C. destruct T as [T|[-> T]]; [|lia]. destruct x as [t|[]| |]; cbn in *; tauto.
  Qed.

  (** Calls for [k] points each *)
  Section Batches.
    Variables (al : alg) (E : environ) (k : nat).
    Hypothesis Hal : al <> ABiOptSat.
    Hypothesis HO : oracle_ok E.
    Hypothesis HC : calm E.
    Hypothesis HF : iter_bound i < ev_fuel E.
    Hypothesis Hk : 0 < k.
    Let l := mkLims (Some k) None None None.
    Lemma batch_lims : lims_pos l.
    Proof. unfold lims_pos, l. cbn. repeat split; try discriminate. intros [= ->]. lia. Qed.
    Lemma batch_ok n : run_ok (repeat (Solve E l) n).
    Proof. apply Forall_forall. intros x Hx. apply repeat_spec in Hx. subst x. split; [exact HO|exact batch_lims]. Qed.
    Lemma batch_call s0 n : exits_ok al s0 ->
      let s := run al (repeat (Solve E l) n) s0 in
      exists s', alg_solve (I := I) al E l s = (Done tt, s') \/
        alg_solve al E l s = (Exit (ETerm PPLimit), s') /\ length (s_front s') = length (s_front s) + k.
    Proof.
      intros Hnew s.
      destruct (calm_call al s0 _ E l Hnew (batch_ok n) HO batch_lims HC HF eq_refl eq_refl) as (s' & D).
      exists s'. destruct D as [D|(x & Hx & D)]; [now left|right]. fold s in D.
      pose proof (limits_solve SP E al l s batch_lims) as (_ & B & _). cbv zeta in B. rewrite D in B. cbn [fst snd] in B.
      pose proof (grow_solve SP E al l s batch_lims) as (_ & _ & news & j & G1 & G2 & _). cbv zeta in G1, G2.
      rewrite D in G1, G2. cbn [snd] in G1, G2.
      destruct Hx as [-> | ->].
      - split; [exact D|]. destruct (B PPLimit eq_refl) as (k' & B1 & B2); [discriminate|]. cbn in B1, B2.
        injection B1 as <-. rewrite G1, app_length. lia.
      - destruct (B SolsLimit eq_refl) as (k' & B1 & _); [discriminate|]. discriminate B1.
    Qed.
    Definition batch_state (s0 : st) (n : nat) : st := run al (repeat (Solve E l) n) s0.
    Lemma batch_next s0 n : batch_state s0 (S n) = snd (alg_solve al E l (batch_state s0 n)).
    Proof.
      unfold batch_state. replace (S n) with (n + 1) by lia. rewrite repeat_app, run_app. reflexivity.
    Qed.
    Lemma batch_prefix s0 n : start SP i o s0 -> exits_ok al s0 ->
      (exists m s', m < n /\ alg_solve al E l (batch_state s0 m) = (Done tt, s') /\
         forall j, j <= m -> length (s_front (batch_state s0 j)) = j * k /\
           (j < m -> fst (alg_solve al E l (batch_state s0 j)) = Exit (ETerm PPLimit))) \/
      (forall j, j <= n -> length (s_front (batch_state s0 j)) = j * k /\
           (j < n -> fst (alg_solve al E l (batch_state s0 j)) = Exit (ETerm PPLimit))).
    Proof.
      intros H0 Hnew. induction n as [|n [(m & s' & Hm & IH)|IH]].
      - right. intros j Hj. replace j with 0 by lia. cbn [repeat batch_state].
        split; [|lia]. unfold batch_state. cbn [repeat run].
        rewrite (sa_front _ _ _ _ H0). reflexivity.
      - left. exists m, s'. split; [lia|exact IH].
      - destruct (batch_call s0 n Hnew) as (s' & [D|[D DL]]); fold (batch_state s0 n) in *.
        + left. exists n, s'. split; [lia|]. split; [exact D|exact IH].
        + right. intros j Hj. destruct (Nat.eq_dec j (S n)) as [->|Hne].
          * split; [|lia]. rewrite batch_next, D. cbn [snd]. rewrite DL, (proj1 (IH n (Nat.le_refl n))). cbn. lia.
          * destruct (Nat.eq_dec j n) as [->|Hne'].
            -- split; [apply IH; lia|]. intros _. now rewrite D.
            -- split; [apply IH; lia|]. intros _. apply IH; lia.
    Qed.
    Lemma batches s0 : start SP i o s0 -> exits_ok al s0 ->
      exists n s', alg_solve al E l (batch_state s0 n) = (Done tt, s') /\
        exact_front i (s_front s') /\ sound_front i (s_front s') /\
        forall j, j <= n -> length (s_front (batch_state s0 j)) = j * k /\
           (j < n -> fst (alg_solve al E l (batch_state s0 j)) = Exit (ETerm PPLimit)).
    Proof.
      intros H0 Hnew.
      destruct (calm_finishes al s0 [] E Hnew (Forall_nil _) HO HC HF) as (sf & Hf).
      assert (Hl : lims_pos lims_none) by (repeat split; discriminate).
      destruct (resume_done s0 H0 al [] E lims_none sf Hal (Forall_nil _)) as [[Nf Xf] _]; auto.
      { intros h1 E' l' h2 Eh. destruct h1; discriminate Eh. }
      destruct (batch_prefix s0 (S (length (s_front sf))) H0 Hnew) as [(m & s' & _ & D & IH)|IH].
      - exists m, s'. split; [exact D|].
        destruct (resume_done s0 H0 al (repeat (Solve E l) m) E l s' Hal (batch_ok m)) as [X1 X2]; auto using batch_lims.
        intros h1 E' l' h2 Eh.
        assert (Hlen : length h1 < m).
        { rewrite <- (repeat_length (Solve E l) m), Eh, app_length. cbn. lia. }
        assert (Hin : forall x, In x (h1 ++ Solve E' l' :: h2) -> x = Solve E l).
        { intros x Hx. rewrite <- Eh in Hx. now apply repeat_spec in Hx. }
        assert (Ex : Solve E' l' = Solve E l) by (apply Hin, in_or_app; right; now left).
        injection Ex as -> ->.
        assert (Eh1 : h1 = repeat (Solve E l) (length h1)).
        { clear - Hin. induction h1 as [|x h1 IH]; [reflexivity|]. cbn. f_equal; [apply Hin; now left|].
          apply IH. intros y Hy. apply Hin. now right. }
        destruct (IH (length h1)) as [_ IH']; [lia|]. specialize (IH' Hlen). unfold batch_state in IH'.
        rewrite <- Eh1 in IH'. rewrite IH'. exact Logic.I.
      - exfalso. destruct (IH (S (length (s_front sf))) (Nat.le_refl _)) as [IL _].
        pose proof (hist_sound s0 H0 al (repeat (Solve E l) (S (length (s_front sf)))) Hal (batch_ok _)) as [ND SF].
        fold (batch_state s0 (S (length (s_front sf)))) in ND, SF.
        assert (Hle : length (map nd_costs (s_front (batch_state s0 (S (length (s_front sf)))))) <= length (map nd_costs (s_front sf))).
        { apply NoDup_incl_length; [exact ND|]. intros c Hc. apply Xf. apply in_map_iff in Hc.
          destruct Hc as (p & <- & Hp). rewrite Forall_forall in SF. apply (SF p Hp). }
        rewrite !map_length, IL in Hle. nia.
    Qed.
  End Batches.
End Resume.
