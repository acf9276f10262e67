(** * Correctness of a full iteration of P-minimal (shared with LowerBounding) and of
      P-minimal *)
From Coq Require Import List Bool Arith Lia ZArith.
From Verif Require Import Base BaseLemmas MTypes MKernel MPMinimal EncSpec Wp Sem Kern Yield PMin.
From Verif Require StopAt.
Import ListNotations.

(** ** Cost vectors that can still be found *)
Fixpoint grid (ts : list nat) : list (list nat) :=
  match ts with
  | [] => [[]]
  | t :: r => flat_map (fun x => map (cons x) (grid r)) (seq 0 (S t))
  end.
Lemma grid_in ts g : vle g ts -> In g (grid ts).
Proof.
  unfold vle. revert g. induction ts as [|t ts IH]; intros g H; inversion H; subst; cbn [grid].
  - now left.
  - apply in_flat_map. exists x. split; [apply in_seq; lia|]. apply in_map. auto.
Qed.
Definition vleb (c d : list nat) : bool := if vle_dec c d then true else false.
Lemma vleb_true c d : vleb c d = true <-> vle c d.
Proof. unfold vleb. destruct (vle_dec c d); split; congruence. Qed.
Definition unblocked (D : list (list nat)) (g : list nat) : bool :=
  negb (existsb (fun d => vleb d g) D).
Definition unb (ts : list nat) (D : list (list nat)) : nat := length (filter (unblocked D) (grid ts)).
Lemma unblocked_iff D g : unblocked D g = true <-> forall d, In d D -> ~ vle d g.
Proof.
  unfold unblocked. rewrite negb_true_iff. split.
  - intros H d Hd Hv. assert (Ht : existsb (fun d => vleb d g) D = true).
    { apply existsb_exists. exists d. split; [exact Hd|]. now apply vleb_true. }
    congruence.
  - intros H. destruct (existsb _ D) eqn:e; [|reflexivity]. apply existsb_exists in e.
    destruct e as (d & Hd & Hv). apply vleb_true in Hv. exfalso. eapply H; eauto.
Qed.
Lemma filter_le {A} (f g : A -> bool) l : (forall x, g x = true -> f x = true) ->
  length (filter g l) <= length (filter f l).
Proof.
  intros H. induction l as [|x l IH]; cbn; [lia|].
  destruct (g x) eqn:e; [rewrite (H x e); cbn; lia|]. destruct (f x); cbn; lia.
Qed.
Lemma filter_lt {A} (f g : A -> bool) l x : (forall x, g x = true -> f x = true) ->
  In x l -> f x = true -> g x = false -> length (filter g l) < length (filter f l).
Proof.
  intros H. induction l as [|y l IH]; intros Hin Hf Hg; [destruct Hin|]. cbn [filter].
  destruct Hin as [->|Hin].
  - rewrite Hf, Hg. cbn. pose proof (filter_le f g l H). lia.
  - specialize (IH Hin Hf Hg). destruct (g y) eqn:e; [rewrite (H y e); cbn; lia|].
    destruct (f y); cbn; lia.
Qed.
Lemma unb_lt ts D ch c : vle c ts -> (forall d, In d D -> ~ vle d c) -> In c ch ->
  unb ts (D ++ ch) < unb ts D.
Proof.
  intros Hc Hd Hin. unfold unb. apply filter_lt with (x := c).
  - intros g. rewrite !unblocked_iff. intros H d Hdd. apply H, in_or_app. now left.
  - now apply grid_in.
  - now apply unblocked_iff.
  - apply not_true_is_false. rewrite unblocked_iff. intros H.
    apply (H c); [apply in_or_app; now right|apply vle_refl].
Qed.
Lemma unb_le ts D : unb ts D <= length (grid ts).
Proof.
  unfold unb. induction (grid ts) as [|x l IH]; cbn; [lia|]. destruct (unblocked D x); cbn; lia.
Qed.

Definition totals (os : list objective) : list nat := map (fun o => wtotal (obj_iter o)) os.
Lemma ic_totals os a : vle (ic os a) (totals os).
Proof.
  unfold ic, totals. induction os as [|o os IH]; constructor; [|exact IH]. apply wsum_le_total.
Qed.

Section Top.
  Context {I : enc_impl} (SP : enc_spec I).
  Notation M := (M I).
  Notation st := (st I).
  Variable E : environ.
  Hypothesis HO : oracle_ok E.
  Variable F : asg -> Prop.
  Variable B : nat.

  Notation K := (K SP F).
  Notation keep := (keep SP).
  Notation adv := (adv SP).
  Notation Stat := (Stat F B).

  (** the costs [L] of reported points are covered by the blocked vectors [D], and vice versa *)
  Definition covers (D L : list (list nat)) : Prop := forall c, In c L -> exists d, In d D /\ vle d c.

  (** ** [minimize_and_yield] *)
  Section Step.
    Variables (D : list (list nat)) (s0 : st).
    Let os := p_objs (s_prob s0).
    Let mo := vm_max_orig (p_vm (s_prob s0)).
    Let me := vm_max_enc (p_vm (s_prob s0)).
    Let o := s_opts s0.
    Hypothesis HS : Stat os mo o.

    Definition MQ (s : st) : Prop :=
      exists ch c nd, K (bk F os (D ++ ch)) (fun _ => True) s /\
        s_front s = s_front s0 ++ [nd] /\ pt_ok F os mo nd c /\ In c ch /\
        (forall d, In d ch -> vle c d) /\ (forall d, In d D -> ~ vle d c) /\
        adv s0 s /\ enum_post o os F c (nd_sols nd).
    Definition MX (x : exit) (s : st) : Prop :=
      xok E B x /\ adv s0 s /\
      exists news Ln, s_front s = s_front s0 ++ news /\ Forall2 (pt_ok F os mo) news Ln /\
        NoDup Ln /\ (forall c d, In c Ln -> In d D -> ~ vle d c) /\
        (o_enum o = NoEnum -> exists D', incl D D' /\ incl Ln D' /\
           Inv SP F (s_prob s) (bk F os D') (fun _ => True) /\
           (news = [] \/ covers (D ++ Ln) D')).

    Lemma MX_front x s : xok E B x -> keep s0 s ->
      (o_enum o = NoEnum -> exists D', incl D D' /\ Inv SP F (s_prob s) (bk F os D') (fun _ => True)) ->
      MX x s.
    Proof.
      intros Hx Hk H. split; [exact Hx|]. split; [apply Hk|]. exists [], [].
      split; [rewrite app_nil_r; apply Hk|]. split; [constructor|]. split; [constructor|].
      split; [intros ? ? []|]. intros Ho. destruct (H Ho) as (D' & H1 & H2). exists D'.
      split; [exact H1|]. split; [intros ? []|]. split; [exact H2|now left].
    Qed.

    Lemma minimize_and_yield_ok m0 : K (bk F os D) (fun _ => True) s0 -> s_ora s0 = OModel m0 ->
      sat m0 (p_cls (s_prob s0)) ->
      wp (minimize_and_yield E []) (fun _ s => MQ s) MX s0.
    Proof.
      intros HK Hora Hm0. unfold minimize_and_yield.
      assert (Hbk : bk F os D m0) by (apply (inv_sound _ _ _ _ _ (k_inv _ _ _ _ _ HK)), Hm0).
      assert (HMX : forall x s, good_exit x -> quiet s0 s -> MX x s).
      { intros x s G Q. apply MX_front; [now apply good_xok|apply quiet_keep, Q|].
        intros _. exists D. split; [apply incl_refl|]. rewrite (qt_prob _ _ Q). apply HK. }
      apply wp_bind. eapply wp_get_solution_and_internal_costs; [exact HK|exact Hora|].
      intros sol Hrep. fold os. fold me in Hrep. apply wp_bind, wp_log_candidate; [apply HK| | |].
      { rewrite ic_length. symmetry. apply HK. }
      2:{ intros; apply HMX; auto. }
      intros s1 Q1 L1. apply wp_bind, wp_check_termination; [exact L1| |].
      2:{ intros x s2 Q2 G2. apply HMX; auto. eapply quiet_trans; eauto. }
      intros s2 Q2 L2. apply wp_bind, wp_ret, wp_bind.
      pose proof (quiet_trans _ _ _ Q1 Q2) as Q02.
      eapply wp_mono; [eapply (p_minimization_ok SP E HO F B D s0 HS sol m0 s2)| |].
      - apply quiet_keep, Q02.
      - exact Hrep.
      - exact Hbk.
      - apply (K_quiet _ _ _ _ _ _ Q02 L2 HK).
      - intros [[cs sol'] sw] s3 (Hk3 & m & ch & Hrep' & Hcs & Hm & Hch & Hmin & K3 & Hsw & Hcase).
        fold os in Hcs, Hm, Hch, Hmin, K3, Hcase. fold me in Hrep'. fold o in Hcase.

        assert (Eos3 : p_objs (s_prob s3) = os) by apply (adv_objs _ _ _ (kp_adv _ _ _ Hk3)).
        apply wp_bind. eapply wp_enforce_dominating; [exact K3|apply Hm|rewrite Eos3; symmetry; exact Hcs|].
        intros ls s4 K4 Hk34 L4 S4 C4.
        pose proof (keep_trans _ _ _ _ Hk3 Hk34) as Hk4. pose proof (kp_adv _ _ _ Hk4) as Ha4.
        assert (Eos4 : p_objs (s_prob s4) = os) by apply (adv_objs _ _ _ Ha4).
        rewrite Eos4 in S4, C4.
        assert (Hunb : forall d, In d D -> ~ vle d cs).
        { intros d Hd. rewrite Hcs. destruct Hm as [_ Hm]. auto. }
        assert (Hpar : ipareto F os cs).
        { split; [exists m; split; [apply Hm|symmetry; exact Hcs]|]. intros b Hb Hle.
          apply vle_antisym; [exact Hle|].
          destruct (vle_dec cs (ic os b)) as [Hc|Hc]; [exact Hc|]. apply Hmin; [|exact Hle].
          apply bk_app. split.
          - split; [exact Hb|]. intros d Hd Hv. apply (Hunb d Hd). eapply vle_trans; eauto.
          - intros d Hd Hv. apply Hc. eapply vle_trans; [apply Hch, Hd|exact Hv]. }
        destruct (st_ext _ _ _ _ _ HS m) as [exts Hexts]; [apply Hm|].
        rewrite <- Hcs in Hexts.
        assert (Emo4 : vm_max_orig (p_vm (s_prob s4)) = mo) by apply (ext_orig _ _ _ (ad_ext _ _ _ Ha4)).
        assert (Eme4 : vm_max_enc (p_vm (s_prob s4)) = me) by apply (ext_enc _ _ _ (ad_ext _ _ _ Ha4)).
        assert (Eo4 : s_opts s4 = o) by apply (ad_opts _ _ _ Ha4).
        pose proof (inv_wf _ _ _ _ _ (k_inv _ _ _ _ _ K4)) as W4.
        apply wp_bind.
        assert (Y1 : forall a, bk F os (D ++ ch) a -> F a) by (intros a Ha; apply Ha).
        assert (Y2 : vm_max_orig (p_vm (s_prob s4)) <= vm_max_enc (p_vm (s_prob s4))) by apply W4.
        assert (Y3 : ipareto F (p_objs (s_prob s4)) cs) by (rewrite Eos4; exact Hpar).
        assert (Y4 : externalize_all (p_objs (s_prob s4)) cs = Some exts) by (rewrite Eos4; exact Hexts).
        assert (Y5 : blk_ok F (s_opts s4) (p_objs (s_prob s4)) (vm_max_orig (p_vm (s_prob s4))))
          by (rewrite Eos4, Emo4, Eo4; apply HS).
        assert (Y6 : 2 ^ Datatypes.S (vm_max_orig (p_vm (s_prob s4))) <= B) by (rewrite Emo4; apply HS).
        assert (Y7 : asm_ok SP (s_prob s4) (bk F os (D ++ ch)) (swS s0 sw cs) ls cs).
        { constructor.
          - intros m' Hm' Hl. rewrite Eos4. pose proof (S4 m' Hm' Hl) as Hle.
            apply vle_antisym; [exact Hle|]. apply Hmin; [|exact Hle].
            apply (inv_sound _ _ _ _ _ (k_inv _ _ _ _ _ K4)), Hm'.
          - intros m' Ha _ Hx _ Hc. rewrite Eos4 in Hc. apply C4; [apply Ha|exact Hx|].
            rewrite Hc. apply vle_refl. }
        assert (Y8 : exists m, sol_rep (vm_max_enc (p_vm (s_prob s4))) m sol' /\ F m /\
                       ic (p_objs (s_prob s4)) m = cs).
        { exists m. rewrite Eme4, Eos4. split; [exact Hrep'|]. split; [apply Hm|symmetry; exact Hcs]. }
        eapply wp_mono; [exact (yield_run SP E HO F B (bk F os (D ++ ch)) (swS s0 sw cs) cs ls exts s4 Y1 Y2 Y3 Y4 Y5 Y6 sol' K4 Y7 Y8)| |].
        + (* completeness for all feasible solutions of this cost *)
          intros [] s5 (nd & A' & F5 & P5 & K5 & Sh5 & A5 & En5 & _).
          rewrite Eos4, Emo4 in P5. rewrite Eos4 in Sh5. rewrite Eos4, Eo4 in En5.
          pose proof (adv_trans _ _ _ _ Ha4 A5) as Ha5.
          assert (Hcs_bk : sw <> None -> forall a, F a -> ic os a = cs -> bk F os (D ++ ch) a).
          { destruct sw as [b|]; [|congruence]. destruct Hcase as [[_ Hb] _]. intros _ a Ha Hac.
            split; [exact Ha|]. rewrite Hac, Hcs. exact Hb. }
          assert (Hen : enum_post o os F cs (nd_sols nd)).
          { destruct En5 as (E1 & E2 & E3). split; [exact E1|]. split; [|exact E3].
            destruct E2 as [E2|E2]; [|now right].
            destruct sw as [b|].
            - left. intros a Ha Hac. apply E2; [|exact Hac]. apply Hcs_bk; [discriminate|exact Ha|exact Hac].
            - destruct Hcase as [_ Ho]. right. exists 1. rewrite Ho. split; [reflexivity|].
              pose proof (pt_ne _ _ _ _ _ P5). destruct (nd_sols nd); [congruence|cbn; lia]. }
          assert (Eos5 : p_objs (s_prob s5) = os) by apply (adv_objs _ _ _ Ha5).
          assert (Hsw5 : swOK SP s0 sw cs s5).
          { eapply swOK_ext; [exact Hsw|].
            apply (ad_ext _ _ _ (adv_trans _ _ _ _ (kp_adv _ _ _ Hk34) A5)). }
          assert (F5' : s_front s5 = s_front s0 ++ [nd]).
          { rewrite F5. f_equal. apply Hk4. }
          destruct sw as [b|].
          * destruct Hsw5 as [V5 S5].
            eapply (wp_add_clause SP F A' (swS s0 (Some b) cs) (bk F os (D ++ ch ++ [cs]))); [exact K5| | | | | |].
            -- intros v [<-|[]]. exact V5.
            -- intros a. rewrite app_assoc, bk_app. intros [Ha Hd]. destruct Sh5 as [_ Sh5].
               destruct (Sh5 a Ha) as [G|G]; [exact G|]. exfalso. apply (Hd cs); [now left|exact G].
            -- intros a a' Haa. rewrite <- Eos5.
               eapply bk_agree; [apply (inv_wf _ _ _ _ _ (k_inv _ _ _ _ _ K5))|exact Haa].
            -- intros m' Hm' Hb'. rewrite app_assoc, bk_app. split.
               ++ apply Sh5, (inv_sound _ _ _ _ _ (k_inv _ _ _ _ _ K5)), Hm'.
               ++ intros d [<-|[]]. apply S5; [exact Hm'|]. unfold clause_true in Hb'. cbn [existsb] in Hb'.
                  now rewrite orb_false_r in Hb'.
            -- intros m' Hm' _ _ Hs. rewrite app_assoc, bk_app in Hm'. destruct Hm' as [_ Hm'].
               unfold clause_true. cbn [existsb]. rewrite orb_false_r. apply Hs, Hm'. now left.
            -- intros s6 K6 Hk6 L6 _ _. exists (ch ++ [cs]), cs, nd.
               split; [eapply K_top; eauto|]. split; [rewrite (kp_front _ _ _ Hk6); exact F5'|].
               split; [exact P5|]. split; [apply in_or_app; right; now left|]. split.
               { intros d Hd. apply in_app_or in Hd. destruct Hd as [Hd|[<-|[]]]; [auto|apply vle_refl]. }
               split; [exact Hunb|]. split; [|exact Hen].
               eapply adv_trans; [exact Ha5|apply Hk6].
          * apply wp_ret. destruct Hcase as [Hin Ho]. exists ch, cs, nd.
            split; [|split; [exact F5'|split; [exact P5|split; [exact Hin|split; [exact Hch|
              split; [exact Hunb|split; [exact Ha5|exact Hen]]]]]]].
            eapply K_top. eapply K_iff; [exact K5|]. intros a. destruct Sh5 as [Sh1 Sh2]. split; [apply Sh1|].
            intros Ha. destruct (Sh2 a Ha) as [G|G]; [exact G|]. exfalso.
            apply bk_app in Ha. destruct Ha as [_ Ha]. exact (Ha cs Hin G).
        + intros x s5 (X1 & X2 & X3 & A' & X4 & X5 & _).
          rewrite Eos4, ?Emo4 in *. pose proof (adv_trans _ _ _ _ Ha4 X2) as Ha5.
          split; [exact X1|]. split; [exact Ha5|].
          assert (HInv : o_enum o = NoEnum -> In cs ch /\ Inv SP F (s_prob s5) (bk F os (D ++ ch)) (fun _ => True)).
          { intros Ho. destruct sw as [b|]; [destruct Hcase; contradiction|]. destruct Hcase as [Hin _].
            split; [exact Hin|]. eapply inv_top. eapply inv_iff; [exact X4|]. intros a.
            destruct X5 as [Sh1 Sh2]. split; [apply Sh1|].
            intros Ha. destruct (Sh2 a Ha) as [G|G]; [exact G|]. exfalso.
            apply bk_app in Ha. destruct Ha as [_ Ha]. exact (Ha cs Hin G). }
          destruct X3 as [X3|(nd & X3 & P5)].
          * exists [], []. split; [rewrite app_nil_r, X3; apply Hk4|]. split; [constructor|].
            split; [constructor|]. split; [intros ? ? []|]. intros Ho. destruct (HInv Ho) as [_ HI].
            exists (D ++ ch). split; [intros d Hd; apply in_or_app; now left|]. split; [intros ? []|]. split; [exact HI|now left].
          * exists [nd], [cs]. split; [rewrite X3; f_equal; apply Hk4|].
            split; [repeat constructor; exact (pt_ext _ _ _ _ _ P5) || apply P5|].
            split; [repeat constructor; intros []|].
            split; [intros c d [<-|[]]; apply Hunb|]. intros Ho. destruct (HInv Ho) as [Hin HI].
            exists (D ++ ch). split; [intros d Hd; apply in_or_app; now left|].
            split; [|split; [exact HI|right]].
            -- intros c [<-|[]]. apply in_or_app. now right.
            -- intros d Hd. apply in_app_or in Hd. destruct Hd as [Hd|Hd].
               ++ exists d. split; [apply in_or_app; now left|apply vle_refl].
               ++ exists cs. split; [apply in_or_app; right; now left|now apply Hch].
      - intros x s3 (X1 & X2 & X3). apply MX_front; auto.
    Qed.
  End Step.

  (** ** Runs of [minimize_and_yield] *)

  (** parts of the state that stay the same during a call of [solve] *)
  Record rrel (s s' : st) : Prop := mkRrel {
    rr_cnf : s_cnf s' = s_cnf s;
    rr_opts : s_opts s' = s_opts s;
    rr_nobjs : n_objs (s_stats s') = n_objs (s_stats s);
    rr_solves : n_solve_calls (s_stats s') = n_solve_calls (s_stats s);
    rr_ext : ext SP (s_prob s) (s_prob s') }.
  Lemma adv_rrel s s' : adv s s' -> rrel s s'.
  Proof. intros []. now constructor. Qed.
  Lemma rrel_trans a b c : rrel a b -> rrel b c -> rrel a c.
  Proof. intros [] []. constructor; try congruence. eapply ext_trans; eauto. Qed.
  Lemma rrel_refl a : rrel a a.
  Proof. apply adv_rrel, adv_refl. Qed.

  Lemma Forall2_app_inv_len {X Y} (R : X -> Y -> Prop) a b c d : Forall2 R a b -> Forall2 R c d ->
    Forall2 R (a ++ c) (b ++ d).
  Proof. induction 1; cbn; auto. Qed.
  Lemma NoDup_app_disj {X} (a b : list X) : NoDup a -> NoDup b -> (forall x, In x a -> In x b -> False) ->
    NoDup (a ++ b).
  Proof.
    induction a as [|x a IH]; cbn; intros Ha Hb H; [exact Hb|]. inversion Ha; subst.
    constructor; [|apply IH; auto; intros y Hy1 Hy2; eapply H; eauto; now right].
    intros Hin. apply in_app_or in Hin. destruct Hin as [Hin|Hin]; [contradiction|]. apply (H x); [now left|exact Hin].
  Qed.

  Section Run.
    Variables (D0 L0 : list (list nat)) (s0 : st).
    Let os := p_objs (s_prob s0).
    Let mo := vm_max_orig (p_vm (s_prob s0)).
    Let o := s_opts s0.
    Hypothesis HS : Stat os mo o.

    Record MI (k : nat) (s : st) : Prop := mkMI {
      mi_rel : rrel s0 s;
      mi_ex : exists D news Ln, K (bk F os D) (fun _ => True) s /\
        s_front s = s_front s0 ++ news /\
        Forall2 (fun nd c => pt_ok F os mo nd c /\ enum_post o os F c (nd_sols nd)) news Ln /\
        NoDup (L0 ++ Ln) /\ covers D (L0 ++ Ln) /\
        (covers L0 D0 -> covers (L0 ++ Ln) D) /\ unb (totals os) D <= k }.

    Definition XI (x : exit) (s : st) : Prop :=
      xok E B x /\ rrel s0 s /\
      exists news Ln, s_front s = s_front s0 ++ news /\ Forall2 (pt_ok F os mo) news Ln /\
        NoDup (L0 ++ Ln) /\
        ((o_enum o = NoEnum \/ forall m, ~ sat m (p_cls (s_prob s0))) -> exists D', covers D' (L0 ++ Ln) /\
           Inv SP F (s_prob s) (bk F os D') (fun _ => True) /\
           (StopAt.at_point x -> covers L0 D0 -> covers (L0 ++ Ln) D')).

    Definition QI (s : st) : Prop :=
      rrel s0 s /\ exists D news Ln, K (bk F os D) (fun _ => True) s /\
        s_front s = s_front s0 ++ news /\
        Forall2 (fun nd c => pt_ok F os mo nd c /\ enum_post o os F c (nd_sols nd)) news Ln /\
        NoDup (L0 ++ Ln) /\ covers D (L0 ++ Ln) /\
        (covers L0 D0 -> covers (L0 ++ Ln) D) /\ (forall a, ~ bk F os D a).

    Lemma MI_K k s : MI k s -> exists D, K (bk F os D) (fun _ => True) s.
    Proof. intros [_ (D & news & Ln & H & _)]. eauto. Qed.
    Lemma MI_lims k s : MI k s -> lims_ok s.
    Proof. intros H. apply MI_K in H. destruct H as [D H]. apply H. Qed.
    Lemma MI_solved k s s' : MI k s -> solved s s' -> lims_ok s' -> MI k s'.
    Proof.
      intros [R (D & news & Ln & H1 & H2 & H3)] V L. constructor.
      - eapply rrel_trans; [exact R|]. apply adv_rrel, (kp_adv _ _ _ (solved_keep SP _ _ V)).
      - exists D, news, Ln. split; [eapply K_solved; eauto|].
        split; [|exact H3]. rewrite (fr_front _ _ (sv_fr _ _ V)). exact H2.
    Qed.
    Lemma MI_quiet k s s' : MI k s -> quiet s s' -> lims_ok s' -> MI k s'.
    Proof. intros H Q. eapply MI_solved; [exact H|apply quiet_solved, Q]. Qed.
    Lemma MI_XI k s x s' : MI k s -> solved s s' -> xok E B x -> XI x s'.
    Proof.
      intros [R (D & news & Ln & H1 & H2 & H3 & H4 & H5 & H6 & H7)] V Hx.
      split; [exact Hx|]. split.
      { eapply rrel_trans; [exact R|]. apply adv_rrel, (kp_adv _ _ _ (solved_keep SP _ _ V)). }
      exists news, Ln. split; [rewrite (fr_front _ _ (sv_fr _ _ V)); exact H2|].
      split; [clear - H3; induction H3; constructor; tauto|]. split; [exact H4|].
      intros _. exists D. split; [exact H5|]. split; [rewrite (sv_prob _ _ V); apply H1|auto].
    Qed.
    Lemma MI_le k k' s : MI k s -> k <= k' -> MI k' s.
    Proof.
      intros [R (D & news & Ln & H1 & H2 & H3 & H4 & H5 & H6 & H7)] Hk. constructor; [exact R|].
      exists D, news, Ln. repeat (split; [assumption|]). lia.
    Qed.

    Lemma step_ok k s m : MI k s -> s_ora s = OModel m -> sat m (p_cls (s_prob s)) ->
      wp (minimize_and_yield E [])
         (fun _ s' => (exists k', k' < k /\ MI k' s') /\ s_fence s' = s_fence s /\
            ext SP (s_prob s) (s_prob s'))
         (fun x s' => XI x s' /\ s_fence s' = s_fence s /\ ext SP (s_prob s) (s_prob s')) s.
    Proof.
      intros [R (D & news & Ln & H1 & H2 & H3 & H4 & H5 & H6 & H7)] Ho Hm.
      assert (Eos : p_objs (s_prob s) = os) by apply (ext_objs _ _ _ (rr_ext _ _ R)).
      assert (Emo : vm_max_orig (p_vm (s_prob s)) = mo) by apply (ext_orig _ _ _ (rr_ext _ _ R)).
      assert (Eo : s_opts s = o) by apply R.
      assert (HS' : Stat (p_objs (s_prob s)) (vm_max_orig (p_vm (s_prob s))) (s_opts s))
        by (rewrite Eos, Emo, Eo; exact HS).
      assert (HK' : K (bk F (p_objs (s_prob s)) D) (fun _ => True) s) by (rewrite Eos; exact H1).
      eapply wp_mono; [eapply StopAt.wp_conj; [exact (minimize_and_yield_ok D s HS' m HK' Ho Hm)|exact (StopAt.minimize_stops_at_point SP E [] s)]| |].
      - intros [] s' ((ch & c & nd & K' & F' & P' & Hin & Hch & Hun & A' & En') & _).
        rewrite Eos in K'. rewrite Eos, Emo in P'. rewrite Eo, Eos in En'.
        split; [|split; [apply A'|apply A']].
        exists (unb (totals os) (D ++ ch)). split.
        { eapply Nat.lt_le_trans; [|exact H7]. apply unb_lt with (c := c); auto.
          destruct (pt_opt _ _ _ _ _ P') as [(a & _ & <-) _]. apply ic_totals. }
        constructor.
        + eapply rrel_trans; [exact R|]. apply adv_rrel, A'.
        + exists (D ++ ch), (news ++ [nd]), (Ln ++ [c]).
          split; [exact K'|]. split; [rewrite F', H2, app_assoc; reflexivity|].
          split; [apply Forall2_app_inv_len; [exact H3|constructor; [exact (conj P' En')|constructor]]|].
          rewrite !app_assoc. split; [|split; [|split]].
          * apply NoDup_snoc; [exact H4|]. intros Hc. destruct (H5 c Hc) as (d & Hd & Hv).
            exact (Hun d Hd Hv).
          * intros c' Hc'. apply in_app_or in Hc'. destruct Hc' as [Hc'|[<-|[]]].
            -- destruct (H5 c' Hc') as (d & Hd & Hv). exists d. split; [apply in_or_app; now left|exact Hv].
            -- exists c. split; [apply in_or_app; now right|apply vle_refl].
          * intros H0 d Hd. apply in_app_or in Hd. destruct Hd as [Hd|Hd].
            -- destruct (H6 H0 d Hd) as (c' & Hc' & Hv). exists c'. split; [apply in_or_app; now left|exact Hv].
            -- exists c. split; [apply in_or_app; right; now left|now apply Hch].
          * lia.
      - intros x s' ((X1 & X2 & news' & Ln' & X3 & X4 & X5 & X6 & X7) & Hpt).
        rewrite Eos, ?Emo in *. rewrite Eo in X7.
        split; [|split; [apply X2|apply X2]].
        split; [exact X1|]. split; [eapply rrel_trans; [exact R|]; apply adv_rrel, X2|].
        exists (news ++ news'), (Ln ++ Ln'). split; [rewrite X3, H2, app_assoc; reflexivity|].
        split; [|split].
        + apply Forall2_app_inv_len; [|exact X4]. clear - H3; induction H3; constructor; tauto.
        + rewrite app_assoc. apply NoDup_app_disj; auto. intros c Hc Hc'.
          destruct (H5 c Hc) as (d & Hd & Hv). exact (X6 c d Hc' Hd Hv).
        + intros [Hno|Hno]; [|exfalso; apply (Hno m); eapply ext_sat; [apply (rr_ext _ _ R)|exact Hm]].
          destruct (X7 Hno) as (D' & I1 & I2 & I3 & I4). exists D'. split; [|split; [exact I3|]].
          2:{ intros Hx H0. specialize (Hpt Hx). rewrite X3, app_length in Hpt.
              destruct I4 as [-> |I4]; [cbn in Hpt; lia|]. intros d Hd. rewrite app_assoc.
              destruct (I4 d Hd) as (c & Hc & Hv). apply in_app_or in Hc. destruct Hc as [Hc|Hc].
              - destruct (H6 H0 c Hc) as (c' & Hc' & Hv'). exists c'.
                split; [apply in_or_app; now left|eapply vle_trans; eauto].
              - exists c. split; [apply in_or_app; now right|exact Hv]. }
          intros c Hc. rewrite app_assoc in Hc. apply in_app_or in Hc. destruct Hc as [Hc|Hc].
          * destruct (H5 c Hc) as (d & Hd & Hv). exists d. split; [now apply I1|exact Hv].
          * exists c. split; [now apply I2|apply vle_refl].
    Qed.

    (** *** P-minimal *)
    Lemma pminimal_body_ok k u s : MI k s ->
      wp (pminimal_body E u)
         (fun r s' => match r with
            | inl _ => exists k', k' < k /\ MI k' s'
            | inr _ => QI s' end) XI s.
    Proof.
      intros HM. unfold pminimal_body, k_solve.
      apply wp_bind, wp_k_solve_assumps; [exact HO|eapply MI_lims; eauto| | |].
      - intros m s1 V1 L1 O1 Hm _. pose proof (MI_solved _ _ _ HM V1 L1) as M1.
        apply wp_bind, wp_check_termination; [exact L1| |].
        2:{ intros x s2 Q2 G2. eapply MI_XI; [exact M1|apply quiet_solved, Q2|now apply good_xok]. }
        intros s2 Q2 L2. pose proof (MI_quiet _ _ _ M1 Q2 L2) as M2.
        apply wp_bind. eapply wp_mono; [eapply (step_ok k s2 m M2)| |intros x s3 H; apply H].
        + rewrite (qt_ora _ _ Q2). exact O1.
        + rewrite (qt_prob _ _ Q2), (sv_prob _ _ V1). exact Hm.
        + intros [] s3 [H _]. apply wp_ret. exact H.
      - intros core s1 V1 L1 O1 Hcore Hent. pose proof (MI_solved _ _ _ HM V1 L1) as M1.
        apply wp_bind, wp_log_end; [exact L1| |].
        2:{ intros x s2 Q2 G2. eapply MI_XI; [exact M1|apply quiet_solved, Q2|now apply good_xok]. }
        intros s2 Q2 L2. pose proof (MI_quiet _ _ _ M1 Q2 L2) as M2. apply wp_ret.
        destruct M2 as [R (D & news & Ln & H1 & H2 & H3 & H4 & H5 & H6 & H7)].
        split; [exact R|]. exists D, news, Ln. repeat (split; [assumption|]).
        intros a Ha. destruct (inv_comp _ _ _ _ _ (k_inv _ _ _ _ _ H1) a Ha) as (m & G1 & G2 & _).
        rewrite (qt_prob _ _ Q2), (sv_prob _ _ V1) in G2. specialize (Hent m G2).
        apply clause_true_iff in Hent. destruct Hent as (l & Hl & _). apply Hcore in Hl. destruct Hl.
      - intros x s1 V1 G1. eapply MI_XI; [exact HM|exact V1|now apply good_xok].
    Qed.

    Lemma pminimal_main_ok s : (exists k, k <= B /\ MI k s) ->
      wp (pminimal_main E) (fun _ => QI) XI s.
    Proof.
      intros (k & HkB & HM). unfold pminimal_main.
      destruct (MI_K _ _ HM) as [D HK].
      apply wp_bind, wp_gets, wp_bind, wp_gets, wp_bind, wp_guard.
      { apply Nat.eqb_eq. rewrite (wf_len _ _ _ (inv_wf _ _ _ _ _ (k_inv _ _ _ _ _ HK))).
        symmetry. apply HK. }
      apply wp_bind, wp_log_start; [apply HK| |].
      2:{ intros x s2 Q2 G2. eapply MI_XI; [exact HM|apply quiet_solved, Q2|now apply good_xok]. }
      intros s1 Q1 L1.
      apply wp_loop_idx with (Inv := fun k (_ : unit) s => MI k s) (k := k).
      - intros k' u s' H. apply pminimal_body_ok, H.
      - eapply MI_quiet; eauto.
      - intros k' _ s' H Hle. eapply MI_XI; [exact H|apply solved_refl|]. right. split; [reflexivity|lia].
    Qed.
  End Run.

  (** What the end of a complete run means: the reported costs are exactly the Pareto
      optimal ones. *)
  Lemma QI_complete D0 L0 s0 s : QI D0 L0 s0 s -> covers L0 D0 ->
    Forall2 (pt_ok F (p_objs (s_prob s0)) (vm_max_orig (p_vm (s_prob s0)))) (s_front s0) L0 ->
    exists L, Forall2 (pt_ok F (p_objs (s_prob s0)) (vm_max_orig (p_vm (s_prob s0)))) (s_front s) L /\
      NoDup L /\ forall c, ipareto F (p_objs (s_prob s0)) c -> In c L.
  Proof.
    intros [R (D & news & Ln & H1 & H2 & H3 & H4 & H5 & H6 & H7)] Hc H0.
    exists (L0 ++ Ln). split; [|split; [exact H4|]].
    - rewrite H2. apply Forall2_app_inv_len; [exact H0|]. clear - H3; induction H3; constructor; tauto.
    - intros c [(a & Ha & Hac) Hmin].
      assert (Hex : exists d, In d D /\ vle d c).
      { destruct (existsb (fun d => vleb d c) D) eqn:e.
        - apply existsb_exists in e. destruct e as (d & Hd & Hv). apply vleb_true in Hv. eauto.
        - exfalso. apply (H7 a). split; [exact Ha|]. rewrite Hac.
          apply unblocked_iff. unfold unblocked. now rewrite e. }
      destruct Hex as (d & Hd & Hv). destruct (H6 Hc d Hd) as (c' & Hc' & Hv').
      assert (P : exists nd, pt_ok F (p_objs (s_prob s0)) (vm_max_orig (p_vm (s_prob s0))) nd c').
      { apply in_app_or in Hc'. destruct Hc' as [Hc'|Hc'].
        - clear - H0 Hc'. induction H0; [destruct Hc'|]. destruct Hc' as [<-|Hc']; eauto.
        - clear - H3 Hc'. induction H3; [destruct Hc'|]. destruct Hc' as [<-|Hc']; eauto.
          exists x. tauto. }
      destruct P as [nd P]. destruct (pt_opt _ _ _ _ _ P) as [(b & Hb & Hbc) _].
      assert (ic (p_objs (s_prob s0)) b = c).
      { apply Hmin; [exact Hb|]. rewrite Hbc. eapply vle_trans; eauto. }
      congruence.
  Qed.
End Top.
