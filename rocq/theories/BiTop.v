(** * Correctness of BiOptSat *)
From Coq Require Import List Bool Arith Lia ZArith.
From Verif Require Import Base BaseLemmas MTypes MKernel MBiOptSat EncSpec Wp Sem Kern Yield PMin
  PMinTop Linsu.
Import ListNotations.

(** Strictly better in the first component, strictly worse in the second *)
Definition before (c d : list nat) : Prop :=
  exists x y x' y', c = [x; y] /\ d = [x'; y'] /\ x < x' /\ y' < y.
Lemma before_nodup L : ForallOrdPairs before L -> NoDup L.
Proof.
  induction 1 as [|c L H _ IH]; constructor; [|exact IH]. intros Hin. rewrite Forall_forall in H.
  destruct (H c Hin) as (x & y & x' & y' & -> & He & Hx & _). injection He as <- <-. lia.
Qed.

Section Bi.
  Context {I : enc_impl} (SP : enc_spec I).
  Notation M := (M I).
  Notation st := (st I).
  Variable E : environ.
  Hypothesis HO : oracle_ok E.
  Variable F : asg -> Prop.
  Variable B : nat.
  Notation T := (fun _ : asg => True).
  Notation K := (K SP F).
  Notation keep := (keep SP).
  Notation adv := (adv SP).
  Notation rrel := (rrel SP).

  (** adding clauses that change what is allowed *)
  Lemma add_clauses_run l : forall (s0 : st), wp (add_clauses l)
    (fun _ s' => s_prob s' = set_cls (rev l ++ p_cls (s_prob s0)) (s_prob s0) /\
       s_lims s' = s_lims s0 /\ fr s0 s') (fun _ _ => False) s0.
  Proof.
    induction l as [|c l IH]; intros s0; unfold add_clauses; cbn [forM].
    - apply wp_ret. split; [|split; [reflexivity|apply fr_refl]]. now destruct (s_prob s0).
    - apply wp_bind, wp_modify. eapply wp_mono; [apply IH| |auto].
      intros [] s' (G1 & G2 & G3). split; [|split].
      + rewrite G1. cbn. now rewrite <- app_assoc.
      + rewrite G2. reflexivity.
      + eapply fr_trans; [|exact G3]. now constructor.
  Qed.
  Lemma wp_add_cut A (A' : asg -> Prop) cl (Q : unit -> st -> Prop) (X : exit -> st -> Prop) s : K A T s ->
    (forall v, In v (cls_vars cl) -> live SP (s_prob s) v) ->
    (forall a, A' a -> A a) ->
    (forall a b, agree (low (s_prob s)) a b -> A' a -> A' b) ->
    (forall m, sat m (p_cls (s_prob s)) -> sat m cl -> A' m) ->
    (forall m, A' m -> sat m (p_cls (s_prob s)) -> Exact SP (s_prob s) m -> sat m cl) ->
    (forall s', K A' T s' -> keep s s' -> Q tt s') ->
    wp (add_clauses cl) Q X s.
  Proof.
    intros HK H1 H2 H3 H4 H5 HQ. eapply wp_mono; [apply add_clauses_run| |intros ? ? []].
    intros [] s' (G1 & G2 & G3). apply HQ.
    - constructor.
      + unfold lims_ok. rewrite G2. apply HK.
      + rewrite (fr_nobjs _ _ G3), G1. cbn. apply HK.
      + rewrite G1. eapply add_clauses_inv; eauto. apply HK.
    - constructor; [|apply (fr_front _ _ G3)]. destruct G3. constructor; try assumption.
      rewrite G1. apply add_clauses_ext.
  Qed.

  Lemma lits_true_units m b : sat m (cube_impl_cube [] b) <-> lits_true m b.
  Proof.
    unfold cube_impl_cube. split.
    - intros H l Hl. specialize (H [l]). assert (Hin : In [l] (map (fun l => map lnot [] ++ [l]) b)).
      { apply in_map_iff. exists l. auto. }
      specialize (H Hin). apply clause_true_iff in H. destruct H as (l' & [<-|[]] & H). exact H.
    - intros H c Hc. apply in_map_iff in Hc. destruct Hc as (l & <- & Hl). apply clause_true_iff.
      exists l. split; [now left|]. now apply H.
  Qed.

  Section Run.
    Variables (D0 : list (list nat)) (s0 : st) (o0 o1 : objective) (lb0 lb1 : nat).
    Let os := p_objs (s_prob s0).
    Let mo := vm_max_orig (p_vm (s_prob s0)).
    Let o := s_opts s0.
    Hypothesis Hos : os = [o0; o1].
    Hypothesis HS : Stat F B os mo o.
    Hypothesis Hlb0 : lbok F 0 o0 lb0 s0.
    Hypothesis Hlb1 : lbok F 1 o1 lb1 s0.
    Hypothesis Hof1 : forall a, F a -> lb1 <= icost o1 a.

    Definition good_pts (news : list (nd_point assignment)) (Ln : list (list nat)) : Prop :=
      Forall2 (fun nd c => pt_ok F os mo nd c /\ enum_post o os F c (nd_sols nd)) news Ln.

    (** [BI k x s]: at most [k] cost vectors are left to find *)
    Definition BI (k : nat) (x : bi_state) (s : st) : Prop :=
      let '(inc, sol, lb) := x in
      rrel s0 s /\ exists news Ln, K (bk F os (D0 ++ Ln)) T s /\
        s_front s = s_front s0 ++ news /\ good_pts news Ln /\ ForallOrdPairs before Ln /\
        (forall c, In c Ln -> exists x y, c = [x; y] /\ x < lb) /\
        (exists m, sol_rep (vm_max_enc (p_vm (s_prob s))) m sol /\ bk F os (D0 ++ Ln) m /\ icost o0 m = inc) /\
        (forall a, bk F os (D0 ++ Ln) a -> lb <= icost o0 a) /\ lb0 <= lb /\
        unb (totals os) (D0 ++ Ln) <= k.

    Definition BX (x : exit) (s : st) : Prop :=
      xok E B x /\ rrel s0 s /\ exists news Ln, s_front s = s_front s0 ++ news /\
        Forall2 (pt_ok F os mo) news Ln /\ ForallOrdPairs before Ln /\
        (o_enum o = NoEnum -> exists D', incl D' (D0 ++ Ln) /\ Inv SP F (s_prob s) (bk F os D') T).

    Definition BQ (s : st) : Prop :=
      rrel s0 s /\ exists news Ln, s_front s = s_front s0 ++ news /\ good_pts news Ln /\
        ForallOrdPairs before Ln /\
        (forall a, F a -> exists d, In d (D0 ++ Ln) /\ vle d (ic os a)) /\
        (o_enum o = NoEnum -> exists D', incl D' (D0 ++ Ln) /\ Inv SP F (s_prob s) (bk F os D') T).

    Lemma good_weak news Ln : good_pts news Ln -> Forall2 (pt_ok F os mo) news Ln.
    Proof. unfold good_pts. induction 1; constructor; tauto. Qed.

    Lemma BX_keep x s s' news Ln : rrel s0 s -> s_front s = s_front s0 ++ news -> good_pts news Ln ->
      ForallOrdPairs before Ln -> keep s s' -> xok E B x ->
      (o_enum o = NoEnum -> exists D', incl D' (D0 ++ Ln) /\ Inv SP F (s_prob s') (bk F os D') T) -> BX x s'.
    Proof.
      intros R Hf Hg Hs Hk Hx HI. split; [exact Hx|].
      split; [eapply rrel_trans; [exact R|apply adv_rrel, Hk]|].
      exists news, Ln. split; [rewrite (kp_front _ _ _ Hk); exact Hf|].
      split; [now apply good_weak|]. auto.
    Qed.

    Lemma ic_os a : ic os a = [icost o0 a; icost o1 a].
    Proof. now rewrite Hos. Qed.
    Lemma vle2 x y a : vle [x; y] (ic os a) <-> x <= icost o0 a /\ y <= icost o1 a.
    Proof.
      rewrite ic_os. unfold vle. split.
      - intros H. inversion H as [|? ? ? ? H1 H2]; subst. inversion H2; subst. auto.
      - intros [H1 H2]. repeat constructor; assumption.
    Qed.
    Lemma B_icost0 a : icost o0 a <= B.
    Proof. pose proof (st_sum _ _ _ _ _ HS a) as H. rewrite ic_os in H. cbn in H. lia. Qed.
    Lemma B_icost1 a : icost o1 a <= B.
    Proof. pose proof (st_sum _ _ _ _ _ HS a) as H. rewrite ic_os in H. cbn in H. lia. Qed.

    (** no allowed assignment left: everything is covered *)
    Lemma all_covered D : (forall a, ~ bk F os D a) -> forall a, F a -> exists d, In d D /\ vle d (ic os a).
    Proof.
      intros H a Ha. destruct (existsb (fun d => vleb d (ic os a)) D) eqn:e.
      - apply existsb_exists in e. destruct e as (d & Hd & Hv). apply vleb_true in Hv. eauto.
      - exfalso. apply (H a). split; [exact Ha|]. apply unblocked_iff. unfold unblocked. now rewrite e.
    Qed.

    Lemma bk_icost p A D a b : Inv SP F p A T -> p_objs p = os -> agree (low p) a b ->
      bk F os D a -> bk F os D b.
    Proof. intros HI Ho Hab. rewrite <- Ho. eapply bk_agree; [apply HI|exact Hab]. Qed.

    Lemma icost_low p A i ob a b : Inv SP F p A T -> nth_error (p_objs p) i = Some ob -> agree (low p) a b ->
      icost ob a = icost ob b.
    Proof. intros HI Ho Hab. eapply icost_agree; [apply HI|eapply nth_error_In; eauto|exact Hab]. Qed.

    Lemma bi_body_ok k x s : BI k x s ->
      wp (bi_body E [] lb1 x)
         (fun r s' => match r with
            | inl x' => exists k', k' < k /\ BI k' x' s'
            | inr _ => BQ s' end) BX s.
    Proof.
      destruct x as [[inc sol] lb].
      intros (R & news & Ln & HK & Hf & Hg & Hs & Hlt & (m & Hrep & Hm & Hmc) & Hlb & Hl0 & Hk).
      set (A := bk F os (D0 ++ Ln)) in *. unfold bi_body.
      assert (Eos : p_objs (s_prob s) = os) by apply (ext_objs _ _ _ (rr_ext _ _ _ R)).
      assert (N0 : nth_error os 0 = Some o0) by (rewrite Hos; reflexivity).
      assert (N1 : nth_error os 1 = Some o1) by (rewrite Hos; reflexivity).
      assert (HBX : forall x s', xok E B x -> keep s s' -> Inv SP F (s_prob s') A T -> BX x s').
      { intros x s' Hx Hk' HI'. eapply BX_keep; eauto. intros _. exists (D0 ++ Ln). split; [apply incl_refl|exact HI']. }
      (* minimise the increasing objective *)
      apply wp_bind. eapply wp_mono.
      { eapply (linsu_ok SP E HO F B A T 0 lb o0 [] s) with (ub := Some (inc, Some sol)).
        - exact HK.
        - now rewrite Eos.
        - split; [auto|split; [intros ? ? ? ? ? ? []|auto]].
        - eapply lbok_le; [exact Hl0|]. eapply lbok_ext; [apply (rr_ext _ _ _ R)|exact Hlb0].
        - intros a Ha _. auto.
        - apply B_icost0.
        - exists m. auto. }
      2:{ intros x s' (X1 & X2 & X3). auto. }
      intros [[inc' sol']|] s1 (Hk1 & K1 & Hr1); [|exfalso; apply (Hr1 m Hm Logic.I)].
      destruct Hr1 as [(m1 & Hrep1 & Hm1 & _ & Hc1) Hop1].
      assert (Hop1' : forall a, A a -> inc' <= icost o0 a) by (intros a Ha; apply Hop1; [exact Ha|exact Logic.I]).
      clear Hop1. clear Hrep Hm Hmc m inc sol.
      assert (Eos1 : p_objs (s_prob s1) = os) by (rewrite (adv_objs _ _ _ (kp_adv _ _ _ Hk1)); exact Eos).
      assert (Eme1 : vm_max_enc (p_vm (s_prob s1)) = vm_max_enc (p_vm (s_prob s)))
        by apply (ext_enc _ _ _ (ad_ext _ _ _ (kp_adv _ _ _ Hk1))).
      apply wp_bind. eapply wp_get_cost; [exact K1|rewrite Eos1; exact N1|rewrite Eme1; exact Hrep1|].
      assert (Hli : lb <= inc') by (rewrite <- Hc1; apply Hlb, Hm1).
      eapply (wp_bound SP F A 0 o0 inc' (inc' + 1) unwrap); [exact K1|now rewrite Eos1| |lia|reflexivity|].
      { eapply lbok_le; [|eapply lbok_ext; [|exact Hlb0]]; [lia|].
        eapply ext_trans; [apply (rr_ext _ _ _ R)|apply (ad_ext _ _ _ (kp_adv _ _ _ Hk1))]. }
      intros ls s2 K2 Hk12 S2 C2 V2. pose proof (keep_trans _ _ _ _ Hk1 Hk12) as Hk2.
      assert (Eos2 : p_objs (s_prob s2) = os) by (rewrite (adv_objs _ _ _ (kp_adv _ _ _ Hk2)); exact Eos).
      assert (Eme2 : vm_max_enc (p_vm (s_prob s2)) = vm_max_enc (p_vm (s_prob s)))
        by apply (ext_enc _ _ _ (ad_ext _ _ _ (kp_adv _ _ _ Hk2))).
      (* minimise the decreasing objective *)
      set (P := fun a : asg => icost o0 a <= inc').
      assert (Hsel : sel SP (s_prob s2) A P ls).
      { split; [exact S2|split].
        - intros a Ha Hsa Hx. apply C2; [apply Ha|exact Hx].
        - intros a b Hab. unfold P.
          rewrite (icost_low _ _ 0 o0 a b (k_inv _ _ _ _ _ K2)); [auto|now rewrite Eos2|exact Hab]. }
      assert (Hlb12 : lbok F 1 o1 lb1 s2).
      { eapply lbok_ext; [|exact Hlb1]. eapply ext_trans; [apply (rr_ext _ _ _ R)|].
        apply (ad_ext _ _ _ (kp_adv _ _ _ Hk2)). }
      unfold linsu_yield. rewrite app_nil_l. apply wp_bind, wp_bind. eapply wp_mono.
      { eapply (linsu_ok SP E HO F B A P 1 lb1 o1 ls s2) with (ub := Some (icost o1 m1, Some sol')).
        - exact K2.
        - now rewrite Eos2.
        - exact Hsel.
        - exact Hlb12.
        - intros a Ha _. apply Hof1, Ha.
        - apply B_icost1.
        - exists m1. rewrite Eme2. split; [exact Hrep1|]. split; [exact Hm1|]. split; [|reflexivity].
          unfold P. lia. }
      2:{ intros x s' (X1 & X2 & X3). apply HBX; [exact X1|eapply keep_trans; eauto|exact X3]. }
      intros [[dec sol2]|] s3 (Hk23 & K3 & Hr3).
      2:{ exfalso. apply (Hr3 m1 Hm1). unfold P. lia. }
      destruct Hr3 as [(m & Hrep & Hm & HPm & Hdec) Hop3]. rewrite Eme2 in Hrep.
      assert (Hop3' : forall a, A a -> icost o0 a <= inc' -> dec <= icost o1 a) by (intros a Ha Hi; now apply Hop3).
      clear Hop3. assert (Hinc : icost o0 m = inc').
      { unfold P in HPm. specialize (Hop1' m Hm). lia. }
      pose proof (keep_trans _ _ _ _ Hk2 Hk23) as Hk3.
      assert (Eos3 : p_objs (s_prob s3) = os) by (rewrite (adv_objs _ _ _ (kp_adv _ _ _ Hk3)); exact Eos).
      assert (Eme3 : vm_max_enc (p_vm (s_prob s3)) = vm_max_enc (p_vm (s_prob s)))
        by apply (ext_enc _ _ _ (ad_ext _ _ _ (kp_adv _ _ _ Hk3))).
      apply wp_bind, wp_gets, wp_bind. rewrite (k_nobjs _ _ _ _ _ K3).
      eapply wp_get_costs; [exact K3|rewrite Eme3; exact Hrep|]. rewrite Eos3, ic_os, Hinc, Hdec.
      apply wp_bind, wp_guard; [cbn; apply Nat.eqb_refl|].
      assert (Hd1 : lb1 <= dec) by (rewrite <- Hdec; apply Hof1, Hm).
      eapply (wp_bound SP F A 1 o1 dec (dec + 1) unwrap); [exact K3|now rewrite Eos3| |lia|reflexivity|].
      { eapply lbok_le; [exact Hd1|]. eapply lbok_ext; [apply (ad_ext _ _ _ (kp_adv _ _ _ Hk23))|exact Hlb12]. }
      intros ls2 s4 K4 Hk34 S4 C4 V4. pose proof (keep_trans _ _ _ _ Hk3 Hk34) as Hk4.
      pose proof (keep_trans _ _ _ _ Hk23 Hk34) as Hk24.
      pose proof (ad_ext _ _ _ (kp_adv _ _ _ Hk24)) as E24.
      assert (R4 : rrel s0 s4) by (eapply rrel_trans; [exact R|apply adv_rrel, Hk4]).
      assert (Eos4 : p_objs (s_prob s4) = os) by (rewrite (adv_objs _ _ _ (kp_adv _ _ _ Hk4)); exact Eos).
      assert (Emo4 : vm_max_orig (p_vm (s_prob s4)) = mo) by apply (ext_orig _ _ _ (rr_ext _ _ _ R4)).
      assert (Eme4 : vm_max_enc (p_vm (s_prob s4)) = vm_max_enc (p_vm (s_prob s)))
        by apply (ext_enc _ _ _ (ad_ext _ _ _ (kp_adv _ _ _ Hk4))).
      assert (Eo4 : s_opts s4 = o) by apply (rr_opts _ _ _ R4).
      (* the found vector *)
      set (cs := [inc'; dec]).
      assert (Hcs : ic os m = cs) by (rewrite ic_os, Hinc, Hdec; reflexivity).
      assert (Hlow : forall a, A a -> icost o0 a <= inc' -> icost o1 a <= dec -> ic os a = cs).
      { intros a Ha H1 H2. rewrite ic_os. unfold cs. specialize (Hop1' a Ha). specialize (Hop3' a Ha H1).
        f_equal; [lia|f_equal; lia]. }
      assert (Hun : forall d, In d (D0 ++ Ln) -> ~ vle d cs).
      { intros d Hd. rewrite <- Hcs. now apply Hm. }
      assert (Hpar : ipareto F os cs).
      { split; [exists m; split; [apply Hm|exact Hcs]|]. intros b Hb Hle.
        apply Hlow.
        - split; [exact Hb|]. intros d Hd Hv. apply (Hun d Hd). eapply vle_trans; eauto.
        - rewrite ic_os in Hle. inversion Hle; subst. assumption.
        - rewrite ic_os in Hle. inversion Hle as [|? ? ? ? _ G]; subst. inversion G; subst. assumption. }
      assert (Hlt' : forall c, In c Ln -> before c cs).
      { intros c Hc. destruct (Hlt c Hc) as (x & y & -> & Hx). exists x, y, inc', dec.
        split; [reflexivity|]. split; [reflexivity|]. split; [lia|].
        destruct (le_lt_dec y dec) as [Hy|Hy]; [|exact Hy]. exfalso.
        apply (Hun [x; y]); [apply in_or_app; now right|]. unfold cs, vle. repeat constructor; [lia|exact Hy]. }
      assert (Hs' : ForallOrdPairs before (Ln ++ [cs])) by (apply FOP_snoc; assumption).
      destruct (st_ext _ _ _ _ _ HS m) as [exts Hexts]; [apply Hm|]. rewrite Hcs in Hexts.
      assert (Y1 : forall a, A a -> F a) by (intros a Ha; apply Ha).
      assert (Y2 : vm_max_orig (p_vm (s_prob s4)) <= vm_max_enc (p_vm (s_prob s4))) by apply (k_inv _ _ _ _ _ K4).
      assert (Y3 : ipareto F (p_objs (s_prob s4)) cs) by (rewrite Eos4; exact Hpar).
      assert (Y4 : externalize_all (p_objs (s_prob s4)) cs = Some exts) by (rewrite Eos4; exact Hexts).
      assert (Y5 : blk_ok F (s_opts s4) (p_objs (s_prob s4)) (vm_max_orig (p_vm (s_prob s4))))
        by (rewrite Eos4, Emo4, Eo4; apply HS).
      assert (Y6 : 2 ^ Datatypes.S (vm_max_orig (p_vm (s_prob s4))) <= B) by (rewrite Emo4; apply HS).
      assert (Y7 : asm_ok SP (s_prob s4) A T (ls ++ ls2) cs).
      { constructor.
        - intros a Ha Hl. rewrite Eos4. apply lits_true_app in Hl. destruct Hl as [Hl1 Hl2].
          apply Hlow; [apply (inv_sound _ _ _ _ _ (k_inv _ _ _ _ _ K4)), Ha| |now apply S4].
          apply S2; [eapply ext_sat; eauto|exact Hl1].
        - intros a Ha Hsa Hx _ Hc. rewrite Eos4, ic_os in Hc. injection Hc as Hc0 Hc1'.
          apply lits_true_app. split.
          + apply C2; [apply Ha|now apply (ext_exact _ _ _ E24)|lia].
          + apply C4; [apply Ha|exact Hx|lia]. }
      assert (Y8 : exists m, sol_rep (vm_max_enc (p_vm (s_prob s4))) m sol2 /\ F m /\
                     ic (p_objs (s_prob s4)) m = cs).
      { exists m. rewrite Eme4, Eos4. split; [exact Hrep|]. split; [apply Hm|exact Hcs]. }
      apply wp_bind. eapply wp_mono;
        [exact (yield_run SP E HO F B A T cs (ls ++ ls2) exts s4 Y1 Y2 Y3 Y4 Y5 Y6 sol2 K4 Y7 Y8)| |].
      2:{ intros x s5 (X1 & X2 & X3 & A' & X4 & X5 & X6). rewrite Eos4, ?Emo4, ?Eo4 in *.
          split; [exact X1|]. split; [eapply rrel_trans; [exact R4|apply adv_rrel, X2]|].
          assert (HI : o_enum o = NoEnum -> exists D', incl D' (D0 ++ Ln) /\ Inv SP F (s_prob s5) (bk F os D') T).
          { intros Ho. exists (D0 ++ Ln). split; [apply incl_refl|]. eapply inv_iff; [exact X4|]. intros a. split; [apply X5|apply X6, Ho]. }
          destruct X3 as [X3|(nd & X3 & P5)].
          - exists news, Ln. split; [rewrite X3, (kp_front _ _ _ Hk4); exact Hf|].
            split; [now apply good_weak|]. auto.
          - exists (news ++ [nd]), (Ln ++ [cs]).
            split; [rewrite X3, (kp_front _ _ _ Hk4), Hf, app_assoc; reflexivity|].
            split; [apply Forall2_app_inv_len; [now apply good_weak|constructor; [exact P5|constructor]]|]. split; [exact Hs'|]. intros Ho. destruct (HI Ho) as (D' & HD & HI'). exists D'. split; [|exact HI']. rewrite app_assoc. intros d Hd. apply in_or_app. left. exact (HD d Hd). }
      intros [] s5 (nd & A' & F5 & P5 & K5 & Sh5 & A5 & En5 & Same5).
      rewrite Eos4, Emo4 in P5. rewrite Eos4 in Sh5. rewrite Eos4, Eo4 in En5. rewrite Eo4 in Same5.
      apply wp_ret, wp_bind, (wp_unwrap _ (dec, sol2)); [reflexivity|].
      pose proof (rrel_trans _ _ _ _ R4 (adv_rrel _ _ _ A5)) as R5.
      pose proof (adv_trans _ _ _ _ (kp_adv _ _ _ Hk4) A5) as Ha5.
      assert (Eos5 : p_objs (s_prob s5) = os) by (rewrite (adv_objs _ _ _ Ha5); exact Eos).
      assert (Hf5 : s_front s5 = s_front s0 ++ news ++ [nd]).
      { rewrite F5, (kp_front _ _ _ Hk4), Hf, app_assoc. reflexivity. }
      assert (Hen : enum_post o os F cs (nd_sols nd)).
      { destruct En5 as (E1 & E2 & E3). split; [exact E1|]. split; [|exact E3].
        destruct E2 as [E2|E2]; [|now right]. left. intros a Ha Hac. apply E2; [|exact Hac].
        split; [exact Ha|]. rewrite Hac. exact Hun. }
      assert (Hg' : good_pts (news ++ [nd]) (Ln ++ [cs])).
      { apply Forall2_app_inv_len; [exact Hg|constructor; [exact (conj P5 Hen)|constructor]]. }
      assert (HBX5 : forall x s', xok E B x -> keep s5 s' ->
        (o_enum o = NoEnum -> exists D', incl D' (D0 ++ Ln ++ [cs]) /\ Inv SP F (s_prob s') (bk F os D') T) -> BX x s').
      { intros x s' Hx Hk' HI'. eapply BX_keep; eauto. }
      assert (HI5 : o_enum o = NoEnum -> exists D', incl D' (D0 ++ Ln ++ [cs]) /\ Inv SP F (s_prob s5) (bk F os D') T).
      { intros Ho. exists (D0 ++ Ln). split; [rewrite app_assoc; apply incl_appl, incl_refl|]. eapply inv_iff; [apply K5|]. intros a. split; [apply Sh5|apply Same5, Ho]. }
      destruct (dec <=? lb1) eqn:Hdl.
      { (* the decreasing objective has reached its lower bound *)
        apply Nat.leb_le in Hdl. apply wp_bind, wp_log_end; [apply K5| |].
        2:{ intros x s6 Q6 G6. apply HBX5; [now apply good_xok|apply quiet_keep, Q6|].
            rewrite (qt_prob _ _ Q6). exact HI5. }
        intros s6 Q6 L6. apply wp_ret.
        split; [eapply rrel_trans; [exact R5|apply adv_rrel, (kp_adv _ _ _ (quiet_keep SP _ _ Q6))]|].
        exists (news ++ [nd]), (Ln ++ [cs]). split; [rewrite (kp_front _ _ _ (quiet_keep SP _ _ Q6)); exact Hf5|].
        split; [exact Hg'|]. split; [exact Hs'|]. split.
        - apply all_covered. intros a Ha. rewrite app_assoc in Ha. apply bk_app in Ha.
          destruct Ha as [Ha Hn]. apply (Hn cs); [now left|]. apply vle2. split; [now apply Hop1'|].
          specialize (Hof1 a (Y1 a Ha)). lia.
        - rewrite (qt_prob _ _ Q6). exact HI5. }
      (* block the found vector *)
      apply Nat.leb_gt in Hdl.
      eapply (wp_bound SP F A' 1 o1 (dec - 1) dec (or_err ErrEnc)); [exact K5|now rewrite Eos5| |lia|reflexivity|].
      { eapply lbok_le; [|eapply lbok_ext; [apply (rr_ext _ _ _ R5)|exact Hlb1]]. lia. }
      intros bl s6 K6 Hk6 S6 C6 V6.
      assert (Eos6 : p_objs (s_prob s6) = os) by (rewrite (adv_objs _ _ _ (kp_adv _ _ _ Hk6)); exact Eos5).
      apply wp_bind. eapply (wp_add_cut A' (bk F os (D0 ++ Ln ++ [cs]))); [exact K6| | | | | |].
      { intros v Hv. apply in_cls_vars in Hv. destruct Hv as (c & Hc & Hv). unfold cube_impl_cube in Hc.
        apply in_map_iff in Hc. destruct Hc as (l & <- & Hl). apply V6. cbn in Hv.
        destruct Hv as [<-|[]]. now apply in_map. }
      { intros a. rewrite app_assoc, bk_app. intros [Ha Hd]. destruct Sh5 as [_ Sh5].
        destruct (Sh5 a Ha) as [G|G]; [exact G|]. exfalso. apply (Hd cs); [now left|exact G]. }
      { intros a b Hab. eapply bk_icost; [apply K6|exact Eos6|exact Hab]. }
      { intros a Ha Hb. rewrite app_assoc, bk_app.
        split; [apply Sh5, (inv_sound _ _ _ _ _ (k_inv _ _ _ _ _ K6)), Ha|].
        intros d [<-|[]] Hv. apply vle2 in Hv. apply lits_true_units in Hb. specialize (S6 a Ha Hb). lia. }
      { intros a Ha Hsa Hx. rewrite app_assoc, bk_app in Ha. destruct Ha as [Ha Hn].
        apply lits_true_units, C6; [apply Ha|exact Hx|].
        destruct (le_lt_dec (icost o1 a) (dec - 1)) as [|Hgt]; [assumption|]. exfalso.
        apply (Hn cs); [now left|]. apply vle2. split; [now apply Hop1'|lia]. }
      intros s7 K7 Hk67. pose proof (keep_trans _ _ _ _ Hk6 Hk67) as Hk7.
      assert (HI7 : exists D', incl D' (D0 ++ Ln ++ [cs]) /\ Inv SP F (s_prob s7) (bk F os D') T) by (eexists; split; [apply incl_refl|apply K7]).
      apply wp_bind, wp_k_solve_assumps; [exact HO|apply K7| | |].
      - intros m8 s8 V8 L8 O8 Hm8 _. pose proof (K_solved _ _ _ _ _ _ V8 L8 K7) as K8.
        pose proof (keep_trans _ _ _ _ Hk7 (solved_keep SP _ _ V8)) as Hk8.
        destruct (K_next _ _ _ _ _ K8) as [NN1 NN2].
        apply wp_bind. eapply wp_oracle_solution; [exact O8|exact NN2|].
        assert (Hrep8 : sol_rep (vm_max_enc (p_vm (s_prob s8))) m8 (sol_of m8 (vm_next (p_vm (s_prob s8)) - 1)))
          by (eexists; split; [exact NN1|reflexivity]).
        apply wp_bind. eapply wp_get_cost; [exact K8| |exact Hrep8|].
        { rewrite (adv_objs _ _ _ (kp_adv _ _ _ Hk8)), Eos5. exact N0. }
        apply wp_ret. exists (unb (totals os) (D0 ++ Ln ++ [cs])). split.
        { eapply Nat.lt_le_trans; [|exact Hk]. rewrite app_assoc. apply unb_lt with (c := cs).
          - rewrite <- Hcs. apply ic_totals.
          - exact Hun.
          - now left. }
        split; [eapply rrel_trans; [exact R5|apply adv_rrel, Hk8]|].
        exists (news ++ [nd]), (Ln ++ [cs]). split; [exact K8|].
        split; [rewrite (kp_front _ _ _ Hk8); exact Hf5|]. split; [exact Hg'|]. split; [exact Hs'|].
        split; [|split; [|split; [|split; [lia|lia]]]].
        + intros c Hc. apply in_app_or in Hc. destruct Hc as [Hc|[<-|[]]].
          * destruct (Hlt c Hc) as (x & y & -> & Hx). exists x, y. split; [reflexivity|lia].
          * exists inc', dec. split; [reflexivity|lia].
        + exists m8. split; [exact Hrep8|]. split; [|reflexivity].
          apply (inv_sound _ _ _ _ _ (k_inv _ _ _ _ _ K7)), Hm8.
        + intros a Ha. rewrite app_assoc, bk_app in Ha. destruct Ha as [Ha Hn].
          specialize (Hop1' a Ha). destruct (Nat.eq_dec (icost o0 a) inc') as [Heq|]; [|lia]. exfalso.
          apply (Hn cs); [now left|]. apply vle2. split; [lia|]. apply Hop3'; [exact Ha|lia].
      - intros core s8 V8 L8 O8 Hcore Hent.
        pose proof (keep_trans _ _ _ _ Hk7 (solved_keep SP _ _ V8)) as Hk8.
        apply wp_bind, wp_log_end; [exact L8| |].
        2:{ intros x s9 Q9 G9. apply HBX5; [now apply good_xok|eapply keep_trans; [exact Hk8|apply quiet_keep, Q9]|].
            rewrite (qt_prob _ _ Q9), (sv_prob _ _ V8). auto. }
        intros s9 Q9 L9. apply wp_ret. pose proof (keep_trans _ _ _ _ Hk8 (quiet_keep SP _ _ Q9)) as Hk9.
        split; [eapply rrel_trans; [exact R5|apply adv_rrel, Hk9]|].
        exists (news ++ [nd]), (Ln ++ [cs]). split; [rewrite (kp_front _ _ _ Hk9); exact Hf5|].
        split; [exact Hg'|]. split; [exact Hs'|]. split.
        + apply all_covered. intros a Ha.
          destruct (inv_comp _ _ _ _ _ (k_inv _ _ _ _ _ K7) a Ha) as (m9 & _ & G2 & _).
          specialize (Hent m9 G2). apply clause_true_iff in Hent. destruct Hent as (l & Hl & _).
          apply Hcore in Hl. destruct Hl.
        + rewrite (qt_prob _ _ Q9), (sv_prob _ _ V8). auto.
      - intros x s8 V8 G8. apply HBX5; [now apply good_xok|eapply keep_trans; [exact Hk7|apply solved_keep, V8]|].
        rewrite (sv_prob _ _ V8). auto.
    Qed.

    Lemma bi_main_ok : K (bk F os D0) T s0 -> unb (totals os) D0 <= B ->
      (exists e0 e1, nth_error (p_encs (s_prob s0)) 0 = Some e0 /\ nth_error (p_encs (s_prob s0)) 1 = Some e1 /\
         oe_offset e0 = lb0 /\ oe_offset e1 = lb1) ->
      (forall a, F a -> lb0 <= icost o0 a) ->
      wp (bi_main E) (fun _ => BQ) BX s0.
    Proof.
      intros HK HB (e0 & e1 & He0 & He1 & Ho0 & Ho1) Hof0. unfold bi_main, bioptsat.
      assert (HX : forall x s', good_exit x -> solved s0 s' -> BX x s').
      { intros x s' G V. eapply BX_keep with (s := s0) (news := []) (Ln := []).
        - apply rrel_refl.
        - now rewrite app_nil_r.
        - constructor.
        - constructor.
        - apply solved_keep, V.
        - now apply good_xok.
        - intros _. exists D0. split; [rewrite app_nil_r; apply incl_refl|]. rewrite (sv_prob _ _ V). apply HK. }
      apply wp_bind, wp_log_start; [apply HK| |intros; apply HX; auto using quiet_solved].
      intros s1 Q1 L1. pose proof (K_quiet _ _ _ _ _ _ Q1 L1 HK) as K1.
      pose proof (qt_prob _ _ Q1) as Ep1.
      apply wp_bind, wp_gets, wp_bind, wp_guard.
      { rewrite Ep1, (wf_len _ _ _ (inv_wf _ _ _ _ _ (k_inv _ _ _ _ _ HK))). fold os. rewrite Hos. reflexivity. }
      apply wp_bind. unfold get_enc at 1. apply wp_bind, wp_gets, (wp_unwrap _ e0); [rewrite Ep1; exact He0|].
      apply wp_bind. unfold get_enc at 1. apply wp_bind, wp_gets, (wp_unwrap _ e1); [rewrite Ep1; exact He1|].
      rewrite Ho0, Ho1.
      apply wp_bind, wp_k_solve_assumps; [exact HO|exact L1| | |].
      - intros m s2 V2 L2 O2 Hm _. pose proof (K_solved _ _ _ _ _ _ V2 L2 K1) as K2.
        pose proof (solved_trans _ _ _ (quiet_solved _ _ Q1) V2) as V02.
        destruct (K_next _ _ _ _ _ K2) as [NN1 NN2].
        apply wp_bind. eapply wp_oracle_solution; [exact O2|exact NN2|].
        assert (Hrep : sol_rep (vm_max_enc (p_vm (s_prob s2))) m (sol_of m (vm_next (p_vm (s_prob s2)) - 1)))
          by (eexists; split; [exact NN1|reflexivity]).
        apply wp_bind. eapply wp_get_cost; [exact K2| |exact Hrep|].
        { rewrite (sv_prob _ _ V02). fold os. now rewrite Hos. }
        apply wp_loop_idx with (Inv := BI) (k := unb (totals os) D0).
        + intros k x s H. apply bi_body_ok, H.
        + split; [apply adv_rrel, (kp_adv _ _ _ (solved_keep SP _ _ V02))|].
          exists [], []. rewrite !app_nil_r. split; [exact K2|].
          split; [apply (kp_front _ _ _ (solved_keep SP _ _ V02))|]. split; [constructor|].
          split; [constructor|]. split; [intros ? []|]. split.
          * exists m. split; [exact Hrep|]. split; [|reflexivity].
            apply (inv_sound _ _ _ _ _ (k_inv _ _ _ _ _ K1)), Hm.
          * split; [|split; lia]. intros a Ha. apply Hof0, Ha.
        + intros k [[inc sol] lb] s (R & news & Ln & HK' & Hf & Hg & Hs & _) Hle.
          eapply BX_keep; [exact R|exact Hf|exact Hg|exact Hs|apply keep_refl| |].
          * right. split; [reflexivity|lia].
          * intros _. eexists. split; [apply incl_refl|apply HK'].
      - intros core s2 V2 L2 O2 Hcore Hent. apply wp_ret.
        pose proof (solved_trans _ _ _ (quiet_solved _ _ Q1) V2) as V02.
        split; [apply adv_rrel, (kp_adv _ _ _ (solved_keep SP _ _ V02))|]. exists [], [].
        rewrite !app_nil_r. split; [apply (kp_front _ _ _ (solved_keep SP _ _ V02))|].
        split; [constructor|]. split; [constructor|]. split.
        + apply all_covered. intros a Ha.
          destruct (inv_comp _ _ _ _ _ (k_inv _ _ _ _ _ K1) a Ha) as (m9 & _ & G2 & _).
          specialize (Hent m9 G2). apply clause_true_iff in Hent. destruct Hent as (l & Hl & _).
          apply Hcore in Hl. destruct Hl.
        + intros _. exists D0. split; [apply incl_refl|]. rewrite (sv_prob _ _ V02). apply HK.
      - intros x s2 V2 G2. apply HX; [exact G2|]. eapply solved_trans; [apply quiet_solved, Q1|exact V2].
    Qed.
  End Run.
End Bi.
