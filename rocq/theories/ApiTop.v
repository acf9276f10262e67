(** * Proofs of the statements about fronts and solutions *)
From Coq Require Import List Bool Arith Lia ZArith Permutation.
From Verif Require Import Base BaseLemmas Spec MTypes MKernel MPMinimal MLowerBounding MBiOptSat
  EncSpec Wp Sem Kern Yield PMin PMinTop LBTop Linsu BiTop Init ApiSpec Ext Blk Struct Book Api ApiThm FeasInv Intr.
Import ListNotations.

(** ** Loop bound in terms of the instance *)
Definition iter_bound (i : inst) : nat :=
  let w := map (fun r => wtotal (obj_iter (obj_new (fst r) (snd r) 0))) (in_objs i) in
  2 ^ n_orig i + 2 * list_sum w + length (grid w).

Lemma totals_build rs : forall k, totals (build_objs k rs) =
  map (fun r => wtotal (obj_iter (obj_new (fst r) (snd r) 0))) rs.
Proof.
  induction rs as [|r rs IH]; intros k; cbn; [reflexivity|]. rewrite IH. f_equal.
  unfold obj_new. destruct (fst r) as [|[l w] ls]; [reflexivity|]. now destruct (existsb _ _).
Qed.

Lemma wp_run {I A} (m : M I A) (Q : A -> st I -> Prop) (X : exit -> st I -> Prop) s : wp m Q X s ->
  match m s with (Done a, s') => Q a s' | (Exit x, s') => X x s' end.
Proof. exact (fun H => H). Qed.

(** ** A feasible instance has an optimal point *)
Lemma sum_lt_vle c d : vle c d -> c <> d -> list_sum c < list_sum d.
Proof.
  unfold vle. induction 1 as [|x y c d Hxy H IH]; intros Hne; [congruence|]. cbn.
  change (fold_right Nat.add 0) with list_sum.
  assert (G : list_sum c <= list_sum d).
  { clear - H. induction H; cbn; [lia|]. change (fold_right Nat.add 0) with list_sum. lia. }
  destruct (Nat.eq_dec x y) as [-> |]; [|lia].
  assert (Hcd : c <> d) by congruence. specialize (IH Hcd). lia.
Qed.
Lemma ipareto_exists (F : asg -> Prop) os : forall n a, F a -> list_sum (ic os a) <= n -> ~ ~ exists c, ipareto F os c.
Proof.
  induction n as [n IH] using lt_wf_ind. intros a Ha Hn H. apply H. exists (ic os a).
  split; [eauto|]. intros b Hb Hv.
  destruct (list_eq_dec Nat.eq_dec (ic os b) (ic os a)) as [He|Hne]; [exact He|]. exfalso.
  apply (IH (list_sum (ic os b))) with (a := b); auto. pose proof (sum_lt_vle _ _ Hv Hne). lia.
Qed.

(** Solutions over literals *)
Definition raw_lit (i : inst) (l : lit) : Prop := exists r, In r (in_objs i) /\ In l (map fst (fst r)).
Lemma hm_collect_keys {V} (ls : list (lit * V)) l : In l (map fst (hm_collect ls)) <-> In l (map fst ls).
Proof.
  split; [apply hm_collect_incl|]. unfold hm_collect.
  assert (G : forall m : list (lit * V), In l (map fst m) \/ In l (map fst ls) ->
    In l (map fst (fold_left (fun m kv => hm_insert (fst kv) (snd kv) m) ls m))).
  { induction ls as [|x ls IH]; cbn; intros m H; [tauto|]. apply IH. rewrite hm_insert_keys. intuition. }
  intros H. apply G. now right.
Qed.
Lemma obj_new_lits ls off k l : In l (map fst (obj_iter (obj_new ls off k))) <-> In l (map fst ls).
Proof.
  unfold obj_new. destruct ls as [|[l0 w] r]; [reflexivity|]. destruct (existsb _ _); cbn [obj_iter].
  - apply hm_collect_keys.
  - rewrite map_map. cbn [fst]. now rewrite map_id.
Qed.
Lemma obj_lit_raw i l : forall k, obj_lit (build_objs k (in_objs i)) l <-> raw_lit i l.
Proof.
  unfold raw_lit. induction (in_objs i) as [|r rs IH]; intros k; cbn [build_objs].
  - split; [intros (? & [] & _)|intros (? & [] & _)].
  - specialize (IH (S k)). split.
    + intros (ob & [<-|Ho] & Hl).
      * exists r. split; [now left|]. now apply obj_new_lits in Hl.
      * assert (G : exists r, In r rs /\ In l (map fst (fst r))) by (apply IH; exists ob; auto).
        destruct G as (r' & ? & ?). exists r'. split; [now right|assumption].
    + intros (r' & [<-|Hr] & Hl).
      * eexists. split; [now left|]. now apply obj_new_lits.
      * assert (G : obj_lit (build_objs (S k) rs) l) by (apply IH; eauto).
        destruct G as (ob & ? & ?). exists ob. split; [now right|assumption].
Qed.

Lemma Forall2_In_l {A B} (R : A -> B -> Prop) l l' a : Forall2 R l l' -> In a l -> exists b, R a b.
Proof. induction 1; intros []; [subst; eauto|auto]. Qed.

Section Top.
  Context {I : enc_impl} (SP : enc_spec I).
  Notation st := (st I).
  Variables (i : inst) (o : kopts).
  Hypothesis HI : inst_ok i.

  Lemma bound_eq (s : st) : fresh_st SP (in_cls i) (build_objs 0 (in_objs i)) (in_vm i) o s ->
    bound SP i s = iter_bound i.
  Proof.
    intros H. unfold bound, iter_bound, n_orig. rewrite (fs_caps _ _ _ _ _ _ H).
    rewrite (totals_build _ 0). lia.
  Qed.
  Lemma new_two (s : st) : alg_new ABiOptSat i o = Some s -> length (in_objs i) = 2.
  Proof.
    cbn. unfold bi_new. rewrite build_length. destruct (kernel_new _ _ _ _); destruct (length (in_objs i) =? 2) eqn:e; try discriminate.
    intros _. now apply Nat.eqb_eq.
  Qed.

  (** ** First calls *)
  Section First.
    Hypothesis HE : enum_ok i o.
    Variables (al : alg) (s0 : st).
    Hypothesis Hnew : alg_new al i o = Some s0.

    Lemma new_fresh : fresh_st SP (in_cls i) (build_objs 0 (in_objs i)) (in_vm i) o s0.
    Proof. eapply alg_new_start; eauto. Qed.
    Lemma new_start : start SP i o s0.
    Proof. apply (fresh_start SP i o), new_fresh. Qed.
    Lemma new_bi : al = ABiOptSat -> bi_start i s0.
    Proof.
      intros Hal. eapply (fresh_bi SP i o); [|apply new_fresh]. apply (new_two s0). now rewrite <- Hal.
    Qed.

    Lemma top_first E l : oracle_ok E -> lims_pos l ->
      match alg_solve al E l s0 with
      | (Done _, s') => good_first i o s0 al s'
      | (Exit x, s') => xok E (iter_bound i) x /\ sound_front i (s_front s')
      end.
    Proof.
      intros HO Hl. pose proof (wp_run _ _ _ _ (first_ok SP i o HI HE s0 new_start al E l new_bi HO Hl)) as H.
      destruct (alg_solve al E l s0) as [[[]|x] s']; [exact H|].
      destruct H as (H1 & Ln & H2 & H3 & _). split.
      - rewrite <- (bound_eq s0 new_fresh). exact H1.
      - eapply (pts_sound SP i o HI s0 new_start); eauto.
    Qed.

    Lemma top_done E l s' : oracle_ok E -> lims_pos l -> alg_solve al E l s0 = (Done tt, s') ->
      exact_front i (s_front s') /\ sound_front i (s_front s').
    Proof.
      intros HO Hl H. pose proof (top_first E l HO Hl) as G. rewrite H in G.
      exact (first_done SP i o HI s0 new_start al s' G).
    Qed.
    Lemma top_sound E l : oracle_ok E -> lims_pos l -> sound_front i (s_front (snd (alg_solve al E l s0))).
    Proof.
      intros HO Hl. pose proof (top_first E l HO Hl) as G.
      destruct (alg_solve al E l s0) as [[[]|x] s'] eqn:e; cbn [snd]; [|tauto].
      now destruct (top_done E l s' HO Hl e).
    Qed.
    Lemma top_term E : oracle_ok E -> calm E -> iter_bound i < ev_fuel E ->
      exists s', alg_solve al E lims_none s0 = (Done tt, s').
    Proof.
      intros HO Hc Hf. assert (Hl : lims_pos lims_none) by (repeat split; discriminate).
      pose proof (top_first E lims_none HO Hl) as G.
      pose proof (wp_run _ _ _ _ (calm_solve SP E Hc al s0)) as C.
      destruct (alg_solve al E lims_none s0) as [[[]|x] s']; [eauto|]. exfalso.
      destruct G as [G _]. unfold calmX in C. destruct G as [G|[-> G]]; [|lia].
      destruct x as [t|[]| |]; cbn in *; tauto.
    Qed.

    (** *** Enumeration *)
    Lemma top_enum_all E l s' : oracle_ok E -> lims_pos l -> alg_solve al E l s0 = (Done tt, s') ->
      o_enum o = Solutions None -> forall nd, In nd (s_front s') ->
      NoDup (nd_sols nd) /\ forall sol, In sol (nd_sols nd) <->
        valid_solution (in_cls i) (in_objs i) (n_orig i) (nd_costs nd) sol.
    Proof.
      intros HO Hl H Hen nd Hin. pose proof (top_first E l HO Hl) as G. rewrite H in G.
      destruct G as (Ln & H1 & _). destruct (Forall2_In_l _ _ _ nd H1 Hin) as (c & HP & (_ & [HC|(k & Hk & _)] & _)).
      - split; [apply HP|]. eapply (enum_all SP i o HI HE s0 new_start); eauto.
      - rewrite Hen in Hk. discriminate.
    Qed.
    Lemma top_enum_limit E l s' k : oracle_ok E -> lims_pos l -> alg_solve al E l s0 = (Done tt, s') ->
      o_enum o = Solutions (Some k) \/ o_enum o = PMCSs (Some k) -> forall nd, In nd (s_front s') ->
      length (nd_sols nd) <= Nat.max 1 k.
    Proof.
      intros HO Hl H Hen nd Hin. pose proof (top_first E l HO Hl) as G. rewrite H in G.
      destruct G as (Ln & H1 & _). destruct (Forall2_In_l _ _ _ nd H1 Hin) as (c & HP & (HL & _ & _)).
      apply HL. destruct Hen as [-> | ->]; reflexivity.
    Qed.
    Lemma top_enum_count E l s' k : oracle_ok E -> lims_pos l -> alg_solve al E l s0 = (Done tt, s') ->
      o_enum o = Solutions (Some k) -> forall nd, In nd (s_front s') ->
      forall all, NoDup all -> (forall sol, In sol all <->
        valid_solution (in_cls i) (in_objs i) (n_orig i) (nd_costs nd) sol) ->
      NoDup (nd_sols nd) /\ length (nd_sols nd) = Nat.min (Nat.max 1 k) (length all).
    Proof.
      intros HO Hl H Hen nd Hin all HN Hall. pose proof (top_first E l HO Hl) as G. rewrite H in G.
      destruct G as (Ln & H1 & _). destruct (Forall2_In_l _ _ _ nd H1 Hin) as (c & HP & (HL & HC & _)).
      split; [apply HP|].
      destruct (pt_sound SP i o HI s0 new_start nd c HP) as (_ & Hne & HN' & Hs).
      assert (Hle : length (nd_sols nd) <= length all).
      { apply NoDup_incl_length; [exact HN'|]. intros sol Hsol. apply Hall, Hs, Hsol. }
      assert (Hk : length (nd_sols nd) <= Nat.max 1 k) by (apply HL; now rewrite Hen).
      assert (H1' : 1 <= length (nd_sols nd)) by (destruct (nd_sols nd); [congruence|cbn; lia]).
      destruct HC as [HC|(k' & Hk' & Hge)].
      - assert (length all <= length (nd_sols nd)); [|lia].
        apply NoDup_incl_length; [exact HN|]. intros sol Hsol.
        apply (enum_all SP i o HI HE s0 new_start nd c _ Hen HP HC), Hall, Hsol.
      - rewrite Hen in Hk'. injection Hk' as <-. lia.
    Qed.
    Lemma top_pmcs E l s' : oracle_ok E -> lims_pos l -> alg_solve al E l s0 = (Done tt, s') ->
      o_enum o = PMCSs None -> forall nd, In nd (s_front s') ->
      (forall a, feasible (in_cls i) a -> costs (in_objs i) a = nd_costs nd ->
         exists sol, In sol (nd_sols nd) /\
           forall x, raw_lit i x -> lit_value sol x = Some true -> lit_true a x = true) /\
      ForallOrdPairs (fun s1 s2 => exists x, raw_lit i x /\ lit_value s1 x = Some true /\
         lit_value s2 x = Some false) (nd_sols nd).
    Proof.
      intros HO Hl H Hen nd Hin. pose proof (top_first E l HO Hl) as G. rewrite H in G.
      destruct G as (Ln & H1 & _). destruct (Forall2_In_l _ _ _ nd H1 Hin) as (c & HP & (_ & HC & HOr)).
      pose proof (fs_objs _ _ _ _ _ _ new_fresh) as Hos. rewrite Hos in *.
      destruct HC as [HC|(k & Hk & _)]; [|rewrite Hen in Hk; discriminate]. split.
      - intros a Ha Hc. destruct (pt_costs SP i o HI s0 new_start nd c) as (b & Hb & Hbc & He).
        { rewrite Hos. exact HP. }
        rewrite Hos in Hbc.
        assert (Hac : ic (build_objs 0 (in_objs i)) a = c).
        { rewrite <- Hbc. apply (ic_eq _ (io_ok _ HI) 0). congruence. }
        destruct (HC a Ha Hac) as (sol & cl & Hs & Hcl & Hf). exists sol. split; [exact Hs|].
        intros x Hx Hv. unfold yield_block_clause in Hcl. rewrite Hen in Hcl.
        rewrite (pmcs_block_iff _ _ _ _ Hcl) in Hf. apply Hf; [|exact Hv]. now apply obj_lit_raw.
      - unfold ordered in HOr. clear - HOr Hen. induction HOr as [|s1 ss H _ IH]; constructor; [|exact IH].
        eapply Forall_impl; [|exact H]. intros s2 Hs. cbv beta in Hs.
        destruct (pmcs_block (build_objs 0 (in_objs i)) s1) as (cl & Hcl & Hin).
        unfold yield_block_clause in Hs. rewrite Hen in Hs. destruct (Hs cl Hcl) as (x & Hx & Hv).
        apply Hin in Hx. destruct Hx as (x' & -> & Ho & Hv1). exists x'.
        split; [now apply (obj_lit_raw i x' 0)|]. split; [exact Hv1|].
        unfold lit_value in *. rewrite lvar_lnot in Hv. destruct (var_value s2 (lvar x')) as [b|]; [|discriminate].
        cbn in *. f_equal. injection Hv as Hv. destruct (lneg x'), b; cbn in *; congruence.
    Qed.
    Lemma top_order E l s' : oracle_ok E -> lims_pos l -> alg_solve al E l s0 = (Done tt, s') ->
      al = ABiOptSat ->
      ForallOrdPairs (fun p q => exists x y x' y', nd_costs p = [x; y] /\ nd_costs q = [x'; y'] /\
        (x < x')%Z /\ (y' < y)%Z) (s_front s').
    Proof.
      intros HO Hl H Hal. pose proof (top_first E l HO Hl) as G. rewrite H in G.
      destruct G as (Ln & H1 & _ & _ & H4). specialize (H4 Hal).
      assert (H2 : Forall2 (pt_ok (Feas i) (p_objs (s_prob s0)) (vm_max_orig (in_vm i))) (s_front s') Ln).
      { exact (good_weak_pts i o s0 _ _ H1). }
      clear H1 H. revert H2 H4. generalize (s_front s'). intros f H2. clear s'.
      assert (P : forall p q c d, pt_ok (Feas i) (p_objs (s_prob s0)) (vm_max_orig (in_vm i)) p c ->
        pt_ok (Feas i) (p_objs (s_prob s0)) (vm_max_orig (in_vm i)) q d -> before c d ->
        exists x y x' y', nd_costs p = [x; y] /\ nd_costs q = [x'; y'] /\ (x < x')%Z /\ (y' < y)%Z).
      { intros p q c d Hp Hq Hb.
        destruct (pt_costs SP i o HI s0 new_start p c Hp) as (a & Ha & Hac & ->).
        destruct (pt_costs SP i o HI s0 new_start q d Hq) as (b & Hb' & Hbd & ->).
        rewrite (fs_objs _ _ _ _ _ _ new_fresh) in Hac, Hbd. subst al.
        pose proof (new_two s0 Hnew) as H2'. pose proof (io_ok _ HI) as Hok.
        destruct (in_objs i) as [|r0 [|r1 [|]]]; try discriminate.
        inversion Hok as [|? ? Ok0 Hok1]; subst. inversion Hok1 as [|? ? Ok1 _]; subst.
        destruct Hb as (x & y & x' & y' & Ec & Ed & Hx & Hy). cbn [build_objs ic map] in Ec, Ed.
        injection Ec as <- <-. injection Ed as <- <-. cbn [costs map].
        do 4 eexists. split; [reflexivity|]. split; [reflexivity|]. split.
        - apply Z.lt_nge. rewrite <- (icost_le r0 0 b a Ok0). lia.
        - apply Z.lt_nge. rewrite <- (icost_le r1 1 a b Ok1). lia. }
      induction H2 as [|p c f L Hp Hf IH]; intros H4; [constructor|]. inversion H4; subst.
      constructor; [|auto]. apply Forall_forall. intros q Hq.
      destruct (Forall2_In_l _ _ _ q Hf Hq) as (d & Hd). 
      assert (Hd' : exists d, In d L /\ pt_ok (Feas i) (p_objs (s_prob s0)) (vm_max_orig (in_vm i)) q d).
      { clear - Hf Hq. induction Hf; [destruct Hq|]. destruct Hq as [<-|Hq]; [eexists; split; [now left|eassumption]|].
        destruct (IHHf Hq) as (d & ? & ?). exists d. split; [now right|assumption]. }
      destruct Hd' as (d' & Hd1 & Hd2).
      match goal with HH : Forall (before c) L |- _ => rewrite Forall_forall in HH; specialize (HH d' Hd1) end.
      eapply P; eauto.
    Qed.
  End First.

  Lemma exact_nonempty f : exact_front i f -> f = [] -> forall a, ~ feasible (in_cls i) a.
  Proof.
    intros [_ Hx] -> a Ha.
    apply (ipareto_exists (fun a => sat a (in_cls i)) (build_objs 0 (in_objs i)) _ a Ha (Nat.le_refl _)).
    intros (c & Hc). pose proof Hc as [(b & Hb & <-) _].
    apply (ipareto_iff _ (io_ok _ HI) (in_cls i) 0 b Hb) in Hc. apply Hx in Hc. exact Hc.
  Qed.
  Lemma exact_empty f : exact_front i f -> (forall a, ~ feasible (in_cls i) a) -> f = [].
  Proof.
    intros [_ Hx] Hn. destruct f as [|p f]; [reflexivity|]. exfalso.
    destruct (proj1 (Hx (nd_costs p)) (or_introl eq_refl)) as [(a & Ha & _) _]. exact (Hn a Ha).
  Qed.

  (** ** Histories *)
  Lemma enum_none : o_enum o = NoEnum -> enum_ok i o.
  Proof. unfold enum_ok. now intros ->. Qed.

  Lemma GB_run s0 h : start SP i o s0 -> bi_start i s0 -> o_enum o = NoEnum -> forall s : st, run_ok h ->
    GB SP i o s0 s -> GB SP i o s0 (run ABiOptSat h s).
  Proof.
    intros H0 Hb Hn. pose proof (enum_none Hn) as HE.
    induction h as [|x h IH]; intros s Hok HG; cbn [run]; [exact HG|].
    inversion Hok as [|? ? Hx Hh]; subst. apply IH; [exact Hh|]. destruct x as [E l| |]; cbn [run_step].
    - destruct Hx as [HO Hl]. destruct HG as [G1 G2 G3 _ (L & D & G4 & GD & G5)].
      pose proof (wp_run _ _ _ _ (bi_call SP i o HI HE s0 H0 D E l s Hb G1 G2 G3 G5 HO Hl)) as C.
      assert (HD : forall D' Ln, incl D' (D ++ Ln) -> incl D' (L ++ Ln)).
      { intros D' Ln HD d Hd. apply HD, in_app_or in Hd. apply in_or_app. destruct Hd; auto. }
      cbn [alg_solve]. destruct (bi_solve E l s) as [[[]|y] s']; cbn [snd].
      + destruct C as (C1 & C2 & C3 & news & Ln & C4 & C5 & _ & _ & C6).
        destruct (C6 Hn) as (D' & HD' & C7).
        assert (P : Forall2 (pt_ok (Feas i) (p_objs (s_prob s0)) (vm_max_orig (in_vm i))) (s_front s') (L ++ Ln)).
        { rewrite C4. apply Forall2_app_inv_len; [exact G4|]. exact (good_weak_pts i o s0 _ _ C5). }
        constructor; auto; [eexists; exact P|]. exists (L ++ Ln), D'. auto.
      + destruct C as (_ & C1 & C2 & C3 & news & Ln & C4 & C5 & _ & C6).
        destruct (C6 Hn) as (D' & HD' & C7).
        assert (P : Forall2 (pt_ok (Feas i) (p_objs (s_prob s0)) (vm_max_orig (in_vm i))) (s_front s') (L ++ Ln)).
        { rewrite C4. apply Forall2_app_inv_len; [exact G4|exact C5]. }
        constructor; auto; [eexists; exact P|]. exists (L ++ Ln), D'. auto.
    - destruct HG. constructor; auto.
    - destruct HG. constructor; auto.
  Qed.

  Lemma top_history al (s0 : st) h : al <> ABiOptSat -> o_enum o = NoEnum -> alg_new al i o = Some s0 -> run_ok h ->
    sound_front i (s_front (run al h s0)).
  Proof.
    intros Hal Hn Hnew Hok. pose proof (enum_none Hn) as HE. pose proof (new_start al s0 Hnew) as H0.
    destruct (run_noenum SP i o HI HE s0 H0 al h Hn Hal [] s0 Hok) as (L & G).
    { eapply G_weak. apply (G_start SP i o s0 H0 al). }
    eapply (pts_sound SP i o HI s0 H0); [apply G|apply G].
  Qed.
  Lemma top_history_bi (s0 : st) h : o_enum o = NoEnum -> alg_new ABiOptSat i o = Some s0 -> run_ok h ->
    Forall (sound_point i) (s_front (run ABiOptSat h s0)).
  Proof.
    intros Hn Hnew Hok. pose proof (enum_none Hn) as HE. pose proof (new_start _ s0 Hnew) as H0.
    destruct (GB_run s0 h H0 (new_bi _ s0 Hnew eq_refl) Hn s0 Hok (GB_start SP i o s0 H0)) as [_ _ _ (L & G) _].
    induction G; constructor; [eapply (pt_sound SP i o HI s0 H0); eauto|assumption].
  Qed.
  (** Every call in a history ends properly *)
  Lemma top_exits al (s0 : st) h E l : o_enum o = NoEnum -> alg_new al i o = Some s0 -> run_ok h ->
    oracle_ok E -> lims_pos l ->
    match fst (alg_solve al E l (run al h s0)) with Done _ => True | Exit x => xok E (iter_bound i) x end.
  Proof.
    intros Hn Hnew Hok HO Hl. pose proof (enum_none Hn) as HE. pose proof (new_start _ s0 Hnew) as H0.
    rewrite <- (bound_eq s0 (new_fresh al s0 Hnew)).
    assert (Dec : al = ABiOptSat \/ al <> ABiOptSat) by (destruct al; (now left) || (right; discriminate)).
    destruct Dec as [-> | Hal].
    - pose proof (new_bi _ s0 Hnew eq_refl) as Hb.
      destruct (GB_run s0 h H0 Hb Hn s0 Hok (GB_start SP i o s0 H0)) as [G1 G2 G3 _ (L & D & _ & _ & G5)].
      pose proof (wp_run _ _ _ _ (bi_call SP i o HI HE s0 H0 D E l _ Hb G1 G2 G3 G5 HO Hl)) as C.
      cbn [alg_solve]. destruct (bi_solve E l _) as [[[]|y] s']; cbn [fst]; tauto.
    - destruct (run_noenum SP i o HI HE s0 H0 al h Hn Hal [] s0 Hok) as (L & G).
      { eapply G_weak. apply (G_start SP i o s0 H0 al). }
      pose proof (wp_run _ _ _ _ (call_ok SP i o HI HE s0 H0 al E l false L _ G HO Hl Hal)) as C.
      destruct (alg_solve al E l _) as [[[]|y] s']; cbn [fst]; tauto.
  Qed.

  (** ** Again after a finished run *)
  Lemma top_again al (s0 : st) E l s1 h : enum_ok i o -> al <> ABiOptSat -> alg_new al i o = Some s0 ->
    oracle_ok E -> lims_pos l -> alg_solve al E l s0 = (Done tt, s1) -> run_ok h ->
    s_front (run al h s1) = s_front s1 /\
    forall E', oracle_ok E' -> calm E' -> iter_bound i < ev_fuel E' ->
      exists s2, alg_solve al E' lims_none (run al h s1) = (Done tt, s2) /\ s_front s2 = s_front s1.
  Proof.
    intros HE Hal Hnew HO Hl Hs Hok. pose proof (new_start _ s0 Hnew) as H0.
    pose proof (wp_run _ _ _ _ (call_ok SP i o HI HE s0 H0 al E l true [] s0 (G_start SP i o s0 H0 al) HO Hl Hal)) as C.
    rewrite Hs in C. destruct C as (news & Ln & _ & _ & C1 & C2 & C3). cbn [app] in *.
    assert (HF : finished SP i o s0 al s1).
    { exists Ln. split; [eapply G_weak; eauto|]. split; [apply C3; reflexivity|exact C2]. }
    destruct (run_finished SP i o HI HE s0 H0 al h Hal s1 Hok HF) as [R1 R2]. split; [exact R1|].
    intros E' HO' Hc Hf. assert (Hl' : lims_pos lims_none) by (repeat split; discriminate).
    pose proof (wp_run _ _ _ _ (solve_finished SP i o HI HE s0 H0 al E' lims_none _ Hal HO' Hl' R2)) as G.
    pose proof (wp_run _ _ _ _ (calm_solve SP E' Hc al (run al h s1))) as C'.
    destruct (alg_solve al E' lims_none (run al h s1)) as [[[]|x] s2].
    - exists s2. split; [reflexivity|]. destruct G. congruence.
    - exfalso. destruct G as [G _]. rewrite (bound_eq s0 (new_fresh al s0 Hnew)) in G.
      unfold calmX in C'. destruct G as [G|[-> G]]; [|lia].
      destruct x as [t|[]| |]; cbn in *; tauto.
  Qed.
End Top.

(** An exit of a call that is part of the API: terminated for a reason, a failing logger or a
    failing oracle; [ENoFuel] only if the model was given fewer loop iterations than the
    bound. *)
Definition proper_exit (i : inst) (E : environ) (r : res unit) : Prop :=
  match r with
  | Done _ => True
  | Exit (ETerm _) => True
  | Exit (EErr ErrLogger) | Exit (EErr ErrOracle) => True
  | Exit ENoFuel => ev_fuel E <= iter_bound i
  | Exit _ => False
  end.
Lemma xok_proper i E x : xok E (iter_bound i) x -> proper_exit i E (Exit x).
Proof. intros [H|[-> H]]; [destruct x as [|[]| |]; cbn in *; tauto|exact H]. Qed.

(** ** Statements over [first_solve] *)
Lemma first_inv {I} al i o E l r (s' : st I) : first_solve al i o E l = Some (r, s') ->
  exists s, alg_new al i o = Some s /\ alg_solve al E l s = (r, s').
Proof. unfold first_solve. destruct (alg_new al i o) as [s|]; [|discriminate]. intros [= H]. eauto. Qed.

Lemma top_exact {I} (SP : enc_spec I) i o : inst_ok i -> enum_ok i o -> forall al E l (s' : st I),
  oracle_ok E -> lims_pos l -> first_solve al i o E l = Some (Done tt, s') ->
  exact_front i (s_front s') /\ sound_front i (s_front s') /\
  (s_front s' = [] <-> forall a, ~ feasible (in_cls i) a).
Proof.
  intros HI HE al E l s' HO Hl H. destruct (first_inv _ _ _ _ _ _ _ H) as (s & Hn & Hs).
  destruct (top_done SP i o HI HE al s Hn E l s' HO Hl Hs) as [H1 H2]. split; [exact H1|]. split; [exact H2|].
  split; [now apply exact_nonempty|now apply exact_empty].
Qed.
Lemma top_bi_complete I (SP : enc_spec I) i o E l (s' : st I) :
  inst_ok i -> enum_ok i o -> oracle_ok E -> lims_pos l ->
  first_solve ABiOptSat i o E l = Some (Done tt, s') ->
  exact_front i (s_front s') /\ sound_front i (s_front s') /\
  ForallOrdPairs (fun p q => exists x y x' y', nd_costs p = [x; y] /\ nd_costs q = [x'; y'] /\
    (x < x')%Z /\ (y' < y)%Z) (s_front s') /\
  (s_front s' = [] <-> forall a, ~ feasible (in_cls i) a).
Proof.
  intros HI HE HO Hl H. destruct (top_exact SP i o HI HE _ E l s' HO Hl H) as (H1 & H2 & H3).
  split; [exact H1|]. split; [exact H2|]. split; [|exact H3].
  destruct (first_inv _ _ _ _ _ _ _ H) as (s & Hn & Hs).
  exact (top_order SP i o HI HE _ s Hn E l s' HO Hl Hs eq_refl).
Qed.
Lemma top_terminates {I} (SP : enc_spec I) i o : inst_ok i -> enum_ok i o -> forall al E,
  (al = ABiOptSat -> length (in_objs i) = 2) -> oracle_ok E -> calm E -> iter_bound i < ev_fuel E ->
  exists s', first_solve (I := I) al i o E lims_none = Some (Done tt, s').
Proof.
  intros HI HE al E H2 HO HC HF. destruct (alg_new_some SP i o HI al H2) as (s & Hs).
  destruct (top_term SP i o HI HE al s Hs E HO HC HF) as (s' & H). exists s'.
  unfold first_solve. rewrite Hs, H. reflexivity.
Qed.
Lemma top_agree I1 (S1 : enc_spec I1) I2 (S2 : enc_spec I2) i al1 al2 o1 o2 E1 E2 l1 l2 (s1 : st I1) (s2 : st I2) :
  inst_ok i -> enum_ok i o1 -> enum_ok i o2 -> oracle_ok E1 -> oracle_ok E2 -> lims_pos l1 -> lims_pos l2 ->
  first_solve al1 i o1 E1 l1 = Some (Done tt, s1) -> first_solve al2 i o2 E2 l2 = Some (Done tt, s2) ->
  Permutation (map nd_costs (s_front s1)) (map nd_costs (s_front s2)).
Proof.
  intros HI HE1 HE2 HO1 HO2 Hl1 Hl2 H1 H2.
  destruct (top_exact S1 i o1 HI HE1 _ E1 l1 s1 HO1 Hl1 H1) as ([N1 X1] & _).
  destruct (top_exact S2 i o2 HI HE2 _ E2 l2 s2 HO2 Hl2 H2) as ([N2 X2] & _).
  apply NoDup_Permutation; auto. intros c. now rewrite X1, X2.
Qed.
Lemma top_feasible I (SP : enc_spec I) i o al h (s : st I) :
  inst_ok i -> alg_new al i o = Some s ->
  Forall (fun x => match x with Solve E l => oracle_ok E | _ => True end) h ->
  forall p, In p (s_front (run al h s)) ->
    nd_sols p <> [] /\ forall sol, In sol (nd_sols p) ->
      valid_solution (in_cls i) (in_objs i) (n_orig i) (nd_costs p) sol.
Proof.
  intros HI Hn Hh p Hp. pose proof (core_run SP i HI al h _ s Hh (core_new SP i HI al o s Hn)) as C.
  pose proof (co_front _ _ _ C) as F. rewrite Forall_forall in F. exact (F p Hp).
Qed.
Lemma top_C12 I (SP : enc_spec I) i o al E l (s' : st I) :
  inst_ok i -> enum_ok i o -> oracle_ok E -> lims_pos l -> o_enum o = Solutions None ->
  first_solve al i o E l = Some (Done tt, s') ->
  forall p, In p (s_front s') -> NoDup (nd_sols p) /\
    forall sol, In sol (nd_sols p) <-> valid_solution (in_cls i) (in_objs i) (n_orig i) (nd_costs p) sol.
Proof.
  intros HI HE HO Hl Hen H. destruct (first_inv _ _ _ _ _ _ _ H) as (s & Hn & Hs).
  exact (top_enum_all SP i o HI HE al s Hn E l s' HO Hl Hs Hen).
Qed.
Lemma top_C13 I (SP : enc_spec I) i o al E l (s' : st I) k :
  inst_ok i -> enum_ok i o -> oracle_ok E -> lims_pos l ->
  o_enum o = Solutions (Some k) \/ o_enum o = PMCSs (Some k) ->
  first_solve al i o E l = Some (Done tt, s') ->
  forall p, In p (s_front s') -> length (nd_sols p) <= Nat.max 1 k.
Proof.
  intros HI HE HO Hl Hen H. destruct (first_inv _ _ _ _ _ _ _ H) as (s & Hn & Hs).
  exact (top_enum_limit SP i o HI HE al s Hn E l s' k HO Hl Hs Hen).
Qed.
Lemma top_C13_count I (SP : enc_spec I) i o al E l (s' : st I) k :
  inst_ok i -> enum_ok i o -> oracle_ok E -> lims_pos l -> o_enum o = Solutions (Some k) ->
  first_solve al i o E l = Some (Done tt, s') ->
  forall p, In p (s_front s') -> forall all, NoDup all ->
    (forall sol, In sol all <-> valid_solution (in_cls i) (in_objs i) (n_orig i) (nd_costs p) sol) ->
    NoDup (nd_sols p) /\ length (nd_sols p) = Nat.min (Nat.max 1 k) (length all).
Proof.
  intros HI HE HO Hl Hen H. destruct (first_inv _ _ _ _ _ _ _ H) as (s & Hn & Hs).
  exact (top_enum_count SP i o HI HE al s Hn E l s' k HO Hl Hs Hen).
Qed.
Lemma top_C55 I (SP : enc_spec I) i o al E l (s' : st I) :
  inst_ok i -> enum_ok i o -> oracle_ok E -> lims_pos l ->
  first_solve al i o E l = Some (Done tt, s') ->
  exact_front i (s_front s') /\ sound_front i (s_front s').
Proof.
  intros HI HE HO Hl H. destruct (top_exact SP i o HI HE al E l s' HO Hl H) as (H1 & H2 & _). auto.
Qed.
Lemma top_C14 I (SP : enc_spec I) i o al E l (s' : st I) :
  inst_ok i -> objs_orig i -> oracle_ok E -> lims_pos l -> o_enum o = PMCSs None ->
  first_solve al i o E l = Some (Done tt, s') ->
  exact_front i (s_front s') /\
  forall p, In p (s_front s') ->
  (forall a, feasible (in_cls i) a -> costs (in_objs i) a = nd_costs p ->
     exists sol, In sol (nd_sols p) /\
       forall x, raw_lit i x -> lit_value sol x = Some true -> lit_true a x = true) /\
  ForallOrdPairs (fun s1 s2 => exists x, raw_lit i x /\ lit_value s1 x = Some true /\
     lit_value s2 x = Some false) (nd_sols p).
Proof.
  intros HI Ho HO Hl Hen H. assert (HE : enum_ok i o) by (unfold enum_ok; now rewrite Hen).
  split; [apply (top_C55 I SP i o al E l s' HI HE HO Hl H)|].
  destruct (first_inv _ _ _ _ _ _ _ H) as (s & Hn & Hs).
  exact (top_pmcs SP i o HI HE al s Hn E l s' HO Hl Hs Hen).
Qed.
Lemma top_new I (SP : enc_spec I) i o al :
  inst_ok i -> (al = ABiOptSat -> length (in_objs i) = 2) -> exists s, alg_new (I := I) al i o = Some s.
Proof. intros HI H. exact (alg_new_some SP i o HI al H). Qed.
Lemma top_no_panic_first I (SP : enc_spec I) i o al E l r (s' : st I) :
  inst_ok i -> enum_ok i o -> oracle_ok E -> lims_pos l ->
  first_solve al i o E l = Some (r, s') -> proper_exit i E r.
Proof.
  intros HI HE HO Hl H. destruct (first_inv _ _ _ _ _ _ _ H) as (s & Hn & Hs).
  pose proof (top_first SP i o HI HE al s Hn E l HO Hl) as G. rewrite Hs in G.
  destruct r as [|x]; [exact Logic.I|]. apply xok_proper, G.
Qed.
Lemma top_no_panic_history I (SP : enc_spec I) i o al h E l (s : st I) :
  inst_ok i -> o_enum o = NoEnum -> alg_new al i o = Some s -> run_ok h -> oracle_ok E -> lims_pos l ->
  proper_exit i E (fst (alg_solve al E l (run al h s))).
Proof.
  intros HI Hn Hs Hh HO Hl. pose proof (top_exits SP i o HI al s h E l Hn Hs Hh HO Hl) as G.
  destruct (fst _) as [|x]; [exact Logic.I|]. apply xok_proper, G.
Qed.
Lemma top_solve_again I (SP : enc_spec I) i o al E l (s1 : st I) h :
  inst_ok i -> enum_ok i o -> al <> ABiOptSat -> oracle_ok E -> lims_pos l ->
  first_solve al i o E l = Some (Done tt, s1) -> run_ok h ->
  s_front (run al h s1) = s_front s1 /\
  forall E', oracle_ok E' -> calm E' -> iter_bound i < ev_fuel E' ->
    exists s2, alg_solve al E' lims_none (run al h s1) = (Done tt, s2) /\ s_front s2 = s_front s1.
Proof.
  intros HI HE Hal HO Hl H Hh. destruct (first_inv _ _ _ _ _ _ _ H) as (s & Hn & Hs).
  exact (top_again SP i o HI al s E l s1 h HE Hal Hn HO Hl Hs Hh).
Qed.
