(** * The soft clauses that are handed to MaxPre after core boosting, in detail (for C87) *)
From Coq Require Import List Bool Arith Lia ZArith Permutation.
From Verif Require Import Base BaseLemmas Spec MTypes MKernel MPMinimal MLowerBounding MBiOptSat
  EncSpec Wp Sem Kern Yield PMin PMinTop Init ApiSpec Ext Blk Api ApiTop MOll TotSpec
  OllSide OllData OllThm OllRun OllMain CbMerge CbTop CbSpec CbApi MPrepro PreSpec MMaxPre MaxPreSpec
  MInpro InproSpec PreProofThm PreproThm MaxPreThm InproThm InproOkSpec ReformInv.
From Verif Require ProofCert.
Import ListNotations.

(** A soft clause: its literal, its weight and the output it stands for *)
Definition slot : Type := lit * nat * option reform_data.
Definition soft_of (x : slot) : clause * nat := let '(l, w, _) := x in ([lnot l], w).
Definition keys (xs : list slot) : list (nat * nat) :=
  flat_map (fun x : slot => match snd x with Some rd => [(rd_root rd, rd_oidx rd)] | None => [] end) xs.
Lemma keys_app xs ys : keys (xs ++ ys) = keys xs ++ keys ys.
Proof. unfold keys. apply flat_map_app. Qed.
Lemma in_keys xs root k : In (root, k) (keys xs) <-> exists l w rd, In (l, w, Some rd) xs /\ rd_root rd = root /\ rd_oidx rd = k.
Proof.
  unfold keys. rewrite in_flat_map. split.
  - intros ([[l w] [rd|]] & H1 & H2); [|destruct H2]. destruct H2 as [H2|[]]. injection H2 as <- <-. eauto 6.
  - intros (l & w & rd & H1 & <- & <-). exists (l, w, Some rd). split; [exact H1|]. now left.
Qed.
Definition sval (g : nat -> nat) (b : lit -> nat) (x : slot) : nat :=
  let '(l, w, r) := x in
  w * match r with Some rd => if rd_oidx rd <? g (rd_root rd) then 1 else 0 | None => b l end.
Definition svals g b (xs : list slot) : nat := list_sum (map (sval g b) xs).
Lemma svals_app g b xs ys : svals g b (xs ++ ys) = svals g b xs + svals g b ys.
Proof. unfold svals. now rewrite map_app, list_sum_app. Qed.
Lemma svals_perm g b xs ys : Permutation xs ys -> svals g b xs = svals g b ys.
Proof.
  unfold svals. induction 1; cbn [map]; rewrite ?ls_cons; [reflexivity|lia|lia|lia].
Qed.

Section Slots.
  Context {I : enc_impl} {SP : enc_spec I} {T : tot_impl I} (TS : tot_spec SP T).
  Notation db := (ti_db T).
  Notation int := (tb_int SP T TS).
  Notation tmax := (tb_max SP T TS).
  Notation out := (tb_out SP T TS).
  Notation gv := (gv TS).
  Variable F : asg -> Prop.
  Variable me : nat.
  Variable re : db -> db.
  Hypothesis HR : reset_enc_ok TS re.
  Hypothesis HK : reset_keeps TS re.
  Variables (ds1 ds2 : list db) (d : db) (ob : objective) (rf : reform).
  Hypothesis HF : Fin TS F ob me rf d.
  Hypothesis Hout : forall l rd, In (l, rd) (rf_refs rf) -> out d (rd_root rd) (rd_oidx rd) = Some l.
  Let d0 := re d.
  Let refs := rf_refs rf.

  Lemma fin0 : Fin TS F ob me rf d0.
  Proof. destruct (HR d) as (Hx & _). exact (fin_ext TS F ob me rf d d0 Hx HF). Qed.
  Lemma grown_ext d1 : grown TS d0 d1 -> tb_ext SP T TS d0 d1.
  Proof.
    induction 1 as [|d1 id k nv d2 l cl nv' H IH H1 H2 H3]; [intros id Hn; repeat split; auto|].
    eapply ext_trans_db; [exact IH|]. now destruct (tb_define_ok SP T TS _ _ _ _ _ _ _ _ H3 H1 H2) as (_ & Hx & _).
  Qed.
  (** roots belong to one literal *)
  Lemma root_inj l1 rd1 l2 rd2 : In (l1, rd1) refs -> In (l2, rd2) refs -> rd_root rd1 = rd_root rd2 -> (l1, rd1) = (l2, rd2).
  Proof.
    pose proof (fi_roots _ _ _ _ _ _ HF) as H. fold refs in H. clear - H. revert H.
    induction refs as [|[l rd] rs IH]; [intros _ []|]. cbn [map snd]. intros H. inversion H as [|? ? N1 N2]; subst.
    intros [E1|H1] [E2|H2] He.
    - congruence.
    - injection E1 as -> ->. destruct N1. rewrite He. apply in_map_iff. exists (l2, rd2). auto.
    - injection E2 as -> ->. destruct N1. rewrite <- He. apply in_map_iff. exists (l1, rd1). auto.
    - now apply IH.
  Qed.

  Definition slot_ok (d1 : db) (outs : list (lit * reform_data)) (x : slot) : Prop :=
    let '(l, w, r) := x in 0 < w /\
    match r with
    | Some rd => hm_get l outs = Some rd /\ int d0 (rd_root rd) /\ rd_oidx rd < tmax d0 (rd_root rd) /\
        out d1 (rd_root rd) (rd_oidx rd) = Some l /\ w <= rd_weight rd
    | None => hm_get l outs = None /\ lvar l <= me
    end.
  Definition SI (xs : list slot) (x : ip_state T) : Prop :=
    let '(d1, cnf, nx, outs, softs) := x in
    grown TS d0 d1 /\ Hand TS F me cnf nx (ds1 ++ d1 :: ds2) /\
    (forall l rd, hm_get l refs = Some rd -> hm_get l outs = Some rd) /\
    (forall l, lvar l <= me -> hm_get l refs = None -> hm_get l outs = None) /\
    softs = map soft_of xs /\ Forall (slot_ok d1 outs) xs /\ NoDup (keys xs).

  (** one more output *)
  Lemma output_slot xs x l0 root oidx tw w idx : SI xs x -> hm_get l0 refs = Some (mkRd root oidx tw) ->
    0 < w <= tw -> oidx <= idx < tmax d0 root -> ~ In (root, idx) (keys xs) ->
    exists l, SI (xs ++ [(l, if idx =? oidx then w else tw, Some (mkRd root idx tw))]) (ip_output T root oidx tw w x idx).
  Proof.
    destruct x as [[[[d1 cnf] nx] outs] softs]. intros (S1 & S2 & S3 & S3' & S4 & S5 & S6) Hl0 Hw Hidx Hnk. unfold ip_output.
    destruct (ti_define T d1 root idx nx) as [[[d' l] cl] nx'] eqn:ed.
    pose proof (hm_get_in _ _ _ Hl0) as Hin0. destruct (fi_ref _ _ _ _ _ _ fin0 _ _ Hin0) as (A1 & A2 & A3 & A4).
    cbn [rd_root rd_oidx rd_weight] in *.
    pose proof (grown_ext _ S1) as Hx.
    destruct (Hx root (tb_int_node SP T TS _ _ A1)) as (E1 & E2 & E3 & E4 & E5 & E6). specialize (E6 A1).
    assert (Hidx' : idx < tmax d1 root) by (rewrite E3; apply Hidx).
    destruct (tb_define_ok SP T TS _ _ _ _ _ _ _ _ ed E6 Hidx')
      as (Hn & Hxt & Hlf & Ho & Hpres & Hau & Hmo & Hfr & Hvs & Hcl & Hex).
    pose proof (hand_define _ _ _ _ _ _ _ _ _ _ _ _ _ _ S2 ed E6 Hidx') as HH.
    assert (Hg' : grown TS d0 d') by (eapply grown_step; eauto).
    assert (Hlv : me < lvar l).
    { apply (h_aux _ _ _ _ _ _ HH d'); [apply in_or_app; right; now left|]. now apply (tb_out_aux SP T TS _ _ _ _ Ho). }
    assert (Hnew : forall l1 w1 rd1, In (l1, w1, Some rd1) xs -> l1 <> l).
    { intros l1 w1 rd1 H1 ->. rewrite Forall_forall in S5. destruct (S5 _ H1) as (_ & _ & _ & _ & G & _).
      apply Hpres in G. destruct (tb_out_inj SP T TS _ _ _ _ _ _ Ho G) as [G1 G2].
      apply Hnk. apply in_keys. exists l, w1, rd1. auto. }
    assert (Href : forall l2 rd2, In (l2, rd2) refs -> l2 = l -> root = rd_root rd2 /\ idx = rd_oidx rd2).
    { intros l2 rd2 H2 ->. destruct (ti_define T d' (rd_root rd2) (rd_oidx rd2) nx') as [[[d3 l3] cl3] nx3] eqn:e3.
      assert (l3 = l) by (eapply HK; [exact (Hout _ _ H2)|exact Hg'|exact e3]). subst l3.
      destruct (fi_ref _ _ _ _ _ _ fin0 _ _ H2) as (B1 & B2 & _).
      destruct (grown_ext _ Hg' _ (tb_int_node SP T TS _ _ B1)) as (_ & _ & M3 & _ & _ & M6). specialize (M6 B1).
      rewrite <- M3 in B2.
      destruct (tb_define_ok SP T TS _ _ _ _ _ _ _ _ e3 M6 B2) as (_ & _ & _ & O3 & P3 & _).
      apply (tb_out_inj SP T TS d3 _ _ _ _ l); [now apply P3|exact O3]. }
    assert (Hxs : forall outs', (forall l1, l1 <> l -> hm_get l1 outs' = hm_get l1 outs) ->
      Forall (slot_ok d' outs') xs).
    { intros outs' Ho'. rewrite Forall_forall in *. intros [[l1 w1] [rd1|]] H1; specialize (S5 _ H1).
      - destruct S5 as (G0 & G1 & G2 & G3 & G4 & G5). split; [exact G0|].
        split; [rewrite Ho' by (eapply Hnew; eauto); exact G1|]. repeat split; auto.
      - destruct S5 as (G0 & G1 & G2). split; [exact G0|]. split; [|exact G2]. rewrite Ho'; [exact G1|].
        intros ->. lia. }
    exists l. destruct (idx =? oidx) eqn:ei.
    - apply Nat.eqb_eq in ei. subst idx.
      assert (l = l0) by (eapply HK; [exact (Hout _ _ Hin0)|exact S1|exact ed]). subst l0.
      split; [exact Hg'|]. split; [exact HH|]. split; [exact S3|]. split; [exact S3'|].
      split; [rewrite map_app, S4; reflexivity|]. split.
      + apply Forall_app. split; [now apply Hxs|]. constructor; [|constructor]. split; [lia|].
        cbn [rd_root rd_oidx rd_weight]. split; [now apply S3|]. repeat split; auto; lia.
      + rewrite keys_app. cbn. apply ProofCert.NoDup_app_intro; [exact S6|repeat constructor; intros []|].
        intros y Hy [<-|[]]. exact (Hnk Hy).
    - apply Nat.eqb_neq in ei.
      assert (Hins : forall l1, l1 <> l -> hm_get l1 (hm_insert l (mkRd root idx tw) outs) = hm_get l1 outs).
      { intros l1 Hne. rewrite hm_get_insert. destruct (lit_eqb l1 l) eqn:e; [|reflexivity]. apply lit_eqb_eq in e. contradiction. }
      split; [exact Hg'|]. split; [exact HH|]. split; [|split].
      + intros l1 rd1 H1. rewrite Hins; [now apply S3|]. intros ->.
        destruct (Href l rd1 (hm_get_in _ _ _ H1) eq_refl) as [K1 K2].
        pose proof (root_inj _ _ _ _ Hin0 (hm_get_in _ _ _ H1) K1) as K. injection K as _ <-. cbn in K2. lia.
      + intros l1 H1 H2. rewrite Hins; [auto|]. intros ->. lia.
      + split; [rewrite map_app, S4; reflexivity|]. split.
        * apply Forall_app. split; [now apply Hxs|]. constructor; [|constructor]. split; [lia|].
          cbn [rd_root rd_oidx rd_weight]. split; [rewrite hm_get_insert, lit_eqb_refl; reflexivity|].
          repeat split; auto; lia.
        * rewrite keys_app. cbn. apply ProofCert.NoDup_app_intro; [exact S6|repeat constructor; intros []|].
          intros y Hy [<-|[]]. exact (Hnk Hy).
  Qed.

  (** the outputs above the first *)
  Lemma outputs_slots l0 root oidx tw w : hm_get l0 refs = Some (mkRd root oidx tw) -> 0 < w <= tw ->
    forall n k xs x, SI xs x -> oidx < k -> k + n <= tmax d0 root ->
    (forall j, k <= j -> ~ In (root, j) (keys xs)) ->
    exists new, SI (xs ++ new) (fold_left (ip_output T root oidx tw w) (seq k n) x) /\
      (forall y, In y new -> exists l j, y = (l, tw, Some (mkRd root j tw)) /\ k <= j) /\
      (forall j, k <= j < k + n -> exists l, In (l, tw, Some (mkRd root j tw)) new) /\
      (forall g b, g root <= k + n -> svals g b new = tw * (g root - k)).
  Proof.
    intros Hl0 Hw. induction n as [|n IH]; intros k xs x HS Hk Hm Hf; cbn [seq fold_left].
    - exists []. rewrite app_nil_r. split; [exact HS|]. split; [intros y []|]. split; [intros; lia|].
      intros g b Hg. cbn. replace (g root - k) with 0 by lia. lia.
    - destruct (output_slot xs x l0 root oidx tw w k HS Hl0 Hw ltac:(lia) (Hf k (le_n k))) as (l & HS').
      rewrite (proj2 (Nat.eqb_neq k oidx)) in HS' by lia.
      destruct (IH (S k) _ _ HS') as (new & N1 & N2 & N3 & N4); [lia|lia| |].
      { intros j Hj. rewrite keys_app. intros H. apply in_app_or in H. destruct H as [H|[H|[]]].
        - apply (Hf j); [lia|exact H].
        - cbn in H. injection H as H. lia. }
      exists ((l, tw, Some (mkRd root k tw)) :: new). rewrite <- app_assoc in N1. split; [exact N1|]. split; [|split].
      + intros y [<-|Hy]; [exists l, k; split; [reflexivity|lia]|]. destruct (N2 y Hy) as (l' & j & -> & Hj).
        exists l', j. split; [reflexivity|lia].
      + intros j Hj. destruct (Nat.eq_dec j k) as [->|Hne]; [exists l; now left|].
        destruct (N3 j ltac:(lia)) as (l' & Hl'). exists l'. now right.
      + intros g b Hg. change (sval g b (l, tw, Some (mkRd root k tw)) + svals g b new = tw * (g root - k)).
        rewrite N4 by lia. cbn [sval rd_oidx rd_root]. destruct (k <? g root) eqn:e.
        * apply Nat.ltb_lt in e. replace (g root - k) with (1 + (g root - S k)) by lia. ring.
        * apply Nat.ltb_ge in e. replace (g root - k) with 0 by lia. replace (g root - S k) with 0 by lia. lia.
  Qed.

  (** the slots of some literals *)
  Record LI (P : list (lit * nat)) (xs : list slot) : Prop := mkLI {
    li_root : forall l w rd, In (l, w, Some rd) xs -> exists l2 rd2, In l2 (map fst P) /\ hm_get l2 refs = Some rd2 /\
      rd_root rd = rd_root rd2 /\ rd_weight rd = rd_weight rd2;
    li_up : forall l w rd j, In (l, w, Some rd) xs -> rd_oidx rd < j -> j < tmax d0 (rd_root rd) ->
      exists l', In (l', rd_weight rd, Some (mkRd (rd_root rd) j (rd_weight rd))) xs;
    li_val : forall o, svals (gv d0 o) (bv o) xs =
      wk (kvo TS d0 o refs) P + osum (gv d0 o) refs P;
    li_ne : P <> [] -> xs <> [] }.

  Lemma lit_slots P xs x l w : In (l, w) (in_iter (rf_inact rf)) -> ~ In l (map fst P) -> SI xs x -> LI P xs ->
    exists xs', SI xs' (ip_lit T refs x (l, w)) /\ LI (P ++ [(l, w)]) xs'.
  Proof.
    intros Hin HP HS [L1 L2 L3 L4]. unfold ip_lit. pose proof (fi_pos _ _ _ _ _ _ fin0 _ _ Hin) as Hw0.
    destruct (hm_get l refs) as [[root oidx tw]|] eqn:eg.
    - pose proof (hm_get_in _ _ _ eg) as Hr. destruct (fi_ref _ _ _ _ _ _ fin0 _ _ Hr) as (A1 & A2 & A3 & A4).
      cbn [rd_root rd_oidx rd_weight] in *.
      pose proof (fi_le _ _ _ _ _ _ fin0 _ _ _ Hr Hin) as Hwt. cbn [rd_weight] in Hwt.
      destruct x as [[[[d1 cnf] nx] outs] softs].
      assert (Hlen : ti_len T d1 root = tmax d0 root).
      { destruct HS as (Hg & _). apply grown_ext in Hg. destruct (Hg root (tb_int_node SP T TS _ _ A1)) as (_ & _ & _ & _ & E5 & _).
        rewrite E5. apply (tb_int_len SP T TS _ _ A1). }
      rewrite Hlen. replace (tmax d0 root - oidx) with (S (tmax d0 root - S oidx)) by lia. cbn [seq fold_left].
      assert (Hnew : forall j, ~ In (root, j) (keys xs)).
      { intros j Hj. apply in_keys in Hj. destruct Hj as (l1 & w1 & rd1 & H1 & H2 & H3).
        destruct (L1 _ _ _ H1) as (l2 & rd2 & K1 & K2 & K3 & _).
        pose proof (root_inj _ _ _ _ Hr (hm_get_in _ _ _ K2)) as K. cbn [rd_root] in K. rewrite <- H2 in K.
        specialize (K K3). injection K as <- _. exact (HP K1). }
      destruct (output_slot xs _ l root oidx tw w oidx HS eg ltac:(lia) ltac:(lia) (Hnew oidx)) as (l1 & HS1).
      rewrite Nat.eqb_refl in HS1.
      destruct (outputs_slots l root oidx tw w eg ltac:(lia) (tmax d0 root - S oidx) (S oidx) _ _ HS1) as (new & N1 & N2 & N3 & N4); [lia|lia| |].
      { intros j Hj. rewrite keys_app. intros H. apply in_app_or in H. destruct H as [H|[H|[]]]; [exact (Hnew j H)|].
        cbn in H. injection H as H. lia. }
      rewrite <- app_assoc in N1. cbn [app] in N1. set (fst1 := (l1, w, Some (mkRd root oidx tw))) in *.
      exists (xs ++ fst1 :: new). split; [exact N1|].
      assert (Hn : forall l' w' rd, In (l', w', Some rd) (fst1 :: new) -> rd_root rd = root /\ rd_weight rd = tw).
      { intros l' w' rd [H|H].
        - unfold fst1 in H. injection H as <- <- <-. auto.
        - destruct (N2 _ H) as (l'' & j & H' & _). injection H' as -> -> ->. auto. }
      constructor.
      + intros l' w' rd H. apply in_app_or in H. destruct H as [H|H].
        * destruct (L1 _ _ _ H) as (l2 & rd2 & K1 & K2). exists l2, rd2. split; [|exact K2].
          rewrite map_app. apply in_or_app. now left.
        * destruct (Hn _ _ _ H) as [-> ->]. exists l, (mkRd root oidx tw). split; [|auto].
          rewrite map_app. apply in_or_app. right. now left.
      + intros l' w' rd j H Hj1 Hj2. apply in_app_or in H. destruct H as [H|H].
        * destruct (L2 _ _ _ j H Hj1 Hj2) as (l'' & K). exists l''. apply in_or_app. now left.
        * destruct (Hn _ _ _ H) as [K1 K2]. rewrite K1, K2 in *.
          assert (Hjo : S oidx <= j).
          { destruct H as [H|H].
            - unfold fst1 in H. injection H as <- <- <-. cbn in Hj1. lia.
            - destruct (N2 _ H) as (l'' & j' & H' & H2). injection H' as -> -> ->. cbn in Hj1. lia. }
          destruct (N3 j ltac:(lia)) as (l'' & K). exists l''. apply in_or_app. right. now right.
      + intros o. rewrite svals_app, L3.
        change (svals (gv d0 o) (bv o) (fst1 :: new)) with (sval (gv d0 o) (bv o) fst1 + svals (gv d0 o) (bv o) new).
        assert (Hmx : gv d0 o root <= tmax d0 root).
        { destruct o; cbn [OllThm.gv]; [apply tb_val_max, tb_int_node, A1|lia]. }
        rewrite N4 by lia. rewrite wk_app, osum_app. unfold osum, wk. cbn [map list_sum fold_right fst snd].
        unfold OllThm.kvo, kv, oterm, rterm, fst1. rewrite eg. cbn [sval rd_root rd_oidx rd_weight].
        replace (oidx + 1) with (S oidx) by lia. lia.
      + intros _ H. now destruct xs.
    - destruct x as [[[[d1 cnf] nx] outs] softs]. destruct HS as (S1 & S2 & S3 & S3' & S4 & S5 & S6).
      exists (xs ++ [(l, w, None)]). split.
      + split; [exact S1|]. split; [exact S2|]. split; [exact S3|]. split; [exact S3'|].
        split; [rewrite map_app, S4; reflexivity|]. split.
        * apply Forall_app. split; [exact S5|]. constructor; [|constructor]. split; [exact Hw0|].
          pose proof (fi_plain _ _ _ _ _ _ fin0 _ _ Hin eg). auto.
        * rewrite keys_app. cbn. now rewrite app_nil_r.
      + assert (Hold : forall l' w' rd, In (l', w', Some rd) (xs ++ [(l, w, None)]) -> In (l', w', Some rd) xs).
        { intros l' w' rd H. apply in_app_or in H. destruct H as [H|[H|[]]]; [exact H|discriminate]. }
        constructor.
        * intros l' w' rd H. apply Hold in H. destruct (L1 _ _ _ H) as (l2 & rd2 & K1 & K2). exists l2, rd2. split; [|exact K2].
          rewrite map_app. apply in_or_app. now left.
        * intros l' w' rd j H Hj1 Hj2. apply Hold in H. destruct (L2 _ _ _ j H Hj1 Hj2) as (l'' & K). exists l''.
          apply in_or_app. now left.
        * intros o. rewrite svals_app, L3, wk_app, osum_app. unfold svals, osum, wk, oterm, OllThm.kvo, kv.
          cbn [map list_sum fold_right fst snd sval]. rewrite eg. lia.
        * intros _ H. now destruct xs.
  Qed.

  Lemma lits_slots : forall ls P xs x, in_iter (rf_inact rf) = P ++ ls -> SI xs x -> LI P xs ->
    exists xs', SI xs' (fold_left (ip_lit T refs) ls x) /\ LI (in_iter (rf_inact rf)) xs'.
  Proof.
    induction ls as [|[l w] ls IH]; intros P xs x He HS HL; cbn [fold_left].
    - rewrite app_nil_r in He. rewrite He. eauto.
    - destruct (lit_slots P xs x l w) as (xs1 & H1 & H2); [| |exact HS|exact HL|].
      + rewrite He. apply in_or_app. right. now left.
      + pose proof (fi_nodup _ _ _ _ _ _ fin0) as N. rewrite He, map_app in N. cbn [map fst] in N.
        intros Hl. apply NoDup_remove_2 in N. apply N. apply in_or_app. now left.
      + apply (IH (P ++ [(l, w)]) xs1); [rewrite <- app_assoc; exact He|exact H1|exact H2].
  Qed.

  (** What is kept for the second half *)
  Record Slots (d' : db) (outs : list (lit * reform_data)) (xs : list slot) : Prop := mkSlots {
    sl_ext : tb_ext SP T TS d0 d';
    sl_ok : Forall (slot_ok d' outs) xs;
    sl_nodup : NoDup (keys xs);
    sl_weight : forall l w rd l' w' rd', In (l, w, Some rd) xs -> In (l', w', Some rd') xs ->
      rd_root rd = rd_root rd' -> rd_weight rd = rd_weight rd';
    sl_up : forall l w rd j, In (l, w, Some rd) xs -> rd_oidx rd < j -> j < tmax d0 (rd_root rd) ->
      exists l', In (l', rd_weight rd, Some (mkRd (rd_root rd) j (rd_weight rd))) xs;
    sl_val : forall o, Fo F o -> tg ob o = rf_offset rf + svals (gv d0 o) (bv o) xs }.

  Lemma ipobj_slots cnf nx : Hand TS F me cnf nx (ds1 ++ d0 :: ds2) ->
    let '(d', cnf', nx', outs, softs) := ip_obj T re rf d cnf nx in
    exists xs, softs = map soft_of xs /\ Slots d' outs xs.
  Proof.
    intros HH. unfold ip_obj.
    assert (H0 : SI [] (d0, cnf, nx, refs, [])).
    { split; [constructor|]. split; [exact HH|]. split; [auto|]. split; [auto|]. split; [reflexivity|]. split; constructor. }
    assert (H1 : LI [] []).
    { constructor; [intros l w rd []|intros l w rd j []|reflexivity|congruence]. }
    destruct (lits_slots (in_iter (rf_inact rf)) [] [] _ eq_refl H0 H1) as (xs & G1 & [G2 G3 G4 G5]). fold refs d0.
    destruct (fold_left (ip_lit T refs) (in_iter (rf_inact rf)) (d0, cnf, nx, refs, [])) as [[[[d' cnf'] nx'] outs] softs].
    destruct G1 as (S1 & S2 & S3 & S3' & S4 & S5 & S6). exists xs. split; [exact S4|]. constructor; auto.
    - now apply grown_ext.
    - intros l w rd l' w' rd' K1 K2 K3. destruct (G2 _ _ _ K1) as (l1 & r1 & _ & Q1 & Q2 & Q3).
      destruct (G2 _ _ _ K2) as (l2 & r2 & _ & P1 & P2 & P3).
      pose proof (root_inj _ _ _ _ (hm_get_in _ _ _ Q1) (hm_get_in _ _ _ P1) ltac:(congruence)) as K. congruence.
    - intros o Ho. rewrite (fi_id _ _ _ _ _ _ fin0 o Ho).
      rewrite <- (osum_rsum _ _ _ (fi_nodup _ _ _ _ _ _ HF) (fi_rnodup _ _ _ _ _ _ HF)).
      2:{ intros l rd Hin. now apply (fi_ref _ _ _ _ _ _ HF _ _ Hin). }
      rewrite <- Nat.add_assoc. f_equal. symmetry. apply G4.
  Qed.
End Slots.
