(** * Preprocessing with MaxPre (C82)

    The pipeline of the binary with the feature [maxpre] and preprocessing switched on, from the
    parsed problem to the printed front.  MaxPre is external: the theorems hold for whatever it
    returns as long as that meets [mp_ok] (MaxPreSpec.v). *)
From Coq Require Import List Bool Arith Lia ZArith.
From Verif Require Import Base BaseLemmas Spec MTypes MKernel MOll EncSpec TotSpec ApiSpec Inst ExInst MPrepro MMain
  PreSpec Ext Blk ApiTop PreproThm PreTop PreInst TotInst MMaxPre MaxPreSpec MaxPreThm.
Import ListNotations.

(** The command line only uses the default blocking clause. *)
Definition default_blocking (o : kopts) : Prop :=
  match o_enum o with Solutions _ => forall s, o_bcg o s = default_blocking_clause s | _ => True end.

(** Whatever is printed is correct for the problem as it was read, and a finished run prints
    exactly its Pareto front. *)
Theorem C82_correct : forall I (SP : enc_spec I) T (TS : tot_spec SP T) pe mp reindex al o cb E l p cls n,
  pb_enc_ok pe -> parsed_ok p ->
  encode_constrs pe (pa_constrs p) (vm_next (pa_vm p)) = Some (cls, n) ->
  let out := mp cls (pa_objs p) in
  mp_ok cls (pa_objs p) out -> mp_covered out ->
  default_blocking o -> oracle_ok E -> lims_pos l ->
  (reindex = true -> weights_mixed (mp_problem out)) -> cb_fits al o cb E (mp_problem out) ->
  match run_main_mp T pe mp reindex al o cb E l p with
  | RFront finished f => mp_front p f /\ (finished = true -> p_exact p f)
  | RErr => True
  | RPanic => (reindex = true /\ cls_vars (mp_cls out) = []) \/ cb_dead o cb p
  | ROutOfFuel =>
      (exists j, solved_inst pe_cl reindex (mp_problem out) = Some j /\ ev_fuel E <= iter_bound j) \/ cb_dead o cb p
  end.
Proof.
  intros I SP T TS pe mp reindex al o cb E l p cls n Hpe Hp Hcls out HM HC Hen HO Hl Hm Hcb.
  rewrite (mp_run pe mp p cls n Hcls HM). fold out.
  assert (Hen' : enum_fits reindex (mp_problem out) o).
  { unfold enum_fits, default_blocking in *. destruct (o_enum o); [exact Logic.I|exact Hen|].
    right. exact (mo_units _ _ _ HM). }
  pose proof (main_correct I SP T TS pe_cl reindex al o cb E l (mp_problem out) pe_cl_ok
    (mp_parsed_ok out _ _ HM HC) Hen' HO Hl Hm Hcb) as H.
  destruct (run_main _ _ _ _ _ _ _ _ _) as [fin f| | |]; cbn [reconstructed].
  - destruct H as [H1 H2]. split; [now apply (mp_sound_front pe mp p cls n Hpe Hp Hcls HM)|].
    intros Hf. apply (mp_exact pe mp p cls n Hpe Hp Hcls HM); auto.
  - exact Logic.I.
  - destruct H as [(H1 & i & H2 & H3)|H]; [|right; now apply (mp_dead pe mp p cls n Hpe Hp Hcls HM)].
    left. split; [exact H1|]. destruct (mp_raw_some _ (mo_units _ _ _ HM)) as (ros & Hr).
    fold out in Hr. rewrite (mp_clausal out ros Hr) in H2. injection H2 as <-.
    destruct (cls_vars (mp_cls out)) as [|v r] eqn:e; [reflexivity|]. exfalso. apply (H3 v). left.
    cbn [in_cls]. rewrite e. now left.
  - destruct H as [H|H]; [now left|right; now apply (mp_dead pe mp p cls n Hpe Hp Hcls HM)].
Qed.
Print Assumptions C82_correct.

(** Constraints that cannot be encoded are an error, never a panic, whatever MaxPre would do. *)
Theorem C82_encoding_fails : forall I (T : tot_impl I) pe mp reindex al o cb E l p,
  encode_constrs pe (pa_constrs p) (vm_next (pa_vm p)) = None ->
  run_main_mp T pe mp reindex al o cb E l p = RErr.
Proof. intros I T pe mp reindex al o cb E l p H. unfold run_main_mp, max_pre. now rewrite H. Qed.
Print Assumptions C82_encoding_fails.
Example C82_encoding_fails_example :
  let pe := fun c n => match pb_kind c with PbEq => None | _ => pe_cl c n end in
  encode_constrs pe [pb_of_clause [pos 0; pos 1]; mkPb PbEq [(pos 0, 1); (pos 1, 1)] 1%Z] 2 = None.
Proof. reflexivity. Qed.

(** Undisturbed runs finish. *)
Theorem C82_finishes : forall I (SP : enc_spec I) T (TS : tot_spec SP T) pe mp reindex al o cb E p cls n j,
  pb_enc_ok pe -> parsed_ok p ->
  encode_constrs pe (pa_constrs p) (vm_next (pa_vm p)) = Some (cls, n) ->
  let out := mp cls (pa_objs p) in
  mp_ok cls (pa_objs p) out -> mp_covered out ->
  default_blocking o -> oracle_ok E -> calm E ->
  (cb <> None -> reindex = true -> weights_mixed (mp_problem out)) -> cb_fits al o cb E (mp_problem out) -> ~ cb_dead o cb p ->
  (al = ABiOptSat -> length (pa_objs p) = 2) ->
  solved_inst pe_cl reindex (mp_problem out) = Some j -> iter_bound j < ev_fuel E ->
  exists f, run_main_mp T pe mp reindex al o cb E lims_none p = RFront true f.
Proof.
  intros I SP T TS pe mp reindex al o cb E p cls n j Hpe Hp Hcls out HM HC Hen HO Hcalm Hm Hcb Hd H2 Hj HF.
  rewrite (mp_run pe mp p cls n Hcls HM). fold out.
  assert (Hen' : enum_fits reindex (mp_problem out) o).
  { unfold enum_fits, default_blocking in *. destruct (o_enum o); [exact Logic.I|exact Hen|].
    right. exact (mo_units _ _ _ HM). }
  destruct (main_finishes I SP T TS pe_cl reindex al o cb E (mp_problem out) j pe_cl_ok
    (mp_parsed_ok out _ _ HM HC) Hen' HO Hcalm Hm Hcb) as (f & Hf); auto.
  - intros G. apply Hd. now apply (mp_dead pe mp p cls n Hpe Hp Hcls HM).
  - intros Ha. exact (eq_trans (mo_len _ _ _ HM) (H2 Ha)).
  - exists (front_convert (mp_rec out) f). now rewrite Hf.
Qed.
Print Assumptions C82_finishes.

(** Preprocessing on or off: finished runs print the same cost vectors. *)
Theorem C82_same_as_without : forall I (SP : enc_spec I) T (TS : tot_spec SP T) pe mp p cls n
    reindex al o cb E l f reindex' al' o' cb' E' l' f',
  pb_enc_ok pe -> parsed_ok p ->
  encode_constrs pe (pa_constrs p) (vm_next (pa_vm p)) = Some (cls, n) ->
  let out := mp cls (pa_objs p) in
  mp_ok cls (pa_objs p) out -> mp_covered out ->
  default_blocking o -> oracle_ok E -> lims_pos l ->
  (reindex = true -> weights_mixed (mp_problem out)) -> cb_fits al o cb E (mp_problem out) ->
  enum_fits reindex' p o' -> oracle_ok E' -> lims_pos l' ->
  (reindex' = true -> weights_mixed p) -> cb_fits al' o' cb' E' p ->
  run_main_mp T pe mp reindex al o cb E l p = RFront true f ->
  run_main T pe reindex' al' o' cb' E' l' p = RFront true f' ->
  forall c, In c (map nd_costs f) <-> In c (map nd_costs f').
Proof.
  intros I SP T TS pe mp p cls n reindex al o cb E l f reindex' al' o' cb' E' l' f'
    Hpe Hp Hcls out HM HC Hen HO Hl Hm Hcb Hen' HO' Hl' Hm' Hcb' H1 H2 c.
  pose proof (C82_correct I SP T TS pe mp reindex al o cb E l p cls n Hpe Hp Hcls HM HC Hen HO Hl Hm Hcb) as G1.
  pose proof (main_correct I SP T TS pe reindex' al' o' cb' E' l' p Hpe Hp Hen' HO' Hl' Hm' Hcb') as G2.
  rewrite H1 in G1. rewrite H2 in G2. destruct G1 as [_ G1]. destruct G2 as [_ G2].
  rewrite (proj2 (G1 eq_refl)), (proj2 (G2 eq_refl)). reflexivity.
Qed.
Print Assumptions C82_same_as_without.

(** *** Example: MaxPre drops a soft clause and a pure literal, turns a soft clause into a unit
    and moves a hard violation to the offset *)
Definition mx_p : parsed := mkParsed
  [pb_of_clause [pos 0; pos 1]; pb_of_clause [pos 2; pos 3]; pb_of_clause [pos 4]]
  [([([neg 0], 2); ([neg 1; neg 4], 1)], 0%Z); ([([neg 1], 1); ([neg 2], 1); ([neg 4], 5)], (-1)%Z)]
  (mkVm 5 4 4).
Definition mx_out : mp_out := mkMp [[pos 0; pos 1]]
  [([([neg 0], 2); ([neg 1], 1)], 0%Z); ([([neg 1], 1)], 4%Z)]
  (fun sol => [nth 0 sol None; nth 1 sol None; Some false; Some true; Some true]).
Definition mx_mp : maxpre := fun _ _ => mx_out.
Definition mx_cls : list clause :=
  match encode_constrs pb_brute (pa_constrs mx_p) 5 with Some (c, _) => c | None => [] end.
Lemma mx_enc : encode_constrs pb_brute (pa_constrs mx_p) (vm_next (pa_vm mx_p)) = Some (mx_cls, 5).
Proof. vm_compute. reflexivity. Qed.
Lemma mx_parsed : parsed_ok mx_p.
Proof.
  constructor.
  - reflexivity.
  - intros c v Hc Hv. cbn [pa_constrs mx_p] in Hc. cbn [vm_next pa_vm mx_p].
    destruct Hc as [<-|[<-|[<-|[]]]]; cbn in Hv; repeat (destruct Hv as [<-|Hv]; [lia|]); destruct Hv.
  - intros o cw v Ho Hcw Hv. cbn [vm_next pa_vm mx_p].
    destruct Ho as [<-|[<-|[]]]; cbn [fst] in Hcw;
      [destruct Hcw as [<-|[<-|[]]]|destruct Hcw as [<-|[<-|[<-|[]]]]]; cbn in Hv;
      repeat (destruct Hv as [<-|Hv]; [lia|]); destruct Hv.
  - constructor; [|constructor; [|constructor]]; (split; [|split; [|split]]).
    + intros cw [<-|[<-|[]]]; discriminate.
    + left. repeat constructor; cbn; intuition discriminate.
    + right. exists ([neg 0], 2). split; [now left|discriminate].
    + cbn. unfold isize_max, isize_min. lia.
    + intros cw [<-|[<-|[<-|[]]]]; discriminate.
    + left. repeat constructor; cbn; intuition discriminate.
    + right. exists ([neg 1], 1). split; [now left|discriminate].
    + cbn. unfold isize_max, isize_min. lia.
Qed.
Lemma mx_sat a : sat a mx_cls <-> (a 0 || a 1 = true /\ a 2 || a 3 = true /\ a 4 = true).
Proof.
  split.
  - intros H. assert (G : Forall (pb_holds a) (pa_constrs mx_p)).
    { exact (enc_sound pb_brute mx_p mx_cls 5 pb_brute_ok mx_parsed mx_enc a H). }
    inversion G as [|? ? G1 G']; subst. inversion G' as [|? ? G2 G'']; subst. inversion G'' as [|? ? G3 _]; subst.
    apply pb_of_clause_holds in G1, G2, G3. cbn in G1, G2, G3. unfold lit_true in *. cbn in *.
    destruct (a 0), (a 1), (a 2), (a 3), (a 4); cbn in *; auto; discriminate.
  - intros (H1 & H2 & H3).
    destruct (encode_constrs_ok pb_brute pb_brute_ok _ _ _ _ _ mx_enc (le_n _) (po_constrs mx_p mx_parsed)) as (_ & Hv & _ & Hc).
    destruct (Hc a) as (b & Hb & Hs).
    { intros c Hin. cbn [pa_constrs mx_p] in Hin.
      destruct Hin as [<-|[<-|[<-|[]]]]; apply pb_of_clause_holds; cbn; unfold lit_true; cbn;
        destruct (a 0), (a 1), (a 2), (a 3), (a 4); cbn in *; auto; discriminate. }
    eapply (sat_agree (fun v => v < 5)); [exact Hb|exact Hv|exact Hs].
Qed.
Lemma mx_ok : mp_ok mx_cls (pa_objs mx_p) mx_out.
Proof.
  constructor.
  - reflexivity.
  - intros o cw [<-|[<-|[]]]; cbn [fst]; [intros [<-|[<-|[]]]|intros [<-|[]]]; cbn [fst]; eauto.
  - constructor; [|constructor; [|constructor]]; (split; [|split; [|split]]).
    + intros cw [<-|[<-|[]]]; discriminate.
    + left. repeat constructor; cbn; intuition discriminate.
    + right. exists ([neg 0], 2). split; [now left|discriminate].
    + cbn. unfold isize_max, isize_min. lia.
    + intros cw [<-|[]]; discriminate.
    + left. repeat constructor; cbn; intuition discriminate.
    + right. exists ([neg 1], 1). split; [now left|discriminate].
    + cbn. unfold isize_max, isize_min. lia.
  - intros c sol Hs. exists c. split; [|apply wd_refl]. intros a Ha.
    set (b := fun u => if u <? 2 then a u else match nth_error sol u with Some (Some x) => x | _ => false end).
    assert (Hb : extends b sol).
    { intros u x Hu. unfold b. destruct (Nat.ltb_spec u 2) as [Hlt|]; [|now rewrite Hu]. apply (Ha u x).
      apply (nth_error_nth _ _ None) in Hu. destruct u as [|[|u]]; [| |lia]; exact (f_equal Some Hu). }
    destruct (Hs b Hb) as [H1 H2].
    assert (A2 : a 2 = false) by (apply (Ha 2); reflexivity).
    assert (A3 : a 3 = true) by (apply (Ha 3); reflexivity).
    assert (A4 : a 4 = true) by (apply (Ha 4); reflexivity).
    assert (B0 : b 0 = a 0) by reflexivity. assert (B1 : b 1 = a 1) by reflexivity.
    clearbody b. split.
    + apply mx_sat. rewrite A2, A3, A4. split; [|auto]. specialize (H1 _ (or_introl eq_refl)).
      cbn in H1. unfold lit_true in H1. cbn in H1. rewrite B0, B1 in H1. now destruct (a 0), (a 1).
    + rewrite <- H2. unfold soft_costs, soft_cost, mx_out, mx_p, mp_objs, pa_objs. cbn [map snd fst].
      cbn [violated clause_true existsb]. unfold lit_true. cbn [lvar lneg neg pos negb]. rewrite A2, A4, B0, B1.
      destruct (a 0), (a 1); reflexivity.
  - intros a Ha. exists a. apply mx_sat in Ha. destruct Ha as (H1 & H2 & H3). split.
    + intros cl [<-|[]]. cbn. unfold lit_true. cbn. now destruct (a 0), (a 1).
    + unfold soft_costs, soft_cost, mx_out, mx_p, mp_objs, pa_objs. cbn [map snd fst].
      cbn [violated clause_true existsb]. unfold lit_true. cbn [lvar lneg neg pos negb]. rewrite H3.
      destruct (a 0), (a 1), (a 2); repeat constructor; cbn; lia.
Qed.
Lemma mx_covered : mp_covered mx_out.
Proof.
  intros o cw v Ho Hcw Hv. right. exists 1. split; [vm_compute; auto|].
  destruct Ho as [<-|[<-|[]]]; cbn [fst] in Hcw; [destruct Hcw as [<-|[<-|[]]]|destruct Hcw as [<-|[]]];
    cbn in Hv; destruct Hv as [<-|[]]; lia.
Qed.
Definition mx_run reindex al := run_main_mp TI pb_brute mx_mp reindex al (ex_opts NoEnum) None (env false 200) lims_none mx_p.
Lemma mx_mixed : weights_mixed (mp_problem mx_out).
Proof.
  intros o w [<-|[<-|[]]] _ H; [|now rewrite <- (H _ (or_introl eq_refl))].
  pose proof (H _ (or_introl eq_refl)) as H1. pose proof (H _ (or_intror (or_introl eq_refl))) as H2.
  cbn in H1, H2. congruence.
Qed.
Definition mx_front : list (nd_point assignment) :=
  [mkNd [1; 5]%Z [[Some false; Some true; Some false; Some true; Some true]];
   mkNd [2; 4]%Z [[Some true; Some false; Some false; Some true; Some true]]].
Example C82_example_pmin : mx_run false APMinimal = RFront true mx_front.
Proof. vm_compute. reflexivity. Qed.
Example C82_example_bos : mx_run true ABiOptSat = RFront true mx_front.
Proof. vm_compute. reflexivity. Qed.

(** ** The variables of objectives (refuted)
    [max_pre] takes the number of variables from the clauses only.  If MaxPre leaves an objective
    variable that is in no clause, variables are handed out twice, and the printed front is wrong.
    Here MaxPre returns its input unchanged. *)
Definition id_mp : maxpre := fun cls os => mkMp cls os (fun s => s).
Definition un_p : parsed := mkParsed [pb_of_clause [pos 0; pos 1]]
  [([([neg 0], 2); ([neg 2], 1)], 0%Z); ([([neg 1], 1); ([pos 2], 2); ([pos 3], 1); ([neg 0], 1)], 0%Z)]
  (mkVm 4 3 3).
Definition un_cls : list clause :=
  match encode_constrs pb_brute (pa_constrs un_p) 4 with Some (c, _) => c | None => [] end.
Definition un_run (mp : bool) al :=
  if mp then run_main_mp TI pb_brute id_mp false al (ex_opts NoEnum) None (env false 200) lims_none un_p
  else run_main TI pb_brute false al (ex_opts NoEnum) None (env false 200) lims_none un_p.
Lemma un_parsed : parsed_ok un_p.
Proof.
  constructor.
  - reflexivity.
  - intros c v Hc Hv. cbn [pa_constrs un_p] in Hc. cbn [vm_next pa_vm un_p].
    destruct Hc as [<-|[]]; cbn in Hv; repeat (destruct Hv as [<-|Hv]; [lia|]); destruct Hv.
  - intros o cw v Ho Hcw Hv. cbn [vm_next pa_vm un_p].
    destruct Ho as [<-|[<-|[]]]; cbn [fst] in Hcw;
      [destruct Hcw as [<-|[<-|[]]]|destruct Hcw as [<-|[<-|[<-|[<-|[]]]]]]; cbn in Hv;
      repeat (destruct Hv as [<-|Hv]; [lia|]); destruct Hv.
  - constructor; [|constructor; [|constructor]]; (split; [|split; [|split]]).
    + intros cw [<-|[<-|[]]]; discriminate.
    + left. repeat constructor; cbn; intuition discriminate.
    + right. exists ([neg 0], 2). split; [now left|discriminate].
    + cbn. unfold isize_max, isize_min. lia.
    + intros cw [<-|[<-|[<-|[<-|[]]]]]; discriminate.
    + left. repeat constructor; cbn; intuition discriminate.
    + right. exists ([neg 1], 1). split; [now left|discriminate].
    + cbn. unfold isize_max, isize_min. lia.
Qed.
Lemma un_ok : mp_ok un_cls (pa_objs un_p) (id_mp un_cls (pa_objs un_p)).
Proof.
  constructor; cbn [id_mp mp_objs mp_cls mp_rec].
  - reflexivity.
  - intros o cw [<-|[<-|[]]]; cbn [fst]; [intros [<-|[<-|[]]]|intros [<-|[<-|[<-|[<-|[]]]]]]; cbn [fst]; eauto.
  - exact (po_objs _ un_parsed).
  - intros c sol H. exists c. split; [exact H|apply wd_refl].
  - intros a Ha. exists a. split; [exact Ha|apply wd_refl].
Qed.
Theorem C82_uncovered_refuted : exists pe mp p cls n E,
  pb_enc_ok pe /\ parsed_ok p /\ encode_constrs pe (pa_constrs p) (vm_next (pa_vm p)) = Some (cls, n) /\
  mp_ok cls (pa_objs p) (mp cls (pa_objs p)) /\ oracle_ok E /\ calm E /\
  forall al, exists f, run_main_mp TI pe mp false al (ex_opts NoEnum) None E lims_none p = RFront true f /\
    exists c, In c (map nd_costs f) /\ ~ p_optimal p c.
Proof.
  exists pb_brute, id_mp, un_p, un_cls, 4, (env false 200).
  split; [exact pb_brute_ok|]. split; [exact un_parsed|]. split; [vm_compute; reflexivity|].
  split; [exact un_ok|]. split; [exact (brute_ok false 200)|]. split; [apply env_calm|].
  intros al. assert (H : exists f, un_run true al = RFront true f /\ In [0; 4]%Z (map nd_costs f)).
  { destruct al.
    - destruct (un_run true APMinimal) as [b f| | |] eqn:e; vm_compute in e; try discriminate.
      injection e as <- <-. eexists. split; [reflexivity|]. cbn. tauto.
    - destruct (un_run true ALowerBounding) as [b f| | |] eqn:e; vm_compute in e; try discriminate.
      injection e as <- <-. eexists. split; [reflexivity|]. cbn. tauto.
    - destruct (un_run true ABiOptSat) as [b f| | |] eqn:e; vm_compute in e; try discriminate.
      injection e as <- <-. eexists. split; [reflexivity|]. cbn. tauto. }
  destruct H as (f & Hf & Hin). exists f. split; [exact Hf|]. exists [0; 4]%Z. split; [exact Hin|].
  intros [_ H]. apply (H (fun v => (v =? 1) || (v =? 3))).
  - constructor; [|constructor]. apply pb_of_clause_holds. reflexivity.
  - split; [|discriminate]. vm_compute. repeat constructor; discriminate.
Qed.
Print Assumptions C82_uncovered_refuted.
Definition costs_of (r : main_res) : list (list Z) := match r with RFront _ f => map nd_costs f | _ => [] end.
Example C82_uncovered_values :
  (costs_of (un_run true APMinimal), costs_of (un_run true ALowerBounding), costs_of (un_run true ABiOptSat),
   costs_of (un_run false APMinimal)) =
  ([[0; 4]; [0; 3]; [1; 1]], [[1; 1]; [0; 4]], [[0; 4]; [0; 3]; [1; 1]], [[0; 3]; [1; 1]])%Z.
Proof. vm_compute. reflexivity. Qed.
