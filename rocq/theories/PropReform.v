(** * The objective reformulation of core boosting in the proof *)
From Coq Require Import List Arith ZArith Lia Bool.
From Verif Require Import Base BaseLemmas Spec MTypes MPMinimal MPrepro MOll Sem Ext OllData VeriPB VeriThm MProofs ProofThm ProofRun ProofCut MTracer TracerThm MReform ReformSpec ReformThm ReformRun ReformInv ReformFin.
Import ListNotations.

(** ** C65: the reformulation is derived *)
(** After any sequence of cores and reformulations of cores, all lines written are accepted, and the
    reformulation constraint says that the objective is at least the reformulated objective: the
    constant derived so far plus the weights of the remaining literals that are true. *)
Theorem C65_reformulation_derived : forall exhaustion def k0 o p es s exact r s',
  wok k0 p -> NoDup (map fst (obj_iter o)) ->
  run_pre exhaustion def k0 es (reform_start o p) -> run_revents exhaustion def es (reform_start o p) = Some s ->
  finish_pre exact k0 s -> finish exact s = (r, s') ->
  steps_valid k0 (ps_log (rs_p s')) /\
  match r with
  | Some id => exists R, In (id, R) (k_all (kof k0 (rs_p s'))) /\
      forall a, lb_holds a R <-> (Z.of_nat (rs_off s) + lb_sum a (reform_terms exact s) <= Z.of_nat (wsum (on_solver a) (obj_iter o)))%Z
  | None => forall a, wsum (on_solver a) (obj_iter o) = rs_off s + wsum (on_solver a) (rs_in s)
  end.
Proof.
  intros exhaustion def k0 o p es s exact r s' W Hn HP E HF EF.
  destruct (reformulation_derived exhaustion def k0 o p es s exact r s' W Hn HP E HF EF) as (A & _ & _ & _ & H).
  split; [exact (wk_valid _ _ A)|]. destruct r as [id|]; [|exact H]. destruct H as (R & HR & VR). exists R. split; [exact HR|].
  intros a. rewrite val_holds, VR. unfold icost. lia.
Qed.
Print Assumptions C65_reformulation_derived.
(** ... and it is of the form that the certification of minimal points builds on ([C49]) *)
Theorem C65_reformulation_usable : forall exhaustion def k0 o p es s exact id s',
  wok k0 p -> NoDup (map fst (obj_iter o)) ->
  run_pre exhaustion def k0 es (reform_start o p) -> run_revents exhaustion def es (reform_start o p) = Some s ->
  finish_pre exact k0 s -> finish exact s = (Some id, s') ->
  wok k0 (rs_p s') /\ exists R, In (id, R) (k_all (kof k0 (rs_p s'))) /\ reform_says R o (reform_terms exact s) (rs_off s).
Proof.
  intros exhaustion def k0 o p es s exact id s' W Hn HP E HF EF.
  destruct (reformulation_derived exhaustion def k0 o p es s exact (Some id) s' W Hn HP E HF EF) as (A & _ & _ & _ & H). split; assumption.
Qed.
Print Assumptions C65_reformulation_usable.
(** the definitions of totalizer outputs meet [has_def] *)
Theorem C65_definition : forall k id t v, tot_wf t -> 2 <= v <= nleaf t ->
  In (id, only_if_def (leaf_ax t) (out_ax t v) (Z.of_nat v)) (k_all k) -> has_def k id t v.
Proof.
  intros k id t v H Hv HD. exists (only_if_def (leaf_ax t) (out_ax t v) (Z.of_nat v)). split; [exact HD|]. apply odef_concrete; [|lia].
  pose proof (shape_fresh t 1 (v - 1) H (le_n 1) ltac:(lia) ltac:(lia)) as X. replace (S (v - 1)) with v in X by lia.
  constructor; [|exact (leaf_proper t H)]. intros Y. apply X. unfold shape_ls. rewrite map_app. apply in_or_app. left. exact Y.
Qed.
Print Assumptions C65_definition.

(** ** Core exhaustion: the wrong definition *)
Lemma ones_nots : forall a ls, lb_sum a (ones (map ax_not ls)) = (Z.of_nat (length ls) - lb_sum a (ones ls))%Z.
Proof.
  intros a ls. induction ls as [|l ls IH]; [reflexivity|]. cbn [map length]. unfold ones in *. cbn [map lb_sum fst snd]. rewrite IH, b2z_not. lia.
Qed.
(** The line that core exhaustion writes for a core when no further core over the outputs is found
    derives a constraint that every assignment satisfies. *)
Theorem C65_exhaustion_line_trivial : forall k t id C, ids_ok k -> 2 <= nleaf t -> proper_ls (leaf_ax t) ->
  In (id, C) (k_all k) -> clausal C (leaf_ax t) ->
  In (ti_if t 2, if_def (leaf_ax t) (out_ax t 2) 2) (k_all k) ->
  exists R, pol_eval pv_eqd (id_get (k_all k) (k_next k)) (fst (exhaust_line true (ti_if t) t id [])) = Some R /\ forall a, lb_holds a R.
Proof.
  intros k t id C W Hl Hp HC Hcl HD. unfold exhaust_line. cbn [fst]. fold (nleaf t). destruct (nleaf t) as [|[|n]] eqn:En; [lia|lia|].
  replace (S (S n) - 1) with (S n) by lia. cbn [seq map reform_exhaust].
  eexists. split.
  - change (Z.of_nat (1 + 1)) with 2%Z. change (Z.of_nat 1) with 1%Z. cbn [pol_eval id_get]. rewrite (k_get k id C W HC), (k_get k _ _ W HD). reflexivity.
  - intros a. apply (lb_div_sound pv_eqd); [lia|]. apply val_holds. rewrite val_add, lb_mul_1, (card_val C (leaf_ax t) 1 a Hp Hcl).
    unfold if_def, lb_val. cbn [lb_terms lb_bound]. rewrite lb_sum_app, ones_nots. unfold cnt. cbn [lb_sum fst snd].
    assert (El : length (leaf_ax t) = S (S n)) by (unfold leaf_ax; rewrite map_length; exact En). rewrite El.
    destruct (ax_true a (out_ax t 2)); cbn [b2z]; lia.
Qed.
Print Assumptions C65_exhaustion_line_trivial.

(** ** A concrete run *)
Definition ex_t : tinfo := mkTi [pos 0; pos 1; pos 2; pos 3] (fun j => pos (8 + j)) (fun j => 10 + j) (fun j => j).
Definition ex_o : objective := OWeighted 0 [(pos 0, 1); (pos 1, 2); (pos 2, 1); (pos 3, 1); (pos 4, 3)] 0 0.
(** the core x0 x1 x2 x3 (id 1), the definitions of the outputs (2, 3, 4), the unit core o2 (5), the other definitions (12, 13, 14) *)
Definition ex_k0 : chk := mkChk []
  [(1, lb_clause (map axiom [pos 0; pos 1; pos 2; pos 3]));
   (2, only_if_def (leaf_ax ex_t) (out_ax ex_t 2) 2); (3, only_if_def (leaf_ax ex_t) (out_ax ex_t 3) 3);
   (4, only_if_def (leaf_ax ex_t) (out_ax ex_t 4) 4);
   (5, lb_clause (map axiom [pos 10]));
   (12, if_def (leaf_ax ex_t) (out_ax ex_t 2) 2); (13, if_def (leaf_ax ex_t) (out_ax ex_t 3) 3); (14, if_def (leaf_ax ex_t) (out_ax ex_t 4) 4)] 15 [] [].
Definition ex_p : pst := mkPst 15 0 [] [] [] [].
Lemma ex_wok : wok ex_k0 ex_p.
Proof.
  constructor.
  - split.
    + intros i c c' H1 H2. change (kof ex_k0 ex_p) with ex_k0 in *. unfold k_all, ex_k0 in H1, H2. cbn [k_core k_der app In] in H1, H2.
      repeat (destruct H1 as [H1|H1]; [injection H1 as <- <-; repeat (destruct H2 as [H2|H2]; [first [discriminate|injection H2 as <-; reflexivity]|]); destruct H2|]).
      destruct H1.
    + intros e H. change (kof ex_k0 ex_p) with ex_k0 in *. unfold k_all, ex_k0 in H. cbn [k_core k_der app In] in H.
      cbn [k_next ex_k0]. repeat (destruct H as [<-|H]; [cbn [fst]; lia|]). destruct H.
  - exact Logic.I.
  - reflexivity.
  - intros e n H X. change (kof ex_k0 ex_p) with ex_k0 in *. unfold k_all, ex_k0 in H. cbn [k_core k_der app In] in H.
    repeat (destruct H as [<-|H]; [vm_compute in X; repeat (destruct X as [X|X]; [discriminate|]); destruct X|]). destruct H.
Qed.
Lemma ex_twf : tot_wf ex_t.
Proof. unfold tot_wf, proper_ls. vm_compute. repeat constructor; intros H; repeat (destruct H as [H|H]; [discriminate|]); exact H. Qed.
Definition ex_events : list revent := [RCore [pos 0; pos 1; pos 2; pos 3] 1; RReform ex_t []; RCore [pos 10] 5].
Lemma ex_props : forall ls : list lit, NoDup (map lvar ls) -> proper_ls (map axiom ls).
Proof.
  intros ls H. unfold proper_ls. rewrite map_map. induction ls as [|l ls IH]; [constructor|]. inversion H as [|x xs H1 H2]; subst. cbn [map].
  constructor; [|exact (IH H2)]. intros X. apply in_map_iff in X. destruct X as (y & E & Hy). apply H1. apply in_map_iff. exists y. split; [|exact Hy].
  unfold axiom in E. cbn [ax_var] in E. injection E as E. exact E.
Qed.
Lemma ex_clausal : forall ls : list lit, NoDup (map lvar ls) -> clausal (lb_clause (map axiom ls)) (map axiom ls).
Proof. intros ls H. apply clausal_clause; [apply proper_nodup|apply proper_nontaut]; apply ex_props; exact H. Qed.
Ltac nd := repeat constructor; cbn; intuition discriminate.
(** the hypotheses are met, also when core exhaustion is used with the right definition *)
Lemma ex_pre : forall exhaustion, run_pre exhaustion ti_only_if ex_k0 ex_events (reform_start ex_o ex_p).
Proof.
  intros exhaustion. unfold ex_events.
  assert (N4 : NoDup (map lvar [pos 0; pos 1; pos 2; pos 3])) by (cbn; nd).
  assert (HD : forall k v, 2 <= v <= 4 -> In (v, only_if_def (leaf_ax ex_t) (out_ax ex_t v) (Z.of_nat v)) (k_all k) -> has_def k (ti_only_if ex_t v) ex_t v).
  { intros k v Hv H. apply C65_definition; [exact ex_twf|exact Hv|exact H]. }
  cbn [run_pre]. split; [|].
  - cbn [ev_pre]. split; [|split; [discriminate|split; [apply ex_props; exact N4|split; [intros []|split; [intros C []|]]]]].
    + split; [nd|split; [cbn; intros x Hx; cbn in Hx |- *; tauto|split]].
      * intros l _ d E. discriminate.
      * intros l l' d d' _ _ _ E. discriminate.
    + exists (lb_clause (map axiom [pos 0; pos 1; pos 2; pos 3])). split; [left; reflexivity|apply ex_clausal; exact N4].
  - set (s1 := run_revent exhaustion ti_only_if (RCore [pos 0; pos 1; pos 2; pos 3] 1) (reform_start ex_o ex_p)).
    vm_compute in s1. subst s1. cbv iota beta. split.
    + cbn [ev_pre]. split; [exists 1, 1, []; reflexivity|split; [exact ex_twf|split]].
      * destruct exhaustion.
        -- split; [cbn; lia|split].
           ++ intros v Hv. cbn in Hv. assert (v = 2) as -> by lia. apply HD; [lia|]. right; left. reflexivity.
           ++ intros [|i] u H; discriminate.
        -- split; [reflexivity|]. apply HD; [lia|]. right; left. reflexivity.
      * intros _ H. cbn in H. repeat (destruct H as [H|H]; [discriminate|]). exact H.
    + set (s2 := run_revent _ _ _ _).
      assert (S2 : exists line, s2 = Some (mkRst [(pos 0, 0); (pos 1, 1); (pos 2, 0); (pos 3, 0); (pos 4, 3); (pos 10, 1)]
        [(pos 10, mkRdat ex_t 1 1 15)] [] [] 1 (mkPst 16 0 [SPol line] [] [] [])) /\
        exists C, pol_eval pv_eqd (kget ex_k0) line = Some C).
      { destruct exhaustion; eexists; (split; [vm_compute; reflexivity|vm_compute; eexists; reflexivity]). }
      destruct S2 as (line & E2 & C & EC). rewrite E2. clear s2 E2. cbv iota beta.
      assert (K : kof ex_k0 (mkPst 16 0 [SPol line] [] [] []) = add_der ex_k0 C).
      { unfold kof. cbn [ps_log steps_next step_next]. unfold kget in EC. rewrite EC. reflexivity. }
      split; [|match goal with |- match ?x with _ => _ end => destruct x; exact Logic.I end].
      cbn [ev_pre]. split; [|split; [discriminate|split; [apply ex_props; cbn; nd|split; [cbn; intuition discriminate|split]]]].
      * split; [nd|split; [intros x [<-|[]]; cbn; tauto|split]].
        -- intros l [<-|[]] d E Hl. cbn in E. injection E as <-. cbn [rs_p rt_tot rt_oidx]. rewrite K. split; [|split].
           ++ apply HD; [lia|]. apply in_add_der. right. right; right; left. reflexivity.
           ++ cbn. intuition discriminate.
           ++ cbn. intuition discriminate.
        -- intros l l' d d' [<-|[]] [<-|[]] N. contradiction.
      * cbn [rs_p]. rewrite K. intros C' [].
      * cbn [rs_p]. rewrite K. exists (lb_clause (map axiom [pos 10])). split; [apply in_add_der; right; do 4 right; left; reflexivity|apply ex_clausal; cbn; nd].
Qed.
Definition ex_final (exhaustion exact : bool) (def : tinfo -> nat -> nat) : option (option nat * nat * list (lit * nat)) :=
  match run_revents exhaustion def ex_events (reform_start ex_o ex_p) with
  | None => None
  | Some s => let '(r, s') := finish exact s in Some (r, rs_off s', filter (fun lw => 0 <? snd lw) (rs_in s'))
  end.
(** offset 2, reformulated objective x1 + 3 x4 + o3 *)
Example C65_run : ex_final false true ti_if = Some (Some 18, 2, [(pos 1, 1); (pos 4, 3); (pos 11, 1)]).
Proof. vm_compute. reflexivity. Qed.
(** all hypotheses of the theorem hold for this run *)
Example C65_hyps : exists s r s', run_pre false ti_if ex_k0 ex_events (reform_start ex_o ex_p) /\
  run_revents false ti_if ex_events (reform_start ex_o ex_p) = Some s /\ finish_pre true ex_k0 s /\ finish true s = (Some r, s') /\
  rs_refs s <> [] /\ late_terms (rs_refs s) <> [].
Proof.
  do 3 eexists. split; [exact (ex_pre false)|]. split; [vm_compute; reflexivity|].
  split; [|split; [vm_compute; reflexivity|split; [discriminate|vm_compute; discriminate]]].
  split; [reflexivity|]. intros _ x v [<-|[]] Hv. cbn in Hv. assert (v = 4) as -> by lia. split.
  - apply C65_definition; [exact ex_twf|cbn; lia|]. vm_compute. tauto.
  - cbn. intuition discriminate.
Qed.

(** With the definition the code uses in core exhaustion the final constraint says nothing: it also
    holds where the objective is smaller than the reformulated objective. *)
Definition ex_last (def : tinfo -> nat -> nat) : option (nat * pconstr) :=
  match run_revents true def [RCore [pos 0; pos 1; pos 2; pos 3] 1; RReform ex_t []] (reform_start ex_o ex_p) with
  | None => None
  | Some s =>
      match finish false s with
      | (Some id, s') => match e_get (k_all (kof ex_k0 (rs_p s'))) id with Some R => Some (rs_off s', R) | None => None end
      | _ => None
      end
  end.
Theorem C65_exhaustion_refuted : exists off R, ex_last ti_if = Some (off, R) /\ (forall a, lb_holds a R) /\
  exists a, wsum (on_solver a) (obj_iter ex_o) < off.
Proof.
  eexists. eexists. split; [vm_compute; reflexivity|]. split.
  - intros a. vm_compute. destruct (a (PVs 10)); discriminate.
  - exists (fun _ => false). vm_compute. lia.
Qed.
Print Assumptions C65_exhaustion_refuted.
(** the right definition: the same run certifies the bound *)
Example C65_exhaustion_repaired : match ex_last ti_only_if with Some (off, R) => off = 1 /\ ~ lb_holds (fun _ => false) R | None => False end.
Proof. vm_compute. split; [reflexivity|]. intros H. apply H. reflexivity. Qed.
