(** * A concrete totalizer database

    Like [Inst.v], a small implementation that is not a model of rustsat's totalizers: it
    shows that the laws of [enc_spec] and [tot_spec] can be met together, and makes it
    possible to run core boosting in the model.  A node is an arbitrary function of the
    assignment to a list of variables; its outputs are defined by one clause per assignment
    to these variables. *)
From Coq Require Import List Bool Arith Lia ZArith FinFun.
From Verif Require Import Base BaseLemmas MTypes MKernel EncSpec Inst MOll TotSpec.
Import ListNotations.

(** ** Functions of finitely many variables *)
Record gfun := mkG { g_f : asg -> nat; g_vars : list nat; g_max : nat }.
Definition geval (g : gfun) (m : asg) : nat := Nat.min (g_max g) (g_f g (freeze (g_vars g) m)).

(** [o] is true if the value is more than [b] *)
Definition gclauses (g : gfun) (b o : nat) : list clause :=
  map (fun S => pos o :: map (fun v => if mem_nat v S then neg v else pos v) (g_vars g))
      (filter (fun S => b <? geval g (fun v => mem_nat v S)) (subsets (g_vars g))).

Lemma geval_le g m : geval g m <= g_max g.
Proof. unfold geval. lia. Qed.
Lemma filter_agree (P : nat -> Prop) m m' vs : agree P m m' -> (forall v, In v vs -> P v) ->
  filter m vs = filter m' vs.
Proof. intros H Hv. apply filter_ext_in. intros v Hin. apply H. auto. Qed.
Lemma freeze_eq (P : nat -> Prop) m m' vs : agree P m m' -> (forall v, In v vs -> P v) ->
  freeze vs m = freeze vs m'.
Proof. intros H Hv. unfold freeze. now rewrite (filter_agree P m m' vs H Hv). Qed.
Lemma geval_agree (P : nat -> Prop) g m m' : agree P m m' -> (forall v, In v (g_vars g) -> P v) ->
  geval g m = geval g m'.
Proof. intros H Hv. unfold geval. now rewrite (freeze_eq P m m' _ H Hv). Qed.
Lemma freeze_freeze us vs m : incl us vs -> freeze us (freeze vs m) = freeze us m.
Proof.
  intros H. apply (freeze_eq (fun v => In v vs)); [|exact H].
  intros v Hv. symmetry. now apply freeze_agree.
Qed.

Lemma gclauses_exact g b o m :
  m o = (b <? geval g m) -> sat m (gclauses g b o).
Proof.
  intros Ho c Hc. apply in_map_iff in Hc. destruct Hc as (S & <- & HS).
  apply filter_In in HS. destruct HS as [HS Hw].
  match goal with |- ?x = true => destruct x eqn:e; [reflexivity|] end.
  exfalso. rewrite clause_false_iff in e.
  assert (Hpos : lit_true m (pos o) = false) by (apply e; now left).
  rewrite lit_true_pos, Ho in Hpos.
  rewrite (geval_agree (fun v => In v (g_vars g)) g m (fun v => mem_nat v S)) in Hpos; auto.
  - congruence.
  - intros v Hv. assert (H : lit_true m (if mem_nat v S then neg v else pos v) = false).
    { apply e. right. apply in_map_iff. eauto. }
    destruct (mem_nat v S).
    + rewrite lit_true_neg in H. now apply negb_false_iff in H.
    + now rewrite lit_true_pos in H.
Qed.
Lemma gclauses_sound g b o m :
  sat m (gclauses g b o) -> m o = false -> geval g m <= b.
Proof.
  intros Hs Ho. destruct (le_lt_dec (geval g m) b) as [H|H]; [assumption|exfalso].
  set (S := filter m (g_vars g)).
  assert (HS : forall v, In v (g_vars g) -> mem_nat v S = m v).
  { intros v Hv. symmetry. exact (freeze_agree (g_vars g) m v Hv). }
  assert (Hin : In (pos o :: map (fun v => if mem_nat v S then neg v else pos v) (g_vars g))
                   (gclauses g b o)).
  { apply in_map_iff. exists S. split; [reflexivity|]. apply filter_In. split.
    - apply subsets_filter.
    - apply Nat.ltb_lt.
      rewrite (geval_agree (fun v => In v (g_vars g)) g _ m); auto. }
  apply Hs in Hin. apply clause_true_iff in Hin. destruct Hin as (l & Hl & Ht).
  destruct Hl as [<-|Hl].
  - rewrite lit_true_pos in Ht. congruence.
  - apply in_map_iff in Hl. destruct Hl as (v & <- & Hv). rewrite HS in Ht by exact Hv.
    destruct (m v) eqn:e.
    + rewrite lit_true_neg, e in Ht. discriminate.
    + rewrite lit_true_pos, e in Ht. discriminate.
Qed.
Lemma gclauses_vars g b o v :
  In v (cls_vars (gclauses g b o)) -> v = o \/ In v (g_vars g).
Proof.
  intros H. apply in_cls_vars in H. destruct H as (c & Hc & Hv).
  apply in_map_iff in Hc. destruct Hc as (S & <- & HS).
  cbn in Hv. destruct Hv as [<-|Hv]; [now left|].
  right. apply in_lits_vars in Hv. destruct Hv as (l & Hl & <-).
  apply in_map_iff in Hl. destruct Hl as (w & <- & Hw).
  destruct (mem_nat w S); exact Hw.
Qed.

Definition wfun (ls : list (lit * nat)) : gfun :=
  mkG (fun m => wsum m ls) (nodup Nat.eq_dec (lits_vars (map fst ls))) (wtotal ls).
Lemma wfun_eval ls m : geval (wfun ls) m = wsum m ls.
Proof.
  unfold geval. cbn [g_max g_f g_vars wfun].
  rewrite <- (wsum_agree (fun v => In v (lits_vars (map fst ls))) m
    (freeze (nodup Nat.eq_dec (lits_vars (map fst ls))) m) ls).
  - pose proof (wsum_le_total m ls). lia.
  - intros v Hv. apply freeze_agree. now apply nodup_In.
  - auto.
Qed.

(** ** Encoding of such a function *)
Record genc := mkGenc {
  ge_g : gfun;
  ge_outs : list (nat * nat);   (* (bound, output variable), output <-> value > bound *)
  ge_pool : list nat }.         (* reserved variables *)

Definition ge_used_list (e : genc) : list nat := g_vars (ge_g e) ++ map snd (ge_outs e).

(** pick a reserved variable, or a fresh one *)
Definition ge_alloc (e : genc) (nv : nat) : nat * nat :=
  match find (fun v => negb (mem_nat v (ge_used_list e))) (ge_pool e) with
  | Some v => (v, nv)
  | None => (nv, S nv)
  end.

Definition ge_has (e : genc) (b : nat) : bool :=
  existsb (fun bo => Nat.eqb (fst bo) b) (ge_outs e).

Definition ge_encode1 (e : genc) (b nv : nat) : genc * list clause * nat :=
  if (g_max (ge_g e) <=? b) || ge_has e b then (e, [], nv)
  else
    let '(o, nv') := ge_alloc e nv in
    let cl := gclauses (ge_g e) b o in
    (mkGenc (ge_g e) ((b, o) :: ge_outs e) (ge_pool e), cl, nv').

Fixpoint ge_encode_list (e : genc) (bs : list nat) (nv : nat) : genc * list clause * nat :=
  match bs with
  | [] => (e, [], nv)
  | b :: r =>
      let '(e1, cl1, nv1) := ge_encode1 e b nv in
      let '(e2, cl2, nv2) := ge_encode_list e1 r nv1 in
      (e2, cl1 ++ cl2, nv2)
  end.

Definition ge_encode (e : genc) (lo hi nv : nat) := ge_encode_list e (seq lo (hi - lo)) nv.

Definition ge_enforce (e : genc) (b : nat) : option (list lit) :=
  if g_max (ge_g e) <=? b then Some []
  else if ge_has e b
  then Some (map (fun bo => neg (snd bo)) (filter (fun bo => b <=? fst bo) (ge_outs e)))
  else None.

Definition GI : enc_impl := mkEncImpl genc
  (fun ls => mkGenc (wfun ls) [] [])
  (fun ls => mkGenc (wfun (map (fun l => (l, 1)) ls)) [] [])
  (fun e nv => (mkGenc (ge_g e) (ge_outs e) (ge_pool e ++ seq nv (g_max (ge_g e))),
                nv + g_max (ge_g e)))
  ge_encode ge_enforce (fun _ v => S v).

Definition ge_used (e : genc) (v : nat) : Prop := In v (ge_used_list e).
Definition ge_free (e : genc) (v : nat) : Prop := In v (ge_pool e) /\ ~ ge_used e v.
Definition ge_exact (e : genc) (m : asg) : Prop :=
  (forall b o, In (b, o) (ge_outs e) -> m o = (b <? geval (ge_g e) m)).
Definition ge_cost (e : genc) (m : asg) : nat := geval (ge_g e) m.
(** the clauses of an encoding, recomputed from its outputs (independent of [ge_cls]) *)
Definition ge_scls (e : genc) : list clause :=
  flat_map (fun bo => gclauses (ge_g e) (fst bo) (snd bo)) (ge_outs e).

(** One bound *)
Lemma ge_alloc_spec e nv o nv' : ge_alloc e nv = (o, nv') ->
  nv <= nv' /\ (ge_free e o \/ nv <= o < nv') /\ (forall v, nv <= v < nv' -> v = o).
Proof.
  unfold ge_alloc. destruct (find _ _) as [v|] eqn:e1; intros [= <- <-].
  - apply find_some in e1. destruct e1 as [H1 H2]. split; [lia|]. split; [|intros; lia]. left.
    split; [assumption|]. intros H. apply mem_nat_iff in H. rewrite H in H2. discriminate.
  - split; [lia|]. split; [right; lia|intros; lia].
Qed.

Definition ge_ext_law (e e' : genc) (cl : list clause) (nv : nat) : Prop := forall m,
  (forall v, ge_used e v -> v < nv) -> (forall v, ge_free e v -> v < nv) ->
  ge_exact e m ->
  exists m', agree (fun v => v < nv /\ ~ ge_free e v) m m' /\ ge_exact e' m' /\ sat m' cl.

Record ge_step (e : genc) (nv : nat) (e' : genc) (cl : list clause) (nv' : nat) : Prop := {
  gs_next : nv <= nv';
  gs_lits : ge_g e' = ge_g e;
  gs_used : forall v, ge_used e' v -> ge_used e v \/ ge_free e v \/ nv <= v < nv';
  gs_used_mono : forall v, ge_used e v -> ge_used e' v;
  gs_free : forall v, ge_free e' v -> ge_free e v;
  gs_vars : forall v, In v (cls_vars cl) -> ge_used e' v;
  gs_cls : forall c, In c (ge_scls e') -> In c (ge_scls e) \/ In c cl;
  gs_ext : ge_ext_law e e' cl nv;
  gs_exact : forall m, ge_exact e' m -> ge_exact e m;
  gs_has : forall b, ge_has e b = true -> ge_has e' b = true }.

Lemma ge_step_refl e nv : ge_step e nv e [] nv.
Proof.
  constructor; auto; try lia.
  - intros v [].
  - intros m _ _ He. exists m. split; [apply agree_refl|]. split; [assumption|apply sat_nil].
Qed.

Lemma ge_step_trans e nv e1 cl1 nv1 e2 cl2 nv2 :
  ge_step e nv e1 cl1 nv1 -> ge_step e1 nv1 e2 cl2 nv2 ->
  ge_step e nv e2 (cl1 ++ cl2) nv2.
Proof.
  intros A B. constructor.
  - pose proof (gs_next _ _ _ _ _ A). pose proof (gs_next _ _ _ _ _ B). lia.
  - rewrite (gs_lits _ _ _ _ _ B). apply (gs_lits _ _ _ _ _ A).
  - intros v H. pose proof (gs_next _ _ _ _ _ A). pose proof (gs_next _ _ _ _ _ B).
    apply (gs_used _ _ _ _ _ B) in H. destruct H as [H|[H|H]].
    + apply (gs_used _ _ _ _ _ A) in H. destruct H as [H|[H|H]]; auto. right; right; lia.
    + apply (gs_free _ _ _ _ _ A) in H. auto.
    + right; right; lia.
  - intros v H. apply (gs_used_mono _ _ _ _ _ B), (gs_used_mono _ _ _ _ _ A), H.
  - intros v H. apply (gs_free _ _ _ _ _ A), (gs_free _ _ _ _ _ B), H.
  - intros v H. rewrite cls_vars_app in H. apply in_app_or in H. destruct H as [H|H].
    + apply (gs_used_mono _ _ _ _ _ B), (gs_vars _ _ _ _ _ A), H.
    + apply (gs_vars _ _ _ _ _ B), H.
  - intros c H. apply (gs_cls _ _ _ _ _ B) in H. destruct H as [H|H].
    + apply (gs_cls _ _ _ _ _ A) in H. destruct H; auto using in_or_app.
    + auto using in_or_app.
  - intros m Hu Hf He. destruct (gs_ext _ _ _ _ _ A m Hu Hf He) as (m1 & Ha1 & He1 & Hs1).
    assert (Hu1 : forall v, ge_used e1 v -> v < nv1).
    { intros v Hv. pose proof (gs_next _ _ _ _ _ A). apply (gs_used _ _ _ _ _ A) in Hv.
      destruct Hv as [Hv|[Hv|Hv]]; [apply Hu in Hv|apply Hf in Hv|]; lia. }
    destruct (gs_ext _ _ _ _ _ B m1) as (m2 & Ha2 & He2 & Hs2).
    + exact Hu1.
    + intros v Hv. apply (gs_free _ _ _ _ _ A) in Hv. apply Hf in Hv.
      pose proof (gs_next _ _ _ _ _ A). lia.
    + exact He1.
    + exists m2. split; [|split].
      * intros v [Hv1 Hv2]. rewrite (Ha1 v) by auto. apply Ha2. split.
        -- pose proof (gs_next _ _ _ _ _ A). lia.
        -- intros Hf1. apply (gs_free _ _ _ _ _ A) in Hf1. contradiction.
      * assumption.
      * apply sat_app. split; [|assumption].
        eapply sat_agree; [exact Ha2| |exact Hs1]. intros v Hv.
        apply (gs_vars _ _ _ _ _ A) in Hv. split; [auto|]. intros [_ Hn]. contradiction.
  - intros m H. apply (gs_exact _ _ _ _ _ A), (gs_exact _ _ _ _ _ B), H.
  - intros b H. apply (gs_has _ _ _ _ _ B), (gs_has _ _ _ _ _ A), H.
Qed.

Lemma ge_encode1_step e b nv e' cl nv' :
  ge_encode1 e b nv = (e', cl, nv') -> ge_step e nv e' cl nv'.
Proof.
  unfold ge_encode1. destruct (_ || _) eqn:e0.
  { intros [= <- <- <-]. apply ge_step_refl. }
  destruct (ge_alloc e nv) as [o nv1] eqn:ea. intros [= <- <- <-].
  apply ge_alloc_spec in ea. destruct ea as (Hn & Ho & Honly).
  set (cl := gclauses (ge_g e) b o).
  set (e' := mkGenc (ge_g e) ((b, o) :: ge_outs e) (ge_pool e)).
  assert (Hused : forall v, ge_used e' v <-> v = o \/ ge_used e v).
  { intros v. unfold ge_used, ge_used_list. cbn. rewrite !in_app_iff. cbn. intuition. }
  constructor.
  - exact Hn.
  - reflexivity.
  - intros v Hv. apply Hused in Hv. destruct Hv as [->|Hv]; [|auto]. tauto.
  - intros v Hv. apply Hused. auto.
  - intros v [Hp Hnu]. split; [exact Hp|]. intros Hu. apply Hnu, Hused. auto.
  - intros v Hv. apply gclauses_vars in Hv. apply Hused. destruct Hv as [->|Hv]; [auto|].
    right. unfold ge_used, ge_used_list. apply in_or_app. auto.
  - intros c Hc. unfold ge_scls in Hc. cbn in Hc. apply in_app_or in Hc.
    destruct Hc as [Hc|Hc]; [right; exact Hc|left; exact Hc].
  - intros m Hu Hf He.
    assert (Hno : ~ ge_used e o).
    { intros H. destruct Ho as [[_ Ho]|Ho]; [contradiction|]. apply Hu in H. lia. }
    set (m' := upd m o (b <? geval (ge_g e) m)).
    assert (Hag : agree (ge_used e) m m') by (apply agree_upd; exact Hno).
    assert (Hsum : geval (ge_g e) m' = geval (ge_g e) m).
    { symmetry. eapply geval_agree; [exact Hag|]. intros v Hv.
      unfold ge_used, ge_used_list. apply in_or_app. auto. }
    exists m'. split; [|split].
    + intros v [Hv1 Hv2]. unfold m'. symmetry. apply upd_neq. intros ->.
      destruct Ho as [Ho|Ho]; [contradiction|lia].
    + intros b' o' [H|H].
      * injection H as <- <-. change (ge_g e') with (ge_g e). rewrite Hsum. unfold m'. apply upd_eq.
      * change (ge_g e') with (ge_g e). rewrite Hsum. rewrite <- (He _ _ H). symmetry. apply Hag.
        unfold ge_used, ge_used_list. apply in_or_app. right.
        apply in_map_iff. exists (b', o'). auto.
    + apply gclauses_exact. rewrite Hsum. unfold m'. apply upd_eq.
  - intros m H b' o' Hin. apply (H b' o'). now right.
  - intros b' H. unfold ge_has in *. cbn. rewrite H. apply orb_true_r.
Qed.

Lemma ge_encode1_has e b nv e' cl nv' :
  ge_encode1 e b nv = (e', cl, nv') -> b < g_max (ge_g e) -> ge_has e' b = true.
Proof.
  unfold ge_encode1. intros H Hb. apply Nat.leb_gt in Hb. rewrite Hb in H. cbn in H.
  destruct (ge_has e b) eqn:eh.
  - injection H as <- <- <-. exact eh.
  - destruct (ge_alloc e nv). injection H as <- <- <-. unfold ge_has. cbn.
    now rewrite Nat.eqb_refl.
Qed.

Lemma ge_encode_list_step bs : forall e nv e' cl nv',
  ge_encode_list e bs nv = (e', cl, nv') ->
  ge_step e nv e' cl nv' /\
  (forall b, In b bs -> b < g_max (ge_g e) -> ge_has e' b = true).
Proof.
  induction bs as [|b bs IH]; intros e nv e' cl nv'; cbn.
  - intros [= <- <- <-]. split; [apply ge_step_refl|intros b []].
  - destruct (ge_encode1 e b nv) as [[e1 cl1] nv1] eqn:E1.
    destruct (ge_encode_list e1 bs nv1) as [[e2 cl2] nv2] eqn:E2. intros [= <- <- <-].
    destruct (IH _ _ _ _ _ E2) as [H2 H3]. pose proof (ge_encode1_step _ _ _ _ _ _ E1) as H1.
    split; [eapply ge_step_trans; eauto|]. intros b' [<-|Hb'] Hlt.
    + apply (gs_has _ _ _ _ _ H2). eapply ge_encode1_has; eauto.
    + apply H3; [assumption|]. now rewrite (gs_lits _ _ _ _ _ H1).
Qed.

Lemma ge_enforce_some e b ls : ge_enforce e b = Some ls ->
  (ls = [] /\ g_max (ge_g e) <= b) \/
  (b < g_max (ge_g e) /\ ge_has e b = true /\
   ls = map (fun bo => neg (snd bo)) (filter (fun bo => b <=? fst bo) (ge_outs e))).
Proof.
  unfold ge_enforce. destruct (g_max (ge_g e) <=? b) eqn:e1.
  - intros [= <-]. left. split; [reflexivity|now apply Nat.leb_le].
  - destruct (ge_has e b); [|discriminate]. intros [= <-]. right.
    apply Nat.leb_gt in e1. auto.
Qed.

Definition GS : enc_spec GI.
Proof.
  refine (mkEncSpec GI ge_cost ge_used ge_free ge_exact ge_scls
            (fun e => g_max (ge_g e)) _ _ _ _ _ _ _ _ _ _ _ _ _ _ _ _ _ _ _ _ _ _ _ _
            _ _ _ _ _ _ _ _ _ _ _ _ _ _).
  - intros e m m' H. eapply geval_agree; [exact H|]. intros v Hv.
    unfold ge_used, ge_used_list. apply in_or_app. auto.
  - intros e m m' H He b o Hin. rewrite <- (H o).
    + rewrite (He _ _ Hin). f_equal. eapply geval_agree; [exact H|]. intros v Hv.
      unfold ge_used, ge_used_list. apply in_or_app. auto.
    + unfold ge_used, ge_used_list. apply in_or_app. right. apply in_map_iff.
      exists (b, o). auto.
  - intros ls m _. apply wfun_eval.
  - intros ls v H. unfold ge_used, ge_used_list in H. cbn in H. rewrite app_nil_r in H.
    now apply nodup_In in H.
  - intros ls v [[] _].
  - intros ls m b o [].
  - reflexivity.
  - reflexivity.
  - intros ls m. apply wfun_eval.
  - intros ls v H. unfold ge_used, ge_used_list in H. cbn in H. rewrite app_nil_r in H.
    apply nodup_In in H. now rewrite map_fst_ones in H.
  - intros ls v [[] _].
  - intros ls m b o [].
  - reflexivity.
  - intros ls. cbn. apply wtotal_ones.
  - intros e nv e' nv' [= <- <-]. lia.
  - intros e nv e' nv' m [= <- <-]. reflexivity.
  - intros e nv e' nv' v [= <- <-] H. exact H.
  - intros e nv e' nv' v [= <- <-] [Hp Hn]. cbn in Hp. apply in_app_or in Hp.
    destruct Hp as [Hp|Hp].
    + left. split; [exact Hp|exact Hn].
    + right. apply in_seq in Hp. lia.
  - intros e nv e' nv' m [= <- <-]. reflexivity.
  - intros e nv e' nv' [= <- <-]. reflexivity.
  - intros e nv e' nv' [= <- <-]. reflexivity.
  - intros e lo hi nv e' cl nv' H. apply ge_encode_list_step in H. apply H.
  - intros e lo hi nv e' cl nv' m H. apply ge_encode_list_step in H. destruct H as [H _].
    unfold ge_cost. now rewrite (gs_lits _ _ _ _ _ H).
  - intros e lo hi nv e' cl nv' H. apply ge_encode_list_step in H. destruct H as [H _].
    now rewrite (gs_lits _ _ _ _ _ H).
  - intros e lo hi nv e' cl nv' v H Hv. apply ge_encode_list_step in H. destruct H as [H _].
    apply (gs_used _ _ _ _ _ H), Hv.
  - intros e lo hi nv e' cl nv' v H Hv. apply ge_encode_list_step in H. destruct H as [H _].
    apply (gs_used_mono _ _ _ _ _ H), Hv.
  - intros e lo hi nv e' cl nv' v H Hv. apply ge_encode_list_step in H. destruct H as [H _].
    split; [|apply Hv]. left. apply (gs_free _ _ _ _ _ H), Hv.
  - intros e lo hi nv e' cl nv' v H Hv. apply ge_encode_list_step in H. destruct H as [H _].
    apply (gs_vars _ _ _ _ _ H), Hv.
  - intros e lo hi nv e' cl nv' c H Hv. apply ge_encode_list_step in H. destruct H as [H _].
    apply (gs_cls _ _ _ _ _ H), Hv.
  - intros e lo hi nv e' cl nv' m H Hu Hf Hd He. apply ge_encode_list_step in H.
    destruct H as [H _]. exact (gs_ext _ _ _ _ _ H m Hu Hf He).
  - intros e lo hi nv e' cl nv' m H Hv. apply ge_encode_list_step in H. destruct H as [H _].
    apply (gs_exact _ _ _ _ _ H), Hv.
  - intros e lo hi nv e' cl nv' b H Hb. apply ge_encode_list_step in H. destruct H as [H1 H2].
    cbn. unfold ge_enforce. destruct (g_max (ge_g e') <=? b) eqn:eb; [discriminate|].
    rewrite H2; [discriminate| |].
    + apply in_seq. lia.
    + apply Nat.leb_gt in eb. now rewrite (gs_lits _ _ _ _ _ H1) in eb.
  - intros e b ls l H Hl. apply ge_enforce_some in H. destruct H as [[-> _]|(_ & _ & ->)]; [destruct Hl|].
    apply in_map_iff in Hl. destruct Hl as (bo & <- & Hbo). apply filter_In in Hbo.
    unfold ge_used, ge_used_list. apply in_or_app. right. cbn. apply in_map. apply Hbo.
  - intros e b ls m H Hs Ht. apply ge_enforce_some in H.
    destruct H as [[_ H]|(_ & H & ->)].
    + unfold ge_cost. pose proof (geval_le (ge_g e) m). lia.
    + unfold ge_has in H. apply existsb_exists in H. destruct H as ([b' o] & Hin & He).
      cbn in He. apply Nat.eqb_eq in He. subst b'.
      eapply (gclauses_sound (ge_g e) b o).
      * intros c Hc. apply Hs. unfold ge_scls. apply in_flat_map. exists (b, o). auto.
      * assert (Hl : lit_true m (neg o) = true).
        { apply Ht. apply in_map_iff. exists (b, o). split; [reflexivity|].
          apply filter_In. split; [assumption|]. cbn. apply Nat.leb_refl. }
        rewrite lit_true_neg in Hl. now apply negb_true_iff in Hl.
  - intros e b ls m H He Hc. apply ge_enforce_some in H.
    destruct H as [[-> _]|(_ & _ & ->)]; [apply lits_true_nil|].
    intros l Hl. apply in_map_iff in Hl. destruct Hl as ([b' o] & <- & Hbo).
    apply filter_In in Hbo. destruct Hbo as [Hbo Hle]. apply Nat.leb_le in Hle.
    unfold fst in Hle. unfold snd. rewrite lit_true_neg, (He _ _ Hbo). apply negb_true_iff, Nat.ltb_ge.
    unfold ge_cost in Hc. lia.
  - intros e b ls H Hm. apply ge_enforce_some in H. destruct H as [[-> _]|(H & _)]; [reflexivity|].
    lia.
  - intros e v. cbn. lia.
  - intros e v m H. cbn. lia.
Defined.

(** ** The database *)
Record gnode := mkN { n_g : gfun; n_kd : nkind; n_wt : nat }.
Record rdb := mkR {
  r_nodes : list gnode;
  r_outs : list (nat * nat * nat);   (* (node, bound, output variable) *)
  r_pool : list nat;                 (* reserved variables *)
  r_skip : list nat }.               (* output variables whose clauses have been forgotten *)

Definition dnode : gnode := mkN (mkG (fun _ => 0) [] 0) KLeaf 1.
Definition rn (r : rdb) (id : nat) : gnode := nth id (r_nodes r) dnode.
Definition rval (r : rdb) (id : nat) (m : asg) : nat := geval (n_g (rn r id)) m.
Definition rmax (r : rdb) (id : nat) : nat := g_max (n_g (rn r id)).
Definition rw (r : rdb) (id : nat) : nat :=
  match n_kd (rn r id) with KGeneral => n_wt (rn r id) | _ => 1 end.
Definition is_unit (n : gnode) : bool := match n_kd n with KUnit => true | _ => false end.
Definition rint (r : rdb) (id : nat) : bool := (id <? length (r_nodes r)) && is_unit (rn r id).
Definition rleaf (r : rdb) : list nat := flat_map (fun n => g_vars (n_g n)) (r_nodes r).
Definition raux (r : rdb) : list nat := map snd (r_outs r).
Definition rbuilt (r : rdb) : list (nat * nat * nat) :=
  filter (fun x => negb (mem_nat (snd x) (r_skip r))) (r_outs r).
Definition rcls (r : rdb) : list clause :=
  flat_map (fun x => gclauses (n_g (rn r (fst (fst x)))) (snd (fst x)) (snd x)) (rbuilt r).
Definition rexact (r : rdb) (m : asg) : Prop :=
  forall id k v, In (id, k, v) (r_outs r) -> m v = (k <? rval r id m).
Definition key_eq (id k : nat) (x : nat * nat * nat) : bool :=
  Nat.eqb (fst (fst x)) id && Nat.eqb (snd (fst x)) k.
Definition rout (r : rdb) (id k : nat) : option lit :=
  match find (key_eq id k) (r_outs r) with
  | Some x => if mem_nat (snd x) (r_skip r) then None else Some (pos (snd x))
  | None => None
  end.

Fixpoint nodupb (l : list nat) : bool :=
  match l with [] => true | x :: r => negb (mem_nat x r) && nodupb r end.
Definition rok (r : rdb) : bool :=
  forallb (fun x => rint r (fst (fst x))) (r_outs r) && nodupb (raux r).

Definition tdb := { r : rdb | rok r = true }.
Definition raw (d : tdb) : rdb := proj1_sig d.
Definition put (d : tdb) (r : rdb) : tdb :=
  match bool_dec (rok r) true with left H => exist _ r H | right _ => d end.

Definition tnew : tdb := exist (fun r => rok r = true) (mkR [] [] [] []) eq_refl.
Definition add_node (r : rdb) (n : gnode) : rdb := mkR (r_nodes r ++ [n]) (r_outs r) (r_pool r) (r_skip r).
Definition leaf_node (l : lit) : gnode :=
  mkN (mkG (fun m => if lit_true m l then 1 else 0) [lvar l] 1) KLeaf 1.
Definition tleaf (d : tdb) (l : lit) : tdb * nat :=
  (put d (add_node (raw d) (leaf_node l)), length (r_nodes (raw d))).
Definition merged (r : rdb) (cs : list con) : gfun :=
  mkG (fun m => cons_app (fun id => rval r id m) cs)
      (nodup Nat.eq_dec (flat_map (fun x => g_vars (n_g (rn r (cn_id x)))) cs))
      (cons_app (rmax r) cs).
Definition tmerge (d : tdb) (cs : list con) : tdb * con :=
  (put d (add_node (raw d) (mkN (merged (raw d) cs) KUnit 1)),
   con_full (length (r_nodes (raw d)))).
Definition tthorough (d : tdb) (cs : list con) : tdb * con :=
  match cs with
  | [x] => (d, x)
  | _ =>
      (put d (add_node (raw d) (mkN (merged (raw d) cs) KGeneral
         (list_max (map (fun x => cn_mult x * rw (raw d) (cn_id x)) cs)))),
       con_full (length (r_nodes (raw d))))
  end.
Definition talloc (r : rdb) (nv : nat) : nat * nat :=
  match find (fun v => negb (mem_nat v (raux r))) (r_pool r) with
  | Some v => (v, nv)
  | None => let v := Nat.max nv (S (list_max (raux r))) in (v, S v)
  end.
Definition tdefine (d : tdb) (id k nv : nat) : tdb * lit * list clause * nat :=
  let r := raw d in
  match find (key_eq id k) (r_outs r) with
  | Some x =>
      let v := snd x in
      if mem_nat v (r_skip r)
      then (put d (mkR (r_nodes r) (r_outs r) (r_pool r) (remove Nat.eq_dec v (r_skip r))), pos v,
            gclauses (n_g (rn r id)) k v, nv)
      else (d, pos v, [], nv)
  | None =>
      let '(v, nv') := talloc r nv in
      (put d (mkR (r_nodes r) ((id, k, v) :: r_outs r) (r_pool r) (remove Nat.eq_dec v (r_skip r))), pos v,
       gclauses (n_g (rn r id)) k v, nv')
  end.
Definition treserve (d : tdb) (id k nv : nat) : tdb * nat :=
  let r := raw d in
  (put d (mkR (r_nodes r) (r_outs r) (r_pool r ++ seq nv (rmax r id - k)) (r_skip r)), nv + (rmax r id - k)).
Definition treset (d : tdb) : tdb := put d (mkR (r_nodes (raw d)) [] [] []).
(** forgetting the clauses but not the variables *)
Definition tkeep (d : tdb) : tdb := put d (mkR (r_nodes (raw d)) (r_outs (raw d)) (r_pool (raw d)) (raux (raw d))).
Definition tpool (r : rdb) : list nat := filter (fun v => negb (mem_nat v (raux r))) (r_pool r).
Definition ttot (d : tdb) (id off : nat) : genc :=
  mkGenc (mkG (fun m => rval (raw d) id m - off) (g_vars (n_g (rn (raw d) id)))
              (rmax (raw d) id - off)) [] (tpool (raw d)).
Definition tgte (d : tdb) (c : con) (w : nat) : genc :=
  mkGenc (mkG (fun m => cn_mult c * (rval (raw d) (cn_id c) m - cn_off c))
              (g_vars (n_g (rn (raw d) (cn_id c))))
              (cn_mult c * (rmax (raw d) (cn_id c) - cn_off c))) [] (tpool (raw d)).

Definition TI : tot_impl GI := mkTotImpl GI tdb tnew tleaf tmerge (fun d id => rmax (raw d) id)
  tdefine treserve treset tthorough (fun d id => n_kd (rn (raw d) id)) ttot tgte.

(** ** The laws *)
Lemma nodupb_iff l : nodupb l = true <-> NoDup l.
Proof.
  induction l as [|x r IH]; cbn.
  - split; [constructor|reflexivity].
  - rewrite andb_true_iff, negb_true_iff, IH. split.
    + intros [H1 H2]. constructor; [|exact H2]. intros H. apply mem_nat_iff in H. congruence.
    + intros H. inversion H as [|? ? H1 H2]; subst. split; [|exact H2].
      destruct (mem_nat x r) eqn:e; [|reflexivity]. apply mem_nat_iff in e. contradiction.
Qed.

Lemma put_raw d r : rok r = true -> raw (put d r) = r.
Proof. intros H. unfold put. destruct (bool_dec (rok r) true); [reflexivity|contradiction]. Qed.

Lemma rok_iff r : rok r = true <->
  (forall id k v, In (id, k, v) (r_outs r) -> rint r id = true) /\ NoDup (raux r).
Proof.
  unfold rok. rewrite andb_true_iff, nodupb_iff, forallb_forall. split.
  - intros [H1 H2]. split; [|exact H2]. intros id k v H. exact (H1 _ H).
  - intros [H1 H2]. split; [|exact H2]. intros [[id k] v] H. exact (H1 _ _ _ H).
Qed.

Lemma raw_ok d : rok (raw d) = true.
Proof. exact (proj2_sig d). Qed.

Lemma rn_add r n id : id < length (r_nodes r) -> rn (add_node r n) id = rn r id.
Proof. intros H. unfold rn. cbn. now rewrite app_nth1. Qed.
Lemma rn_new r n : rn (add_node r n) (length (r_nodes r)) = n.
Proof. unfold rn. cbn [add_node r_nodes]. rewrite app_nth2 by lia. now rewrite Nat.sub_diag. Qed.
Lemma len_add r n : length (r_nodes (add_node r n)) = S (length (r_nodes r)).
Proof. cbn. rewrite app_length. cbn. lia. Qed.

Lemma rint_iff r id : rint r id = true <-> id < length (r_nodes r) /\ n_kd (rn r id) = KUnit.
Proof.
  unfold rint, is_unit. rewrite andb_true_iff, Nat.ltb_lt.
  destruct (n_kd (rn r id)); intuition congruence.
Qed.
Lemma rint_add r n id : rint r id = true -> rint (add_node r n) id = true.
Proof.
  rewrite !rint_iff. intros [H1 H2]. split; [rewrite len_add; lia|].
  rewrite rn_add by exact H1. exact H2.
Qed.
Lemma rok_add r n : rok r = true -> rok (add_node r n) = true.
Proof.
  rewrite !rok_iff. intros [H1 H2]. split; [|exact H2].
  intros id k v H. apply rint_add. exact (H1 _ _ _ H).
Qed.

Lemma rcls_add r n : rok r = true -> rcls (add_node r n) = rcls r.
Proof.
  intros H. apply rok_iff in H. destruct H as [H _]. unfold rcls.
  change (rbuilt (add_node r n)) with (rbuilt r).
  assert (forall l, incl l (r_outs r) ->
    flat_map (fun x => gclauses (n_g (rn (add_node r n) (fst (fst x)))) (snd (fst x)) (snd x)) l =
    flat_map (fun x => gclauses (n_g (rn r (fst (fst x)))) (snd (fst x)) (snd x)) l); [|apply H0, incl_filter].
  induction l as [|[[id k] v] l IH]; intros Hl; [reflexivity|]. cbn [flat_map fst snd].
  rewrite IH by (intros y Hy; apply Hl; now right). f_equal.
  rewrite rn_add; [reflexivity|]. apply (proj1 (rint_iff r id)). apply (H id k v), Hl. now left.
Qed.
Lemma rexact_add r n m : rok r = true -> (rexact (add_node r n) m <-> rexact r m).
Proof.
  intros H. apply rok_iff in H. destruct H as [H _]. unfold rexact, rval.
  change (r_outs (add_node r n)) with (r_outs r).
  split; intros G id k v Hin; specialize (G _ _ _ Hin); (rewrite rn_add in *; [exact G|]);
    apply (proj1 (rint_iff r id)), (H _ _ _ Hin).
Qed.

Definition tnode (d : tdb) (id : nat) : Prop := id < length (r_nodes (raw d)).
Definition tint (d : tdb) (id : nat) : Prop := rint (raw d) id = true.
Definition tfree (d : tdb) (v : nat) : Prop := In v (r_pool (raw d)) /\ ~ In v (raux (raw d)).

Definition text (d d' : tdb) : Prop := forall id, tnode d id ->
  tnode d' id /\ (forall m, rval (raw d') id m = rval (raw d) id m) /\
  rmax (raw d') id = rmax (raw d) id /\ rw (raw d') id = rw (raw d) id /\
  ti_len TI d' id = ti_len TI d id /\ (tint d id -> tint d' id).

Lemma text_nodes d d' : r_nodes (raw d') = r_nodes (raw d) -> text d d'.
Proof.
  intros H id Hn. assert (Hr : rn (raw d') id = rn (raw d) id) by (unfold rn; now rewrite H).
  unfold tnode, rval, rmax, rw, tint, rint, is_unit, ti_len, TI, rmax. rewrite H, Hr. auto 10.
Qed.

Lemma add_laws d n : let d' := put d (add_node (raw d) n) in
  raw d' = add_node (raw d) n /\ text d d' /\
  (forall v, In v (raux (raw d')) <-> In v (raux (raw d))) /\
  (forall v, tfree d' v <-> tfree d v) /\
  (forall m, rexact (raw d') m <-> rexact (raw d) m) /\
  rcls (raw d') = rcls (raw d) /\ (forall id k, rout (raw d') id k = rout (raw d) id k) /\
  rn (raw d') (length (r_nodes (raw d))) = n.
Proof.
  intros d'. pose proof (raw_ok d) as Hok.
  assert (Hr : raw d' = add_node (raw d) n) by (apply put_raw, rok_add, Hok).
  split; [exact Hr|]. split.
  { intros id Hn. unfold tnode, tint, ti_len, TI, rval, rmax, rw. rewrite Hr.
    rewrite !rn_add by exact Hn. rewrite len_add. unfold tnode in Hn.
    repeat split; auto; try lia. apply rint_add. }
  unfold tfree. rewrite Hr. split; [tauto|]. split; [tauto|].
  split; [intros m; apply rexact_add, Hok|]. split; [apply rcls_add, Hok|].
  split; [reflexivity|apply rn_new].
Qed.

Lemma con_app_mono f g c : f (cn_id c) <= g (cn_id c) -> con_app f c <= con_app g c.
Proof.
  intros H. unfold con_app. apply Nat.mul_le_mono_l.
  destruct (cn_limit c); cbn [lim]; lia.
Qed.
Lemma cons_app_mono f g cs : (forall x, In x cs -> f (cn_id x) <= g (cn_id x)) ->
  cons_app f cs <= cons_app g cs.
Proof.
  induction cs as [|c cs IH]; intros H; [apply le_n|].
  change (con_app f c + cons_app f cs <= con_app g c + cons_app g cs).
  pose proof (con_app_mono f g c (H _ (or_introl eq_refl))).
  specialize (IH (fun x Hx => H x (or_intror Hx))). lia.
Qed.
Lemma cons_app_ext f g cs : (forall x, In x cs -> f (cn_id x) = g (cn_id x)) ->
  cons_app f cs = cons_app g cs.
Proof.
  intros H. apply Nat.le_antisymm; apply cons_app_mono; intros x Hx; rewrite (H x Hx); lia.
Qed.

Lemma merged_eval r cs m : geval (merged r cs) m = cons_app (fun id => rval r id m) cs.
Proof.
  unfold geval. cbn [g_max g_f g_vars merged].
  set (V := nodup _ _).
  rewrite (cons_app_ext (fun id => rval r id (freeze V m)) (fun id => rval r id m) cs).
  - apply Nat.min_r. apply cons_app_mono. intros x _. apply geval_le.
  - intros x Hx. apply (geval_agree (fun v => In v V)).
    + intros v Hv. symmetry. now apply freeze_agree.
    + intros v Hv. apply nodup_In, in_flat_map. eauto.
Qed.

Lemma rleaf_node r id v : id < length (r_nodes r) -> In v (g_vars (n_g (rn r id))) -> In v (rleaf r).
Proof.
  intros H Hv. apply in_flat_map. exists (rn r id). split; [now apply nth_In|exact Hv].
Qed.
Lemma rleaf_rn r id v : In v (g_vars (n_g (rn r id))) -> In v (rleaf r).
Proof.
  intros Hv. destruct (le_lt_dec (length (r_nodes r)) id) as [H|H].
  - unfold rn in Hv. rewrite nth_overflow in Hv by exact H. destruct Hv.
  - now apply (rleaf_node r id).
Qed.
Lemma rleaf_add r n v : In v (rleaf (add_node r n)) <-> In v (rleaf r) \/ In v (g_vars (n_g n)).
Proof.
  unfold rleaf. cbn. rewrite flat_map_app, in_app_iff. cbn. rewrite app_nil_r. tauto.
Qed.
Lemma merged_leaf r cs kd w v :
  In v (rleaf (add_node r (mkN (merged r cs) kd w))) <-> In v (rleaf r).
Proof.
  rewrite rleaf_add. cbn [n_g g_vars merged]. split; [|auto]. intros [H|H]; [exact H|].
  apply nodup_In, in_flat_map in H. destruct H as (x & _ & H). now apply rleaf_rn in H.
Qed.
Lemma rval_dep r id m m' : agree (fun v => In v (rleaf r)) m m' -> rval r id m = rval r id m'.
Proof.
  intros H. apply (geval_agree (fun v => In v (rleaf r))); [exact H|].
  intros v Hv. now apply rleaf_rn in Hv.
Qed.

Lemma find_key r id k x : find (key_eq id k) (r_outs r) = Some x ->
  x = (id, k, snd x) /\ In (id, k, snd x) (r_outs r).
Proof.
  destruct x as [[i j] v]. intros e.
  apply find_some in e. destruct e as [H1 H2]. unfold key_eq in H2. cbn in H2.
  apply andb_true_iff in H2. destruct H2 as [H2 H3]. apply Nat.eqb_eq in H2, H3. subst. auto.
Qed.
Lemma rout_built r id k l : rout r id k = Some l ->
  exists v, l = pos v /\ In (id, k, v) (rbuilt r).
Proof.
  unfold rout. destruct (find _ _) as [x|] eqn:e; [|discriminate].
  destruct (mem_nat (snd x) (r_skip r)) eqn:em; [discriminate|]. intros [= <-].
  apply find_key in e. destruct e as [H1 H2]. exists (snd x). split; [reflexivity|].
  apply filter_In. split; [exact H2|]. cbn [snd]. now rewrite em.
Qed.
Lemma rout_some r id k l : rout r id k = Some l ->
  exists v, l = pos v /\ In (id, k, v) (r_outs r).
Proof.
  intros H. apply rout_built in H. destruct H as (v & -> & H). exists v. split; [reflexivity|].
  apply filter_In in H. apply H.
Qed.
Lemma skip_raw d s : raw (put d (mkR (r_nodes (raw d)) (r_outs (raw d)) (r_pool (raw d)) s)) =
  mkR (r_nodes (raw d)) (r_outs (raw d)) (r_pool (raw d)) s.
Proof. apply put_raw. apply (raw_ok d). Qed.
Lemma raux_in r id k v : In (id, k, v) (r_outs r) -> In v (raux r).
Proof. intros H. apply in_map_iff. exists (id, k, v). auto. Qed.

Lemma nodup_snd (l : list (nat * nat * nat)) x y :
  NoDup (map snd l) -> In x l -> In y l -> snd x = snd y -> x = y.
Proof.
  induction l as [|a l IH]; cbn; intros HN Hx Hy He; [destruct Hx|].
  inversion HN as [|? ? H1 H2]; subst. destruct Hx as [->|Hx]; destruct Hy as [->|Hy]; auto.
  - exfalso. apply H1. rewrite He. now apply in_map.
  - exfalso. apply H1. rewrite <- He. now apply in_map.
Qed.

Lemma talloc_spec d nv v nv' : talloc (raw d) nv = (v, nv') ->
  nv <= nv' /\ (tfree d v \/ nv <= v < nv') /\ ~ In v (raux (raw d)).
Proof.
  unfold talloc. destruct (find _ _) as [w|] eqn:e; intros [= <- <-].
  - apply find_some in e. destruct e as [H1 H2]. apply negb_true_iff in H2.
    assert (~ In w (raux (raw d))) by (intros H; apply mem_nat_iff in H; congruence).
    split; [lia|]. split; [|assumption]. left. split; assumption.
  - split; [lia|]. split; [right; lia|]. intros H.
    pose proof (proj1 (list_max_le (raux (raw d)) _) (le_n _)) as G.
    rewrite Forall_forall in G. apply G in H. lia.
Qed.

Lemma mem_remove v w s : mem_nat v (remove Nat.eq_dec w s) = true -> mem_nat v s = true /\ v <> w.
Proof. intros H. apply mem_nat_iff, in_remove in H. destruct H as [H1 H2]. split; [now apply mem_nat_iff|exact H2]. Qed.
Lemma mem_remove_same v s : mem_nat v (remove Nat.eq_dec v s) = false.
Proof. destruct (mem_nat v _) eqn:e; [|reflexivity]. apply mem_remove in e. now destruct e. Qed.
Lemma mem_remove_in v w s : mem_nat v s = false -> mem_nat v (remove Nat.eq_dec w s) = false.
Proof. intros H. destruct (mem_nat v (remove _ _ _)) eqn:e; [|reflexivity]. apply mem_remove in e. destruct e. congruence. Qed.

Lemma tdefine_new d id k v s : rint (raw d) id = true -> ~ In v (raux (raw d)) ->
  let r := raw d in
  raw (put d (mkR (r_nodes r) ((id, k, v) :: r_outs r) (r_pool r) s)) =
  mkR (r_nodes r) ((id, k, v) :: r_outs r) (r_pool r) s.
Proof.
  intros Hi Hv r. apply put_raw, rok_iff. pose proof (raw_ok d) as H. apply rok_iff in H.
  destruct H as [H1 H2]. split.
  - intros i j w [[= <- <- <-]|H]; [exact Hi|exact (H1 _ _ _ H)].
  - constructor; assumption.
Qed.

Definition TS : tot_spec GS TI.
Proof.
  refine (mkTotSpec GI GS TI tnode tint (fun d => rval (raw d)) (fun d => rmax (raw d))
    (fun d => rw (raw d)) (fun d v => In v (rleaf (raw d))) (fun d v => In v (raux (raw d)))
    tfree (fun d => rexact (raw d)) (fun d => rcls (raw d)) (fun d => rout (raw d))
    _ _ _ _ _ _ _ _ _ _ _ _ _ _ _ _ _ _ _ _ _ _ _ _ _ _ _ _ _ _ _ _ _ _ _ _ _).
  - intros d id m m' _ H. now apply rval_dep.
  - intros d id m _. apply geval_le.
  - intros d m m' H He id k v Hin. rewrite <- (H v).
    + rewrite (He _ _ _ Hin). f_equal. apply rval_dep. intros w Hw. apply H. now left.
    + right. now apply raux_in in Hin.
  - intros d id H. apply rint_iff in H. apply H.
  - intros d id H. apply rint_iff in H. destruct H as [_ H]. split; [reflexivity|].
    unfold rw. now rewrite H.
  - intros d id H. apply rint_iff in H. destruct H as [_ H]. cbn. now rewrite H.
  - intros d id k l H. apply rout_some in H. destruct H as (v & _ & H).
    pose proof (raw_ok d) as G. apply rok_iff in G. exact (proj1 G _ _ _ H).
  - intros d id k l H. apply rout_some in H. destruct H as (v & -> & H). now apply raux_in in H.
  - intros d id k id' k' l H H'. apply rout_some in H, H'.
    destruct H as (v & -> & H). destruct H' as (v' & E' & H').
    assert (v = v') by (apply (f_equal lvar) in E'; exact E'). subst v'.
    pose proof (raw_ok d) as G. apply rok_iff in G.
    pose proof (nodup_snd _ _ _ (proj2 G) H H' eq_refl) as E. injection E. auto.
  - intros d id k l m H Hs Hk. apply rout_built in H. destruct H as (v & -> & H).
    rewrite lit_true_pos. destruct (m v) eqn:e; [reflexivity|]. exfalso.
    assert (rval (raw d) id m <= k); [|lia]. apply (gclauses_sound _ k v); [|exact e].
    intros c Hc. apply Hs. apply in_flat_map. exists (id, k, v). auto.
  - intros d id k l m H He. apply rout_some in H. destruct H as (v & -> & H).
    rewrite lit_true_pos. apply He, H.
  - intros v [].
  - intros v [].
  - intros v [[] _].
  - intros m id k v [].
  - reflexivity.
  - reflexivity.
  - intros d l d' id [= <- <-].
    destruct (add_laws d (leaf_node l)) as (Hr & H1 & H2 & H3 & H4 & H5 & H6 & H7).
    split; [exact H1|]. split; [repeat (split; [assumption|]); assumption|].
    split; [|split; [|split; [|split; [|split]]]].
    + intros v Hv. rewrite Hr, rleaf_add in Hv. destruct Hv as [Hv|[<-|[]]]; auto.
    + intros v Hv. rewrite Hr, rleaf_add. now left.
    + unfold tnode. rewrite Hr, len_add. lia.
    + intros m. unfold rval. rewrite H7. unfold geval. cbn [n_g leaf_node g_f g_max g_vars].
      rewrite <- (lit_true_agree (fun v => v = lvar l) m (freeze [lvar l] m) l).
      * destruct (lit_true m l); reflexivity.
      * intros v ->. apply freeze_agree. now left.
      * reflexivity.
    + unfold rmax. now rewrite H7.
    + unfold rw. now rewrite H7.
  - intros d cs d' c [= <- <-] _ Hcs.
    destruct (add_laws d (mkN (merged (raw d) cs) KUnit 1)) as (Hr & H1 & H2 & H3 & H4 & H5 & H6 & H7).
    split; [exact H1|]. split; [repeat (split; [assumption|]); assumption|].
    cbn [cn_id con_full]. split; [|split; [|split; [|split; [|split]]]].
    + intros v. rewrite Hr. apply merged_leaf.
    + reflexivity.
    + unfold tnode. lia.
    + unfold tint. apply rint_iff. rewrite H7. rewrite Hr, len_add. split; [lia|reflexivity].
    + intros m. unfold rval at 1. rewrite H7. apply merged_eval.
    + unfold rmax at 1. now rewrite H7.
  - intros d id k nv d' l cl nv' H. cbn in H. unfold tdefine in H.
    destruct (find (key_eq id k) (r_outs (raw d))) as [x|] eqn:eo.
    { destruct (mem_nat _ _); injection H as _ _ _ <-; apply le_n. }
    destruct (talloc (raw d) nv) as [v nv1] eqn:ea. injection H as _ _ _ <-.
    apply talloc_spec in ea. apply ea.
  - intros d id k nv d' l cl nv' H Hi Hk. cbn in H. unfold tdefine in H.
    destruct (find (key_eq id k) (r_outs (raw d))) as [x|] eqn:eo.
    { destruct (find_key _ _ _ _ eo) as [Hx Hin]. set (v := snd x) in *. destruct (mem_nat v (r_skip (raw d))) eqn:em.
      - injection H as <- <- <- <-. pose proof (skip_raw d (remove Nat.eq_dec v (r_skip (raw d)))) as Hr.
        set (d' := put _ _) in *.
        assert (Hrn : forall i, rn (raw d') i = rn (raw d) i) by (intros i; rewrite Hr; reflexivity).
        assert (Hxa : raux (raw d') = raux (raw d)) by (rewrite Hr; reflexivity).
        split; [lia|]. split; [apply text_nodes; now rewrite Hr|]. split; [rewrite Hr; tauto|]. split.
        { rewrite Hr. unfold rout. cbn [r_outs r_skip]. rewrite eo. fold v. now rewrite mem_remove_same. }
        split.
        { intros i j l Hl. unfold rout in *. rewrite Hr. cbn [r_outs r_skip]. destruct (find (key_eq i j) _) as [y|]; [|exact Hl].
          destruct (mem_nat (snd y) (r_skip (raw d))) eqn:ey; [discriminate|]. now rewrite mem_remove_in. }
        split; [rewrite Hxa; auto|]. split; [rewrite Hxa; auto|]. split.
        { intros w [Hw1 Hw2]. split; [|exact Hw2]. split; [rewrite Hr in Hw1; exact Hw1|now rewrite Hxa in Hw2]. }
        split.
        { intros w Hw. apply gclauses_vars in Hw. rewrite Hxa, Hr. destruct Hw as [->|Hw].
          - right. exact (raux_in _ _ _ _ Hin).
          - left. exact (rleaf_rn (raw d) id w Hw). }
        split.
        { intros c Hc. unfold rcls in Hc. apply in_flat_map in Hc. destruct Hc as (y & Hy & Hc).
          rewrite Hrn in Hc. unfold rbuilt in Hy. rewrite Hr in Hy. apply filter_In in Hy. destruct Hy as [Hy1 Hy2]. cbn [r_outs r_skip] in *.
          destruct (Nat.eq_dec (snd y) v) as [He|He].
          - right. pose proof (raw_ok d) as G. apply rok_iff in G.
            pose proof (nodup_snd _ _ _ (proj2 G) Hy1 Hin He) as ->. exact Hc.
          - left. apply in_flat_map. exists y. split; [|exact Hc]. apply filter_In. split; [exact Hy1|].
            destruct (mem_nat (snd y) (r_skip (raw d))) eqn:ey; [|reflexivity]. exfalso.
            assert (mem_nat (snd y) (remove Nat.eq_dec v (r_skip (raw d))) = true).
            { apply mem_nat_iff, in_in_remove; [exact He|now apply mem_nat_iff]. }
            rewrite H in Hy2. discriminate. }
        intros m He i j w Hw. unfold rval. rewrite <- Hrn. apply He. now rewrite Hr.
      - injection H as <- <- <- <-.
        assert (Ho : rout (raw d) id k = Some (pos v)) by (unfold rout; rewrite eo; fold v; now rewrite em).
        split; [lia|]. split; [now apply text_nodes|].
        split; [tauto|]. split; [exact Ho|]. split; [auto|]. split; [auto|]. split; [auto|].
        split; [intros w Hw; split; [exact Hw|apply Hw]|]. split; [intros w []|]. auto. }
    destruct (talloc (raw d) nv) as [v nv1] eqn:ea. injection H as <- <- <- <-.
    apply talloc_spec in ea. destruct ea as (Hn & Hv & Hnv).
    pose proof (tdefine_new d id k v (remove Nat.eq_dec v (r_skip (raw d))) Hi Hnv) as Hr. cbv zeta in Hr.
    set (d' := put _ _) in *.
    assert (Hrn : forall i, rn (raw d') i = rn (raw d) i) by (intros i; rewrite Hr; reflexivity).
    split; [exact Hn|]. split; [apply text_nodes; now rewrite Hr|].
    split; [rewrite Hr; tauto|]. split.
    { rewrite Hr. unfold rout, key_eq. cbn [r_outs r_skip find fst snd]. rewrite !Nat.eqb_refl. cbn [andb snd]. now rewrite mem_remove_same. }
    split.
    { intros i j x Hx. rewrite Hr. unfold rout in *. cbn [r_outs r_skip find]. destruct (key_eq i j (id, k, v)) eqn:ek.
      - unfold key_eq in ek. cbn in ek. apply andb_true_iff in ek. destruct ek as [E1 E2].
        apply Nat.eqb_eq in E1, E2. subst. rewrite eo in Hx. discriminate.
      - destruct (find (key_eq i j) _) as [y|]; [|exact Hx].
        destruct (mem_nat (snd y) (r_skip (raw d))) eqn:ey; [discriminate|]. now rewrite mem_remove_in. }
    split.
    { intros w Hw. rewrite Hr in Hw. destruct Hw as [<-|Hw]; [|now left].
      cbn. tauto. }
    split; [intros w Hw; rewrite Hr; now right|]. split.
    { intros w [Hw1 Hw2]. rewrite Hr in Hw1. split; [|exact Hw2]. split; [exact Hw1|].
      intros Hw. apply Hw2. rewrite Hr. now right. }
    split.
    { intros w Hw. apply gclauses_vars in Hw. rewrite Hr. destruct Hw as [->|Hw].
      - right. now left.
      - left. exact (rleaf_rn (raw d) id w Hw). }
    split.
    { intros c Hc. unfold rcls in Hc. apply in_flat_map in Hc. destruct Hc as (x & Hx & Hc).
      rewrite Hrn in Hc. unfold rbuilt in Hx. rewrite Hr in Hx. apply filter_In in Hx. destruct Hx as [Hx1 Hx2]. cbn [r_outs r_skip] in *.
      destruct Hx1 as [<-|Hx]; [now right|].
      left. apply in_flat_map. exists x. split; [|exact Hc]. apply filter_In. split; [exact Hx|].
      destruct (mem_nat (snd x) (r_skip (raw d))) eqn:ey; [|reflexivity]. exfalso.
      assert (G : mem_nat (snd x) (remove Nat.eq_dec v (r_skip (raw d))) = true).
      { apply mem_nat_iff, in_in_remove; [|now apply mem_nat_iff]. intros G. apply Hnv. rewrite <- G. unfold raux. now apply in_map. }
      rewrite G in Hx2. discriminate. }
    intros m He i j w Hw. unfold rval. rewrite <- Hrn. apply He. rewrite Hr. now right.
  - intros d id k nv d' l cl nv' m H Hi Hk Hu Hf Hd He. cbn in H. unfold tdefine in H.
    destruct (find (key_eq id k) (r_outs (raw d))) as [x|] eqn:eo.
    { destruct (find_key _ _ _ _ eo) as [Hx Hin]. set (v := snd x) in *. destruct (mem_nat v (r_skip (raw d))) eqn:em.
      - injection H as <- <- <- <-. exists m. split; [apply agree_refl|]. split.
        + rewrite skip_raw. exact He.
        + apply gclauses_exact. fold (rval (raw d) id m). apply He. exact Hin.
      - injection H as <- <- <- <-. exists m. split; [apply agree_refl|]. split; [exact He|]. apply sat_nil. }
    destruct (talloc (raw d) nv) as [v nv1] eqn:ea. injection H as <- <- <- <-.
    apply talloc_spec in ea. destruct ea as (Hn & Hv & Hnv).
    pose proof (tdefine_new d id k v (remove Nat.eq_dec v (r_skip (raw d))) Hi Hnv) as Hr. cbv zeta in Hr.
    set (d' := put _ _) in *.
    assert (Hrn : forall i, rn (raw d') i = rn (raw d) i) by (intros i; rewrite Hr; reflexivity).
    assert (Hnl : ~ In v (rleaf (raw d))).
    { intros Hl. destruct Hv as [Hv|Hv]; [apply (Hd v Hv); auto|].
      specialize (Hu v (or_introl Hl)). lia. }
    set (m' := upd m v (k <? rval (raw d) id m)).
    assert (Hval : forall i, rval (raw d) i m' = rval (raw d) i m).
    { intros i. symmetry. apply rval_dep. intros w Hw. unfold m'. symmetry. apply upd_neq.
      intros ->. contradiction. }
    exists m'. split; [|split].
    + intros w [Hw1 Hw2]. unfold m'. symmetry. apply upd_neq. intros ->.
      destruct Hv as [Hv|Hv]; [contradiction|lia].
    + intros i j w Hw. unfold rval. rewrite Hrn. fold (rval (raw d) i m'). rewrite Hval.
      rewrite Hr in Hw. destruct Hw as [[= <- <- <-]|Hw].
      * unfold m'. apply upd_eq.
      * rewrite <- (He _ _ _ Hw). unfold m'. apply upd_neq. intros ->.
        apply Hnv. now apply raux_in in Hw.
    + apply gclauses_exact. fold (rval (raw d) id m'). rewrite Hval. unfold m'. apply upd_eq.
  - intros d id k nv d' nv' [= <- <-].
    assert (Hr : forall p, raw (put d (mkR (r_nodes (raw d)) (r_outs (raw d)) p (r_skip (raw d)))) =
      mkR (r_nodes (raw d)) (r_outs (raw d)) p (r_skip (raw d))).
    { intros p. apply put_raw. apply (raw_ok d). }
    split; [lia|]. split; [apply text_nodes; now rewrite Hr|]. unfold tfree. rewrite !Hr.
    split; [tauto|]. split; [tauto|]. split.
    { intros v [Hv1 Hv2]. cbn in Hv1. apply in_app_or in Hv1. destruct Hv1 as [Hv1|Hv1].
      - left. split; assumption.
      - right. apply in_seq in Hv1. lia. }
    split; [reflexivity|]. split; reflexivity.
  - intros d d'. assert (Hr : raw d' = mkR (r_nodes (raw d)) [] [] []).
    { apply put_raw. apply rok_iff. split; [intros i k v []|constructor]. }
    split; [apply text_nodes; now rewrite Hr|]. unfold tfree. rewrite Hr.
    split; [tauto|]. split; [intros v []|]. split; [intros v [[] _]|].
    split; [intros m id k v []|reflexivity].
  - intros d cs d' c H Hne Hcs. cbn in H. unfold tthorough in H.
    assert (Hgen : forall n, n_g n = merged (raw d) cs -> n_kd n = KGeneral ->
      n_wt n = list_max (map (fun x => cn_mult x * rw (raw d) (cn_id x)) cs) ->
      (put d (add_node (raw d) n), con_full (length (r_nodes (raw d)))) = (d', c) ->
      text d d' /\
      ((forall v, In v (raux (raw d')) <-> In v (raux (raw d))) /\
       (forall v, tfree d' v <-> tfree d v) /\
       (forall m, rexact (raw d') m <-> rexact (raw d) m) /\
       rcls (raw d') = rcls (raw d) /\ (forall id k, rout (raw d') id k = rout (raw d) id k)) /\
      (forall v, In v (rleaf (raw d')) <-> In v (rleaf (raw d))) /\
      tnode d' (cn_id c) /\
      (forall m, con_app (fun id => rval (raw d') id m) c =
                 cons_app (fun id => rval (raw d) id m) cs) /\
      con_app (rmax (raw d')) c = cons_app (rmax (raw d)) cs /\
      (forall W, (forall x, In x cs -> cn_mult x * rw (raw d) (cn_id x) <= W) ->
         cn_mult c * rw (raw d') (cn_id c) <= W) /\
      (cn_off c = 0 /\ cn_limit c = None)).
    { intros n G1 G2 G3 [= <- <-].
      destruct (add_laws d n) as (Hr & H1 & H2 & H3 & H4 & H5 & H6 & H7).
      split; [exact H1|]. split; [repeat (split; [assumption|]); assumption|].
      split; [|split; [|split; [|split; [|split]]]].
      - intros v. rewrite Hr. destruct n as [g kd w]. cbn in G1. subst g. apply merged_leaf.
      - unfold tnode. rewrite Hr, len_add. cbn. lia.
      - intros m. unfold con_app. cbn [con_full cn_id cn_off cn_mult cn_limit lim].
        unfold rval at 1. rewrite H7, G1, merged_eval. lia.
      - unfold con_app. cbn [con_full cn_id cn_off cn_mult cn_limit lim].
        unfold rmax at 1. rewrite H7, G1. cbn [g_max merged]. lia.
      - intros W HW. cbn [con_full cn_id cn_mult]. unfold rw. rewrite H7, G2, G3.
        rewrite Nat.mul_1_l. apply list_max_le, Forall_forall. intros y Hy.
        apply in_map_iff in Hy. destruct Hy as (x & <- & Hx). now apply HW.
      - split; reflexivity. }
    destruct cs as [|x [|y cs]]; [contradiction| |].
    + injection H as <- <-. split; [now apply text_nodes|].
      split; [split; [reflexivity|split; [reflexivity|split; [reflexivity|split; reflexivity]]]|].
      split; [tauto|]. split; [apply Hcs; now left|]. split; [|split; [|split]].
      * intros m. unfold cons_app. cbn. lia.
      * unfold cons_app. cbn. lia.
      * intros W HW. apply HW. now left.
      * left. exists x. auto.
    + destruct (Hgen (mkN (merged (raw d) (x :: y :: cs)) KGeneral
        (list_max (map (fun x => cn_mult x * rw (raw d) (cn_id x)) (x :: y :: cs))))
        eq_refl eq_refl eq_refl H) as (G1 & G2 & G3 & G4 & G5 & G6 & G7 & G8).
      split; [exact G1|]. split; [exact G2|]. split; [exact G3|]. split; [exact G4|].
      split; [exact G5|]. split; [exact G6|]. split; [exact G7|]. now right.
  - intros d id off m _ _. change (geval (ge_g (ttot d id off)) m = rval (raw d) id m - off).
    unfold geval. cbn [ge_g ttot g_max g_f g_vars].
    assert (E : rval (raw d) id (freeze (g_vars (n_g (rn (raw d) id))) m) = rval (raw d) id m).
    { apply (geval_agree (fun v => In v (g_vars (n_g (rn (raw d) id))))); [|auto].
      intros v Hv. symmetry. now apply freeze_agree. }
    rewrite E. pose proof (geval_le (n_g (rn (raw d) id)) m). unfold rval, rmax in *. lia.
  - reflexivity.
  - intros d id off v H. left. unfold es_used, GS, ge_used, ge_used_list in H. cbn in H.
    rewrite app_nil_r in H. now apply rleaf_rn in H.
  - intros d id off v [H _]. cbn in H. apply filter_In in H. destruct H as [H1 H2].
    split; [exact H1|]. intros H. apply mem_nat_iff in H. rewrite H in H2. discriminate.
  - intros d id off m _ b o [].
  - intros d id off c [].
  - intros d c w m _ _ _.
    change (geval (ge_g (tgte d c w)) m = cn_mult c * (rval (raw d) (cn_id c) m - cn_off c)).
    unfold geval. cbn [ge_g tgte g_max g_f g_vars]. set (id := cn_id c).
    assert (E : rval (raw d) id (freeze (g_vars (n_g (rn (raw d) id))) m) = rval (raw d) id m).
    { apply (geval_agree (fun v => In v (g_vars (n_g (rn (raw d) id))))); [|auto].
      intros v Hv. symmetry. now apply freeze_agree. }
    rewrite E. apply Nat.min_r. apply Nat.mul_le_mono_l. apply Nat.sub_le_mono_r. apply geval_le.
  - reflexivity.
  - intros d c w v H. left. unfold es_used, GS, ge_used, ge_used_list in H. cbn in H.
    rewrite app_nil_r in H. now apply rleaf_rn in H.
  - intros d c w v [H _]. cbn in H. apply filter_In in H. destruct H as [H1 H2].
    split; [exact H1|]. intros H. apply mem_nat_iff in H. rewrite H in H2. discriminate.
  - intros d c w m _ b o [].
  - intros d c w x [].
Defined.

(** the oracle of [Inst.v] repeats no literal in a core *)
Lemma brute_core_nodup first fuel : core_nodup (env first fuel).
Proof.
  intros q core H HN. cbn in H. unfold brute in H.
  destruct (solve_vars _ _ _); [discriminate|]. destruct (solve_vars _ _ _).
  - injection H as <-. apply Injective_map_NoDup; [|exact HN].
    intros x y E. rewrite <- (lnot_lnot x), <- (lnot_lnot y). now f_equal.
  - injection H as <-. constructor.
Qed.
