(** * A concrete oracle and a concrete encoding

    These are not models of CaDiCaL or of the totalizers: they are small implementations
    that meet [oracle_ok] and [enc_spec].  They show that the assumptions are satisfiable
    and make it possible to run the model on concrete instances. *)
From Coq Require Import List Bool Arith Lia ZArith.
From Verif Require Import Base BaseLemmas MTypes MKernel EncSpec.
Import ListNotations.

(** ** Oracle: backtracking search *)

Definition lit_is (v : nat) (b : bool) (l : lit) : bool :=
  Nat.eqb (lvar l) v && xorb (lneg l) b.

Definition assign_cls (v : nat) (b : bool) (cs : list clause) : list clause :=
  map (filter (fun l => negb (Nat.eqb (lvar l) v)))
      (filter (fun c => negb (existsb (lit_is v b) c)) cs).

Definition has_empty (cs : list clause) : bool :=
  existsb (fun c => match c with [] => true | _ => false end) cs.

Fixpoint search (first : bool) (vars : list nat) (cs : list clause) : option asg :=
  if has_empty cs then None
  else match vars with
  | [] => Some (fun _ => false)
  | v :: r =>
      match search first r (assign_cls v first cs) with
      | Some m => Some (upd m v first)
      | None =>
          match search first r (assign_cls v (negb first) cs) with
          | Some m => Some (upd m v (negb first))
          | None => None
          end
      end
  end.

(** Freeze an assignment to a list of true variables (keeps evaluation cheap). *)
Definition freeze (vars : list nat) (m : asg) : asg :=
  let ts := filter m vars in fun v => existsb (Nat.eqb v) ts.

Definition solve_vars (first : bool) (vars : list nat) (cs : list clause) : option asg :=
  match search first vars cs with
  | Some m => Some (freeze vars m)
  | None => None
  end.

Definition brute (first : bool) (q : query) : answer :=
  let units := map (fun l => [l]) (q_assumps q) in
  let vars := nodup Nat.eq_dec (cls_vars (q_cls q) ++ lits_vars (q_assumps q)) in
  match solve_vars first vars (units ++ q_cls q) with
  | Some m => ASat m
  | None =>
      match solve_vars first vars (q_cls q) with
      | Some _ => AUnsat (map lnot (q_assumps q))
      | None => AUnsat []
      end
  end.

(** Environments: no interrupts, no logger failures *)
Definition env (first : bool) (fuel : nat) : environ :=
  mkEnv (brute first) (fun _ => false) (fun _ => false) fuel.

Lemma has_empty_false cs : has_empty cs = false -> ~ In [] cs.
Proof.
  unfold has_empty. intros H Hin. apply not_true_iff_false in H. apply H.
  apply existsb_exists. exists []. auto.
Qed.

Lemma assign_back v b cs m : sat m (assign_cls v b cs) -> sat (upd m v b) cs.
Proof.
  intros H c Hc. destruct (existsb (lit_is v b) c) eqn:e.
  - apply existsb_exists in e. destruct e as (l & Hl & He).
    apply clause_true_iff. exists l. split; [assumption|].
    unfold lit_is in He. apply andb_true_iff in He. destruct He as [He1 He2].
    apply Nat.eqb_eq in He1. unfold lit_true. rewrite He1, upd_eq. exact He2.
  - assert (Hin : In (filter (fun l => negb (Nat.eqb (lvar l) v)) c) (assign_cls v b cs)).
    { apply in_map. apply filter_In. split; [assumption|]. now rewrite e. }
    apply H in Hin. apply clause_true_iff in Hin. destruct Hin as (l & Hl & Ht).
    apply filter_In in Hl. destruct Hl as [Hl Hn].
    apply clause_true_iff. exists l. split; [assumption|].
    unfold lit_true in *. rewrite upd_neq; [assumption|].
    apply negb_true_iff, Nat.eqb_neq in Hn. assumption.
Qed.

Lemma assign_fwd v cs m : sat m cs -> sat m (assign_cls v (m v) cs).
Proof.
  intros H c Hc. unfold assign_cls in Hc. apply in_map_iff in Hc.
  destruct Hc as (d & <- & Hd). apply filter_In in Hd. destruct Hd as [Hd Hn].
  specialize (H d Hd). apply clause_true_iff in H. destruct H as (l & Hl & Ht).
  apply clause_true_iff. exists l. split; [|assumption].
  apply filter_In. split; [assumption|].
  apply negb_true_iff, Nat.eqb_neq. intros Hv.
  apply negb_true_iff in Hn.
  assert (existsb (lit_is v (m v)) d = true); [|congruence].
  apply existsb_exists. exists l. split; [assumption|].
  unfold lit_is. rewrite Hv, Nat.eqb_refl. cbn. unfold lit_true in Ht. now rewrite Hv in Ht.
Qed.

Lemma assign_vars v b cs w :
  In w (cls_vars (assign_cls v b cs)) -> In w (cls_vars cs) /\ w <> v.
Proof.
  intros H. apply in_cls_vars in H. destruct H as (c & Hc & Hw).
  unfold assign_cls in Hc. apply in_map_iff in Hc. destruct Hc as (d & <- & Hd).
  apply filter_In in Hd. destruct Hd as [Hd _].
  apply in_lits_vars in Hw. destruct Hw as (l & Hl & <-). apply filter_In in Hl.
  destruct Hl as [Hl Hn]. split.
  - apply in_cls_vars. exists d. split; [assumption|]. apply in_lits_vars. eauto.
  - now apply negb_true_iff, Nat.eqb_neq in Hn.
Qed.

Lemma search_sound first vars cs m :
  (forall v, In v (cls_vars cs) -> In v vars) ->
  search first vars cs = Some m -> sat m cs.
Proof.
  revert cs m. induction vars as [|v r IH]; intros cs m Hv; cbn.
  - destruct (has_empty cs) eqn:e; [discriminate|]. intros [= <-] c Hc.
    apply has_empty_false in e. destruct c as [|l c]; [contradiction|].
    exfalso. apply (Hv (lvar l)). apply in_cls_vars. exists (l :: c). split; cbn; auto.
  - destruct (has_empty cs) eqn:e; [discriminate|].
    assert (Hstep : forall b w, In w (cls_vars (assign_cls v b cs)) -> In w r).
    { intros b w Hw. apply assign_vars in Hw. destruct Hw as [Hw1 Hw2].
      apply Hv in Hw1. destruct Hw1; congruence. }
    destruct (search first r (assign_cls v first cs)) as [m1|] eqn:e1.
    + intros [= <-]. apply assign_back. eapply IH; eauto.
    + destruct (search first r (assign_cls v (negb first) cs)) as [m2|] eqn:e2; [|discriminate].
      intros [= <-]. apply assign_back. eapply IH; eauto.
Qed.

Lemma search_complete first vars cs m : sat m cs -> search first vars cs <> None.
Proof.
  revert cs. induction vars as [|v r IH]; intros cs Hs; cbn.
  - destruct (has_empty cs) eqn:e; [|discriminate].
    unfold has_empty in e. apply existsb_exists in e. destruct e as ([|] & Hc & He); [|discriminate].
    apply Hs in Hc. discriminate.
  - destruct (has_empty cs) eqn:e.
    { unfold has_empty in e. apply existsb_exists in e.
      destruct e as ([|] & Hc & He); [|discriminate]. apply Hs in Hc. discriminate. }
    destruct (search first r (assign_cls v first cs)) eqn:e1; [discriminate|].
    destruct (search first r (assign_cls v (negb first) cs)) eqn:e2; [discriminate|].
    exfalso. pose proof (assign_fwd v cs m Hs) as H.
    destruct first; destruct (m v); cbn in *; eapply IH; eauto.
Qed.

Lemma freeze_agree vars m : agree (fun v => In v vars) m (freeze vars m).
Proof.
  intros v Hv. unfold freeze. destruct (m v) eqn:e; symmetry.
  - apply existsb_exists. exists v. split; [now apply filter_In|apply Nat.eqb_refl].
  - destruct (existsb _ _) eqn:e2; [|reflexivity].
    apply existsb_exists in e2. destruct e2 as (w & Hw & He).
    apply Nat.eqb_eq in He. subst w. apply filter_In in Hw. destruct Hw. congruence.
Qed.

Lemma solve_vars_sound first vars cs m :
  (forall v, In v (cls_vars cs) -> In v vars) ->
  solve_vars first vars cs = Some m -> sat m cs.
Proof.
  intros Hv. unfold solve_vars. destruct (search first vars cs) as [m'|] eqn:e; [|discriminate].
  intros [= <-]. eapply sat_agree; [apply freeze_agree| |eapply search_sound; eauto]. exact Hv.
Qed.

Lemma solve_vars_complete first vars cs m : sat m cs -> solve_vars first vars cs <> None.
Proof.
  intros H. unfold solve_vars. pose proof (search_complete first vars cs m H).
  destruct (search first vars cs); congruence.
Qed.

Lemma cls_vars_units ls : cls_vars (map (fun l => [l]) ls) = lits_vars ls.
Proof. induction ls as [|l ls IH]; [reflexivity|]. cbn. f_equal. exact IH. Qed.
Lemma sat_units m ls : sat m (map (fun l => [l]) ls) <-> lits_true m ls.
Proof.
  unfold sat, lits_true. split.
  - intros H l Hl. specialize (H [l]). unfold clause_true in H. cbn in H.
    rewrite orb_false_r in H. apply H. apply in_map_iff. eauto.
  - intros H c Hc. apply in_map_iff in Hc. destruct Hc as (l & <- & Hl).
    unfold clause_true. cbn. rewrite orb_false_r. auto.
Qed.

Lemma brute_ok_env E first q : answer_ok E q (brute first q).
Proof.
  unfold brute. set (vars := nodup _ _). set (units := map _ _).
  assert (Hu : forall v, In v (cls_vars (units ++ q_cls q)) -> In v vars).
  { intros v Hv. unfold vars. apply nodup_In. rewrite cls_vars_app in Hv.
    apply in_app_or in Hv. apply in_or_app. unfold units in Hv. rewrite cls_vars_units in Hv.
    tauto. }
  destruct (solve_vars first vars (units ++ q_cls q)) as [m|] eqn:e1; cbn.
  - apply solve_vars_sound in e1; [|exact Hu]. apply sat_app in e1. destruct e1 as [e1 e2].
    split; [assumption|]. now apply sat_units in e1.
  - destruct (solve_vars first vars (q_cls q)) as [m|] eqn:e2; cbn.
    + split.
      * intros l Hl. apply in_map_iff in Hl. destruct Hl as (l' & <- & Hl).
        now rewrite lnot_lnot.
      * intros m' Hm'. destruct (clause_true m' (map lnot (q_assumps q))) eqn:e3; [reflexivity|].
        exfalso. eapply solve_vars_complete; [|exact e1]. apply sat_app. split; [|exact Hm'].
        apply sat_units. intros l Hl. rewrite clause_false_iff in e3.
        specialize (e3 (lnot l) (in_map lnot _ _ Hl)). rewrite lit_true_lnot in e3.
        now apply negb_false_iff in e3.
    + split; [intros l []|]. intros m' Hm'. exfalso.
      eapply solve_vars_complete; [exact Hm'|exact e2].
Qed.

Lemma brute_ok first fuel : oracle_ok (env first fuel).
Proof. intros q. apply brute_ok_env. Qed.

(** ** Encoding: one output variable per bound, clauses over all subsets of the inputs *)

Record cenc := mkCenc {
  ce_lits : list (lit * nat);
  ce_outs : list (nat * nat);   (* (bound, output variable), output <-> sum > bound *)
  ce_pool : list nat;           (* reserved variables *)
  ce_cls : list clause }.

Fixpoint subsets {A} (l : list A) : list (list A) :=
  match l with [] => [[]] | x :: r => subsets r ++ map (cons x) (subsets r) end.

Definition out_clauses (ls : list (lit * nat)) (b o : nat) : list clause :=
  map (fun S => pos o :: map (fun lw => lnot (fst lw)) S)
      (filter (fun S => b <? wtotal S) (subsets ls)).

Definition ce_used_list (e : cenc) : list nat :=
  lits_vars (map fst (ce_lits e)) ++ map snd (ce_outs e).

Definition mem_nat (v : nat) (l : list nat) : bool := existsb (Nat.eqb v) l.

(** pick a reserved variable, or a fresh one *)
Definition ce_alloc (e : cenc) (nv : nat) : nat * nat :=
  match find (fun v => negb (mem_nat v (ce_used_list e))) (ce_pool e) with
  | Some v => (v, nv)
  | None => (nv, S nv)
  end.

Definition ce_has (e : cenc) (b : nat) : bool :=
  existsb (fun bo => Nat.eqb (fst bo) b) (ce_outs e).

Definition ce_encode1 (e : cenc) (b nv : nat) : cenc * list clause * nat :=
  if (wtotal (ce_lits e) <=? b) || ce_has e b then (e, [], nv)
  else
    let '(o, nv') := ce_alloc e nv in
    let cl := out_clauses (ce_lits e) b o in
    (mkCenc (ce_lits e) ((b, o) :: ce_outs e) (ce_pool e) (cl ++ ce_cls e), cl, nv').

Fixpoint ce_encode_list (e : cenc) (bs : list nat) (nv : nat) : cenc * list clause * nat :=
  match bs with
  | [] => (e, [], nv)
  | b :: r =>
      let '(e1, cl1, nv1) := ce_encode1 e b nv in
      let '(e2, cl2, nv2) := ce_encode_list e1 r nv1 in
      (e2, cl1 ++ cl2, nv2)
  end.

Definition ce_encode (e : cenc) (lo hi nv : nat) := ce_encode_list e (seq lo (hi - lo)) nv.

Definition ce_enforce (e : cenc) (b : nat) : option (list lit) :=
  if wtotal (ce_lits e) <=? b then Some []
  else if ce_has e b
  then Some (map (fun bo => neg (snd bo)) (filter (fun bo => b <=? fst bo) (ce_outs e)))
  else None.

Definition CI : enc_impl := mkEncImpl cenc
  (fun ls => mkCenc ls [] [] [])
  (fun ls => mkCenc (map (fun l => (l, 1)) ls) [] [] [])
  (fun e nv => (mkCenc (ce_lits e) (ce_outs e) (ce_pool e ++ seq nv (wtotal (ce_lits e))) (ce_cls e),
                nv + wtotal (ce_lits e)))
  ce_encode ce_enforce (fun _ v => S v).

Definition ce_used (e : cenc) (v : nat) : Prop := In v (ce_used_list e).
Definition ce_free (e : cenc) (v : nat) : Prop := In v (ce_pool e) /\ ~ ce_used e v.
Definition ce_exact (e : cenc) (m : asg) : Prop :=
  (forall b o, In (b, o) (ce_outs e) -> m o = (b <? wsum m (ce_lits e))).
Definition ce_cost (e : cenc) (m : asg) : nat := wsum m (ce_lits e).
(** the clauses of an encoding, recomputed from its outputs (independent of [ce_cls]) *)
Definition ce_scls (e : cenc) : list clause :=
  flat_map (fun bo => out_clauses (ce_lits e) (fst bo) (snd bo)) (ce_outs e).

Lemma mem_nat_iff v l : mem_nat v l = true <-> In v l.
Proof.
  unfold mem_nat. rewrite existsb_exists. split.
  - intros (w & Hw & He). apply Nat.eqb_eq in He. now subst.
  - intros H. exists v. split; [assumption|apply Nat.eqb_refl].
Qed.

Lemma subsets_filter {A} (f : A -> bool) l : In (filter f l) (subsets l).
Proof.
  induction l as [|x r IH]; cbn; [auto|]. apply in_or_app.
  destruct (f x); [right; now apply in_map|now left].
Qed.
Lemma subsets_incl {A} (l S : list A) : In S (subsets l) -> incl S l.
Proof.
  revert S. induction l as [|x r IH]; cbn; intros S H.
  - destruct H as [<-|[]]. apply incl_refl.
  - apply in_app_or in H. destruct H as [H|H].
    + intros y Hy. right. now apply (IH S).
    + apply in_map_iff in H. destruct H as (T & <- & HT). intros y [<-|Hy]; [now left|].
      right. now apply (IH T).
Qed.
Lemma wtotal_filter m ls : wtotal (filter (fun lw => lit_true m (fst lw)) ls) = wsum m ls.
Proof.
  induction ls as [|[l w] r IH]; cbn; [reflexivity|].
  destruct (lit_true m l); cbn; lia.
Qed.
Lemma wsum_subset m ls S :
  In S (subsets ls) -> (forall lw, In lw S -> lit_true m (fst lw) = true) ->
  wtotal S <= wsum m ls.
Proof.
  revert S. induction ls as [|[l w] r IH]; cbn; intros S H Ht.
  - destruct H as [<-|[]]. cbn. lia.
  - apply in_app_or in H. destruct H as [H|H].
    + specialize (IH S H Ht). destruct (lit_true m l); lia.
    + apply in_map_iff in H. destruct H as (T & <- & HT). cbn.
      specialize (IH T HT (fun lw Hlw => Ht lw (or_intror Hlw))).
      specialize (Ht (l, w) (or_introl eq_refl)). cbn in Ht. rewrite Ht. lia.
Qed.

Lemma out_clauses_exact ls b o m :
  m o = (b <? wsum m ls) -> sat m (out_clauses ls b o).
Proof.
  intros Ho c Hc. apply in_map_iff in Hc. destruct Hc as (S & <- & HS).
  apply filter_In in HS. destruct HS as [HS Hw]. apply Nat.ltb_lt in Hw.
  destruct (clause_true m (pos o :: map (fun lw => lnot (fst lw)) S)) eqn:e; [reflexivity|].
  exfalso. rewrite clause_false_iff in e.
  assert (Hpos : lit_true m (pos o) = false) by (apply e; now left).
  rewrite lit_true_pos, Ho in Hpos. apply Nat.ltb_ge in Hpos.
  assert (wtotal S <= wsum m ls); [|lia].
  apply wsum_subset; [assumption|]. intros lw Hlw.
  assert (H : lit_true m (lnot (fst lw)) = false).
  { apply e. right. apply in_map_iff. eauto. }
  rewrite lit_true_lnot in H. now apply negb_false_iff in H.
Qed.
Lemma out_clauses_sound ls b o m :
  sat m (out_clauses ls b o) -> m o = false -> wsum m ls <= b.
Proof.
  intros Hs Ho. destruct (le_lt_dec (wsum m ls) b) as [H|H]; [assumption|exfalso].
  set (S := filter (fun lw => lit_true m (fst lw)) ls).
  assert (Hin : In (pos o :: map (fun lw => lnot (fst lw)) S) (out_clauses ls b o)).
  { apply in_map_iff. exists S. split; [reflexivity|]. apply filter_In. split.
    - apply subsets_filter.
    - apply Nat.ltb_lt. unfold S. now rewrite wtotal_filter. }
  apply Hs in Hin. apply clause_true_iff in Hin. destruct Hin as (l & Hl & Ht).
  destruct Hl as [<-|Hl].
  - rewrite lit_true_pos in Ht. congruence.
  - apply in_map_iff in Hl. destruct Hl as (lw & <- & Hlw). unfold S in Hlw.
    apply filter_In in Hlw. destruct Hlw as [_ Hlw]. rewrite lit_true_lnot, Hlw in Ht.
    discriminate.
Qed.
Lemma out_clauses_vars ls b o v :
  In v (cls_vars (out_clauses ls b o)) -> v = o \/ In v (lits_vars (map fst ls)).
Proof.
  intros H. apply in_cls_vars in H. destruct H as (c & Hc & Hv).
  apply in_map_iff in Hc. destruct Hc as (S & <- & HS). apply filter_In in HS.
  destruct HS as [HS _]. apply subsets_incl in HS. cbn in Hv. destruct Hv as [<-|Hv]; [now left|].
  right. apply in_lits_vars in Hv. destruct Hv as (l & Hl & <-).
  apply in_map_iff in Hl. destruct Hl as (lw & <- & Hlw). rewrite lvar_lnot.
  apply in_lits_vars. exists (fst lw). split; [|reflexivity]. apply in_map. now apply HS.
Qed.

(** One bound *)
Lemma ce_alloc_spec e nv o nv' : ce_alloc e nv = (o, nv') ->
  nv <= nv' /\ (ce_free e o \/ nv <= o < nv') /\ (forall v, nv <= v < nv' -> v = o).
Proof.
  unfold ce_alloc. destruct (find _ _) as [v|] eqn:e1; intros [= <- <-].
  - apply find_some in e1. destruct e1 as [H1 H2]. split; [lia|]. split; [|intros; lia]. left.
    split; [assumption|]. intros H. apply mem_nat_iff in H. rewrite H in H2. discriminate.
  - split; [lia|]. split; [right; lia|intros; lia].
Qed.

Definition ce_ext_law (e e' : cenc) (cl : list clause) (nv : nat) : Prop := forall m,
  (forall v, ce_used e v -> v < nv) -> (forall v, ce_free e v -> v < nv) ->
  ce_exact e m ->
  exists m', agree (fun v => v < nv /\ ~ ce_free e v) m m' /\ ce_exact e' m' /\ sat m' cl.

Record ce_step (e : cenc) (nv : nat) (e' : cenc) (cl : list clause) (nv' : nat) : Prop := {
  cs_next : nv <= nv';
  cs_lits : ce_lits e' = ce_lits e;
  cs_used : forall v, ce_used e' v -> ce_used e v \/ ce_free e v \/ nv <= v < nv';
  cs_used_mono : forall v, ce_used e v -> ce_used e' v;
  cs_free : forall v, ce_free e' v -> ce_free e v;
  cs_vars : forall v, In v (cls_vars cl) -> ce_used e' v;
  cs_cls : forall c, In c (ce_scls e') -> In c (ce_scls e) \/ In c cl;
  cs_ext : ce_ext_law e e' cl nv;
  cs_exact : forall m, ce_exact e' m -> ce_exact e m;
  cs_has : forall b, ce_has e b = true -> ce_has e' b = true }.

Lemma ce_step_refl e nv : ce_step e nv e [] nv.
Proof.
  constructor; auto; try lia.
  - intros v [].
  - intros m _ _ He. exists m. split; [apply agree_refl|]. split; [assumption|apply sat_nil].
Qed.

Lemma ce_step_trans e nv e1 cl1 nv1 e2 cl2 nv2 :
  ce_step e nv e1 cl1 nv1 -> ce_step e1 nv1 e2 cl2 nv2 ->
  ce_step e nv e2 (cl1 ++ cl2) nv2.
Proof.
  intros A B. constructor.
  - pose proof (cs_next _ _ _ _ _ A). pose proof (cs_next _ _ _ _ _ B). lia.
  - rewrite (cs_lits _ _ _ _ _ B). apply (cs_lits _ _ _ _ _ A).
  - intros v H. pose proof (cs_next _ _ _ _ _ A). pose proof (cs_next _ _ _ _ _ B).
    apply (cs_used _ _ _ _ _ B) in H. destruct H as [H|[H|H]].
    + apply (cs_used _ _ _ _ _ A) in H. destruct H as [H|[H|H]]; auto. right; right; lia.
    + apply (cs_free _ _ _ _ _ A) in H. auto.
    + right; right; lia.
  - intros v H. apply (cs_used_mono _ _ _ _ _ B), (cs_used_mono _ _ _ _ _ A), H.
  - intros v H. apply (cs_free _ _ _ _ _ A), (cs_free _ _ _ _ _ B), H.
  - intros v H. rewrite cls_vars_app in H. apply in_app_or in H. destruct H as [H|H].
    + apply (cs_used_mono _ _ _ _ _ B), (cs_vars _ _ _ _ _ A), H.
    + apply (cs_vars _ _ _ _ _ B), H.
  - intros c H. apply (cs_cls _ _ _ _ _ B) in H. destruct H as [H|H].
    + apply (cs_cls _ _ _ _ _ A) in H. destruct H; auto using in_or_app.
    + auto using in_or_app.
  - intros m Hu Hf He. destruct (cs_ext _ _ _ _ _ A m Hu Hf He) as (m1 & Ha1 & He1 & Hs1).
    assert (Hu1 : forall v, ce_used e1 v -> v < nv1).
    { intros v Hv. pose proof (cs_next _ _ _ _ _ A). apply (cs_used _ _ _ _ _ A) in Hv.
      destruct Hv as [Hv|[Hv|Hv]]; [apply Hu in Hv|apply Hf in Hv|]; lia. }
    destruct (cs_ext _ _ _ _ _ B m1) as (m2 & Ha2 & He2 & Hs2).
    + exact Hu1.
    + intros v Hv. apply (cs_free _ _ _ _ _ A) in Hv. apply Hf in Hv.
      pose proof (cs_next _ _ _ _ _ A). lia.
    + exact He1.
    + exists m2. split; [|split].
      * intros v [Hv1 Hv2]. rewrite (Ha1 v) by auto. apply Ha2. split.
        -- pose proof (cs_next _ _ _ _ _ A). lia.
        -- intros Hf1. apply (cs_free _ _ _ _ _ A) in Hf1. contradiction.
      * assumption.
      * apply sat_app. split; [|assumption].
        eapply sat_agree; [exact Ha2| |exact Hs1]. intros v Hv.
        apply (cs_vars _ _ _ _ _ A) in Hv. split; [auto|]. intros [_ Hn]. contradiction.
  - intros m H. apply (cs_exact _ _ _ _ _ A), (cs_exact _ _ _ _ _ B), H.
  - intros b H. apply (cs_has _ _ _ _ _ B), (cs_has _ _ _ _ _ A), H.
Qed.

Lemma ce_encode1_step e b nv e' cl nv' :
  ce_encode1 e b nv = (e', cl, nv') -> ce_step e nv e' cl nv'.
Proof.
  unfold ce_encode1. destruct (_ || _) eqn:e0.
  { intros [= <- <- <-]. apply ce_step_refl. }
  destruct (ce_alloc e nv) as [o nv1] eqn:ea. intros [= <- <- <-].
  apply ce_alloc_spec in ea. destruct ea as (Hn & Ho & Honly).
  set (cl := out_clauses (ce_lits e) b o).
  set (e' := mkCenc (ce_lits e) ((b, o) :: ce_outs e) (ce_pool e) (cl ++ ce_cls e)).
  assert (Hused : forall v, ce_used e' v <-> v = o \/ ce_used e v).
  { intros v. unfold ce_used, ce_used_list. cbn. rewrite !in_app_iff. cbn. intuition. }
  constructor.
  - exact Hn.
  - reflexivity.
  - intros v Hv. apply Hused in Hv. destruct Hv as [->|Hv]; [|auto]. tauto.
  - intros v Hv. apply Hused. auto.
  - intros v [Hp Hnu]. split; [exact Hp|]. intros Hu. apply Hnu, Hused. auto.
  - intros v Hv. apply out_clauses_vars in Hv. apply Hused. destruct Hv as [->|Hv]; [auto|].
    right. unfold ce_used, ce_used_list. apply in_or_app. auto.
  - intros c Hc. unfold ce_scls in Hc. cbn in Hc. apply in_app_or in Hc.
    destruct Hc as [Hc|Hc]; [right; exact Hc|left; exact Hc].
  - intros m Hu Hf He.
    assert (Hno : ~ ce_used e o).
    { intros H. destruct Ho as [[_ Ho]|Ho]; [contradiction|]. apply Hu in H. lia. }
    set (m' := upd m o (b <? wsum m (ce_lits e))).
    assert (Hag : agree (ce_used e) m m') by (apply agree_upd; exact Hno).
    assert (Hsum : wsum m' (ce_lits e) = wsum m (ce_lits e)).
    { symmetry. eapply wsum_agree; [exact Hag|]. intros v Hv.
      unfold ce_used, ce_used_list. apply in_or_app. auto. }
    exists m'. split; [|split].
    + intros v [Hv1 Hv2]. unfold m'. symmetry. apply upd_neq. intros ->.
      destruct Ho as [Ho|Ho]; [contradiction|lia].
    + intros b' o' [H|H].
      * injection H as <- <-. change (ce_lits e') with (ce_lits e). rewrite Hsum. unfold m'. apply upd_eq.
      * change (ce_lits e') with (ce_lits e). rewrite Hsum. rewrite <- (He _ _ H). symmetry. apply Hag.
        unfold ce_used, ce_used_list. apply in_or_app. right.
        apply in_map_iff. exists (b', o'). auto.
    + apply out_clauses_exact. rewrite Hsum. unfold m'. apply upd_eq.
  - intros m H b' o' Hin. apply (H b' o'). now right.
  - intros b' H. unfold ce_has in *. cbn. rewrite H. apply orb_true_r.
Qed.

Lemma ce_encode1_has e b nv e' cl nv' :
  ce_encode1 e b nv = (e', cl, nv') -> b < wtotal (ce_lits e) -> ce_has e' b = true.
Proof.
  unfold ce_encode1. intros H Hb. apply Nat.leb_gt in Hb. rewrite Hb in H. cbn in H.
  destruct (ce_has e b) eqn:eh.
  - injection H as <- <- <-. exact eh.
  - destruct (ce_alloc e nv). injection H as <- <- <-. unfold ce_has. cbn.
    now rewrite Nat.eqb_refl.
Qed.

Lemma ce_encode_list_step bs : forall e nv e' cl nv',
  ce_encode_list e bs nv = (e', cl, nv') ->
  ce_step e nv e' cl nv' /\
  (forall b, In b bs -> b < wtotal (ce_lits e) -> ce_has e' b = true).
Proof.
  induction bs as [|b bs IH]; intros e nv e' cl nv'; cbn.
  - intros [= <- <- <-]. split; [apply ce_step_refl|intros b []].
  - destruct (ce_encode1 e b nv) as [[e1 cl1] nv1] eqn:E1.
    destruct (ce_encode_list e1 bs nv1) as [[e2 cl2] nv2] eqn:E2. intros [= <- <- <-].
    destruct (IH _ _ _ _ _ E2) as [H2 H3]. pose proof (ce_encode1_step _ _ _ _ _ _ E1) as H1.
    split; [eapply ce_step_trans; eauto|]. intros b' [<-|Hb'] Hlt.
    + apply (cs_has _ _ _ _ _ H2). eapply ce_encode1_has; eauto.
    + apply H3; [assumption|]. now rewrite (cs_lits _ _ _ _ _ H1).
Qed.

Lemma ce_enforce_some e b ls : ce_enforce e b = Some ls ->
  (ls = [] /\ wtotal (ce_lits e) <= b) \/
  (b < wtotal (ce_lits e) /\ ce_has e b = true /\
   ls = map (fun bo => neg (snd bo)) (filter (fun bo => b <=? fst bo) (ce_outs e))).
Proof.
  unfold ce_enforce. destruct (wtotal (ce_lits e) <=? b) eqn:e1.
  - intros [= <-]. left. split; [reflexivity|now apply Nat.leb_le].
  - destruct (ce_has e b); [|discriminate]. intros [= <-]. right.
    apply Nat.leb_gt in e1. auto.
Qed.

Lemma wtotal_ones ls : wtotal (map (fun l => (l, 1)) ls) = length ls.
Proof. induction ls as [|l ls IH]; cbn; [reflexivity|]. now rewrite IH. Qed.

Lemma map_fst_ones (ls : list lit) : map fst (map (fun l => (l, 1)) ls) = ls.
Proof. induction ls as [|l ls IH]; cbn; [reflexivity|]. now rewrite IH. Qed.

Definition CS : enc_spec CI.
Proof.
  refine (mkEncSpec CI ce_cost ce_used ce_free ce_exact ce_scls
            (fun e => wtotal (ce_lits e)) _ _ _ _ _ _ _ _ _ _ _ _ _ _ _ _ _ _ _ _ _ _ _ _
            _ _ _ _ _ _ _ _ _ _ _ _ _ _).
  - intros e m m' H. eapply wsum_agree; [exact H|]. intros v Hv.
    unfold ce_used, ce_used_list. apply in_or_app. auto.
  - intros e m m' H He b o Hin. rewrite <- (H o).
    + rewrite (He _ _ Hin). f_equal. eapply wsum_agree; [exact H|]. intros v Hv.
      unfold ce_used, ce_used_list. apply in_or_app. auto.
    + unfold ce_used, ce_used_list. apply in_or_app. right. apply in_map_iff.
      exists (b, o). auto.
  - reflexivity.
  - intros ls v H. unfold ce_used, ce_used_list in H. cbn in H. now rewrite app_nil_r in H.
  - intros ls v [[] _].
  - intros ls m b o [].
  - reflexivity.
  - reflexivity.
  - reflexivity.
  - intros ls v H. unfold ce_used, ce_used_list in H. cbn in H. rewrite app_nil_r in H.
    now rewrite map_fst_ones in H.
  - intros ls v [[] _].
  - intros ls m b o [].
  - reflexivity.
  - intros ls. cbn. apply wtotal_ones.
  - intros e nv e' nv' [= <- <-]. lia.
  - intros e nv e' nv' m [= <- <-]. reflexivity.
  - intros e nv e' nv' v [= <- <-] H. exact H.
  - intros e nv e' nv' v [= <- <-] [Hp Hn]. cbn in Hp. apply in_app_or in Hp.
    destruct Hp as [Hp|Hp].
    + left. split; [exact Hp|exact Hn].
    + right. apply in_seq in Hp. lia.
  - intros e nv e' nv' m [= <- <-]. reflexivity.
  - intros e nv e' nv' [= <- <-]. reflexivity.
  - intros e nv e' nv' [= <- <-]. reflexivity.
  - intros e lo hi nv e' cl nv' H. apply ce_encode_list_step in H. apply H.
  - intros e lo hi nv e' cl nv' m H. apply ce_encode_list_step in H. destruct H as [H _].
    unfold ce_cost. now rewrite (cs_lits _ _ _ _ _ H).
  - intros e lo hi nv e' cl nv' H. apply ce_encode_list_step in H. destruct H as [H _].
    now rewrite (cs_lits _ _ _ _ _ H).
  - intros e lo hi nv e' cl nv' v H Hv. apply ce_encode_list_step in H. destruct H as [H _].
    apply (cs_used _ _ _ _ _ H), Hv.
  - intros e lo hi nv e' cl nv' v H Hv. apply ce_encode_list_step in H. destruct H as [H _].
    apply (cs_used_mono _ _ _ _ _ H), Hv.
  - intros e lo hi nv e' cl nv' v H Hv. apply ce_encode_list_step in H. destruct H as [H _].
    split; [|apply Hv]. left. apply (cs_free _ _ _ _ _ H), Hv.
  - intros e lo hi nv e' cl nv' v H Hv. apply ce_encode_list_step in H. destruct H as [H _].
    apply (cs_vars _ _ _ _ _ H), Hv.
  - intros e lo hi nv e' cl nv' c H Hv. apply ce_encode_list_step in H. destruct H as [H _].
    apply (cs_cls _ _ _ _ _ H), Hv.
  - intros e lo hi nv e' cl nv' m H Hu Hf Hd He. apply ce_encode_list_step in H.
    destruct H as [H _]. exact (cs_ext _ _ _ _ _ H m Hu Hf He).
  - intros e lo hi nv e' cl nv' m H Hv. apply ce_encode_list_step in H. destruct H as [H _].
    apply (cs_exact _ _ _ _ _ H), Hv.
  - intros e lo hi nv e' cl nv' b H Hb. apply ce_encode_list_step in H. destruct H as [H1 H2].
    cbn. unfold ce_enforce. destruct (wtotal (ce_lits e') <=? b) eqn:eb; [discriminate|].
    rewrite H2; [discriminate| |].
    + apply in_seq. lia.
    + apply Nat.leb_gt in eb. now rewrite (cs_lits _ _ _ _ _ H1) in eb.
  - intros e b ls l H Hl. apply ce_enforce_some in H. destruct H as [[-> _]|(_ & _ & ->)]; [destruct Hl|].
    apply in_map_iff in Hl. destruct Hl as (bo & <- & Hbo). apply filter_In in Hbo.
    unfold ce_used, ce_used_list. apply in_or_app. right. cbn. apply in_map. apply Hbo.
  - intros e b ls m H Hs Ht. apply ce_enforce_some in H.
    destruct H as [[_ H]|(_ & H & ->)].
    + unfold ce_cost. pose proof (wsum_le_total m (ce_lits e)). lia.
    + unfold ce_has in H. apply existsb_exists in H. destruct H as ([b' o] & Hin & He).
      cbn in He. apply Nat.eqb_eq in He. subst b'.
      eapply (out_clauses_sound (ce_lits e) b o).
      * intros c Hc. apply Hs. unfold ce_scls. apply in_flat_map. exists (b, o). auto.
      * assert (Hl : lit_true m (neg o) = true).
        { apply Ht. apply in_map_iff. exists (b, o). split; [reflexivity|].
          apply filter_In. split; [assumption|]. cbn. apply Nat.leb_refl. }
        rewrite lit_true_neg in Hl. now apply negb_true_iff in Hl.
  - intros e b ls m H He Hc. apply ce_enforce_some in H.
    destruct H as [[-> _]|(_ & _ & ->)]; [apply lits_true_nil|].
    intros l Hl. apply in_map_iff in Hl. destruct Hl as ([b' o] & <- & Hbo).
    apply filter_In in Hbo. destruct Hbo as [Hbo Hle]. apply Nat.leb_le in Hle.
    unfold fst in Hle. unfold snd. rewrite lit_true_neg, (He _ _ Hbo). apply negb_true_iff, Nat.ltb_ge.
    unfold ce_cost in Hc. lia.
  - intros e b ls H Hm. apply ce_enforce_some in H. destruct H as [[-> _]|(H & _)]; [reflexivity|].
    lia.
  - intros e v. cbn. lia.
  - intros e v m H. cbn. lia.
Defined.
