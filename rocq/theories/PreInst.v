(** * A concrete PB encoder

    Not a model of rustsat's encoder: a small implementation that meets [pb_enc_ok], so that
    the pipeline can be run on concrete problems and the assumption is seen to be satisfiable. *)
From Coq Require Import List Bool Arith Lia ZArith.
From Verif Require Import Base BaseLemmas Spec MTypes MKernel EncSpec ApiSpec Inst MPrepro MMain PreSpec.
Import ListNotations.

Definition pb_ok_val (c : pb_constr) (v : nat) : bool :=
  match pb_kind c with
  | PbUb => (Z.of_nat v <=? pb_bound c)%Z
  | PbLb => (pb_bound c <=? Z.of_nat v)%Z
  | PbEq => (Z.of_nat v =? pb_bound c)%Z
  end.
(** All truth value vectors, as (weight of the true literals, blocking clause) *)
Fixpoint patterns (lws : list (lit * nat)) : list (nat * clause) :=
  match lws with
  | [] => [(0, [])]
  | (l, w) :: r =>
      map (fun p => (w + fst p, lnot l :: snd p)) (patterns r) ++
      map (fun p => (fst p, l :: snd p)) (patterns r)
  end.
Definition pb_brute : pb_encoder := fun c n =>
  Some (map snd (filter (fun p => negb (pb_ok_val c (fst p))) (patterns (pb_lits c))), n).

Lemma pb_ok_val_iff a c : pb_ok_val c (wsum a (pb_lits c)) = true <-> pb_holds a c.
Proof.
  unfold pb_ok_val, pb_holds. destruct (pb_kind c);
    [apply Z.leb_le|apply Z.leb_le|apply Z.eqb_eq].
Qed.
Lemma patterns_block a lws : forall p, In p (patterns lws) ->
  clause_true a (snd p) = false -> fst p = wsum a lws.
Proof.
  induction lws as [|[l w] r IH]; cbn [patterns wsum]; intros p Hp Hf.
  - destruct Hp as [<-|[]]. reflexivity.
  - apply in_app_or in Hp. destruct Hp as [Hp|Hp]; apply in_map_iff in Hp; destruct Hp as (q & <- & Hq);
      unfold snd, clause_true in Hf; cbn [existsb] in Hf; apply orb_false_iff in Hf; destruct Hf as [F1 F2];
      specialize (IH q Hq F2); cbn [fst].
    + rewrite lit_true_lnot in F1. apply negb_false_iff in F1. rewrite F1. cbn iota. exact (f_equal _ IH).
    + rewrite F1. cbn iota. exact (f_equal _ IH).
Qed.
Lemma patterns_complete a lws : exists p, In p (patterns lws) /\ fst p = wsum a lws /\
  clause_true a (snd p) = false.
Proof.
  induction lws as [|[l w] r (p & H1 & H2 & H3)]; cbn [patterns wsum].
  - exists (0, []). cbn. auto.
  - destruct (lit_true a l) eqn:e.
    + exists (w + fst p, lnot l :: snd p). split; [|split].
      * apply in_or_app. left. now apply (in_map (fun p => (w + fst p, lnot l :: snd p))).
      * cbn. lia.
      * unfold snd, clause_true. cbn [existsb]. rewrite lit_true_lnot, e. exact H3.
    + exists (fst p, l :: snd p). split; [|split].
      * apply in_or_app. right. now apply (in_map (fun p => (fst p, l :: snd p))).
      * cbn. lia.
      * unfold snd, clause_true. cbn [existsb]. rewrite e. exact H3.
Qed.
Lemma patterns_vars lws : forall p, In p (patterns lws) -> incl (lits_vars (snd p)) (lits_vars (map fst lws)).
Proof.
  induction lws as [|[l w] r IH]; cbn [patterns]; intros p Hp.
  - destruct Hp as [<-|[]]. intros v [].
  - apply in_app_or in Hp. destruct Hp as [Hp|Hp]; apply in_map_iff in Hp; destruct Hp as (q & <- & Hq);
      intros v [Hv|Hv]; try (right; now apply (IH q Hq)); left; [now rewrite lvar_lnot in Hv|exact Hv].
Qed.

Theorem pb_brute_ok : pb_enc_ok pb_brute.
Proof.
  intros c n cls n' [= <- <-] Hv. split; [lia|]. split; [|split].
  - intros v Hin. apply in_cls_vars in Hin. destruct Hin as (cl & Hc & Hin). apply in_map_iff in Hc.
    destruct Hc as (p & <- & Hp). apply filter_In in Hp. destruct Hp as [Hp _]. apply Hv.
    now apply (patterns_vars _ p Hp).
  - intros a Hs. apply pb_ok_val_iff. destruct (pb_ok_val c (wsum a (pb_lits c))) eqn:e; [reflexivity|].
    destruct (patterns_complete a (pb_lits c)) as (p & H1 & H2 & H3).
    assert (Hin : In (snd p) (map snd (filter (fun p => negb (pb_ok_val c (fst p))) (patterns (pb_lits c))))).
    { apply in_map. apply filter_In. split; [exact H1|]. now rewrite H2, e. }
    apply Hs in Hin. congruence.
  - intros a Ha. exists a. split; [reflexivity|]. intros cl Hc. apply in_map_iff in Hc.
    destruct Hc as (p & <- & Hp). apply filter_In in Hp. destruct Hp as [Hp Hn].
    destruct (clause_true a (snd p)) eqn:e; [reflexivity|]. apply (patterns_block a (pb_lits c)) in e; [|exact Hp].
    rewrite e in Hn. apply pb_ok_val_iff in Ha. rewrite Ha in Hn. discriminate.
Qed.

(** A second encoder, like a totalizer encoded in one direction: one more variable [n] that
    every literal of the constraint implies and that nothing else restricts. *)
Definition pb_oneway : pb_encoder := fun c n =>
  Some (map snd (filter (fun p => negb (pb_ok_val c (fst p))) (patterns (pb_lits c))) ++
        map (fun lw => [lnot (fst lw); pos n]) (pb_lits c), S n).
Theorem pb_oneway_ok : pb_enc_ok pb_oneway.
Proof.
  intros c n cls n' [= <- <-] Hv.
  destruct (pb_brute_ok c n _ n eq_refl Hv) as (_ & H1 & H2 & H3).
  split; [lia|]. split; [|split].
  - intros v Hin. rewrite cls_vars_app in Hin. apply in_app_or in Hin. destruct Hin as [Hin|Hin].
    + apply H1 in Hin. lia.
    + apply in_cls_vars in Hin. destruct Hin as (cl & Hc & Hin). apply in_map_iff in Hc.
      destruct Hc as (lw & <- & Hlw). cbn in Hin. destruct Hin as [<-|[<-|[]]]; [|lia].
      rewrite ?lvar_lnot. assert (lvar (fst lw) < n); [|lia]. apply Hv. unfold pb_vars. apply in_lits_vars.
      exists (fst lw). split; [now apply in_map|reflexivity].
  - intros a Hs. apply sat_app in Hs. now apply H2.
  - intros a Ha. exists (upd a n true).
    assert (Hag : forall v, v < n -> upd a n true v = a v) by (intros v Hlt; apply upd_neq; lia).
    split; [exact Hag|]. apply sat_app. split.
    + destruct (H3 a Ha) as (b & _ & _).
      intros cl Hc. apply in_map_iff in Hc. destruct Hc as (p & <- & Hp). apply filter_In in Hp. destruct Hp as [Hp Hn].
      destruct (clause_true (upd a n true) (snd p)) eqn:e; [reflexivity|].
      apply (patterns_block _ (pb_lits c)) in e; [|exact Hp].
      rewrite e in Hn. replace (wsum (upd a n true) (pb_lits c)) with (wsum a (pb_lits c)) in Hn.
      * apply pb_ok_val_iff in Ha. rewrite Ha in Hn. discriminate.
      * eapply (wsum_agree (fun v => v < n)); [|exact Hv]. intros v Hlt. symmetry. now apply Hag.
    + intros cl Hc. apply in_map_iff in Hc. destruct Hc as (lw & <- & _). apply clause_true_iff.
      exists (pos n). split; [right; now left|]. rewrite lit_true_pos. apply upd_eq.
Qed.

(** ** Concrete parsed problems *)

(** Five variables 0..4; variable 3 occurs nowhere.  x0 + x1 + x2 >= 1, 2 x0 + x4 <= 2, and two
    objectives: soft clauses (~x0 weight 3), (~x1 \/ ~x2 weight 2); and (x0 weight 1),
    (~x1 \/ ~x2 weight 4), (~x4 weight 2), offset -1. *)
Definition exp_p : parsed := mkParsed
  [ mkPb PbLb [(pos 0, 1); (pos 1, 1); (pos 2, 1)] 1;
    mkPb PbUb [(pos 0, 2); (pos 4, 1)] 2 ]
  [ ([([neg 0], 3); ([neg 1; neg 2], 2)], 0%Z);
    ([([pos 0], 1); ([neg 1; neg 2], 4); ([neg 4], 2)], (-1)%Z) ]
  (mkVm 5 4 4).
Lemma exp_p_ok : parsed_ok exp_p.
Proof.
  constructor.
  - reflexivity.
  - intros c v [<-|[<-|[]]] H; cbn in *; lia.
  - intros o cw v [<-|[<-|[]]] [<-|[<-|[<-|[]]]] H || intros o cw v [<-|[<-|[]]] H1 H; cbn in *;
      repeat (destruct H1 as [<-|H1]; [cbn in *; lia|]); try contradiction; lia.
  - constructor; [|constructor; [|constructor]]; (split; [|split; [|split]]).
    + intros cw [<-|[<-|[]]]; discriminate.
    + left. repeat constructor; cbn; intuition discriminate.
    + right. exists ([neg 0], 3). split; [now left|discriminate].
    + cbn. unfold isize_max, isize_min. lia.
    + intros cw [<-|[<-|[<-|[]]]]; discriminate.
    + left. repeat constructor; cbn; intuition discriminate.
    + right. exists ([pos 0], 1). split; [now left|discriminate].
    + cbn. unfold isize_max, isize_min. lia.
Qed.
Lemma exp_p_mixed o w : In o (pa_objs exp_p) -> fst o <> [] ->
  (forall cw, In cw (fst o) -> snd cw = w) -> w = 1.
Proof.
  intros [<-|[<-|[]]] _ H; exfalso; cbn [fst] in H.
  - pose proof (H ([neg 0], 3) (or_introl eq_refl)). pose proof (H ([neg 1; neg 2], 2) (or_intror (or_introl eq_refl))).
    cbn in *. lia.
  - pose proof (H ([pos 0], 1) (or_introl eq_refl)). pose proof (H ([neg 1; neg 2], 4) (or_intror (or_introl eq_refl))).
    cbn in *. lia.
Qed.

(** Both objectives have one common weight: 2 and 3. *)
Definition exp_u : parsed := mkParsed
  [ mkPb PbLb [(pos 0, 1); (pos 1, 1); (pos 2, 1)] 2 ]
  [ ([([neg 0], 2); ([neg 1], 2)], 0%Z); ([([neg 1], 3); ([neg 2], 3)], 1%Z) ]
  (mkVm 3 2 2).
(** One constraint and one objective over three variables *)
Definition exp_d : parsed := mkParsed
  [ mkPb PbUb [(pos 0, 1); (pos 1, 1); (pos 2, 1)] 2 ]
  [ ([([neg 0], 1); ([neg 1], 2)], 0%Z) ]
  (mkVm 3 2 2).
(** No constraints and no objectives *)
Definition exp_0 : parsed := mkParsed [] [([], 5%Z)] (mkVm 3 2 2).
