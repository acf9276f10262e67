(** * Semantic invariants of the oracle's clause database

    [WF F p]: the encodings in [p] mean what they should, their variables do not clash.
    [Inv F p A S]: the assignments (over the encoded problem's variables) that clauses of
    [p] still allow are exactly those in [A], and each of them extends to a model that is
    exact on all encodings and satisfies [S]. *)
From Coq Require Import List Bool Arith Lia ZArith.
From Verif Require Import Base BaseLemmas MTypes MKernel EncSpec.
Import ListNotations.

(** ** set_nth *)
Lemma set_nth_length {A} i (a : A) l : length (set_nth i a l) = length l.
Proof. revert i; induction l as [|x l IH]; intros [|i]; cbn; auto. Qed.
Lemma set_nth_same {A} i (a : A) l : i < length l -> nth_error (set_nth i a l) i = Some a.
Proof. revert i; induction l as [|x l IH]; intros [|i] H; cbn in *; try lia; auto. apply IH; lia. Qed.
Lemma set_nth_other {A} i j (a : A) l : i <> j -> nth_error (set_nth i a l) j = nth_error l j.
Proof.
  revert i j; induction l as [|x l IH]; intros [|i] [|j] H; cbn; auto; try lia.
Qed.
Lemma set_nth_in {A} i (a b : A) l : In b (set_nth i a l) ->
  b = a \/ exists j, j <> i /\ nth_error l j = Some b.
Proof.
  intros H. apply In_nth_error in H. destruct H as [j H].
  destruct (Nat.eq_dec i j) as [->|n].
  - left. assert (j < length l).
    { rewrite <- (set_nth_length j a l). apply nth_error_Some. congruence. }
    rewrite set_nth_same in H by auto. congruence.
  - right. exists j. rewrite set_nth_other in H by auto. auto.
Qed.
Lemma set_nth_nth {A} i (a b : A) j l : nth_error (set_nth i a l) j = Some b ->
  (i = j /\ b = a) \/ (i <> j /\ nth_error l j = Some b).
Proof.
  intros H. destruct (Nat.eq_dec i j) as [->|n].
  - left. assert (j < length l).
    { rewrite <- (set_nth_length j a l). apply nth_error_Some. congruence. }
    rewrite set_nth_same in H by auto. split; congruence.
  - right. rewrite set_nth_other in H by auto. auto.
Qed.

Definition vle (c d : list nat) : Prop := Forall2 le c d.
Lemma vle_refl c : vle c c.
Proof. induction c; constructor; auto. Qed.
Lemma vle_trans a b c : vle a b -> vle b c -> vle a c.
Proof.
  unfold vle. intros H; revert c; induction H; intros c H2; inversion H2; subst; constructor.
  - lia.
  - auto.
Qed.
Lemma vle_antisym a b : vle a b -> vle b a -> a = b.
Proof.
  unfold vle. induction 1; intros H2; inversion H2; subst; auto. f_equal; [lia|auto].
Qed.
Lemma vle_length a b : vle a b -> length a = length b.
Proof. unfold vle. induction 1; cbn; congruence. Qed.
Lemma vle_dec a b : {vle a b} + {~ vle a b}.
Proof.
  unfold vle. revert b; induction a as [|x a IH]; intros [|y b].
  - left; constructor.
  - right; intros H; inversion H.
  - right; intros H; inversion H.
  - destruct (le_dec x y); [|right; intros H; inversion H; contradiction].
    destruct (IH b); [left; constructor; auto|right; intros H; inversion H; contradiction].
Qed.
Lemma vle_nth a b : vle a b <-> length a = length b /\
  forall i x y, nth_error a i = Some x -> nth_error b i = Some y -> x <= y.
Proof.
  unfold vle. revert b; induction a as [|x a IH]; intros [|y b]; cbn.
  - split; [intros; split; auto; intros [] ? ?; discriminate|constructor].
  - split; [intros H; inversion H|intros [H _]; discriminate].
  - split; [intros H; inversion H|intros [H _]; discriminate].
  - split.
    + intros H; inversion H; subst. match goal with H : Forall2 _ a b |- _ => apply IH in H; destruct H as [H1 H2] end.
      split; [lia|]. intros [|i] u v; cbn; [congruence|eauto].
    + intros [H1 H2]. constructor.
      * apply (H2 0); reflexivity.
      * apply IH. split; [lia|]. intros i u v. apply (H2 (S i)).
Qed.

Section Sem.
  Context {I : enc_impl} (SP : enc_spec I).
  Notation prob := (prob I).

  (** Internal cost of an assignment under an objective, and under all objectives *)
  Definition icost (o : objective) (a : asg) : nat := wsum a (obj_iter o).
  Definition ic (os : list objective) (a : asg) : list nat := map (fun o => icost o a) os.

  Lemma ic_length os a : length (ic os a) = length os.
  Proof. apply map_length. Qed.
  Lemma ic_nth os a i o : nth_error os i = Some o -> nth_error (ic os a) i = Some (icost o a).
  Proof. intros H. unfold ic. apply (map_nth_error (fun o => icost o a)) in H. exact H. Qed.
  Lemma ic_nth_inv os a i c : nth_error (ic os a) i = Some c ->
    exists o, nth_error os i = Some o /\ c = icost o a.
  Proof.
    unfold ic. rewrite nth_error_map. destruct (nth_error os i) as [o|]; cbn; [|discriminate].
    intros H. exists o. split; congruence.
  Qed.

  (** Lifting of the encoding's ghost data to objective encodings *)
  Definition oe_enc (oe : obj_enc I) : option (ei_t I * nat) :=
    match oe with EWeighted e off => Some (e, off) | EUnweighted e off => Some (e, off)
    | EConstant => None end.
  Definition oe_used oe v := match oe_enc oe with Some (e, _) => es_used SP e v | None => False end.
  Definition oe_free oe v := match oe_enc oe with Some (e, _) => es_free SP e v | None => False end.
  Definition oe_exact oe m := match oe_enc oe with Some (e, _) => es_exact SP e m | None => True end.
  Definition oe_ecls oe := match oe_enc oe with Some (e, _) => es_cls SP e | None => [] end.
  Definition oe_cap oe := match oe_enc oe with Some (e, off) => es_max SP e + off | None => 0 end.
  Definition oe_ecost oe m :=
    match oe_enc oe with Some (e, off) => es_cost SP e m + off | None => 0 end.

  Lemma oe_exact_dep oe m m' : agree (oe_used oe) m m' -> oe_exact oe m -> oe_exact oe m'.
  Proof.
    unfold oe_used, oe_exact. destruct (oe_enc oe) as [[e off]|]; [|auto].
    apply es_exact_dep.
  Qed.

  Record oe_step (oe : obj_enc I) (lo hi nv : nat) (oe' : obj_enc I) (cl : list clause) (nv' : nat)
    : Prop := mkOeStep {
    os_next : nv <= nv';
    os_off : oe_offset oe' = oe_offset oe;
    os_const : oe' = EConstant <-> oe = EConstant;
    os_cost : forall m, oe_ecost oe' m = oe_ecost oe m;
    os_cap : oe_cap oe' = oe_cap oe;
    os_used : forall v, oe_used oe' v -> oe_used oe v \/ oe_free oe v \/ nv <= v < nv';
    os_used_mono : forall v, oe_used oe v -> oe_used oe' v;
    os_free : forall v, oe_free oe' v -> (oe_free oe v \/ nv <= v < nv') /\ ~ oe_used oe' v;
    os_vars : forall v, In v (cls_vars cl) -> oe_used oe' v;
    os_cls : forall c, In c (oe_ecls oe') -> In c (oe_ecls oe) \/ In c cl;
    os_ext : forall m,
      (forall v, oe_used oe v -> v < nv) -> (forall v, oe_free oe v -> v < nv) ->
      (forall v, oe_free oe v -> ~ oe_used oe v) -> oe_exact oe m ->
      exists m', agree (fun v => v < nv /\ ~ oe_free oe v) m m' /\ oe_exact oe' m' /\ sat m' cl;
    os_exact : forall m, oe_exact oe' m -> oe_exact oe m;
    os_enforce : forall b, oe_offset oe <= b -> lo <= b < hi -> oe_enforce_ub oe' b <> None }.

  Lemma oe_encode_step oe lo hi nv oe' cl nv' :
    oe_encode_ub oe lo hi nv = (oe', cl, nv') -> oe_step oe lo hi nv oe' cl nv'.
  Proof.
    destruct oe as [e off|e off|]; cbn.
    - destruct (ei_encode_ub I e (lo - off) (hi - off) nv) as [[e' cl'] n'] eqn:He.
      intros H; injection H as <- <- <-. constructor; cbn.
      + eapply es_encode_next; eauto.
      + reflexivity.
      + split; discriminate.
      + intros m. unfold oe_ecost; cbn. now rewrite (es_encode_cost _ SP _ _ _ _ _ _ _ m He).
      + unfold oe_cap; cbn. now rewrite (es_encode_max _ SP _ _ _ _ _ _ _ He).
      + intros v. exact (es_encode_used _ SP _ _ _ _ _ _ _ v He).
      + intros v. exact (es_encode_used_mono _ SP _ _ _ _ _ _ _ v He).
      + intros v. exact (es_encode_free _ SP _ _ _ _ _ _ _ v He).
      + intros v. exact (es_encode_vars _ SP _ _ _ _ _ _ _ v He).
      + intros c. exact (es_encode_cls _ SP _ _ _ _ _ _ _ c He).
      + intros m. exact (es_encode_ext _ SP _ _ _ _ _ _ _ m He).
      + intros m. exact (es_encode_exact _ SP _ _ _ _ _ _ _ m He).
      + intros b Hb Hr. apply Nat.leb_le in Hb as Hb'. rewrite Hb'.
        apply (es_encode_enforce _ SP _ _ _ _ _ _ _ _ He). lia.
    - destruct (ei_encode_ub I e (lo - off) (hi - off) nv) as [[e' cl'] n'] eqn:He.
      intros H; injection H as <- <- <-. constructor; cbn.
      + eapply es_encode_next; eauto.
      + reflexivity.
      + split; discriminate.
      + intros m. unfold oe_ecost; cbn. now rewrite (es_encode_cost _ SP _ _ _ _ _ _ _ m He).
      + unfold oe_cap; cbn. now rewrite (es_encode_max _ SP _ _ _ _ _ _ _ He).
      + intros v. exact (es_encode_used _ SP _ _ _ _ _ _ _ v He).
      + intros v. exact (es_encode_used_mono _ SP _ _ _ _ _ _ _ v He).
      + intros v. exact (es_encode_free _ SP _ _ _ _ _ _ _ v He).
      + intros v. exact (es_encode_vars _ SP _ _ _ _ _ _ _ v He).
      + intros c. exact (es_encode_cls _ SP _ _ _ _ _ _ _ c He).
      + intros m. exact (es_encode_ext _ SP _ _ _ _ _ _ _ m He).
      + intros m. exact (es_encode_exact _ SP _ _ _ _ _ _ _ m He).
      + intros b Hb Hr. apply Nat.leb_le in Hb as Hb'. rewrite Hb'.
        apply (es_encode_enforce _ SP _ _ _ _ _ _ _ _ He). lia.
    - intros H; injection H as <- <- <-. constructor; cbn; try tauto; try reflexivity.
      + intros m _ _ _ _. exists m. split; [apply agree_refl|]. split; [exact Logic.I|apply sat_nil].
      + discriminate.
  Qed.

  (** Laws of [oe_enforce_ub] *)
  Lemma oe_enforce_vars oe b ls l : oe_enforce_ub oe b = Some ls -> In l ls -> oe_used oe (lvar l).
  Proof.
    destruct oe as [e off|e off|]; cbn.
    - destruct (off <=? b); [|discriminate]. apply es_enforce_vars.
    - destruct (off <=? b); [|discriminate]. apply es_enforce_vars.
    - intros H; injection H as <-. intros [].
  Qed.
  Lemma oe_enforce_sound oe b ls m : oe_enforce_ub oe b = Some ls -> sat m (oe_ecls oe) ->
    lits_true m ls -> oe_ecost oe m <= b.
  Proof.
    destruct oe as [e off|e off|]; cbn.
    - destruct (off <=? b) eqn:H; [|discriminate]. apply Nat.leb_le in H. intros He Hs Hl.
      unfold oe_ecost; cbn. pose proof (es_enforce_sound _ SP _ _ _ _ He Hs Hl). lia.
    - destruct (off <=? b) eqn:H; [|discriminate]. apply Nat.leb_le in H. intros He Hs Hl.
      unfold oe_ecost; cbn. pose proof (es_enforce_sound _ SP _ _ _ _ He Hs Hl). lia.
    - intros; unfold oe_ecost; cbn; lia.
  Qed.
  Lemma oe_enforce_complete oe b ls m : oe_enforce_ub oe b = Some ls -> oe_exact oe m ->
    oe_ecost oe m <= b -> lits_true m ls.
  Proof.
    destruct oe as [e off|e off|]; cbn.
    - destruct (off <=? b) eqn:H; [|discriminate]. apply Nat.leb_le in H. intros He Hs Hl.
      unfold oe_ecost in Hl; cbn in Hl. apply (es_enforce_complete _ SP _ _ _ m He Hs). lia.
    - destruct (off <=? b) eqn:H; [|discriminate]. apply Nat.leb_le in H. intros He Hs Hl.
      unfold oe_ecost in Hl; cbn in Hl. apply (es_enforce_complete _ SP _ _ _ m He Hs). lia.
    - intros H _ _; injection H as <-. apply lits_true_nil.
  Qed.
  Lemma oe_enforce_cap oe b ls : oe_enforce_ub oe b = Some ls -> oe_cap oe <= b -> ls = [].
  Proof.
    destruct oe as [e off|e off|]; cbn.
    - destruct (off <=? b) eqn:H; [|discriminate]. unfold oe_cap; cbn. intros He Hc.
      apply (es_enforce_max _ SP _ _ _ He). lia.
    - destruct (off <=? b) eqn:H; [|discriminate]. unfold oe_cap; cbn. intros He Hc.
      apply (es_enforce_max _ SP _ _ _ He). lia.
    - intros H _; congruence.
  Qed.
  Lemma oe_ecost_off oe m : oe_offset oe <= oe_ecost oe m.
  Proof. destruct oe as [e off|e off|]; unfold oe_ecost; cbn; lia. Qed.

  (** ** Well-formed problems *)

  Definition low (p : prob) (v : nat) : Prop := v <= vm_max_enc (p_vm p).
  Definition live (p : prob) (v : nat) : Prop :=
    v < vm_next (p_vm p) /\ forall e, In e (p_encs p) -> ~ oe_free e v.
  Definition Exact (p : prob) (m : asg) : Prop := forall e, In e (p_encs p) -> oe_exact e m.

  Record WF (F : asg -> Prop) (p : prob) : Prop := mkWF {
    wf_len : length (p_encs p) = length (p_objs p);
    wf_orig : vm_max_orig (p_vm p) <= vm_max_enc (p_vm p);
    wf_enc : vm_max_enc (p_vm p) < vm_next (p_vm p);
    wf_cls : forall v, In v (cls_vars (p_cls p)) -> live p v;
    wf_low : forall v, low p v -> live p v;
    wf_used : forall e v, In e (p_encs p) -> oe_used e v -> live p v;
    wf_free : forall e v, In e (p_encs p) -> oe_free e v -> v < vm_next (p_vm p);
    wf_disj : forall i j e1 e2 v, nth_error (p_encs p) i = Some e1 ->
      nth_error (p_encs p) j = Some e2 -> i <> j -> oe_free e1 v -> oe_free e2 v -> False;
    wf_ecls : forall e c, In e (p_encs p) -> In c (oe_ecls e) -> In c (p_cls p);
    wf_objs : forall o v, In o (p_objs p) -> In v (lits_vars (map fst (obj_iter o))) -> low p v;
    wf_Fcl : forall a b, agree (low p) a b -> F a -> F b;
    wf_le : forall i o e m, nth_error (p_objs p) i = Some o -> nth_error (p_encs p) i = Some e ->
      e <> EConstant -> sat m (p_cls p) -> icost o m <= oe_ecost e m;
    wf_eq : forall i o e m, nth_error (p_objs p) i = Some o -> nth_error (p_encs p) i = Some e ->
      e <> EConstant -> F m -> oe_exact e m -> icost o m = oe_ecost e m;
    wf_const : forall i o a b, nth_error (p_objs p) i = Some o ->
      nth_error (p_encs p) i = Some EConstant -> F a -> F b -> icost o a = icost o b;
    wf_off : forall i o e a, nth_error (p_objs p) i = Some o -> nth_error (p_encs p) i = Some e ->
      F a -> oe_offset e <= icost o a }.

  (** What the clauses allow *)
  Record Inv (F : asg -> Prop) (p : prob) (A S : asg -> Prop) : Prop := mkInv {
    inv_wf : WF F p;
    inv_AF : forall a, A a -> F a;
    inv_sound : forall m, sat m (p_cls p) -> A m;
    inv_Acl : forall a b, agree (low p) a b -> A a -> A b;
    inv_Scl : forall a b, agree (live p) a b -> S a -> S b;
    inv_comp : forall a, A a ->
      exists m, agree (low p) a m /\ sat m (p_cls p) /\ Exact p m /\ S m }.

  (** Later problem: more clauses, more variables, encodings extended *)
  Record ext (p p' : prob) : Prop := mkExt {
    ext_objs : p_objs p' = p_objs p;
    ext_orig : vm_max_orig (p_vm p') = vm_max_orig (p_vm p);
    ext_enc : vm_max_enc (p_vm p') = vm_max_enc (p_vm p);
    ext_next : vm_next (p_vm p) <= vm_next (p_vm p');
    ext_live : forall v, live p v -> live p' v;
    ext_cls : forall c, In c (p_cls p) -> In c (p_cls p');
    ext_len : length (p_encs p') = length (p_encs p);
    ext_encs : forall i e, nth_error (p_encs p) i = Some e ->
      exists e', nth_error (p_encs p') i = Some e' /\ oe_offset e' = oe_offset e /\
        oe_cap e' = oe_cap e /\ (e' = EConstant <-> e = EConstant);
    ext_exact : forall m, Exact p' m -> Exact p m }.

  Lemma ext_refl p : ext p p.
  Proof. constructor; auto. intros i e H. exists e. repeat split; auto. Qed.
  Lemma ext_trans p q r : ext p q -> ext q r -> ext p r.
  Proof.
    intros [] []. constructor; try congruence; try lia; auto.
    intros i e H. apply ext_encs0 in H. destruct H as (e1 & H1 & H2 & H3 & H4).
    apply ext_encs1 in H1. destruct H1 as (e2 & K1 & K2 & K3 & K4).
    exists e2. split; [auto|]. split; [congruence|]. split; [congruence|]. tauto.
  Qed.
  Lemma ext_low p p' v : ext p p' -> (low p' v <-> low p v).
  Proof. intros []. unfold low. rewrite ext_enc0. tauto. Qed.
  Lemma ext_sat p p' m : ext p p' -> sat m (p_cls p') -> sat m (p_cls p).
  Proof. intros H. apply sat_incl. intros c. apply (ext_cls _ _ H). Qed.

  Lemma inv_weaken F p A S (S' : asg -> Prop) : Inv F p A S ->
    (forall m, A m -> sat m (p_cls p) -> Exact p m -> S m -> S' m) ->
    (forall a b, agree (live p) a b -> S' a -> S' b) -> Inv F p A S'.
  Proof.
    intros [] H1 H2. constructor; auto. intros a Ha.
    destruct (inv_comp0 a Ha) as (m & ? & ? & ? & ?). exists m.
    split; [assumption|]. split; [assumption|]. split; [assumption|]. apply H1; auto.
  Qed.
  Lemma inv_top F p A S : Inv F p A S -> Inv F p A (fun _ => True).
  Proof. intros H. eapply inv_weaken; eauto. Qed.
  Lemma inv_iff F p A S (A' : asg -> Prop) : Inv F p A S -> (forall a, A a <-> A' a) -> Inv F p A' S.
  Proof.
    intros [] H. constructor; auto.
    - intros a Ha. apply inv_AF0, H, Ha.
    - intros m Hm. apply H. auto.
    - intros a b Hab Ha. apply H. apply H in Ha. eauto.
    - intros a Ha. apply inv_comp0, H, Ha.
  Qed.

  Lemma low_live_agree F p a b : WF F p -> agree (live p) a b -> agree (low p) a b.
  Proof. intros H. apply agree_mono. intros v. apply (wf_low _ _ H). Qed.

  Lemma icost_agree F p o a b : WF F p -> In o (p_objs p) -> agree (low p) a b ->
    icost o a = icost o b.
  Proof.
    intros H Ho Ha. unfold icost. eapply wsum_agree; [exact Ha|].
    intros v Hv. eapply wf_objs; eauto.
  Qed.
  Lemma ic_agree F p a b : WF F p -> agree (low p) a b -> ic (p_objs p) a = ic (p_objs p) b.
  Proof.
    intros H Ha. unfold ic. apply map_ext_in. intros o Ho. eapply icost_agree; eauto.
  Qed.
  Lemma exact_agree F p a b : WF F p -> agree (live p) a b -> Exact p a -> Exact p b.
  Proof.
    intros H Ha Hx e He. eapply oe_exact_dep; [|apply Hx, He].
    eapply agree_mono; [|exact Ha]. intros v. eapply wf_used; eauto.
  Qed.

  Lemma enc_obj F p i e : WF F p -> nth_error (p_encs p) i = Some e ->
    exists o, nth_error (p_objs p) i = Some o.
  Proof.
    intros H He. destruct (nth_error (p_objs p) i) as [o|] eqn:Ho; [eauto|].
    apply nth_error_None in Ho. rewrite <- (wf_len _ _ H) in Ho.
    apply nth_error_None in Ho. congruence.
  Qed.
  Lemma obj_encoding F p i o : WF F p -> nth_error (p_objs p) i = Some o ->
    exists e, nth_error (p_encs p) i = Some e.
  Proof.
    intros H He. destruct (nth_error (p_encs p) i) as [e|] eqn:Ho; [eauto|].
    apply nth_error_None in Ho. rewrite (wf_len _ _ H) in Ho.
    apply nth_error_None in Ho. congruence.
  Qed.

  (** *** Extending an encoding *)
  Definition p_encoded (p : prob) (i : nat) (e' : obj_enc I) (cl : list clause) (n' : nat) : prob :=
    mkProb (rev cl ++ p_cls p) (vm_set_next (p_vm p) n') (p_objs p) (set_nth i e' (p_encs p)).

  Section Encode.
    Variables (F A S : asg -> Prop) (p : prob) (i lo hi : nat) (e e' : obj_enc I)
      (cl : list clause) (n' : nat).
    Hypothesis HI : Inv F p A S.
    Hypothesis He : nth_error (p_encs p) i = Some e.
    Hypothesis Hs : oe_step e lo hi (vm_next (p_vm p)) e' cl n'.
    Let W := inv_wf _ _ _ _ HI.
    Let Hin : In e (p_encs p) := nth_error_In _ _ He.
    Let p' := p_encoded p i e' cl n'.

    Lemma enc_i_lt : i < length (p_encs p).
    Proof. apply nth_error_Some. congruence. Qed.

    Lemma encode_live v : live p v -> live p' v.
    Proof.
      intros [H1 H2]. split.
      - cbn. pose proof (os_next _ _ _ _ _ _ _ Hs). lia.
      - intros x Hx. cbn in Hx. apply set_nth_in in Hx. destruct Hx as [->|(j & Hj & Hx)].
        + intros Hf. apply (os_free _ _ _ _ _ _ _ Hs) in Hf. destruct Hf as [[Hf|Hf] _]; [|lia].
          exact (H2 e Hin Hf).
        + apply H2. eapply nth_error_In; eauto.
    Qed.

    Lemma encode_used_live v : oe_used e' v -> live p' v.
    Proof.
      intros Hu. split.
      - cbn. pose proof (os_next _ _ _ _ _ _ _ Hs).
        apply (os_used _ _ _ _ _ _ _ Hs) in Hu. destruct Hu as [Hu|[Hu|Hu]].
        + apply (wf_used _ _ W _ _ Hin) in Hu. destruct Hu as [Hu _]. lia.
        + pose proof (wf_free _ _ W _ _ Hin Hu). lia.
        + lia.
      - intros x Hx Hf. cbn in Hx. apply set_nth_in in Hx. destruct Hx as [->|(j & Hj & Hx)].
        + apply (os_free _ _ _ _ _ _ _ Hs) in Hf. tauto.
        + assert (Hxin : In x (p_encs p)) by (eapply nth_error_In; eauto).
          apply (os_used _ _ _ _ _ _ _ Hs) in Hu. destruct Hu as [Hu|[Hu|Hu]].
          * apply (wf_used _ _ W _ _ Hin) in Hu. destruct Hu as [_ Hu]. exact (Hu x Hxin Hf).
          * exact (wf_disj _ _ W _ _ _ _ _ Hx He Hj Hf Hu).
          * pose proof (wf_free _ _ W _ _ Hxin Hf). lia.
    Qed.

    Lemma encode_sat m : sat m (p_cls p') <-> sat m cl /\ sat m (p_cls p).
    Proof.
      cbn. rewrite sat_app. split; intros [H1 H2]; (split; [|assumption]);
        intros c Hc; apply H1; apply in_rev; [now rewrite rev_involutive|assumption].
    Qed.

    Lemma encode_wf : WF F p'.
    Proof.
      constructor.
      - cbn. rewrite set_nth_length. apply W.
      - apply W.
      - cbn. pose proof (wf_enc _ _ W). pose proof (os_next _ _ _ _ _ _ _ Hs). lia.
      - intros v Hv. cbn in Hv. rewrite cls_vars_app in Hv. apply in_app_or in Hv.
        destruct Hv as [Hv|Hv].
        + apply encode_used_live, (os_vars _ _ _ _ _ _ _ Hs).
          apply in_cls_vars in Hv. destruct Hv as (c & Hc & Hv). apply in_cls_vars.
          exists c. split; [now apply in_rev|assumption].
        + apply encode_live, (wf_cls _ _ W), Hv.
      - intros v Hv. apply encode_live, (wf_low _ _ W), Hv.
      - intros x v Hx Hu. cbn in Hx. apply set_nth_in in Hx. destruct Hx as [->|(j & Hj & Hx)].
        + now apply encode_used_live.
        + apply encode_live. eapply (wf_used _ _ W); [eapply nth_error_In; eauto|exact Hu].
      - intros x v Hx Hf. cbn in *. pose proof (os_next _ _ _ _ _ _ _ Hs).
        apply set_nth_in in Hx. destruct Hx as [->|(j & Hj & Hx)].
        + apply (os_free _ _ _ _ _ _ _ Hs) in Hf. destruct Hf as [[Hf|Hf] _]; [|lia].
          pose proof (wf_free _ _ W _ _ Hin Hf). lia.
        + apply nth_error_In in Hx. pose proof (wf_free _ _ W _ _ Hx Hf). lia.
      - intros j k e1 e2 v H1 H2 Hjk F1 F2. cbn in H1, H2.
        apply set_nth_nth in H1. apply set_nth_nth in H2.
        destruct H1 as [[-> ->]|[N1 H1]]; destruct H2 as [[-> ->]|[N2 H2]].
        + congruence.
        + apply (os_free _ _ _ _ _ _ _ Hs) in F1. destruct F1 as [[F1|F1] _].
          * exact (wf_disj _ _ W _ _ _ _ _ He H2 Hjk F1 F2).
          * apply nth_error_In in H2. pose proof (wf_free _ _ W _ _ H2 F2). lia.
        + apply (os_free _ _ _ _ _ _ _ Hs) in F2. destruct F2 as [[F2|F2] _].
          * exact (wf_disj _ _ W _ _ _ _ _ H1 He Hjk F1 F2).
          * apply nth_error_In in H1. pose proof (wf_free _ _ W _ _ H1 F1). lia.
        + exact (wf_disj _ _ W _ _ _ _ _ H1 H2 Hjk F1 F2).
      - intros x c Hx Hc. cbn in *. apply in_or_app. apply set_nth_in in Hx.
        destruct Hx as [->|(j & Hj & Hx)].
        + apply (os_cls _ _ _ _ _ _ _ Hs) in Hc. destruct Hc as [Hc|Hc].
          * right. eapply (wf_ecls _ _ W); eauto.
          * left. now apply in_rev in Hc.
        + right. eapply (wf_ecls _ _ W); [eapply nth_error_In; eauto|exact Hc].
      - intros o v Ho Hv. exact (wf_objs _ _ W o v Ho Hv).
      - intros a b. exact (wf_Fcl _ _ W a b).
      - intros j o x m Ho Hx Hc Hm. apply encode_sat in Hm. destruct Hm as [_ Hm].
        cbn in Ho, Hx. apply set_nth_nth in Hx. destruct Hx as [[<- ->]|[N Hx]].
        + rewrite (os_cost _ _ _ _ _ _ _ Hs). eapply (wf_le _ _ W); eauto.
          intros K. apply Hc. now apply (os_const _ _ _ _ _ _ _ Hs).
        + eapply (wf_le _ _ W); eauto.
      - intros j o x m Ho Hx Hc Hm HX. cbn in Ho, Hx. apply set_nth_nth in Hx.
        destruct Hx as [[<- ->]|[N Hx]].
        + rewrite (os_cost _ _ _ _ _ _ _ Hs). eapply (wf_eq _ _ W); eauto.
          * intros K. apply Hc. now apply (os_const _ _ _ _ _ _ _ Hs).
          * now apply (os_exact _ _ _ _ _ _ _ Hs).
        + eapply (wf_eq _ _ W); eauto.
      - intros j o a b Ho Hx. cbn in Ho, Hx. apply set_nth_nth in Hx.
        destruct Hx as [[<- Hx]|[N Hx]].
        + symmetry in Hx. apply (os_const _ _ _ _ _ _ _ Hs) in Hx.
          eapply (wf_const _ _ W); eauto. congruence.
        + eapply (wf_const _ _ W); eauto.
      - intros j o x a Ho Hx Ha. cbn in Ho, Hx. apply set_nth_nth in Hx.
        destruct Hx as [[<- ->]|[N Hx]].
        + rewrite (os_off _ _ _ _ _ _ _ Hs). eapply (wf_off _ _ W); eauto.
        + eapply (wf_off _ _ W); eauto.
    Qed.

    Lemma encode_ext : ext p p'.
    Proof.
      constructor; try reflexivity.
      - cbn. apply (os_next _ _ _ _ _ _ _ Hs).
      - apply encode_live.
      - intros c Hc. cbn. apply in_or_app; auto.
      - cbn. apply set_nth_length.
      - intros j x Hx. cbn. destruct (Nat.eq_dec i j) as [->|N].
        + exists e'. rewrite set_nth_same by (apply nth_error_Some; congruence).
          assert (x = e) by congruence. subst x.
          repeat split; try apply Hs.
        + exists x. rewrite set_nth_other by auto. repeat split; auto.
      - intros m Hm x Hx. apply In_nth_error in Hx. destruct Hx as [j Hx].
        destruct (Nat.eq_dec i j) as [->|N].
        + assert (x = e) by congruence. subst x. apply (os_exact _ _ _ _ _ _ _ Hs), Hm.
          cbn. eapply nth_error_In. apply set_nth_same. apply nth_error_Some. congruence.
        + apply Hm. cbn. apply (nth_error_In _ j). rewrite set_nth_other by auto. exact Hx.
    Qed.

    Lemma encode_inv : Inv F p' A S.
    Proof.
      constructor.
      - apply encode_wf.
      - apply HI.
      - intros m Hm. apply encode_sat in Hm. apply (inv_sound _ _ _ _ HI). tauto.
      - apply HI.
      - intros a b Hab. apply (inv_Scl _ _ _ _ HI). eapply agree_mono; [|exact Hab].
        apply encode_live.
      - intros a Ha. destruct (inv_comp _ _ _ _ HI a Ha) as (m & H1 & H2 & H3 & H4).
        destruct (os_ext _ _ _ _ _ _ _ Hs m) as (m' & G1 & G2 & G3).
        + intros v Hv. apply (wf_used _ _ W _ _ Hin) in Hv. apply Hv.
        + intros v Hv. apply (wf_free _ _ W _ _ Hin Hv).
        + intros v Hv Hu. apply (wf_used _ _ W _ _ Hin) in Hu. destruct Hu as [_ Hu].
          exact (Hu e Hin Hv).
        + apply H3, Hin.
        + assert (G : agree (live p) m m').
          { eapply agree_mono; [|exact G1]. intros v [L1 L2]. split; auto. }
          exists m'. split; [|split; [|split]].
          * eapply agree_trans; [exact H1|]. exact (low_live_agree _ _ _ _ W G).
          * apply encode_sat. split; [assumption|].
            eapply sat_agree; [exact G|apply (wf_cls _ _ W)|exact H2].
          * intros x Hx. cbn in Hx. apply set_nth_in in Hx. destruct Hx as [->|(j & Hj & Hx)].
            -- assumption.
            -- apply nth_error_In in Hx. exact (exact_agree _ _ _ _ W G H3 _ Hx).
          * eapply (inv_Scl _ _ _ _ HI); eauto.
    Qed.
  End Encode.

  (** *** Adding a clause *)
  Lemma set_cls_live p c v : live (set_cls c p) v <-> live p v.
  Proof. reflexivity. Qed.

  Lemma add_clause_ext p c : ext p (set_cls (c :: p_cls p) p).
  Proof.
    constructor; auto.
    - intros c'. cbn. auto.
    - intros i e H. exists e. repeat split; auto.
  Qed.

  Lemma add_clause_inv F p A S (A' : asg -> Prop) c : Inv F p A S ->
    (forall v, In v (lits_vars c) -> live p v) ->
    (forall a, A' a -> A a) ->
    (forall a b, agree (low p) a b -> A' a -> A' b) ->
    (forall m, sat m (p_cls p) -> clause_true m c = true -> A' m) ->
    (forall m, A' m -> sat m (p_cls p) -> Exact p m -> S m -> clause_true m c = true) ->
    Inv F (set_cls (c :: p_cls p) p) A' S.
  Proof.
    intros HI Hv HA Hcl Hs Hc. destruct HI as [W I1 I2 I3 I4 I5]. constructor.
    - destruct W. constructor; try assumption.
      + intros v H. cbn in H. change (live p v). apply in_app_or in H. destruct H; auto.
      + intros e c' He Hc'. right. eapply wf_ecls0; eauto.
      + intros i o e m Ho He Hne Hm. cbn in Hm. apply sat_cons in Hm. eapply wf_le0; eauto. tauto.
    - auto.
    - intros m Hm. cbn in Hm. apply sat_cons in Hm. apply Hs; tauto.
    - exact Hcl.
    - exact I4.
    - intros a Ha. destruct (I5 a (HA a Ha)) as (m & H1 & H2 & H3 & H4).
      exists m. repeat split; auto. cbn. apply sat_cons. split; [|assumption].
      apply Hc; auto. eapply Hcl; eauto.
  Qed.

  (** adding several clauses at once *)
  Lemma add_clauses_inv F p A S (A' : asg -> Prop) cl : Inv F p A S ->
    (forall v, In v (cls_vars cl) -> live p v) ->
    (forall a, A' a -> A a) ->
    (forall a b, agree (low p) a b -> A' a -> A' b) ->
    (forall m, sat m (p_cls p) -> sat m cl -> A' m) ->
    (forall m, A' m -> sat m (p_cls p) -> Exact p m -> S m -> sat m cl) ->
    Inv F (set_cls (rev cl ++ p_cls p) p) A' S.
  Proof.
    assert (Hrev : forall m, sat m (rev cl ++ p_cls p) <-> sat m cl /\ sat m (p_cls p)).
    { intros m. rewrite sat_app. split; intros [H1 H2]; (split; [|assumption]);
        intros c Hc; apply H1; apply in_rev; [now rewrite rev_involutive|assumption]. }
    intros HI Hv HA Hcl Hs Hc. destruct HI as [W I1 I2 I3 I4 I5]. constructor.
    - destruct W. constructor; try assumption.
      + intros v H. cbn in H. change (live p v). rewrite cls_vars_app in H. apply in_app_or in H.
        destruct H as [H|H]; [|auto]. apply Hv. apply in_cls_vars in H. destruct H as (c & Hc1 & Hc2).
        apply in_cls_vars. exists c. split; [now apply in_rev|exact Hc2].
      + intros e c' He Hc'. cbn. apply in_or_app. right. eapply wf_ecls0; eauto.
      + intros i o e m Ho He Hne Hm. cbn in Hm. apply Hrev in Hm. eapply wf_le0; eauto. tauto.
    - auto.
    - intros m Hm. cbn in Hm. apply Hrev in Hm. apply Hs; tauto.
    - exact Hcl.
    - exact I4.
    - intros a Ha. destruct (I5 a (HA a Ha)) as (m & H1 & H2 & H3 & H4).
      exists m. repeat split; auto. cbn. apply Hrev. split; [|assumption].
      apply Hc; auto. eapply Hcl; eauto.
  Qed.
  Lemma add_clauses_ext p cl : ext p (set_cls (rev cl ++ p_cls p) p).
  Proof.
    constructor; auto.
    - intros c'. cbn. intros H. apply in_or_app. now right.
    - intros i e H. exists e. repeat split; auto.
  Qed.

  (** a clause all relevant models satisfy *)
  Lemma add_clause_inv_same F p A S c : Inv F p A S ->
    (forall v, In v (lits_vars c) -> live p v) ->
    (forall m, A m -> sat m (p_cls p) -> Exact p m -> S m -> clause_true m c = true) ->
    Inv F (set_cls (c :: p_cls p) p) A S.
  Proof.
    intros HI Hv Hc. eapply add_clause_inv; eauto.
    - apply HI.
    - intros m Hm _. apply (inv_sound _ _ _ _ HI m Hm).
  Qed.

  (** *** A fresh variable with a chosen meaning *)
  Definition p_newvar (p : prob) : prob :=
    set_vm (vm_set_next (p_vm p) (S (vm_next (p_vm p)))) p.

  Lemma newvar_live p v : live p v -> live (p_newvar p) v.
  Proof. intros [H1 H2]. split; [cbn; lia|exact H2]. Qed.

  Lemma newvar_ext p : ext p (p_newvar p).
  Proof.
    constructor; auto.
    - cbn; lia.
    - apply newvar_live.
    - intros i e H. exists e. repeat split; auto.
  Qed.

  Lemma newvar_inv F p A S (d : asg -> bool) : Inv F p A S ->
    (forall a b, agree (live p) a b -> d a = d b) ->
    Inv F (p_newvar p) A (fun m => S m /\ m (vm_next (p_vm p)) = d m) /\
    live (p_newvar p) (vm_next (p_vm p)) /\ ~ live p (vm_next (p_vm p)).
  Proof.
    intros HI Hd. destruct HI as [W I1 I2 I3 I4 I5].
    assert (HL : live (p_newvar p) (vm_next (p_vm p))).
    { split; [cbn; lia|]. intros e He Hf. pose proof (wf_free _ _ W _ _ He Hf). lia. }
    assert (HNL : ~ live p (vm_next (p_vm p))) by (intros [H _]; lia).
    split; [|split; assumption]. constructor; auto.
    - destruct W. constructor; auto; intros.
      + cbn. lia.
      + apply newvar_live; auto.
      + apply newvar_live; auto.
      + apply newvar_live; eauto.
      + cbn. apply Nat.lt_lt_succ_r. eauto.
    - intros a b Hab [H1 H2]. assert (Hab' : agree (live p) a b).
      { eapply agree_mono; [|exact Hab]. apply newvar_live. }
      split; [eapply I4; eauto|]. rewrite <- (Hab _ HL), H2. apply Hd, Hab'.
    - intros a Ha. destruct (I5 a Ha) as (m & H1 & H2 & H3 & H4).
      set (m' := upd m (vm_next (p_vm p)) (d m)).
      assert (G : agree (live p) m m') by (now apply agree_upd).
      exists m'. split; [|split; [|split]].
      + eapply agree_trans; [exact H1|]. exact (low_live_agree _ _ _ _ W G).
      + cbn. eapply sat_agree; [exact G|apply (wf_cls _ _ W)|exact H2].
      + exact (exact_agree _ _ _ _ W G H3).
      + split; [eapply I4; eauto|]. unfold m' at 1. rewrite upd_eq. apply Hd, G.
  Qed.

  (** *** Bounds on objectives *)
  Lemma enforce_live F p i e b ls l : WF F p -> nth_error (p_encs p) i = Some e ->
    oe_enforce_ub e b = Some ls -> In l ls -> live p (lvar l).
  Proof.
    intros W He Hb Hl. eapply (wf_used _ _ W); [eapply nth_error_In; eauto|].
    eapply oe_enforce_vars; eauto.
  Qed.

  Lemma enforce_sound F p i o e b ls m : WF F p -> nth_error (p_objs p) i = Some o ->
    nth_error (p_encs p) i = Some e -> e <> EConstant -> oe_enforce_ub e b = Some ls ->
    sat m (p_cls p) -> lits_true m ls -> icost o m <= b.
  Proof.
    intros W Ho He Hc Hb Hm Hl. etransitivity; [eapply (wf_le _ _ W); eauto|].
    eapply oe_enforce_sound; eauto. intros c Hcc. apply Hm. eapply (wf_ecls _ _ W); eauto.
    eapply nth_error_In; eauto.
  Qed.

  Lemma enforce_complete F p i o e b ls m : WF F p -> nth_error (p_objs p) i = Some o ->
    nth_error (p_encs p) i = Some e -> oe_enforce_ub e b = Some ls ->
    F m -> Exact p m -> icost o m <= b -> lits_true m ls.
  Proof.
    intros W Ho He Hb Hm Hx Hl. 
    assert (K : oe_exact e m) by (apply Hx; eapply nth_error_In; eauto).
    assert (D : {e = EConstant} + {e <> EConstant}).
    { destruct e; [right; discriminate|right; discriminate|left; reflexivity]. }
    destruct D as [->|D].
    - cbn in Hb. injection Hb as <-. apply lits_true_nil.
    - eapply oe_enforce_complete; eauto. erewrite <- (wf_eq _ _ W); eauto.
  Qed.

End Sem.
