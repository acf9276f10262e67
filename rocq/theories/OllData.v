(** * Lemmas on the data structures of core-guided search *)
From Coq Require Import List Bool Arith Lia ZArith Permutation Sorted.
From Verif Require Import Base BaseLemmas MTypes MKernel Ext MOll.
Import ListNotations.

(** ** Hash maps *)
Section Hm.
  Context {V : Type}.
  Implicit Types (m : list (lit * V)) (l k : lit).
  Lemma hm_get_in m l v : hm_get l m = Some v -> In (l, v) m.
  Proof.
    induction m as [|[k w] m IH]; cbn; [discriminate|]. destruct (lit_eqb l k) eqn:e.
    - apply lit_eqb_eq in e. subst. intros H. injection H as ->. now left.
    - intros H. right. auto.
  Qed.
  Lemma hm_get_none m l : hm_get l m = None <-> ~ In l (map fst m).
  Proof.
    induction m as [|[k w] m IH]; cbn; [tauto|]. destruct (lit_eqb l k) eqn:e.
    - apply lit_eqb_eq in e. subst. split; [discriminate|]. intros H. destruct H. now left.
    - apply lit_eqb_neq in e. rewrite IH. split; [intros H [G|G]; congruence|tauto].
  Qed.
  Lemma hm_in_get m l v : NoDup (map fst m) -> In (l, v) m -> hm_get l m = Some v.
  Proof.
    induction m as [|[k w] m IH]; cbn; [intros _ []|]. intros Hd [H|H].
    - injection H as -> ->. now rewrite lit_eqb_refl.
    - inversion Hd as [|? ? H1 H2]; subst. destruct (lit_eqb l k) eqn:e; [|auto].
      apply lit_eqb_eq in e. subst. destruct H1. apply in_map_iff. exists (k, v). auto.
  Qed.
  Lemma hm_get_app m m' l : hm_get l (m ++ m') =
    match hm_get l m with Some v => Some v | None => hm_get l m' end.
  Proof.
    induction m as [|[k w] m IH]; cbn; [reflexivity|]. destruct (lit_eqb l k); auto.
  Qed.
  Lemma hm_remove_in m l k v : In (k, v) (hm_remove l m) <-> k <> l /\ In (k, v) m.
  Proof.
    unfold hm_remove. rewrite filter_In. cbn. rewrite negb_true_iff, lit_eqb_neq. split; intros []; auto.
  Qed.
  Lemma hm_get_remove m l k : hm_get k (hm_remove l m) = if lit_eqb l k then None else hm_get k m.
  Proof.
    unfold hm_remove. induction m as [|[j w] m IH]; cbn; [now destruct (lit_eqb l k)|].
    destruct (lit_eqb l j) eqn:e; cbn.
    - rewrite IH. apply lit_eqb_eq in e. subst j. destruct (lit_eqb l k) eqn:e2; [reflexivity|].
      destruct (lit_eqb k l) eqn:e3; [|reflexivity]. apply lit_eqb_eq in e3. subst.
      now rewrite lit_eqb_refl in e2.
    - rewrite IH. destruct (lit_eqb k j) eqn:e3; [|reflexivity].
      apply lit_eqb_eq in e3. subst j. now rewrite e.
  Qed.
  Lemma hm_remove_keys m l k : In k (map fst (hm_remove l m)) -> k <> l /\ In k (map fst m).
  Proof.
    intros H. apply in_map_iff in H. destruct H as ([k' v] & <- & H). apply hm_remove_in in H.
    cbn. split; [tauto|]. apply in_map_iff. exists (k', v). tauto.
  Qed.
End Hm.

Lemma NoDup_map_filter {A B} (f : A -> B) p l : NoDup (map f l) -> NoDup (map f (filter p l)).
Proof.
  induction l as [|a l IH]; cbn; [auto|]. intros H. inversion H as [|? ? H1 H2]; subst.
  destruct (p a); cbn; [|auto]. constructor; [|auto]. intros Hin. apply H1.
  apply in_map_iff in Hin. destruct Hin as (x & Hx & Hin). apply filter_In in Hin.
  apply in_map_iff. exists x. tauto.
Qed.
Lemma NoDup_map_eq {A B} (f : A -> B) l x y : NoDup (map f l) -> In x l -> In y l -> f x = f y -> x = y.
Proof.
  induction l as [|a l IH]; cbn; [intros _ []|]. intros H. inversion H as [|? ? H1 H2]; subst.
  intros [->|Hx] [->|Hy] He; auto.
  - destruct H1. rewrite He. now apply in_map.
  - destruct H1. rewrite <- He. now apply in_map.
Qed.
Lemma NoDup_app_snoc {A} (l : list A) a : NoDup l -> ~ In a l -> NoDup (l ++ [a]).
Proof.
  intros H Hn. apply NoDup_Add with (a := a) (l := l).
  - rewrite <- (app_nil_r l) at 1. apply Add_app.
  - split; assumption.
Qed.
Lemma NoDup_map_inj {A B} (f : A -> B) l : (forall x y, f x = f y -> x = y) -> NoDup l -> NoDup (map f l).
Proof.
  intros Hf. induction 1 as [|a l H1 H2 IH]; cbn; constructor; [|exact IH].
  intros H. apply in_map_iff in H. destruct H as (x & He & Hx). apply Hf in He. congruence.
Qed.
Lemma NoDup_lnot l : NoDup l -> NoDup (map lnot l).
Proof. apply NoDup_map_inj, lnot_inj. Qed.
Lemma in_lnot l a : In a (map lnot l) <-> In (lnot a) l.
Proof.
  rewrite in_map_iff. split.
  - intros (x & <- & H). now rewrite lnot_lnot.
  - intros H. exists (lnot a). split; [apply lnot_lnot|exact H].
Qed.

(** ** Weighted sums over literals *)
Definition wk (f : lit -> nat) (ls : list (lit * nat)) : nat :=
  list_sum (map (fun lw => snd lw * f (fst lw)) ls).
Lemma wk_cons f l w ls : wk f ((l, w) :: ls) = w * f l + wk f ls.
Proof. reflexivity. Qed.
Lemma wk_app f x y : wk f (x ++ y) = wk f x + wk f y.
Proof. unfold wk. now rewrite map_app, list_sum_app. Qed.
Lemma wk_ext f g ls : (forall l w, In (l, w) ls -> 0 < w -> f l = g l) -> wk f ls = wk g ls.
Proof.
  induction ls as [|[l w] ls IH]; intros H; [reflexivity|]. rewrite !wk_cons. f_equal.
  - destruct w as [|w]; [reflexivity|]. rewrite (H l (S w)); [reflexivity|now left|lia].
  - apply IH. intros l' w' Hin. apply H. now right.
Qed.
Lemma wk_zero f ls : (forall l w, In (l, w) ls -> 0 < w -> f l = 0) -> wk f ls = 0.
Proof.
  intros H. rewrite (wk_ext f (fun _ => 0)) by exact H. clear. induction ls as [|[l w] ls IH]; [reflexivity|].
  rewrite wk_cons, IH. lia.
Qed.
Lemma wk_wsum a ls : wk (fun l => if lit_true a l then 1 else 0) ls = wsum a ls.
Proof.
  induction ls as [|[l w] ls IH]; [reflexivity|]. rewrite wk_cons, IH. cbn [wsum].
  destruct (lit_true a l); lia.
Qed.
Lemma wk_wtotal ls : wk (fun _ => 1) ls = wtotal ls.
Proof.
  induction ls as [|[l w] ls IH]; [reflexivity|]. rewrite wk_cons, IH. cbn [wtotal]. lia.
Qed.
Lemma wk_filter_pos f ls : wk f (filter (fun lw => 0 <? snd lw) ls) = wk f ls.
Proof.
  induction ls as [|[l w] ls IH]; [reflexivity|]. cbn [filter snd]. destruct (0 <? w) eqn:e.
  - rewrite !wk_cons. now rewrite IH.
  - rewrite wk_cons, IH. apply Nat.ltb_ge in e. assert (w = 0) by lia. subst. reflexivity.
Qed.
Lemma wk_ge f ls l w : In (l, w) ls -> w * f l <= wk f ls.
Proof.
  induction ls as [|[l' w'] ls IH]; [intros []|]. intros [H|H]; rewrite wk_cons.
  - injection H as -> ->. lia.
  - specialize (IH H). lia.
Qed.
(** distinct literals of weight at least [c] *)
Lemma wk_core_len ls core : NoDup core -> (forall l, In l core -> exists w, In (l, w) ls /\ 0 < w) ->
  length core <= wk (fun _ => 1) ls.
Proof.
  intros Hd H. assert (G : length core <= length (map fst (filter (fun lw => 0 <? snd lw) ls))).
  { apply NoDup_incl_length; [exact Hd|]. intros l Hl. destruct (H l Hl) as (w & Hw & Hp).
    apply in_map_iff. exists (l, w). split; [reflexivity|]. apply filter_In. split; [exact Hw|].
    now apply Nat.ltb_lt. }
  rewrite map_length in G. rewrite <- (wk_filter_pos _ ls).
  etransitivity; [exact G|]. clear. 
  induction ls as [|[l w] ls IH]; [cbn; lia|]. cbn [filter snd]. destruct (0 <? w) eqn:e; [|exact IH].
  rewrite wk_cons. cbn [length]. apply Nat.ltb_lt in e. lia.
Qed.

Lemma hm_replace (m : list (lit * nat)) l w v : NoDup (map fst m) -> In (l, w) m ->
  map fst (hm_insert l v m) = map fst m /\
  (forall f, wk f (hm_insert l v m) + w * f l = wk f m + v * f l) /\
  (forall l' w', In (l', w') (hm_insert l v m) <-> (l' = l /\ w' = v) \/ (l' <> l /\ In (l', w') m)).
Proof.
  induction m as [|[k x] m IH]; [intros _ []|]. cbn [map fst]. intros Hd Hin.
  inversion Hd as [|? ? H1 H2]; subst. cbn [hm_insert]. destruct (lit_eqb l k) eqn:e.
  - apply lit_eqb_eq in e. subst k. assert (x = w).
    { destruct Hin as [Hin|Hin]; [congruence|]. destruct H1. apply in_map_iff. exists (l, w). auto. }
    subst x. split; [reflexivity|]. split.
    + intros f. rewrite !wk_cons. lia.
    + intros l' w'. cbn. split.
      * intros [H|H]; [injection H as -> ->; now left|].
        right. split; [|now right]. intros ->. apply H1. apply in_map_iff. exists (l, w'). auto.
      * intros [[-> ->]|[Hn [H|H]]]; [now left| |now right]. congruence.
  - apply lit_eqb_neq in e. destruct Hin as [Hin|Hin]; [congruence|].
    destruct (IH H2 Hin) as (G1 & G2 & G3). split; [cbn; now rewrite G1|]. split.
    + intros f. rewrite !wk_cons. specialize (G2 f). lia.
    + intros l' w'. cbn. rewrite G3. split.
      * intros [H|[H|[Hn H]]]; [|tauto|tauto]. right. split; [congruence|now left].
      * intros [H|[Hn [H|H]]]; [tauto|tauto|tauto].
Qed.

(** ** Inactive literals *)

(** All literals stored; the literals that count with their weights; unweighted or not *)
Definition ikeys (i : inactives) : list lit :=
  match i with IWeighted m => map fst m | IUnweighted lits _ => lits | IConstant => [] end.
Definition inb (l : lit) (ls : list lit) : bool := existsb (lit_eqb l) ls.
Definition iact (i : inactives) : list (lit * nat) :=
  match i with
  | IWeighted m => m
  | IUnweighted lits act => map (fun l => (l, 1)) (filter (fun l => negb (inb l act)) lits)
  | IConstant => []
  end.
Definition un (i : inactives) : Prop := match i with IUnweighted _ _ => True | _ => False end.
Definition iwf (i : inactives) : Prop :=
  match i with
  | IUnweighted lits act => incl act lits
  | IWeighted _ => True
  | IConstant => False
  end.

Lemma inb_true l ls : inb l ls = true <-> In l ls.
Proof.
  unfold inb. rewrite existsb_exists. split.
  - intros (x & H & e). apply lit_eqb_eq in e. now subst.
  - intros H. exists l. split; [exact H|apply lit_eqb_refl].
Qed.
Lemma inb_false l ls : inb l ls = false <-> ~ In l ls.
Proof. rewrite <- inb_true. destruct (inb l ls); split; congruence. Qed.
Lemma iact_un i l w : un i -> In (l, w) (iact i) -> w = 1.
Proof.
  destruct i; cbn; try tauto. intros _ H. apply in_map_iff in H. destruct H as (x & H & _). congruence.
Qed.
Lemma iact_keys i l w : In (l, w) (iact i) -> In l (ikeys i).
Proof.
  destruct i; cbn; [|intros H|tauto].
  - intros H. apply in_map_iff. exists (l, w). auto.
  - apply in_map_iff in H. destruct H as (x & H & Hin). apply filter_In in Hin. injection H as <- _. tauto.
Qed.
Lemma iact_fun i l w w' : NoDup (ikeys i) -> In (l, w) (iact i) -> In (l, w') (iact i) -> w = w'.
Proof.
  destruct i as [m|lits act|]; cbn [ikeys iact]; intros Hd H1 H2; [| |destruct H1].
  - assert (E := NoDup_map_eq fst m (l, w) (l, w') Hd H1 H2 eq_refl). congruence.
  - apply in_map_iff in H1. apply in_map_iff in H2. destruct H1 as (? & H1 & _), H2 as (? & H2 & _). congruence.
Qed.

Lemma wk_units f ls : wk f (map (fun l => (l, 1)) ls) = list_sum (map f ls).
Proof.
  induction ls as [|l ls IH]; [reflexivity|]. cbn [map]. rewrite wk_cons, IH. cbn [list_sum fold_right].
  unfold list_sum. cbn. lia.
Qed.

(** [relax] by a weight that the literal has *)
Lemma relax_ok i l w cw : NoDup (ikeys i) -> iwf i -> In (l, w) (iact i) -> 0 < cw <= w ->
  exists i', in_relax i l cw = Some (i', w - cw) /\ ikeys i' = ikeys i /\ iwf i' /\ (un i' <-> un i) /\
    (forall f, wk f (iact i) = wk f (iact i') + cw * f l) /\
    (forall l' w', l' <> l -> (In (l', w') (iact i') <-> In (l', w') (iact i))) /\
    (forall w', In (l, w') (iact i') -> w' = w - cw) /\
    (0 < w - cw -> In (l, w - cw) (iact i')).
Proof.
  destruct i as [m|lits act|]; cbn [ikeys iwf iact in_relax un]; intros Hd Hw Hin Hc; [| |destruct Hin].
  - rewrite (hm_in_get m l w Hd Hin). replace (w <? cw) with false by (symmetry; apply Nat.ltb_ge; lia).
    destruct (hm_replace m l w (w - cw) Hd Hin) as (G1 & G2 & G3).
    exists (IWeighted (hm_insert l (w - cw) m)). cbn [ikeys iwf iact un].
    split; [reflexivity|]. split; [exact G1|]. split; [exact Logic.I|]. split; [tauto|].
    split; [|split; [|split]].
    + intros f. specialize (G2 f).
      assert (w * f l = (w - cw) * f l + cw * f l) by (rewrite <- Nat.mul_add_distr_r; f_equal; lia). lia.
    + intros l' w' Hn. rewrite G3. tauto.
    + intros w' H. apply G3 in H. tauto.
    + intros _. apply G3. now left.
  - assert (w = 1). { apply in_map_iff in Hin. destruct Hin as (? & ? & _). congruence. }
    subst w. assert (cw = 1) by lia. subst cw. cbn [Nat.eqb Nat.sub].
    assert (Hl : In l lits /\ ~ In l act).
    { apply in_map_iff in Hin. destruct Hin as (x & Hx & Hin). injection Hx as ->. apply filter_In in Hin.
      rewrite negb_true_iff, inb_false in Hin. exact Hin. }
    exists (IUnweighted lits (l :: act)). cbn [ikeys iwf iact un].
    split; [reflexivity|]. split; [reflexivity|]. split.
    { intros x [<-|Hx]; [apply Hl|auto]. }
    split; [tauto|]. split; [|split; [|split]].
    + intros f. rewrite !wk_units, Nat.mul_1_l. destruct Hl as [Hl1 Hl2].
      assert (G : forall ls, NoDup ls -> list_sum (map f (filter (fun x => negb (inb x act)) ls)) =
        list_sum (map f (filter (fun x => negb (inb x (l :: act))) ls)) + (if inb l ls then f l else 0)).
      { clear - Hl2. induction ls as [|x ls IH]; [reflexivity|]. intros Hd.
        inversion Hd as [|? ? H1 H2]; subst. specialize (IH H2). cbn [filter].
        destruct (lit_eq_dec x l) as [->|Hne].
        - replace (inb l act) with false by (symmetry; now apply inb_false).
          replace (inb l (l :: act)) with true by (symmetry; apply inb_true; now left).
          replace (inb l (l :: ls)) with true by (symmetry; apply inb_true; now left).
          replace (inb l ls) with false in IH by (symmetry; now apply inb_false).
          cbn [negb map]. unfold list_sum in *. cbn [fold_right]. lia.
        - replace (inb x (l :: act)) with (inb x act).
          2:{ unfold inb. cbn. destruct (lit_eqb x l) eqn:e; [apply lit_eqb_eq in e; congruence|reflexivity]. }
          replace (inb l (x :: ls)) with (inb l ls).
          2:{ unfold inb. cbn. destruct (lit_eqb l x) eqn:e; [apply lit_eqb_eq in e; congruence|reflexivity]. }
          destruct (negb (inb x act)); cbn [map]; unfold list_sum in *; cbn [fold_right]; lia. }
      rewrite (G lits Hd). replace (inb l lits) with true by (symmetry; now apply inb_true). reflexivity.
    + intros l' w' Hn. rewrite !in_map_iff. split; intros (x & Hx & Hf); exists x; (split; [exact Hx|]);
        apply filter_In in Hf; apply filter_In; rewrite negb_true_iff, inb_false in *; injection Hx as -> _; cbn in *; intuition.
    + intros w' H. exfalso. apply in_map_iff in H. destruct H as (x & Hx & Hf). injection Hx as -> _.
      apply filter_In in Hf. rewrite negb_true_iff, inb_false in Hf. apply Hf. now left.
    + lia.
Qed.

Lemma insert_ok i l w : iwf i -> ~ In l (ikeys i) -> (un i -> w = 1) ->
  exists i', in_insert i l w = Some i' /\ ikeys i' = ikeys i ++ [l] /\ iwf i' /\ (un i' <-> un i) /\
    (forall f, wk f (iact i') = wk f (iact i) + w * f l) /\
    (forall l' w', In (l', w') (iact i') <-> In (l', w') (iact i) \/ (l' = l /\ w' = w)).
Proof.
  destruct i as [m|lits act|]; cbn [ikeys iwf iact in_insert un]; intros Hw Hn Hu; [| |destruct Hw].
  - exists (IWeighted (hm_insert l w m)). rewrite hm_insert_new by exact Hn. cbn [ikeys iwf iact un].
    split; [reflexivity|]. split; [now rewrite map_app|]. split; [exact Logic.I|]. split; [tauto|]. split.
    + intros f. rewrite wk_app, wk_cons. cbn. lia.
    + intros l' w'. rewrite in_app_iff. cbn. split; intros [H|H]; auto.
      * destruct H as [H|[]]. injection H as -> ->. auto.
      * destruct H as [-> ->]. auto.
  - rewrite (Hu Logic.I). cbn [Nat.eqb]. exists (IUnweighted (lits ++ [l]) act). cbn [ikeys iwf iact un].
    assert (Ha : inb l act = false) by (apply inb_false; auto).
    assert (E : filter (fun x => negb (inb x act)) (lits ++ [l]) = filter (fun x => negb (inb x act)) lits ++ [l]).
    { rewrite filter_app. cbn [filter]. now rewrite Ha. }
    split; [reflexivity|]. split; [reflexivity|]. split; [intros x Hx; apply in_or_app; auto|]. split; [tauto|]. split.
    + intros f. rewrite E, map_app, wk_app. cbn [map]. rewrite wk_cons. cbn. lia.
    + intros l' w'. rewrite E, map_app, in_app_iff. cbn. split; intros [H|H]; auto.
      * destruct H as [H|[]]. injection H as -> <-. auto.
      * destruct H as [-> ->]. auto.
Qed.

(** [final_cleanup] drops what does not count *)
Lemma final_ok i : iwf i -> NoDup (ikeys i) ->
  let j := in_final_cleanup i in
  (forall f, wk f (in_iter j) = wk f (iact i)) /\
  (forall l w, In (l, w) (in_iter j) <-> In (l, w) (iact i) /\ 0 < w) /\
  NoDup (map fst (in_iter j)).
Proof.
  destruct i as [m|lits act|]; cbn [iwf ikeys iact]; intros Hw Hd; [| |destruct Hw]; unfold in_final_cleanup; cbn [in_cleanup].
  - set (m' := filter (fun lw => 0 <? snd lw) m).
    assert (G : in_iter (match m' with [] => IConstant | _ => IWeighted m' end) = m') by (now destruct m').
    replace (match IWeighted m' with IWeighted [] => IConstant | IUnweighted [] _ => IConstant | j => j end)
      with (match m' with [] => IConstant | _ => IWeighted m' end) by (now destruct m').
    rewrite G. split; [intros f; apply wk_filter_pos|]. split.
    + intros l w. unfold m'. rewrite filter_In. cbn [snd]. now rewrite Nat.ltb_lt.
    + now apply NoDup_map_filter.
  - change (existsb (lit_eqb ?x) act) with (inb x act).
    set (l' := filter (fun l => negb (inb l act)) lits).
    assert (G : in_iter (match l' with [] => IConstant | _ => IUnweighted l' [] end) = map (fun l => (l, 1)) l') by (now destruct l').
    replace (match IUnweighted l' [] with IWeighted [] => IConstant | IUnweighted [] _ => IConstant | j => j end)
      with (match l' with [] => IConstant | _ => IUnweighted l' [] end) by (now destruct l').
    cbn zeta. rewrite G. split; [reflexivity|]. split.
    + intros l w. split; [|tauto]. intros H. split; [exact H|]. apply in_map_iff in H.
      destruct H as (x & H & _). injection H as _ <-. lia.
    + rewrite map_map. cbn [fst]. rewrite map_id. now apply NoDup_filter.
Qed.

(** ** Preparing the assumptions *)

(** What holds of the assumptions between iterations, and after preparing them *)
Definition aok (i : inactives) (assumps : list lit) : Prop :=
  match i with
  | IWeighted m => NoDup assumps /\ (forall a, In a assumps -> In (lnot a) (map fst m)) /\
      (forall l w, In (l, w) m -> 0 < w -> In (lnot l) assumps)
  | _ => True
  end.
Record aok2 (i : inactives) (assumps : list lit) : Prop := mkAok2 {
  a2_nodup : NoDup assumps;
  a2_key : forall a, In a assumps -> exists w, In (lnot a, w) (iact i) /\ 0 < w;
  a2_all : forall l w, In (l, w) (iact i) -> 0 < w -> In (lnot l) assumps }.

Lemma insert_desc_perm x l : Permutation (insert_desc x l) (x :: l).
Proof.
  induction l as [|y l IH]; cbn; [apply Permutation_refl|].
  destruct (snd y <=? snd x); [apply Permutation_refl|].
  eapply Permutation_trans; [apply perm_skip, IH|apply perm_swap].
Qed.
Lemma sort_desc_perm l : Permutation (sort_desc l) l.
Proof.
  induction l as [|x l IH]; cbn; [apply Permutation_refl|].
  eapply Permutation_trans; [apply insert_desc_perm|apply perm_skip, IH].
Qed.
Definition dge (x y : lit * nat) : Prop := snd y <= snd x.
Lemma insert_desc_sorted x l : StronglySorted dge l -> StronglySorted dge (insert_desc x l).
Proof.
  induction 1 as [|y l H1 IH H2]; cbn; [repeat constructor|].
  destruct (snd y <=? snd x) eqn:e.
  - apply Nat.leb_le in e. constructor; [now constructor|]. constructor; [exact e|].
    eapply Forall_impl; [|exact H2]. unfold dge. intros; lia.
  - apply Nat.leb_gt in e. constructor; [exact IH|].
    apply (Permutation_Forall (Permutation_sym (insert_desc_perm x l))).
    constructor; [unfold dge; lia|exact H2].
Qed.
Lemma sort_desc_sorted l : StronglySorted dge (sort_desc l).
Proof. induction l; cbn; [constructor|]. now apply insert_desc_sorted. Qed.
Lemma pop_zeros_filter l : StronglySorted dge l -> pop_zeros l = filter (fun x => 0 <? snd x) l.
Proof.
  induction 1 as [|x l H1 IH H2]; cbn [pop_zeros filter]; [reflexivity|]. rewrite IH.
  destruct (filter (fun x => 0 <? snd x) l) as [|y r] eqn:e.
  - destruct (snd x) eqn:ex; cbn; reflexivity.
  - assert (Hy : In y (filter (fun x => 0 <? snd x) l)) by (rewrite e; now left).
    apply filter_In in Hy. destruct Hy as [Hy1 Hy2]. rewrite Forall_forall in H2.
    specialize (H2 y Hy1). unfold dge in H2. apply Nat.ltb_lt in Hy2.
    replace (0 <? snd x) with true by (symmetry; apply Nat.ltb_lt; lia). reflexivity.
Qed.
Lemma with_weights_ok m assumps : (forall a, In a assumps -> In (lnot a) (map fst m)) ->
  exists ws, with_weights m assumps = Some ws /\ map fst ws = assumps /\
    (forall a w, In (a, w) ws -> hm_get (lnot a) m = Some w).
Proof.
  induction assumps as [|a r IH]; intros H.
  - exists []. cbn. split; [reflexivity|]. split; [reflexivity|]. intros ? ? [].
  - destruct IH as (ws & H1 & H2 & H3); [intros; apply H; now right|].
    destruct (hm_get (lnot a) m) as [w|] eqn:e.
    + exists ((a, w) :: ws). cbn. rewrite e, H1. split; [reflexivity|]. split; [now rewrite H2|].
      intros a' w' [Hin|Hin]; [|auto]. injection Hin as <- <-. exact e.
    + apply hm_get_none in e. destruct e. apply H. now left.
Qed.

Lemma prep_ok i assumps : NoDup (ikeys i) -> iwf i -> aok i assumps ->
  exists i' assumps', prep_assumps i assumps = Some (i', assumps') /\ aok2 i' assumps' /\
    NoDup (ikeys i') /\ iwf i' /\ (un i' <-> un i) /\ iact i' = iact i /\ incl (ikeys i') (ikeys i) /\
    aok i' assumps'.
Proof.
  destruct i as [m|lits act|]; cbn [ikeys iwf aok prep_assumps]; intros Hd Hw Ha; [| |destruct Hw].
  - destruct Ha as (A1 & A2 & A3). destruct (with_weights_ok m assumps A2) as (ws & W1 & W2 & W3).
    rewrite W1. exists (IWeighted m). eexists. split; [reflexivity|].
    rewrite pop_zeros_filter by apply sort_desc_sorted.
    set (f := filter _ _).
    assert (Hf : forall x, In x f <-> In x ws /\ 0 < snd x).
    { intros x. unfold f. rewrite filter_In, Nat.ltb_lt.
      split; intros [H1 H2]; (split; [|exact H2]).
      - eapply Permutation_in; [apply sort_desc_perm|exact H1].
      - eapply Permutation_in; [apply Permutation_sym, sort_desc_perm|exact H1]. }
    assert (N : NoDup (map fst f)).
    { apply NoDup_map_filter. apply (Permutation_NoDup (l := map fst ws)).
      - apply Permutation_map, Permutation_sym, sort_desc_perm.
      - rewrite W2. exact A1. }
    assert (K : forall a, In a (map fst f) -> exists w, In (lnot a, w) m /\ 0 < w).
    { intros a Hin. apply in_map_iff in Hin. destruct Hin as ([a' w] & <- & Hin). apply Hf in Hin.
      destruct Hin as [Hin Hp]. exists w. split; [|exact Hp]. apply hm_get_in. now apply W3. }
    assert (L : forall l w, In (l, w) m -> 0 < w -> In (lnot l) (map fst f)).
    { intros l w Hin Hp. specialize (A3 l w Hin Hp). rewrite <- W2 in A3.
      apply in_map_iff in A3. destruct A3 as ([a w'] & Ea & A3). cbn in Ea. subst a.
      pose proof (W3 _ _ A3) as W4. rewrite lnot_lnot in W4.
      rewrite (hm_in_get m l w Hd Hin) in W4. injection W4 as <-.
      apply in_map_iff. exists (lnot l, w). split; [reflexivity|]. apply Hf. auto. }
    split; [constructor; [exact N|exact K|exact L]|].
    split; [exact Hd|]. split; [exact Logic.I|]. split; [tauto|]. split; [reflexivity|].
    split; [apply incl_refl|]. split; [exact N|]. split; [|exact L].
    intros a Hin. destruct (K a Hin) as (w & G & _). apply in_map_iff. exists (lnot a, w). auto.
  - eexists. eexists. split; [reflexivity|]. cbn [in_cleanup]. unfold in_assumps. cbn [in_iter].
    change (existsb (lit_eqb ?x) act) with (inb x act).
    set (l' := filter (fun l => negb (inb l act)) lits).
    assert (E : iact (IUnweighted l' []) = map (fun l => (l, 1)) l').
    { cbn [iact]. f_equal. clear. induction l' as [|x r IH]; [reflexivity|]. cbn. exact (f_equal _ IH). }
    assert (E2 : map (fun lw => lnot (fst lw)) (map (fun l => (l, 1)) l') = map lnot l').
    { rewrite map_map. reflexivity. }
    rewrite E2. split.
    { constructor.
      - apply NoDup_lnot. now apply NoDup_filter.
      - intros a Ha'. apply in_lnot in Ha'. exists 1. rewrite E. split; [|lia].
        apply in_map_iff. exists (lnot a). auto.
      - intros l w Hin _. rewrite E in Hin. apply in_map_iff in Hin. destruct Hin as (x & Hx & Hin).
        injection Hx as -> _. apply in_map. exact Hin. }
    split; [cbn [ikeys]; now apply NoDup_filter|]. split; [intros x []|]. split; [cbn; tauto|]. split; [exact E|].
    split; [intros x Hx; apply filter_In in Hx; apply Hx|exact Logic.I].
Qed.

(** ** Weight of a core *)
Lemma core_weight_ok i core : NoDup (ikeys i) -> iwf i -> core <> [] ->
  (forall l, In l core -> exists w, In (l, w) (iact i) /\ 0 < w) ->
  exists cw, core_weight i core = Some cw /\ 0 < cw /\ (un i -> cw = 1) /\
    (forall l, In l core -> exists w, In (l, w) (iact i) /\ cw <= w).
Proof.
  destruct i as [m|lits act|]; cbn [ikeys iwf core_weight un]; intros Hd Hw Hne H; [| |destruct Hw].
  - assert (G : exists cw, min_weights m core = Some cw /\ 0 < cw /\
      (forall l, In l core -> exists w, In (l, w) m /\ cw <= w)).
    { clear Hw. cbn [iact] in H. induction core as [|l core IH]; [congruence|].
      destruct (H l (or_introl eq_refl)) as (w & Hin & Hp). pose proof (hm_in_get m l w Hd Hin) as Hg.
      destruct core as [|l2 core].
      - exists w. cbn. split; [exact Hg|]. split; [exact Hp|]. intros x [<-|[]]. eauto.
      - destruct IH as (cw & C1 & C2 & C3); [discriminate|intros x Hx; apply H; now right|].
        change (min_weights m (l :: l2 :: core)) with
          (match hm_get l m, min_weights m (l2 :: core) with Some w, Some w' => Some (Nat.min w w') | _, _ => None end).
        rewrite Hg, C1. exists (Nat.min w cw). split; [reflexivity|]. split; [lia|].
        intros x [<-|Hx]; [exists w; split; [exact Hin|lia]|].
        destruct (C3 x Hx) as (w' & ? & ?). exists w'. split; [assumption|lia]. }
    destruct G as (cw & G1 & G2 & G3). exists cw. cbn [iact]. tauto.
  - exists 1. split; [reflexivity|]. split; [lia|]. split; [reflexivity|].
    intros l Hl. destruct (H l Hl) as (w & ? & ?). exists w. split; [assumption|lia].
Qed.
