(** * Preprocessing: translation of parsed problems to clausal instances *)
From Coq Require Import List Bool Arith Lia ZArith.
From Verif Require Import Base BaseLemmas Spec MTypes MKernel ApiSpec MPrepro PreSpec.
Import ListNotations.

(** ** Facts about parsed problems *)

Lemma pb_holds_agree (U : nat -> Prop) a b c :
  agree U a b -> (forall v, In v (pb_vars c) -> U v) -> pb_holds a c -> pb_holds b c.
Proof.
  intros H Hu. unfold pb_holds. now rewrite (wsum_agree U a b (pb_lits c) H Hu).
Qed.

Lemma wsum_ones a cl : wsum a (map (fun l => (l, 1)) cl) = length (filter (lit_true a) cl).
Proof.
  induction cl as [|l cl IH]; cbn; [reflexivity|]. rewrite IH. destruct (lit_true a l); reflexivity.
Qed.
Lemma pb_of_clause_holds a cl : pb_holds a (pb_of_clause cl) <-> clause_true a cl = true.
Proof.
  unfold pb_holds, pb_of_clause; cbn [pb_kind pb_lits pb_bound]. rewrite wsum_ones.
  unfold clause_true. induction cl as [|l cl IH]; cbn [filter existsb]; [cbn; split; [lia|discriminate]|].
  destruct (lit_true a l); cbn [length orb]; [split; [reflexivity|lia]|exact IH].
Qed.
Lemma pb_of_clause_vars cl : pb_vars (pb_of_clause cl) = lits_vars cl.
Proof.
  unfold pb_vars, pb_of_clause; cbn [pb_lits]. rewrite map_map. cbn. now rewrite map_id.
Qed.

Lemma violated_agree (U : nat -> Prop) a b cws :
  agree U a b -> (forall cw v, In cw cws -> In v (lits_vars (fst cw)) -> U v) ->
  violated a cws = violated b cws.
Proof.
  intros H. induction cws as [|[c w] r IH]; intros Hu; cbn; [reflexivity|].
  rewrite IH by (intros cw v H1 H2; apply (Hu cw v); [now right|assumption]).
  rewrite (clause_true_agree U a b c H); [reflexivity|].
  intros v Hv. apply (Hu (c, w) v); [now left|assumption].
Qed.
Lemma p_feasible_agree p a b : parsed_ok p ->
  (forall v, v < vm_next (pa_vm p) -> a v = b v) -> p_feasible p a -> p_feasible p b.
Proof.
  intros Hp H Hf. unfold p_feasible in *. rewrite Forall_forall in *. intros c Hc.
  apply (pb_holds_agree (fun v => v < vm_next (pa_vm p)) a b); auto.
  intros v Hv. eapply po_constrs; eauto.
Qed.
Lemma p_costs_agree p a b : parsed_ok p ->
  (forall v, v < vm_next (pa_vm p) -> a v = b v) -> p_costs p a = p_costs p b.
Proof.
  intros Hp H. unfold p_costs. apply map_ext_in. intros o Ho. unfold soft_cost.
  f_equal. f_equal. apply (violated_agree (fun v => v < vm_next (pa_vm p))); [exact H|].
  intros cw v Hcw Hv. eapply po_softs; eauto.
Qed.

(** ** Relaxation of soft clauses *)

Lemma nth_lt {A} (l : list A) k x : nth_error l k = Some x -> k < length l.
Proof. intros H. apply nth_error_Some. congruence. Qed.

Lemma clause_eqb_eq c d : clause_eqb c d = true <-> c = d.
Proof.
  revert d. induction c as [|a c IH]; intros [|b d]; cbn; try (split; congruence).
  rewrite andb_true_iff, lit_eqb_eq, IH. split; [intros [-> ->]; reflexivity|].
  intros H; injection H as -> ->; auto.
Qed.

(** The literal standing for a soft clause, given the final map of blocking literals *)
Definition lit_of (B : blit_map) (cl : clause) : lit :=
  match cl with
  | [l] => lnot l
  | _ => match blit_get B cl with Some b => b | None => pos 0 end
  end.

Lemma lit_of_blit B cl b : 2 <= length cl -> blit_get B cl = Some b -> lit_of B cl = b.
Proof.
  intros Hl Hg. unfold lit_of. rewrite Hg.
  destruct cl as [|l [|l2 cl]]; [cbn in Hl; lia..|reflexivity].
Qed.

Lemma nth_error_snoc {A} (E : list A) x k y :
  nth_error (E ++ [x]) k = Some y ->
  (nth_error E k = Some y) \/ (k = length E /\ y = x).
Proof.
  intros H. destruct (Nat.lt_ge_cases k (length E)) as [Hl|Hg].
  - left. rewrite nth_error_app1 in H by assumption. exact H.
  - rewrite nth_error_app2 in H by assumption. right.
    destruct (k - length E) as [|j] eqn:e; cbn in H.
    + injection H as <-. split; [lia|reflexivity].
    + destruct j; discriminate.
Qed.

Section Soft.
  Variable base : list pb_constr.
  Variable vm0 : var_manager.
  Let n0 := vm_next vm0.

  (** The state reached after relaxing the clauses [E] *)
  Record soft_inv (E : list clause) (s : soft_st) : Prop := mkSI {
    si_get : forall cl b, blit_get (ss_blits s) cl = Some b ->
      exists k, nth_error E k = Some cl /\ b = pos (n0 + k);
    si_put : forall k cl, nth_error E k = Some cl ->
      blit_get (ss_blits s) cl = Some (pos (n0 + k));
    si_con : forall c, In c (ss_constrs s) <->
      In c base \/ exists k cl, nth_error E k = Some cl /\ c = pb_of_clause (cl ++ [pos (n0 + k)]);
    si_vm : ss_vm s = mkVm (n0 + length E) (vm_max_orig vm0) (vm_max_enc vm0);
    si_var : forall cl v, In cl E -> In v (lits_vars cl) -> v < n0;
    si_len : forall cl, In cl E -> 2 <= length cl }.

  Lemma soft_inv_init : soft_inv [] (mkSoft base [] vm0).
  Proof.
    constructor; cbn.
    - discriminate.
    - intros [|k] cl; discriminate.
    - intros c; split; [now left|]. intros [H|(k & cl & H & _)]; [assumption|].
      destruct k; discriminate.
    - rewrite Nat.add_0_r. unfold n0. now destruct vm0.
    - intros cl v [].
    - intros cl [].
  Qed.


  Lemma process_soft_inv E s cl w lw s' :
    soft_inv E s -> (forall v, In v (lits_vars cl) -> v < n0) ->
    process_soft (cl, w) s = Some (lw, s') ->
    exists E', soft_inv (E ++ E') s' /\
      lw = (lit_of (ss_blits s') cl, w) /\ cl <> [] /\
      (length cl = 1 \/ In cl (E ++ E')).
  Proof.
    intros Hi Hv H. unfold process_soft in H.
    destruct cl as [|l cl]; [discriminate|]. destruct cl as [|l2 cl].
    - injection H as <- <-. exists []. rewrite app_nil_r. repeat split; auto; try apply Hi. congruence.
    - remember (l :: l2 :: cl) as c eqn:Ec. destruct (blit_get (ss_blits s) c) as [b|] eqn:Eg.
      + injection H as <- <-. exists []. rewrite app_nil_r. split; [assumption|].
        split; [|split; [congruence|]].
        * rewrite (lit_of_blit _ _ b); [reflexivity| |assumption]. rewrite Ec. cbn. lia.
        * right. destruct (si_get _ _ Hi _ _ Eg) as (k & Hk & _). eapply nth_error_In; eauto.
      + cbn [vm_new_var] in H. injection H as <- <-. exists [c].
        assert (Hnext : vm_next (ss_vm s) = n0 + length E) by (rewrite (si_vm _ _ Hi); reflexivity).
        rewrite Hnext.
        assert (Hself : blit_get ((c, pos (n0 + length E)) :: ss_blits s) c = Some (pos (n0 + length E))).
        { cbn. now rewrite (proj2 (clause_eqb_eq c c) eq_refl). }
        assert (Hnew : forall k, nth_error E k <> Some c).
        { intros k Hk. rewrite (si_put _ _ Hi _ _ Hk) in Eg. discriminate. }
        split; [|split; [|split; [congruence|right; apply in_or_app; right; now left]]].
        * constructor; cbn [ss_blits ss_constrs ss_vm].
          -- intros d b Hd. cbn in Hd. destruct (clause_eqb c d) eqn:e.
             ++ apply clause_eqb_eq in e. subst d. injection Hd as <-.
                exists (length E). split; [|reflexivity].
                rewrite nth_error_app2, Nat.sub_diag by lia. reflexivity.
             ++ destruct (si_get _ _ Hi _ _ Hd) as (k & Hk & ->). exists k. split; [|reflexivity].
                rewrite nth_error_app1; [assumption|]. exact (nth_lt _ _ _ Hk).
          -- intros k d Hk. apply nth_error_snoc in Hk. destruct Hk as [Hk|[-> ->]]; [|exact Hself].
             cbn. destruct (clause_eqb c d) eqn:e.
             ++ apply clause_eqb_eq in e. subst d. exfalso. now apply (Hnew k).
             ++ now apply (si_put _ _ Hi).
          -- intros d. rewrite in_app_iff, (si_con _ _ Hi). split.
             ++ intros [[H|(k & d' & Hk & ->)]|[<-|[]]].
                ** now left.
                ** right. exists k, d'. split; [|reflexivity].
                   rewrite nth_error_app1; [assumption|]. exact (nth_lt _ _ _ Hk).
                ** right. exists (length E), c. split; [|reflexivity].
                   rewrite nth_error_app2, Nat.sub_diag by lia. reflexivity.
             ++ intros [H|(k & d' & Hk & ->)]; [left; now left|].
                apply nth_error_snoc in Hk. destruct Hk as [Hk|[-> ->]].
                ** left; right; eauto.
                ** right; now left.
          -- rewrite app_length, Nat.add_assoc. cbn [length]. rewrite Nat.add_1_r.
             rewrite (si_vm _ _ Hi). reflexivity.
          -- intros d v Hd. apply in_app_iff in Hd. destruct Hd as [Hd|[<-|[]]]; [|apply Hv].
             now apply (si_var _ _ Hi).
          -- intros d Hd. apply in_app_iff in Hd. destruct Hd as [Hd|[<-|[]]].
             ++ now apply (si_len _ _ Hi).
             ++ rewrite Ec. cbn. lia.
        * cbn [ss_blits]. assert (Hlen : 2 <= length c) by (rewrite Ec; cbn; lia).
          f_equal. symmetry. apply lit_of_blit; [exact Hlen|exact Hself].
  Qed.

  (** Once a soft clause has its literal, it keeps it. *)
  Lemma lit_of_keep E E' s s' cl :
    soft_inv E s -> soft_inv (E ++ E') s' -> length cl = 1 \/ In cl E ->
    lit_of (ss_blits s') cl = lit_of (ss_blits s) cl.
  Proof.
    intros Hi Hi' [Hl|Hin].
    - destruct cl as [|l [|]]; try discriminate. reflexivity.
    - apply In_nth_error in Hin. destruct Hin as [k Hk].
      assert (Hk' : nth_error (E ++ E') k = Some cl).
      { rewrite nth_error_app1; [assumption|]. exact (nth_lt _ _ _ Hk). }
      unfold lit_of. rewrite (si_put _ _ Hi _ _ Hk), (si_put _ _ Hi' _ _ Hk'). reflexivity.
  Qed.

  Lemma process_softs_inv (cws : list (clause * nat)) : forall E s lws s',
    soft_inv E s -> (forall cw v, In cw cws -> In v (lits_vars (fst cw)) -> v < n0) ->
    process_softs cws s = Some (lws, s') ->
    exists E', soft_inv (E ++ E') s' /\
      lws = map (fun cw => (lit_of (ss_blits s') (fst cw), snd cw)) cws /\
      (forall cw, In cw cws -> fst cw <> [] /\ (length (fst cw) = 1 \/ In (fst cw) (E ++ E'))).
  Proof.
    induction cws as [|[cl w] r IH]; intros E s lws s' Hi Hv H; cbn [process_softs] in H.
    - injection H as <- <-. exists []. rewrite app_nil_r. split; [assumption|]. split; [reflexivity|].
      intros cw [].
    - destruct (process_soft (cl, w) s) as [[lw s1]|] eqn:E1; [|discriminate].
      destruct (process_softs r s1) as [[lws' s2]|] eqn:E2; [|discriminate].
      injection H as <- <-.
      assert (Hcl : forall v, In v (lits_vars cl) -> v < n0).
      { intros v. apply (Hv (cl, w)). now left. }
      destruct (process_soft_inv _ _ _ _ _ _ Hi Hcl E1) as (Ea & Hi1 & -> & Hne & Hin).
      assert (Hr : forall cw v, In cw r -> In v (lits_vars (fst cw)) -> v < n0).
      { intros cw v Hcw. apply (Hv cw). now right. }
      destruct (IH _ _ _ _ Hi1 Hr E2) as (Eb & Hi2 & -> & Hall).
      exists (Ea ++ Eb). rewrite app_assoc. split; [assumption|]. split.
      + cbn [map fst snd]. now rewrite (lit_of_keep _ _ _ _ _ Hi1 Hi2 Hin).
      + intros cw [<-|Hcw]; [|now apply Hall]. cbn [fst]. split; [assumption|].
        destruct Hin as [Hin|Hin]; [now left|right]. apply in_or_app. now left.
  Qed.

  Lemma process_objectives_inv (os : list soft_obj) : forall E s ros s',
    soft_inv E s ->
    (forall (o : soft_obj) cw v, In o os -> In cw (fst o) -> In v (lits_vars (fst cw)) -> v < n0) ->
    process_objectives os s = Some (ros, s') ->
    exists E', soft_inv (E ++ E') s' /\
      ros = map (fun o => (map (fun cw => (lit_of (ss_blits s') (fst cw), snd cw)) (fst o), snd o)) os /\
      (forall (o : soft_obj) cw, In o os -> In cw (fst o) ->
         fst cw <> [] /\ (length (fst cw) = 1 \/ In (fst cw) (E ++ E'))).
  Proof.
    induction os as [|o r IH]; intros E s ros s' Hi Hv H; cbn [process_objectives] in H.
    - injection H as <- <-. exists []. rewrite app_nil_r. split; [assumption|]. split; [reflexivity|].
      intros o cw [].
    - destruct (process_softs _ s) as [[lws s1]|] eqn:E1; [|discriminate].
      destruct (process_objectives r s1) as [[ros' s2]|] eqn:E2; [|discriminate].
      injection H as <- <-.
      assert (Ho : forall cw v, In cw (fst o) -> In v (lits_vars (fst cw)) -> v < n0).
      { intros cw v. apply (Hv o). now left. }
      destruct (process_softs_inv _ _ _ _ _ Hi Ho E1) as (Ea & Hi1 & -> & Hall1).
      assert (Hr : forall o cw v, In o r -> In cw (fst o) -> In v (lits_vars (fst cw)) -> v < n0).
      { intros o' cw v Ho'. apply (Hv o'). now right. }
      destruct (IH _ _ _ _ Hi1 Hr E2) as (Eb & Hi2 & -> & Hall2).
      exists (Ea ++ Eb). rewrite app_assoc. split; [assumption|]. split.
      + cbn [map]. f_equal. f_equal. apply map_ext_in. intros cw Hcw.
        f_equal. symmetry. exact (lit_of_keep _ _ _ _ _ Hi1 Hi2 (proj2 (Hall1 cw Hcw))).
      + intros o' cw [<-|Ho'] Hcw; [|now apply (Hall2 o')].
        destruct (Hall1 cw Hcw) as [Hne Hin]. split; [assumption|].
        destruct Hin as [Hin|Hin]; [now left|right]. apply in_or_app. now left.
  Qed.

  (** No soft clause is empty: the translation does not panic. *)
  Lemma process_softs_total (cws : list (clause * nat)) : forall s,
    (forall cw, In cw cws -> fst cw <> []) -> exists r, process_softs cws s = Some r.
  Proof.
    induction cws as [|[cl w] r IH]; intros s H; cbn [process_softs]; [eauto|].
    assert (Hs : exists x, process_soft (cl, w) s = Some x).
    { assert (Hne : cl <> []) by (apply (H (cl, w)); now left).
      destruct cl as [|l [|l2 cl]]; [congruence|cbn; eauto|]. unfold process_soft.
      destruct (blit_get _ _); [eauto|]. cbn. eauto. }
    destruct Hs as [[lw s1] ->].
    destruct (IH s1) as [[lws s2] ->]; [intros cw Hc; apply H; now right|]. eauto.
  Qed.
  Lemma process_objectives_total (os : list soft_obj) : forall s,
    (forall (o : soft_obj) cw, In o os -> In cw (fst o) -> fst cw <> []) ->
    exists r, process_objectives os s = Some r.
  Proof.
    induction os as [|o r IH]; intros s H; cbn [process_objectives]; [eauto|].
    destruct (process_softs_total (fst o) s) as [[lws s1] ->]; [intros cw; apply (H o); now left|].
    destruct (IH s1) as [[ros s2] ->]; [intros o' cw Ho'; apply (H o'); now right|]. eauto.
  Qed.
End Soft.

(** ** Encoding of the constraints *)

Lemma encode_constrs_ok pe : pb_enc_ok pe -> forall cs n0 n cls n',
  encode_constrs pe cs n = Some (cls, n') -> n0 <= n ->
  (forall c v, In c cs -> In v (pb_vars c) -> v < n0) ->
  n <= n' /\ (forall v, In v (cls_vars cls) -> v < n') /\
  (forall a, sat a cls -> forall c, In c cs -> pb_holds a c) /\
  (forall a, (forall c, In c cs -> pb_holds a c) ->
     exists b, (forall v, v < n -> b v = a v) /\ sat b cls).
Proof.
  intros Hpe. induction cs as [|c cs IH]; intros n0 n cls n' H Hn Hv; cbn [encode_constrs] in H.
  - injection H as <- <-. split; [lia|]. split; [intros v []|]. split; [intros a _ c []|].
    intros a _. exists a. split; [reflexivity|apply sat_nil].
  - destruct (pe c n) as [[cls1 n1]|] eqn:E1; [|discriminate].
    destruct (encode_constrs pe cs n1) as [[cls2 n2]|] eqn:E2; [|discriminate].
    injection H as <- <-.
    assert (Hvc : forall v, In v (pb_vars c) -> v < n).
    { intros v Hin. specialize (Hv c v (or_introl eq_refl) Hin). lia. }
    destruct (Hpe c n cls1 n1 E1 Hvc) as (Ha & Hb & Hc & Hd).
    assert (Hn1 : n0 <= n1) by lia.
    assert (Hvs : forall d v, In d cs -> In v (pb_vars d) -> v < n0).
    { intros d v Hd1 Hd2. apply (Hv d v); [now right|assumption]. }
    destruct (IH n0 n1 cls2 n2 E2 Hn1 Hvs) as (Ha' & Hb' & Hc' & Hd').
    split; [lia|]. split; [|split].
    + intros v Hin. rewrite cls_vars_app in Hin. apply in_app_or in Hin.
      destruct Hin as [Hin|Hin]; [specialize (Hb _ Hin); lia|now apply Hb'].
    + intros a Hs d [<-|Hin]; apply sat_app in Hs; destruct Hs as [Hs1 Hs2]; auto.
    + intros a Hall. destruct (Hd a) as (b1 & Hag1 & Hs1); [apply Hall; now left|].
      assert (Hall1 : forall d, In d cs -> pb_holds b1 d).
      { intros d Hin. apply (pb_holds_agree (fun v => v < n0) a b1).
        - intros v Hlt. symmetry. apply Hag1. lia.
        - intros v Hvd. now apply (Hvs d).
        - apply Hall. now right. }
      destruct (Hd' b1 Hall1) as (b2 & Hag2 & Hs2). exists b2. split.
      * intros v Hlt. rewrite Hag2 by lia. now apply Hag1.
      * apply sat_app. split; [|assumption].
        apply (sat_agree (fun v => v < n1) b1 b2); [|assumption|assumption].
        intros v Hlt. symmetry. now apply Hag2.
Qed.

(** ** The clausal instance *)

Lemma Forall2_map_rel {A B C D} (R : C -> D -> Prop) (f : A -> C) (g : B -> D) xs ys :
  Forall2 (fun x y => R (f x) (g y)) xs ys -> Forall2 R (map f xs) (map g ys).
Proof. induction 1; cbn; constructor; auto. Qed.
Lemma Forall2_diag {A} (R : A -> A -> Prop) xs : (forall x, In x xs -> R x x) -> Forall2 R xs xs.
Proof.
  induction xs as [|x xs IH]; intros H; constructor; [apply H; now left|].
  apply IH. intros y Hy. apply H. now right.
Qed.

Lemma wd_refl c : weakly_dominates c c.
Proof. apply Forall2_diag. intros; lia. Qed.

Lemma wd_not_dom c d : weakly_dominates c d -> ~ dominates c d -> c = d.
Proof.
  intros H Hn. destruct (list_eq_dec Z.eq_dec c d) as [e|n]; [assumption|].
  exfalso. apply Hn. now split.
Qed.

Lemma wtotal_sum {A} (f : A -> lit) (g : A -> nat) xs :
  wtotal (map (fun x => (f x, g x)) xs) = list_sum (map g xs).
Proof. induction xs as [|x xs IH]; [reflexivity|]. cbn [map wtotal]. rewrite IH. reflexivity. Qed.

Section Clausal.
  Variable pe : pb_encoder.
  Variable p : parsed.
  Variable i : inst.
  Hypothesis Hpe : pb_enc_ok pe.
  Hypothesis Hp : parsed_ok p.
  Hypothesis Hi : to_clausal pe p = POk i.

  Let n0 := vm_next (pa_vm p).

  (** Everything there is to know about the result *)
  Lemma to_clausal_shape : exists E s,
    soft_inv (pa_constrs p) (pa_vm p) E s /\
    in_objs i = map (fun o => (map (fun cw => (lit_of (ss_blits s) (fst cw), snd cw)) (fst o), snd o)) (pa_objs p) /\
    (forall o cw, In o (pa_objs p) -> In cw (fst o) ->
       fst cw <> [] /\ (length (fst cw) = 1 \/ In (fst cw) E)) /\
    vm_max_orig (in_vm i) = vm_max_orig (pa_vm p) /\
    vm_next (in_vm i) = S (vm_max_enc (in_vm i)) /\
    n0 + length E <= vm_next (in_vm i) /\
    (forall v, In v (cls_vars (in_cls i)) -> v < vm_next (in_vm i)) /\
    (forall a, sat a (in_cls i) -> forall c, In c (ss_constrs s) -> pb_holds a c) /\
    (forall a, (forall c, In c (ss_constrs s) -> pb_holds a c) ->
       exists b, (forall v, v < n0 + length E -> b v = a v) /\ sat b (in_cls i)).
  Proof.
    pose proof Hi as H. unfold to_clausal in H.
    destruct (process_objectives _ _) as [[ros s]|] eqn:E1; [|discriminate].
    destruct (encode_constrs _ _ _) as [[cls next]|] eqn:E2; [|discriminate].
    destruct (vm_mark_max_enc _) as [vm|] eqn:E3; [|discriminate].
    injection H as Hieq.
    destruct (process_objectives_inv (pa_constrs p) (pa_vm p) _ [] _ _ _
                (soft_inv_init _ _) (po_softs p Hp) E1) as (E & HE & -> & Hall).
    cbn [app] in *. exists E, s. split; [assumption|].
    rewrite <- Hieq. cbn [in_objs in_cls in_vm]. split; [reflexivity|]. split; [assumption|].
    assert (Hnext : vm_next (ss_vm s) = n0 + length E) by (rewrite (si_vm _ _ _ _ HE); reflexivity).
    rewrite Hnext in E2.
    assert (Hvars : forall c v, In c (ss_constrs s) -> In v (pb_vars c) -> v < n0 + length E).
    { intros c v Hc Hv. apply (si_con _ _ _ _ HE) in Hc. destruct Hc as [Hc|(k & cl & Hk & ->)].
      - pose proof (po_constrs p Hp c v Hc Hv). unfold n0. lia.
      - rewrite pb_of_clause_vars, lits_vars_app in Hv. apply in_app_or in Hv.
        destruct Hv as [Hv|[<-|[]]].
        + apply (si_var _ _ _ _ HE cl v) in Hv; [|eapply nth_error_In; eauto]. unfold n0. lia.
        + cbn. assert (k < length E) by exact (nth_lt _ _ _ Hk). unfold n0. lia. }
    destruct (encode_constrs_ok pe Hpe _ (n0 + length E) _ _ _ E2 (le_n _) Hvars)
      as (Ha & Hb & Hc & Hd).
    assert (Hvm : vm_max_orig vm = vm_max_orig (pa_vm p) /\ vm_next vm = next /\ next = S (vm_max_enc vm)).
    { unfold vm_mark_max_enc in E3. cbn [vm_set_next vm_next vm_max_orig vm_max_enc] in E3.
      destruct next as [|m]; [discriminate|]. injection E3 as <-. cbn.
      rewrite (si_vm _ _ _ _ HE). auto. }
    destruct Hvm as (Hv1 & Hv2 & Hv3). rewrite Hv2. repeat split; try assumption.
  Qed.

  Lemma cost_le_wsum a E s os : soft_inv (pa_constrs p) (pa_vm p) E s ->
    (forall k cl, nth_error E k = Some cl -> clause_true a (cl ++ [pos (n0 + k)]) = true) ->
    (forall cw, In cw os -> fst cw <> [] /\ (length (fst cw) = 1 \/ In (fst cw) E)) ->
    violated a os <= wsum a (map (fun cw => (lit_of (ss_blits s) (fst cw), snd cw)) os).
  Proof.
    intros HE Hrel. induction os as [|[cl w] os IH]; intros Hos; cbn; [lia|].
    assert (IH' : violated a os <= wsum a (map (fun cw => (lit_of (ss_blits s) (fst cw), snd cw)) os)).
    { apply IH. intros cw Hcw. apply Hos. now right. }
    destruct (clause_true a cl) eqn:Ec; [lia|].
    assert (Hl : lit_true a (lit_of (ss_blits s) cl) = true).
    { destruct (Hos (cl, w) (or_introl eq_refl)) as [Hne Hin]. cbn [fst] in *.
      destruct Hin as [Hin|Hin].
      - destruct cl as [|l [|]]; try discriminate. cbn [lit_of].
        rewrite lit_true_lnot. cbn in Ec. rewrite orb_false_r in Ec. now rewrite Ec.
      - pose proof (si_len _ _ _ _ HE _ Hin) as Hlen.
        apply In_nth_error in Hin. destruct Hin as [k Hk].
        pose proof (Hrel k cl Hk) as Hr. rewrite clause_true_app, Ec in Hr. cbn in Hr.
        rewrite orb_false_r in Hr. unfold lit_of. rewrite (si_put _ _ _ _ HE _ _ Hk).
        destruct cl as [|l [|l2 cl]]; [cbn in Hlen; lia..|]. exact Hr. }
    rewrite Hl. lia.
  Qed.

  (** Feasible assignments of the instance satisfy the problem, and their costs in the
      instance are at least the costs in the problem. *)
  Theorem clausal_sound a : feasible (in_cls i) a ->
    p_feasible p a /\ weakly_dominates (p_costs p a) (costs (in_objs i) a).
  Proof.
    intros Hf. destruct to_clausal_shape as (E & s & HE & Hobj & Hall & _ & _ & _ & _ & Hs & _).
    pose proof (Hs a Hf) as Hc. split.
    - apply Forall_forall. intros c Hin. apply Hc, (si_con _ _ _ _ HE). now left.
    - unfold weakly_dominates, p_costs, costs. rewrite Hobj, map_map.
      apply Forall2_map_rel. apply Forall2_diag. intros o Ho.
      unfold soft_cost, obj_value. cbn [fst snd].
      assert (violated a (fst o) <= wsum a (map (fun cw => (lit_of (ss_blits s) (fst cw), snd cw)) (fst o))).
      { apply (cost_le_wsum a E s); [assumption| |intros cw; now apply Hall].
        intros k cl Hk. apply pb_of_clause_holds. apply Hc, (si_con _ _ _ _ HE). right. eauto. }
      lia.
  Qed.

  (** Every solution of the problem extends to a feasible assignment with the same costs. *)
  Theorem clausal_complete a : p_feasible p a ->
    exists b, (forall v, v < n0 -> b v = a v) /\ feasible (in_cls i) b /\
              costs (in_objs i) b = p_costs p a.
  Proof.
    intros Hf. destruct to_clausal_shape as (E & s & HE & Hobj & Hall & _ & _ & _ & _ & _ & Hex).
    set (a1 := fun v => if v <? n0 then a v else
      match nth_error E (v - n0) with Some cl => negb (clause_true a cl) | None => false end).
    assert (Hlow : forall v, v < n0 -> a1 v = a v).
    { intros v Hv. unfold a1. apply Nat.ltb_lt in Hv. now rewrite Hv. }
    assert (Hblit : forall k cl, nth_error E k = Some cl -> a1 (n0 + k) = negb (clause_true a cl)).
    { intros k cl Hk. unfold a1. replace (n0 + k <? n0) with false by (symmetry; apply Nat.ltb_ge; lia).
      replace (n0 + k - n0) with k by lia. now rewrite Hk. }
    assert (Hcl : forall cl, (forall v, In v (lits_vars cl) -> v < n0) -> clause_true a1 cl = clause_true a cl).
    { intros cl Hv. apply (clause_true_agree (fun v => v < n0)); auto. }
    assert (Hc : forall c, In c (ss_constrs s) -> pb_holds a1 c).
    { intros c Hin. apply (si_con _ _ _ _ HE) in Hin. destruct Hin as [Hin|(k & cl & Hk & ->)].
      - apply (pb_holds_agree (fun v => v < n0) a a1).
        + intros v Hv. symmetry. auto.
        + intros v Hv. now apply (po_constrs p Hp c).
        + unfold p_feasible in Hf. rewrite Forall_forall in Hf. auto.
      - apply pb_of_clause_holds. rewrite clause_true_app.
        rewrite Hcl by (intros v; apply (si_var _ _ _ _ HE); eapply nth_error_In; eauto).
        change (vm_next (pa_vm p)) with n0. change (clause_true a1 [pos (n0 + k)]) with (lit_true a1 (pos (n0 + k)) || false).
        rewrite lit_true_pos, (Hblit _ _ Hk).
        destruct (clause_true a cl); reflexivity. }
    destruct (Hex a1 Hc) as (b & Hag & Hsat). exists b. split; [|split; [assumption|]].
    - intros v Hv. rewrite Hag by lia. now apply Hlow.
    - unfold costs, p_costs. rewrite Hobj, map_map. apply map_ext_in. intros o Ho.
      unfold soft_cost, obj_value. cbn [fst snd]. f_equal. f_equal.
      assert (Hallo : forall cw, In cw (fst o) -> fst cw <> [] /\ (length (fst cw) = 1 \/ In (fst cw) E)).
      { intros cw. now apply Hall. }
      assert (Hvo : forall cw v, In cw (fst o) -> In v (lits_vars (fst cw)) -> v < n0).
      { intros cw v. now apply (po_softs p Hp o). }
      induction (fst o) as [|[cl w] r IH]; cbn; [reflexivity|].
      rewrite IH.
      2: { intros cw Hcw. apply Hallo. now right. }
      2: { intros cw v Hcw. apply Hvo. now right. }
      f_equal.
      assert (Hl : lit_true b (lit_of (ss_blits s) cl) = negb (clause_true a cl)).
      { destruct (Hallo (cl, w) (or_introl eq_refl)) as [Hne Hin]. cbn [fst] in *.
        destruct Hin as [Hin|Hin].
        - destruct cl as [|l [|]]; try discriminate. cbn [lit_of]. rewrite lit_true_lnot. f_equal.
          cbn. rewrite orb_false_r. unfold lit_true.
          rewrite Hag by (pose proof (Hvo ([l], w) (lvar l) (or_introl eq_refl) (or_introl eq_refl)); lia).
          rewrite Hlow by (apply (Hvo ([l], w)); cbn; auto). reflexivity.
        - pose proof (si_len _ _ _ _ HE _ Hin) as Hlen.
          apply In_nth_error in Hin. destruct Hin as [k Hk].
          assert (k < length E) by exact (nth_lt _ _ _ Hk).
          rewrite <- (Hblit _ _ Hk). unfold lit_of. rewrite (si_put _ _ _ _ HE _ _ Hk).
          destruct cl as [|l [|l2 cl]]; [cbn in Hlen; lia..|]. rewrite lit_true_pos.
          apply Hag. unfold n0. lia. }
      rewrite Hl. destruct (clause_true a cl); reflexivity.
  Qed.


  (** An optimal assignment of the instance has exactly its costs in the problem. *)
  Lemma clausal_opt_costs a : feasible (in_cls i) a ->
    pareto_optimal (in_cls i) (in_objs i) (costs (in_objs i) a) ->
    p_costs p a = costs (in_objs i) a.
  Proof.
    intros Hf [_ Hopt]. destruct (clausal_sound a Hf) as [Hpf Hle].
    destruct (clausal_complete a Hpf) as (b & _ & Hbf & Hbc).
    apply wd_not_dom; [assumption|]. rewrite <- Hbc. now apply Hopt.
  Qed.

  (** The instance and the problem have the same Pareto front. *)
  Theorem clausal_front c : pareto_optimal (in_cls i) (in_objs i) c <-> p_optimal p c.
  Proof.
    split.
    - intros [(a & Hf & <-) Hopt].
      assert (Hc : p_costs p a = costs (in_objs i) a).
      { apply clausal_opt_costs; [assumption|]. split; [eauto|assumption]. }
      split.
      + exists a. split; [now apply clausal_sound|assumption].
      + intros b Hb. destruct (clausal_complete b Hb) as (b' & _ & Hbf & <-). now apply Hopt.
    - intros [(a & Hf & <-) Hopt]. destruct (clausal_complete a Hf) as (b & _ & Hbf & Hbc). split.
      + exists b. split; assumption.
      + intros d Hd [Hd1 Hd2]. destruct (clausal_sound d Hd) as [Hpd Hle].
        assert (Hle2 : weakly_dominates (p_costs p d) (p_costs p a)).
        { unfold weakly_dominates in *. clear -Hle Hd1. revert Hle Hd1. generalize (p_costs p a).
          intros x Hle. revert x. induction Hle; intros z Hz; inversion Hz; subst; constructor; [lia|auto]. }
        apply Hd2. assert (He : p_costs p d = p_costs p a) by (apply wd_not_dom; [assumption|now apply Hopt]).
        rewrite He in Hle. clear -Hle Hd1. revert Hle Hd1. generalize (p_costs p a) as x.
        generalize (costs (in_objs i) d) as y. intros y x H1 H2. unfold weakly_dominates in *.
        induction H1; inversion H2; subst; [reflexivity|]. f_equal; [lia|auto].
  Qed.

  (** Enumeration over original variables works on the translated instance. *)
  Theorem clausal_orig_determined : orig_determined i.
  Proof.
    intros a b Ha Hb Hsame Hopt. rewrite <- (clausal_opt_costs a Ha Hopt).
    destruct (clausal_sound b Hb) as [_ Hle].
    rewrite (p_costs_agree p a b Hp); [assumption|].
    intros v Hv. apply Hsame. destruct to_clausal_shape as (E & s & _ & _ & _ & Hmo & _).
    unfold n_orig. rewrite Hmo. rewrite (po_vm p Hp) in Hv. exact Hv.
  Qed.

  (** Solutions of optimal points of the instance are solutions of the problem. *)
  Theorem clausal_solution c sol : pareto_optimal (in_cls i) (in_objs i) c ->
    valid_solution (in_cls i) (in_objs i) (n_orig i) c sol -> p_solution p c sol.
  Proof.
    intros Hopt (Hlen & Hall & a & Hext & Hf & Hc).
    destruct to_clausal_shape as (E & s & _ & _ & _ & Hmo & _).
    assert (Hn : n_orig i = vm_next (pa_vm p)) by (unfold n_orig; rewrite Hmo; symmetry; apply (po_vm p Hp)).
    rewrite Hn in *. split; [assumption|]. split; [assumption|].
    intros a' Hext'.
    assert (Hag : forall v, v < vm_next (pa_vm p) -> a v = a' v).
    { intros v Hv. destruct (Hall v Hv) as [b Hb]. now rewrite (Hext v b Hb), (Hext' v b Hb). }
    split.
    - apply (p_feasible_agree p a); auto. now apply clausal_sound.
    - rewrite <- (p_costs_agree p a a' Hp Hag). rewrite <- Hc. apply clausal_opt_costs; [assumption|].
      now rewrite Hc.
  Qed.


  (** Different soft clauses get different literals. *)
  Lemma lit_of_inj E s c d : soft_inv (pa_constrs p) (pa_vm p) E s ->
    (length c = 1 \/ In c E) -> (length d = 1 \/ In d E) ->
    (forall v, In v (lits_vars c) -> v < n0) -> (forall v, In v (lits_vars d) -> v < n0) ->
    lit_of (ss_blits s) c = lit_of (ss_blits s) d -> c = d.
  Proof.
    intros HE Hc Hd Vc Vd.
    assert (Hcase : forall c, length c = 1 \/ In c E ->
      (exists l, c = [l] /\ lit_of (ss_blits s) c = lnot l) \/
      (exists k, nth_error E k = Some c /\ lit_of (ss_blits s) c = pos (n0 + k))).
    { intros x [Hx|Hx].
      - destruct x as [|l [|]]; try discriminate. left. exists l. auto.
      - right. pose proof (si_len _ _ _ _ HE _ Hx) as Hlen.
        apply In_nth_error in Hx. destruct Hx as [k Hk]. exists k. split; [assumption|].
        unfold lit_of. rewrite (si_put _ _ _ _ HE _ _ Hk).
        destruct x as [|l [|l2 x]]; [cbn in Hlen; lia..|reflexivity]. }
    destruct (Hcase c Hc) as [(l & -> & ->)|(k & Hk & ->)];
      destruct (Hcase d Hd) as [(l' & -> & ->)|(k' & Hk' & ->)]; intros He.
    - now apply lnot_inj in He; subst.
    - exfalso. assert (Hv : lvar l < n0) by (apply Vc; cbn; auto).
      apply (f_equal lvar) in He. cbn in He. lia.
    - exfalso. assert (Hv : lvar l' < n0) by (apply Vd; cbn; auto).
      apply (f_equal lvar) in He. cbn in He. lia.
    - apply (f_equal lvar) in He. cbn in He. assert (k = k') by lia. subst. congruence.
  Qed.

  Theorem clausal_inst_ok : inst_ok i.
  Proof.
    destruct to_clausal_shape as (E & s & HE & Hobj & Hall & Hmo & Hme & Hn & Hcv & _).
    assert (Hlitv : forall o cw, In o (pa_objs p) -> In cw (fst o) ->
      lvar (lit_of (ss_blits s) (fst cw)) < n0 + length E).
    { intros o [cl w] Ho Hcw. destruct (Hall o (cl, w) Ho Hcw) as [Hne Hin]. cbn [fst] in *.
      destruct Hin as [Hin|Hin].
      - destruct cl as [|l [|]]; try discriminate. cbn.
        pose proof (po_softs p Hp o ([l], w) (lvar l) Ho Hcw (or_introl eq_refl)). unfold n0. lia.
      - pose proof (si_len _ _ _ _ HE _ Hin) as Hlen.
        apply In_nth_error in Hin. destruct Hin as [k Hk].
        assert (k < length E) by exact (nth_lt _ _ _ Hk).
        unfold lit_of. rewrite (si_put _ _ _ _ HE _ _ Hk).
        destruct cl as [|l [|l2 cl]]; [cbn in Hlen; lia..|]. cbn. unfold n0. lia. }
    constructor.
    - rewrite Hmo. pose proof (po_vm p Hp). unfold n0 in *. lia.
    - lia.
    - intros v Hv. specialize (Hcv v Hv). lia.
    - intros r v Hr Hv. rewrite Hobj in Hr. apply in_map_iff in Hr. destruct Hr as (o & <- & Ho).
      cbn [fst] in Hv. rewrite map_map in Hv. apply in_lits_vars in Hv.
      destruct Hv as (l & Hl & <-). apply in_map_iff in Hl. destruct Hl as (cw & <- & Hcw).
      cbn [fst]. specialize (Hlitv o cw Ho Hcw). lia.
    - rewrite Hobj. apply Forall_forall. intros r Hr. apply in_map_iff in Hr.
      destruct Hr as (o & <- & Ho).
      pose proof (po_objs p Hp) as Hso. rewrite Forall_forall in Hso.
      destruct (Hso o Ho) as (_ & Hnd & Hnz & _). split; cbn [fst].
      + destruct Hnd as [Hnd|Heq].
        * left. rewrite map_map. cbn [fst].
          assert (Hinj : forall x y, In x (fst o) -> In y (fst o) ->
            lit_of (ss_blits s) (fst x) = lit_of (ss_blits s) (fst y) -> fst x = fst y).
          { intros x y Hx Hy. apply (lit_of_inj E s); auto.
            - now apply (Hall o).
            - now apply (Hall o).
            - intros v. now apply (po_softs p Hp o).
            - intros v. now apply (po_softs p Hp o). }
          clear -Hnd Hinj. induction (fst o) as [|x xs IH]; cbn; [constructor|].
          cbn in Hnd. inversion Hnd; subst. constructor.
          -- intros Hin. apply in_map_iff in Hin. destruct Hin as (y & Hy & Hin).
             apply H1. rewrite <- (Hinj y x); [now apply in_map|now right|now left|assumption].
          -- apply IH; [assumption|]. intros; apply Hinj; auto; now right.
        * right. intros lw lw' H1 H2. apply in_map_iff in H1, H2.
          destruct H1 as (x & <- & Hx), H2 as (y & <- & Hy). cbn. auto.
      + destruct Hnz as [->|(cw & Hcw & Hw)]; [now left|right].
        exists (lit_of (ss_blits s) (fst cw), snd cw). split; [|assumption].
        apply in_map_iff. exists cw. auto.
    - rewrite Hobj. apply Forall_forall. intros r Hr. apply in_map_iff in Hr.
      destruct Hr as (o & <- & Ho).
      pose proof (po_objs p Hp) as Hso. rewrite Forall_forall in Hso.
      destruct (Hso o Ho) as (_ & _ & _ & Hfit). unfold obj_fits. cbn [fst snd].
      rewrite wtotal_sum. exact Hfit.
  Qed.

  (** Original variables are kept, everything else comes after them. *)
  Theorem clausal_vars : vm_max_orig (in_vm i) = vm_max_orig (pa_vm p) /\
    vm_next (in_vm i) = S (vm_max_enc (in_vm i)) /\
    vm_next (pa_vm p) <= vm_next (in_vm i).
  Proof.
    destruct to_clausal_shape as (E & s & HE & Hobj & Hall & Hmo & Hme & Hn & Hcv & _).
    repeat split; try assumption. unfold n0 in Hn. lia.
  Qed.

  (** One literal per soft clause, shared by all objectives: unit clauses are negated, others
      get a new variable of their own. *)
  Theorem clausal_lits : exists f : clause -> lit,
    in_objs i = map (fun o => (map (fun cw => (f (fst cw), snd cw)) (fst o), snd o)) (pa_objs p) /\
    (forall l, f [l] = lnot l) /\
    (forall o cw, In o (pa_objs p) -> In cw (fst o) -> 1 < length (fst cw) ->
       exists v, f (fst cw) = pos v /\ vm_next (pa_vm p) <= v) /\
    (forall o o' cw cw', In o (pa_objs p) -> In o' (pa_objs p) -> In cw (fst o) -> In cw' (fst o') ->
       f (fst cw) = f (fst cw') -> fst cw = fst cw').
  Proof.
    destruct to_clausal_shape as (E & s & HE & Hobj & Hall & _).
    exists (lit_of (ss_blits s)). split; [assumption|]. split; [reflexivity|]. split.
    - intros o cw Ho Hcw Hlen. destruct (Hall o cw Ho Hcw) as [_ [H|H]]; [lia|].
      apply In_nth_error in H. destruct H as [k Hk]. exists (n0 + k). split; [|lia].
      unfold lit_of. rewrite (si_put _ _ _ _ HE _ _ Hk).
      destruct (fst cw) as [|l [|l2 cl]]; [cbn in Hlen; lia..|reflexivity].
    - intros o o' cw cw' Ho Ho' Hcw Hcw'. apply (lit_of_inj E s); auto.
      + now apply (Hall o).
      + now apply (Hall o').
      + intros v. now apply (po_softs p Hp o).
      + intros v. now apply (po_softs p Hp o').
  Qed.
End Clausal.

(** No panic; an error only if the encoder runs out of memory. *)
Theorem clausal_no_panic pe p : pb_enc_ok pe -> parsed_ok p -> to_clausal pe p <> PPanic.
Proof.
  intros Hpe Hp. unfold to_clausal.
  destruct (process_objectives_total (pa_objs p) (mkSoft (pa_constrs p) [] (pa_vm p))) as [[ros s] E1].
  { intros o cw Ho Hcw. pose proof (po_objs p Hp) as H. rewrite Forall_forall in H.
    destruct (H o Ho) as [Hne _]. now apply Hne. }
  rewrite E1.
  destruct (process_objectives_inv (pa_constrs p) (pa_vm p) _ [] _ _ _
              (soft_inv_init _ _) (po_softs p Hp) E1) as (E & HE & -> & Hall).
  cbn [app] in *.
  destruct (encode_constrs _ _ _) as [[cls next]|] eqn:E2; [|discriminate].
  assert (Hnext : vm_next (ss_vm s) = vm_next (pa_vm p) + length E) by (rewrite (si_vm _ _ _ _ HE); reflexivity).
  rewrite Hnext in E2.
  assert (Hvars : forall c v, In c (ss_constrs s) -> In v (pb_vars c) -> v < vm_next (pa_vm p) + length E).
  { intros c v Hc Hv. apply (si_con _ _ _ _ HE) in Hc. destruct Hc as [Hc|(k & cl & Hk & ->)].
    - pose proof (po_constrs p Hp c v Hc Hv). lia.
    - rewrite pb_of_clause_vars, lits_vars_app in Hv. apply in_app_or in Hv.
      destruct Hv as [Hv|[<-|[]]].
      + apply (si_var _ _ _ _ HE cl v) in Hv; [|eapply nth_error_In; eauto]. lia.
      + cbn. assert (k < length E) by exact (nth_lt _ _ _ Hk). lia. }
  destruct (encode_constrs_ok pe Hpe _ _ _ _ _ E2 (le_n _) Hvars) as (Ha & _).
  pose proof (po_vm p Hp) as Hv. unfold vm_mark_max_enc. cbn [vm_set_next vm_next].
  destruct next as [|m]; [lia|]. discriminate.
Qed.

(** Constraints are only appended, one clause per relaxed soft clause. *)
Lemma process_softs_constrs (cws : list (clause * nat)) : forall s lws s',
  process_softs cws s = Some (lws, s') -> exists extra, ss_constrs s' = ss_constrs s ++ map pb_of_clause extra.
Proof.
  induction cws as [|[cl w] cws IH]; intros s lws s' H; cbn [process_softs] in H.
  - injection H as <- <-. exists []. cbn. now rewrite app_nil_r.
  - destruct (process_soft (cl, w) s) as [[lw s1]|] eqn:E; [|discriminate].
    destruct (process_softs cws s1) as [[lws2 s2]|] eqn:E2; [|discriminate]. injection H as <- <-.
    apply IH in E2. destruct E2 as [ex2 E2].
    assert (E1 : exists ex, ss_constrs s1 = ss_constrs s ++ map pb_of_clause ex).
    { unfold process_soft in E. destruct cl as [|l [|l2 cl]]; [discriminate| |].
      - injection E as <- <-. exists []. cbn. now rewrite app_nil_r.
      - destruct (blit_get _ _) as [b|].
        + injection E as <- <-. exists []. cbn. now rewrite app_nil_r.
        + cbn in E. injection E as <- <-. eexists [_]. reflexivity. }
    destruct E1 as [ex1 E1]. exists (ex1 ++ ex2). now rewrite E2, E1, map_app, app_assoc.
Qed.
Lemma process_objectives_constrs (os : list soft_obj) : forall s ros s',
  process_objectives os s = Some (ros, s') -> exists extra, ss_constrs s' = ss_constrs s ++ map pb_of_clause extra.
Proof.
  induction os as [|o os IH]; intros s ros s' H; cbn [process_objectives] in H.
  - injection H as <- <-. exists []. cbn. now rewrite app_nil_r.
  - destruct (process_softs (fst o) s) as [[lws s1]|] eqn:E; [|discriminate].
    destruct (process_objectives os s1) as [[ros2 s2]|] eqn:E2; [|discriminate]. injection H as <- <-.
    apply IH in E2. destruct E2 as [ex2 E2]. apply process_softs_constrs in E. destruct E as [ex1 E1].
    exists (ex1 ++ ex2). now rewrite E2, E1, map_app, app_assoc.
Qed.
Lemma Forall2_nth_left {A B} (R : A -> B -> Prop) xs ys : Forall2 R xs ys -> forall k x,
  nth_error xs k = Some x -> exists y, nth_error ys k = Some y /\ R x y.
Proof.
  induction 1 as [|x0 y0 xs ys H0 H IH]; intros [|k] x Hx; cbn in *; try discriminate; [|eauto].
  injection Hx as <-. eauto.
Qed.
