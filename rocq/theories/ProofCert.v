(** * [certify_pmin_cut] writes accepted lines *)
From Coq Require Import List Arith ZArith Lia Bool.
From Verif Require Import Base BaseLemmas Spec MTypes MKernel MPMinimal MPrepro EncSpec Sem Kern Init ApiSpec Ext VeriPB VeriThm MProofs ProofThm ProofRun ProofCut.
Import ListNotations.
Local Open Scope Z_scope.

(** ** What is assumed of an objective and its encoding *)

(** [es] are the constraints of the proof. There is a reformulated objective [rs] (the objective itself if there is no
    reformulation), related to the objective by the reformulation constraint; the definition of
    an output literal says that the output literal implies that the reformulated objective
    reaches the value, counted from the lower bound *)
Record enc_says (es : list entry) (c : cobj) (cok_rs : list (Z * ax pv)) : Prop := mkEncSays {
  cok_reform : match co_reform c with
    | None => cok_rs = obj_terms (co_obj c) /\ obj_lb (co_obj c) = 0%nat
    | Some r => exists R, In (r, R) es /\ reform_says R (co_obj c) cok_rs (obj_lb (co_obj c))
    end;
  cok_pos : forall t, In t cok_rs -> 0 <= fst t;
  cok_buf : pe_buf_empty (co_enc c) = false -> co_reform c = None;
  cok_details : pe_buf_empty (co_enc c) = true -> forall v olit i d,
    pe_details (co_enc c) v = Some (olit, (i, Some d)) ->
    exists D, In (d, D) es /\ def_says D cok_rs (Z.of_nat v - Z.of_nat (obj_lb (co_obj c))) (ax_not (axiom olit));
  cok_one : length (obj_iter (co_obj c)) <> 1%nat -> pe_nout (co_enc c) = 1%nat -> forall l ls, pe_enforce_ub (co_enc c) (pe_offset (co_enc c)) = Some (l :: ls) ->
    exists r R W, In (r, R) es /\ reform_says R (co_obj c) [(W, ax_not (axiom l))] (obj_lb (co_obj c)) /\
      W + Z.of_nat (obj_lb (co_obj c)) = Z.of_nat (wtotal (obj_iter (co_obj c)))
}.

Definition cobj_ok (es : list entry) (c : cobj) : Prop := exists rs, enc_says es c rs.
Lemma cobj_ok_mono : forall es fs c, (forall e, In e es -> In e fs) -> cobj_ok es c -> cobj_ok fs c.
Proof.
  intros es fs c H (rs & [R1 R2 R3 R4 R5]). exists rs. constructor.
  - destruct (co_reform c) as [r|]; [|exact R1]. destruct R1 as (R & X & Y). exists R. auto.
  - exact R2.
  - exact R3.
  - intros Hb v olit i d E. destruct (R4 Hb v olit i d E) as (D & X & Y). exists D. auto.
  - intros Hl Hn l ls E. destruct (R5 Hl Hn l ls E) as (r & R & W & X & Y & Z0). exists r, R, W. auto.
Qed.

Lemma NoDup_app_intro : forall {X} (a b : list X), NoDup a -> NoDup b -> (forall x, In x a -> In x b -> False) -> NoDup (a ++ b).
Proof.
  intros X a b Ha Hb H. induction Ha as [|x a Hx Ha IH]; [exact Hb|]. cbn [app]. constructor.
  - intros Hi. apply in_app_or in Hi. destruct Hi as [Hi|Hi]; [exact (Hx Hi)|]. apply (H x); [left; reflexivity|exact Hi].
  - apply IH. intros y Hy. apply H. right. exact Hy.
Qed.

(** ** Growth of the log by definitions of objective bounds *)
Definition new_entry (objs : list objective) (x : ax pv * value) (n : nat) : Prop :=
  exists o v, In o objs /\ x = (mkAx (PVp n) false, VObjAtLeast (obj_idx o) v).
Definition is_def (objs : list objective) (vs : list (ax pv * value)) (e : entry) : Prop :=
  exists o v n, In o objs /\ (snd e = bound_def_1 o v (PVp n) \/ snd e = bound_def_2 o v (PVp n)) /\
    In (mkAx (PVp n) false, VObjAtLeast (obj_idx o) v) vs.
Record grow (k0 : chk) (objs : list objective) (p p' : pst) (vs : list (ax pv * value)) : Prop := mkGrow {
  gr_vmap : ps_vmap p' = ps_vmap p ++ vs;
  gr_nodup : NoDup (map fst vs);
  gr_vs : forall x, In x vs -> exists o v n, In o objs /\ x = (mkAx (PVp n) false, VObjAtLeast (obj_idx o) v) /\
    (ps_nextvar p <= n < ps_nextvar p')%nat /\
    (exists d1 d2, In (d1, bound_def_1 o v (PVp n)) (k_all (kof k0 p')) /\ In (d2, bound_def_2 o v (PVp n)) (k_all (kof k0 p')));
  gr_old : forall e, In e (k_all (kof k0 p')) -> In e (k_all (kof k0 p)) \/ is_def objs vs e;
  gr_all : forall e, In e (k_all (kof k0 p)) -> In e (k_all (kof k0 p'));
  gr_core : k_core (kof k0 p') = k_core (kof k0 p);
  gr_order : k_order (kof k0 p') = k_order (kof k0 p);
  gr_excl : k_excl (kof k0 p') = k_excl (kof k0 p);
  gr_var : (ps_nextvar p <= ps_nextvar p')%nat;
  gr_reg : ps_reg p' = ps_reg p
}.
Lemma grow_refl : forall k0 objs p, grow k0 objs p p [].
Proof.
  intros. constructor; try reflexivity; try (intros; contradiction); auto.
  - rewrite app_nil_r. reflexivity.
  - constructor.
Qed.
Lemma grow_trans : forall k0 objs p q r vs ws, grow k0 objs p q vs -> grow k0 objs q r ws -> grow k0 objs p r (vs ++ ws).
Proof.
  intros k0 objs p q r vs ws [a1 a2 a3 a4 a5 a6 a7 a8 a9 a10] [b1 b2 b3 b4 b5 b6 b7 b8 b9 b10]. constructor.
  - rewrite b1, a1, app_assoc. reflexivity.
  - rewrite map_app. apply NoDup_app_intro; [exact a2|exact b2|].
    intros x Hx Hy. apply in_map_iff in Hx. apply in_map_iff in Hy.
    destruct Hx as (x1 & <- & Hx). destruct Hy as (x2 & E & Hy).
    destruct (a3 x1 Hx) as (o1 & v1 & n1 & _ & E1 & L1 & _). destruct (b3 x2 Hy) as (o2 & v2 & n2 & _ & E2 & L2 & _).
    subst x1 x2. cbn [fst] in E. injection E as E. lia.
  - intros x Hx. apply in_app_or in Hx. destruct Hx as [Hx|Hx].
    + destruct (a3 x Hx) as (o & v & n & X1 & X2 & X3 & d1 & d2 & X4 & X5). exists o, v, n. split; [exact X1|]. split; [exact X2|].
      split; [lia|]. exists d1, d2. split; apply b5; assumption.
    + destruct (b3 x Hx) as (o & v & n & X1 & X2 & X3 & X4). exists o, v, n. split; [exact X1|]. split; [exact X2|].
      split; [lia|exact X4].
  - intros e He. destruct (b4 e He) as [X|(o & v & n & X1 & X2 & X3)].
    + destruct (a4 e X) as [Y|(o & v & n & Y1 & Y2 & Y3)]; [left; exact Y|right]. exists o, v, n. split; [exact Y1|]. split; [exact Y2|].
      apply in_or_app. left. exact Y3.
    + right. exists o, v, n. split; [exact X1|]. split; [exact X2|]. apply in_or_app. right. exact X3.
  - intros e He. apply b5. apply a5. exact He.
  - congruence.
  - congruence.
  - congruence.
  - lia.
  - congruence.
Qed.

Section Data.
  Variables (k0 : chk) (objs : list objective).
  Hypothesis Hidx : forall o1 o2, In o1 objs -> In o2 objs -> obj_idx o1 = obj_idx o2 -> o1 = o2.

  Lemma bound_grow : forall o v p l d1 d2 p',
    (forall a, ord_holds (k_order (kof k0 p)) a a) -> In o objs ->
    wok k0 p -> bounds_ok k0 objs p -> get_obj_bound v o p = ((l, d1, d2), p') ->
    wok k0 p' /\ bounds_ok k0 objs p' /\ (exists vs, grow k0 objs p p' vs) /\
    exists n, l = mkAx (PVp n) false /\
      In (d1, bound_def_1 o v (PVp n)) (k_all (kof k0 p')) /\ In (d2, bound_def_2 o v (PVp n)) (k_all (kof k0 p')).
  Proof.
    intros o v p l d1 d2 p' Hr Ho W B E.
    destruct (get_obj_bound_ok k0 objs o v p l d1 d2 p' Hr Hidx Ho W B E)
      as (W' & B' & (n & En & I1 & I2) & Hv & M & Xo & Xe & Xc & Xr & Xn & Xd).
    split; [exact W'|]. split; [exact B'|]. split; [|exists n; tauto].
    destruct Xd as [(Hvm & Hder)|(El & Hnv & Hvm & Hder)].
    - exists []. constructor; try assumption; try (intros; contradiction).
      + rewrite app_nil_r. exact Hvm.
      + constructor.
      + intros e He. left. apply in_k_all. apply in_k_all in He. rewrite Xc, Hder in He. exact He.
    - exists [(l, VObjAtLeast (obj_idx o) v)]. subst l. injection El as Em. subst n. constructor; try assumption.
      + cbn [map fst]. constructor; [intros []|constructor].
      + intros x [<-|[]]. exists o, v, (ps_nextvar p). split; [exact Ho|]. split; [reflexivity|]. split; [lia|].
        exists d1, d2. split; assumption.
      + intros e He. apply in_k_all in He. rewrite Xc, Hder in He. cbn [In] in He.
        destruct He as [He|[He|[He|He]]].
        * left. apply in_k_all. left. exact He.
        * right. exists o, v, (ps_nextvar p). split; [exact Ho|]. split; [subst e; right; reflexivity|]. left. reflexivity.
        * right. exists o, v, (ps_nextvar p). split; [exact Ho|]. split; [subst e; left; reflexivity|]. left. reflexivity.
        * left. apply in_k_all. right. exact He.
  Qed.

  (** where the literal of the cut comes from *)
  Definition lit_from (es : list entry) (c : cobj) (l : ax pv) : Prop :=
    (obj_lb (co_obj c) < co_cost c)%nat /\
    ((exists l0 w, obj_iter (co_obj c) = [(l0, w)] /\ l = axiom (lnot l0)) \/
     (exists x xs, pe_nout (co_enc c) = 1%nat /\ pe_enforce_ub (co_enc c) (pe_offset (co_enc c)) = Some (x :: xs) /\ l = axiom x) \/
     (exists olit i d, pe_buf_empty (co_enc c) = true /\ pe_details (co_enc c) (co_cost c) = Some (olit, (i, Some d)) /\ l = ax_not (axiom olit)) \/
     (exists n d1, l = mkAx (PVp n) true /\ In (d1, bound_def_1 (co_obj c) (co_cost c) (PVp n)) es)).

  Lemma cut_one_ok : forall c p d p',
    (forall a, ord_holds (k_order (kof k0 p)) a a) -> In (co_obj c) objs ->
    wok k0 p -> bounds_ok k0 objs p -> cobj_ok (k_all (kof k0 p)) c ->
    ((co_cost c <= obj_lb (co_obj c))%nat -> co_reform c <> None -> obj_unit_weight (co_obj c) = 1%nat) ->
    cut_one (co_enc c) (co_obj c) (co_reform c) (co_cost c) p = Some (d, p') ->
    wok k0 p' /\ bounds_ok k0 objs p' /\ (exists vs, grow k0 objs p p' vs) /\
    dat_ok (k_all (kof k0 p')) c d /\ forall l, fst d = Some l -> lit_from (k_all (kof k0 p')) c l.
  Proof.
    intros c p d p' Hr Ho W B (rs & [R1 R2 R3 R4 R5]) Hu E. unfold cut_one in E.
    destruct (Nat.leb_spec (co_cost c) (obj_lb (co_obj c))) as [Hle|Hlt].
    - destruct ((co_cost c =? 0)%nat || is_some (co_reform c)) eqn:Ec; [|discriminate]. injection E as <- <-.
      split; [exact W|]. split; [exact B|]. split; [exists []; apply grow_refl|]. split; [|discriminate].
      destruct (co_reform c) as [r|] eqn:Er.
      + destruct R1 as (R & X & Y). apply (dat_lb _ _ r R rs); try assumption. apply Hu; [exact Hle|discriminate].
      + apply dat_zero. rewrite orb_false_r in Ec. apply Nat.eqb_eq. exact Ec.
    - assert (Hmulti : forall d p', length (obj_iter (co_obj c)) <> 1%nat -> (if (pe_nout (co_enc c) =? 1)%nat then
        match pe_enforce_ub (co_enc c) (pe_offset (co_enc c)) with
        | Some (l :: _) => Some ((Some (axiom l), None), p)
        | _ => None
        end
      else if pe_buf_empty (co_enc c) then
        match pe_details (co_enc c) (co_cost c) with
        | Some (olit, (_, Some d)) => Some ((Some (ax_not (axiom olit)), Some d), p)
        | _ => None
        end
      else
        let '(l, _, d, p) := get_obj_bound (co_cost c) (co_obj c) p in
        Some ((Some (ax_not l), Some d), p)) = Some (d, p') ->
        wok k0 p' /\ bounds_ok k0 objs p' /\ (exists vs, grow k0 objs p p' vs) /\
        dat_ok (k_all (kof k0 p')) c d /\ forall l, fst d = Some l -> lit_from (k_all (kof k0 p')) c l).
      { clear d p' E. intros d p' Hl E. destruct (Nat.eqb_spec (pe_nout (co_enc c)) 1) as [Hn|Hn].
        - destruct (pe_enforce_ub (co_enc c) (pe_offset (co_enc c))) as [[|l ls]|] eqn:Ee; try discriminate.
          injection E as <- <-. split; [exact W|]. split; [exact B|]. split; [exists []; apply grow_refl|]. split.
          + destruct (R5 Hl Hn l ls eq_refl) as (r & R & W0 & X & Y & Z0). apply (dat_out1 _ _ _ r R W0); assumption.
          + intros x Hx. injection Hx as <-. split; [exact Hlt|]. right. left. exists l, ls. split; [exact Hn|]. split; [exact Ee|reflexivity].
        - destruct (pe_buf_empty (co_enc c)) eqn:Eb.
          + destruct (pe_details (co_enc c) (co_cost c)) as [[olit [i [dd|]]]|] eqn:Ed; try discriminate.
            injection E as <- <-. split; [exact W|]. split; [exact B|]. split; [exists []; apply grow_refl|]. split.
            * destruct (R4 eq_refl _ _ _ _ Ed) as (D & X & Y). apply (dat_def _ _ _ dd D rs); try assumption. lia.
            * intros x Hx. injection Hx as <-. split; [exact Hlt|]. right. right. left. exists olit, i, dd. split; [exact Eb|]. split; [exact Ed|reflexivity].
          + destruct (get_obj_bound (co_cost c) (co_obj c) p) as [[[l d1] d2] p2] eqn:Eg. injection E as <- <-.
            destruct (bound_grow _ _ _ _ _ _ _ Hr Ho W B Eg) as (W' & B' & G & n & -> & I1 & I2).
            split; [exact W'|]. split; [exact B'|]. split; [exact G|]. split.
            * apply (dat_def _ _ _ d2 (bound_def_2 (co_obj c) (co_cost c) (PVp n)) (obj_terms (co_obj c))).
              -- exact I2.
              -- rewrite (R3 eq_refl) in R1. destruct R1 as (_ & R1). intros a. rewrite R1.
                 unfold lb_val, bound_def_2. cbn [lb_terms lb_bound]. rewrite lb_sum_app. fold (obj_terms (co_obj c)).
                 cbn [lb_sum]. unfold ax_not. cbn [ax_neg ax_var negb]. lia.
              -- lia.
              -- rewrite (R3 eq_refl) in *. destruct R1 as (_ & R1). split; [reflexivity|exact R1].
            * intros x Hx. injection Hx as <-. split; [exact Hlt|]. right. right. right. exists n, d1. split; [reflexivity|exact I1]. }
      destruct (obj_iter (co_obj c)) as [|[l0 w] [|lw2 it]] eqn:Ei.
      + apply (Hmulti d p'); [rewrite ?Ei; discriminate|exact E].
      + injection E as <- <-. split; [exact W|]. split; [exact B|]. split; [exists []; apply grow_refl|]. split.
        * apply (dat_one _ _ l0 w). exact Ei.
        * intros x Hx. injection Hx as <-. split; [exact Hlt|]. left. exists l0, w. split; [exact Ei|reflexivity].
      + apply (Hmulti d p'); [rewrite ?Ei; discriminate|exact E].
  Qed.

  Lemma lit_from_mono : forall es fs c l, (forall e, In e es -> In e fs) -> lit_from es c l -> lit_from fs c l.
  Proof.
    intros es fs c l H (H1 & H2). split; [exact H1|]. destruct H2 as [X|[X|[X|(n & d1 & X & Y)]]]; auto.
    right. right. right. exists n, d1. auto.
  Qed.

  Lemma cut_data_ok : forall cs p ds p',
    (forall a, ord_holds (k_order (kof k0 p)) a a) -> (forall c, In c cs -> In (co_obj c) objs) ->
    wok k0 p -> bounds_ok k0 objs p -> Forall (cobj_ok (k_all (kof k0 p))) cs ->
    (forall c, In c cs -> (co_cost c <= obj_lb (co_obj c))%nat -> co_reform c <> None -> obj_unit_weight (co_obj c) = 1%nat) ->
    cut_data cs p = Some (ds, p') ->
    wok k0 p' /\ bounds_ok k0 objs p' /\ (exists vs, grow k0 objs p p' vs) /\
    Forall2 (dat_ok (k_all (kof k0 p'))) cs ds /\
    forall l, In l (cut_lits ds) -> exists c, In c cs /\ lit_from (k_all (kof k0 p')) c l.
  Proof.
    induction cs as [|c cs IH]; intros p ds p' Hr Ho W B Hc Hu E; cbn [cut_data] in E.
    - injection E as <- <-. split; [exact W|]. split; [exact B|]. split; [exists []; apply grow_refl|]. split; [constructor|intros l []].
    - destruct (cut_one (co_enc c) (co_obj c) (co_reform c) (co_cost c) p) as [[d p1]|] eqn:E1; [|discriminate].
      destruct (cut_data cs p1) as [[ds1 p2]|] eqn:E2; [|discriminate]. injection E as <- <-.
      inversion Hc as [|x1 x2 Hc1 Hc2]; subst.
      destruct (cut_one_ok c p d p1 Hr (Ho c (or_introl eq_refl)) W B Hc1 (Hu c (or_introl eq_refl)) E1)
        as (W1 & B1 & (vs & G1) & D1 & L1).
      destruct (IH p1 ds1 p2) as (W2 & B2 & (ws & G2) & D2 & L2).
      + destruct G1. rewrite gr_order0. exact Hr.
      + intros x Hx. apply Ho. right. exact Hx.
      + exact W1.
      + exact B1.
      + eapply Forall_impl; [|exact Hc2]. intros x. apply cobj_ok_mono. destruct G1. assumption.
      + intros x Hx. apply Hu. right. exact Hx.
      + exact E2.
      + split; [exact W2|]. split; [exact B2|]. split; [exists (vs ++ ws); exact (grow_trans _ _ _ _ _ _ _ G1 G2)|].
        assert (M : forall e, In e (k_all (kof k0 p1)) -> In e (k_all (kof k0 p2))) by (destruct G2; assumption).
        split.
        * constructor; [exact (dat_mono _ _ _ _ M D1)|exact D2].
        * intros l Hl. unfold cut_lits in Hl. cbn [filter_map] in Hl. destruct (fst d) as [x|] eqn:Ed.
          -- destruct Hl as [->|Hl].
             ++ exists c. split; [left; reflexivity|]. exact (lit_from_mono _ _ _ _ M (L1 l eq_refl)).
             ++ destruct (L2 l Hl) as (c' & X & Y). exists c'. split; [right; exact X|exact Y].
          -- destruct (L2 l Hl) as (c' & X & Y). exists c'. split; [right; exact X|exact Y].
  Qed.
End Data.

(** ** The extended witness *)
Lemma value_fix_app : forall costs vm vs st,
  value_fix costs (vm ++ vs) st = match value_fix costs vm st with Some st' => value_fix costs vs st' | None => None end.
Proof.
  intros costs vm vs. induction vm as [|[this [that|i v]] vm IH]; intros st; cbn [app value_fix]; [reflexivity| |].
  - destruct (lit_value (fst st) that); [apply IH|reflexivity].
  - destruct (nth_error costs i); [apply IH|reflexivity].
Qed.
Definition new_lit (costs : list nat) (x : ax pv * value) : ax pv :=
  match snd x with
  | VObjAtLeast i v => if (v <=? nth i costs 0)%nat then fst x else ax_not (fst x)
  | VIdentical _ => fst x
  end.
Lemma value_fix_new : forall costs vs f pvs,
  (forall x, In x vs -> exists n i v, x = (mkAx (PVp n) false, VObjAtLeast i v) /\ (i < length costs)%nat) ->
  value_fix costs vs (f, pvs) = Some (f, pvs ++ map (new_lit costs) vs).
Proof.
  intros costs vs. induction vs as [|x vs IH]; intros f pvs H.
  - cbn [value_fix map]. rewrite app_nil_r. reflexivity.
  - destruct (H x (or_introl eq_refl)) as (n & i & v & -> & Hi). cbn [value_fix].
    destruct (nth_error costs i) as [c|] eqn:E; [|apply nth_error_None in E; lia].
    assert (Ea : assign_ax (mkAx (PVp n) false) (v <=? c)%nat (f, pvs) =
                 (f, pvs ++ [new_lit costs (mkAx (PVp n) false, VObjAtLeast i v)])).
    { unfold assign_ax, new_lit. cbn [snd fst]. rewrite (nth_error_nth _ _ 0%nat E). destruct (v <=? c)%nat; reflexivity. }
    rewrite Ea, IH.
    + cbn [map]. rewrite <- app_assoc. reflexivity.
    + intros y Hy. apply H. right. exact Hy.
Qed.
Lemma fix_witness_new : forall encs costs vm vs w,
  (forall x, In x vs -> exists n i v, x = (mkAx (PVp n) false, VObjAtLeast i v) /\ (i < length costs)%nat) ->
  fix_witness encs costs (vm ++ vs) w = option_map (fun fw => fw ++ map (new_lit costs) vs) (fix_witness encs costs vm w).
Proof.
  intros encs costs vm vs w H. unfold fix_witness. rewrite value_fix_app.
  destruct (value_fix costs vm _) as [[f pvs]|]; [|reflexivity]. rewrite (value_fix_new costs vs f pvs H).
  cbn [option_map]. rewrite app_assoc. reflexivity.
Qed.
Lemma value_fix_pv : forall costs vm st f pvs, value_fix costs vm st = Some (f, pvs) ->
  forall l n, In l pvs -> ax_var l = PVp n -> In l (snd st) \/ exists x, In x vm /\ ax_var (fst x) = PVp n.
Proof.
  intros costs vm. induction vm as [|[this val] vm IH]; intros st f pvs E l n Hl Hn; cbn [value_fix] in E.
  - injection E as ->. left. exact Hl.
  - assert (Hs : exists b, value_fix costs vm (assign_ax this b st) = Some (f, pvs)).
    { destruct val as [that|i v].
      - destruct (lit_value (fst st) that) as [b|]; [exists b; exact E|discriminate].
      - destruct (nth_error costs i) as [c|]; [eexists; exact E|discriminate]. }
    destruct Hs as (b & Hs). destruct (IH _ _ _ Hs l n Hl Hn) as [X|(x & X & Y)].
    + unfold assign_ax in X. set (t := if b then this else ax_not this) in *.
      assert (Et : ax_var t = ax_var this) by (unfold t; destruct b; reflexivity).
      destruct (ax_var t) eqn:Ev; cbn [snd] in X.
      * left. exact X.
      * apply in_app_or in X. destruct X as [X|[X|[]]]; [left; exact X|]. right. exists (this, val). split; [left; reflexivity|].
        cbn [fst]. rewrite <- Et, <- Hn, <- X. symmetry. exact Ev.
    + right. exists x. split; [right; exact X|exact Y].
Qed.
Lemma fix_witness_pv : forall encs costs vm w fw, fix_witness encs costs vm w = Some fw ->
  forall l n, In l fw -> ax_var l = PVp n -> exists x, In x vm /\ ax_var (fst x) = PVp n.
Proof.
  intros encs costs vm w fw E l n Hl Hn. unfold fix_witness in E.
  destruct (value_fix costs vm _) as [[f pvs]|] eqn:Ev; [|discriminate]. injection E as <-.
  apply in_app_or in Hl. destruct Hl as [Hl|Hl].
  - apply in_map_iff in Hl. destruct Hl as (x & <- & _). cbn in Hn. discriminate.
  - destruct (value_fix_pv _ _ _ _ _ Ev l n Hl Hn) as [X|X]; [destruct X|exact X].
Qed.

Lemma su_nodup : forall ls l, NoDup (map ax_var ls) -> In l ls ->
  su_get pv_eqd (map ax_subst ls) (ax_var l) = Some (negb (ax_neg l)).
Proof.
  intros ls l. induction ls as [|x ls IH]; intros Hn Hl; [destruct Hl|]. cbn [map su_get ax_subst].
  cbn [map] in Hn. inversion Hn as [|y1 y2 Hx Hn']; subst.
  destruct (pv_eqd (ax_var x) (ax_var l)) as [E|N].
  - destruct Hl as [->|Hl]; [reflexivity|]. exfalso. apply Hx. rewrite E. apply in_map. exact Hl.
  - destruct Hl as [->|Hl]; [contradiction|]. exact (IH Hn' Hl).
Qed.
Lemma su_none : forall ls v, ~ In v (map ax_var ls) -> su_get pv_eqd (map ax_subst ls) v = None.
Proof.
  intros ls v. induction ls as [|x ls IH]; intros H; [reflexivity|]. cbn [map su_get ax_subst] in *.
  destruct (pv_eqd (ax_var x) v) as [E|N]; [exfalso; apply H; left; exact E|]. apply IH. intros X. apply H. right. exact X.
Qed.

Lemma up_to_many : forall {V} (cs : list (lbc V)) ls r full, (forall l, In l ls -> exists c, In c cs /\ propagates r c l) ->
  (forall l, In l full <-> In l r \/ In l ls) -> up_to cs r full.
Proof.
  intros V cs ls. induction ls as [|x ls IH]; intros r full H Hf.
  - apply upt_done. intros l. rewrite Hf. cbn [In]. tauto.
  - destruct (H x (or_introl eq_refl)) as (c & Hc & Hp). apply (upt_step _ _ _ c x Hc Hp). apply IH.
    + intros l Hl. destruct (H l (or_intror Hl)) as (d & Hd & Hq). exists d. split; [exact Hd|].
      apply (propagates_more r); [|exact Hq]. intros y Hy. right. exact Hy.
    + intros l. rewrite Hf. cbn [In]. tauto.
Qed.
Lemma up_to_ext : forall {V} (cs : list (lbc V)) r full news, up_to cs r full ->
  (forall l, In l news -> exists c, In c cs /\ propagates full c l) -> up_to cs r (full ++ news).
Proof.
  intros V cs r full news H Hn. induction H as [r full H|r full c l Hc Hp H IH].
  - apply (up_to_many cs news).
    + intros l Hl. destruct (Hn l Hl) as (c & Hc & Hp). exists c. split; [exact Hc|].
      apply (propagates_more full); [|exact Hp]. intros x Hx. apply H. exact Hx.
    + intros l. rewrite in_app_iff, H. tauto.
  - apply (upt_step _ _ _ c l Hc Hp). apply IH. exact Hn.
Qed.

(** better solutions satisfy the cut *)
Lemma dat_keep : forall es c d (a : pv -> bool), dat_ok es c d -> db_holds a es ->
  (co_cost c <= wtotal (obj_iter (co_obj c)))%nat ->
  (icost (co_obj c) (on_solver a) < co_cost c)%nat -> exists l, fst d = Some l /\ ax_true a l = true.
Proof.
  intros es c d a X Ha Htot Hlt. destruct X as [X|r R rs X1 X2 X3 X4 X5|l0 w X|l r R W X1 X2 X3|l d D rs X1 X2 X3 X4].
  - lia.
  - exfalso. pose proof (Ha _ X1) as Hr. cbn [snd] in Hr. apply val_holds in Hr. rewrite X2 in Hr.
    pose proof (nonneg_sum a rs X3). lia.
  - exists (axiom (lnot l0)). split; [reflexivity|]. rewrite axiom_true.
    unfold icost in Hlt. rewrite X in Hlt, Htot. cbn [wsum] in Hlt. cbn [wtotal] in Htot.
    destruct (lit_true (on_solver a) l0) eqn:E; [lia|]. unfold lit_true, lnot in *. cbn [lneg lvar].
    destruct (lneg l0), (on_solver a (lvar l0)); cbn in *; congruence.
  - exists l. split; [reflexivity|]. destruct (ax_true a l) eqn:E; [reflexivity|]. exfalso.
    pose proof (Ha _ X1) as Hr. cbn [snd] in Hr. apply val_holds in Hr. rewrite X2 in Hr. cbn [lb_sum] in Hr.
    rewrite ax_not_true, E in Hr. cbn [negb b2z] in Hr. lia.
  - exists l. split; [reflexivity|]. destruct (ax_true a l) eqn:E; [reflexivity|]. exfalso.
    pose proof (Ha _ X1) as Hd. cbn [snd] in Hd. apply val_holds in Hd. rewrite X2, E in Hd. cbn [b2z] in Hd.
    destruct (co_reform c) as [r|].
    + destruct X4 as (R & Y1 & Y2). pose proof (Ha _ Y1) as Hr. cbn [snd] in Hr. apply val_holds in Hr. rewrite Y2 in Hr. lia.
    + destruct X4 as (-> & Y). unfold obj_terms in Hd. rewrite obj_terms_sum in Hd. unfold icost in Hlt. lia.
Qed.

(** ** The theorem about [certify_pmin_cut] *)
Definition vmap_ok (p : pst) : Prop :=
  forall x n, In x (ps_vmap p) -> ax_var (fst x) = PVp n -> (n < ps_nextvar p)%nat.
(** output literals of the encodings have their right value in the extended witness: the
    output of the value of the witness is reached *)
Definition outs_ok (fw : list (ax pv)) (c : cobj) : Prop :=
  (obj_lb (co_obj c) < co_cost c)%nat -> forall a, ax_all a fw ->
  (forall x xs, pe_nout (co_enc c) = 1%nat -> pe_enforce_ub (co_enc c) (pe_offset (co_enc c)) = Some (x :: xs) ->
     ax_true a (axiom x) = false) /\
  (forall olit i, pe_buf_empty (co_enc c) = true -> pe_details (co_enc c) (co_cost c) = Some (olit, i) ->
     ax_true a (axiom olit) = true).

Lemma nth_map_cost : forall cs i c, nth_error cs i = Some c -> nth i (map co_cost cs) 0%nat = co_cost c.
Proof.
  intros cs i c H. apply (map_nth_error co_cost) in H. exact (nth_error_nth _ _ 0%nat H).
Qed.

Theorem certify_cut_full : forall k0 cs witness max_enc p fw id p',
  k_order (kof k0 p) = map obj_order (map co_obj cs) ->
  (forall i c, nth_error cs i = Some c -> obj_idx (co_obj c) = i) ->
  wok k0 p -> bounds_ok k0 (map co_obj cs) p -> vmap_ok p ->
  Forall (cobj_ok (k_all (kof k0 p))) cs ->
  (forall c, In c cs -> (co_cost c <= obj_lb (co_obj c))%nat -> co_reform c <> None -> obj_unit_weight (co_obj c) = 1%nat) ->
  fix_witness (map co_enc cs) (map co_cost cs) (ps_vmap p) witness = Some fw ->
  (exists a0, ax_all a0 fw) ->
  (forall a, ax_all a fw -> db_holds a (k_all (kof k0 p)) /\
     forall c, In c cs -> icost (co_obj c) (on_solver a) = co_cost c) ->
  Forall (outs_ok fw) cs ->
  up_to (map snd (k_all (kof k0 p))) (map axiom (sol_lits (truncate witness max_enc))) fw ->
  certify_pmin_cut cs witness max_enc p = Some (id, p') ->
  wok k0 p' /\ bounds_ok k0 (map co_obj cs) p' /\ vmap_ok p' /\
  k_order (kof k0 p') = k_order (kof k0 p) /\
  k_excl (kof k0 p') = map axiom (sol_lits (truncate witness max_enc)) :: k_excl (kof k0 p) /\
  (forall e, In e (k_all (kof k0 p)) -> In e (k_all (kof k0 p'))) /\
  ps_reg p' = ps_reg p /\
  exists cut, (exists ds p1, cut_data cs p = Some (ds, p1) /\ cut = cut_lits ds /\
    forall e, In e (k_all (kof k0 p')) <-> e = (id, lb_clause cut) \/ In e (k_all (kof k0 p1))) /\ In (id, lb_clause cut) (k_core (kof k0 p')) /\
    (forall a, ax_all a fw -> exists b, (forall v, on_solver b v = on_solver a v) /\ ax_all b fw /\ ~ lb_holds b (lb_clause cut)) /\
    (forall a, (forall e, In e (k_all (kof k0 p')) -> fst e <> id -> lb_holds a (snd e)) ->
       (exists c, In c cs /\ (icost (co_obj c) (on_solver a) < co_cost c)%nat) -> lb_holds a (lb_clause cut)).
Proof.
  intros k0 cs witness max_enc p fw id p' Hord Hidx W B V Hcs Hu Efw (a0 & Ha0) Hsat Houts Hprop E.
  set (objs := map co_obj cs) in *. set (costs := map co_cost cs) in *.
  assert (Hinj : forall o1 o2, In o1 objs -> In o2 objs -> obj_idx o1 = obj_idx o2 -> o1 = o2).
  { intros o1 o2 H1 H2 He. apply in_map_iff in H1. apply in_map_iff in H2.
    destruct H1 as (c1 & <- & H1). destruct H2 as (c2 & <- & H2).
    destruct (In_nth_error _ _ H1) as (i1 & N1). destruct (In_nth_error _ _ H2) as (i2 & N2).
    rewrite (Hidx _ _ N1), (Hidx _ _ N2) in He. congruence. }
  assert (Hrefl : forall a, ord_holds (k_order (kof k0 p)) a a).
  { intros a. rewrite Hord. apply ord_holds_objs. apply Forall_forall. intros o _. lia. }
  unfold certify_pmin_cut in E. destruct (cut_data cs p) as [[ds p1]|] eqn:Ed; [|discriminate].
  destruct (cut_data_ok k0 objs Hinj cs p ds p1 Hrefl) as (W1 & B1 & (vs & G) & D1 & L1); try assumption.
  { intros c Hc. apply in_map. exact Hc. }
  destruct G as [g1 g2 g3 g4 g5 g6 g7 g8 g9 g10].
  set (news := map (new_lit costs) vs).
  assert (Hvs : forall x, In x vs -> exists n i v, x = (mkAx (PVp n) false, VObjAtLeast i v) /\ (i < length costs)%nat).
  { intros x Hx. destruct (g3 x Hx) as (o & v & n & Ho & -> & _). exists n, (obj_idx o), v. split; [reflexivity|].
    apply in_map_iff in Ho. destruct Ho as (c & <- & Hc). destruct (In_nth_error _ _ Hc) as (i & Ni).
    rewrite (Hidx _ _ Ni). unfold costs. rewrite map_length. apply nth_error_Some. congruence. }
  rewrite g1, (fix_witness_new _ _ _ _ _ Hvs), Efw in E. cbn [option_map] in E. fold news in E.
  (* every new literal is (un)true as the cost says *)
  assert (Hnew : forall l, In l news -> exists c v n, In c cs /\ (ps_nextvar p <= n < ps_nextvar p1)%nat /\
             l = mkAx (PVp n) (negb (v <=? co_cost c)%nat) /\
             (exists d1 d2, In (d1, bound_def_1 (co_obj c) v (PVp n)) (k_all (kof k0 p1)) /\
                            In (d2, bound_def_2 (co_obj c) v (PVp n)) (k_all (kof k0 p1)))).
  { intros l Hl. apply in_map_iff in Hl. destruct Hl as (x & <- & Hx).
    destruct (g3 x Hx) as (o & v & n & Ho & -> & Ln & Hd). apply in_map_iff in Ho. destruct Ho as (c & <- & Hc).
    exists c, v, n. split; [exact Hc|]. split; [exact Ln|]. split; [|exact Hd].
    destruct (In_nth_error _ _ Hc) as (i & Ni). unfold new_lit. cbn [fst snd]. rewrite (Hidx _ _ Ni).
    unfold costs. rewrite (nth_map_cost cs i c Ni). destruct (v <=? co_cost c)%nat; reflexivity. }
  assert (Hndn : NoDup (map ax_var news)).
  { unfold news. rewrite map_map.
    assert (Hx : forall ws, (forall x, In x ws -> In x vs) -> NoDup (map fst ws) -> NoDup (map (fun x => ax_var (new_lit costs x)) ws)).
    { induction ws as [|x ws IH]; intros Hi Hn; cbn [map]; [constructor|]. cbn [map] in Hn. inversion Hn as [|y1 y2 Hx Hn']; subst.
      constructor; [|apply IH; [intros y Hy; apply Hi; right; exact Hy|exact Hn']].
      intros Hy. apply Hx. apply in_map_iff in Hy. destruct Hy as (y & Ey & Hy). apply in_map_iff. exists y. split; [|exact Hy].
      destruct (Hvs x (Hi x (or_introl eq_refl))) as (n1 & i1 & v1 & -> & _).
      destruct (Hvs y (Hi y (or_intror Hy))) as (n2 & i2 & v2 & -> & _).
      unfold new_lit in Ey. cbn [fst snd] in *. destruct (v1 <=? nth i1 costs 0)%nat, (v2 <=? nth i2 costs 0)%nat; cbn in Ey; congruence. }
    apply Hx; [tauto|exact g2]. }
  assert (Hold : forall l n, In l fw -> ax_var l = PVp n -> (n < ps_nextvar p)%nat).
  { intros l n Hl Hn. destruct (fix_witness_pv _ _ _ _ _ Efw l n Hl Hn) as (x & Hx & Ex). exact (V x n Hx Ex). }
  assert (Hext : forall a, ax_all a fw -> ax_all (su_asg pv_eqd (map ax_subst news) a) (fw ++ news)).
  { intros a Ha l Hl. apply in_app_or in Hl. destruct Hl as [Hl|Hl].
    - unfold ax_true, su_asg. rewrite su_none; [exact (Ha l Hl)|]. intros Hi. apply in_map_iff in Hi.
      destruct Hi as (x & Ex & Hx). destruct (Hnew x Hx) as (c & v & n & _ & Ln & -> & _). cbn [ax_var] in Ex.
      pose proof (Hold l n Hl (eq_sym Ex)). lia.
    - unfold ax_true, su_asg. rewrite (su_nodup news l Hndn Hl). destruct (ax_neg l); reflexivity. }
  assert (Hsolv : forall a v, on_solver (su_asg pv_eqd (map ax_subst news) a) v = on_solver a v).
  { intros a v. unfold on_solver, su_asg. rewrite su_none; [reflexivity|]. intros Hi. apply in_map_iff in Hi.
    destruct Hi as (x & Ex & Hx). destruct (Hnew x Hx) as (c & w & n & _ & _ & -> & _). discriminate. }
  assert (Hold_all : forall a, ax_all a (fw ++ news) -> ax_all a fw).
  { intros a Ha l Hl. apply Ha. apply in_or_app. left. exact Hl. }
  assert (Hcost1 : forall a c, ax_all a (fw ++ news) -> In c cs -> icost (co_obj c) (on_solver a) = co_cost c).
  { intros a c Ha Hc. destruct (Hsat a (Hold_all a Ha)) as (_ & X). exact (X c Hc). }
  assert (Hsat1 : forall a, ax_all a (fw ++ news) -> db_holds a (k_all (kof k0 p1))).
  { intros a Ha e He. destruct (g4 e He) as [X|(o & v & n & Ho & Hd & Hin)].
    - destruct (Hsat a (Hold_all a Ha)) as (Y & _). exact (Y e X).
    - apply in_map_iff in Ho. destruct Ho as (c & <- & Hc).
      assert (Hv : a (PVp n) = (v <=? co_cost c)%nat).
      { pose proof (Ha (new_lit costs (mkAx (PVp n) false, VObjAtLeast (obj_idx (co_obj c)) v))) as X.
        assert (Hl : In (new_lit costs (mkAx (PVp n) false, VObjAtLeast (obj_idx (co_obj c)) v)) (fw ++ news)).
        { apply in_or_app. right. apply in_map. exact Hin. }
        specialize (X Hl). destruct (In_nth_error _ _ Hc) as (i & Ni).
        unfold new_lit in X. cbn [fst snd] in X. rewrite (Hidx _ _ Ni) in X. unfold costs in X. rewrite (nth_map_cost cs i c Ni) in X.
        destruct (v <=? co_cost c)%nat; unfold ax_true, ax_not in X; cbn [ax_neg ax_var negb] in X; destruct (a (PVp n)); cbn in X; congruence. }
      pose proof (Hcost1 a c Ha Hc) as Hco. destruct Hd as [-> | ->].
      + apply bound_def_1_holds. intros X. rewrite X in Hv. symmetry in Hv. apply Nat.leb_gt in Hv. lia.
      + apply bound_def_2_holds. intros X. rewrite X in Hv. symmetry in Hv. apply Nat.leb_le in Hv. lia. }
  assert (Hfalse1 : forall a l, ax_all a (fw ++ news) -> In l (cut_lits ds) -> ax_true a l = false).
  { intros a l Ha Hl. destruct (L1 l Hl) as (c & Hc & Hlt & Hcase). pose proof (Hcost1 a c Ha Hc) as Hco.
    pose proof (proj1 (Forall_forall _ _) Houts c Hc Hlt a (Hold_all a Ha)) as (O1 & O2).
    destruct Hcase as [(l0 & w & Hit & ->)|[(x & xs & N1 & N2 & ->)|[(olit & i & d & Hb & Hd & ->)|(n & d1 & -> & Hd)]]].
    - rewrite axiom_true. unfold icost in Hco. rewrite Hit in Hco. cbn [wsum] in Hco.
      destruct (lit_true (on_solver a) l0) eqn:E0; [|lia]. unfold lit_true, lnot in *. cbn [lneg lvar].
      destruct (lneg l0), (on_solver a (lvar l0)); cbn in *; congruence.
    - exact (O1 x xs N1 N2).
    - rewrite ax_not_true, (O2 olit _ Hb Hd). reflexivity.
    - pose proof (Hsat1 a Ha _ Hd) as X. cbn [snd] in X. rewrite bound_def_1_holds in X.
      unfold ax_true. cbn [ax_neg ax_var]. destruct (a (PVp n)) eqn:En; [reflexivity|]. specialize (X eq_refl). lia. }
  assert (Hprop1 : up_to (map snd (k_all (kof k0 p1))) (map axiom (sol_lits (truncate witness max_enc))) (fw ++ news)).
  { apply up_to_ext with (full := fw).
    - apply (up_to_more (map snd (k_all (kof k0 p)))); [|exact Hprop]. intros x Hx. apply in_map_iff in Hx.
      destruct Hx as (e & <- & He). apply in_map. exact (g5 e He).
    - intros l Hl. destruct (Hnew l Hl) as (c & v & n & Hc & _ & -> & d1 & d2 & I1 & I2).
      destruct (Nat.leb_spec v (co_cost c)) as [Hv|Hv]; cbn [negb].
      + exists (bound_def_1 (co_obj c) v (PVp n)). split; [apply (in_map snd _ _ I1)|]. intros a Ha Hh.
        rewrite bound_def_1_holds in Hh. destruct (Hsat a Ha) as (_ & Hco). specialize (Hco c Hc).
        unfold ax_true. cbn [ax_neg ax_var]. destruct (a (PVp n)); [reflexivity|]. specialize (Hh eq_refl). lia.
      + exists (bound_def_2 (co_obj c) v (PVp n)). split; [apply (in_map snd _ _ I2)|]. intros a Ha Hh.
        rewrite bound_def_2_holds in Hh. destruct (Hsat a Ha) as (_ & Hco). specialize (Hco c Hc).
        unfold ax_true. cbn [ax_neg ax_var]. destruct (a (PVp n)); [|reflexivity]. specialize (Hh eq_refl). lia. }
  destruct W1 as [w1 w2 w3 w4]. set (k1 := kof k0 p1) in *.
  destruct (cut_steps_ok k1 cs ds (fw ++ news) (map axiom (sol_lits (truncate witness max_enc))) (su_asg pv_eqd (map ax_subst news) a0))
    as (kf & Ekf & Sv & Sc & Sd & Sn & So & Se & Si); try assumption.
  { rewrite g7. exact Hord. }
  { exact (Hext a0 Ha0). }
  unfold wr_id, wr in E. cbn [ps_next ps_nextvar ps_log ps_vmap ps_bounds ps_reg] in E. injection E as <- <-.
  match goal with |- wok k0 ?x /\ _ => set (pf := x) end.
  assert (Lf : ps_log pf = ps_log p1 ++ cut_steps (fw ++ news) (cut_lits ds) (map axiom (sol_lits (truncate witness max_enc))) ds cs (k_next k1)).
  { rewrite w3. cbn [pf ps_log]. rewrite <- !app_assoc. reflexivity. }
  assert (Kf : kof k0 pf = kf) by (unfold kof; rewrite Lf, steps_next_app, Ekf; reflexivity).
  assert (Hall : forall e, In e (k_all kf) <-> e = (S (S (k_next k1)), lb_clause (cut_lits ds)) \/ In e (k_all k1)).
  { intros e. rewrite !in_k_all, Sc, Sd. tauto. }
  assert (Hmono : forall e, In e (k_all k1) -> In e (k_all kf)) by (intros e He; apply Hall; right; exact He).
  split.
  { constructor.
    - rewrite Kf. exact Si.
    - rewrite Lf. apply steps_valid_app. split; [exact w2|exact Sv].
    - rewrite Kf. change (k_next kf = S (S (S (ps_next p1)))). rewrite <- w3. exact Sn.
    - intros e n He Hn. rewrite Kf in He. apply Hall in He. change (ps_nextvar pf) with (ps_nextvar p1).
      destruct He as [->|He]; [|exact (w4 e n He Hn)]. cbn [snd] in Hn. unfold cvars, lb_clause in Hn. cbn [lb_terms] in Hn.
      rewrite map_map in Hn. cbn [snd] in Hn. apply in_map_iff in Hn. destruct Hn as (l & El & Hl).
      destruct (L1 l Hl) as (c & Hc & Hlt & Hcase).
      destruct Hcase as [(l0 & w & _ & ->)|[(x & xs & _ & _ & ->)|[(olit & i & d & _ & _ & ->)|(m & d1 & -> & Hd)]]]; try discriminate El.
      cbn [ax_var] in El. injection El as ->. apply (w4 _ n Hd). cbn [snd]. unfold cvars, bound_def_1. cbn [lb_terms].
      rewrite map_app. apply in_or_app. right. left. reflexivity. }
  split.
  { intros i v l d1 d2 Hg. change (ps_bounds pf) with (ps_bounds p1) in Hg. destruct (B1 _ _ _ _ _ Hg) as (o & n & X1 & X2 & X3 & X4 & X5 & X6).
    exists o, n. rewrite Kf. do 3 (split; [assumption|]). split; [exact (Hmono _ X4)|]. split; [exact (Hmono _ X5)|exact X6]. }
  split.
  { intros x n Hx Hn. change (ps_vmap pf) with (ps_vmap p1) in Hx. change (ps_nextvar pf) with (ps_nextvar p1).
    rewrite g1 in Hx. apply in_app_or in Hx. destruct Hx as [Hx|Hx]; [pose proof (V x n Hx Hn); lia|].
    destruct (g3 x Hx) as (o & v & m & _ & -> & Lm & _). cbn [fst ax_var] in Hn. injection Hn as ->. lia. }
  rewrite Kf. split; [rewrite So; exact g7|]. split; [rewrite Se, g8; reflexivity|].
  split; [intros e He; apply Hmono; apply g5; exact He|].
  split; [exact g10|].
  exists (cut_lits ds). split; [exists ds, p1; split; [reflexivity|split; [reflexivity|]]; intros e; rewrite <- w3; exact (Hall e)|]. split; [apply Sc; left; rewrite w3; reflexivity|]. split.
  - intros a Ha. exists (su_asg pv_eqd (map ax_subst news) a). split; [apply Hsolv|].
    split; [apply Hold_all; exact (Hext a Ha)|]. intros Hh. apply lb_clause_holds in Hh. destruct Hh as (l & Hl & Ht).
    rewrite (Hfalse1 _ l (Hext a Ha) Hl) in Ht. discriminate.
  - intros a Hdb (c & Hc & Hlt). destruct (In_nth_error _ _ Hc) as (i & Ni).
    destruct (Forall2_nth _ _ _ D1 i c Ni) as (d & Nd & Hd).
    assert (Ha1 : db_holds a (k_all k1)).
    { intros e He. apply Hdb; [apply Hmono; exact He|]. destruct w1 as (_ & Y). pose proof (Y e He). rewrite <- w3. lia. }
    assert (Htot : (co_cost c <= wtotal (obj_iter (co_obj c)))%nat).
    { destruct (Hsat a0 Ha0) as (_ & Hco). rewrite <- (Hco c Hc). unfold icost. apply wsum_le_total. }
    destruct (dat_keep _ _ _ a Hd Ha1 Htot Hlt) as (l & El & Ht). apply lb_clause_holds. exists l. split; [|exact Ht].
    apply cut_lits_in. destruct d as [x r]. cbn [fst] in El. subst x. exists r. exact (nth_error_In _ _ Nd).
Qed.
Theorem certify_cut_ok : forall k0 cs witness max_enc p fw id p',
  k_order (kof k0 p) = map obj_order (map co_obj cs) ->
  (forall i c, nth_error cs i = Some c -> obj_idx (co_obj c) = i) ->
  wok k0 p -> bounds_ok k0 (map co_obj cs) p -> vmap_ok p ->
  Forall (cobj_ok (k_all (kof k0 p))) cs ->
  (forall c, In c cs -> (co_cost c <= obj_lb (co_obj c))%nat -> co_reform c <> None -> obj_unit_weight (co_obj c) = 1%nat) ->
  fix_witness (map co_enc cs) (map co_cost cs) (ps_vmap p) witness = Some fw ->
  (exists a0, ax_all a0 fw) ->
  (forall a, ax_all a fw -> db_holds a (k_all (kof k0 p)) /\
     forall c, In c cs -> icost (co_obj c) (on_solver a) = co_cost c) ->
  Forall (outs_ok fw) cs ->
  up_to (map snd (k_all (kof k0 p))) (map axiom (sol_lits (truncate witness max_enc))) fw ->
  certify_pmin_cut cs witness max_enc p = Some (id, p') ->
  wok k0 p' /\ bounds_ok k0 (map co_obj cs) p' /\ vmap_ok p' /\
  k_order (kof k0 p') = k_order (kof k0 p) /\
  k_excl (kof k0 p') = map axiom (sol_lits (truncate witness max_enc)) :: k_excl (kof k0 p) /\
  (forall e, In e (k_all (kof k0 p)) -> In e (k_all (kof k0 p'))) /\
  exists cut, In (id, lb_clause cut) (k_core (kof k0 p')) /\
    (forall a, ax_all a fw -> exists b, (forall v, on_solver b v = on_solver a v) /\ ax_all b fw /\ ~ lb_holds b (lb_clause cut)) /\
    (forall a, (forall e, In e (k_all (kof k0 p')) -> fst e <> id -> lb_holds a (snd e)) ->
       (exists c, In c cs /\ (icost (co_obj c) (on_solver a) < co_cost c)%nat) -> lb_holds a (lb_clause cut)).
Proof.
  intros k0 cs witness max_enc p fw id p' H1 H2 H3 H4 H5 H6 H7 H8 H9 H10 H11 H12 H13.
  destruct (certify_cut_full k0 cs witness max_enc p fw id p' H1 H2 H3 H4 H5 H6 H7 H8 H9 H10 H11 H12 H13)
    as (X1 & X2 & X3 & X4 & X5 & X6 & _ & cut & _ & X7).
  split; [exact X1|]. split; [exact X2|]. split; [exact X3|]. split; [exact X4|]. split; [exact X5|]. split; [exact X6|]. exists cut. exact X7.
Qed.
