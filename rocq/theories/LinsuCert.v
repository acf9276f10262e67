(** * The lower bound certified by a core of linear search *)
From Coq Require Import List Arith ZArith Lia Bool Sorted.
From Verif Require Import Base BaseLemmas Sem Ext MTypes MPMinimal MPrepro VeriPB VeriThm MProofs ProofThm ProofRun ProofCut MTracer TracerThm ReformSpec ReformThm ReformRun MProofAlg ReifSpec ReifThm ReifRun ProofCert.
Import ListNotations.
Local Open Scope Z_scope.

Lemma subl_in : forall {A} (xs ys : list A), subl xs ys -> incl xs ys.
Proof.
  intros A xs ys H. induction H as [ys|x xs ys H IH|y xs ys H IH]; intros z Hz; [destruct Hz| |right; exact (IH z Hz)].
  destruct Hz as [<-|Hz]; [left; reflexivity|right; exact (IH z Hz)].
Qed.
Lemma subl_head : forall {A} (x : A) xs ys, subl (x :: xs) ys -> exists zs ws, ys = zs ++ x :: ws /\ subl xs ws.
Proof.
  intros A x xs ys. induction ys as [|y ys IH]; intros H; inversion H; subst.
  - exists [], ys. split; [reflexivity|assumption].
  - destruct (IH H2) as (zs & ws & -> & Hs). exists (y :: zs), ws. split; [reflexivity|exact Hs].
Qed.
Lemma skip_base_ok : forall base bcore rest, NoDup base -> subl bcore base -> (forall b, In b base -> ~ In (lnot b) rest) -> rest <> [] ->
  skip_base base (map lnot bcore ++ rest) = Some rest.
Proof.
  induction base as [|b base IH]; intros bcore rest Hn Hs Hr Hne.
  { inversion Hs. reflexivity. }
  apply NoDup_cons_iff in Hn. destruct Hn as [Hb Hn]. cbn [skip_base].
  assert (Hr' : forall b0, In b0 base -> ~ In (lnot b0) rest) by (intros b0 H0; apply Hr; right; exact H0).
  inversion Hs as [ys E|x xs ys Hx E1 E2|y xs ys Hx E1 E2]; subst.
  - cbn [map app]. destruct rest as [|c rest]; [contradiction|]. destruct (lit_eqb c (lnot b)) eqn:E.
    + exfalso. apply lit_eqb_eq in E. subst c. apply (Hr b); left; reflexivity.
    + exact (IH [] (c :: rest) Hn (subl_nil base) Hr' Hne).
  - cbn [map app]. rewrite lit_eqb_refl. exact (IH xs rest Hn Hx Hr' Hne).
  - destruct bcore as [|x bcore].
    + cbn [map app]. destruct rest as [|c rest]; [contradiction|]. destruct (lit_eqb c (lnot b)) eqn:E.
      * exfalso. apply lit_eqb_eq in E. subst c. apply (Hr b); left; reflexivity.
      * exact (IH [] (c :: rest) Hn Hx Hr' Hne).
    + cbn [map app]. destruct (lit_eqb (lnot x) (lnot b)) eqn:E.
      * exfalso. apply lit_eqb_eq in E. apply (f_equal lnot) in E. rewrite !lnot_lnot in E. subst x. apply Hb. apply (subl_in _ _ Hx). left. reflexivity.
      * exact (IH (x :: bcore) rest Hn Hx Hr' Hne).
Qed.

(** ** No buffered inputs *)
Lemma chain_mono : forall k k' e ts outs val, (forall x, In x (k_all k) -> In x (k_all k')) -> chain k e ts val outs -> chain k' e ts val outs.
Proof.
  intros k k' e ts outs. induction outs as [|o r IH]; intros val H X; [exact Logic.I|]. cbn [chain] in *. destruct X as (X1 & X2 & X3).
  split; [exact (has_out_mono _ _ _ _ _ _ H X1)|]. split; [exact X2|exact (IH _ H X3)].
Qed.
Lemma find_ok : forall k e ts zs o ws val fuel, chain k e ts val (zs ++ o :: ws) -> ~ In o zs -> (length zs < fuel)%nat ->
  exists v fi oi, find_out e false o fuel val = Some (v, Some oi) /\ out_at k e ts v o fi oi /\ (val <= v)%nat /\ (zs <> [] -> (val < v)%nat) /\
    chain k e ts (pe_next_higher e v) ws /\ (ws <> [] -> (v < pe_next_higher e v)%nat).
Proof.
  intros k e ts zs o ws. induction zs as [|z zs IH]; intros val fuel H Hn Hf.
  - destruct fuel as [|fuel]; [lia|]. cbn [app chain] in H. destruct H as ((fi & oi & O) & H1 & H2). exists val, fi, oi.
    cbn [find_out]. pose proof O as [D _ _ _ _ _]. rewrite D, lit_eqb_refl. split; [reflexivity|]. split; [exact O|]. split; [lia|]. split; [congruence|].
    split; [exact H2|exact H1].
  - destruct fuel as [|fuel]; [cbn [length] in Hf; lia|]. cbn [app chain] in H. destruct H as ((fi & oi & O) & H1 & H2).
    destruct (IH (pe_next_higher e val) fuel H2) as (v & fi' & oi' & E & O' & L & _ & C & N).
    { intros X. apply Hn. right. exact X. }
    { cbn [length] in Hf. lia. }
    exists v, fi', oi'. cbn [find_out]. destruct O as [D _ _ _ _ _]. rewrite D.
    destruct (lit_eqb o z) eqn:Ez; [exfalso; apply lit_eqb_eq in Ez; apply Hn; left; symmetry; exact Ez|].
    assert (X : (val < pe_next_higher e val)%nat) by (apply H1; destruct zs; discriminate).
    split; [exact E|]. split; [exact O'|]. split; [lia|]. split; [intros _; lia|]. split; [exact C|exact N].
Qed.
Definition imps_ok (k : chk) (first : lit) (imps : list nat) (todo : list lit) : Prop :=
  Forall2 (fun i l => derived k i [axiom first; ax_not (axiom l)]) imps todo.
Lemma imps_mono : forall k k' first imps todo, (forall x, In x (k_all k) -> In x (k_all k')) -> imps_ok k first imps todo -> imps_ok k' first imps todo.
Proof.
  intros k k' first imps todo H X. induction X as [|i l imps todo (C & X1 & X2) X IH]; constructor; [|exact IH].
  exists C. split; [exact (H _ X1)|exact X2].
Qed.
Lemma lb_imps_ok : forall e fuel ts cost first fi oi k0, w_wf ts -> forall todo outs val p,
  wok k0 p -> out_at (kof k0 p) e ts cost first fi oi -> chain (kof k0 p) e ts val outs -> (cost <= val)%nat -> subl todo outs ->
  NoDup (map lvar outs) -> ~ In (lvar first) (map lvar todo) -> (length outs <= fuel)%nat ->
  exists imps p', lb_imps e fuel fi cost todo val p = Some (imps, p') /\ frame k0 p p' /\ ps_reg p' = ps_reg p /\
    imps_ok (kof k0 p') first imps todo /\ forall i, In i imps -> (ps_next p <= i)%nat.
Proof.
  intros e fuel ts cost first fi oi k0 Hw todo. induction todo as [|l todo IH]; intros outs val p W O1 Hc Hv Hs Hn Hf Hfu.
  { exists [], p. split; [reflexivity|]. split; [apply frame_refl; exact W|]. split; [reflexivity|]. split; [constructor|]. intros i []. }
  destruct (subl_head _ _ _ Hs) as (zs & ws & -> & Hs').
  destruct (find_ok _ _ _ _ _ _ val fuel Hc) as (v & fi2 & oi2 & E & O2 & Lv & _ & Hc' & Hlt).
  { intros X. rewrite map_app in Hn. cbn [map] in Hn. apply NoDup_remove_2 in Hn. apply Hn. apply in_or_app. left. apply in_map. exact X. }
  { rewrite app_length in Hfu. cbn [length] in Hfu. lia. }
  assert (Hne : lvar first <> lvar l) by (intros X; apply Hf; left; symmetry; exact X).
  destruct (imp_line k0 p p e ts cost v first l fi oi2 oi fi2 (Z.of_nat v - Z.of_nat cost + 1) (frame_refl k0 p W) Hw O1 O2 Hne ltac:(lia) ltac:(lia)) as (C & HC & F1 & I1 & M1).
  cbv zeta in *. set (p1 := snd (wr_id (SPol (imp_pol fi oi2 (Z.of_nat v - Z.of_nat cost + 1))) p)) in *.
  destruct todo as [|l' todo].
  { exists [ps_next p], p1. cbn [lb_imps]. rewrite E. unfold wr_id. split; [reflexivity|]. split; [exact F1|]. split; [reflexivity|]. split.
    - constructor; [|constructor]. exists C. split; [exact I1|exact HC].
    - intros i [<-|[]]. lia. }
  assert (Hws : ws <> []) by (intros ->; inversion Hs').
  specialize (Hlt Hws).
  destruct (IH ws (pe_next_higher e v) p1 (fr_wok _ _ _ F1)) as (imps & p' & E' & F' & R' & H' & L').
  - exact (out_at_mono _ _ _ _ _ _ _ _ M1 O1).
  - exact (chain_mono _ _ _ _ _ _ M1 Hc').
  - lia.
  - exact Hs'.
  - rewrite map_app in Hn. cbn [map] in Hn. apply nd_r in Hn. apply NoDup_cons_iff in Hn. exact (proj2 Hn).
  - intros X. apply Hf. right. exact X.
  - rewrite app_length in Hfu. cbn [length] in Hfu. lia.
  - exists (ps_next p :: imps), p'. split.
    + set (rest := l' :: todo) in *. cbn [lb_imps]. rewrite E. unfold wr_id. fold p1.
      change (mkPst (S (ps_next p)) (ps_nextvar p) (ps_log p ++ [SPol (imp_pol fi oi2 (Z.of_nat v - Z.of_nat cost + 1))]) (ps_vmap p) (ps_bounds p) (ps_reg p)) with p1.
      rewrite E'. reflexivity.
    + split; [exact (frame_trans _ _ _ _ F1 F')|]. split; [rewrite R'; reflexivity|]. split.
      * constructor; [|exact H']. exists C. split; [exact (fr_old _ _ _ F' _ I1)|exact HC].
      * intros i [<-|Hi]; [lia|]. pose proof (L' i Hi) as X. pose proof (fr_next _ _ _ F1). lia.
Qed.

Lemma imps_lt : forall k first imps todo, ids_ok k -> imps_ok k first imps todo -> forall i, In i imps -> (i < k_next k)%nat.
Proof.
  intros k first imps todo [_ B] I. induction I as [|j l imps todo (C & X & _) I IH]; intros i Hi; [destruct Hi|].
  destruct Hi as [<-|Hi]; [exact (B _ X)|exact (IH i Hi)].
Qed.
Lemma clause_proper : forall ls : list (ax pv), NoDup (map ax_var ls) -> clausal (lb_clause ls) ls.
Proof. intros ls H. apply clausal_clause; [apply proper_nodup|apply proper_nontaut]; exact H. Qed.

(** core literals are implied to be false, then the core is a conflict *)
Lemma core_rup : forall k imps Is core_id C base bcore ocore target,
  Forall2 (fun i D => In (i, D) (k_all k)) imps Is ->
  (forall l, In l ocore -> axiom l = target \/ exists D, In D Is /\ forall a, lb_holds a D -> ax_true a (axiom l) = true -> ax_true a target = true) ->
  In (core_id, C) (k_all k) -> (forall a, lb_holds a C -> exists l, In l (map axiom (map lnot bcore ++ ocore)) /\ ax_true a l = true) ->
  incl bcore base ->
  exists cs, Forall2 (fun i c => In (i, c) (k_all k)) (imps ++ [core_id]) cs /\ rup cs (lb_clause (map (fun b => axiom (lnot b)) base ++ [target])).
Proof.
  intros k imps Is core_id C base bcore ocore target H2 Hi Hc HC Hb. exists (Is ++ [C]). split.
  { apply Forall2_app; [exact H2|]. constructor; [exact Hc|constructor]. }
  set (same := fun l => if ax_eqd (axiom l) target then true else false).
  apply (rup_two _ _ (map (fun l => ax_not (axiom l)) (filter (fun l => negb (same l)) ocore))).
  - intros m Hm. apply in_map_iff in Hm. destruct Hm as (l & <- & Hl). apply filter_In in Hl. destruct Hl as [Hl Hne]. apply negb_true_iff in Hne.
    unfold same in Hne. destruct (Hi l Hl) as [E|(D & HD & X)]; [exfalso; destruct (ax_eqd (axiom l) target); [discriminate|contradiction]|].
    exists D. split; [apply in_or_app; left; exact HD|]. intros a Ha Hh. rewrite ax_not_true. destruct (ax_true a (axiom l)) eqn:E; [|reflexivity].
    exfalso. pose proof (X a Hh E) as Y. rewrite Ha in Y; [discriminate|]. apply in_or_app. right. left. reflexivity.
  - exists C. split; [apply in_or_app; right; left; reflexivity|]. intros a Ha Hm Hh. destruct (HC a Hh) as (l & Hl & Tl).
    rewrite map_app, in_app_iff in Hl. destruct Hl as [Hl|Hl].
    + rewrite map_map in Hl. apply in_map_iff in Hl. destruct Hl as (b & <- & Hl). rewrite Ha in Tl; [discriminate|]. apply in_or_app. left.
      apply in_map_iff. exists b. split; [reflexivity|exact (Hb b Hl)].
    + apply in_map_iff in Hl. destruct Hl as (x & <- & Hl). destruct (same x) eqn:E.
      * unfold same in E. destruct (ax_eqd (axiom x) target) as [Ex|]; [|discriminate]. rewrite Ex, Ha in Tl; [discriminate|]. apply in_or_app. right. left. reflexivity.
      * specialize (Hm (ax_not (axiom x))). rewrite ax_not_true, Tl in Hm. discriminate Hm. apply in_map_iff. exists x. split; [reflexivity|].
        apply filter_In. split; [exact Hl|rewrite E; reflexivity].
Qed.
Lemma subl_map : forall {A B} (f : A -> B) xs ys, subl xs ys -> subl (map f xs) (map f ys).
Proof. intros A B f xs ys H. induction H as [ys|x xs ys H IH|y xs ys H IH]; cbn [map]; constructor; exact IH. Qed.
Lemma subl_nodup : forall {A} (xs ys : list A), subl xs ys -> NoDup ys -> NoDup xs.
Proof.
  intros A xs ys H. induction H as [ys|x xs ys H IH|y xs ys H IH]; intros Hn; [constructor| |].
  - apply NoDup_cons_iff in Hn. destruct Hn as [Hx Hn]. constructor; [|exact (IH Hn)]. intros X. apply Hx. exact (subl_in _ _ H x X).
  - apply NoDup_cons_iff in Hn. exact (IH (proj2 Hn)).
Qed.
Lemma core_proper : forall base bcore outs ocore, NoDup (map lvar base) -> NoDup (map lvar outs) -> subl bcore base -> subl ocore outs ->
  (forall b, In b base -> ~ In (lvar b) (map lvar outs)) -> proper_ls (map axiom (map lnot bcore ++ ocore)).
Proof.
  intros base bcore outs ocore N1 N2 S1 S2 D. unfold proper_ls. rewrite map_map.
  rewrite map_app, map_map.
  apply NoDup_app_intro.
  - rewrite <- (map_map lvar PVs). apply FinFun.Injective_map_NoDup; [intros x y E; injection E as E; exact E|].
    exact (subl_nodup _ _ (subl_map lvar _ _ S1) N1).
  - rewrite <- (map_map lvar PVs). apply FinFun.Injective_map_NoDup; [intros x y E; injection E as E; exact E|].
    exact (subl_nodup _ _ (subl_map lvar _ _ S2) N2).
  - intros x X Y. apply in_map_iff in X. destruct X as (b & <- & Hb). apply in_map_iff in Y. destruct Y as (c & E & Hc).
    injection E as E. apply (D b (subl_in _ _ S1 b Hb)). cbn [lnot lvar] in E. rewrite <- E. apply in_map. exact (subl_in _ _ S2 c Hc).
Qed.
Lemma base_first_proper : forall base first, NoDup (map lvar base) -> (forall b, In b base -> lvar b <> lvar first) ->
  proper_ls (map (fun b => axiom (lnot b)) base ++ [axiom first]).
Proof.
  intros base first N D. unfold proper_ls. rewrite map_app, map_map. apply NoDup_app_intro.
  - cbn [axiom ax_var lnot lvar]. rewrite <- (map_map lvar PVs). apply FinFun.Injective_map_NoDup; [intros x y E; injection E as E; exact E|exact N].
  - constructor; [intros []|constructor].
  - intros x X [Y|[]]. apply in_map_iff in X. destruct X as (b & <- & Hb). cbn in Y. injection Y as Y. exact (D b Hb (eq_sym Y)).
Qed.

Theorem linsu_ok : forall k0 p e fuel ts base bcore first outs ocore cost core_id, wok k0 p -> w_wf ts ->
  chain (kof k0 p) e ts cost (first :: outs) -> NoDup (map lvar (first :: outs)) -> NoDup (map lvar base) ->
  (forall b, In b base -> ~ In (lvar b) (map lvar (first :: outs))) ->
  subl bcore base -> subl ocore (first :: outs) -> ocore <> [] -> (map lnot bcore ++ ocore = ocore -> length ocore = 1%nat -> ocore = [first]) ->
  derived (kof k0 p) core_id (map axiom (map lnot bcore ++ ocore)) -> (length (first :: outs) <= fuel)%nat ->
  exists id p', linsu_cert e fuel base cost (map lnot bcore ++ ocore) core_id p = Some (id, p') /\ frame k0 p p' /\ ps_reg p' = ps_reg p /\
    (derived (kof k0 p') id (map (fun b => axiom (lnot b)) base ++ [axiom first]) \/
     bcore = [] /\ ocore = [first] /\ id = core_id /\ p' = p) /\
    forall a, proof_holds a (kof k0 p') -> (forall b, In b base -> ax_true a (axiom b) = true) ->
      Z.of_nat cost - Z.of_nat (pe_offset e) <= lb_sum a ts.
Proof.
  intros k0 p e fuel ts base bcore first outs ocore cost core_id W Hw Hch Nc Nb Db Sb So Hoe Hu (C & IC & HC) Hfu.
  pose proof Hch as ((fi & oi & O1) & _ & _). pose proof O1 as [D1 _ _ _ _ _].
  assert (Hsk : skip_base base (map lnot bcore ++ ocore) = Some ocore).
  { apply skip_base_ok; [exact (NoDup_map_inv _ _ Nb)|exact Sb| |exact Hoe].
    intros b Hb X. apply (Db b Hb). change (lvar b) with (lvar (lnot b)). apply in_map. exact (subl_in _ _ So _ X). }
  assert (Pc : proper_ls (map axiom (map lnot bcore ++ ocore))) by (exact (core_proper base bcore (first :: outs) ocore Nb Nc Sb So Db)).
  assert (HCs : forall a, lb_holds a C -> exists l, In l (map axiom (map lnot bcore ++ ocore)) /\ ax_true a l = true).
  { intros a Ha. apply (clausal_holds a C); [apply proper_nontaut; exact Pc|exact HC|exact Ha]. }
  assert (Pf : proper_ls (map (fun b => axiom (lnot b)) base ++ [axiom first])).
  { apply base_first_proper; [exact Nb|]. intros b Hb X. apply (Db b Hb). rewrite X. left. reflexivity. }
  assert (Mean : forall p' id, frame k0 p p' -> derived (kof k0 p') id (map (fun b => axiom (lnot b)) base ++ [axiom first]) ->
    forall a, proof_holds a (kof k0 p') -> (forall b, In b base -> ax_true a (axiom b) = true) -> Z.of_nat cost - Z.of_nat (pe_offset e) <= lb_sum a ts).
  { intros p' id F (E & IE & HE) a Ha Hb. apply (out_means (kof k0 p') e ts cost first fi oi a Hw); [exact (out_at_mono _ _ _ _ _ _ _ _ (fr_old _ _ _ F) O1)|exact Ha|].
    pose proof (Ha _ IE) as X. cbn [snd] in X. rewrite (clausal_holds a E _ (proper_nontaut _ Pf) HE) in X. destruct X as (l & Hl & Tl).
    apply in_app_or in Hl. destruct Hl as [Hl|[<-|[]]]; [|exact Tl]. apply in_map_iff in Hl. destruct Hl as (b & <- & Hl).
    rewrite axiom_lnot, ax_not_true, (Hb b Hl) in Tl. discriminate. }
  assert (Todo : exists todo, (match ocore with [] => [] | c :: r => if lit_eqb c first then r else ocore end) = todo /\ subl todo (first :: outs) /\ ~ In first todo /\
                   (forall l, In l ocore -> l = first \/ In l todo)).
  { destruct ocore as [|c r]; [contradiction|]. destruct (lit_eqb c first) eqn:E.
    - apply lit_eqb_eq in E. subst c. exists r. split; [reflexivity|].
      assert (Sr : subl r outs).
      { inversion So as [|x xs ys Hx E1 E2|y xs ys Hx E1 E2]; subst; [exact Hx|]. exfalso. cbn [map] in Nc. apply NoDup_cons_iff in Nc. apply (proj1 Nc).
        apply in_map. apply (subl_in _ _ Hx). left. reflexivity. }
      split; [constructor; exact Sr|]. split.
      + intros X. cbn [map] in Nc. apply NoDup_cons_iff in Nc. apply (proj1 Nc). apply in_map. exact (subl_in _ _ Sr _ X).
      + intros l [<-|Hl]; [left; reflexivity|right; exact Hl].
    - exists (c :: r). split; [reflexivity|]. split; [exact So|]. split; [|intros l Hl; right; exact Hl].
      intros X. inversion So as [|x xs ys Hx E1 E2|y xs ys Hx E1 E2]; subst; [rewrite lit_eqb_refl in E; discriminate|].
      cbn [map] in Nc. apply NoDup_cons_iff in Nc. apply (proj1 Nc). apply in_map. exact (subl_in _ _ Hx _ X). }
  destruct Todo as (todo & Et & St & Hft & Hall).
  assert (Hfv : ~ In (lvar first) (map lvar todo)).
  { intros X. apply in_map_iff in X. destruct X as (l & E & Hl). pose proof (subl_in _ _ St l Hl) as [X|X]; [subst l; exact (Hft Hl)|].
    cbn [map] in Nc. apply NoDup_cons_iff in Nc. apply (proj1 Nc). rewrite <- E. apply in_map. exact X. }
  unfold linsu_cert. rewrite Hsk, D1.
  destruct (Nat.eq_dec (length (map lnot bcore ++ ocore)) 1) as [L1|L1].
  { assert (bcore = [] /\ length ocore = 1%nat) as [-> Lo].
    { rewrite app_length, map_length in L1. destruct ocore as [|c r]; [contradiction|]. cbn [length] in *. destruct bcore; cbn [length] in L1; [split; [reflexivity|lia]|lia]. }
    specialize (Hu eq_refl Lo). subst ocore. cbn [map app] in *. rewrite lit_eqb_refl.
    exists core_id, p. split; [reflexivity|]. split; [apply frame_refl; exact W|]. split; [reflexivity|]. split; [right; auto|].
    intros a Ha Hb. apply (out_means (kof k0 p) e ts cost first fi oi a Hw O1 Ha). destruct (HCs a (Ha _ IC)) as (l & [<-|[]] & Tl). exact Tl. }
  assert (Step : exists imps p1, (match todo, Some fi with [], _ => Some ([], p) | _, Some f => lb_imps e fuel f cost todo cost p | _, None => None end) = Some (imps, p1) /\
     frame k0 p p1 /\ ps_reg p1 = ps_reg p /\ imps_ok (kof k0 p1) first imps todo /\ (forall i, In i imps -> (ps_next p <= i < ps_next p1)%nat)).
  { destruct todo as [|t todo].
    - exists [], p. split; [reflexivity|]. split; [apply frame_refl; exact W|]. split; [reflexivity|]. split; [constructor|intros i []].
    - destruct (lb_imps_ok e fuel ts cost first fi oi k0 Hw (t :: todo) (first :: outs) cost p W O1 Hch (le_n _) St Nc Hfv Hfu) as (imps & p1 & E & F & R & I & L).
      exists imps, p1. split; [exact E|]. split; [exact F|]. split; [exact R|]. split; [exact I|]. intros i Hi. split; [exact (L i Hi)|].
      pose proof (fr_wok _ _ _ F) as W1. pose proof (imps_lt _ _ _ _ (wk_ids _ _ W1) I i Hi) as B. rewrite (wk_next _ _ W1) in B. exact B. }
  destruct Step as (imps & p1 & E1 & F1 & R1 & I1 & L1').
  assert (Is : exists Is, Forall2 (fun i D => In (i, D) (k_all (kof k0 p1))) imps Is /\ forall l, In l todo -> exists D, In D Is /\ clausal D [axiom first; ax_not (axiom l)]).
  { clear -I1. induction I1 as [|i l imps todo (D & X1 & X2) I IH].
    - exists []. split; [constructor|intros l []].
    - destruct IH as (Is & Y1 & Y2). exists (D :: Is). split; [constructor; assumption|]. intros x [<-|Hx]; [exists D; split; [left; reflexivity|exact X2]|].
      destruct (Y2 x Hx) as (D' & Z1 & Z2). exists D'. split; [right; exact Z1|exact Z2]. }
  destruct Is as (Is & HI & HIt).
  destruct (core_rup (kof k0 p1) imps Is core_id C base bcore ocore (axiom first) HI) as (cs & H2 & Hr).
  { intros l Hl. destruct (Hall l Hl) as [->|Hl']; [left; reflexivity|]. right. destruct (HIt l Hl') as (D & HD & HDc). exists D. split; [exact HD|].
    intros a Ha Tl. apply (imp_holds a D (axiom first) (axiom l)); [|exact HDc|exact Ha|exact Tl].
    cbn [axiom ax_var]. intros X. injection X as X. apply Hfv. rewrite X. apply in_map. exact Hl'. }
  { exact (fr_old _ _ _ F1 _ IC). }
  { exact HCs. }
  { exact (subl_in _ _ Sb). }
  destruct (frame_rup k0 p p1 (lb_clause (map (fun b => axiom (lnot b)) base ++ [axiom first])) (imps ++ [core_id]) cs F1 H2 Hr) as (F2 & I2 & M2).
  { intros n Hn. rewrite lb_clause_vars, map_app, map_map in Hn. apply in_app_or in Hn. destruct Hn as [Hn|[Hn|[]]]; [|discriminate].
    apply in_map_iff in Hn. destruct Hn as (b & Hb & _). discriminate. }
  assert (Ecl : clause_pb (map lnot base ++ [first]) = lb_clause (map (fun b => axiom (lnot b)) base ++ [axiom first])).
  { unfold clause_pb. rewrite map_app, map_map. reflexivity. }
  set (p2 := snd (wr_id (SRup (lb_clause (map (fun b => axiom (lnot b)) base ++ [axiom first])) (map CAbs (imps ++ [core_id]))) p1)) in *.
  destruct (frame_del k0 p p2 imps W F2) as (F3 & M3).
  { intros i Hi. exact (proj1 (L1' i Hi)). }
  set (p3 := match imps with [] => p2 | _ => wr (SDel (map CAbs imps) []) p2 end).
  assert (F4 : frame k0 p p3) by (unfold p3; destruct imps; assumption).
  assert (I4 : In (ps_next p1, lb_clause (map (fun b => axiom (lnot b)) base ++ [axiom first])) (k_all (kof k0 p3))).
  { unfold p3. destruct imps as [|i0 imps0] eqn:Ei; [exact I2|]. rewrite <- Ei in *. apply M3; [exact I2|]. intros X. pose proof (L1' _ X). lia. }
  assert (Dv : derived (kof k0 p3) (ps_next p1) (map (fun b => axiom (lnot b)) base ++ [axiom first])).
  { eexists. split; [exact I4|]. apply clause_proper. exact Pf. }
  assert (Nz : imps <> [] \/ base <> []).
  { destruct imps as [|i imps]; [|left; discriminate]. right. intros ->. inversion Sb. subst bcore. cbn [map app] in L1. inversion I1. subst todo.
    destruct ocore as [|c r]; [contradiction|]. destruct (lit_eqb c first); [|discriminate]. destruct r as [|? ?]; [apply L1; reflexivity|discriminate]. }
  exists (ps_next p1), p3. split.
  { destruct (map lnot bcore ++ ocore) as [|c0 [|c1 cr]] eqn:Ecore; [exfalso; destruct bcore; [apply Hoe; exact Ecore|discriminate]|exfalso; apply L1; reflexivity|].
    destruct ocore as [|c r]; [contradiction|]. cbv zeta. rewrite Et, E1.
    assert (Fin : (let '(id, pp) := wr_id (SRup (clause_pb (map lnot base ++ [first])) (map CAbs (imps ++ [core_id]))) p1 in
             let pp := match imps with [] => pp | _ => wr (SDel (map CAbs imps) []) pp end in Some (id, pp)) = Some (ps_next p1, p3)).
    { rewrite Ecl. reflexivity. }
    destruct imps as [|i imps]; [destruct base as [|b base]; [exfalso; destruct Nz as [N|N]; apply N; reflexivity|exact Fin]|exact Fin]. }
  split; [exact F4|]. split; [unfold p3; destruct imps; exact R1|]. split; [left; exact Dv|exact (Mean p3 (ps_next p1) F4 Dv)].
Qed.

(** ** Buffered inputs *)
Lemma part_chain_mono : forall k k' e o value outs val, (forall x, In x (k_all k) -> In x (k_all k')) -> part_chain k e o value val outs -> part_chain k' e o value val outs.
Proof.
  intros k k' e o value outs. induction outs as [|l r IH]; intros val H X; [exact Logic.I|]. cbn [part_chain] in *. destruct X as ((i & d & X1 & X2) & X3).
  split; [exists i, d; split; [exact X1|exact (part_out_mono _ _ _ _ _ _ H X2)]|exact (IH _ H X3)].
Qed.
Lemma find_buf : forall k e o value zs l ws val fuel, part_chain k e o value val (zs ++ l :: ws) -> ~ In (lvar l) (map lvar zs) -> (length zs < fuel)%nat ->
  exists v d, find_out e true l fuel val = Some (v, Some d) /\ part_out k o value l d /\ part_chain k e o value (pe_next_higher e v) ws.
Proof.
  intros k e o value zs l ws. induction zs as [|z zs IH]; intros val fuel H Hn Hf; (destruct fuel as [|fuel]; [cbn [length] in Hf; lia|]).
  - cbn [app part_chain] in H. destruct H as ((i & d & H1 & H2) & H3). exists val, d. cbn [find_out]. rewrite H1, Nat.eqb_refl. auto.
  - cbn [app part_chain] in H. destruct H as ((i & d & H1 & H2) & H3).
    destruct (IH (pe_next_higher e val) fuel H3) as (v & d' & X1 & X2 & X3).
    { intros X. apply Hn. right. exact X. }
    { cbn [length] in Hf. lia. }
    exists v, d'. cbn [find_out]. rewrite H1. destruct (Nat.eqb_spec (lvar l) (lvar z)) as [E|_]; [exfalso; apply Hn; left; symmetry; exact E|]. auto.
Qed.
Definition bimps_ok (k : chk) (n : nat) (imps : list nat) (todo : list lit) : Prop :=
  Forall2 (fun i l => In (i, lb_clause [axiom (lnot l); mkAx (PVp n) false]) (k_all k)) imps todo.
Lemma ideal_clause_vars : forall l n m, In (PVp m) (cvars (lb_clause [axiom (lnot l); mkAx (PVp n) false])) -> m = n.
Proof. intros l n m H. rewrite lb_clause_vars in H. destruct H as [H|[H|[]]]; [discriminate|]. injection H as H. symmetry. exact H. Qed.
Lemma neg_clause : forall (x : pv -> bool) l n, (forall y, In y [axiom (lnot l); mkAx (PVp n) false] -> ax_true x y = false) ->
  x (PVp n) = false /\ ax_true x (axiom l) = true.
Proof.
  intros x l n H. pose proof (H _ (or_introl eq_refl)) as H1. pose proof (H _ (or_intror (or_introl eq_refl))) as H2.
  rewrite axiom_lnot, ax_not_true in H1. apply negb_false_iff in H1. split; [|exact H1]. unfold ax_true in H2. cbn in H2. destruct (x (PVp n)); [discriminate|reflexivity].
Qed.
Lemma buf_outs_ok : forall e fuel o cost n d1 k0, forall todo outs val p,
  wok k0 p -> In (d1, bound_def_1 o cost (PVp n)) (k_all (kof k0 p)) -> (n < ps_nextvar p)%nat ->
  part_chain (kof k0 p) e o cost val outs -> subl todo outs -> StronglySorted below outs -> (length outs <= fuel)%nat ->
  exists imps p', lb_imps_buf e fuel (mkAx (PVp n) false) d1 todo val p = Some (imps, p') /\ frame k0 p p' /\ ps_reg p' = ps_reg p /\
    bimps_ok (kof k0 p') n imps todo /\ forall i, In i imps -> (ps_next p <= i)%nat.
Proof.
  intros e fuel o cost n d1 k0 todo. induction todo as [|l todo IH]; intros outs val p W Hd1 Hn Hc Hs Hso Hfu.
  { exists [], p. split; [reflexivity|]. split; [apply frame_refl; exact W|]. split; [reflexivity|]. split; [constructor|]. intros i []. }
  destruct (subl_head _ _ _ Hs) as (zs & ws & -> & Hs').
  assert (Hz : forall z, In z zs -> below z l).
  { clear -Hso. induction zs as [|z zs IH]; intros y Hy; [destruct Hy|]. cbn [app] in Hso. apply StronglySorted_inv in Hso. destruct Hso as [H1 H2].
    rewrite Forall_forall in H2. destruct Hy as [<-|Hy]; [apply H2; apply in_or_app; right; left; reflexivity|exact (IH H1 y Hy)]. }
  destruct (find_buf _ _ _ _ _ _ _ val fuel Hc) as (v & d & E & (D & ts & w & ID & HD & Hw & Hsum) & Hc').
  { intros X. apply in_map_iff in X. destruct X as (z & X & Hzi). pose proof (Hz z Hzi). unfold below in *. lia. }
  { rewrite app_length in Hfu. cbn [length] in Hfu. lia. }
  assert (Hd : exists ol s, pe_details e val = Some (ol, s) /\ (lvar ol <= lvar l)%nat).
  { destruct zs as [|z zs]; cbn [app part_chain] in Hc; destruct Hc as ((i & d' & X1 & _) & _).
    - exists l, (i, Some d'). split; [exact X1|lia].
    - exists z, (i, Some d'). split; [exact X1|]. pose proof (Hz z (or_introl eq_refl)). unfold below in *. lia. }
  destruct Hd as (ol & s & Ed & Hge).
  pose proof (wk_ids _ _ W) as Wi.
  destruct (frame_pol k0 p p (PAdd (PC (CAbs d1)) (PC (CAbs d))) (lb_add (bound_def_1 o cost (PVp n)) D) (frame_refl k0 p W)) as (F1 & I1 & M1).
  { cbn [pol_eval]. unfold kget. cbn [id_get]. rewrite (k_get _ _ _ Wi Hd1), (k_get _ _ _ Wi ID). reflexivity. }
  set (p1 := snd (wr_id (SPol (PAdd (PC (CAbs d1)) (PC (CAbs d)))) p)) in *.
  set (cl := lb_clause [axiom (lnot l); mkAx (PVp n) false]).
  destruct (frame_rup k0 p p1 cl [ps_next p] [lb_add (bound_def_1 o cost (PVp n)) D] F1) as (F2 & I2 & M2).
  { constructor; [exact I1|constructor]. }
  { apply (rup_two _ _ []); [intros m []|]. eexists. split; [left; reflexivity|]. intros x Hx _. apply neg_clause in Hx. destruct Hx as [X1 X2].
    exact (part_conflict x o cost (PVp n) l D ts w HD Hw Hsum X1 X2). }
  { intros m Hm. apply ideal_clause_vars in Hm. subst m. exact Hn. }
  change (map CAbs [ps_next p]) with [CAbs (ps_next p)] in F2, I2, M2.
  set (p2 := snd (wr_id (SRup cl [CAbs (ps_next p)]) p1)) in *.
  destruct (frame_del k0 p p2 [ps_next p] W F2) as (F3 & M3).
  { intros j [<-|[]]. lia. }
  change (map CAbs [ps_next p]) with [CAbs (ps_next p)] in F3, M3.
  set (p3 := wr (SDel [CAbs (ps_next p)] []) p2) in *.
  destruct (IH ws (pe_next_higher e v) p3 (fr_wok _ _ _ F3) (fr_old _ _ _ F3 _ Hd1)) as (imps & p' & E' & F' & R' & H' & L').
  - exact Hn.
  - exact (part_chain_mono _ _ _ _ _ _ _ (fr_old _ _ _ F3) Hc').
  - exact Hs'.
  - clear -Hso. induction zs as [|z zs IH]; cbn [app] in Hso; apply StronglySorted_inv in Hso; destruct Hso as [H _]; [exact H|exact (IH H)].
  - rewrite app_length in Hfu. cbn [length] in Hfu. lia.
  - exists (ps_next p1 :: imps), p'. split.
    + cbn [lb_imps_buf]. rewrite Ed. destruct (Nat.ltb_spec (lvar l) (lvar ol)); [lia|]. rewrite E. fold cl. unfold wr_id. cbv beta iota zeta.
      match goal with |- context [lb_imps_buf e fuel _ d1 todo _ ?q] => change q with p3 end. rewrite E'. reflexivity.
    + split; [exact (frame_trans _ _ _ _ F3 F')|]. split; [rewrite R'; reflexivity|]. split.
      * constructor; [|exact H']. apply (fr_old _ _ _ F'). apply M3; [exact I2|]. intros [X|[]]. change (ps_next p = S (ps_next p)) in X. lia.
      * intros i [<-|Hi]; [change (ps_next p1) with (S (ps_next p)); lia|]. pose proof (L' i Hi) as X. pose proof (fr_next _ _ _ F3). lia.
Qed.
Lemma bimps_lt : forall k n imps todo, ids_ok k -> bimps_ok k n imps todo -> forall i, In i imps -> (i < k_next k)%nat.
Proof.
  intros k n imps todo [_ B] I. induction I as [|j l imps todo X I IH]; intros i Hi; [destruct Hi|].
  destruct Hi as [<-|Hi]; [exact (B _ X)|exact (IH i Hi)].
Qed.
Lemma buf_imps_ok : forall e fuel o cost n d1 k0 os outs ol s, forall hs p,
  wok k0 p -> In (d1, bound_def_1 o cost (PVp n)) (k_all (kof k0 p)) -> (n < ps_nextvar p)%nat ->
  pe_details e cost = Some (ol, s) -> (forall h, In h hs -> heavy o cost h /\ (lvar h < lvar ol)%nat) ->
  part_chain (kof k0 p) e o cost cost outs -> subl os outs -> StronglySorted below outs -> (length outs <= fuel)%nat ->
  exists imps p', lb_imps_buf e fuel (mkAx (PVp n) false) d1 (hs ++ os) cost p = Some (imps, p') /\ frame k0 p p' /\ ps_reg p' = ps_reg p /\
    bimps_ok (kof k0 p') n imps (hs ++ os) /\ forall i, In i imps -> (ps_next p <= i)%nat.
Proof.
  intros e fuel o cost n d1 k0 os outs ol s hs. induction hs as [|h hs IH]; intros p W Hd1 Hn Ed Hh Hc Hs Hso Hfu.
  { exact (buf_outs_ok e fuel o cost n d1 k0 os outs cost p W Hd1 Hn Hc Hs Hso Hfu). }
  destruct (Hh h (or_introl eq_refl)) as [Hhv Hlt].
  set (cl := lb_clause [axiom (lnot h); mkAx (PVp n) false]).
  destruct (frame_rup k0 p p cl [d1] [bound_def_1 o cost (PVp n)] (frame_refl k0 p W)) as (F2 & I2 & M2).
  { constructor; [exact Hd1|constructor]. }
  { apply (rup_two _ _ []); [intros m []|]. eexists. split; [left; reflexivity|]. intros x Hx _. apply neg_clause in Hx. destruct Hx as [X1 X2].
    exact (heavy_conflict x o cost (PVp n) h Hhv X1 X2). }
  { intros m Hm. apply ideal_clause_vars in Hm. subst m. exact Hn. }
  change (map CAbs [d1]) with [CAbs d1] in F2, I2, M2. set (p2 := snd (wr_id (SRup cl [CAbs d1]) p)) in *.
  destruct (IH p2 (fr_wok _ _ _ F2) (M2 _ Hd1) Hn Ed) as (imps & p' & E' & F' & R' & H' & L').
  - intros x Hx. apply Hh. right. exact Hx.
  - exact (part_chain_mono _ _ _ _ _ _ _ M2 Hc).
  - exact Hs.
  - exact Hso.
  - exact Hfu.
  - exists (ps_next p :: imps), p'. split.
    + cbn [app lb_imps_buf]. rewrite Ed. destruct (Nat.ltb_spec (lvar h) (lvar ol)); [|lia]. fold cl. unfold wr_id. cbv beta iota zeta.
      match goal with |- context [lb_imps_buf e fuel _ d1 (hs ++ os) _ ?q] => change q with p2 end. rewrite E'. reflexivity.
    + split; [exact (frame_trans _ _ _ _ F2 F')|]. split; [rewrite R'; reflexivity|]. split.
      * constructor; [|exact H']. exact (fr_old _ _ _ F' _ I2).
      * intros i [<-|Hi]; [lia|]. pose proof (L' i Hi) as X. pose proof (fr_next _ _ _ F2). lia.
Qed.

Theorem linsu_buf_ok : forall k0 objs p e fuel o base bcore hs ol s outs os cost core_id, wok k0 p -> (forall a, ord_holds (k_order (kof k0 p)) a a) ->
  (forall o1 o2, In o1 objs -> In o2 objs -> obj_idx o1 = obj_idx o2 -> o1 = o2) -> In o objs -> bounds_ok k0 objs p ->
  pe_details e cost = Some (ol, s) -> (forall h, In h hs -> heavy o cost h /\ (lvar h < lvar ol)%nat) ->
  part_chain (kof k0 p) e o cost cost outs -> StronglySorted below outs -> (length outs <= fuel)%nat ->
  NoDup base -> subl bcore base -> subl os outs -> hs ++ os <> [] -> (forall b, In b base -> ~ In (lnot b) (hs ++ os)) ->
  (exists C, In (core_id, C) (k_all (kof k0 p)) /\ forall a, lb_holds a C -> exists l, In l (map axiom (map lnot bcore ++ hs ++ os)) /\ ax_true a l = true) ->
  exists id p' n, linsu_cert_buf e fuel o base cost (map lnot bcore ++ hs ++ os) core_id p = Some (id, p') /\ wok k0 p' /\ bounds_ok k0 objs p' /\
    (forall x, In x (k_all (kof k0 p)) -> In x (k_all (kof k0 p'))) /\ k_core (kof k0 p') = k_core (kof k0 p) /\ k_order (kof k0 p') = k_order (kof k0 p) /\
    k_excl (kof k0 p') = k_excl (kof k0 p) /\ ps_reg p' = ps_reg p /\
    (exists d1 d2, bound_get (ps_bounds p') (obj_idx o, cost) = Some (mkAx (PVp n) false, d1, d2)) /\
    In (id, lb_clause (map (fun b => axiom (lnot b)) base ++ [mkAx (PVp n) false])) (k_all (kof k0 p')) /\
    (forall x, proof_holds x (kof k0 p) -> exists x', proof_holds x' (kof k0 p') /\ forall y, (forall m, y = PVp m -> (m < ps_nextvar p)%nat) -> x' y = x y) /\
    forall a, proof_holds a (kof k0 p') -> (forall b, In b base -> ax_true a (axiom b) = true) -> (cost <= icost o (on_solver a))%nat.
Proof.
  intros k0 objs p e fuel o base bcore hs ol s outs os cost core_id W Hr Hidx Hin B Ed Hh Hc Hso Hfu Nb Sb So Hne Db (C & IC & HC).
  unfold linsu_cert_buf. rewrite (skip_base_ok base bcore (hs ++ os) Nb Sb Db Hne).
  destruct (get_obj_bound cost o p) as [[[ideal d1] d2] p0] eqn:Eg.
  pose proof (bound_extends k0 objs o cost p ideal d1 d2 p0 Hr Hidx Hin W B Eg) as Bx.
  destruct (get_obj_bound_ok k0 objs o cost p ideal d1 d2 p0 Hr Hidx Hin W B Eg) as (W0 & B0 & (n & El & I1 & I2) & Iv & M0 & Eo & Ex & Ec & Erg & Env & _).
  assert (Bg : bound_get (ps_bounds p0) (obj_idx o, cost) = Some (ideal, d1, d2)).
  { unfold get_obj_bound in Eg. destruct (bound_get (ps_bounds p) (obj_idx o, cost)) as [x|] eqn:G.
    - injection Eg as -> <-. exact G.
    - cbv zeta in Eg. unfold new_proof_var, wr_id in Eg. injection Eg as <- <- <- <-. cbn [add_bound ps_bounds bound_get].
      unfold key_eqb. cbn [fst snd]. rewrite !Nat.eqb_refl. reflexivity. }
  assert (Hn : (n < ps_nextvar p0)%nat).
  { apply (wk_fresh _ _ W0 _ n I1). cbn [snd]. unfold cvars, bound_def_1. cbn [lb_terms]. rewrite map_app. apply in_or_app. right. left. reflexivity. }
  subst ideal.
  destruct (buf_imps_ok e fuel o cost n d1 k0 os outs ol s hs p0 W0 I1 Hn Ed Hh (part_chain_mono _ _ _ _ _ _ _ M0 Hc) So Hso Hfu) as (imps & p1 & E1 & F1 & R1 & H1 & L1).
  rewrite E1.
  assert (HI : exists Is, Forall2 (fun i D => In (i, D) (k_all (kof k0 p1))) imps Is /\ forall l, In l (hs ++ os) -> In (lb_clause [axiom (lnot l); mkAx (PVp n) false]) Is).
  { exists (map (fun l => lb_clause [axiom (lnot l); mkAx (PVp n) false]) (hs ++ os)). split; [|intros l Hl; apply (in_map (fun l => lb_clause [axiom (lnot l); mkAx (PVp n) false])); exact Hl].
    clear -H1. unfold bimps_ok in H1. induction H1; cbn [map]; constructor; assumption. }
  destruct HI as (Is & HI & HIt).
  destruct (core_rup (kof k0 p1) imps Is core_id C base bcore (hs ++ os) (mkAx (PVp n) false) HI) as (cs & H2 & Hrup).
  { intros l Hl. right. exists (lb_clause [axiom (lnot l); mkAx (PVp n) false]). split; [exact (HIt l Hl)|]. intros a Ha Tl. rewrite lb_clause_holds in Ha.
    destruct Ha as (y & [<-|[<-|[]]] & Ty); [|exact Ty]. rewrite axiom_lnot, ax_not_true, Tl in Ty. discriminate. }
  { exact (fr_old _ _ _ F1 _ (M0 _ IC)). }
  { exact HC. }
  { exact (subl_in _ _ Sb). }
  set (big := lb_clause (map (fun b => axiom (lnot b)) base ++ [mkAx (PVp n) false])) in *.
  destruct (frame_rup k0 p0 p1 big (imps ++ [core_id]) cs F1 H2 Hrup) as (F2 & J2 & M2).
  { intros m Hm. unfold big in Hm. rewrite lb_clause_vars, map_app, map_map in Hm. apply in_app_or in Hm. destruct Hm as [Hm|[Hm|[]]].
    - apply in_map_iff in Hm. destruct Hm as (b & Hb & _). discriminate.
    - injection Hm as <-. rewrite (fr_nextvar _ _ _ F1). exact Hn. }
  set (p2 := snd (wr_id (SRup big (map CAbs (imps ++ [core_id]))) p1)) in *.
  destruct (frame_del k0 p0 p2 imps W0 F2 L1) as (F3 & M3).
  set (p3 := wr (SDel (map CAbs imps) []) p2) in *.
  assert (J3 : In (ps_next p1, big) (k_all (kof k0 p3))).
  { apply M3; [exact J2|]. intros X. pose proof (bimps_lt _ _ _ _ (wk_ids _ _ (fr_wok _ _ _ F1)) H1 _ X) as Y. rewrite (wk_next _ _ (fr_wok _ _ _ F1)) in Y. lia. }
  exists (ps_next p1), p3, n. split; [reflexivity|]. split; [exact (fr_wok _ _ _ F3)|]. split.
  { apply (bounds_mono k0 objs p0 p3 B0 (fr_bounds _ _ _ F3) (fr_old _ _ _ F3)). intros x X. rewrite (fr_vmap _ _ _ F3). exact X. }
  split; [intros x X; exact (fr_old _ _ _ F3 _ (M0 _ X))|]. split; [rewrite (fr_core _ _ _ F3); exact Ec|].
  split; [rewrite (fr_order _ _ _ F3); exact Eo|]. split; [rewrite (fr_excl _ _ _ F3); exact Ex|]. split; [transitivity (ps_reg p1); [reflexivity|congruence]|].
  split; [exists d1, d2; rewrite (fr_bounds _ _ _ F3); exact Bg|]. split; [exact J3|]. split.
  - intros x Hx. destruct (Bx x Hx) as (x1 & X1 & X2). exists x1. split; [exact (fr_sound _ _ _ F3 x1 X1)|exact X2].
  - intros a Ha Hb. pose proof (Ha _ (fr_old _ _ _ F3 _ I2)) as X. cbn [snd] in X. rewrite bound_def_2_holds in X. apply X.
    pose proof (Ha _ J3) as Y. cbn [snd] in Y. unfold big in Y. rewrite lb_clause_holds in Y. destruct Y as (l & Hl & Tl). apply in_app_or in Hl.
    destruct Hl as [Hl|[<-|[]]].
    + apply in_map_iff in Hl. destruct Hl as (b & <- & Hl). rewrite axiom_lnot, ax_not_true, (Hb b Hl) in Tl. discriminate.
    + unfold ax_true in Tl. cbn in Tl. destruct (a (PVp n)); [reflexivity|discriminate].
Qed.
