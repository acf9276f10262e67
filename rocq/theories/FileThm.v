(** * File names, constraint numbering and variable managers *)
From Coq Require Import List Bool Arith Lia ZArith String Ascii.
From Verif Require Import Base BaseLemmas Spec MTypes ApiSpec MPrepro.
Import ListNotations.

(** ** File names *)

(** [name] is [stem.ext]: the last dot separates a non-empty stem from the extension. *)
Definition has_ext (name stem ext : string) : Prop :=
  name = (stem ++ "." ++ ext)%string /\ stem <> ""%string /\ name <> ".."%string /\
  (forall a b, ext <> (a ++ "." ++ b)%string).
Definition no_ext (name : string) : Prop := forall stem ext, ~ has_ext name stem ext.
Definition compression (e : string) : Prop := In e ["gz"; "bz2"; "xz"]%string.
Definition dimacs_ext (e : string) : Prop := In e ["mcnf"; "bicnf"; "wcnf"; "cnf"; "dimacs"]%string.
Definition opb_ext (e : string) : Prop := In e ["opb"; "mopb"; "pbmo"]%string.
(** The extension that decides: the last one, or the one before a compression extension *)
Definition deciding (name : string) (d : option string) : Prop :=
  (no_ext name /\ d = None) \/
  (exists stem ext, has_ext name stem ext /\ ~ compression ext /\ d = Some ext) \/
  (exists stem ext, has_ext name stem ext /\ compression ext /\
     ((no_ext stem /\ d = None) \/ exists s' e, has_ext stem s' e /\ d = Some e)).
Definition by_ext (d : option string) (c : parse_choice) : Prop :=
  match d with
  | None => c = PcNoExt
  | Some e => (dimacs_ext e /\ c = PcClausal) \/ (opb_ext e /\ c = PcPseudoBoolean) \/
              (~ dimacs_ext e /\ ~ opb_ext e /\ c = PcUnknownExt e)
  end.

Lemma split_none s : split_last_dot s = None <-> forall a b, s <> (a ++ "." ++ b)%string.
Proof.
  induction s as [|c r IH]; cbn [split_last_dot].
  - split; [|reflexivity]. intros _ a b. destruct a; discriminate.
  - destruct (split_last_dot r) as [[p e]|] eqn:E.
    + split; [discriminate|]. intros H. exfalso. destruct IH as [_ IH].
      assert (Hr : forall a b, r <> (a ++ "." ++ b)%string).
      { intros a b ->. now apply (H (String c a) b). }
      specialize (IH Hr). discriminate.
    + destruct IH as [IH _]. specialize (IH eq_refl).
      destruct (Ascii.eqb c ".") eqn:Ec.
      * apply Ascii.eqb_eq in Ec. subst c. split; [discriminate|]. intros H. exfalso.
        now apply (H ""%string r).
      * split; [|reflexivity]. intros _ a b H. destruct a as [|x a]; cbn in H; injection H as H1 H2.
        -- subst c. discriminate.
        -- now apply (IH a b).
Qed.
Lemma split_some s p e : split_last_dot s = Some (p, e) <->
  s = (p ++ "." ++ e)%string /\ forall a b, e <> (a ++ "." ++ b)%string.
Proof.
  revert p e. induction s as [|c r IH]; intros p e; cbn [split_last_dot].
  - split; [discriminate|]. intros [H _]. destruct p; discriminate.
  - destruct (split_last_dot r) as [[p' e']|] eqn:E.
    + destruct (IH p' e') as [IH1 _]. destruct (IH1 eq_refl) as [-> Hd]. split.
      * intros [= <- <-]. split; [reflexivity|exact Hd].
      * intros [H1 H2]. destruct p as [|x p]; cbn in H1; injection H1 as H0 H1.
        -- exfalso. apply (H2 p' e'). symmetry. exact H1.
        -- subst x. assert (Some (p', e') = Some (p, e)); [|congruence].
           apply IH. split; [exact H1|exact H2].
    + pose proof (proj1 (split_none r) E) as Hr. destruct (Ascii.eqb c ".") eqn:Ec.
      * apply Ascii.eqb_eq in Ec. subst c. split.
        -- intros [= <- <-]. split; [reflexivity|exact Hr].
        -- intros [H1 H2]. destruct p as [|x p]; cbn in H1.
           ++ injection H1 as H1. now subst.
           ++ injection H1 as H0 H1. exfalso. now apply (Hr p e).
      * split; [discriminate|]. intros [H1 H2]. destruct p as [|x p]; cbn in H1; injection H1 as H0 H1.
        -- subst c. discriminate.
        -- exfalso. now apply (Hr p e).
Qed.

Lemma extension_some name e : extension name = Some e <-> has_ext name (strip_extension name) e.
Proof.
  unfold extension, strip_extension, has_ext. destruct (String.eqb name "..") eqn:Ed.
  - apply String.eqb_eq in Ed. split; [discriminate|]. intros (_ & _ & H & _). contradiction.
  - apply String.eqb_neq in Ed. destruct (split_last_dot name) as [[p x]|] eqn:E.
    + pose proof (proj1 (split_some _ _ _) E) as [H1 H2]. destruct p as [|c p].
      * split; [discriminate|]. intros (Hn & Hp & _ & He). exfalso.
        assert (G : split_last_dot name = Some (name, e)) by (apply split_some; auto).
        rewrite E in G. injection G as G _. symmetry in G. contradiction.
      * split.
        -- intros [= <-]. repeat split; auto. discriminate.
        -- intros (Hn & _ & _ & He).
           assert (G : split_last_dot name = Some (String c p, e)) by (apply split_some; auto).
           rewrite E in G. injection G as ->. reflexivity.
    + split; [discriminate|]. intros (Hn & _ & _ & He). exfalso.
      pose proof (proj1 (split_none _) E) as G. now apply (G name e).
Qed.
Lemma has_ext_strip name stem e : has_ext name stem e -> strip_extension name = stem /\ extension name = Some e.
Proof.
  intros (Hn & Hs & Hd & He). assert (G : split_last_dot name = Some (stem, e)) by (apply split_some; auto).
  unfold strip_extension, extension. apply String.eqb_neq in Hd. rewrite Hd, G. destruct stem; [contradiction|auto].
Qed.
Lemma extension_none name : extension name = None <-> no_ext name.
Proof.
  split.
  - intros H stem e G. apply has_ext_strip in G. destruct G as [_ G]. congruence.
  - intros H. destruct (extension name) eqn:E; [|reflexivity]. exfalso. apply extension_some in E.
    now apply (H (strip_extension name) s).
Qed.
Lemma is_one_of_in s xs : is_one_of s xs = true <-> In s xs.
Proof.
  unfold is_one_of. rewrite existsb_exists. split.
  - intros (x & Hx & He). apply String.eqb_eq in He. now subst.
  - intros H. exists s. split; [exact H|apply String.eqb_refl].
Qed.
Lemma is_one_of_not s xs : is_one_of s xs = false <-> ~ In s xs.
Proof. rewrite <- is_one_of_in. destruct (is_one_of s xs); split; congruence || tauto. Qed.

Lemma disjoint_ext e : dimacs_ext e -> opb_ext e -> False.
Proof.
  unfold dimacs_ext, opb_ext. cbn. intros H1 H2.
  repeat (destruct H1 as [H1|H1]; [subst e; repeat (destruct H2 as [H2|H2]; [discriminate|]); exact H2|]). exact H1.
Qed.
Definition choose (d : option string) : parse_choice :=
  match d with
  | None => PcNoExt
  | Some ext =>
      if is_one_of ext ["mcnf"; "bicnf"; "wcnf"; "cnf"; "dimacs"]%string then PcClausal
      else if is_one_of ext ["opb"; "mopb"; "pbmo"]%string then PcPseudoBoolean
      else PcUnknownExt ext
  end.
Lemma choose_by d : forall c, choose d = c <-> by_ext d c.
Proof.
  intros c. destruct d as [e|]; cbn [choose by_ext]; [|split; congruence].
  destruct (is_one_of e _) eqn:E1.
  - apply is_one_of_in in E1. split.
    + intros <-. auto.
    + intros [[_ ->]|[[H _]|[H _]]]; [reflexivity|exfalso; now apply (disjoint_ext e)|contradiction].
  - apply is_one_of_not in E1. destruct (is_one_of e ["opb"; "mopb"; "pbmo"]%string) eqn:E2.
    + apply is_one_of_in in E2. split; [intros <-; auto|].
      intros [[H _]|[[_ ->]|[_ [H _]]]]; [contradiction|reflexivity|contradiction].
    + apply is_one_of_not in E2. split; [intros <-; auto|].
      intros [[H _]|[[H _]|[_ [_ ->]]]]; [contradiction|contradiction|reflexivity].
Qed.
Theorem infer_format name c :
  parse_format name FInfer = c <-> exists d, deciding name d /\ by_ext d c.
Proof.
  assert (P : forall d, deciding name d -> parse_format name FInfer = choose d).
  { intros d [[H ->]|[(stem & ext & H & Hc & ->)|(stem & ext & H & Hc & Hd)]].
    - unfold parse_format. apply extension_none in H. now rewrite H.
    - apply has_ext_strip in H. destruct H as [_ H]. unfold parse_format. rewrite H.
      apply is_one_of_not in Hc. rewrite Hc. reflexivity.
    - apply has_ext_strip in H. destruct H as [H1 H2]. unfold parse_format. rewrite H2, H1.
      apply is_one_of_in in Hc. rewrite Hc. destruct Hd as [[H ->]|(s' & e & H & ->)].
      + apply extension_none in H. now rewrite H.
      + apply has_ext_strip in H. destruct H as [_ H]. now rewrite H. }
  assert (D : exists d, deciding name d).
  { destruct (extension name) as [e|] eqn:E.
    - apply extension_some in E. destruct (is_one_of e ["gz"; "bz2"; "xz"]%string) eqn:C.
      + apply is_one_of_in in C. destruct (extension (strip_extension name)) as [e2|] eqn:E2.
        * apply extension_some in E2. exists (Some e2). right. right. exists (strip_extension name), e.
          split; [exact E|]. split; [exact C|]. right. eauto.
        * apply extension_none in E2. exists None. right. right. exists (strip_extension name), e.
          split; [exact E|]. split; [exact C|]. left. auto.
      + apply is_one_of_not in C. exists (Some e). right. left. exists (strip_extension name), e. auto.
    - exists None. left. split; [now apply extension_none|reflexivity]. }
  split.
  - intros <-. destruct D as (d & Hd). exists d. split; [exact Hd|]. apply choose_by. symmetry. now apply P.
  - intros (d & Hd & Hc). rewrite (P d Hd). now apply choose_by.
Qed.

(** ** Constraint numbering *)

(** Number of proof constraints an input constraint stands for: an equality is two *)
Definition proof_size (c : pb_constr) : nat := match pb_kind c with PbEq => 2 | _ => 1 end.

Lemma n_constraints_sum cs : n_constraints cs = list_sum (map proof_size cs).
Proof.
  unfold n_constraints. assert (G : forall n, fold_left (fun s c => if is_eq c then s + 2 else s + 1) cs n =
    n + list_sum (map proof_size cs)); [|now rewrite G].
  induction cs as [|c cs IH]; intros n; cbn [fold_left map]; [cbn; lia|]. rewrite IH.
  change (list_sum (proof_size c :: map proof_size cs)) with (proof_size c + list_sum (map proof_size cs)).
  unfold is_eq, proof_size. destruct (pb_kind c); lia.
Qed.
Lemma constr_ids_spec cs : forall id,
  List.length (fst (constr_ids_from id cs)) = List.length cs /\
  (forall k x, nth_error (fst (constr_ids_from id cs)) k = Some x ->
     x = id + list_sum (map proof_size (firstn k cs))) /\
  snd (constr_ids_from id cs) = id + list_sum (map proof_size cs).
Proof.
  induction cs as [|c cs IH]; intros id; cbn [constr_ids_from].
  - cbn. split; [reflexivity|]. split; [|lia]. intros [|k]; discriminate.
  - specialize (IH (id + (1 + (if is_eq c then 1 else 0)))).
    assert (Hs : 1 + (if is_eq c then 1 else 0) = proof_size c) by (unfold is_eq, proof_size; destruct (pb_kind c); reflexivity).
    rewrite Hs in *. destruct (constr_ids_from (id + proof_size c) cs) as [ids last]. cbn [fst snd] in *.
    destruct IH as (H1 & H2 & H3). split; [cbn [List.length]; lia|]. split.
    + intros [|k] x Hx; cbn [nth_error firstn map] in *; [injection Hx as <-; cbn; lia|].
      apply H2 in Hx. cbn [list_sum fold_right]. change (fold_right Nat.add 0) with list_sum. lia.
    + cbn [map list_sum fold_right]. change (fold_right Nat.add 0) with list_sum. lia.
Qed.

(** ** Variable managers *)

(** The operations of [ManageVars] on [VarManager] that change it *)
Inductive vm_op :=
| VNew | VIncrease (v : nat) | VCombine (o : var_manager) | VForget (v : nat)
| VMarkOrig | VMarkEnc.
(** One operation: the returned variable (for [new_var]) and the new manager; [None] is a panic *)
Definition vm_step (op : vm_op) (vm : var_manager) : option (option nat * var_manager) :=
  match op with
  | VNew => let (v, vm') := vm_new_var vm in Some (Some v, vm')
  | VIncrease v => Some (None, snd (vm_increase vm v))
  | VCombine o => Some (None, vm_combine vm o)
  | VForget v => Some (None, vm_forget_from vm v)
  | VMarkOrig => match vm_mark_max_orig vm with Some vm' => Some (None, vm') | None => None end
  | VMarkEnc => match vm_mark_max_enc vm with Some vm' => Some (None, vm') | None => None end
  end.
Fixpoint vm_run (ops : list vm_op) (vm : var_manager) : option (list (option nat) * var_manager) :=
  match ops with
  | [] => Some ([], vm)
  | op :: r =>
      match vm_step op vm with
      | None => None
      | Some (x, vm1) => match vm_run r vm1 with None => None | Some (xs, vm2) => Some (x :: xs, vm2) end
      end
  end.
(** After the operation (that returned [x]) all variables below this number are in use. *)
Definition claims (op : vm_op) (x : option nat) : nat :=
  match op, x with
  | VNew, Some v => S v
  | VIncrease v, _ => v
  | VCombine o, _ => vm_next o
  | _, _ => 0
  end.
(** The operations do not give variables below [w] back. *)
Definition keeps (w : nat) (ops : list vm_op) : Prop := forall m, In (VForget m) ops -> w <= m.

Lemma vm_step_keep op vm x vm' w : vm_step op vm = Some (x, vm') -> w <= vm_next vm ->
  keeps w [op] -> w <= vm_next vm' /\ claims op x <= vm_next vm'.
Proof.
  intros H Hw Hk. destruct op; cbn in H; unfold claims.
  - injection H as <- <-. cbn. lia.
  - injection H as <- <-. unfold vm_increase. destruct (Nat.ltb_spec (vm_next vm) v); cbn; lia.
  - injection H as <- <-. unfold vm_combine. destruct (Nat.ltb_spec (vm_next vm) (vm_next o)); cbn; lia.
  - injection H as <- <-. cbn. specialize (Hk v (or_introl eq_refl)). lia.
  - unfold vm_mark_max_orig in H. destruct (vm_next vm) eqn:E; [discriminate|]. injection H as <- <-. cbn. lia.
  - unfold vm_mark_max_enc in H. destruct (vm_next vm) eqn:E; [discriminate|]. injection H as <- <-. cbn. lia.
Qed.
Lemma vm_run_keep ops : forall vm xs vm' w, vm_run ops vm = Some (xs, vm') -> w <= vm_next vm -> keeps w ops ->
  w <= vm_next vm'.
Proof.
  induction ops as [|op r IH]; intros vm xs vm' w H Hw Hk; cbn in H; [now injection H as <- <-|].
  destruct (vm_step op vm) as [[x vm1]|] eqn:E; [|discriminate].
  destruct (vm_run r vm1) as [[ys vm2]|] eqn:E2; [|discriminate]. injection H as <- <-.
  destruct (vm_step_keep op vm x vm1 w E Hw) as [H1 _].
  - intros m [->|[]]. apply Hk. now left.
  - apply (IH vm1 ys vm2 w E2 H1). intros m Hm. apply Hk. now right.
Qed.
