(** * The [?] operator: specification and proof *)
From Coq Require Import List Bool.
From Verif Require Import Base MTypes MKernel MTerm.
Import ListNotations.

(** Why a statement did not succeed *)
Inductive stop := StopTerm (t : termination) | StopErr (e : error).
(** Statement [x] succeeds in state [s], leaving [s'] *)
Definition succeeds {S} (x : stmt S) (s s' : S) : Prop :=
  match x with
  | StMt c => c s = (MtDone tt, s')
  | StMte c => c s = (MteDone tt, s')
  | StRes c => c s = (ROk tt, s')
  | StEnsure c _ => c s = true /\ s' = s
  end.
(** Statement [x] stops in state [s] for reason [w], leaving [s'] *)
Definition stops {S} (x : stmt S) (s : S) (w : stop) (s' : S) : Prop :=
  match x, w with
  | StMt c, StopTerm t => c s = (MtTerminated t, s')
  | StMte c, StopTerm t => c s = (MteTerminated t, s')
  | StMte c, StopErr e => c s = (MteError e, s')
  | StRes c, StopErr e => c s = (RError e, s')
  | StEnsure c e, StopErr e' => c s = false /\ e' = e /\ s' = s
  | _, _ => False
  end.
Fixpoint all_succeed {S} (xs : list (stmt S)) (s s' : S) : Prop :=
  match xs with
  | [] => s' = s
  | x :: r => exists s1, succeeds x s s1 /\ all_succeed r s1 s'
  end.
Definition outcome {R} (w : stop) : maybe_term_err R :=
  match w with StopTerm t => MteTerminated t | StopErr e => MteError e end.

Lemma either {S} (x : stmt S) s : (exists s', succeeds x s s') \/ (exists w s', stops x s w s').
Proof.
  destruct x as [c|c|c|c e]; cbn [succeeds stops].
  - destruct (c s) as [[[]|t] s'] eqn:E; [left; eauto|right; exists (StopTerm t), s'; reflexivity].
  - destruct (c s) as [[[]|t|e] s'] eqn:E; [left; eauto|right; exists (StopTerm t), s'; reflexivity|].
    right. exists (StopErr e), s'. reflexivity.
  - destruct (c s) as [[[]|e] s'] eqn:E; [left; eauto|right; exists (StopErr e), s'; reflexivity].
  - destruct (c s) eqn:E; [left; eauto|right; exists (StopErr e), s; auto].
Qed.
Lemma run_cons_succeed {S R} (x : stmt S) r (value : S -> R) s s' : succeeds x s s' ->
  run_body (x :: r) value s = run_body r value s'.
Proof.
  destruct x as [c|c|c|c e]; cbn [succeeds run_body]; intros H; try (rewrite H; reflexivity).
  destruct H as [-> ->]. reflexivity.
Qed.
Lemma run_cons_stop {S R} (x : stmt S) r (value : S -> R) s w s' : stops x s w s' ->
  run_body (x :: r) value s = (outcome w, s').
Proof.
  destruct x as [c|c|c|c e], w as [t|e']; cbn [stops run_body]; intros H; try contradiction;
    try (rewrite H; reflexivity).
  destruct H as (-> & -> & ->). reflexivity.
Qed.
Lemma run_app {S R} (pre : list (stmt S)) post (value : S -> R) s s1 : all_succeed pre s s1 ->
  run_body (pre ++ post) value s = run_body post value s1.
Proof.
  revert s. induction pre as [|x pre IH]; intros s H; cbn in H; [now subst|].
  destruct H as (s2 & Hx & H). cbn [app]. rewrite (run_cons_succeed x _ value s s2 Hx). now apply IH.
Qed.
(** The outcome is that of the first statement that stops, in the state it left. *)
Lemma first_stop {S R} (ss : list (stmt S)) (value : S -> R) s :
  (exists s', all_succeed ss s s' /\ run_body ss value s = (MteDone (value s'), s')) \/
  (exists pre x post s1 w s2, ss = pre ++ x :: post /\ all_succeed pre s s1 /\ stops x s1 w s2 /\
     run_body ss value s = (outcome w, s2)).
Proof.
  revert s. induction ss as [|x ss IH]; intros s.
  - left. exists s. split; reflexivity.
  - destruct (either x s) as [(s' & Hx)|(w & s' & Hx)].
    + destruct (IH s') as [(s2 & H1 & H2)|(pre & y & post & s1 & w & s2 & -> & H1 & H2 & H3)].
      * left. exists s2. split; [exists s'; auto|]. now rewrite (run_cons_succeed x ss value s s' Hx).
      * right. exists (x :: pre), y, post, s1, w, s2. split; [reflexivity|]. split; [exists s'; auto|].
        split; [exact H2|]. cbn [app]. now rewrite (run_cons_succeed x _ value s s' Hx).
    + right. exists [], x, ss, s, w, s'. split; [reflexivity|]. split; [reflexivity|]. split; [exact Hx|].
      now apply run_cons_stop.
Qed.
(** Functions that return [MaybeTerminated] *)
Lemma mt_as_mte {S R} (ss : list (S -> maybe_term unit * S)) (value : S -> R) s :
  run_body (map StMt ss) value s = (mte_of_mt (fst (run_body_mt ss value s)), snd (run_body_mt ss value s)).
Proof.
  revert s. induction ss as [|c ss IH]; intros s; [reflexivity|]. cbn [map run_body run_body_mt].
  destruct (c s) as [[[]|t] s']; cbn [mt_branch]; [apply IH|reflexivity].
Qed.
