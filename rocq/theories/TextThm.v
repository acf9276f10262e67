(** * The printed front can be read back *)
From Coq Require Import DecimalString Decimal DecimalZ DecimalFacts List Bool Arith Lia ZArith Ascii String.
From Verif Require Import Base MTypes MKernel MCli MPrint TextSpec.
Import ListNotations.

Lemma split_nil c s : split_at c s <> [].
Proof. destruct s as [|x s]; [discriminate|]. cbn. destruct (Ascii.eqb x c); [discriminate|]. now destruct (split_at c s). Qed.
Lemma split_app c a : ~ In c a -> forall s, split_at c (a ++ c :: s) = a :: split_at c s.
Proof.
  induction a as [|x a IH]; intros H s; cbn [app split_at].
  - cbn. rewrite ?Ascii.eqb_refl. reflexivity.
  - destruct (Ascii.eqb x c) eqn:e; [apply Ascii.eqb_eq in e; subst; exfalso; apply H; now left|].
    rewrite IH; [reflexivity|]. intros G. apply H. now right.
Qed.
Lemma split_one c a : ~ In c a -> split_at c a = [a].
Proof.
  induction a as [|x a IH]; intros H; [reflexivity|]. cbn [split_at].
  destruct (Ascii.eqb x c) eqn:e; [apply Ascii.eqb_eq in e; subst; exfalso; apply H; now left|].
  rewrite IH; [reflexivity|]. intros G. apply H. now right.
Qed.
Lemma after_app p s : after p (p ++ s) = Some s.
Proof. induction p as [|x p IH]; [reflexivity|]. cbn. now rewrite Ascii.eqb_refl. Qed.
Lemma same_refl a : same a a = true.
Proof. unfold same. now destruct (list_eq_dec ascii_dec a a). Qed.
Lemma all_some_map {A B} (f : A -> option B) (g : B -> A) l : (forall b, In b l -> f (g b) = Some b) -> all_some (map f (map g l)) = Some l.
Proof.
  induction l as [|b l IH]; intros H; [reflexivity|]. cbn. rewrite H by (now left). rewrite IH; [reflexivity|].
  intros; apply H; now right.
Qed.

(** ** Numbers *)
Definition numeric (c : ascii) : Prop := In c (tx "-0123456789").
Lemma uint_numeric d c : In c (tx (NilEmpty.string_of_uint d)) -> numeric c.
Proof.
  unfold numeric. induction d; cbn [NilEmpty.string_of_uint tx list_ascii_of_string]; intros H; [destruct H|..];
    (destruct H as [<-|H]; [cbn; tauto|now apply IHd]).
Qed.
Lemma int_numeric z c : In c (int_text z) -> numeric c.
Proof.
  unfold int_text, NilZero.string_of_int, NilZero.string_of_uint. destruct (Z.to_int z) as [d|d].
  - destruct d; try apply uint_numeric. unfold numeric. cbn. tauto.
  - cbn [tx list_ascii_of_string]. intros [<-|H]; [unfold numeric; cbn; tauto|].
    destruct d; try (now apply uint_numeric in H). unfold numeric. cbn in *. tauto.
Qed.
Lemma not_numeric z c : ~ numeric c -> ~ In c (int_text z).
Proof. intros H G. apply H. eapply int_numeric; eauto. Qed.
Lemma tx_back s : string_of_list_ascii (tx s) = s.
Proof. apply string_of_list_ascii_of_string. Qed.
Lemma read_int_text z : read_int (int_text z) = Some z.
Proof.
  unfold read_int, int_text. rewrite tx_back.
  rewrite NilZero.isi.
  - cbn. now rewrite DecimalZ.of_to.
  - intros H. pose proof (DecimalZ.of_to z) as G. pose proof (DecimalZ.to_of (Pos Nil)) as K. rewrite <- H, G, H in K. discriminate K.
  - intros H. pose proof (DecimalZ.of_to z) as G. pose proof (DecimalZ.to_of (Neg Nil)) as K. rewrite <- H, G, H in K. discriminate K.
Qed.
Lemma int_head z : exists c r, int_text z = c :: r /\ numeric c.
Proof.
  destruct (int_text z) as [|c r] eqn:e.
  - pose proof (read_int_text z) as H. rewrite e in H. discriminate H.
  - exists c, r. split; [reflexivity|]. apply (int_numeric z). rewrite e. now left.
Qed.
Lemma skip_int z : skip_space (int_text z) = int_text z.
Proof.
  destruct (int_head z) as (c & r & -> & H). unfold numeric in H. cbn in H.
  repeat (destruct H as [<-|H]; [reflexivity|]). destruct H.
Qed.

(** ** Cost vectors *)
Lemma split_vec cs : forall a, ~ In ","%char a ->
  split_at "," (a ++ vec_rest false cs) = a :: map (fun z => " "%char :: int_text z) cs.
Proof.
  induction cs as [|z cs IH]; intros a Ha; cbn [vec_rest map].
  - rewrite app_nil_r. now apply split_one.
  - change (tx ", " ++ int_text z ++ vec_rest false cs) with (","%char :: ((" "%char :: int_text z) ++ vec_rest false cs)).
    rewrite split_app by exact Ha. f_equal. apply IH. intros [H|H]; [discriminate|]. revert H.
    apply not_numeric. unfold numeric. cbn. intuition discriminate.
Qed.
Lemma read_vec_text cs : read_vec (vec_rest true cs) = Some cs.
Proof.
  destruct cs as [|c cs]; [reflexivity|]. assert (H : split_at "," (vec_rest true (c :: cs)) = int_text c :: map (fun z => " "%char :: int_text z) cs).
  { change (vec_rest true (c :: cs)) with (int_text c ++ vec_rest false cs). apply split_vec.
    apply not_numeric. unfold numeric. cbn. intuition discriminate. }
  unfold read_vec.
  destruct (vec_rest true (c :: cs)) as [|x s] eqn:e.
  { cbn [vec_rest app] in e. destruct (int_head c) as (y & r & E & _). rewrite E in e. discriminate e. }
  rewrite H. cbn [map all_some]. rewrite skip_int, read_int_text.
  rewrite (all_some_map _ (fun z => " "%char :: int_text z)); [reflexivity|]. intros z _. cbn [skip_space]. apply read_int_text.
Qed.
Lemma vec_chars cs c : forall b, In c (vec_rest b cs) -> numeric c \/ c = ","%char \/ c = " "%char.
Proof.
  induction cs as [|z cs IH]; intros b; cbn [vec_rest]; [intros []|].
  intros H. apply in_app_or in H. destruct H as [H|H].
  - destruct b; [destruct H|]. destruct H as [<-|[<-|[]]]; auto.
  - apply in_app_or in H. destruct H as [H|H]; [left; eapply int_numeric; eauto|eauto].
Qed.

(** ** Lines *)
Definition line_of (p : list Z * nat) : text :=
  tx "Non-dominated Point: costs: (" ++ vec_rest true (fst p) ++ tx "); n-sols: " ++ int_text (Z.of_nat (snd p)).
Lemma read_point_line p : read_point (line_of p) = Some p.
Proof.
  destruct p as [cs n]. unfold read_point, line_of. cbn [fst snd].
  change (ch "Non-dominated Point: costs: (") with (tx "Non-dominated Point: costs: (").
  rewrite after_app.
  change (vec_rest true cs ++ tx "); n-sols: " ++ int_text (Z.of_nat n)) with
    (vec_rest true cs ++ ")"%char :: (tx "; n-sols: " ++ int_text (Z.of_nat n))).
  rewrite split_app.
  2:{ intros H. apply vec_chars in H. unfold numeric in H. cbn in H. intuition discriminate. }
  rewrite split_one.
  2:{ intros H. apply in_app_or in H. destruct H as [H|H]; [cbn in H; intuition discriminate|].
      revert H. apply not_numeric. unfold numeric. cbn. intuition discriminate. }
  rewrite read_vec_text. change (ch "; n-sols: ") with (tx "; n-sols: "). rewrite after_app, read_int_text. cbn.
  now rewrite Nat2Z.id.
Qed.
Lemma read_sol_text a : read_sol (assignment_text a) = Some a.
Proof. unfold read_sol, assignment_text. apply all_some_map. now intros [[|]|] _. Qed.
Lemma sol_line_no_end a : same (tx "v " ++ assignment_text a) (ch "<<<<<") = false.
Proof. unfold same. destruct (list_eq_dec _ _ _) as [e|]; [discriminate e|reflexivity]. Qed.

Definition sol_line (a : assignment) : text := tx "v " ++ assignment_text a.
Definition point_lines (p : point) : list text :=
  let '(cs, n, sols) := p in tx ">>>>>" :: line_of (cs, n) :: map sol_line sols ++ [tx "<<<<<"].
Definition front_lines (ps : list point) : list text :=
  tx ">>>>>" :: tx "Discovered Pareto Front: " :: List.concat (map point_lines ps) ++ [tx "<<<<<"].
Definition unlines (ls : list text) : text := List.concat (map (fun l => l ++ [nl]) ls).
Definition clean (l : text) : Prop := ~ In nl l.

Lemma unlines_app a b : unlines (a ++ b) = unlines a ++ unlines b.
Proof. unfold unlines. now rewrite map_app, concat_app. Qed.
Lemma split_unlines ls : Forall clean ls -> split_at nl (unlines ls) = ls ++ [[]].
Proof.
  induction 1 as [|l ls H1 H2 IH]; [reflexivity|]. unfold unlines in *. cbn [map List.concat].
  rewrite <- app_assoc. cbn [app]. rewrite split_app by exact H1. now rewrite IH.
Qed.
Lemma numeric_clean c : numeric c -> c <> nl.
Proof. unfold numeric. cbn. intros H ->. unfold nl in H. cbn in H. intuition discriminate. Qed.
Lemma tx_clean s : existsb (Ascii.eqb nl) (tx s) = false -> clean (tx s).
Proof.
  intros H G. assert (existsb (Ascii.eqb nl) (tx s) = true); [|congruence]. apply existsb_exists. exists nl.
  split; [exact G|apply Ascii.eqb_refl].
Qed.
Lemma clean_app a b : clean a -> clean b -> clean (a ++ b).
Proof. intros H1 H2 H. apply in_app_or in H. now destruct H. Qed.
Lemma line_clean p : clean (line_of p).
Proof.
  unfold line_of. apply clean_app; [now apply tx_clean|]. apply clean_app.
  - intros H. apply vec_chars in H. destruct H as [H|[H|H]]; [now apply numeric_clean in H|discriminate|discriminate].
  - apply clean_app; [now apply tx_clean|]. intros H. apply int_numeric, numeric_clean in H. now apply H.
Qed.
Lemma sol_clean a : clean (sol_line a).
Proof.
  apply clean_app; [now apply tx_clean|]. intros H. apply in_map_iff in H. destruct H as ([[|]|] & H & _); discriminate.
Qed.
Lemma front_clean ps : Forall clean (front_lines ps).
Proof.
  constructor; [now apply tx_clean|]. constructor; [now apply tx_clean|]. apply Forall_app. split; [|constructor; [now apply tx_clean|constructor]].
  apply Forall_forall. intros l Hl. apply in_concat in Hl. destruct Hl as (ls & H1 & H2). apply in_map_iff in H1.
  destruct H1 as ([[cs n] sols] & <- & _). cbn [point_lines] in H2. destruct H2 as [<-|[<-|H2]]; [now apply tx_clean|apply line_clean|].
  apply in_app_or in H2. destruct H2 as [H2|[<-|[]]]; [|now apply tx_clean].
  apply in_map_iff in H2. destruct H2 as (a & <- & _). apply sol_clean.
Qed.

Lemma point_unlines p : non_dom_text p = unlines (point_lines p).
Proof.
  destruct p as [[cs n] sols]. unfold non_dom_text, point_lines, start_block, end_block, vec_text, line_of. cbn [fst snd].
  change (tx ">>>>>" :: ?a :: ?b) with ([tx ">>>>>"; a] ++ b). rewrite !unlines_app. unfold unlines at 1 3. cbn [map List.concat].
  rewrite !app_nil_r. rewrite <- !app_assoc. do 1 f_equal.
  assert (E : List.concat (map (fun sol => tx "v " ++ assignment_text sol ++ [nl]) sols) = unlines (map sol_line sols)).
  { unfold unlines. rewrite map_map. apply (f_equal (@List.concat _)), map_ext. reflexivity. }
  rewrite E. reflexivity.
Qed.
Lemma front_unlines ps f : front_text ps f = unlines (front_lines (print_front ps f)).
Proof.
  unfold front_text, front_lines, start_block, end_block.
  change (tx ">>>>>" :: ?a :: ?b) with ([tx ">>>>>"; a] ++ b). rewrite !unlines_app. unfold unlines at 1 3. cbn [map List.concat].
  rewrite !app_nil_r. rewrite <- !app_assoc. do 1 f_equal.
  assert (E : List.concat (map non_dom_text (print_front ps f)) = unlines (List.concat (map point_lines (print_front ps f)))).
  { induction (print_front ps f) as [|p l IH]; [reflexivity|]. cbn [map List.concat]. rewrite unlines_app, IH. now rewrite point_unlines. }
  rewrite E. reflexivity.
Qed.

Lemma read_sols sols : forall v n done r, read_lines false (Some (v, n, done)) (map sol_line sols ++ r) =
  read_lines false (Some (v, n, done ++ sols)) r.
Proof.
  induction sols as [|a sols IH]; intros v n done r; cbn [map app]; [now rewrite app_nil_r|].
  cbn [read_lines]. unfold sol_line at 1. rewrite sol_line_no_end. unfold sol_line at 1.
  change (ch "v ") with (tx "v "). rewrite after_app, read_sol_text, IH. now rewrite <- app_assoc.
Qed.
Lemma read_points ps : read_lines false None (List.concat (map point_lines ps) ++ [tx "<<<<<"] ++ [[]]) = Some ps.
Proof.
  induction ps as [|[[cs n] sols] ps IH]; [reflexivity|]. cbn [map List.concat point_lines].
  change ((tx ">>>>>" :: ?a :: ?b) ++ ?c) with (tx ">>>>>" :: a :: (b ++ c)). cbn [app]. rewrite <- !app_assoc.
  cbn [read_lines]. change (same (tx ">>>>>") (ch ">>>>>")) with true. cbv iota. cbn [read_lines].
  rewrite read_point_line. rewrite read_sols. cbn [app read_lines]. change (same (tx "<<<<<") (ch "<<<<<")) with true. cbv iota.
  cbn [app] in IH. now rewrite IH.
Qed.
Lemma read_back ps f : read_front (front_text ps f) = Some (print_front ps f).
Proof.
  unfold read_front. rewrite front_unlines. change (ascii_of_nat 10) with nl.
  rewrite split_unlines by apply front_clean. unfold front_lines. cbn [app].
  change (same (tx ">>>>>") (ch ">>>>>")) with true. change (same (tx "Discovered Pareto Front: ") (ch "Discovered Pareto Front: ")) with true.
  cbn [andb]. rewrite <- app_assoc. apply read_points.
Qed.
