(** Proofs about the input primitives and the parser for single items. *)
From Coq Require Import String List NArith Arith Bool Lia.
Import ListNotations.
From Verif Require Import Text Event Input Parse SpecText SpecAttr SpecLocation SpecParse
  TextProofs AttrProofs AttrProofs2 LocationProofs.
Local Open Scope N_scope.

(** ** Inputs as a consumed prefix and a rest *)

Definition loc_of (p : str) : location := with_consumed at_start p.
Definition at_ (p s : str) : input := Input s (loc_of p).

Lemma at_prefix_loc_of p : AtPrefix p (loc_of p).
Proof. apply (at_prefix_consumed [] at_start p), at_prefix_start. Qed.
Lemma loc_of_app p q : with_consumed (loc_of p) q = loc_of (p ++ q).
Proof.
  apply at_prefix_unique with (p ++ q); [|apply at_prefix_loc_of].
  apply at_prefix_consumed, at_prefix_loc_of.
Qed.
Lemma input_new_at s : input_new s = at_ [] s.
Proof. reflexivity. Qed.
Lemma advanced_at p a b : advanced (at_ p (a ++ b)) (length a) = at_ (p ++ a) b.
Proof. unfold advanced, at_. cbn [content in_loc]. now rewrite skipn_app_exact, firstn_app_exact, loc_of_app. Qed.
Lemma consumed_at p a b : consumed (at_ p (a ++ b)) (length a) = (a, at_ (p ++ a) b).
Proof. unfold consumed. rewrite advanced_at. cbn [content at_]. now rewrite firstn_app_exact. Qed.
Lemma take_all_at p s : take_all (at_ p s) = (s, at_ (p ++ s) []).
Proof.
  unfold take_all. cbn [content at_]. rewrite <- (app_nil_r s) at 1. rewrite consumed_at. reflexivity.
Qed.

(** ** Primitives *)

Lemma starts_with_iff pat s : starts_with pat s = true <-> exists r, s = pat ++ r.
Proof.
  revert s; induction pat as [|x pat IH]; intros s; simpl; [split; eauto|].
  destruct s as [|c s]; [split; [discriminate|]; intros [r H]; discriminate|].
  rewrite andb_true_iff, N.eqb_eq, IH. split.
  - intros [-> [r ->]]. eauto.
  - intros [r H]. injection H as <- ->. eauto.
Qed.
Lemma take_str_yes p pat s : take_str (at_ p (pat ++ s)) pat = Some (at_ (p ++ pat) s).
Proof.
  unfold take_str. cbn [content at_]. replace (starts_with pat (pat ++ s)) with true.
  - now rewrite advanced_at.
  - symmetry. apply starts_with_iff. eauto.
Qed.
Lemma take_str_no p pat s : ~ (exists r, s = pat ++ r) -> take_str (at_ p s) pat = None.
Proof.
  intros H. unfold take_str. cbn [content at_].
  destruct (starts_with pat s) eqn:E; auto. apply starts_with_iff in E. tauto.
Qed.
Lemma take_char_yes p c s : take_char (at_ p (c :: s)) c = Some (at_ (p ++ [c]) s).
Proof. exact (take_str_yes p [c] s). Qed.
Lemma take_char_no p c s : ~ Begins (eq c) s -> take_char (at_ p s) c = None.
Proof.
  intros H. apply (take_str_no p [c]). intros [r ->]. apply H. exists c, r. auto.
Qed.
Lemma begins_eq_dec (c : char) (s : str) : Begins (eq c) s \/ ~ Begins (eq c) s.
Proof.
  destruct s as [|x s]; [right; intros (? & ? & ? & _); discriminate|].
  destruct (N.eq_dec c x) as [->|H]; [left; exists x, s; auto|].
  right. intros (y & r & E & <-). congruence.
Qed.
Lemma begins_eq c s : Begins (eq c) s -> exists r, s = c :: r.
Proof. intros (x & r & -> & <-). eauto. Qed.

Lemma begins_cons P c s : Begins P (c :: s) <-> P c.
Proof.
  split; [intros (x & r & E & H)|intros H; exists c, s; auto]. congruence.
Qed.
Lemma begins_nil P : ~ Begins P [].
Proof. intros (? & ? & ? & _). discriminate. Qed.
Lemma begins_app P a b : a <> [] -> (Begins P (a ++ b) <-> Begins P a).
Proof. destruct a; [congruence|]. intros _. simpl. now rewrite !begins_cons. Qed.

Lemma trim_left_gap w s : Gap w s -> trim_left (w ++ s) = s.
Proof.
  intros [Hw Hs]. induction Hw as [|c w Hc _ IH]; simpl.
  - destruct s as [|c s]; auto. simpl. destruct (is_whitespace c) eqn:E; auto.
    exfalso. apply Hs. apply begins_cons. now apply space_spec.
  - apply space_spec in Hc. now rewrite Hc.
Qed.
Lemma gap_split s : exists w r, s = w ++ r /\ Gap w r.
Proof.
  induction s as [|c s (w & r & -> & Hw & Hr)].
  - exists [], []. repeat split; [constructor|]. apply begins_nil.
  - destruct (is_whitespace c) eqn:E.
    + exists (c :: w), r. split; auto. split; auto. constructor; auto. now apply space_spec.
    + exists [], (c :: w ++ r). split; auto. split; [constructor|]. rewrite begins_cons.
      now apply space_spec_false.
Qed.
Lemma skip_gap p w s : Gap w s -> skip_whitespace (at_ p (w ++ s)) = at_ (p ++ w) s.
Proof.
  intros H. unfold skip_whitespace. cbn [content at_]. rewrite (trim_left_gap _ _ H), app_length.
  replace (length w + length s - length s)%nat with (length w) by lia. apply advanced_at.
Qed.
Lemma skip_none p s : ~ Begins Space s -> skip_whitespace (at_ p s) = at_ p s.
Proof.
  intros H. change s with ([] ++ s) at 1. rewrite skip_gap.
  - now rewrite app_nil_r.
  - split; auto. constructor.
Qed.

Lemma terminators c : in_chars TERMINATORS c = true <-> Delimiter c.
Proof. apply in_chars_spec. Qed.
Lemma terminators_false c : in_chars TERMINATORS c = false <-> ~ Delimiter c.
Proof. rewrite <- terminators. destruct (in_chars TERMINATORS c); intuition congruence. Qed.

Lemma word_split s : WordEnds s \/ exists w r, s = w ++ r /\ Word w r.
Proof.
  destruct s as [|c s]; [left; now left|].
  destruct (in_chars TERMINATORS c) eqn:Ec.
  { left. right. apply begins_cons. now apply terminators. }
  right. destruct (find_char (in_chars TERMINATORS) (c :: s)) as [k|] eqn:E.
  - apply find_char_some in E. destruct E as (pre & x & post & E & _ & Hx & Hpre).
    exists pre, (x :: post). split; auto. split; [|split].
    + destruct pre; [|discriminate]. simpl in E. congruence.
    + intros y Hy. now apply terminators_false, Hpre.
    + right. apply begins_cons. now apply terminators.
  - exists (c :: s), []. rewrite app_nil_r. split; auto. split; [discriminate|]. split; [|now left].
    intros y Hy. apply terminators_false. now apply (proj1 (find_char_none _ _) E).
Qed.
Lemma take_word_none p s : WordEnds s -> take_word (at_ p s) = None.
Proof.
  intros [->|(c & r & -> & Hc)]; [reflexivity|]. unfold take_word. cbn [content at_ find_char].
  apply terminators in Hc. now rewrite Hc.
Qed.
Lemma take_word_some p w r : Word w r -> take_word (at_ p (w ++ r)) = Some (w, at_ (p ++ w) r).
Proof.
  intros (Hne & Hw & Hr). unfold take_word. cbn [content at_].
  assert (E : match find_char (in_chars TERMINATORS) (w ++ r) with
              | Some pos => pos | None => length (w ++ r) end = length w).
  { destruct Hr as [->|(c & r' & -> & Hc)].
    - rewrite app_nil_r. replace (find_char (in_chars TERMINATORS) w) with (@None nat); auto.
      symmetry. apply find_char_none. intros c Hc. now apply terminators_false, Hw.
    - rewrite find_char_app; auto.
      + intros x Hx. now apply terminators_false, Hw.
      + now apply terminators. }
  rewrite E. rewrite consumed_at. destruct w; [congruence|reflexivity].
Qed.
Lemma take_identifier_none p s : WordEnds s -> take_identifier (at_ p s) = inl None.
Proof. intros H. unfold take_identifier. now rewrite take_word_none. Qed.
Lemma take_identifier_some p n r : Name n r ->
  take_identifier (at_ p (n ++ r)) = inl (Some (name n, at_ (p ++ n) r)).
Proof.
  intros [Hw Hv]. unfold take_identifier. rewrite take_word_some by auto.
  now rewrite (proj2 (ident_from_str_iff n (name n)) (conj Hv eq_refl)).
Qed.
Lemma take_identifier_err p x r e : Word x r -> NameError x e ->
  take_identifier (at_ p (x ++ r)) = inr e.
Proof.
  intros Hw He. unfold take_identifier. rewrite take_word_some by auto.
  now rewrite (proj2 (ident_from_str_err x e) He).
Qed.
(** the three ways in which a text can begin *)
Lemma identifier_cases s :
  WordEnds s \/ exists x r, s = x ++ r /\ (Name x r \/ Word x r /\ exists e, NameError x e).
Proof.
  destruct (word_split s) as [H|(x & r & -> & H)]; auto. right. exists x, r. split; auto.
  pose proof (validate_inv x) as V. destruct (validate x) as [t|e].
  - left. split; tauto.
  - right. eauto.
Qed.

Lemma char_split (c : char) (s : str) : ~ In c s \/ exists a b, s = a ++ c :: b /\ ~ In c a.
Proof.
  induction s as [|x s IH]; [left; intros []|].
  destruct (N.eq_dec x c) as [->|Hx]; [right; exists [], s; split; auto; intros []|].
  destruct IH as [H|(a & b & -> & H)].
  - left. intros [E|E]; auto.
  - right. exists (x :: a), b. split; auto. intros [E|E]; auto.
Qed.
Lemma take_until_char_some p c a b : ~ In c a ->
  take_until_char (at_ p (a ++ c :: b)) c = Some (a, at_ (p ++ a) (c :: b)).
Proof.
  intros H. unfold take_until_char. cbn [content at_]. rewrite find_char_app.
  - now rewrite consumed_at.
  - intros x Hx. apply N.eqb_neq. intros ->. auto.
  - apply N.eqb_refl.
Qed.
Lemma take_until_char_none p c s : ~ In c s -> take_until_char (at_ p s) c = None.
Proof.
  intros H. unfold take_until_char. cbn [content at_].
  replace (find_char (N.eqb c) s) with (@None nat); auto. symmetry. apply find_char_none.
  intros x Hx. apply N.eqb_neq. intros ->. auto.
Qed.

Lemma find_str_some pat s k : find_str pat s = Some k ->
  exists a b, s = a ++ pat ++ b /\ length a = k /\
              forall p q, a ++ pat ++ b = p ++ pat ++ q -> (k <= length p)%nat.
Proof.
  revert k; induction s as [|c s IH]; intros k H; simpl in H.
  - destruct (starts_with pat []) eqn:E; [|discriminate]. injection H as <-.
    apply starts_with_iff in E. destruct E as [r E]. exists [], r. repeat split; auto. intros; lia.
  - destruct (starts_with pat (c :: s)) eqn:E.
    + injection H as <-. apply starts_with_iff in E. destruct E as [r E].
      exists [], r. repeat split; auto. intros; lia.
    + destruct (find_str pat s) as [n|] eqn:En; [|discriminate]. injection H as <-.
      destruct (IH n eq_refl) as (a & b & -> & <- & Hf). exists (c :: a), b. repeat split; auto.
      intros [|x p] q Hq.
      * exfalso. simpl in Hq. assert (T : starts_with pat (c :: a ++ pat ++ b) = true).
        { apply starts_with_iff. eauto. } congruence.
      * simpl in Hq. injection Hq as _ Hq. apply Hf in Hq. simpl. lia.
Qed.
Lemma find_str_none pat s : find_str pat s = None <-> forall p q, s <> p ++ pat ++ q.
Proof.
  induction s as [|c s IH]; simpl.
  - destruct (starts_with pat []) eqn:E.
    + split; [discriminate|]. intros H. apply starts_with_iff in E. destruct E as [r E].
      exfalso. now apply (H [] r).
    + split; auto. intros _ p q H. destruct p; [|discriminate]. simpl in H.
      assert (starts_with pat [] = true) by (apply starts_with_iff; eauto). congruence.
  - destruct (starts_with pat (c :: s)) eqn:E.
    + split; [discriminate|]. intros H. apply starts_with_iff in E. destruct E as [r E].
      exfalso. now apply (H [] r).
    + destruct (find_str pat s) as [n|].
      * split; [discriminate|]. intros H. exfalso.
        assert (X : Some n = None); [|discriminate X].
        apply (proj2 IH). intros p q ->. now apply (H (c :: p) q).
      * split; auto. intros _ [|x p] q H.
        -- simpl in H. assert (starts_with pat (c :: s) = true) by (apply starts_with_iff; eauto).
           congruence.
        -- simpl in H. injection H as _ H. now apply (proj1 IH eq_refl) in H.
Qed.
Lemma find_str_first pat a b :
  (forall p q, a ++ pat ++ b = p ++ pat ++ q -> (length a <= length p)%nat) ->
  find_str pat (a ++ pat ++ b) = Some (length a).
Proof.
  intros H. destruct (find_str pat (a ++ pat ++ b)) as [k|] eqn:E.
  - apply find_str_some in E. destruct E as (a' & b' & E & <- & Hf). f_equal.
    specialize (H a' b' E). specialize (Hf a b (eq_sym E)). lia.
  - exfalso. now apply (proj1 (find_str_none _ _) E a b).
Qed.
Lemma take_until_str_some p pat a b :
  (forall p q, a ++ pat ++ b = p ++ pat ++ q -> (length a <= length p)%nat) ->
  take_until_str (at_ p (a ++ pat ++ b)) pat = Some (a, at_ (p ++ a) (pat ++ b)).
Proof.
  intros H. unfold take_until_str. cbn [content at_]. rewrite find_str_first by auto.
  now rewrite consumed_at.
Qed.
Lemma take_until_str_none p pat s : (forall a b, s <> a ++ pat ++ b) ->
  take_until_str (at_ p s) pat = None.
Proof.
  intros H. unfold take_until_str. cbn [content at_]. now rewrite (proj2 (find_str_none pat s) H).
Qed.
Lemma str_split (pat s : str) : (forall a b, s <> a ++ pat ++ b) \/
  exists a b, s = a ++ pat ++ b /\
    forall p q, a ++ pat ++ b = p ++ pat ++ q -> (length a <= length p)%nat.
Proof.
  destruct (find_str pat s) as [k|] eqn:E.
  - right. apply find_str_some in E. destruct E as (a & b & -> & <- & H). eauto.
  - left. now apply find_str_none.
Qed.

(** ** Names and delimiters *)

Lemma delimiter_dec c : Delimiter c \/ ~ Delimiter c.
Proof.
  destruct (in_chars TERMINATORS c) eqn:E; [left; now apply terminators|].
  right. now apply terminators_false.
Qed.
Lemma word_ends_app a b : a <> [] -> (WordEnds (a ++ b) <-> WordEnds a).
Proof.
  intros H. unfold WordEnds. rewrite begins_app by auto. split; intros [E|E]; auto; left.
  - apply app_eq_nil in E. tauto.
  - congruence.
Qed.
Lemma word_app x a b : a <> [] -> (Word x (a ++ b) <-> Word x a).
Proof. intros H. unfold Word. now rewrite word_ends_app. Qed.
Lemma name_app x a b : a <> [] -> (Name x (a ++ b) <-> Name x a).
Proof. intros H. unfold Name. now rewrite word_app. Qed.
Lemma name_snoc x w c r : Name x (w ++ c :: r) <-> Name x (w ++ [c]).
Proof.
  change (w ++ c :: r) with (w ++ [c] ++ r). rewrite app_assoc. apply name_app. now destruct w.
Qed.
Lemma name_no_space n r s : Name n r -> ~ Begins Space (n ++ s).
Proof.
  intros [(Hne & _) Hv] H. rewrite begins_app in H by auto. destruct H as (c & t & -> & Hc).
  apply (valid_no_space _ Hv c); auto. now left.
Qed.
Lemma space_not_delim c : Space c -> c <> 62 /\ c <> 60 /\ c <> 47 /\ c <> 61 /\ c <> 34.
Proof. unfold Space. simpl. lia. Qed.
Lemma blank_app a b : Blank (a ++ b) <-> Blank a /\ Blank b.
Proof. apply Forall_app. Qed.
Lemma blank_in w c : Blank w -> In c w -> Space c.
Proof. intros H. now apply Forall_forall. Qed.
Lemma gap_blank w c s : Blank w -> ~ Space c -> Gap w (c :: s).
Proof. intros H Hc. split; auto. now rewrite begins_cons. Qed.
Lemma ns62 : ~ Space 62. Proof. unfold Space; simpl; lia. Qed.
Lemma ns47 : ~ Space 47. Proof. unfold Space; simpl; lia. Qed.
Lemma ns61 : ~ Space 61. Proof. unfold Space; simpl; lia. Qed.
Lemma ns34 : ~ Space 34. Proof. unfold Space; simpl; lia. Qed.
Lemma ns60 : ~ Space 60. Proof. unfold Space; simpl; lia. Qed.
Lemma ns33 : ~ Space 33. Proof. unfold Space; simpl; lia. Qed.
#[export] Hint Resolve ns62 ns47 ns61 ns34 ns60 ns33 gap_blank : gaps.
