(** The costed parser has the results of the parser; bounds for its parts. *)
From Coq Require Import String List NArith Bool Lia PeanoNat.
From Verif Require Import Selector Machine Template Text Event Input Parse ParseCost SpecText SpecAttr SpecLocation SpecParse ParseProofs.
Import ListNotations.
Local Open Scope nat_scope.

(** ** The same results *)

Lemma fst_bind {A B} (m : costed A) (f : A -> costed B) : fst (bind m f) = fst (f (fst m)).
Proof. destruct m as [a n]. cbn. destruct (f a). reflexivity. Qed.
Lemma snd_bind {A B} (m : costed A) (f : A -> costed B) : snd (bind m f) = snd m + snd (f (fst m)).
Proof. destruct m as [a n]. cbn. destruct (f a). reflexivity. Qed.

Ltac same_step :=
  match goal with
  | |- context [fst (bind ?m ?f)] => rewrite (fst_bind m f)
  | |- context [fst (ret ?x)] => change (fst (ret x)) with x
  | |- context [fst (costs ?n ?x)] => change (fst (costs n x)) with x
  end.
Lemma same_advanced i n : fst (advanced_c i n) = advanced i n.
Proof. reflexivity. Qed.
Lemma same_consumed i n : fst (consumed_c i n) = consumed i n.
Proof. reflexivity. Qed.
Lemma same_take_all i : fst (take_all_c i) = take_all i.
Proof. reflexivity. Qed.
Lemma same_take_until_str i e : fst (take_until_str_c i e) = take_until_str i e.
Proof. unfold take_until_str_c, take_until_str. rewrite fst_bind. cbn. destruct (find_str e (content i)); reflexivity. Qed.
Lemma same_take_until_char i e : fst (take_until_char_c i e) = take_until_char i e.
Proof. unfold take_until_char_c, take_until_char. rewrite fst_bind. cbn. destruct (find_char _ (content i)); reflexivity. Qed.
Lemma same_take_until_end_loop i f g l : (forall r, fst (f r) = g r) ->
  fst (take_until_end_loop_c i f l) = take_until_end_loop i g l.
Proof.
  intros E. induction l as [|x l IH]; [reflexivity|]. cbn [take_until_end_loop_c take_until_end_loop].
  rewrite !fst_bind, same_advanced, E. destruct (g (advanced i x)); [reflexivity|exact IH].
Qed.
Lemma same_take_until_end_char i c f g : (forall r, fst (f r) = g r) ->
  fst (take_until_end_char_c i c f) = take_until_end_char i c g.
Proof.
  intros E. unfold take_until_end_char_c, take_until_end_char. rewrite fst_bind. cbn [costs fst].
  now apply same_take_until_end_loop.
Qed.
Lemma same_take_str i p : fst (take_str_c i p) = take_str i p.
Proof. unfold take_str_c, take_str. rewrite fst_bind. cbn [starts_with_c costs fst]. destruct (starts_with p (content i)); reflexivity. Qed.
Lemma same_take_char i c : fst (take_char_c i c) = take_char i c.
Proof. unfold take_char_c, take_char. rewrite fst_bind. cbn [starts_with_c costs fst]. destruct (starts_with [c] (content i)); reflexivity. Qed.
Lemma same_skip i : fst (skip_whitespace_c i) = skip_whitespace i.
Proof. reflexivity. Qed.
Lemma same_take_word i : fst (take_word_c i) = take_word i.
Proof.
  unfold take_word_c, take_word. rewrite fst_bind. cbn [find_char_c costs fst].
  destruct (match find_char _ _ with Some pos => pos | None => _ end); reflexivity.
Qed.
Lemma same_take_exact i s : fst (try_take_exact_identifier_c i s) = try_take_exact_identifier i s.
Proof.
  unfold try_take_exact_identifier_c, try_take_exact_identifier. rewrite fst_bind, same_take_word.
  destruct (take_word i) as [[w r]|]; [|reflexivity]. rewrite fst_bind. cbn [ident_from_str_c costs fst].
  destruct (ident_from_str w) as [x|e]; [|reflexivity]. rewrite fst_bind. cbn [identifier_eq_c costs fst].
  destruct (identifier_eq _ _); reflexivity.
Qed.
Lemma same_take_identifier i : fst (take_identifier_c i) = take_identifier i.
Proof.
  unfold take_identifier_c, take_identifier. rewrite fst_bind, same_take_word.
  destruct (take_word i) as [[w r]|]; [|reflexivity]. rewrite fst_bind. cbn [ident_from_str_c costs fst].
  destruct (ident_from_str w) as [x|e]; reflexivity.
Qed.
Lemma same_data i : fst (try_parse_data_c i) = try_parse_data i.
Proof.
  unfold try_parse_data_c, try_parse_data. rewrite !fst_bind, same_take_until_char.
  destruct (take_until_char i c_lt) as [[d r]|]; cbn [fst ret take_all_c].
  - destruct d; reflexivity.
  - change (fst (take_all_c i)) with (take_all i). destruct (take_all i) as [d r]. destruct d; reflexivity.
Qed.
Lemma same_comment i : fst (try_parse_comment_c i) = try_parse_comment i.
Proof.
  unfold try_parse_comment_c, try_parse_comment. rewrite fst_bind, same_take_str.
  destruct (take_str i _) as [r|]; [|reflexivity]. rewrite fst_bind, same_take_until_str.
  destruct (take_until_str r _) as [[d r']|]; [|reflexivity]. rewrite fst_bind, same_take_str.
  destruct (take_str r' _); reflexivity.
Qed.
Lemma same_doctype i : fst (try_parse_doctype_c i) = try_parse_doctype i.
Proof.
  unfold try_parse_doctype_c, try_parse_doctype. rewrite fst_bind, same_take_str.
  destruct (take_str i _) as [r|]; [|reflexivity]. rewrite fst_bind, same_skip, fst_bind, same_take_exact.
  destruct (try_take_exact_identifier _ _) as [[x r']|]; [|reflexivity].
  rewrite fst_bind, same_skip, fst_bind, same_take_until_char.
  destruct (take_until_char _ _) as [[d r'']|]; [|reflexivity].
  rewrite fst_bind. cbn [trim_c costs fst]. rewrite fst_bind, same_take_char.
  destruct (take_char r'' c_gt) as [r3|]; [|reflexivity]. rewrite fst_bind. cbn [identifier_eq_c costs fst].
  destruct (identifier_eq _ _); reflexivity.
Qed.
Lemma same_close i : fst (try_parse_tag_close_c i) = try_parse_tag_close i.
Proof.
  unfold try_parse_tag_close_c, try_parse_tag_close. rewrite fst_bind, same_take_char.
  destruct (take_char i c_lt) as [r|]; [|reflexivity]. rewrite fst_bind, same_skip, fst_bind, same_take_char.
  destruct (take_char _ c_slash) as [r1|]; [|reflexivity]. rewrite fst_bind, same_skip, fst_bind, same_take_identifier.
  destruct (take_identifier _) as [[[x r2]|]|]; try reflexivity.
  rewrite fst_bind, same_skip, fst_bind, same_take_char. destruct (take_char _ c_gt); reflexivity.
Qed.
Lemma same_attribute t i : fst (try_parse_attribute_c t i) = try_parse_attribute t i.
Proof.
  unfold try_parse_attribute_c, try_parse_attribute. rewrite fst_bind, same_take_identifier.
  destruct (take_identifier i) as [[[x r]|]|]; try reflexivity. rewrite fst_bind, same_skip, fst_bind, same_take_char.
  destruct (take_char _ c_eq) as [r1|]; [|reflexivity]. rewrite fst_bind, same_skip. cbv zeta. rewrite fst_bind, same_take_char.
  destruct (take_char _ c_quot) as [r2|]; [|reflexivity]. rewrite fst_bind, same_skip, fst_bind, same_take_until_char.
  destruct (take_until_char _ c_quot) as [[v r3]|]; [|reflexivity]. rewrite fst_bind, same_take_char.
  destruct (take_char r3 c_quot); reflexivity.
Qed.
Lemma same_attributes_loop t n : forall i acc, fst (parse_attributes_loop_c n t i acc) = parse_attributes_loop n t i acc.
Proof.
  induction n as [|n IH]; intros i acc; [reflexivity|]. cbn [parse_attributes_loop_c parse_attributes_loop].
  destruct (input_is_empty i); [reflexivity|]. rewrite fst_bind, same_attribute.
  destruct (try_parse_attribute t i) as [[[a r]|]| | |]; try reflexivity. rewrite fst_bind, same_skip. apply IH.
Qed.
Lemma same_open i : fst (try_parse_tag_open_c i) = try_parse_tag_open i.
Proof.
  unfold try_parse_tag_open_c, try_parse_tag_open. rewrite fst_bind, same_take_char.
  destruct (take_char i c_lt) as [r|]; [|reflexivity]. rewrite fst_bind, same_skip, fst_bind, same_take_identifier.
  destruct (take_identifier _) as [[[x r2]|]|]; try reflexivity.
  rewrite fst_bind, same_skip, fst_bind. unfold parse_attributes_c, parse_attributes.
  rewrite fst_bind, same_skip, same_attributes_loop.
  destruct (parse_attributes_loop _ _ _ _) as [[l r3]| | |]; try reflexivity.
  rewrite fst_bind, same_skip, fst_bind, same_take_char. rewrite fst_bind.
  destruct (take_char _ c_slash) as [r4|].
  - rewrite fst_bind, same_skip. cbn [ret fst]. rewrite fst_bind, same_take_char.
    destruct (take_char _ c_gt); reflexivity.
  - cbn [ret fst]. rewrite fst_bind, same_take_char. destruct (take_char _ c_gt); reflexivity.
Qed.
Lemma same_or_else {A} (a : costed (option A)) b a' b' : fst a = a' -> fst (b tt) = b' tt ->
  fst (or_else_c a b) = or_else a' b'.
Proof. intros <- E. unfold or_else_c, or_else. rewrite fst_bind. now destruct (fst a). Qed.
Lemma same_data_mode i : fst (parse_data_mode_c i) = parse_data_mode i.
Proof.
  unfold parse_data_mode_c, parse_data_mode. rewrite fst_bind. cbn [ret fst].
  erewrite same_or_else; [reflexivity|apply same_comment|].
  apply (same_or_else _ _ _ (fun _ => _)); [apply same_doctype|].
  apply (same_or_else _ _ _ (fun _ => _)); [|apply same_data].
  apply (same_or_else _ _ _ (fun _ => _)); [apply same_close|apply same_open].
Qed.
Lemma same_raw_data_end s i : fst (raw_data_end_c s i) = raw_data_end s i.
Proof.
  unfold raw_data_end_c, raw_data_end. rewrite fst_bind, same_close.
  destruct (try_parse_tag_close i) as [[p| | |]|]; try reflexivity. destruct (loc_value (p_event p)); reflexivity.
Qed.
Lemma same_raw_data i s : fst (parse_raw_data_c i s) = parse_raw_data i s.
Proof.
  unfold parse_raw_data_c, parse_raw_data. rewrite !fst_bind.
  rewrite (same_take_until_end_char i c_lt _ (raw_data_end s)) by apply same_raw_data_end.
  destruct (take_until_end_char _ _ _) as [[d r]|]; reflexivity.
Qed.
Lemma same_parse m i : fst (parse_c m i) = parse m i.
Proof. destruct m; [apply same_data_mode|apply same_raw_data]. Qed.
Lemma same_next_close it l e m r : fst (iter_next_close_c it l e m r) = iter_next_close it l e m r.
Proof.
  unfold iter_next_close_c, iter_next_close. destruct e; try reflexivity.
  destruct (it_stack it) as [|x st]; [reflexivity|]. rewrite fst_bind. cbn [identifier_eq_c costs fst].
  change (ident_eqb tag (loc_value x)) with (identifier_eq (id_str tag) (id_str (loc_value x))).
  destruct (identifier_eq _ _); reflexivity.
Qed.
Lemma same_next it : fst (iter_next_c it) = iter_next it.
Proof.
  unfold iter_next_c, iter_next. destruct (input_is_empty _).
  - destruct (it_stack it); reflexivity.
  - rewrite fst_bind, same_parse. destruct (parse _ _) as [[[l e] m r]| | |]; try reflexivity.
    destruct e; try apply same_next_close.
    destruct (match max_stack_depth _ with Some _ => _ | None => _ end); [reflexivity|].
    rewrite fst_bind. apply same_next_close.
Qed.
Lemma same_collect n : forall it acc, fst (collect_c n it acc) = collect n it acc.
Proof.
  induction n as [|n IH]; intros it acc; [reflexivity|]. cbn [collect_c collect]. rewrite fst_bind, same_next.
  destruct (iter_next it) as [[[e| | |]|] it']; try reflexivity. rewrite fst_bind. apply IH.
Qed.
Lemma from_str_same s o : fst (from_str_c s o) = from_str s o.
Proof.
  unfold from_str_c, from_str, parse_events_c, parse_events. cbv zeta.
  destruct (max_input_len o) as [n|]; [destruct (Nat.ltb n (str_len s)); [reflexivity|]|];
    rewrite fst_bind, same_collect; reflexivity.
Qed.
