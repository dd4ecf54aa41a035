(** Properties C47 (limits), C48 (errors that more text cannot remove) and C49 (two texts,
    one after the other). *)
From Coq Require Import String List NArith Arith.
Import ListNotations.
From Verif Require Import Text Event Input Parse Selector Template SpecText SpecLocation SpecParse SpecDocument
  ParseProofs11 ParseProofs12 ParseProofs13 ParseProofs14.
Local Open Scope N_scope.

(** ** C47 Limits only limit *)

(** The options built by a chain of calls have for each limit what the last call about it
    said, and otherwise what they had. *)
Theorem C47_last_call_counts : forall o xs,
  LastSaid SaysDepth (max_stack_depth o) xs (max_stack_depth (set_options o xs)) /\
  LastSaid SaysLength (max_input_len o) xs (max_input_len (set_options o xs)).
Proof. exact set_options_said. Qed.
Print Assumptions C47_last_call_counts.

(** The default options accept the most, and a text is accepted under other options exactly
    if it is accepted under these, and is within the limits; the events are the same. *)
Theorem C47_accepted : forall s o evs, from_str s o = TOk evs <->
  from_str s default_options = TOk evs /\
  (forall d, max_stack_depth o = Some d -> DepthAtMost d evs) /\
  (forall n, max_input_len o = Some n -> (length (utf8 s) <= n)%nat).
Proof. exact accepted_iff. Qed.
Print Assumptions C47_accepted.

(** Without limits, no error is about a limit. *)
Theorem C47_default_unlimited : forall s e, from_str s default_options = TErr e ->
  exists pe, e = ParseError pe /\ forall t l k, pe <> StackLimitExceeded t l k.
Proof. exact default_only_parse_errors. Qed.
Print Assumptions C47_default_unlimited.

(** Under looser limits, accepted texts stay accepted, and errors that are not about limits
    stay the same. *)
Theorem C47_looser_accepts : forall s o o' evs, Looser o o' ->
  from_str s o' = TOk evs -> from_str s o = TOk evs.
Proof. exact looser_ok. Qed.
Print Assumptions C47_looser_accepts.

Theorem C47_looser_rejects : forall s o o' e, Looser o o' -> (forall t l k, e <> StackLimitExceeded t l k) ->
  from_str s o' = TErr (ParseError e) -> from_str s o = TErr (ParseError e).
Proof. exact looser_error. Qed.
Print Assumptions C47_looser_rejects.

Example C47_example_calls :
  set_options default_options [MaxStackDepth 3; MaxInputLen 100; NoMaxStackDepth; MaxInputLen 50]
  = Options None (Some 50%nat).
Proof. reflexivity. Qed.
Example C47_example_looser : Looser (Options (Some 2%nat) None) (Options (Some 1%nat) (Some 30%nat)) /\
  from_str (lit "<p>a</p>") (Options (Some 1%nat) (Some 30%nat))
  = TOk [OpeningTag (name (lit "p")) []; Data (raw (lit "a")); ClosingTag (name (lit "p"))] /\
  from_str (lit "<p><b>a</b></p>") (Options (Some 1%nat) (Some 30%nat))
  = TErr (ParseError (StackLimitExceeded (lit "b") (Location 1 4 3) 1%nat)).
Proof.
  split; [|split; vm_compute; reflexivity]. split; intros x E; [|discriminate].
  injection E as <-. exists 1%nat. auto.
Qed.
Example C47_example_error : from_str (lit "a<p></q>") (Options (Some 1%nat) (Some 30%nat))
  = TErr (ParseError (MismatchedClosingTag (lit "p") (Location 1 2 1) (lit "q") (Location 1 5 4))).
Proof. vm_compute. reflexivity. Qed.

(** ** C48 Which errors more text cannot remove

    [Pending s e]: the error is about something missing at the end of [s]. *)

Theorem C48_error_stays : forall s t o e, from_str s o = TErr (ParseError e) -> ~ Pending s e ->
  (forall n, max_input_len o = Some n -> (length (utf8 (s ++ t)) <= n)%nat) ->
  from_str (s ++ t) o = TErr (ParseError e).
Proof. exact error_stays. Qed.
Print Assumptions C48_error_stays.

(** These are all such errors: the others are gone if the text goes on suitably. *)
Theorem C48_exactly : forall s l e, from_str s (Options l None) = TErr (ParseError e) ->
  ((forall t, from_str (s ++ t) (Options l None) = TErr (ParseError e)) <-> ~ Pending s e).
Proof. exact error_stays_iff. Qed.
Print Assumptions C48_exactly.

Example C48_example_stays :
  let e := MismatchedClosingTag (lit "p") (Location 1 1 0) (lit "q") (Location 1 4 3) in
  from_str (lit "<p></q>") (Options None None) = TErr (ParseError e) /\ ~ Pending (lit "<p></q>") e /\
  from_str (lit "<p></q></p>") (Options None None) = TErr (ParseError e).
Proof. split; [vm_compute; reflexivity|]. split; [intros []|vm_compute; reflexivity]. Qed.
(** A word with a character that is not ASCII stays wrong however it goes on. *)
Example C48_example_not_ascii :
  let e := InvalidOpeningTagIdentifier (Location 1 2 1) IdNotAscii in
  from_str [60; 955] (Options None None) = TErr (ParseError e) /\ ~ Pending [60; 955] e.
Proof.
  split; [vm_compute; reflexivity|]. intros [[H _]|(p & x & y & w & kw & E & _ & E2 & _)]; [now apply H|].
  destruct p as [|c p]; [|injection E as _ E; destruct p as [|d p]; [discriminate|];
                          injection E as _ E; destruct p; discriminate].
  injection E as <-. discriminate.
Qed.
(** A tag that is not closed can still be closed; and what looks like an invalid tag name may
    be the beginning of a doctype (here the exclamation mark is followed by the white space
    character U+00A0). *)
Example C48_example_pending :
  from_str (lit "<p") (Options None None) = TErr (ParseError (ExpectedOpeningTagClose (lit "p") (Location 1 3 2))) /\
  from_str (lit "<p></p>") (Options None None) = TOk [OpeningTag (name (lit "p")) []; ClosingTag (name (lit "p"))].
Proof. split; vm_compute; reflexivity. Qed.
Example C48_example_doctype :
  from_str [60; 33; 160] (Options None None) = TErr (ParseError (InvalidOpeningTagIdentifier (Location 1 2 1) IdNotAscii)) /\
  from_str ([60; 33; 160] ++ lit "doctype html>") (Options None None) = TOk [Doctype (raw (lit "html"))].
Proof. split; vm_compute; reflexivity. Qed.

(** ** C49 Two texts, one after the other *)

Theorem C49_documents : forall a b o ea eb, from_str a o = TOk ea -> from_str b o = TOk eb ->
  (forall n, max_input_len o = Some n -> (length (utf8 (a ++ b)) <= n)%nat) ->
  exists evs, Joined ea eb evs /\ from_str (a ++ b) o = TOk evs.
Proof. exact joined_documents. Qed.
Print Assumptions C49_documents.

(** So the rendering is the renderings of both. *)
Theorem C49_rendering : forall ea eb evs, Joined ea eb evs ->
  display_events evs = display_events ea ++ display_events eb.
Proof. exact joined_display. Qed.
Print Assumptions C49_rendering.

(** An error in the second text is reported as before, with all locations moved. *)
Theorem C49_error : forall a b o ea la e, from_str a o = TOk ea -> AtPrefix a la ->
  from_str b o = TErr (ParseError e) ->
  (forall n, max_input_len o = Some n -> (length (utf8 (a ++ b)) <= n)%nat) ->
  from_str (a ++ b) o = TErr (ParseError (relocate (moved la) e)).
Proof. exact joined_error. Qed.
Print Assumptions C49_error.

Example C49_example_text :
  let a := [Comment (raw (lit "x")); Data (raw (lit "a"))] in
  let b := [Data (raw (lit "b")); VoidTag (name (lit "br")) []] in
  from_str (lit "<!--x-->a") (Options None None) = TOk a /\
  from_str (lit "b<br>") (Options None None) = TOk b /\
  from_str (lit "<!--x-->ab<br>") (Options None None)
  = TOk [Comment (raw (lit "x")); Data (raw (lit "ab")); VoidTag (name (lit "br")) []].
Proof. repeat split; vm_compute; reflexivity. Qed.
Example C49_example_error :
  from_str (lit "<i>") (Options None None) = TErr (ParseError (MissingClosingTags (lit "i", Location 1 1 0) [])) /\
  from_str (lit "ab<i>") (Options None None) = TErr (ParseError (MissingClosingTags (lit "i", Location 1 3 2) [])) /\
  relocate (moved (Location 1 3 2)) (MissingClosingTags (lit "i", Location 1 1 0) [])
  = MissingClosingTags (lit "i", Location 1 3 2) [].
Proof. repeat split; vm_compute; reflexivity. Qed.
