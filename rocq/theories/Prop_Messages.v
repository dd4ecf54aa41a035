(** Properties C40, C46 (messages), C43 (causes) and C57 (reports). *)
From Coq Require Import String List NArith Bool.
Import ListNotations.
From Verif Require Import Text Event Input Parse Selector Machine Template Messages.
From Verif Require Api.
From Verif Require Import SpecText SpecParse SpecMessages MessageProofs MessageProofs2.

(** ** C40 Error messages name the right tags

    False of the code: the two tags of a mismatch are swapped in the message, and the
    message for an invalid closing tag is that for an opening tag. *)

Theorem C40_mismatch_message_refuted : exists s opening lo closing lc,
  from_str s (Options None None) = TErr (ParseError (MismatchedClosingTag opening lo closing lc)) /\
  ~ MismatchText closing lc opening lo (display_parse_error (MismatchedClosingTag opening lo closing lc)).
Proof. exact mismatch_refuted. Qed.
Print Assumptions C40_mismatch_message_refuted.

(** Every message about mismatched tags is wrong: it says what would be right if the two
    tags were exchanged, and never what is documented. *)
Theorem C40_mismatch_message_swapped : forall s o opening lo closing lc,
  from_str s o = TErr (ParseError (MismatchedClosingTag opening lo closing lc)) ->
  MismatchText opening lo closing lc (display_parse_error (MismatchedClosingTag opening lo closing lc)) /\
  ~ MismatchText closing lc opening lo (display_parse_error (MismatchedClosingTag opening lo closing lc)).
Proof. exact mismatch_always. Qed.
Print Assumptions C40_mismatch_message_swapped.

(** Two documents, one with an invalid end tag, the other with an invalid start tag at the
    same place, are rejected with the same message. *)
Theorem C40_invalid_closing_message_refuted : exists s s' l i j,
  from_str s (Options None None) = TErr (ParseError (InvalidClosingTagIdentifier l i)) /\
  from_str s' (Options None None) = TErr (ParseError (InvalidOpeningTagIdentifier l j)) /\
  display_parse_error (InvalidClosingTagIdentifier l i)
  = display_parse_error (InvalidOpeningTagIdentifier l j).
Proof. exact closing_message_refuted. Qed.
Print Assumptions C40_invalid_closing_message_refuted.

Example C40_example :
  from_str (lit "<b>
</i>") (Options None None)
  = TErr (ParseError (MismatchedClosingTag (lit "b") (Location 1 1 0) (lit "i") (Location 2 1 4))) /\
  display_parse_error (MismatchedClosingTag (lit "b") (Location 1 1 0) (lit "i") (Location 2 1 4))
  = lit "Closing tag 'b' at line 1 column 1 (byte offset 0) does not match opening tag 'i' at line 2 column 1 (byte offset 4)".
Proof. split; vm_compute; reflexivity. Qed.

(** ** C46 Messages tell errors apart *)

(** Two rejected texts are given the same message exactly if the errors are of the same
    kind, at the same place, about the same names, up to what [SameParseReport] lists. *)
Theorem C46_parse : forall s o e s' o' e',
  from_str s o = TErr (ParseError e) -> from_str s' o' = TErr (ParseError e') ->
  display_parse_error e = display_parse_error e' <-> SameParseReport e e'.
Proof. exact parse_messages. Qed.
Print Assumptions C46_parse.

(** The text of a location is that of one location only, wherever it is in a message. *)
Theorem C46_location : forall l, LocationText l (display_location l) /\
  forall l' m, LocationText l m -> LocationText l' m -> l' = l.
Proof. exact location_message. Qed.
Print Assumptions C46_location.

(** One exception of [SameParseReport] cannot be avoided: which part of the dotted name is
    the tag is not told. *)
Theorem C46_value_refuted : exists s s' l t a t' a',
  from_str s (Options None None) = TErr (ParseError (InvalidAttributeValue l t a)) /\
  from_str s' (Options None None) = TErr (ParseError (InvalidAttributeValue l t' a')) /\
  (t <> t' /\ a <> a') /\
  display_parse_error (InvalidAttributeValue l t a) = display_parse_error (InvalidAttributeValue l t' a').
Proof. exact value_message_refuted. Qed.
Print Assumptions C46_value_refuted.

(** The message for a string that is not an identifier tells exactly why. *)
Theorem C46_identifier : forall s e s' e', NameError s e -> NameError s' e' ->
  display_identifier_error e = display_identifier_error e' -> e = e'.
Proof. exact identifier_messages. Qed.
Print Assumptions C46_identifier.

Theorem C46_input : forall e e',
  display_input_error e = display_input_error e' <-> SameInputReport e e'.
Proof. exact input_messages. Qed.
Print Assumptions C46_input.

Theorem C46_file : forall e e',
  display_file_error e = display_file_error e' <-> SameFileReport e e'.
Proof. exact file_messages. Qed.
Print Assumptions C46_file.

Theorem C46_stream : forall e e',
  display_stream_error e = display_stream_error e' <-> SameStreamReport e e'.
Proof. exact stream_messages. Qed.
Print Assumptions C46_stream.

Theorem C46_selector : forall e e',
  display_selector_error e = display_selector_error e' <-> SameSelectorReport e e'.
Proof. exact selector_messages. Qed.
Print Assumptions C46_selector.

Theorem C46_classes : forall e e',
  display_classes_error e = display_classes_error e' <-> SameClassesReport e e'.
Proof. exact classes_messages. Qed.
Print Assumptions C46_classes.

Theorem C46_static : forall e e',
  display_static_error e = display_static_error e' <-> SameStaticReport e e'.
Proof. exact static_messages. Qed.
Print Assumptions C46_static.

Theorem C46_malformed : forall e e', NamesTag e -> NamesTag e' ->
  display_malformed e = display_malformed e' <-> SameMalformedReport e e'.
Proof. exact malformed_messages. Qed.
Print Assumptions C46_malformed.

(** An element name that is not an identifier is reported as an attribute. *)
Theorem C46_element_name_refuted : exists s i, ~ ValidName s /\
  (forall n p, exists h, with_transformed_element n (Api.into_identifier (Api.IAStatic s)) p
                         = Done h (inr (SEIdentifier i))) /\
  display_stream_error (SEIdentifier i) = lit "Invalid attribute identifier".
Proof. exact element_message. Qed.
Print Assumptions C46_element_name_refuted.

Example C46_example :
  from_str (lit "<ul><li>
<p>") (Options None None)
  = TErr (ParseError (MissingClosingTags (lit "p", Location 2 1 9)
                        [(lit "ul", Location 1 1 0); (lit "li", Location 1 5 4)])) /\
  display_parse_error (MissingClosingTags (lit "p", Location 2 1 9)
                        [(lit "ul", Location 1 1 0); (lit "li", Location 1 5 4)])
  = lit "Unclosed 'p' tag starting at line 2 column 1 (byte offset 9)(also unclosed are: 'ul','li')".
Proof. split; vm_compute; reflexivity. Qed.
Example C46_example_identifier : exists i, NameError [97; 11; 98]%N i /\
  display_identifier_error i = lit "Identifier contains whitespace character '\u{b}'".
Proof. exact whitespace_message. Qed.
Example C46_example_malformed :
  NamesTag (MExpectedClosingTag None (Ident (Actual (lit "p")))) /\
  display_malformed (MExpectedClosingTag None (Ident (Actual (lit "p"))))
  = lit "Expected closing tag for p, found end of input".
Proof. split; [apply TextProofs.validate_iff; vm_compute; eauto|reflexivity]. Qed.

(** ** C43 Cause chains end *)

(** Following [cause] from any error ends after at most four steps. *)
Theorem C43_cause_chain_ends : forall e, nth_cause 5 e = None.
Proof. exact causes_end. Qed.
Print Assumptions C43_cause_chain_ends.

(** An error reporter writes at most five messages, the same ones each time. *)
Theorem C43_report : forall io utf8 e, exists l, Told (display_error io utf8) e l /\ (length l <= 5)%nat /\
  forall l', Told (display_error io utf8) e l' -> l' = l.
Proof. exact report_ends. Qed.
Print Assumptions C43_report.

Example C43_example :
  nth_cause 4 (ErrStream (SEFile (FileInput [] (ParseError
                 (InvalidAttributeIdentifier at_start IdEmpty)))))
  = Some (ErrIdentifier IdEmpty).
Proof. reflexivity. Qed.

(** ** C57 Reports tell errors apart

    [io] and [utf8] are what the standard library writes for its own errors. *)

(** Two errors have the same report exactly if they differ at most in what [SameError] lists. *)
Theorem C57_reports : forall io utf8 e f l, RealError e -> RealError f ->
  Told (display_error io utf8) e l ->
  Told (display_error io utf8) f l <-> SameError io utf8 e f.
Proof. exact reports. Qed.
Print Assumptions C57_reports.

(** All errors made by the functions of the library, and those made of them by conversion,
    meet the hypothesis. *)
Theorem C57_real :
  (forall s o e, from_str s o = TErr e -> RealError (ErrInput e)) /\
  (forall path opened o e, from_file path opened o = TErr e -> RealError (ErrFile e)) /\
  (forall s i, ident_from_str s = inr i \/ ident_from_static_str s = inr i -> RealError (ErrIdentifier i)) /\
  (forall v e, id_from_str v = inr e \/ tag_from_str v = inr e \/ class_from_str v = inr e ->
     RealError (ErrStream e)) /\
  (forall vs e, classes_from_str_iterator vs = inr e -> RealError (ErrStream e)) /\
  (forall s e, select_str s = inr e -> RealError (ErrStream e)) /\
  (forall e x, RealError e -> into_stream_error e = Some x -> RealError (ErrStream x)).
Proof. exact errors_real. Qed.
Print Assumptions C57_real.

(** An error converted to a stream error still reports all it did before. *)
Theorem C57_converted : forall io utf8 e x l, into_stream_error e = Some x ->
  Told (display_error io utf8) e l ->
  exists m, Told (display_error io utf8) (ErrStream x) (display_stream_error x :: m ++ l).
Proof. exact converted. Qed.
Print Assumptions C57_converted.

(** [description] tells the type of the error, with one exception ... *)
Theorem C57_description : forall io utf8 e f, RealError e -> RealError f ->
  error_description io utf8 e = error_description io utf8 f <-> SameDescription e f.
Proof. exact descriptions. Qed.
Print Assumptions C57_description.

(** ... a wrong selector string is described as a wrong list of classes. *)
Theorem C57_description_refuted : exists s e vs f,
  select_str s = inr (SEStaticSelector e) /\
  classes_from_str_iterator vs = inr (SESelector (SelErrClasses f)) /\
  forall io utf8, error_description io utf8 (ErrStatic e) = error_description io utf8 (ErrClasses f).
Proof. exact description_refuted. Qed.
Print Assumptions C57_description_refuted.

Example C57_example : forall io utf8, exists i,
  from_str (lit "<p><a b,c></a></p>") (Options None None)
  = TErr (ParseError (InvalidAttributeIdentifier (Location 1 7 6) i)) /\
  Told (display_error io utf8)
    (ErrStream (SEFile (FileInput (lit "x.html") (ParseError (InvalidAttributeIdentifier (Location 1 7 6) i)))))
    (map lit ["Input error for inserted file content stream"; "Unable to process file 'x.html'";
              "Unable to parse input into HTML5 stream";
              "Invalid attribute identifier at line 1 column 7 (byte offset 6)";
              "Identifier contains forbidden character ','"]%string).
Proof. exact report_example. Qed.
