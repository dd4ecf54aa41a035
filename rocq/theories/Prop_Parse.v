(** Properties C06 to C14, C41 and C42: the parser, and rendering its results. *)
From Coq Require Import String List NArith Arith Bool.
Import ListNotations.
From Verif Require Import Text Event Input Parse Selector Template SpecText SpecAttr SpecLocation
  SpecParse SpecRender ParseProofs5 ParseProofs6 ParseProofs7 ParseProofs8 ParseProofs9 ParseProofs10.
Open Scope N_scope.

(** ** C06 Parsing always terminates without panicking *)

(** The model has explicit results for a panic and for a loop that does not end; neither
    occurs. *)
Theorem C06_from_str_total : forall s o,
  (exists evs, from_str s o = TOk evs) \/ (exists e, from_str s o = TErr e).
Proof. exact from_str_total. Qed.
Print Assumptions C06_from_str_total.

(** The same for files, whatever the reads return and however they are split. *)
Theorem C06_from_file_total : forall path opened o,
  (exists evs, from_file path opened o = TOk evs) \/ (exists e, from_file path opened o = TErr e).
Proof. exact from_file_total. Qed.
Print Assumptions C06_from_file_total.

(** The error for input that fits no rule is never reported. *)
Theorem C06_every_input_fits : forall s o l, from_str s o <> TErr (ParseError (UnexpectedInput l)).
Proof. exact no_unexpected_input. Qed.
Print Assumptions C06_every_input_fits.

Example C06_example :
  from_str (lit "<p a=1>") (Options None None)
  = TErr (ParseError (InvalidAttributeValue (Location 1 6 5) (lit "p") (lit "a"))).
Proof. vm_compute. reflexivity. Qed.

(** ** C07 A parsed template is a well-nested forest *)

Theorem C07_forest : forall s o evs, from_str s o = TOk evs -> Forest evs.
Proof. exact from_str_forest. Qed.
Print Assumptions C07_forest.

Definition ex_text : str := lit "<ul><li class=""a"">x<br>y</LI ><li/></ul><script>if (a<b) '</p>'</script>".
Definition ex_events : list event :=
  [OpeningTag (name (lit "ul")) [];
   OpeningTag (name (lit "li")) [Attribute (name (lit "class")) (Some (raw (lit "a")))];
   Data (raw (lit "x")); VoidTag (name (lit "br")) []; Data (raw (lit "y"));
   ClosingTag (name (lit "LI")); SelfClosedTag (name (lit "li")) []; ClosingTag (name (lit "ul"));
   OpeningTag (name (lit "script")) []; RawData (raw (lit "if (a<b) '</p>'"));
   ClosingTag (name (lit "script"))].
Example C07_example : from_str ex_text (Options (Some 2%nat) None) = TOk ex_events.
Proof. vm_compute. reflexivity. Qed.

(** ** C08 The stack limit bounds nesting depth exactly *)

Theorem C08_accepted_iff : forall s d l evs,
  from_str s (Options (Some d) l) = TOk evs <->
  from_str s (Options None l) = TOk evs /\ DepthAtMost d evs.
Proof. exact depth_limit_exact. Qed.
Print Assumptions C08_accepted_iff.

(** Otherwise the result is the same, or it is the error for the limit, *)
Theorem C08_same_or_limit : forall s d l,
  from_str s (Options (Some d) l) = from_str s (Options None l) \/
  exists tag loc, from_str s (Options (Some d) l) = TErr (ParseError (StackLimitExceeded tag loc d)).
Proof. exact depth_limit_agrees. Qed.
Print Assumptions C08_same_or_limit.

(** ... which means that where it says, with [d] elements open, another one is opened. *)
Theorem C08_limit_error : forall s d l tag loc k,
  from_str s (Options (Some d) l) = TErr (ParseError (StackLimitExceeded tag loc k)) ->
  k = d /\ exists pre slice rest t a m st evs, s = pre ++ slice ++ rest /\ AtPrefix pre loc /\
    Reads None s pre (slice ++ rest) m st evs /\ opens evs = (closes evs + d)%nat /\
    Spells slice (OpeningTag t a) /\ id_str t = tag.
Proof. exact depth_limit_error. Qed.
Print Assumptions C08_limit_error.

Theorem C08_no_limit_no_error : forall s l tag loc k,
  from_str s (Options None l) <> TErr (ParseError (StackLimitExceeded tag loc k)).
Proof. exact depth_no_limit. Qed.
Print Assumptions C08_no_limit_no_error.

Example C08_example_over :
  from_str ex_text (Options (Some 1%nat) None)
  = TErr (ParseError (StackLimitExceeded (lit "li") (Location 1 5 4) 1%nat)).
Proof. vm_compute. reflexivity. Qed.
(** siblings do not count, and neither do void elements *)
Example C08_example_siblings : exists evs,
  from_str (lit "<a></a><a><br></a>") (Options (Some 1%nat) None) = TOk evs /\ length evs = 5%nat.
Proof. eexists. split; vm_compute; reflexivity. Qed.

(** ** C09 The input length limit is exact *)

Theorem C09_within : forall s d n, (length (utf8 s) <= n)%nat ->
  from_str s (Options d (Some n)) = from_str s (Options d None).
Proof. exact from_str_within. Qed.
Print Assumptions C09_within.

Theorem C09_over : forall s d n, (n < length (utf8 s))%nat ->
  from_str s (Options d (Some n)) = TErr (LengthLimitExceeded n).
Proof. exact from_str_over. Qed.
Print Assumptions C09_over.

(** two characters, four bytes *)
Example C09_example : let s := [228; 252] in
  (exists evs, from_str s (Options None (Some 4%nat)) = TOk evs) /\
  from_str s (Options None (Some 3%nat)) = TErr (LengthLimitExceeded 3).
Proof. split; [eexists|]; vm_compute; reflexivity. Qed.

(** ** C10 Parsing loses and invents no text *)

Theorem C10_slices : forall s o evs, from_str s o = TOk evs ->
  exists slices, s = concat slices /\ Forall2 SliceOf slices evs.
Proof. exact from_str_slices. Qed.
Print Assumptions C10_slices.

(** A slice spells one event only. *)
Theorem C10_spelling_unique : forall slice ev ev', Spells slice ev -> Spells slice ev' -> ev = ev'.
Proof. exact spells_functional. Qed.
Print Assumptions C10_spelling_unique.

(** The accepted texts are exactly the documents of the grammar, with these events. *)
Theorem C10_exact : forall s o evs, max_input_len o = None ->
  (from_str s o = TOk evs <-> Document (max_stack_depth o) s evs).
Proof. exact from_str_document. Qed.
Print Assumptions C10_exact.

Theorem C10_unambiguous : forall limit s evs evs',
  Document limit s evs -> Document limit s evs' -> evs = evs'.
Proof. exact document_unique. Qed.
Print Assumptions C10_unambiguous.

Example C10_example : Spells (lit "<li  class = ""a"" >")
  (OpeningTag (name (lit "li")) [Attribute (name (lit "class")) (Some (raw (lit "a")))]).
Proof. exact spells_example. Qed.

(** ** C11 Rendering then parsing is the identity on parsed templates *)

Theorem C11_round_trip : forall s o evs, from_str s o = TOk evs -> Forall NoBang evs ->
  from_str (display_events evs) (Options (max_stack_depth o) None) = TOk evs.
Proof. exact round_trip. Qed.
Print Assumptions C11_round_trip.

(** Without the proviso the claim is false: an accepted text whose rendering is rejected, *)
Theorem C11_without_proviso_refuted : exists s evs e,
  from_str s (Options None None) = TOk evs /\
  from_str (display_events evs) (Options None None) = TErr (ParseError e).
Proof. exact round_trip_refuted. Qed.
Print Assumptions C11_without_proviso_refuted.

(** ... and one whose rendering is accepted as something else: an element becomes a doctype. *)
Theorem C11_without_proviso_changed_refuted : exists s evs evs',
  from_str s (Options None None) = TOk evs /\
  from_str (display_events evs) (Options None None) = TOk evs' /\ evs <> evs'.
Proof. exact round_trip_changed. Qed.
Print Assumptions C11_without_proviso_changed_refuted.

Example C11_example : Forall NoBang ex_events /\
  display_events ex_events
  = lit "<ul><li class=""a"">x<br>y</LI><li /></ul><script>if (a<b) '</p>'</script>".
Proof. split; [apply no_bang_check|]; vm_compute; reflexivity. Qed.

(** ** C12 Raw-text elements are opaque *)

(** After the start tag of a raw-text element comes one raw-data event with the text up to
    the first end tag of that name, and then that end tag. *)
Theorem C12_raw_text : forall s o a t at' b, from_str s o = TOk (a ++ OpeningTag t at' :: b) ->
  RawName (id_str t) ->
  exists c t' b' pre rest m st,
    b = RawData (raw c) :: ClosingTag t' :: b' /\ s = pre ++ c ++ rest /\
    Reads (max_stack_depth o) s pre (c ++ rest) m st (a ++ [OpeningTag t at']) /\
    EndsRaw (id_str t) rest /\
    (forall p q, c = p ++ q -> q <> [] -> ~ EndsRaw (id_str t) (q ++ rest)).
Proof. exact raw_opaque_str. Qed.
Print Assumptions C12_raw_text.

(** Raw data occurs nowhere else. *)
Theorem C12_raw_only : forall s o a c b, from_str s o = TOk (a ++ RawData c :: b) ->
  exists a' t at', a = a' ++ [OpeningTag t at'] /\ RawName (id_str t).
Proof. exact raw_only_str. Qed.
Print Assumptions C12_raw_only.

(** A longer name does not end the raw text, and neither does another element's end tag. *)
Example C12_example :
  from_str (lit "<TITLE></titles></p><b></ Title >") (Options None None)
  = TOk [OpeningTag (name (lit "TITLE")) []; RawData (raw (lit "</titles></p><b>"));
         ClosingTag (name (lit "Title"))].
Proof. vm_compute. reflexivity. Qed.

(** ** C13 Void elements never open a scope *)

Theorem C13_void_exact : forall s o evs ev, from_str s o = TOk evs -> In ev evs ->
  match ev with
  | VoidTag t _ => VoidName (id_str t)
  | OpeningTag t _ | SelfClosedTag t _ => ~ VoidName (id_str t)
  | _ => True
  end.
Proof. exact void_exact_str. Qed.
Print Assumptions C13_void_exact.

(** Wherever in a text, outside raw text, a start tag is read, this is the event. *)
Theorem C13_kind : forall s o pre slice rest st evs b n a slash,
  from_str s o = TOk (evs ++ b) ->
  Reads (max_stack_depth o) s pre (slice ++ rest) None st evs -> Tag slice n a slash ->
  exists ev b', b = ev :: b' /\ TagEvent n a slash ev.
Proof. exact tag_kind_str. Qed.
Print Assumptions C13_kind.

Theorem C13_kind_unique : forall n a slash ev ev',
  TagEvent n a slash ev -> TagEvent n a slash ev' -> ev = ev'.
Proof. exact tag_kind_det. Qed.
Print Assumptions C13_kind_unique.

Example C13_example :
  from_str (lit "<BR/><br><b/>") (Options None None)
  = TOk [VoidTag (name (lit "BR")) []; VoidTag (name (lit "br")) []; SelfClosedTag (name (lit "b")) []].
Proof. vm_compute. reflexivity. Qed.

(** ** C14 Parse errors are true of the input *)

(** The text up to some point can be read, and what follows has the defect that is
    reported, at the reported places. *)
Theorem C14_errors_true : forall s o e, from_str s o = TErr (ParseError e) ->
  exists pre rest m st evs, s = pre ++ rest /\
    Reads (max_stack_depth o) s pre rest m st evs /\ Fault (max_stack_depth o) pre rest st e.
Proof. exact errors_true. Qed.
Print Assumptions C14_errors_true.

(** The errors are exactly the defects: if a text that fits the length limit can be read up
    to some point (where no raw text is expected, or the text ends), and what follows has a
    defect, then that error is reported; and no other. *)
Theorem C14_errors_exact : forall s o e, from_str s o = TErr (ParseError e) <->
  match max_input_len o with Some n => (length (utf8 s) <= n)%nat | None => True end /\
  exists pre rest m st evs, s = pre ++ rest /\
    Reads (max_stack_depth o) s pre rest m st evs /\ (m = None \/ rest = []) /\
    Fault (max_stack_depth o) pre rest st e.
Proof. exact errors_exact. Qed.
Print Assumptions C14_errors_exact.

(** A text has at most one defect in this sense, wherever it is looked for. *)
Theorem C14_one_fault : forall limit s pre rest m st evs e pre' rest' m' st' evs' e',
  Reads limit s pre rest m st evs -> (m = None \/ rest = []) -> Fault limit pre rest st e ->
  Reads limit s pre' rest' m' st' evs' -> (m' = None \/ rest' = []) -> Fault limit pre' rest' st' e' ->
  e = e'.
Proof. exact fault_unique. Qed.
Print Assumptions C14_one_fault.

(** The hypotheses of the last two theorems can be met. *)
Example C14_example_fault : exists st evs,
  Reads None (lit "<p></q>") (lit "<p>") (lit "</q>") None st evs /\
  Fault None (lit "<p>") (lit "</q>") st
    (MismatchedClosingTag (lit "p") (Location 1 1 0) (lit "q") (Location 1 4 3)).
Proof. exact fault_example. Qed.

(** An error is reported only for texts that are no documents. *)
Theorem C14_only_errors : forall s o e evs, from_str s o = TErr (ParseError e) ->
  ~ Document (max_stack_depth o) s evs.
Proof. exact errors_no_document. Qed.
Print Assumptions C14_only_errors.

Example C14_example :
  from_str (lit "<a><b></b>
</p>") (Options None None)
  = TErr (ParseError (MismatchedClosingTag (lit "a") (Location 1 1 0) (lit "p") (Location 2 1 11))).
Proof. vm_compute. reflexivity. Qed.

(** ** C42 Where the errors for unfinished tags point *)

(** The documentation says: where the tag was started.  No tag starts there. *)
Theorem C42_opening_location_refuted : exists s tag l,
  from_str s (Options None None) = TErr (ParseError (ExpectedOpeningTagClose tag l)) /\
  forall p r, s = p ++ 60 :: r -> ~ AtPrefix p l.
Proof. exact opening_location. Qed.
Print Assumptions C42_opening_location_refuted.

Theorem C42_closing_location_refuted : exists s tag l,
  from_str s (Options None None) = TErr (ParseError (ExpectedClosingTagClose tag l)) /\
  forall p r, s = p ++ 60 :: r -> ~ AtPrefix p l.
Proof. exact closing_location. Qed.
Print Assumptions C42_closing_location_refuted.

(** It is never where the unfinished tag was started. *)
Theorem C42_never_at_start : forall s o e tag l, from_str s o = TErr (ParseError e) ->
  e = ExpectedOpeningTagClose tag l \/ e = ExpectedClosingTagClose tag l ->
  exists pre rest m st evs, s = pre ++ 60 :: rest /\
    Reads (max_stack_depth o) s pre (60 :: rest) m st evs /\
    Fault (max_stack_depth o) pre (60 :: rest) st e /\ ~ AtPrefix pre l.
Proof. exact never_at_start. Qed.
Print Assumptions C42_never_at_start.

(** ** C41 Inserting static text cannot change document structure *)

(** Static text and numbers are markup-free. *)
Theorem C41_static_markup_free : forall s, MarkupFree (enc_str (enc_from_unencoded_static_str s)).
Proof. exact static_markup_free. Qed.
Print Assumptions C41_static_markup_free.

(** A parsed template edited by adding markup-free text, in whatever places, is rendered to
    a text with the same structure: same tags, attributes and comments, same text between. *)
Theorem C41_structure_kept : forall s o evs evs', from_str s o = TOk evs -> Forall NoBang evs ->
  Enriched evs evs' ->
  exists evs'', from_str (display_events evs') (Options None None) = TOk evs'' /\
                SameStructure evs' evs''.
Proof. exact enriched_parses. Qed.
Print Assumptions C41_structure_kept.

(** Text before an element, in front of the raw text of a script and into a self-closed one. *)
Example C41_example : let txt s := Data (enc_from_unencoded_static_str (lit s)) in
  exists evs evs' evs'',
  from_str (lit "<p></p><script></x</script><i/>") (Options None None) = TOk evs /\
  evs' = [txt "<b>"%string; OpeningTag (name (lit "p")) []; ClosingTag (name (lit "p"));
          OpeningTag (name (lit "script")) []; txt "</"%string; RawData (raw (lit "</x")); txt "script>"%string;
          ClosingTag (name (lit "script"));
          OpeningTag (name (lit "i")) []; txt ">"%string; ClosingTag (name (lit "i"))] /\
  Enriched evs evs' /\
  from_str (display_events evs') (Options None None) = TOk evs'' /\
  nth_error evs'' 4 = Some (RawData (raw (lit "&lt;/</xscript&gt;"))).
Proof. exact enriched_example. Qed.
