(** Properties C54, C55 and C56: what a program that reads HTML makes of rendered templates
    and of the texts from which templates are made. *)
From Coq Require Import String ZArith NArith List.
From stdpp Require Import gmap.
From Verif Require Import Text Event Input Parse Selector Machine Template.
From Verif Require Import SpecText SpecAttr SpecParse SpecRender SpecTree SpecTransform SpecOps SpecSafe
  SpecHtml5 SpecHtmlSafe SpecHtmlRead.
From Verif Require Import Html5Proofs Html5Proofs2 Html5Proofs3 Html5Proofs4 Html5Proofs5 Html5Proofs6 Html5Proofs7.
Local Open Scope N_scope.

(** ** C54 Rendered templates are read as HTML with the meaning they have for the library *)

(** The tokenizer of the HTML standard reads the rendering of a template as the tokens that
    belong to its events. *)
Theorem C54_rendered_tokens : forall scripting evs, Standard scripting evs ->
  tokens scripting (display_events evs) = flat_map event_tokens evs.
Proof. exact standard_tokens. Qed.
Print Assumptions C54_rendered_tokens.

(** With carriage returns: they are normalized by readers of HTML. *)
Theorem C54_newlines : forall scripting evs, UndividedNewlines evs ->
  Standard scripting (map nl_event evs) ->
  tokens scripting (display_events evs) = flat_map event_tokens (map nl_event evs).
Proof. exact standard_newlines. Qed.
Print Assumptions C54_newlines.

(** The tokenizer never needs more steps for a character than it is given. *)
Theorem C54_tokenizer_steps : forall scripting s c j, feed scripting (4 + j) s c = feed scripting 4 s c.
Proof. exact feed_enough. Qed.
Print Assumptions C54_tokenizer_steps.

Example C54_example : forall scripting,
  from_str eh_page default_options = TOk (events eh_tree) /\ Standard scripting (events eh_tree) /\
  tokens scripting eh_page =
    [TDoctype (lit "html"); TStart (lit "html") [] false; TStart (lit "head") [] false;
     TStart (lit "meta") [(lit "charset", lit "utf-8")] false; TStart (lit "script") [] false]
    ++ chars (lit "if (a < b) f();") ++
    [TEnd (lit "script"); TEnd (lit "head"); TStart (lit "body") [] false; TComment (lit " x ");
     TStart (lit "p") [(lit "class", lit "a b"); (lit "hidden", [])] false] ++ chars (lit "&amp;") ++
    [TStart (lit "br") [] false; TEnd (lit "p"); TEnd (lit "body"); TEnd (lit "html")].
Proof.
  intros b. split; [exact eh_page_events|]. split; [exact (html_standard b true _ (eh_template b))|]. exact (eh_tokens b).
Qed.
(** The tokenizer on texts that the library does not write. *)
Example C54_example_tokenizer :
  tokens true (lit "<A b = c D='e""' b=f / g></a h>&<>") =
    [TStart (lit "a") [(lit "b", lit "c"); (lit "d", lit "e"""); (lit "g", [])] false; TEnd (lit "a")]
    ++ chars (lit "&<>") /\
  tokens true (lit "<!DOCTYPE HTML PUBLIC ""x""><? a><!b></ c></><title>&</TITLE ><br/>") =
    [TDoctype (lit "html"); TComment (lit "? a"); TComment (lit "b"); TComment (lit " c");
     TStart (lit "title") [] false; TChar 38; TEnd (lit "title"); TStart (lit "br") [] true] /\
  tokens true (lit "<script><!-- </script> --><p") =
    [TStart (lit "script") [] false] ++ chars (lit "<!-- ") ++ [TEnd (lit "script")] ++ chars (lit " -->") /\
  tokens true [97; 13; 10; 98; 13; 99] = chars [97; 10; 98; 10; 99].
Proof. repeat split; vm_compute; reflexivity. Qed.

(** Other templates: all of these are accepted by the library and written as they were. *)

(** Names of elements that do not begin with a letter. *)
Theorem C54_name_refuted :
  ReadDifferently (lit "<1>x</1>") (chars (lit "<1>x") ++ [TComment (lit "1")]).
Proof. exact name_differs. Qed.
Print Assumptions C54_name_refuted.
(** The slash of a tag that closes itself does not count: the rest of the page is script. *)
Theorem C54_self_closed_refuted :
  ReadDifferently (lit "<script /><b>x</b>") (TStart (lit "script") [] true :: chars (lit "<b>x</b>")).
Proof. exact self_closed_differs. Qed.
Print Assumptions C54_self_closed_refuted.
(** Elements that only contain text for readers of HTML, but not for the library. *)
Theorem C54_text_element_refuted :
  ReadDifferently (lit "<noembed><b></b></noembed>")
    (TStart (lit "noembed") [] false :: chars (lit "<b></b>") ++ [TEnd (lit "noembed")]).
Proof. exact noembed_differs. Qed.
Print Assumptions C54_text_element_refuted.
Theorem C54_plaintext_refuted :
  ReadDifferently (lit "<plaintext>x</plaintext>")
    (TStart (lit "plaintext") [] false :: chars (lit "x</plaintext>")).
Proof. exact plaintext_differs. Qed.
Print Assumptions C54_plaintext_refuted.
(** Comments that end earlier. *)
Theorem C54_comment_refuted :
  ReadDifferently (lit "<!--a--!>b-->") (TComment (lit "a") :: chars (lit "b-->")).
Proof. exact comment_differs. Qed.
Print Assumptions C54_comment_refuted.
Theorem C54_comment_start_refuted :
  ReadDifferently (lit "<!-->x-->") (TComment [] :: chars (lit "x-->")).
Proof. exact comment_start_differs. Qed.
Print Assumptions C54_comment_start_refuted.
(** Scripts that end earlier. *)
Theorem C54_end_tag_refuted :
  ReadDifferently (lit "<script>a</script x>b</script>")
    [TStart (lit "script") [] false; TChar 97; TEnd (lit "script"); TChar 98; TEnd (lit "script")].
Proof. exact end_tag_differs. Qed.
Print Assumptions C54_end_tag_refuted.
(** Scripts that end later. *)
Theorem C54_escaped_refuted :
  ReadDifferently (lit "<script><!--<script></script>x")
    (TStart (lit "script") [] false :: chars (lit "<!--<script></script>x")).
Proof. exact escaped_differs. Qed.
Print Assumptions C54_escaped_refuted.
(** The character U+0000. *)
Theorem C54_nul_refuted : ReadDifferently (lit "<!--" ++ 0 :: lit "-->") [TComment [65533]].
Proof. exact nul_differs. Qed.
Print Assumptions C54_nul_refuted.

(** ** C55 Transformations keep the meaning of templates for readers of HTML *)

(** Templates made by calls with safe arguments from safe templates are safe. *)
Theorem C55_kept : forall scripting scripts evs p e r, HtmlTemplate scripting scripts evs ->
  typed false p e -> ValidArgs p -> HtmlCalls scripting scripts p -> Gives evs p (inl r) ->
  HtmlTemplate scripting scripts r.
Proof. exact html_pipeline. Qed.
Print Assumptions C55_kept.

(** They are read as their events say. *)
Theorem C55_result : forall scripting scripts evs p e r, HtmlTemplate scripting scripts evs ->
  typed false p e -> ValidArgs p -> HtmlCalls scripting scripts p -> Gives evs p (inl r) ->
  tokens scripting (display_events r) = flat_map event_tokens r.
Proof. exact html_result. Qed.
Print Assumptions C55_result.

(** Literals and numbers are safe everywhere, whatever characters they contain. *)
Theorem C55_literals : forall scripting scripts evs p e r, HtmlTemplate scripting scripts evs ->
  typed false p e -> NamesValid p -> (forall o, Occurs p o -> CleanCall o) -> Gives evs p (inl r) ->
  HtmlTemplate scripting scripts r /\ tokens scripting (display_events r) = flat_map event_tokens r.
Proof. exact clean_result. Qed.
Print Assumptions C55_literals.

Example C55_example : exists r, typed false eh_pipeline false /\ NamesValid eh_pipeline /\
  (forall o, Occurs eh_pipeline o -> CleanCall o) /\
  Gives (events eh_short) eh_pipeline (inl r) /\ display_events r = eh_result /\
  forall scripting, HtmlTemplate scripting true (events eh_short) /\
    tokens scripting eh_result =
      [TStart (lit "script") [(lit "src", lit "&quot;&gt;&lt;i&gt;"); (lit "class", lit "late")] false]
      ++ chars (lit "a < b&lt;/script&gt;&lt;b&gt;a < b&lt;/script&gt;&lt;b&gt;") ++ [TEnd (lit "script")].
Proof. exact eh_example. Qed.

(** It is not enough that the template is read as its events say: if a script ends with the
    beginning of an end tag, a space added to it ends the script early. *)
Theorem C55_unsettled_refuted : exists s evs p r,
  from_str s default_options = TOk evs /\ display_events evs = s /\
  (forall scripting, tokens scripting s = flat_map event_tokens evs) /\
  typed false p false /\ NamesValid p /\ (forall o, Occurs p o -> CleanCall o) /\
  Gives evs p (inl r) /\
  (forall scripting, tokens scripting (display_events r) =
     [TStart (lit "script") [] false; TEnd (lit "script"); TChar 120]) /\
  flat_map event_tokens r =
    [TStart (lit "script") [] false] ++ chars (lit "</script ") ++ [TEnd (lit "script"); TChar 120].
Proof. exact unsettled_refuted. Qed.
Print Assumptions C55_unsettled_refuted.

(** ** C56 The parser reads texts as readers of HTML do *)

(** What readers of HTML see in a text that the parser accepts, if its tags are written tidily
    and its events have the same meaning for both, is what the events say. *)
Theorem C56_agree : forall scripting s o evs slices, from_str s o = TOk evs ->
  s = concat slices -> Forall2 SliceOf slices evs -> Forall2 Tidy slices evs ->
  Standard scripting (map nl_event evs) ->
  map unflag (tokens scripting s) = map unflag (flat_map event_tokens (map nl_event evs)).
Proof. exact parsed_tokens. Qed.
Print Assumptions C56_agree.

(** ... and they see the same in the rendered template. *)
Theorem C56_rendered : forall scripting s o evs slices, from_str s o = TOk evs ->
  s = concat slices -> Forall2 SliceOf slices evs -> Forall2 Tidy slices evs ->
  Standard scripting (map nl_event evs) ->
  map unflag (tokens scripting (display_events evs)) = map unflag (tokens scripting s).
Proof. exact parsed_rendered. Qed.
Print Assumptions C56_rendered.

Example C56_example : forall scripting,
  from_str (concat er_slices) default_options = TOk er_events /\
  Forall2 SliceOf er_slices er_events /\ Forall2 Tidy er_slices er_events /\
  Standard scripting (map nl_event er_events) /\
  map unflag (tokens scripting (concat er_slices)) =
    [TDoctype (lit "html"); TStart (lit "p") [(lit "a", lit "1" ++ 10 :: lit "2"); (lit "b", [])] false]
    ++ chars (lit "x" ++ 10 :: lit "y") ++ [TStart (lit "br") [] false; TEnd (lit "p")].
Proof.
  intros b. split; [exact er_parsed|]. split; [exact er_spells|]. split; [exact er_tidy|].
  split; [exact (er_standard b)|exact (er_tokens b)].
Qed.

(** Tags that are not tidy: *)
(** white space at the start of a value, which the parser drops, *)
Theorem C56_value_refuted : ReadOtherwise (lit "<p a="" x""></p>")
  [TStart (lit "p") [(lit "a", lit " x")] false; TEnd (lit "p")].
Proof. exact value_otherwise. Qed.
Print Assumptions C56_value_refuted.
(** white space before the name of a start tag, *)
Theorem C56_start_refuted : ReadOtherwise (lit "< p></p>") (chars (lit "< p>") ++ [TEnd (lit "p")]).
Proof. exact start_otherwise. Qed.
Print Assumptions C56_start_refuted.
(** before the name of an end tag, *)
Theorem C56_end_refuted :
  ReadOtherwise (lit "<p></ p>") [TStart (lit "p") [] false; TComment (lit " p")].
Proof. exact end_otherwise. Qed.
Print Assumptions C56_end_refuted.
(** in a doctype, *)
Theorem C56_doctype_refuted :
  ReadOtherwise (lit "<! doctype html>") [TComment (lit " doctype html")].
Proof. exact doctype_otherwise. Qed.
Print Assumptions C56_doctype_refuted.
(** and white space that does not separate in HTML. *)
Theorem C56_space_refuted : ReadOtherwise (lit "<p " ++ 160 :: lit "a></p>")
  [TStart (lit "p") [(160 :: lit "a", [])] false; TEnd (lit "p")].
Proof. exact space_otherwise. Qed.
Print Assumptions C56_space_refuted.
