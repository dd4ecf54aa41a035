(** Property C59: what a program that reads HTML, including its character references, sees of
    rendered templates. *)
From Coq Require Import String ZArith NArith List.
From stdpp Require Import gmap.
From Verif Require Import Text Event Input Parse Selector Machine Template.
From Verif Require Import SpecText SpecAttr SpecParse SpecRender SpecTree SpecTransform SpecOps SpecSafe
  SpecHtml5 SpecHtmlSafe SpecHtmlRead SpecEntities SpecCharRef SpecOrigin.
From Verif Require Import Html5Proofs CharRefProofs CharRefProofs2.
Local Open Scope N_scope.

(** ** C59 Readers of HTML see literal text as it is *)

(** Encoded literals are read as the literals, in texts and in attributes. *)
Theorem C59_literal : forall attribute s,
  expand (reference attribute) 0 (enc_str (enc_from_unencoded_static_str s)) = s.
Proof. exact (fun a s => static_expand s a). Qed.
Print Assumptions C59_literal.

(** So they are in elements, whatever characters they contain (but for U+0000 and carriage
    returns, which readers replace). *)
Theorem C59_element : forall scripting t n v s, OrdinaryName scripting (id_str t) ->
  Writable (id_str n) -> Clean (id_str n) -> Clean v -> Clean s ->
  read scripting (display_events
    [OpeningTag t [Attribute n (Some (enc_from_unencoded_static_str v))];
     Data (enc_from_unencoded_static_str s); ClosingTag t]) =
  [TStart (lower (id_str t)) [(lower (id_str n), v)] false] ++ chars s ++ [TEnd (lower (id_str t))].
Proof. exact literal_element. Qed.
Print Assumptions C59_element.

(** A rendered template is read as its events say, with the references in adjacent texts
    replaced; *)
Theorem C59_rendered : forall scripting evs, Standard scripting evs ->
  read scripting (display_events evs) = shown reference scripting false [] evs.
Proof. exact standard_shown. Qed.
Print Assumptions C59_rendered.
(** with carriage returns; *)
Theorem C59_newlines : forall scripting evs, UndividedNewlines evs ->
  Standard scripting (map nl_event evs) ->
  read scripting (display_events evs) = shown reference scripting false [] (map nl_event evs).
Proof. exact standard_nl_shown. Qed.
Print Assumptions C59_newlines.
(** and event by event, if no text ends within a reference. *)
Theorem C59_each : forall scripting evs, SettledTexts evs ->
  shown reference scripting false [] evs = shown_each reference scripting false evs.
Proof. exact shown_settled0. Qed.
Print Assumptions C59_each.

(** Pipelines keep that, *)
Theorem C59_pipeline : forall scripting scripts evs p e r, HtmlTemplate scripting scripts evs ->
  SettledTexts evs -> typed false p e -> ValidArgs p -> HtmlCalls scripting scripts p ->
  (forall c, Brought p (Data c) \/ Brought p (RawData c) -> Settled (enc_str c)) ->
  Gives evs p (inl r) ->
  SettledTexts r /\ read scripting (display_events r) = shown_each reference scripting false r.
Proof. exact settled_result. Qed.
Print Assumptions C59_pipeline.
(** always if they insert only literals and numbers. *)
Theorem C59_literals : forall scripting scripts evs p e r, HtmlTemplate scripting scripts evs ->
  SettledTexts evs -> typed false p e -> NamesValid p -> (forall o, Occurs p o -> CleanCall o) ->
  Gives evs p (inl r) ->
  SettledTexts r /\ read scripting (display_events r) = shown_each reference scripting false r.
Proof. exact literals_result. Qed.
Print Assumptions C59_literals.

(** Tidily written texts are read as the library reads them, and the rendered template is read
    like the text it was made from. *)
Theorem C59_parsed : forall scripting s o evs slices, from_str s o = TOk evs ->
  s = concat slices -> Forall2 SliceOf slices evs -> Forall2 Tidy slices evs ->
  Standard scripting (map nl_event evs) ->
  map unflag (read scripting s) = map unflag (shown reference scripting false [] (map nl_event evs)) /\
  map unflag (read scripting (display_events evs)) = map unflag (read scripting s).
Proof. exact parsed_shown. Qed.
Print Assumptions C59_parsed.

(** The reader never takes more characters for a reference than there are, and what it takes
    does not depend on anything after a quotation mark or "<". *)
Theorem C59_local : forall attribute t,
  (forall x k, reference attribute t = Some (x, k) -> (k <= length t)%nat) /\
  (forall c r, In c [34; 60] -> reference attribute (t ++ c :: r) = reference attribute t).
Proof.
  exact (fun a t => conj (fun x k => proj1 reference_local a t x k) (fun c r => proj2 reference_local a t c r)).
Qed.
Print Assumptions C59_local.

Example C59_example : exists r,
  let evs := events (small_tree "p" "1 &lt; ") in
  let p := adds "p" "&lt;<b>&copy" in
  (forall scripting, HtmlTemplate scripting true evs) /\ SettledTexts evs /\
  typed false p false /\ NamesValid p /\ (forall o, Occurs p o -> CleanCall o) /\
  Gives evs p (inl r) /\
  display_events r = lit "<p>1 &lt; &amp;lt;&lt;b&gt;&amp;copy</p>" /\
  forall scripting, read scripting (display_events r) =
    [TStart (lit "p") [] false] ++ chars (lit "1 < &lt;<b>&copy") ++ [TEnd (lit "p")].
Proof. exact literal_example. Qed.
(** The reader on texts that the library does not write. *)
Example C59_example_reader :
  read true (lit "<a b=&lt c='&ltx&amp=&#65x&lt;'>&#x3C;&ltx&notin;&notit;&#128;&x;&#0;&#;</a>") =
    [TStart (lit "a") [(lit "b", lit "<"); (lit "c", lit "&ltx&amp=Ax<")] false]
    ++ chars (lit "<<x" ++ [8713; 172] ++ lit "it;" ++ [8364] ++ lit "&x;" ++ [65533] ++ lit "&#;")
    ++ [TEnd (lit "a")] /\
  read true (lit "<title>&lt;</title><script>&lt;</script><!--&lt;-->") =
    [TStart (lit "title") [] false; TChar 60; TEnd (lit "title"); TStart (lit "script") [] false]
    ++ chars (lit "&lt;") ++ [TEnd (lit "script"); TComment (lit "&lt;")].
Proof. split; vm_compute; reflexivity. Qed.

(** It is not enough that the template is read as its events say: if a text ends within a
    reference, an inserted literal can complete it.  Here the literal "lt;" is inserted after
    "&", and the reader sees "<". *)
Theorem C59_divided_refuted : exists s evs p r,
  from_str s default_options = TOk evs /\ display_events evs = s /\
  (forall scripting, HtmlTemplate scripting true evs) /\
  typed false p false /\ NamesValid p /\ (forall o, Occurs p o -> CleanCall o) /\
  Gives evs p (inl r) /\
  (forall scripting, read scripting s = [TStart (lit "b") [] false] ++ chars (lit "&") ++ [TEnd (lit "b")]) /\
  display_events r = lit "<b>&lt;</b>" /\
  (forall scripting, read scripting (display_events r) =
     [TStart (lit "b") [] false] ++ chars (lit "<") ++ [TEnd (lit "b")]).
Proof. exact divided_refuted. Qed.
Print Assumptions C59_divided_refuted.
(** In scripts and styles, readers see literals in encoded form: not "1<2" in this one. *)
Theorem C59_script_refuted : exists s evs p r,
  from_str s default_options = TOk evs /\ display_events evs = s /\
  (forall scripting, HtmlTemplate scripting true evs) /\ SettledTexts evs /\
  p = adds "script" "1<2" /\
  typed false p false /\ NamesValid p /\ (forall o, Occurs p o -> CleanCall o) /\
  Gives evs p (inl r) /\
  (forall scripting, read scripting (display_events r) =
     [TStart (lit "script") [] false] ++ chars (lit "x=1&lt;2") ++ [TEnd (lit "script")]).
Proof. exact script_refuted. Qed.
Print Assumptions C59_script_refuted.
