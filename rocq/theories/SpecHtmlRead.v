(** Texts whose markup is written so that the tokenizer of the HTML standard and the parser of
    the library agree on where it begins and ends. *)
From Coq Require Import String List NArith Bool.
Import ListNotations.
From Verif Require Import Text Event Input Parse Selector Template SpecText SpecAttr SpecParse SpecRender SpecHtml5.
Open Scope N_scope.

(** The characters that separate things inside of tags in HTML.  (A carriage return is
    turned into a newline before the text is divided into tokens.) *)
Definition HtmlSpace (c : char) : Prop := In c [9; 10; 12; 13; 32].

(** The text without what is between double quotes. *)
Fixpoint unquoted (inside : bool) (s : str) : str :=
  match s with
  | [] => []
  | c :: s =>
      if c =? 34 then 34 :: unquoted (negb inside) s
      else if inside then unquoted inside s else c :: unquoted inside s
  end.
(** No quoted part begins with white space. *)
Fixpoint Trimmed (inside : bool) (s : str) : Prop :=
  match s with
  | [] => True
  | c :: s =>
      if c =? 34 then (inside = false -> ~ Begins Space s) /\ Trimmed (negb inside) s
      else Trimmed inside s
  end.

(** The slice of the event is written tidily: no white space before the name of the tag,
    between the parts of the tag only white space that separates in HTML, no white space at
    the start of a value.  There is nothing to ask of texts and comments. *)
Definition TidyMarkup (slice : str) : Prop :=
  (forall p c r, slice = p ++ c :: r -> In p (map lit ["<"; "</"; "<!"]%string) -> ~ Space c) /\
  (forall c, In c (unquoted false slice) -> Space c -> HtmlSpace c) /\
  Trimmed false slice.
Definition Tidy (slice : str) (ev : event) : Prop :=
  match ev with
  | Noop | Comment _ | Data _ | RawData _ => True
  | _ => TidyMarkup slice
  end.

(** Tokens without the flag of start tags which says that there was a slash at the end.
    (The library does not keep it for void elements, and allows white space between the
    slash and the ">".) *)
Definition unflag (t : token) : token :=
  match t with
  | TStart n a _ => TStart n a false
  | _ => t
  end.

(** The event with normalized newlines in its text. *)
Definition nl (c : encoded) : encoded := raw (newlines (enc_str c)).
Definition nl_attribute (a : attribute) : attribute :=
  Attribute (a_name a) (option_map nl (a_value a)).
Definition nl_event (ev : event) : event :=
  match ev with
  | Noop => Noop
  | Doctype c => Doctype (nl c)
  | Comment c => Comment (nl c)
  | Data c => Data (nl c)
  | RawData c => RawData (nl c)
  | OpeningTag t a => OpeningTag t (map nl_attribute a)
  | SelfClosedTag t a => SelfClosedTag t (map nl_attribute a)
  | VoidTag t a => VoidTag t (map nl_attribute a)
  | ClosingTag t => ClosingTag t
  end.

(** The parser accepts [s]; its events mean the same to it and to readers of HTML, but the
    tokens [o] that they read from [s] are not those of the events. *)
Definition ReadOtherwise (s : str) (o : list token) : Prop :=
  exists evs, from_str s default_options = TOk evs /\
    forall scripting, Standard scripting (map nl_event evs) /\ tokens scripting s = o /\
      map unflag o <> map unflag (flat_map event_tokens (map nl_event evs)).

(** No carriage return and newline that belong together are divided between two events. *)
Definition UndividedNewlines (evs : list event) : Prop :=
  forall p q, evs = p ++ q -> (exists a, display_events p = a ++ [13]) ->
  ~ Begins (eq 10) (display_events q).
