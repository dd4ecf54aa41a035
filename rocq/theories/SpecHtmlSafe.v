(** Templates that programs reading HTML understand as the library does, and calls that keep
    templates like that. *)
From Coq Require Import String ZArith NArith List.
From stdpp Require Import gmap.
From Verif Require Import Text Event Input Parse Selector Machine Template.
From Verif Require Import SpecText SpecAttr SpecParse SpecRender SpecTree SpecTransform SpecSafe SpecHtml5.
Local Open Scope N_scope.

(** The text ends with the beginning of what ends the text of an element [n]. *)
Definition EndsPartly (n c : str) : Prop :=
  exists p q, c = p ++ q /\ q <> [] /\ exists m, SameName (q ++ m) (lit "</" ++ n).
(** Text of an element [n] to which text can be added. *)
Definition SettledText (n c : str) : Prop :=
  ElementText n c /\ ~ EndsPartly n c /\
  (SameName n (lit "script") -> forall p q, c = p ++ q -> q = [] \/ forall m, q ++ m <> lit "<!--").

(** [scripts] says whether elements containing only text (script, style, title, ...) may
    occur, [scripting] whether the reader of the HTML executes scripts. *)
Inductive HtmlTree (scripting scripts : bool) : tree -> Prop :=
| Ht_data c : Clean (enc_str c) -> ~ In 60 (enc_str c) -> HtmlTree scripting scripts (Leaf (Data c))
| Ht_comment c : CommentText (enc_str c) -> HtmlTree scripting scripts (Leaf (Comment c))
| Ht_doctype c : SameName (enc_str c) (lit "html") -> HtmlTree scripting scripts (Leaf (Doctype c))
| Ht_void t a :
    OrdinaryName scripting (id_str t) -> Forall HtmlAttribute a ->
    HtmlTree scripting scripts (Leaf (VoidTag t a))
| Ht_self t a :
    OrdinaryName scripting (id_str t) -> Forall HtmlAttribute a ->
    HtmlTree scripting scripts (Leaf (SelfClosedTag t a))
| Ht_elem t a kids c :
    OrdinaryName scripting (id_str t) -> Forall HtmlAttribute a ->
    SameName (id_str t) (id_str c) -> HtmlName (id_str c) ->
    (forall x, In x kids -> HtmlTree scripting scripts x) ->
    HtmlTree scripting scripts (Elem t a kids c)
| Ht_text t a kids c :
    scripts = true ->
    HtmlName (id_str t) -> TextElement scripting (id_str t) -> Forall HtmlAttribute a ->
    SameName (id_str t) (id_str c) -> HtmlName (id_str c) ->
    Forall TextEvent (events kids) -> SettledText (id_str t) (leading (events kids)) ->
    HtmlTree scripting scripts (Elem t a kids c).
Definition HtmlTemplate (scripting scripts : bool) (evs : list event) : Prop :=
  exists F, (forall x, In x F -> HtmlTree scripting scripts x) /\ evs = events F.

(** Text that is safe everywhere outside of tags. *)
Definition HtmlText (evs : list event) : Prop :=
  Forall (fun ev => exists c, ev = Data c /\ Clean (enc_str c) /\ ~ In 60 (enc_str c)) evs.
(** Possible contents of an element [n] that contains only text. *)
Definition TextContents (n : str) (evs : list event) : Prop :=
  Forall TextEvent evs /\ SettledText n (leading evs).

(** A call with safe arguments: content is a template, or text where it can get into a text
    element; attribute names and values can be written; functions keep templates. *)
Record HtmlCall (scripting scripts i : bool) (o : op) : Prop := {
  html_content : forall c evs, op_content o = Some c -> ContentGives c (inl evs) ->
    if Into scripts i o then HtmlText evs else HtmlTemplate scripting scripts evs;
  html_name : forall n, written_name o = Some n -> Writable (id_str n);
  html_names : forall n, op_name o = Some (inl n) -> Clean (id_str n);
  html_value : forall v, WrittenValue o v -> ~ In 34 (enc_str v) /\ Clean (enc_str v);
  html_selector : forall m, op_selector o = Some (inl m) -> ElementSelector m;
  html_function : forall f x y, op_function o = Some f -> f x = inl y ->
    (HtmlTemplate scripting scripts x -> HtmlTemplate scripting scripts y) /\
    (i = true -> forall n, TextElement scripting n -> TextContents n x -> TextContents n y)
}.
Definition HtmlCalls (scripting scripts : bool) (p : pipeline) : Prop :=
  forall i o, OccursIn scripts false p i o -> HtmlCall scripting scripts i o.

(** Content and values made from string literals without U+0000 and carriage returns, and
    from numbers. *)
Inductive CleanContent : content -> Prop :=
| CC_static s : Clean s -> CleanContent (CStatic s)
| CC_int z : CleanContent (CInt z)
| CC_ok c : CleanContent c -> CleanContent (CResult (inl c))
| CC_error e : CleanContent (CResult (inr e)).
Inductive CleanValue : value -> Prop :=
| CV_static s : Clean s -> CleanValue (enc_from_unencoded_static_str s)
| CV_int z : CleanValue (value_from_int z).
(** A call without templates and functions, whose texts are all literals and numbers. *)
Record CleanCall (o : op) : Prop := {
  clean_content : forall c, op_content o = Some c -> CleanContent c;
  clean_name : forall n, written_name o = Some n -> Writable (id_str n);
  clean_names : forall n, op_name o = Some (inl n) -> Clean (id_str n);
  clean_value : forall v, WrittenValue o v -> CleanValue v;
  clean_selector : forall m, op_selector o = Some (inl m) -> ElementSelector m;
  clean_function : op_function o = None
}.

(** The library reads [s] and writes it unchanged, but a reader of HTML sees [l], which is not
    what the library has read. *)
Definition ReadDifferently (s : str) (l : list token) : Prop :=
  exists evs, from_str s default_options = TOk evs /\ display_events evs = s /\
    (forall b, tokens b s = l) /\ flat_map event_tokens evs <> l.
