(** Templates whose rendering can be read back, and calls that keep templates like that. *)
From Coq Require Import String ZArith NArith List.
From stdpp Require Import gmap.
From Verif Require Import Text Event Input Parse Selector Machine Template.
From Verif Require Import SpecText SpecAttr SpecParse SpecRender SpecTree SpecTransform.
From Verif Require Api.
Local Open Scope N_scope.

(** ** Readable templates *)

Definition ReadableAttribute (a : attribute) : Prop :=
  Writable (id_str (a_name a)) /\
  match a_value a with Some v => ~ In 34 (enc_str v) | None => True end.
Definition ReadableAttrs (a : attributes) : Prop := forall b, In b a -> ReadableAttribute b.

(** Names of elements: they can be read back, and do not look like a comment or doctype. *)
Definition ReadableName (t : ident) : Prop := Writable (id_str t) /\ no_bang (id_str t).

Definition TextEvent (ev : event) : Prop :=
  match ev with Data _ | RawData _ => True | _ => False end.
(** No end tag of the raw text element [r] begins in the text. *)
Definition NoEndTag (r c : str) : Prop := forall p q, c = p ++ q -> ~ EndsRaw r q.
(** Possible contents of the raw text element [r]. *)
Definition RawContents (r : str) (evs : list event) : Prop :=
  Forall TextEvent evs /\ NoEndTag r (leading evs).

(** [scripts] says whether raw text elements (script, style, title, textarea) may occur. *)
Inductive ReadableTree (scripts : bool) : tree -> Prop :=
| Rd_data c : ~ In 60 (enc_str c) -> ReadableTree scripts (Leaf (Data c))
| Rd_comment c :
    (forall p q, enc_str c ++ lit "-->" = p ++ lit "-->" ++ q -> q = []) ->
    ReadableTree scripts (Leaf (Comment c))
| Rd_doctype c : SameName (enc_str c) (lit "html") -> ReadableTree scripts (Leaf (Doctype c))
| Rd_void t a :
    ReadableName t -> ReadableAttrs a -> VoidName (id_str t) ->
    ReadableTree scripts (Leaf (VoidTag t a))
| Rd_self t a :
    ReadableName t -> ReadableAttrs a -> ~ VoidName (id_str t) ->
    (scripts = false -> ~ RawName (id_str t)) ->
    ReadableTree scripts (Leaf (SelfClosedTag t a))
| Rd_elem t a kids c :
    ReadableName t -> ReadableAttrs a -> ~ VoidName (id_str t) -> ~ RawName (id_str t) ->
    SameName (id_str t) (id_str c) -> Writable (id_str c) ->
    (forall x, In x kids -> ReadableTree scripts x) ->
    ReadableTree scripts (Elem t a kids c)
| Rd_raw t a kids c r :
    scripts = true ->
    ReadableName t -> ReadableAttrs a -> ~ VoidName (id_str t) ->
    In r RawNames -> SameName (id_str t) r ->
    SameName (id_str t) (id_str c) -> Writable (id_str c) ->
    RawContents r (events kids) ->
    ReadableTree scripts (Elem t a kids c).
(** A template whose rendering can be read back. *)
Definition Readable (scripts : bool) (evs : list event) : Prop :=
  exists F, (forall x, In x F -> ReadableTree scripts x) /\ evs = events F.

(** Text that is safe everywhere outside of tags. *)
Definition PlainText (evs : list event) : Prop :=
  Forall (fun ev => exists c, ev = Data c /\ MarkupFree (enc_str c)) evs.

(** ** Safe calls *)

(** [SubIn scripts i o j q]: the builder [q] of the call [o]; [i] and [j] say whether [o] and
    [q] may be applied to the contents of a raw text element. *)
Definition SubIn (scripts i : bool) (o : op) (j : bool) (q : pipeline) : Prop :=
  match o with
  | OApply p | OApplyEither _ p _ => q = p /\ j = i
  | OSelect _ _ b | OSubselect _ _ b => (exists k, q = b k) /\ j = false
  | OSelectOnce _ _ p | OSubselectOnce _ _ p => q = p /\ j = false
  | OSubselectContents p => q = p /\ j = scripts
  | ORepeat bs => In q bs /\ j = i
  | ORepeatOrElse bs p => (In q bs \/ q = p) /\ j = i
  | ORepeatContents bs => In q bs /\ j = scripts
  | ORepeatContentsOrElse bs p => (In q bs /\ j = scripts) \/ (q = p /\ j = i)
  | _ => False
  end.
Inductive OccursIn (scripts : bool) : bool -> pipeline -> bool -> op -> Prop :=
| OccursIn_here i p o : In o p -> OccursIn scripts i p i o
| OccursIn_deeper i p o j q k o' :
    In o p -> SubIn scripts i o j q -> OccursIn scripts j q k o' -> OccursIn scripts i p k o'.

(** The calls whose content may get into a raw text element. *)
Definition Into (scripts i : bool) (o : op) : bool :=
  match o with
  | OPrependContents _ | OAppendContents _ | OReplaceContents _ => scripts
  | _ => i
  end.
(** The calls that may repeat the contents of a raw text element. *)
Definition RepeatsRaw (scripts i : bool) (o : op) : bool :=
  match o with
  | ORepeat bs | ORepeatOrElse bs _ => i && Nat.ltb 1 (length bs)
  | ORepeatContents bs | ORepeatContentsOrElse bs _ => scripts && Nat.ltb 1 (length bs)
  | _ => false
  end.
(** The calls that write the attribute name given to them. *)
Definition written_name (o : op) : option ident :=
  match o with
  | OAddAttribute (inl n) _ | OAddToAttribute (inl n) _ _ | OReplaceAttribute (inl n) _
  | OSetAttribute (inl n) _ => Some n
  | _ => None
  end.
(** [v] is (part of) an attribute value given to the call. *)
Definition WrittenValue (o : op) (v : value) : Prop :=
  match o with
  | OAddAttribute _ w | OSetAttribute _ w => w = Some v
  | OAddToAttribute _ w sep => v = w \/ v = sep
  | OReplaceAttribute _ w => v = w
  | _ => False
  end.

(** A call with safe arguments: content is a readable template, or plain text where it can
    get into a raw text element; attribute names can be read back; values are free of
    double quotes; functions keep templates readable. *)
Record SafeCall (scripts i : bool) (o : op) : Prop := {
  safe_content : forall c evs, op_content o = Some c -> ContentGives c (inl evs) ->
    if Into scripts i o then PlainText evs else Readable scripts evs;
  safe_name : forall n, written_name o = Some n -> Writable (id_str n);
  safe_value : forall v, WrittenValue o v -> ~ In 34 (enc_str v);
  safe_selector : forall m, op_selector o = Some (inl m) -> ElementSelector m;
  safe_repeat : RepeatsRaw scripts i o = false;
  safe_function : forall f x y, op_function o = Some f -> f x = inl y ->
    (Readable scripts x -> Readable scripts y) /\
    (i = true -> forall r, RawContents r x -> RawContents r y)
}.
Definition SafeCalls (scripts : bool) (p : pipeline) : Prop :=
  forall i o, OccursIn scripts false p i o -> SafeCall scripts i o.

(** ** Static arguments *)

(** Content made from string literals and numbers. *)
Inductive StaticContent : content -> Prop :=
| SC_static s : StaticContent (CStatic s)
| SC_int z : StaticContent (CInt z)
| SC_ok c : StaticContent c -> StaticContent (CResult (inl c))
| SC_error e : StaticContent (CResult (inr e)).
(** Values made from string literals and numbers. *)
Inductive StaticValue : value -> Prop :=
| SV_static s : StaticValue (enc_from_unencoded_static_str s)
| SV_int z : StaticValue (value_from_int z).
(** Literals and numbers given to calls that change attributes. *)
Inductive LiteralValue : Api.value_arg -> Prop :=
| LV_static s : LiteralValue (Api.VAStatic s)
| LV_int z : LiteralValue (Api.VAInt z).
(** A call without templates and functions, whose texts are all literals and numbers, and
    that does not repeat anything. *)
Record StaticCall (o : op) : Prop := {
  static_content : forall c, op_content o = Some c -> StaticContent c;
  static_name : forall n, written_name o = Some n -> Writable (id_str n);
  static_value : forall v, WrittenValue o v -> StaticValue v;
  static_selector : forall m, op_selector o = Some (inl m) -> ElementSelector m;
  static_repeat : RepeatsRaw true true o = false;
  static_function : op_function o = None
}.
