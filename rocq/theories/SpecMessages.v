(** What the messages of errors are about: the text of a location, the documented message for
    mismatched tags, and which errors may share a message. *)
From Coq Require Import String List NArith.
Import ListNotations.
From Verif Require Import Text Event Input Parse Selector Template Messages SpecText.

(** The text of a location: three numbers. *)
Definition LocationText (l : location) (s : str) : Prop :=
  exists a b c, Numeral (N.of_nat (line l)) a /\ Numeral (N.of_nat (column l)) b /\
    Numeral (N.of_nat (offset l)) c /\
    s = lit "line " ++ a ++ lit " column " ++ b ++ lit " (byte offset " ++ c ++ lit ")".

(** What the documentation of [MismatchedClosingTag] says the message is about. *)
Definition MismatchText (closing : str) (closing_at : location) (opening : str)
    (opening_at : location) (s : str) : Prop :=
  exists c o, LocationText closing_at c /\ LocationText opening_at o /\
    s = lit "Closing tag '" ++ closing ++ lit "' at " ++ c
        ++ lit " does not match opening tag '" ++ opening ++ lit "' at " ++ o.

(** The reader of a parse error's message is told: which kind of error it is, except that
    invalid opening and closing tags are confused; where it is; the names of the tags
    involved; for attribute values only the names of the tag and of the attribute joined by a
    dot.  What is wrong with an identifier is left to the cause; of the other unclosed tags
    only the names are told. *)
Inductive SameParseReport : parse_error -> parse_error -> Prop :=
| PR_same e : SameParseReport e e
| PR_opening l i j :
    SameParseReport (InvalidOpeningTagIdentifier l i) (InvalidOpeningTagIdentifier l j)
| PR_closing l i j :
    SameParseReport (InvalidClosingTagIdentifier l i) (InvalidClosingTagIdentifier l j)
| PR_opening_closing l i j :
    SameParseReport (InvalidOpeningTagIdentifier l i) (InvalidClosingTagIdentifier l j)
| PR_closing_opening l i j :
    SameParseReport (InvalidClosingTagIdentifier l i) (InvalidOpeningTagIdentifier l j)
| PR_attribute l i j :
    SameParseReport (InvalidAttributeIdentifier l i) (InvalidAttributeIdentifier l j)
| PR_value l t a t' a' : t ++ 46%N :: a = t' ++ 46%N :: a' ->
    SameParseReport (InvalidAttributeValue l t a) (InvalidAttributeValue l t' a')
| PR_unclosed_value l t a t' a' : t ++ 46%N :: a = t' ++ 46%N :: a' ->
    SameParseReport (UnclosedAttributeValue l t a) (UnclosedAttributeValue l t' a')
| PR_missing inner others others' : map fst others = map fst others' ->
    SameParseReport (MissingClosingTags inner others) (MissingClosingTags inner others').

Definition SameInputReport (e f : input_error) : Prop :=
  match e, f with
  | ParseError _, ParseError _ => True
  | LengthLimitExceeded n, LengthLimitExceeded m => n = m
  | _, _ => False
  end.

Definition SameFileReport (e f : file_error) : Prop :=
  match e, f with
  | FileOpen p _, FileOpen q _ | FileRead p _, FileRead q _
  | FileInput p _, FileInput q _ | FileDecode p _, FileDecode q _ => p = q
  | _, _ => False
  end.

Definition SameStreamReport (e f : stream_error) : Prop :=
  match e, f with
  | SEAssertion _, SEAssertion _ | SEInput _, SEInput _ | SEFile _, SEFile _
  | SEIdentifier _, SEIdentifier _ | SESelector _, SESelector _
  | SEStaticSelector _, SEStaticSelector _ => True
  | _, _ => False
  end.

Definition SameSelectorReport (e f : selector_error) : Prop :=
  match e, f with
  | SelErrTag _, SelErrTag _ | SelErrId _, SelErrId _ | SelErrClass _, SelErrClass _
  | SelErrClasses _, SelErrClasses _ => True
  | _, _ => False
  end.

Definition SameClassesReport (e f : classes_error) : Prop :=
  match e, f with
  | ClassesEmpty, ClassesEmpty => True
  | ClassesIdentifier i _, ClassesIdentifier j _ => i = j
  | _, _ => False
  end.

Definition SameStaticReport (e f : static_error) : Prop :=
  match e, f with
  | StaticUnrestricted, StaticUnrestricted
  | StaticTag _, StaticTag _ | StaticId _, StaticId _ => True
  | StaticClass i _, StaticClass j _ => i = j
  | _, _ => False
  end.

(** Events of the same kind *)
Definition SameKind (a b : event) : Prop :=
  match a, b with
  | Noop, Noop | Doctype _, Doctype _ | Comment _, Comment _ | Data _, Data _
  | RawData _, RawData _ | OpeningTag _ _, OpeningTag _ _ | ClosingTag _, ClosingTag _
  | SelfClosedTag _ _, SelfClosedTag _ _ | VoidTag _ _, VoidTag _ _ => True
  | _, _ => False
  end.
Definition SameFound (a b : option event) : Prop :=
  match a, b with
  | Some a, Some b => SameKind a b
  | None, None => True
  | _, _ => False
  end.
Definition SameMalformedReport (e f : malformed_reason) : Prop :=
  match e, f with
  | MUnexpectedClosingTag t, MUnexpectedClosingTag u => id_str t = id_str u
  | MExpectedOpeningTag a, MExpectedOpeningTag b => SameFound a b
  | MExpectedClosingTag a t, MExpectedClosingTag b u => SameFound a b /\ id_str t = id_str u
  | _, _ => False
  end.
(** the tag it names is an identifier *)
Definition NamesTag (e : malformed_reason) : Prop :=
  match e with
  | MUnexpectedClosingTag t | MExpectedClosingTag _ t => ValidName (id_str t)
  | MExpectedOpeningTag _ => True
  end.

(** ** Reports: the messages of an error and of its causes *)

(** [Told say e l]: following [cause] from [e] and writing [say] of each error met gives the
    messages [l]. *)
Inductive Told (say : any_error -> str) : any_error -> list str -> Prop :=
| T_last e : cause e = None -> Told say e [say e]
| T_cause e c l : cause e = Some c -> Told say c l -> Told say e (say e :: l).

(** What a report leaves open about a parse error: whether an invalid tag name is that of an
    opening or a closing tag, where the dot in "tag.attribute" is, and where the unclosed tags
    but the innermost are. *)
Inductive SameParse : parse_error -> parse_error -> Prop :=
| SP_same e : SameParse e e
| SP_opening_closing l i :
    SameParse (InvalidOpeningTagIdentifier l i) (InvalidClosingTagIdentifier l i)
| SP_closing_opening l i :
    SameParse (InvalidClosingTagIdentifier l i) (InvalidOpeningTagIdentifier l i)
| SP_value l t a t' a' : t ++ 46%N :: a = t' ++ 46%N :: a' ->
    SameParse (InvalidAttributeValue l t a) (InvalidAttributeValue l t' a')
| SP_unclosed_value l t a t' a' : t ++ 46%N :: a = t' ++ 46%N :: a' ->
    SameParse (UnclosedAttributeValue l t a) (UnclosedAttributeValue l t' a')
| SP_missing inner others others' : map fst others = map fst others' ->
    SameParse (MissingClosingTags inner others) (MissingClosingTags inner others').

Section Same.
  (** what the standard library writes for its errors *)
  Variables (io : N -> str) (utf8 : nat -> str).

  Definition SameInput (e f : input_error) : Prop :=
    match e, f with
    | ParseError e, ParseError f => SameParse e f
    | LengthLimitExceeded n, LengthLimitExceeded m => n = m
    | _, _ => False
    end.
  Definition SameFile (e f : file_error) : Prop :=
    match e, f with
    | FileOpen p c, FileOpen q d | FileRead p c, FileRead q d => p = q /\ io c = io d
    | FileInput p e, FileInput q f => p = q /\ SameInput e f
    | FileDecode p c, FileDecode q d => p = q /\ utf8 c = utf8 d
    | _, _ => False
    end.
  Definition SameStream (e f : stream_error) : Prop :=
    match e, f with
    | SEAssertion e, SEAssertion f => SameMalformedReport e f
    | SEInput e, SEInput f => SameInput e f
    | SEFile e, SEFile f => SameFile e f
    | SEIdentifier e, SEIdentifier f => e = f
    | SESelector e, SESelector f => e = f
    | SEStaticSelector e, SEStaticSelector f => e = f
    | _, _ => False
    end.
  (** Errors with the same report.  The errors of [Id::from_str], [Tag::from_str] and
      [Class::from_str] have the messages of the errors they are converted to. *)
  Inductive SameError : any_error -> any_error -> Prop :=
  | EQ_same e : SameError e e
  | EQ_stream e f : SameStream e f -> SameError (ErrStream e) (ErrStream f)
  | EQ_assertion e f : SameMalformedReport e f -> SameError (ErrAssertion e) (ErrAssertion f)
  | EQ_malformed e f : SameMalformedReport e f -> SameError (ErrMalformed e) (ErrMalformed f)
  | EQ_input e f : SameInput e f -> SameError (ErrInput e) (ErrInput f)
  | EQ_file e f : SameFile e f -> SameError (ErrFile e) (ErrFile f)
  | EQ_parse e f : SameParse e f -> SameError (ErrParse e) (ErrParse f)
  | EQ_id i : SameError (ErrId i) (ErrSelector (SelErrId i))
  | EQ_id' i : SameError (ErrSelector (SelErrId i)) (ErrId i)
  | EQ_tag i : SameError (ErrTag i) (ErrSelector (SelErrTag i))
  | EQ_tag' i : SameError (ErrSelector (SelErrTag i)) (ErrTag i)
  | EQ_class i : SameError (ErrClass i) (ErrSelector (SelErrClass i))
  | EQ_class' i : SameError (ErrSelector (SelErrClass i)) (ErrClass i).
End Same.

(** The errors the library makes: the parse errors are those of some text, the identifier
    errors those of some string, and the tags named are identifiers. *)
Definition RealIdentifier (i : identifier_error) : Prop := exists s, NameError s i.
Definition RealParse (e : parse_error) : Prop :=
  exists s o, from_str s o = TErr (ParseError e).
Definition RealInput (e : input_error) : Prop :=
  match e with ParseError e => RealParse e | LengthLimitExceeded _ => True end.
Definition RealFile (e : file_error) : Prop :=
  match e with FileInput _ e => RealInput e | _ => True end.
Definition RealClasses (e : classes_error) : Prop :=
  match e with ClassesIdentifier _ i => RealIdentifier i | ClassesEmpty => True end.
Definition RealSelector (e : selector_error) : Prop :=
  match e with
  | SelErrTag i | SelErrId i | SelErrClass i => RealIdentifier i
  | SelErrClasses e => RealClasses e
  end.
Definition RealStatic (e : static_error) : Prop :=
  match e with
  | StaticUnrestricted => True
  | StaticTag i | StaticId i | StaticClass _ i => RealIdentifier i
  end.
Definition RealStream (e : stream_error) : Prop :=
  match e with
  | SEAssertion e => NamesTag e
  | SEInput e => RealInput e
  | SEFile e => RealFile e
  | SEIdentifier i => RealIdentifier i
  | SESelector e => RealSelector e
  | SEStaticSelector e => RealStatic e
  end.
Definition RealError (e : any_error) : Prop :=
  match e with
  | ErrStream e => RealStream e
  | ErrAssertion e | ErrMalformed e => NamesTag e
  | ErrInput e => RealInput e
  | ErrFile e => RealFile e
  | ErrParse e => RealParse e
  | ErrIdentifier i | ErrId i | ErrTag i | ErrClass i => RealIdentifier i
  | ErrSelector e => RealSelector e
  | ErrClasses e => RealClasses e
  | ErrStatic e => RealStatic e
  | ErrIo _ | ErrUtf8 _ => False           (* not errors of the library *)
  end.

(** Errors of the same type, except that [StaticError] is described as [ClassesError]. *)
Inductive SameDescription : any_error -> any_error -> Prop :=
| SD_stream e f : SameDescription (ErrStream e) (ErrStream f)
| SD_assertion e f : SameDescription (ErrAssertion e) (ErrAssertion f)
| SD_malformed e f : SameDescription (ErrMalformed e) (ErrMalformed f)
| SD_input e f : SameDescription (ErrInput e) (ErrInput f)
| SD_file e f : SameDescription (ErrFile e) (ErrFile f)
| SD_parse e f : SameDescription (ErrParse e) (ErrParse f)
| SD_identifier e f : SameDescription (ErrIdentifier e) (ErrIdentifier f)
| SD_id e f : SameDescription (ErrId e) (ErrId f)
| SD_tag e f : SameDescription (ErrTag e) (ErrTag f)
| SD_class e f : SameDescription (ErrClass e) (ErrClass f)
| SD_selector e f : SameDescription (ErrSelector e) (ErrSelector f)
| SD_classes e f : SameDescription (ErrClasses e) (ErrClasses f)
| SD_static e f : SameDescription (ErrStatic e) (ErrStatic f)
| SD_classes_static e f : SameDescription (ErrClasses e) (ErrStatic f)
| SD_static_classes e f : SameDescription (ErrStatic e) (ErrClasses f).
