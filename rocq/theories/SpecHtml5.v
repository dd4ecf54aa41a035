(** The tokenizer of the HTML standard (section "Tokenization"), which is what programs that
    read the rendered text use, as a state machine.  It has nothing to do with the parser of
    the library.  Simplifications:
    - character references are not expanded.  No character of a reference ends a text or a
      value, so this does not change how the input is divided into tokens
      (in [SpecCharRef] they are expanded);
    - doctype tokens have no public and system identifiers; these end, like everything in
      a doctype, at the first ">";
    - which state follows a start tag is decided by the tree builder.  Here it is what the
      tree builder decides for elements of HTML outside of svg, math and select;
      [scripting] says whether the reader executes scripts;
    - parse errors are not reported: the standard says how to go on in each case. *)
From Coq Require Import String List NArith Bool.
Import ListNotations.
From Verif Require Import Text Event SpecText SpecAttr SpecParse SpecRender.
Open Scope N_scope.

(** ** Tokens *)

Inductive token :=
| TDoctype (name : str)
| TStart (name : str) (attrs : list (str * str)) (self_closing : bool)
| TEnd (name : str)
| TComment (data : str)
| TChar (c : char).

Definition chars (s : str) : list token := map TChar s.

Definition white (c : char) : bool := (c =? 9) || (c =? 10) || (c =? 12) || (c =? 32).
Definition upper (c : char) : bool := (65 <=? c) && (c <=? 90).
Definition alpha (c : char) : bool := upper c || ((97 <=? c) && (c <=? 122)).
(** the character added to a name: lower case, and a replacement for U+0000 *)
Definition nul (c : char) : char := if c =? 0 then 65533 else c.
Definition low (c : char) : char := if upper c then c + 32 else nul c.
Fixpoint same (a b : str) : bool :=
  match a, b with
  | [], [] => true
  | x :: a, y :: b => (x =? y) && same a b
  | _, _ => false
  end.

(** ** States *)

(** a tag that is being read: is it an end tag, its name, its attributes *)
Record tag := Tg { t_end : bool; t_name : str; t_attrs : list (str * str) }.

(** the kinds of text in which only one end tag, or none, is recognized *)
Inductive kind := Rcdata | Rawtext | Script | Escaped.

Inductive state :=
| SData
| SPlaintext
| STagOpen
| SEndTagOpen
| STagName (e : bool) (n : str)
| SBeforeAttributeName (g : tag)
| SAttributeName (g : tag) (a : str)
| SAfterAttributeName (g : tag) (a : str)
| SBeforeAttributeValue (g : tag) (a : str)
| SValueDouble (g : tag) (a v : str)
| SValueSingle (g : tag) (a v : str)
| SValueUnquoted (g : tag) (a v : str)
| SAfterValue (g : tag)
| SSelfClosing (g : tag)
| SBogusComment (d : str)
| SMarkup (d : str)                       (* markup declaration open; [d] has been read *)
| SCommentStart
| SCommentStartDash
| SComment (d : str)
| SCommentLess (d : str)
| SCommentLessBang (d : str)
| SCommentLessBangDash (d : str)
| SCommentLessBangDashDash (d : str)
| SCommentEndDash (d : str)
| SCommentEnd (d : str)
| SCommentEndBang (d : str)
| SDoctype
| SBeforeDoctypeName
| SDoctypeName (n : str)
| SAfterDoctypeName (n : str)
(* text inside of the element [n] *)
| SRaw (k : kind) (n : str)
| SRawLess (k : kind) (n : str)
| SRawEndTagOpen (k : kind) (n : str)
| SRawEndTagName (k : kind) (n b : str)
| SEscapeStart (n : str)
| SEscapeStartDash (n : str)
| SEscapedDash (n : str)
| SEscapedDashDash (n : str)
| SDoubleEscapeStart (n b : str)
| SDouble (n : str)
| SDoubleDash (n : str)
| SDoubleDashDash (n : str)
| SDoubleLess (n : str)
| SDoubleEscapeEnd (n b : str).

(** What follows a start tag with this name. *)
Definition after_start (scripting : bool) (n : str) : state :=
  let is := fun x => same n (lit x) in
  if is "script"%string then SRaw Script n
  else if is "textarea"%string || is "title"%string then SRaw Rcdata n
  else if is "style"%string || is "xmp"%string || is "iframe"%string || is "noembed"%string
          || is "noframes"%string || (is "noscript"%string && scripting) then SRaw Rawtext n
  else if is "plaintext"%string then SPlaintext
  else SData.

(** Finish the attribute; the first one of a name counts. *)
Definition add (g : tag) (a v : str) : tag :=
  Tg (t_end g) (t_name g)
     (if existsb (fun x => same (fst x) a) (t_attrs g) then t_attrs g else t_attrs g ++ [(a, v)]).

(** ** Transitions: the next state, tokens emitted, and whether the character is to be
    consumed again in that state *)

Section transitions.
Context (scripting : bool).

Definition emit (g : tag) (self_closing : bool) : state * list token * bool :=
  if t_end g then (SData, [TEnd (t_name g)], false)
  else (after_start scripting (t_name g), [TStart (t_name g) (t_attrs g) self_closing], false).
Definition go (s : state) : state * list token * bool := (s, [], false).
Definition again (s : state) : state * list token * bool := (s, [], true).
Definition out (s : state) (x : str) : state * list token * bool := (s, chars x, false).
Definition out_again (s : state) (x : str) : state * list token * bool := (s, chars x, true).
Definition comment (d : str) : state * list token * bool := (SData, [TComment d], false).
Definition doctype (n : str) : state * list token * bool := (SData, [TDoctype n], false).

Definition step (s : state) (c : char) : state * list token * bool :=
  match s with
  | SData => if c =? 60 then go STagOpen else out SData [c]
  | SPlaintext => out SPlaintext [nul c]
  | STagOpen =>
      if c =? 33 then go (SMarkup [])
      else if c =? 47 then go SEndTagOpen
      else if alpha c then again (STagName false [])
      else if c =? 63 then again (SBogusComment [])
      else out_again SData [60]
  | SEndTagOpen =>
      if alpha c then again (STagName true [])
      else if c =? 62 then go SData
      else again (SBogusComment [])
  | STagName e n =>
      if white c then go (SBeforeAttributeName (Tg e n []))
      else if c =? 47 then go (SSelfClosing (Tg e n []))
      else if c =? 62 then emit (Tg e n []) false
      else go (STagName e (n ++ [low c]))
  | SBeforeAttributeName g =>
      if white c then go s
      else if c =? 47 then go (SSelfClosing g)
      else if c =? 62 then emit g false
      else if c =? 61 then go (SAttributeName g [61])
      else again (SAttributeName g [])
  | SAttributeName g a =>
      if white c || (c =? 47) || (c =? 62) then again (SAfterAttributeName g a)
      else if c =? 61 then go (SBeforeAttributeValue g a)
      else go (SAttributeName g (a ++ [low c]))
  | SAfterAttributeName g a =>
      if white c then go s
      else if c =? 47 then go (SSelfClosing (add g a []))
      else if c =? 61 then go (SBeforeAttributeValue g a)
      else if c =? 62 then emit (add g a []) false
      else again (SAttributeName (add g a []) [])
  | SBeforeAttributeValue g a =>
      if white c then go s
      else if c =? 34 then go (SValueDouble g a [])
      else if c =? 39 then go (SValueSingle g a [])
      else if c =? 62 then emit (add g a []) false
      else again (SValueUnquoted g a [])
  | SValueDouble g a v =>
      if c =? 34 then go (SAfterValue (add g a v)) else go (SValueDouble g a (v ++ [nul c]))
  | SValueSingle g a v =>
      if c =? 39 then go (SAfterValue (add g a v)) else go (SValueSingle g a (v ++ [nul c]))
  | SValueUnquoted g a v =>
      if white c then go (SBeforeAttributeName (add g a v))
      else if c =? 62 then emit (add g a v) false
      else go (SValueUnquoted g a (v ++ [nul c]))
  | SAfterValue g =>
      if white c then go (SBeforeAttributeName g)
      else if c =? 47 then go (SSelfClosing g)
      else if c =? 62 then emit g false
      else again (SBeforeAttributeName g)
  | SSelfClosing g =>
      if c =? 62 then emit g true else again (SBeforeAttributeName g)
  | SBogusComment d =>
      if c =? 62 then comment d else go (SBogusComment (d ++ [nul c]))
  | SMarkup d =>
      (* "--" or, in any case, "doctype"; everything else is a bogus comment *)
      if same (d ++ [c]) [45] then go (SMarkup [45])
      else if same (d ++ [c]) [45; 45] then go SCommentStart
      else if same (map low (d ++ [c])) (lit "doctype") then go SDoctype
      else if existsb (fun k => same (map low (d ++ [c])) (firstn k (lit "doctype")))
                      [1; 2; 3; 4; 5; 6]%nat
      then go (SMarkup (d ++ [c]))
      else again (SBogusComment d)
  | SCommentStart =>
      if c =? 45 then go SCommentStartDash
      else if c =? 62 then comment []
      else again (SComment [])
  | SCommentStartDash =>
      if c =? 45 then go (SCommentEnd [])
      else if c =? 62 then comment []
      else again (SComment [45])
  | SComment d =>
      if c =? 60 then go (SCommentLess (d ++ [c]))
      else if c =? 45 then go (SCommentEndDash d)
      else go (SComment (d ++ [nul c]))
  | SCommentLess d =>
      if c =? 33 then go (SCommentLessBang (d ++ [c]))
      else if c =? 60 then go (SCommentLess (d ++ [c]))
      else again (SComment d)
  | SCommentLessBang d =>
      if c =? 45 then go (SCommentLessBangDash d) else again (SComment d)
  | SCommentLessBangDash d =>
      if c =? 45 then go (SCommentLessBangDashDash d) else again (SCommentEndDash d)
  | SCommentLessBangDashDash d => again (SCommentEnd d)
  | SCommentEndDash d =>
      if c =? 45 then go (SCommentEnd d) else again (SComment (d ++ [45]))
  | SCommentEnd d =>
      if c =? 62 then comment d
      else if c =? 33 then go (SCommentEndBang d)
      else if c =? 45 then go (SCommentEnd (d ++ [45]))
      else again (SComment (d ++ [45; 45]))
  | SCommentEndBang d =>
      if c =? 45 then go (SCommentEndDash (d ++ [45; 45; 33]))
      else if c =? 62 then comment d
      else again (SComment (d ++ [45; 45; 33]))
  | SDoctype => if white c then go SBeforeDoctypeName else again SBeforeDoctypeName
  | SBeforeDoctypeName =>
      if white c then go s
      else if c =? 62 then doctype []
      else go (SDoctypeName [low c])
  | SDoctypeName n =>
      if white c then go (SAfterDoctypeName n)
      else if c =? 62 then doctype n
      else go (SDoctypeName (n ++ [low c]))
  | SAfterDoctypeName n => if c =? 62 then doctype n else go s
  | SRaw k n =>
      if c =? 60 then go (SRawLess k n)
      else match k with
           | Escaped => if c =? 45 then out (SEscapedDash n) [c] else out s [nul c]
           | _ => out s [nul c]
           end
  | SRawLess k n =>
      if c =? 47 then go (SRawEndTagOpen k n)
      else match k with
           | Script => if c =? 33 then out (SEscapeStart n) [60; c] else out_again (SRaw k n) [60]
           | Escaped => if alpha c then out_again (SDoubleEscapeStart n []) [60]
                        else out_again (SRaw k n) [60]
           | _ => out_again (SRaw k n) [60]
           end
  | SRawEndTagOpen k n =>
      if alpha c then again (SRawEndTagName k n []) else out_again (SRaw k n) [60; 47]
  | SRawEndTagName k n b =>
      if alpha c then go (SRawEndTagName k n (b ++ [c]))
      else if same (map low b) n && white c then go (SBeforeAttributeName (Tg true n []))
      else if same (map low b) n && (c =? 47) then go (SSelfClosing (Tg true n []))
      else if same (map low b) n && (c =? 62) then emit (Tg true n []) false
      else out_again (SRaw k n) ([60; 47] ++ b)
  | SEscapeStart n =>
      if c =? 45 then out (SEscapeStartDash n) [c] else again (SRaw Script n)
  | SEscapeStartDash n =>
      if c =? 45 then out (SEscapedDashDash n) [c] else again (SRaw Script n)
  | SEscapedDash n =>
      if c =? 45 then out (SEscapedDashDash n) [c]
      else if c =? 60 then go (SRawLess Escaped n)
      else out (SRaw Escaped n) [nul c]
  | SEscapedDashDash n =>
      if c =? 45 then out s [c]
      else if c =? 60 then go (SRawLess Escaped n)
      else if c =? 62 then out (SRaw Script n) [c]
      else out (SRaw Escaped n) [nul c]
  | SDoubleEscapeStart n b =>
      if white c || (c =? 47) || (c =? 62)
      then out (if same b (lit "script") then SDouble n else SRaw Escaped n) [c]
      else if alpha c then out (SDoubleEscapeStart n (b ++ [low c])) [c]
      else again (SRaw Escaped n)
  | SDouble n =>
      if c =? 45 then out (SDoubleDash n) [c]
      else if c =? 60 then out (SDoubleLess n) [c]
      else out s [nul c]
  | SDoubleDash n =>
      if c =? 45 then out (SDoubleDashDash n) [c]
      else if c =? 60 then out (SDoubleLess n) [c]
      else out (SDouble n) [nul c]
  | SDoubleDashDash n =>
      if c =? 45 then out s [c]
      else if c =? 60 then out (SDoubleLess n) [c]
      else if c =? 62 then out (SRaw Script n) [c]
      else out (SDouble n) [nul c]
  | SDoubleLess n =>
      if c =? 47 then out (SDoubleEscapeEnd n []) [c] else again (SDouble n)
  | SDoubleEscapeEnd n b =>
      if white c || (c =? 47) || (c =? 62)
      then out (if same b (lit "script") then SRaw Escaped n else SDouble n) [c]
      else if alpha c then out (SDoubleEscapeEnd n (b ++ [low c])) [c]
      else again (SDouble n)
  end.

(** What is emitted at the end of the input.  Unfinished tags are dropped. *)
Definition finish (s : state) : list token :=
  match s with
  | STagOpen => chars [60]
  | SEndTagOpen => chars [60; 47]
  | SRawLess _ _ => chars [60]
  | SRawEndTagOpen _ _ => chars [60; 47]
  | SRawEndTagName _ _ b => chars ([60; 47] ++ b)
  | SBogusComment d | SMarkup d | SComment d | SCommentLess d | SCommentLessBang d
  | SCommentLessBangDash d | SCommentLessBangDashDash d | SCommentEndDash d | SCommentEnd d
  | SCommentEndBang d => [TComment d]
  | SCommentStart | SCommentStartDash => [TComment []]
  | SDoctype | SBeforeDoctypeName => [TDoctype []]
  | SDoctypeName n | SAfterDoctypeName n => [TDoctype n]
  | _ => []
  end.

(** Consume one character: steps until it is not to be consumed again.  At most three steps
    are needed (this is proved). *)
Fixpoint feed (k : nat) (s : state) (c : char) : state * list token :=
  match k with
  | O => (s, [])
  | S k =>
      let '(s', o, r) := step s c in
      if r then let '(s'', o') := feed k s' c in (s'', o ++ o') else (s', o)
  end.
Fixpoint tokens_from (s : state) (input : str) : list token :=
  match input with
  | [] => finish s
  | c :: input => let '(s', o) := feed 4 s c in o ++ tokens_from s' input
  end.
(** Before, newlines are normalized: a carriage return, with the newline after it if there is
    one, becomes a newline. *)
Fixpoint newlines (input : str) : str :=
  match input with
  | [] => []
  | c :: rest =>
      if c =? 13 then match rest with
                      | 10 :: _ => newlines rest
                      | _ => 10 :: newlines rest
                      end
      else c :: newlines rest
  end.
(** The tokens of a text. *)
Definition tokens (input : str) : list token := tokens_from SData (newlines input).

End transitions.

(** ** What the events of a template say *)

Definition small (c : char) : char := if upper c then c + 32 else c.
Definition lower (s : str) : str := map small s.

(** Names in lower case, the first attribute of a name counts, no value is the empty value. *)
Fixpoint html_attributes (seen : list str) (l : attributes) : list (str * str) :=
  match l with
  | [] => []
  | a :: l =>
      let n := lower (id_str (a_name a)) in
      if existsb (same n) seen then html_attributes seen l
      else (n, match a_value a with Some v => enc_str v | None => [] end)
             :: html_attributes (n :: seen) l
  end.
Definition event_tokens (ev : event) : list token :=
  match ev with
  | Noop => []
  | Doctype c => [TDoctype (lower (enc_str c))]
  | Comment c => [TComment (enc_str c)]
  | Data c | RawData c => chars (enc_str c)
  | SelfClosedTag t a => [TStart (lower (id_str t)) (html_attributes [] a) true]
  | OpeningTag t a | VoidTag t a => [TStart (lower (id_str t)) (html_attributes [] a) false]
  | ClosingTag t => [TEnd (lower (id_str t))]
  end.

(** ** Templates that mean to a reader of HTML what they mean to the library *)

(** No U+0000, which is replaced, and no carriage return. *)
Definition Clean (s : str) : Prop := ~ In 0 s /\ ~ In 13 s.
Definition Letter (c : char) : Prop := 65 <= c <= 90 \/ 97 <= c <= 122.
(** Names of elements begin with a letter. *)
Definition HtmlName (n : str) : Prop := Writable n /\ Clean n /\ Begins Letter n.
Definition HtmlAttribute (a : attribute) : Prop :=
  Writable (id_str (a_name a)) /\ Clean (id_str (a_name a)) /\
  match a_value a with Some v => ~ In 34 (enc_str v) /\ Clean (enc_str v) | None => True end.

(** Elements which contain text only. *)
Definition TextNames (scripting : bool) : list str :=
  map lit ["script"; "style"; "title"; "textarea"; "xmp"; "iframe"; "noembed"; "noframes"]%string
  ++ (if scripting then [lit "noscript"] else []).
Definition TextElement (scripting : bool) (n : str) : Prop :=
  exists r, In r (TextNames scripting) /\ SameName n r.
Definition OrdinaryName (scripting : bool) (n : str) : Prop :=
  HtmlName n /\ ~ TextElement scripting n /\ ~ SameName n (lit "plaintext").

(** The text [s] begins with what ends the text of an element [n]. *)
Definition EndsText (n s : str) : Prop :=
  exists m d r, s = lit "</" ++ m ++ d :: r /\ SameName m n /\ In d [9; 10; 12; 32; 47; 62].
(** [c] can be the text of an element [n]. *)
Definition ElementText (n c : str) : Prop :=
  Clean c /\ (forall p q, c = p ++ q -> ~ EndsText n q) /\
  (SameName n (lit "script") -> forall p q, c <> p ++ lit "<!--" ++ q).

Definition CommentText (c : str) : Prop :=
  Clean c /\ (forall q, c <> lit ">" ++ q) /\ (forall q, c <> lit "->" ++ q) /\
  (forall p q, c <> p ++ lit "-->" ++ q) /\ (forall p q, c <> p ++ lit "--!>" ++ q).

Inductive Standard (scripting : bool) : list event -> Prop :=
| Std_nil : Standard scripting []
| Std_noop evs : Standard scripting evs -> Standard scripting (Noop :: evs)
| Std_text ev c evs :
    ev = Data c \/ ev = RawData c -> Clean (enc_str c) -> ~ In 60 (enc_str c) ->
    Standard scripting evs -> Standard scripting (ev :: evs)
| Std_comment c evs :
    CommentText (enc_str c) -> Standard scripting evs -> Standard scripting (Comment c :: evs)
| Std_doctype c evs :
    SameName (enc_str c) (lit "html") -> Standard scripting evs ->
    Standard scripting (Doctype c :: evs)
| Std_tag ev t a evs :
    ev = OpeningTag t a \/ ev = VoidTag t a \/ ev = SelfClosedTag t a ->
    OrdinaryName scripting (id_str t) -> Forall HtmlAttribute a ->
    Standard scripting evs -> Standard scripting (ev :: evs)
| Std_end t evs :
    HtmlName (id_str t) -> Standard scripting evs -> Standard scripting (ClosingTag t :: evs)
| Std_element t a texts t' evs :
    HtmlName (id_str t) -> TextElement scripting (id_str t) -> Forall HtmlAttribute a ->
    Forall (fun ev => exists c, ev = Data c \/ ev = RawData c) texts -> ElementText (id_str t) (leading texts) ->
    SameName (id_str t) (id_str t') -> HtmlName (id_str t') ->
    Standard scripting evs ->
    Standard scripting (OpeningTag t a :: texts ++ ClosingTag t' :: evs).
