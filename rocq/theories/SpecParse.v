(** What a document is, how its text spells its events, and what each parse error means:
    relations on texts, without reference to the parser's functions. *)
From Coq Require Import String List NArith.
Import ListNotations.
From Verif Require Import Text Event Input Parse SpecText SpecAttr SpecLocation.
Open Scope N_scope.

(** ** White space and words *)

Definition Begins (P : char -> Prop) (s : str) : Prop := exists c r, s = c :: r /\ P c.
Definition Blank (s : str) : Prop := Forall Space s.
(** [w] is all the white space before [s]. *)
Definition Gap (w s : str) : Prop := Blank w /\ ~ Begins Space s.

(** Words end at the end of the text or at one of the characters: space, tab, carriage
    return, newline, >, <, double quote, slash, equals, apostrophe, ampersand. *)
Definition Delimiter (c : char) : Prop := In c [32; 9; 13; 10; 62; 60; 34; 47; 61; 39; 38].
Definition WordEnds (r : str) : Prop := r = [] \/ Begins Delimiter r.
(** The text [w ++ r] begins with the word [w]. *)
Definition Word (w r : str) : Prop :=
  w <> [] /\ (forall c, In c w -> ~ Delimiter c) /\ WordEnds r.
(** ... and this word is a name. *)
Definition Name (n r : str) : Prop := Word n r /\ ValidName n.

Definition raw (s : str) : encoded := Encoded (Actual s).
Definition name (s : str) : ident := Ident (Actual s).

(** ** Tags *)

(** The text [s] begins with attributes [l], after which the text is [r].  (The white space
    in front of [r] is counted as belonging to the attributes.) *)
Inductive Attrs : str -> attributes -> str -> Prop :=
| A_none r : Attrs r [] r
| A_flag n w s l r :
    Name n (w ++ s) -> Gap w s -> ~ Begins (eq 61) s -> Attrs s l r ->
    Attrs (n ++ w ++ s) (Attribute (name n) None :: l) r
| A_value n w1 w2 w3 v w4 s l r :
    Name n (w1 ++ [61]) -> Blank w1 -> Blank w2 -> Gap w3 v -> ~ In 34 v -> Gap w4 s ->
    Attrs s l r ->
    Attrs (n ++ w1 ++ 61 :: w2 ++ 34 :: w3 ++ v ++ 34 :: w4 ++ s)
          (Attribute (name n) (Some (raw v)) :: l) r.

Definition CommentStart (s : str) : Prop := exists r, s = lit "<!--" ++ r.
Definition DoctypeStart (s : str) : Prop :=
  exists w kw r, s = lit "<!" ++ w ++ kw ++ r /\ Blank w /\ SameName kw (lit "doctype") /\
                 WordEnds r.

(** [s] begins with the name and the attributes of a start tag; then comes [r]. *)
Definition TagStart (s : str) (n : str) (a : attributes) (r : str) : Prop :=
  ~ CommentStart s /\ ~ DoctypeStart s /\
  exists w w' s', s = 60 :: w ++ n ++ w' ++ s' /\ Blank w /\ Name n (w' ++ s') /\
                  Gap w' s' /\ Attrs s' a r.

(** [s] is a start tag, with or without a slash at its end. *)
Definition Tag (s n : str) (a : attributes) (slash : bool) : Prop :=
  exists r, TagStart s n a r /\
  if slash then exists w, Blank w /\ r = 47 :: w ++ [62] else r = [62].

Definition VoidNames : list str :=
  map lit ["area"; "base"; "br"; "col"; "embed"; "hr"; "img"; "input"; "keygen"; "link";
           "menuitem"; "meta"; "param"; "source"; "track"; "wbr"]%string.
Definition VoidName (n : str) : Prop := exists v, In v VoidNames /\ SameName n v.
Definition RawNames : list str := map lit ["script"; "style"; "title"; "textarea"]%string.

Definition RawName (n : str) : Prop := exists r, In r RawNames /\ SameName n r.

(** [s] is an end tag. *)
Definition EndTag (s n : str) : Prop :=
  exists w w' w'', s = 60 :: w ++ 47 :: w' ++ n ++ w'' ++ [62] /\
                   Blank w /\ Blank w' /\ Blank w'' /\ Name n (w'' ++ [62]).

(** The text [s] spells the event. *)
Inductive Spells : str -> event -> Prop :=
| Sp_data s : s <> [] -> ~ In 60 s -> Spells s (Data (raw s))
| Sp_comment c :
    (forall p q, c ++ lit "-->" = p ++ lit "-->" ++ q -> q = []) ->
    Spells (lit "<!--" ++ c ++ lit "-->") (Comment (raw c))
| Sp_doctype w kw w' c w'' :
    Blank w -> SameName kw (lit "doctype") -> Blank w' -> WordEnds (w' ++ c) ->
    SameName c (lit "html") -> Blank w'' ->
    Spells (lit "<!" ++ w ++ kw ++ w' ++ c ++ w'' ++ [62]) (Doctype (raw c))
| Sp_end s n : EndTag s n -> Spells s (ClosingTag (name n))
| Sp_void s n a slash : Tag s n a slash -> VoidName n -> Spells s (VoidTag (name n) a)
| Sp_self s n a : Tag s n a true -> ~ VoidName n -> Spells s (SelfClosedTag (name n) a)
| Sp_open s n a : Tag s n a false -> ~ VoidName n -> Spells s (OpeningTag (name n) a).

(** The text [slice] spells the event or, for raw text, is the text itself. *)
Definition SliceOf (slice : str) (ev : event) : Prop :=
  match ev with RawData c => c = raw slice | _ => Spells slice ev end.

(** What a start tag becomes, by its name and the slash at its end. *)
Definition TagEvent (n : str) (a : attributes) (slash : bool) (ev : event) : Prop :=
  (VoidName n /\ ev = VoidTag (name n) a) \/
  (~ VoidName n /\ slash = true /\ ev = SelfClosedTag (name n) a) \/
  (~ VoidName n /\ slash = false /\ ev = OpeningTag (name n) a).

(** ** Reading a document from left to right *)

(** After this event the text is raw text of element [t], or ordinary text. *)
Definition After (ev : event) (m : option str) : Prop :=
  match ev with
  | OpeningTag tag _ =>
      match m with
      | Some t => In t RawNames /\ SameName (id_str tag) t
      | None => forall t, In t RawNames -> ~ SameName (id_str tag) t
      end
  | _ => m = None
  end.

(** The text begins with an end tag for [t]. *)
Definition EndsRaw (t : str) (s : str) : Prop :=
  exists slice rest n, s = slice ++ rest /\ EndTag slice n /\ SameName n t.

(** Reading [slice ++ rest] in mode [m] gives the event of [slice], then mode [m']. *)
Inductive Item : option str -> str -> str -> event -> option str -> Prop :=
| I_markup slice rest ev m' :
    Spells slice ev -> After ev m' ->
    (match ev with Data _ => rest = [] \/ Begins (eq 60) rest | _ => True end) ->
    Item None slice rest ev m'
| I_raw t slice rest :
    (rest = [] \/ EndsRaw t rest) ->
    (forall p q, slice = p ++ q -> q <> [] -> ~ EndsRaw t (q ++ rest)) ->
    Item (Some t) slice rest (RawData (raw slice)) None.

(** The elements that are open, innermost first: text before the tag, name. *)
Definition open_stack := list (str * str).
Definition Nest (limit : option nat) (pre : str) (ev : event) (st st' : open_stack) : Prop :=
  match ev with
  | OpeningTag t _ => limit <> Some (length st) /\ st' = (pre, id_str t) :: st
  | ClosingTag t => exists p n, st = (p, n) :: st' /\ SameName (id_str t) n
  | _ => st' = st
  end.

(** The document has been read up to and including [pre], which spells the events; [rest]
    is still to be read. *)
Inductive Reads (limit : option nat) (s : str) :
  str -> str -> option str -> open_stack -> list event -> Prop :=
| R_start : Reads limit s [] s None [] []
| R_step pre slice rest m m' st st' evs ev :
    Reads limit s pre (slice ++ rest) m st evs ->
    slice ++ rest <> [] ->
    Item m slice rest ev m' -> Nest limit pre ev st st' ->
    Reads limit s (pre ++ slice) rest m' st' (evs ++ [ev]).

(** The text [s] is a document with these events. *)
Definition Document (limit : option nat) (s : str) (evs : list event) : Prop :=
  Reads limit s s [] None [] evs.

(** ** Errors *)

(** [l] is the location of the text [r] in [s], where [s] follows [pre]. *)
Definition LocatedAt (pre s r : str) (l : location) : Prop :=
  exists q, s = q ++ r /\ AtPrefix (pre ++ q) l.
Definition Unclosed (entry : str * str) (reported : str * location) : Prop :=
  fst reported = snd entry /\ AtPrefix (fst entry) (snd reported).

(** After reading [pre], with the elements [st] open, the text [s] has the defect [e]. *)
Definition Fault (limit : option nat) (pre s : str) (st : open_stack) (e : parse_error) : Prop :=
  match e with
  | UnclosedComment l =>
      AtPrefix pre l /\ exists r, s = lit "<!--" ++ r /\ forall p q, r <> p ++ lit "-->" ++ q
  | UnclosedDoctype l =>
      AtPrefix pre l /\
      exists w kw r, s = lit "<!" ++ w ++ kw ++ r /\ Blank w /\
                     SameName kw (lit "doctype") /\ WordEnds r /\ ~ In 62 r
  | UnsupportedDoctype l d =>
      AtPrefix pre l /\
      exists w kw w' w'' r,
        s = lit "<!" ++ w ++ kw ++ w' ++ d ++ w'' ++ 62 :: r /\ Blank w /\
        SameName kw (lit "doctype") /\ WordEnds (w' ++ d ++ w'' ++ [62]) /\ Blank w' /\ Blank w'' /\
        ~ In 62 d /\ ~ Begins Space d /\ ~ Begins Space (rev d) /\ ~ SameName d (lit "html")
  | ExpectedClosingTagIdentifier l =>
      exists w w' r, s = 60 :: w ++ 47 :: w' ++ r /\ Blank w /\ Gap w' r /\ WordEnds r /\
                     LocatedAt pre s r l
  | InvalidClosingTagIdentifier l err =>
      exists w w' x r, s = 60 :: w ++ 47 :: w' ++ x ++ r /\ Blank w /\ Gap w' (x ++ r) /\
                       Word x r /\ NameError x err /\ LocatedAt pre s (x ++ r) l
  | ExpectedClosingTagClose t l =>
      exists w w' w'' r, s = 60 :: w ++ 47 :: w' ++ t ++ w'' ++ r /\ Blank w /\ Blank w' /\
                         Gap w'' r /\ Name t (w'' ++ r) /\ ~ Begins (eq 62) r /\
                         LocatedAt pre s r l
  | ExpectedOpeningTagIdentifier l =>
      ~ CommentStart s /\ ~ DoctypeStart s /\
      exists w r, s = 60 :: w ++ r /\ Gap w r /\ WordEnds r /\ ~ Begins (eq 47) r /\
                  LocatedAt pre s r l
  | InvalidOpeningTagIdentifier l err =>
      ~ CommentStart s /\ ~ DoctypeStart s /\
      exists w x r, s = 60 :: w ++ x ++ r /\ Gap w (x ++ r) /\ Word x r /\
                    NameError x err /\ LocatedAt pre s (x ++ r) l
  | InvalidAttributeIdentifier l err =>
      exists n a x r, TagStart s n a (x ++ r) /\ Word x r /\ NameError x err /\
                      LocatedAt pre s (x ++ r) l
  | InvalidAttributeValue l n attr =>
      exists a w w' r, TagStart s n a (attr ++ w ++ 61 :: w' ++ r) /\ Blank w /\
                       Name attr (w ++ [61]) /\ Gap w' r /\ ~ Begins (eq 34) r /\
                       LocatedAt pre s r l
  | UnclosedAttributeValue l n attr =>
      exists a w w' r, TagStart s n a (attr ++ w ++ 61 :: w' ++ 34 :: r) /\ Blank w /\
                       Name attr (w ++ [61]) /\ Blank w' /\ ~ In 34 r /\
                       LocatedAt pre s (34 :: r) l
  | ExpectedOpeningTagClose n l =>
      exists a r, LocatedAt pre s r l /\ ~ Begins (eq 62) r /\
        ((TagStart s n a r /\ ~ Begins (eq 47) r /\ WordEnds r) \/
         (exists w, TagStart s n a (47 :: w ++ r) /\ Gap w r))
  | UnexpectedInput _ => False
  | MissingClosingTags inner others =>
      s = [] /\ exists top below, st = top :: below /\ Unclosed top inner /\
                                  Forall2 Unclosed (rev below) others
  | StackLimitExceeded t l k =>
      AtPrefix pre l /\ limit = Some k /\ length st = k /\
      exists slice rest tag a, s = slice ++ rest /\ Spells slice (OpeningTag tag a) /\ id_str tag = t
  | UnexpectedClosingTag t l =>
      AtPrefix pre l /\ st = [] /\
      exists slice rest, s = slice ++ rest /\ EndTag slice t
  | MismatchedClosingTag ot ol ct cl =>
      AtPrefix pre cl /\
      exists p st', st = (p, ot) :: st' /\ AtPrefix p ol /\
      exists slice rest, s = slice ++ rest /\ EndTag slice ct /\ ~ SameName ct ot
  end.

(** ** Well-nested event lists *)

Definition is_leaf (ev : event) : Prop :=
  match ev with
  | Doctype _ | Comment _ | Data _ | RawData _ | SelfClosedTag _ _ | VoidTag _ _ => True
  | Noop | OpeningTag _ _ | ClosingTag _ => False
  end.
Inductive Forest : list event -> Prop :=
| F_nil : Forest []
| F_leaf ev rest : is_leaf ev -> Forest rest -> Forest (ev :: rest)
| F_elem t a kids t' rest :
    SameName (id_str t) (id_str t') -> Forest kids -> Forest rest ->
    Forest (OpeningTag t a :: kids ++ ClosingTag t' :: rest).

(** At no point of the event list are more than [d] elements open. *)
Fixpoint opens (evs : list event) : nat :=
  match evs with
  | [] => 0
  | OpeningTag _ _ :: evs => S (opens evs)
  | _ :: evs => opens evs
  end.
Fixpoint closes (evs : list event) : nat :=
  match evs with
  | [] => 0
  | ClosingTag _ :: evs => S (closes evs)
  | _ :: evs => closes evs
  end.
Definition DepthAtMost (d : nat) (evs : list event) : Prop :=
  forall pre post, evs = pre ++ post -> (opens pre <= closes pre + d)%nat.
