(** What the transformation properties mean: results of runs, arguments of pipelines,
    templates a program can obtain, and selections on trees. *)
From Coq Require Import String ZArith List.
From stdpp Require Import gmap.
From Verif Require Import Text Event Input Parse Selector Machine Template.
From Verif Require Import SpecText SpecAttr SpecParse SpecTree.

(** Transforming the template [evs] with [p] ends with the result [r], a template or an
    error. *)
Definition Gives (evs : list event) (p : pipeline) (r : list event + stream_error) : Prop :=
  exists n h, transform n evs p = Done h r.

(** ** Arguments *)

Definition strip_noops (evs : list event) : list event :=
  List.filter (fun ev => match ev with Noop => false | _ => true end) evs.

(** The events of a content value, or its error. *)
Inductive ContentGives : content -> list event + stream_error -> Prop :=
| CG_template evs : ContentGives (CTemplate evs) (inl evs)
| CG_data d : ContentGives (CData d) (inl [Data d])
| CG_value v : ContentGives (CValue v) (inl [Data v])
| CG_static s : ContentGives (CStatic s) (inl [Data (enc_from_unencoded_static_str s)])
| CG_int z : ContentGives (CInt z) (inl [Data (Encoded (Actual (decimal_z z)))])
| CG_stream evs : ContentGives (CStream evs None) (inl (strip_noops evs))
| CG_stream_error evs e : ContentGives (CStream evs (Some e)) (inr e)
| CG_ok c r : ContentGives c r -> ContentGives (CResult (inl c)) r
| CG_error e : ContentGives (CResult (inr e)) (inr e).
(** The events a content value gives before it fails. *)
Inductive ContentBreaks : content -> list event -> Prop :=
| CB_stream evs e : ContentBreaks (CStream evs (Some e)) (strip_noops evs)
| CB_ok c evs : ContentBreaks c evs -> ContentBreaks (CResult (inl c)) evs
| CB_error e : ContentBreaks (CResult (inr e)) [].

(** [Sub o p]: the call [o] gets the builder [p]. *)
Definition Sub (o : op) (p : pipeline) : Prop :=
  match o with
  | OApply q | OApplyEither _ q _ | OSelectOnce _ _ q | OSubselectContents q
  | OSubselectOnce _ _ q => p = q
  | OSelect _ _ b | OSubselect _ _ b => exists k, p = b k
  | ORepeat bs | ORepeatContents bs => In p bs
  | ORepeatOrElse bs q | ORepeatContentsOrElse bs q => In p bs \/ p = q
  | _ => False
  end.
(** The call [o] occurs in [p], possibly inside builders. *)
Inductive Occurs : pipeline -> op -> Prop :=
| Occurs_here o p : In o p -> Occurs p o
| Occurs_deeper o p q o' : In o p -> Sub o q -> Occurs q o' -> Occurs p o'.

Definition op_content (o : op) : option content :=
  match o with
  | OPrepend c | OAppend c | OReplace c
  | OPrependContents c | OAppendContents c | OReplaceContents c => Some c
  | _ => None
  end.
Definition op_name (o : op) : option (ident + identifier_error) :=
  match o with
  | OAddAttribute name _ | OAddToAttribute name _ _ | OReplaceAttribute name _
  | OSetAttribute name _ | ORemoveAttribute name | OAddClass name | ORemoveClass name
  | OSetId name => Some name
  | _ => None
  end.
Definition op_selector (o : op) : option (selector + stream_error) :=
  match o with
  | OSelect _ sel _ | OSelectOnce _ sel _ | OSubselect _ sel _ | OSubselectOnce _ sel _ => Some sel
  | _ => None
  end.
Definition op_function (o : op) : option (list event -> list event + stream_error) :=
  match o with OApplyAsTemplate f => Some f | _ => None end.

(** The template [evs] is supplied as content. *)
Definition Supplied (o : op) (evs : list event) : Prop :=
  exists c, op_content o = Some c /\ ContentGives c (inl evs).

(** The content breaks off after these events. *)
Definition BreaksOff (o : op) (evs : list event) : Prop :=
  exists c, op_content o = Some c /\ ContentBreaks c evs.

(** An [Identifier] value is always valid: there is no way to make another. *)
Definition NamesValid (p : pipeline) : Prop :=
  forall o i, Occurs p o -> op_name o = Some (inl i) -> ValidName (id_str i).

(** All templates given to [p], and all that its functions return, are well nested; streams
    that fail were well nested as far as they got. *)
Definition ValidArgs (p : pipeline) : Prop :=
  NamesValid p /\
  (forall o evs, Occurs p o -> Supplied o evs -> WellNested evs) /\
  (forall o f x y, Occurs p o -> op_function o = Some f ->
     WellNested x -> f x = inl y -> WellNested y) /\
  (forall o evs, Occurs p o -> BreaksOff o evs -> exists rest, WellNested (evs ++ rest)).

(** Selectors that look for elements only, like all selectors of the library; a user
    defined [Selector] could also match text, comments or closing tags. *)
Definition ElementSelector (m : selector) : Prop :=
  forall ev, matches m ev = true -> element_tag_start ev <> None.
Definition ElementSelectors (p : pipeline) : Prop :=
  forall o m, Occurs p o -> op_selector o = Some (inl m) -> ElementSelector m.

(** An error that reports a broken invariant of the library's own streams. *)
Definition Internal (e : stream_error) : Prop := exists reason, e = SEAssertion reason.

(** [e] is an error given to the call [o]: of a selector, a name, a content, or returned
    by a function on some template. *)
Definition SuppliesError (o : op) (e : stream_error) : Prop :=
  op_selector o = Some (inr e) \/
  (exists i, op_name o = Some (inr i) /\ e = SEIdentifier i) \/
  (exists c, op_content o = Some c /\ ContentGives c (inr e)) \/
  (exists f x, op_function o = Some f /\ f x = inr e).

(** ** Templates a program can get hold of *)

(** [Obtainable G evs]: with the templates of [G] given, a program can obtain [evs].
    Functions given to [apply_as_template] may use their argument.  Text alone is obtained
    with [replace].  [rest] completes what streams of the user gave before they failed. *)
Inductive Obtainable (G : list event -> Prop) : list event -> Prop :=
| Ob_given evs : G evs -> Obtainable G evs
| Ob_text d : Obtainable G [Data d]
| Ob_parsed s o evs : from_str s o = TOk evs -> Obtainable G evs
| Ob_file path opened o evs : from_file path opened o = TOk evs -> Obtainable G evs
| Ob_element tag evs :
    ValidName (id_str tag) -> with_element (inl tag) = inl evs -> Obtainable G evs
| Ob_built tag p e n h evs rest :
    ValidName (id_str tag) -> typed true p e -> NamesValid p ->
    (forall o x, Occurs p o -> Supplied o x -> Obtainable G x) ->
    (forall o f x y, Occurs p o -> op_function o = Some f -> f x = inl y ->
       Obtainable (fun z => G z \/ z = x) y) ->
    (forall o x, Occurs p o -> BreaksOff o x -> Obtainable G (x ++ rest o x)) ->
    with_transformed_element n (inl tag) p = Done h (inl evs) -> Obtainable G evs
| Ob_transformed source p e n h evs rest :
    Obtainable G source -> typed false p e -> NamesValid p ->
    (forall o x, Occurs p o -> Supplied o x -> Obtainable G x) ->
    (forall o f x y, Occurs p o -> op_function o = Some f -> f x = inl y ->
       Obtainable (fun z => G z \/ z = x) y) ->
    (forall o x, Occurs p o -> BreaksOff o x -> Obtainable G (x ++ rest o x)) ->
    transform n source p = Done h (inl evs) -> Obtainable G evs.

(** ** Selections *)

(** [Selects m F xs rs out]: the elements of the forest [F] matching [m] that are in no
    other such element are [xs], in document order; replacing them by the events [rs]
    gives [out]. *)
Inductive Selects (m : selector)
  : list tree -> list tree -> list (list event) -> list event -> Prop :=
| Sel_nil : Selects m [] [] [] []
| Sel_match x F xs r rs out :
    matches m (start x) = true -> Selects m F xs rs out ->
    Selects m (x :: F) (x :: xs) (r :: rs) (r ++ out)
| Sel_leaf ev F xs rs out :
    matches m ev = false -> Selects m F xs rs out ->
    Selects m (Leaf ev :: F) xs rs (ev :: out)
| Sel_inside t a kids c F xs1 rs1 out1 xs2 rs2 out2 :
    matches m (OpeningTag t a) = false ->
    Selects m kids xs1 rs1 out1 -> Selects m F xs2 rs2 out2 ->
    Selects m (Elem t a kids c :: F) (xs1 ++ xs2) (rs1 ++ rs2)
            (OpeningTag t a :: out1 ++ ClosingTag c :: out2).

(** The same on the top level only. *)
Inductive SelectsDirect (m : selector)
  : list tree -> list tree -> list (list event) -> list event -> Prop :=
| SelD_nil : SelectsDirect m [] [] [] []
| SelD_match x F xs r rs out :
    matches m (start x) = true -> SelectsDirect m F xs rs out ->
    SelectsDirect m (x :: F) (x :: xs) (r :: rs) (r ++ out)
| SelD_other x F xs rs out :
    matches m (start x) = false -> SelectsDirect m F xs rs out ->
    SelectsDirect m (x :: F) xs rs (tree_events x ++ out).

Definition SelectsIn (direct : bool) (m : selector) :=
  if direct then SelectsDirect m else Selects m.

(** [x] occurs in [F] inside the elements [path] (outermost first). *)
Inductive At : list tree -> list tree -> tree -> Prop :=
| At_top F x : In x F -> At F [] x
| At_in F t a kids c path x :
    In (Elem t a kids c) F -> At kids path x -> At F (Elem t a kids c :: path) x.

(** ** Errors *)

(** The call [o] is made whenever [p] is run: by [p] itself or by the builder of an
    [apply] in it. *)
Inductive AtTop : pipeline -> op -> Prop :=
| AtTop_here o p : In o p -> AtTop p o
| AtTop_apply q p o : In (OApply q) p -> AtTop q o -> AtTop p o
| AtTop_either first q other p o : In (OApplyEither first q other) p -> AtTop q o -> AtTop p o.

(** The call [o] has an invalid selector, an invalid name, or failing content that it puts
    into the stream. *)
Definition Failing (o : op) : Prop :=
  (exists e, op_selector o = Some (inr e)) \/
  (exists i, op_name o = Some (inr i)) \/
  (exists c e, (o = OPrepend c \/ o = OAppend c \/ o = OReplace c) /\ ContentGives c (inr e)).

(** ** Builders *)

(** The builder is well typed for elements, whichever call it is. *)
Definition ElementBuilder (b : nat -> pipeline) : Prop := forall k, exists e, typed true (b k) e.

(** The calls [b 0], [b 1], ... turn the elements [xs] into [rs], in this order. *)
Definition Builds_all (b : nat -> pipeline) (xs : list tree) (rs : list (list event)) : Prop :=
  length xs = length rs /\
  forall k x r, nth_error xs k = Some x -> nth_error rs k = Some r ->
    Gives (tree_events x) (b k) (inl r).

(** The [k]-th call is the first that fails, with the error [err]. *)
Definition First_failure (b : nat -> pipeline) (xs : list tree) (k : nat) (err : stream_error) : Prop :=
  (exists x, nth_error xs k = Some x /\ Gives (tree_events x) (b k) (inr err)) /\
  forall j x, (j < k)%nat -> nth_error xs j = Some x -> exists r, Gives (tree_events x) (b j) (inl r).
