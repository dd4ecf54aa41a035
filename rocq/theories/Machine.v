(** Model of the streaming transformations: [src/modifier/**], [src/transform.rs],
    [src/content.rs], [src/builder.rs] and the stream parts of [src/event.rs] and
    [src/template.rs].  No proofs.

    A stream struct is a constructor of [strm] holding its fields; a
    [modifier::State<T>] (modifier/mod.rs:53-82) is an [option].
    [Rc<RefCell<S>>] is a location of an explicit heap; a cell is [Borrowed] while
    a [borrow_mut] guard is alive, and borrowing it again is a panic.
    The newtype streams [SelectAny], [SelectDirect], [SubSelectAny], [RemoveContent],
    [RepeatContent], [Append], [Prepend], [Replace], [Derived], [Box] and so on, whose
    [next_event] only forwards, are erased. *)
From Coq Require Import String ZArith.
From stdpp Require Import gmap.
From Verif Require Import Text Event Input Parse Selector.
Local Open Scope nat_scope.

(** ** API calls *)

(** Values accepted where [event::IntoStream] is required: templates
    (template.rs:379-404), [Data], [Value], [&'static str], integers and results
    (content.rs), and any [Stream] (content.rs:55-60).  A stream written by the user is
    given by the events it produces, [Noop]s included, and by how it stops: it ends or
    fails.  (Streams that never stop are not modelled.  What a stream would produce after
    it has stopped does not matter: content is always read through [Combine], which does
    not ask again.) *)
Inductive content :=
| CTemplate (events : list event)
| CData (d : data)
| CValue (v : value)
| CStatic (s : str)
| CInt (z : Z)
| CStream (events : list event) (stop : option stream_error)
| CResult (r : content + stream_error).

(** One method call on [Api], transform.rs:159-2141.  A pipeline (the closure given
    to [transform], [select], ...) is the list of the calls it makes.

    An [FnOnce] builder is a pipeline.  An [FnMut] builder is a function from the
    number of previous calls to a pipeline: its stream argument is opaque, so it
    can only depend on how often it was called.  The builder of [repeat] is given
    as the list of the pipelines it builds for the items of the (finite) iterator. *)
Inductive op :=
| OApply (p : list op)                                   (* apply, 247-253 *)
| OIntoBoxed                                             (* into_boxed, 195-197 *)
| OIntoBoxedElement                                      (* into_boxed_element, 1116-1118 *)
| OApplyEither (first : bool) (p : list op) (other_elem : bool)
    (* apply_if 292-303, apply_if_else 363-380, apply_with_option 420-440,
       apply_with_result 487-507: the chosen side, its pipeline, and whether the
       stream type of the other side is an ElementStream *)
| OApplyAsTemplate (f : list event -> list event + stream_error)  (* 588-594 *)
| OSelect (direct : bool) (sel : selector + stream_error) (b : nat -> list op)
    (* select 658-670, select_direct 749-761 *)
| OSelectOnce (direct : bool) (sel : selector + stream_error) (p : list op)
    (* select_once 700-712, select_direct_once 802-814 *)
| ORemove                                                (* 839-841 *)
| OPrepend (c : content)                                 (* 873-878 *)
| OAppend (c : content)                                  (* 910-915 *)
| OReplace (c : content)                                 (* 950-955 *)
| ORepeat (bs : list (list op))                          (* 987-996 *)
| ORepeatOrElse (bs : list (list op)) (p : list op)      (* 1039-1055 *)
| OSubselectContents (p : list op)                       (* 1195-1202 *)
| OSubselect (direct : bool) (sel : selector + stream_error) (b : nat -> list op)
    (* subselect 1238-1250, subselect_direct 1325-1337 *)
| OSubselectOnce (direct : bool) (sel : selector + stream_error) (p : list op)
    (* subselect_once 1282-1294, subselect_direct_once 1371-1383 *)
| ORemoveContents                                        (* 1406-1408 *)
| OPrependContents (c : content)                         (* 1433-1439 *)
| OAppendContents (c : content)                          (* 1464-1470 *)
| OReplaceContents (c : content)                         (* 1495-1501 *)
| ORepeatContents (bs : list (list op))                  (* 1530-1538 *)
| ORepeatContentsOrElse (bs : list (list op)) (p : list op)  (* 1590-1605 *)
| OAddAttribute (name : ident + identifier_error) (v : option value)
    (* add_attribute_with_value 1634-1641, add_attribute 1670-1685,
       add_empty_attribute 1712-1722 *)
| OAddToAttribute (name : ident + identifier_error) (v sep : value)  (* 1756-1773 *)
| OReplaceAttribute (name : ident + identifier_error) (v : value)
    (* replace_attribute_value_if_exists, 1802-1817 *)
| OSetAttribute (name : ident + identifier_error) (v : option value)
    (* set_attribute_with_value 1847-1854, set_attribute 1884-1899,
       set_empty_attribute 1929-1939 *)
| ORemoveAttribute (name : ident + identifier_error)     (* 1964-1974 *)
| OAddClass (name : ident + identifier_error)            (* 2005-2021 *)
| ORemoveClass (name : ident + identifier_error)         (* 2054-2064 *)
| ORemoveId                                              (* 2090-2096 *)
| OSetId (name : ident + identifier_error).              (* 2125-2140 *)

Notation pipeline := (list op).

(** ** Stream values *)

Notation loc := positive.

(** The data of the streams of modifier/attribute.rs: [RemoveClass] 41-45,
    [RemoveAttribute] 71-75, [AddAttribute] 101-105, [ReplaceAttribute] 131-135,
    [AddToAttribute] 161-165, [SetAttribute] 195-199 *)
Inductive attr_cmd :=
| ARemoveClass (name : ident)
| ARemoveAttribute (name : ident)
| AAddAttribute (name : ident) (v : option value)
| AReplaceAttribute (name : ident) (v : option value)
| AAddToAttribute (name : ident) (v sep : value)
| ASetAttribute (name : ident) (v : option value).

(** the closures passed to [attribute_step], attribute.rs:52-54, 82-84, 112-114,
    142-144, 172-174, 206-208 *)
Definition apply_attr (c : attr_cmd) (a : attributes) : attributes :=
  match c with
  | ARemoveClass name => remove_class a name
  | ARemoveAttribute name => remove_attribute a name
  | AAddAttribute name v => add_attribute a name v
  | AReplaceAttribute name v => replace_attribute a name v
  | AAddToAttribute name v sep => add_to_attribute a name v sep
  | ASetAttribute name v => set_attribute a name v
  end.

Inductive strm :=
| STemplate (events : list event) (index : nat)     (* TemplateStream, template.rs:120-123 *)
| SUser (events : list event) (stop : option stream_error)
                                                    (* a [Stream] outside the library *)
| SContent (d : option data)                        (* content::Stream, content.rs:108-110 *)
| SShared (l : loc)                                 (* Rc<RefCell<S>>, event.rs:702-707 *)
| SFallible (st : option fallible_state)            (* Fallible, modifier/mod.rs:110-112 *)
| SExpand (st : option expand_state)                (* Expand, modifier/mod.rs:140-142 *)
| SPeek (s : strm) (buffered : option event)        (* Peek, modifier/mod.rs:196-199 *)
| SCombine (st : option combine_state)              (* Combine, modifier/mod.rs:237-239 *)
| SRemove (s : strm)                                (* Remove, modifier/remove.rs:11-13 *)
| SSingle (st : option single_state)                (* SingleElement, select/element.rs:8-10 *)
| SSelect (source : loc) (m : selector) (b : nat -> pipeline) (calls : nat) (direct : bool)
          (st : option select_state)                (* Select, select/mod.rs:154-160 *)
| SSelectOnce (source : loc) (st : option select_once_state)
                                                    (* SelectOnce, select/mod.rs:54-60 *)
| SSelectContent (st : option select_content_state) (* SelectContent, select_contents.rs:16-22 *)
| SCurrentContent (st : option (ident * loc * nat)) (* CurrentContent, select_contents.rs:122-124,
                                                       state 171-175: tag, stream, level *)
| SApplyEither (first : bool) (s : strm)            (* ApplyEither, apply.rs:11-13, 50-53 *)
| STemplateApply (st : option template_apply_state) (* TemplateApply, apply.rs:57-59 *)
| SRepeat (st : option repeat_state)                (* Repeat, repeat.rs:116-122;
                                                       RepeatContentStream, 210-216 *)
| SRepeatOrElse (st : option repeat_or_else_state)  (* RepeatOrElse, repeat.rs:74-81;
                                                       RepeatContentOrElse, 261-269 *)
| SAttr (st : option attr_state)                    (* modifier/attribute.rs:9-17 *)
(* FallibleState, modifier/mod.rs:96-103 *)
with fallible_state :=
| FStart (r : strm + stream_error)
| FEmit (s : strm)
(* ExpandState, modifier/mod.rs:183-193 *)
with expand_state :=
| XStart (s : strm)
| XEmitStream (s : strm)
| XEmitClosingTag (tag : ident)
(* CombineState, modifier/mod.rs:270-273 *)
with combine_state :=
| CmbFirst (s1 s2 : strm)
| CmbSecond (s2 : strm)
(* SingleElementState, select/element.rs:70-80 *)
with single_state :=
| SEStart (ev : event) (s : strm)
| SEUntilClose (tag : ident) (s : strm) (level : nat)
(* SelectState, select/mod.rs:230-238 *)
with select_state :=
| SelScanning (level : nat)
| SelActive (level : nat) (s : strm)
(* SelectOnceState, select/mod.rs:137-151 *)
with select_once_state :=
| SelOScanning (m : selector) (p : pipeline) (direct : bool) (level : nat)
| SelOActive (s : strm)
| SelOPassthrough
(* SelectContentState, select_contents.rs:101-119; [source] of [Open] is the stream
   inside the [Expand] *)
with select_content_state :=
| SCOpen (source : strm) (b : content_builder)
| SCContent (source : loc) (s : strm) (tag : ident)
| SCClose (source : loc) (tag : ident)
(* the [BuildOnce<CurrentContent<S>>] implementations given to [SelectContent]: user
   closures (builder.rs:72-83), remove.rs:53-65, replace.rs:76-92, append.rs:74-90,
   prepend.rs:73-89, subselect_any.rs:93-133, subselect_direct.rs:94-138,
   repeat.rs:229-252 *)
with content_builder :=
| CBUser (p : pipeline)
| CBRemove
| CBReplace (n : strm)
| CBAppend (n : strm)
| CBPrepend (n : strm)
| CBSelect (direct : bool) (m : selector) (b : nat -> pipeline)
| CBSelectOnce (direct : bool) (m : selector) (p : pipeline)
| CBRepeat (bs : list pipeline)
(* TemplateState, apply.rs:90-98 *)
with template_apply_state :=
| TACollect (s : strm) (f : list event -> list event + stream_error)
| TAEmit (events : list event) (index : nat)
(* State, repeat.rs:147-168 *)
with repeat_state :=
| RCollect (s : strm) (bs : list pipeline)
| RNext (template : list event) (bs : list pipeline)
| REmit (template : list event) (s : strm) (bs : list pipeline)
(* RepeatOrElseState, repeat.rs:15-33; [contents]: the stepper is [RepeatContent::new]
   (repeat.rs:300) instead of [Repeat::new] (repeat.rs:111) *)
with repeat_or_else_state :=
| ROEStart (contents : bool) (s : strm) (bs : list pipeline) (p : pipeline)
| ROEFallback (s : strm)
| ROERepeat (s : strm)
(* State, modifier/attribute.rs:9-17 *)
with attr_state :=
| AStart (s : strm) (c : attr_cmd)
| AEmit (s : strm).

(** ** Heap and outcomes *)

Inductive cell := Cell (s : strm) | Borrowed.
Notation heap := (gmap loc cell).

(** A location not in the heap (allocation by [Rc::new]). *)
Definition fresh_loc (h : heap) : loc :=
  map_fold (fun l _ m => Pos.max (Pos.succ l) m) 1%positive h.

Inductive out (A : Type) :=
| OutOfFuel
| Panicked
| Done (h : heap) (a : A).
Global Arguments OutOfFuel {A}.
Global Arguments Panicked {A}.
Global Arguments Done {A} h a.

(** [StreamResult], event.rs:453 *)
Notation stream_result := (option event + stream_error)%type.

Definition obind {A B} (o : out A) (k : heap -> A -> out B) : out B :=
  match o with
  | OutOfFuel => OutOfFuel
  | Panicked => Panicked
  | Done h a => k h a
  end.

(** ** Building: the methods of [Api] *)

(** [into_stream], content.rs:10-89, template.rs:379-404 *)
Fixpoint into_stream (c : content) : strm :=
  match c with
  | CTemplate events => STemplate events 0
  | CData d => SContent (Some d)
  | CValue v => SContent (Some v)
  | CStatic s => SContent (Some (enc_from_unencoded_static_str s))
  | CInt z => SContent (Some (enc_from_encoded_tendril (decimal_z z)))
  | CStream events stop => SUser events stop
  | CResult (inl c) => SFallible (Some (FStart (inl (into_stream c))))
  | CResult (inr e) => SFallible (Some (FStart (inr e)))
  end.

(** [SelectAny::new], [SelectDirect::new] (select_any.rs:22-26, select_direct.rs:22-26,
    select/mod.rs:169-177): moves the source into a new [Rc<RefCell<_>>] *)
Definition select_new (h : heap) (source : strm) (m : selector) (b : nat -> pipeline)
    (direct : bool) : heap * strm :=
  let l := fresh_loc h in
  (<[l := Cell source]> h, SSelect l m b 0 direct (Some (SelScanning 0))).

(** [SelectAnyOnce::new], [SelectDirectOnce::new] (select_any.rs:54-58,
    select_direct.rs:54-58, select/mod.rs:69-79) *)
Definition select_once_new (h : heap) (source : strm) (m : selector) (p : pipeline)
    (direct : bool) : heap * strm :=
  let l := fresh_loc h in
  (<[l := Cell source]> h, SSelectOnce l (Some (SelOScanning m p direct 0))).

(** [SelectContent::new], select_contents.rs:29-34 *)
Definition select_content_new (source : strm) (b : content_builder) : strm :=
  SSelectContent (Some (SCOpen source b)).

(** [Append::new] append.rs:20-24, [Prepend::new] prepend.rs:19-23,
    [Replace::new] replace.rs:19-26 *)
Definition append_new (s n : strm) : strm := SCombine (Some (CmbFirst s n)).
Definition prepend_new (s n : strm) : strm := SCombine (Some (CmbFirst n s)).
Definition replace_new (s n : strm) : strm := prepend_new (SRemove s) n.

(** [Fallible::new], modifier/mod.rs:116-120 *)
Definition fallible_new (r : strm + stream_error) : strm := SFallible (Some (FStart r)).

(** [Fallible::new(name.into_identifier().map(..).map_err(Into::into))], as in
    transform.rs:1676-1684 *)
Definition attr_new (h : heap) (s : strm) (name : ident + identifier_error)
    (c : ident -> option attr_cmd) : out strm :=
  match name with
  | inr e => Done h (fallible_new (inr (SEIdentifier e)))
  | inl name =>
      match c name with
      | Some c => Done h (fallible_new (inl (SAttr (Some (AStart s c)))))
      | None => Panicked
      end
  end.

(** [text::Identifier::from_static_str(..).expect(..)], transform.rs:2014, 2094, 2134 *)
Definition static_ident (s : str) : option ident :=
  match ident_from_static_str s with inl i => Some i | inr _ => None end.

(** One call of an [Api] method on a stream. *)
Fixpoint build_op (o : op) (h : heap) (s : strm) {struct o} : out strm :=
  let build := fix build (p : pipeline) (h : heap) (s : strm) {struct p} : out strm :=
    match p with
    | [] => Done h s
    | o :: p => obind (build_op o h s) (fun h s => build p h s)
    end in
  match o with
  | OApply p => build p h s
  | OIntoBoxed => Done h s
  | OIntoBoxedElement => Done h s
  | OApplyEither first p _ => obind (build p h s) (fun h s => Done h (SApplyEither first s))
  | OApplyAsTemplate f => Done h (STemplateApply (Some (TACollect s f)))
  | OSelect direct sel b =>
      match sel with
      | inl m => let '(h, s) := select_new h s m b direct in Done h (fallible_new (inl s))
      | inr e => Done h (fallible_new (inr e))
      end
  | OSelectOnce direct sel p =>
      match sel with
      | inl m => let '(h, s) := select_once_new h s m p direct in Done h (fallible_new (inl s))
      | inr e => Done h (fallible_new (inr e))
      end
  | ORemove => Done h (SRemove s)
  | OPrepend c => Done h (prepend_new s (into_stream c))
  | OAppend c => Done h (append_new s (into_stream c))
  | OReplace c => Done h (replace_new s (into_stream c))
  | ORepeat bs => Done h (SRepeat (Some (RCollect s bs)))
  | ORepeatOrElse bs p => Done h (SRepeatOrElse (Some (ROEStart false s bs p)))
  | OSubselectContents p => Done h (select_content_new s (CBUser p))
  | OSubselect direct sel b =>
      match sel with
      | inl m => Done h (fallible_new (inl (select_content_new s (CBSelect direct m b))))
      | inr e => Done h (fallible_new (inr e))
      end
  | OSubselectOnce direct sel p =>
      match sel with
      | inl m => Done h (fallible_new (inl (select_content_new s (CBSelectOnce direct m p))))
      | inr e => Done h (fallible_new (inr e))
      end
  | ORemoveContents => Done h (select_content_new s CBRemove)
  | OPrependContents c => Done h (select_content_new s (CBPrepend (into_stream c)))
  | OAppendContents c => Done h (select_content_new s (CBAppend (into_stream c)))
  | OReplaceContents c => Done h (select_content_new s (CBReplace (into_stream c)))
  | ORepeatContents bs => Done h (select_content_new s (CBRepeat bs))
  | ORepeatContentsOrElse bs p => Done h (SRepeatOrElse (Some (ROEStart true s bs p)))
  | OAddAttribute name v => attr_new h s name (fun name => Some (AAddAttribute name v))
  | OAddToAttribute name v sep => attr_new h s name (fun name => Some (AAddToAttribute name v sep))
  | OReplaceAttribute name v =>
      attr_new h s name (fun name => Some (AReplaceAttribute name (Some v)))
  | OSetAttribute name v => attr_new h s name (fun name => Some (ASetAttribute name v))
  | ORemoveAttribute name => attr_new h s name (fun name => Some (ARemoveAttribute name))
  | OAddClass name =>
      attr_new h s name (fun name =>
        match static_ident (lit "class") with
        | Some class => Some (AAddToAttribute class (ident_into_value name)
                                (enc_from_unencoded_static_str (lit " ")))
        | None => None
        end)
  | ORemoveClass name => attr_new h s name (fun name => Some (ARemoveClass name))
  | ORemoveId =>
      match static_ident (lit "id") with
      | Some id => Done h (SAttr (Some (AStart s (ARemoveAttribute id))))
      | None => Panicked
      end
  | OSetId name =>
      attr_new h s name (fun name =>
        match static_ident (lit "id") with
        | Some id => Some (ASetAttribute id (Some (ident_into_value name)))
        | None => None
        end)
  end.

(** [transform::build_once], [build_mut], [build_mut_mapped], transform.rs:13-35 *)
Fixpoint build (p : pipeline) (h : heap) (s : strm) : out strm :=
  match p with
  | [] => Done h s
  | o :: p => obind (build_op o h s) (fun h s => build p h s)
  end.

(** [BuildOnce::build_once] of the builders given to [SelectContent] (see
    [content_builder]) *)
Definition build_content (b : content_builder) (h : heap) (s : strm) : out strm :=
  match b with
  | CBUser p => build p h s
  | CBRemove => Done h (SRemove s)
  | CBReplace n => Done h (replace_new s n)
  | CBAppend n => Done h (append_new s n)
  | CBPrepend n => Done h (prepend_new s n)
  | CBSelect direct m b => let '(h, s) := select_new h s m b direct in Done h s
  | CBSelectOnce direct m p => let '(h, s) := select_once_new h s m p direct in Done h s
  | CBRepeat bs => Done h (SRepeat (Some (RCollect s bs)))
  end.

(** ** Running *)

(** [Level::adjust], modifier/mod.rs:39-50 *)
Definition adjust (depth : nat) (ev : event) : nat + stream_error :=
  match ev with
  | OpeningTag _ _ => inl (S depth)
  | ClosingTag name =>
      match depth with
      | O => inr (unexpected_close name)
      | S d => inl d
      end
  | _ => inl depth
  end.

(** [Restrict::include], select/mod.rs:37-48 *)
Definition include (direct : bool) (level : nat) : bool :=
  if direct then Nat.eqb level 0 else true.

Notation step_out := (out (strm * stream_result)).

(** The functions of the streams, up to a recursion depth: [ne] is [next_event], [sk]
    is [next_event_skip_noop] (event.rs:683-690), [dr] is the loop of [Remove]
    (remove.rs:25), [co] is [Template::from_stream] (template.rs:345-356). *)
Record engine := Engine
  { ne : heap -> strm -> step_out;
    sk : heap -> strm -> step_out;
    dr : heap -> strm -> step_out;
    co : heap -> strm -> list event -> out (list event + stream_error) }.

(** Continue with an [Ok] result, or fail with the same error ([?]); [dead] is the
    state of the calling stream after an error. *)
Definition on_ok (o : step_out) (dead : strm -> strm)
    (k : heap -> strm -> option event -> step_out) : step_out :=
  obind o (fun h '(s, r) =>
    match r with
    | inl r => k h s r
    | inr e => Done h (dead s, inr e)
    end).

(** result of [State::step] when the closure gives an event and a new state, ends, or
    fails, modifier/mod.rs:68-81 *)
Definition emit (h : heap) (s : strm) (ev : event) : step_out := Done h (s, inl (Some ev)).
Definition finish (h : heap) (s : strm) : step_out := Done h (s, inl None).
Definition fail (h : heap) (s : strm) (e : stream_error) : step_out := Done h (s, inr e).

(** [passthrough], modifier/mod.rs:84-93 *)
Definition passthrough (o : step_out) (dead : strm) (cont : strm -> strm) : step_out :=
  on_ok o (fun _ => dead) (fun h s r =>
    match r with
    | Some ev => emit h (cont s) ev
    | None => finish h dead
    end).

(** [RefCell::borrow_mut], calling [f] on the content, and dropping the guard *)
Definition with_cell (h : heap) (l : loc) (f : heap -> strm -> step_out) : step_out :=
  match h !! l with
  | Some (Cell s) =>
      obind (f (<[l := Borrowed]> h) s) (fun h '(s, r) => Done (<[l := Cell s]> h) (SShared l, r))
  | Some Borrowed => Panicked
  | None => Panicked
  end.

(** [Peek::peek], modifier/mod.rs:210-221: fills the buffer and returns it.  Any other
    stream than [SPeek] would be ill-typed in Rust. *)
Definition peek (e : engine) (h : heap) (s : strm) : step_out :=
  match s with
  | SPeek s (Some ev) => Done h (SPeek s (Some ev), inl (Some ev))
  | SPeek s None =>
      on_ok (sk e h s) (fun s => SPeek s None) (fun h s r => Done h (SPeek s r, inl r))
  | _ => Panicked
  end.

(** [next_event] of every stream *)
Definition ne_body (e : engine) (h : heap) (s : strm) : step_out :=
  match s with
  (* template.rs:125-136 *)
  | STemplate events index =>
      match nth_error events index with
      | Some ev => emit h (STemplate events (S index)) ev
      | None => finish h (STemplate events index)
      end
  (* a stream outside the library, see [content] *)
  | SUser events stop =>
      match events, stop with
      | ev :: events, _ => emit h (SUser events stop) ev
      | [], Some err => fail h (SUser [] None) err
      | [], None => finish h (SUser [] None)
      end
  (* content.rs:112-117 *)
  | SContent d =>
      match d with
      | Some d => emit h (SContent None) (Data d)
      | None => finish h (SContent None)
      end
  (* event.rs:702-707 *)
  | SShared l => with_cell h l (ne e)
  (* modifier/mod.rs:125-137 *)
  | SFallible None => finish h s
  | SFallible (Some (FStart (inl s))) => emit h (SFallible (Some (FEmit s))) Noop
  | SFallible (Some (FStart (inr err))) => fail h (SFallible None) err
  | SFallible (Some (FEmit s)) =>
      passthrough (ne e h s) (SFallible None) (fun s => SFallible (Some (FEmit s)))
  (* modifier/mod.rs:155-180 *)
  | SExpand None => finish h s
  | SExpand (Some (XStart s)) =>
      on_ok (sk e h s) (fun _ => SExpand None) (fun h s r =>
        match r with
        | Some (OpeningTag tag attrs) =>
            emit h (SExpand (Some (XEmitStream s))) (OpeningTag tag attrs)
        | Some (SelfClosedTag tag attrs) =>
            emit h (SExpand (Some (XEmitClosingTag tag))) (OpeningTag tag attrs)
        | Some (VoidTag tag attrs) => emit h (SExpand None) (VoidTag tag attrs)
        | other => fail h (SExpand None) (expected_open other)
        end)
  | SExpand (Some (XEmitStream s)) =>
      passthrough (ne e h s) (SExpand None) (fun s => SExpand (Some (XEmitStream s)))
  | SExpand (Some (XEmitClosingTag tag)) => emit h (SExpand None) (ClosingTag tag)
  (* modifier/mod.rs:226-234 *)
  | SPeek s (Some ev) => emit h (SPeek s None) ev
  | SPeek s None =>
      on_ok (sk e h s) (fun s => SPeek s None) (fun h s r => Done h (SPeek s None, inl r))
  (* modifier/mod.rs:250-267 *)
  | SCombine None => finish h s
  | SCombine (Some (CmbFirst s1 s2)) =>
      on_ok (sk e h s1) (fun _ => SCombine None) (fun h s1 r =>
        match r with
        | Some ev => emit h (SCombine (Some (CmbFirst s1 s2))) ev
        | None => emit h (SCombine (Some (CmbSecond s2))) Noop
        end)
  | SCombine (Some (CmbSecond s2)) =>
      passthrough (sk e h s2) (SCombine None) (fun s2 => SCombine (Some (CmbSecond s2)))
  (* remove.rs:22-28 *)
  | SRemove s => dr e h s
  (* select/element.rs:23-67 *)
  | SSingle None => finish h s
  | SSingle (Some (SEStart ev s)) =>
      match ev with
      | OpeningTag tag attrs =>
          emit h (SSingle (Some (SEUntilClose tag s 0))) (OpeningTag tag attrs)
      | SelfClosedTag tag attrs => emit h (SSingle None) (SelfClosedTag tag attrs)
      | VoidTag tag attrs => emit h (SSingle None) (VoidTag tag attrs)
      | other => fail h (SSingle None) (expected_open (Some other))
      end
  | SSingle (Some (SEUntilClose tag s level)) =>
      on_ok (ne e h s) (fun _ => SSingle None) (fun h s r =>
        match r with
        | None => finish h (SSingle None)
        | Some ev =>
            if is_opening_tag_for ev tag
            then emit h (SSingle (Some (SEUntilClose tag s (S level)))) ev
            else if is_closing_tag_for ev tag
            then match level with
                 | O => emit h (SSingle None) ev
                 | S level => emit h (SSingle (Some (SEUntilClose tag s level))) ev
                 end
            else emit h (SSingle (Some (SEUntilClose tag s level))) ev
        end)
  (* select/mod.rs:189-227 *)
  | SSelect source m b calls direct None => finish h s
  | SSelect source m b calls direct (Some (SelScanning level)) =>
      let self := SSelect source m b in
      on_ok (sk e h (SShared source)) (fun _ => self calls direct None) (fun h _ r =>
        match r with
        | None => finish h (self calls direct None)
        | Some ev =>
            if include direct level && matches m ev
            then obind (build (b calls) h (SSingle (Some (SEStart ev (SShared source)))))
                   (fun h new_stream =>
                      emit h (self (S calls) direct (Some (SelActive level new_stream))) Noop)
            else match adjust level ev with
                 | inl new_level => emit h (self calls direct (Some (SelScanning new_level))) ev
                 | inr err => fail h (self calls direct None) err
                 end
        end)
  | SSelect source m b calls direct (Some (SelActive level s)) =>
      let self := SSelect source m b calls direct in
      on_ok (ne e h s) (fun _ => self None) (fun h s r =>
        match r with
        | None => emit h (self (Some (SelScanning level))) Noop
        | Some ev => emit h (self (Some (SelActive level s))) ev
        end)
  (* select/mod.rs:91-135 *)
  | SSelectOnce source None => finish h s
  | SSelectOnce source (Some (SelOScanning m p direct level)) =>
      on_ok (sk e h (SShared source)) (fun _ => SSelectOnce source None) (fun h _ r =>
        match r with
        | None => finish h (SSelectOnce source None)
        | Some ev =>
            if include direct level && matches m ev
            then obind (build p h (SSingle (Some (SEStart ev (SShared source)))))
                   (fun h new_stream =>
                      emit h (SSelectOnce source (Some (SelOActive new_stream))) Noop)
            else match adjust level ev with
                 | inl new_level =>
                     emit h (SSelectOnce source (Some (SelOScanning m p direct new_level))) ev
                 | inr err => fail h (SSelectOnce source None) err
                 end
        end)
  | SSelectOnce source (Some (SelOActive s)) =>
      on_ok (ne e h s) (fun _ => SSelectOnce source None) (fun h s r =>
        match r with
        | None => emit h (SSelectOnce source (Some SelOPassthrough)) Noop
        | Some ev => emit h (SSelectOnce source (Some (SelOActive s))) ev
        end)
  | SSelectOnce source (Some SelOPassthrough) =>
      passthrough (ne e h (SShared source)) (SSelectOnce source None)
        (fun _ => SSelectOnce source (Some SelOPassthrough))
  (* select_contents.rs:43-99; the source is wrapped in [Expand] by [new], line 30 *)
  | SSelectContent None => finish h s
  | SSelectContent (Some (SCOpen source b)) =>
      let dead := SSelectContent None in
      on_ok (sk e h (SExpand (Some (XStart source)))) (fun _ => dead) (fun h source r =>
        match r with
        | None => fail h dead (expected_open None)
        | Some (OpeningTag tag attrs) =>
            let l := fresh_loc h in
            let h := <[l := Cell (SPeek source None)]> h in
            obind (build_content b h (SCurrentContent (Some (tag, l, 0))))
              (fun h s =>
                 emit h (SSelectContent (Some (SCContent l s tag))) (OpeningTag tag attrs))
        | Some (VoidTag tag attrs) => emit h dead (VoidTag tag attrs)
        | Some other => fail h dead (expected_open (Some other))
        end)
  | SSelectContent (Some (SCContent source s tag)) =>
      on_ok (ne e h s) (fun _ => SSelectContent None) (fun h s r =>
        match r with
        | None => emit h (SSelectContent (Some (SCClose source tag))) Noop
        | Some ev => emit h (SSelectContent (Some (SCContent source s tag))) ev
        end)
  | SSelectContent (Some (SCClose source tag)) =>
      let dead := SSelectContent None in
      on_ok (sk e h (SShared source)) (fun _ => dead) (fun h _ r =>
        match r with
        | Some (ClosingTag closed_tag) =>
            if ident_eqb closed_tag tag then emit h dead (ClosingTag closed_tag)
            else fail h dead (unexpected_close closed_tag)
        | other => fail h dead (expected_close other tag)
        end)
  (* select_contents.rs:139-169 *)
  | SCurrentContent None => finish h s
  | SCurrentContent (Some (tag, l, level)) =>
      let dead := SCurrentContent None in
      let next h :=
        on_ok (ne e h (SShared l)) (fun _ => dead) (fun h _ r =>
          match r with
          | None => fail h dead (missing_close tag)
          | Some ev =>
              match adjust level ev with
              | inl level => emit h (SCurrentContent (Some (tag, l, level))) ev
              | inr _ => fail h dead (missing_close tag)
              end
          end) in
      if negb (Nat.eqb level 0) then next h
      else on_ok (with_cell h l (peek e)) (fun _ => dead) (fun h _ r =>
             match r with
             | None => fail h dead (missing_close tag)
             | Some ev => if is_closing_tag_for ev tag then finish h dead else next h
             end)
  (* apply.rs:36-47 *)
  | SApplyEither first s =>
      obind (ne e h s) (fun h '(s, r) => Done h (SApplyEither first s, r))
  (* apply.rs:70-87 *)
  | STemplateApply None => finish h s
  | STemplateApply (Some (TACollect s f)) =>
      obind (co e h s []) (fun h r =>
        match r with
        | inr err => fail h (STemplateApply None) err
        | inl template =>
            match f template with
            | inr err => fail h (STemplateApply None) err
            | inl applied => emit h (STemplateApply (Some (TAEmit applied 0))) Noop
            end
        end)
  | STemplateApply (Some (TAEmit events index)) =>
      passthrough (ne e h (STemplate events index)) (STemplateApply None)
        (fun s => match s with
                  | STemplate events index => STemplateApply (Some (TAEmit events index))
                  | s => s
                  end)
  (* repeat.rs:170-208 *)
  | SRepeat None => finish h s
  | SRepeat (Some (RCollect s bs)) =>
      obind (co e h s []) (fun h r =>
        match r with
        | inr err => fail h (SRepeat None) err
        | inl template => emit h (SRepeat (Some (RNext template bs))) Noop
        end)
  | SRepeat (Some (RNext template bs)) =>
      match bs with
      | [] => finish h (SRepeat None)
      | p :: bs =>
          obind (build p h (STemplate template 0))
            (fun h s => emit h (SRepeat (Some (REmit template s bs))) Noop)
      end
  | SRepeat (Some (REmit template s bs)) =>
      on_ok (ne e h s) (fun _ => SRepeat None) (fun h s r =>
        match r with
        | Some ev => emit h (SRepeat (Some (REmit template s bs))) ev
        | None => emit h (SRepeat (Some (RNext template bs))) Noop
        end)
  (* repeat.rs:35-66 *)
  | SRepeatOrElse None => finish h s
  | SRepeatOrElse (Some (ROEStart contents s bs p)) =>
      match bs with
      | _ :: _ =>
          let stream := if contents then select_content_new s (CBRepeat bs)
                        else SRepeat (Some (RCollect s bs)) in
          emit h (SRepeatOrElse (Some (ROERepeat stream))) Noop
      | [] =>
          obind (build p h s)
            (fun h s => emit h (SRepeatOrElse (Some (ROEFallback s))) Noop)
      end
  | SRepeatOrElse (Some (ROEFallback s)) =>
      passthrough (ne e h s) (SRepeatOrElse None)
        (fun s => SRepeatOrElse (Some (ROEFallback s)))
  | SRepeatOrElse (Some (ROERepeat s)) =>
      passthrough (ne e h s) (SRepeatOrElse None)
        (fun s => SRepeatOrElse (Some (ROERepeat s)))
  (* attribute.rs:19-39 *)
  | SAttr None => finish h s
  | SAttr (Some (AStart s c)) =>
      on_ok (sk e h s) (fun _ => SAttr None) (fun h s r =>
        match r with
        | Some (OpeningTag tag attrs) =>
            emit h (SAttr (Some (AEmit s))) (OpeningTag tag (apply_attr c attrs))
        | Some (SelfClosedTag tag attrs) =>
            emit h (SAttr None) (SelfClosedTag tag (apply_attr c attrs))
        | Some (VoidTag tag attrs) =>
            emit h (SAttr None) (VoidTag tag (apply_attr c attrs))
        | other => fail h (SAttr None) (expected_open other)
        end)
  | SAttr (Some (AEmit s)) =>
      passthrough (ne e h s) (SAttr None) (fun s => SAttr (Some (AEmit s)))
  end.

(** [next_event_skip_noop], event.rs:683-690 *)
Definition sk_body (e : engine) (h : heap) (s : strm) : step_out :=
  obind (ne e h s) (fun h '(s, r) =>
    match r with
    | inl (Some Noop) => sk e h s
    | other => Done h (s, other)
    end).

(** [Remove::next_event], remove.rs:24-27 *)
Definition dr_body (e : engine) (h : heap) (s : strm) : step_out :=
  obind (ne e h s) (fun h '(s, r) =>
    match r with
    | inl (Some _) => dr e h s
    | other => Done h (SRemove s, other)
    end).

(** [Template::from_stream], template.rs:345-356; [acc] is [events] *)
Definition co_body (e : engine) (h : heap) (s : strm) (acc : list event)
  : out (list event + stream_error) :=
  obind (sk e h s) (fun h '(s, r) =>
    match r with
    | inl (Some ev) => co e h s (acc ++ [ev])
    | inl None => Done h (inl acc)
    | inr err => Done h (inr err)
    end).

(** The functions up to a given depth of calls and loop iterations. *)
Fixpoint run (n : nat) : engine :=
  match n with
  | O => Engine (fun _ _ => OutOfFuel) (fun _ _ => OutOfFuel) (fun _ _ => OutOfFuel)
                (fun _ _ _ => OutOfFuel)
  | S n => let e := run n in Engine (ne_body e) (sk_body e) (dr_body e) (co_body e)
  end.

(** [Template::transform], template.rs:359-366 *)
Definition transform (n : nat) (events : list event) (p : pipeline)
  : out (list event + stream_error) :=
  obind (build p ∅ (STemplate events 0)) (fun h s => co (run n) h s []).

(** ** Which pipelines are accepted by the Rust type checker

    [Api] has the methods of transform.rs:1074-2141 only if its stream type implements
    [ElementStream].  [typed e p e'] : [p] can be called on a stream whose type is an
    [ElementStream] iff [e], and [e'] says whether the type of the result is one.  The
    [ElementStream] implementations are modifier/mod.rs:123, 153, 224, 300-304,
    select/element.rs:21, select_contents.rs:37-41, subselect_any.rs:34-39, 75-80,
    subselect_direct.rs:34-39, 76-81, remove.rs:44, replace.rs:60-64, append.rs:58-62,
    prepend.rs:57-61, repeat.rs:338-343, apply.rs:30-34, attribute.rs, event.rs:700-709.
    ([Select] and [SelectOnce] have one too, select/mod.rs:82-89, 180-187, but these
    types are private and their public wrappers have none.) *)
Inductive typed : bool -> pipeline -> bool -> Prop :=
| T_nil e : typed e [] e
| T_cons e1 e2 e3 o p : typed_op e1 o e2 -> typed e2 p e3 -> typed e1 (o :: p) e3
with typed_op : bool -> op -> bool -> Prop :=
| T_apply e e' p : typed e p e' -> typed_op e (OApply p) e'
| T_boxed e : typed_op e OIntoBoxed false
| T_boxed_element : typed_op true OIntoBoxedElement true
| T_either e e' other first p :
    typed e p e' -> typed_op e (OApplyEither first p other) (e' && other)
| T_as_template e f : typed_op e (OApplyAsTemplate f) false
| T_select e direct sel b :
    (forall k, exists e', typed true (b k) e') -> typed_op e (OSelect direct sel b) false
| T_select_once e direct sel p e' :
    typed true p e' -> typed_op e (OSelectOnce direct sel p) false
| T_remove e : typed_op e ORemove false
| T_prepend e c : typed_op e (OPrepend c) false
| T_append e c : typed_op e (OAppend c) false
| T_replace e c : typed_op e (OReplace c) false
| T_repeat e bs :
    Forall (fun p => exists e', typed e p e') bs -> typed_op e (ORepeat bs) false
| T_repeat_or_else e bs p e' :
    Forall (fun p => exists e', typed e p e') bs -> typed e p e' ->
    typed_op e (ORepeatOrElse bs p) false
| T_sub_contents p e' : typed false p e' -> typed_op true (OSubselectContents p) true
| T_subselect direct sel b :
    (forall k, exists e', typed true (b k) e') -> typed_op true (OSubselect direct sel b) true
| T_subselect_once direct sel p e' :
    typed true p e' -> typed_op true (OSubselectOnce direct sel p) true
| T_remove_contents : typed_op true ORemoveContents true
| T_prepend_contents c : typed_op true (OPrependContents c) true
| T_append_contents c : typed_op true (OAppendContents c) true
| T_replace_contents c : typed_op true (OReplaceContents c) true
| T_repeat_contents bs :
    Forall (fun p => exists e', typed false p e') bs -> typed_op true (ORepeatContents bs) true
| T_repeat_contents_or_else bs p e' :
    Forall (fun p => exists e', typed false p e') bs -> typed true p e' ->
    typed_op true (ORepeatContentsOrElse bs p) false
| T_add_attribute name v : typed_op true (OAddAttribute name v) true
| T_add_to_attribute name v sep : typed_op true (OAddToAttribute name v sep) true
| T_replace_attribute name v : typed_op true (OReplaceAttribute name v) true
| T_set_attribute name v : typed_op true (OSetAttribute name v) true
| T_remove_attribute name : typed_op true (ORemoveAttribute name) true
| T_add_class name : typed_op true (OAddClass name) true
| T_remove_class name : typed_op true (ORemoveClass name) true
| T_remove_id : typed_op true ORemoveId true
| T_set_id name : typed_op true (OSetId name) true.
