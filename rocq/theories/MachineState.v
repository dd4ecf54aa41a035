(** Model of transformations whose closures have state.  No proofs.

    [Machine] takes the closures of a program as given by the calls they make: the builder of
    [select] as a function of the number of its previous invocations, the builder of [repeat]
    as a list.  Rust closures can do more.  They can read and change anything they share with
    other closures ([Rc<Cell<_>>], thread-local and static variables, the clock), and an
    iterator is asked for its items one at a time.  What a closure does can then depend on the
    order in which the library calls the closures of the program.

    Here are the functions of [Machine] again, clause by clause, with a state of type [W], the
    world, which every closure reads and changes when the library calls it.  A closure is a
    function of the world that gives the new world and the calls the closure makes.  The
    arguments of these calls are evaluated inside of the closure, so they are part of what it
    gives; so are closures which the called method runs at once ([apply] and its variants,
    transform.rs:247-548).

    So do the streams of the program that are put into the document: such a stream reads and
    changes the world each time it is asked for an event, and need not end.

    Selectors ([Selector::matches]) are as in [Machine]: they do not depend on the world. *)
From Coq Require Import String ZArith.
From stdpp Require Import gmap.
From Verif Require Import Text Event Input Parse Selector Machine.
Local Open Scope nat_scope.

Section World.
Context {W : Type}.

(** ** Contents *)

(** A [Stream] of the program, by the answers of [next_event]: the first argument is the number
    of the call.  Simplified: after it has ended or failed it is not asked again.  In
    [MachineAgain] it can be; C74 proves that this makes no difference. *)
Notation live := (nat -> W -> W * stream_result).

(** Arguments of [prepend], [append], [replace] and the variants for contents: those of
    [Machine.content], streams of the program (content.rs:55-60), and the [Ok] of one of these
    (content.rs:62-75). *)
Inductive wcontent :=
| WCPlain (c : content)
| WCLive (f : nat -> W -> W * stream_result)
| WCOk (c : wcontent).

(** ** API calls *)

(** The calls of [Machine.op] (transform.rs:159-2141) with closures instead of the calls they
    make.  An [FnMut] builder may count its invocations in a variable of its own, which is
    the number; so may an iterator.  An item of an iterator is given by what the builder does
    when it gets the item. *)
Inductive wop :=
| WApply (p : list wop)                                  (* apply, 247-253 *)
| WIntoBoxed                                             (* into_boxed, 195-197 *)
| WIntoBoxedElement                                      (* into_boxed_element, 1116-1118 *)
| WApplyEither (first : bool) (p : list wop) (other_elem : bool)
    (* apply_if 292-303, apply_if_else 363-380, apply_with_option 420-440,
       apply_with_result 487-507 *)
| WApplyAsTemplate (f : W -> list event -> W * (list event + stream_error))  (* 588-594 *)
| WSelect (direct : bool) (sel : selector + stream_error) (b : nat -> W -> W * list wop)
    (* select 658-670, select_direct 749-761 *)
| WSelectOnce (direct : bool) (sel : selector + stream_error) (b : W -> W * list wop)
    (* select_once 700-712, select_direct_once 802-814 *)
| WRemove                                                (* 839-841 *)
| WPrepend (c : wcontent)                                (* 873-878 *)
| WAppend (c : wcontent)                                 (* 910-915 *)
| WReplace (c : wcontent)                                (* 950-955 *)
| WRepeat (it : nat -> W -> W * option (W -> W * list wop))  (* 987-996 *)
| WRepeatOrElse (it : nat -> W -> W * option (W -> W * list wop)) (b : W -> W * list wop)
                                                         (* 1039-1055 *)
| WSubselectContents (b : W -> W * list wop)             (* 1195-1202 *)
| WSubselect (direct : bool) (sel : selector + stream_error) (b : nat -> W -> W * list wop)
    (* subselect 1238-1250, subselect_direct 1325-1337 *)
| WSubselectOnce (direct : bool) (sel : selector + stream_error) (b : W -> W * list wop)
    (* subselect_once 1282-1294, subselect_direct_once 1371-1383 *)
| WRemoveContents                                        (* 1406-1408 *)
| WPrependContents (c : wcontent)                        (* 1433-1439 *)
| WAppendContents (c : wcontent)                         (* 1464-1470 *)
| WReplaceContents (c : wcontent)                        (* 1495-1501 *)
| WRepeatContents (it : nat -> W -> W * option (W -> W * list wop))  (* 1530-1538 *)
| WRepeatContentsOrElse (it : nat -> W -> W * option (W -> W * list wop))
    (b : W -> W * list wop)                              (* 1590-1605 *)
| WAddAttribute (name : ident + identifier_error) (v : option value)
    (* add_attribute_with_value 1634-1641, add_attribute 1670-1685,
       add_empty_attribute 1712-1722 *)
| WAddToAttribute (name : ident + identifier_error) (v sep : value)  (* 1756-1773 *)
| WReplaceAttribute (name : ident + identifier_error) (v : value)
    (* replace_attribute_value_if_exists, 1802-1817 *)
| WSetAttribute (name : ident + identifier_error) (v : option value)
    (* set_attribute_with_value 1847-1854, set_attribute 1884-1899,
       set_empty_attribute 1929-1939 *)
| WRemoveAttribute (name : ident + identifier_error)     (* 1964-1974 *)
| WAddClass (name : ident + identifier_error)            (* 2005-2021 *)
| WRemoveClass (name : ident + identifier_error)         (* 2054-2064 *)
| WRemoveId                                              (* 2090-2096 *)
| WSetId (name : ident + identifier_error).              (* 2125-2140 *)

Notation wpipeline := (list wop).
(** an [FnOnce] builder *)
Notation once := (W -> W * wpipeline).
(** an [FnMut] builder *)
Notation builder := (nat -> W -> W * wpipeline).
(** an iterator, [Iterator::next] *)
Notation iterator := (nat -> W -> W * option once).

(** [iter::Peekable], as used by [repeat_or_else] (repeat.rs:42-47): an iterator and an item
    which has been looked at.  A plain iterator has looked at none. *)
Inductive items := Items (peeked : option once) (it : iterator).
Definition plain (it : iterator) : items := Items None it.
(** [Iterator::next] *)
Definition next_item (i : items) (w : W) : W * items * option once :=
  match i with
  | Items (Some item) it => (w, Items None it, Some item)
  | Items None it => let '(w, r) := it 0 w in (w, Items None (fun n => it (S n)), r)
  end.

(** ** Stream values, see [Machine.strm] *)

Inductive wstrm :=
| WSTemplate (events : list event) (index : nat)     (* TemplateStream, template.rs:120-123 *)
| WSUser (events : list event) (stop : option stream_error)
                                                    (* a [Stream] outside the library *)
| WSLive (f : option live)                           (* one that reads and changes the world *)
| WSContent (d : option data)                        (* content::Stream, content.rs:108-110 *)
| WSShared (l : loc)                                 (* Rc<RefCell<S>>, event.rs:702-707 *)
| WSFallible (st : option wfallible_state)            (* Fallible, modifier/mod.rs:110-112 *)
| WSExpand (st : option wexpand_state)                (* Expand, modifier/mod.rs:140-142 *)
| WSPeek (s : wstrm) (buffered : option event)        (* Peek, modifier/mod.rs:196-199 *)
| WSCombine (st : option wcombine_state)              (* Combine, modifier/mod.rs:237-239 *)
| WSRemove (s : wstrm)                                (* Remove, modifier/remove.rs:11-13 *)
| WSSingle (st : option wsingle_state)                (* SingleElement, select/element.rs:8-10 *)
| WSSelect (source : loc) (m : selector) (b : builder) (calls : nat) (direct : bool)
          (st : option wselect_state)                (* Select, select/mod.rs:154-160 *)
| WSSelectOnce (source : loc) (st : option wselect_once_state)
                                                    (* SelectOnce, select/mod.rs:54-60 *)
| WSSelectContent (st : option wselect_content_state) (* SelectContent, select_contents.rs:16-22 *)
| WSCurrentContent (st : option (ident * loc * nat)) (* CurrentContent, select_contents.rs:122-124,
                                                       state 171-175: tag, stream, level *)
| WSApplyEither (first : bool) (s : wstrm)            (* ApplyEither, apply.rs:11-13, 50-53 *)
| WSTemplateApply (st : option wtemplate_apply_state) (* TemplateApply, apply.rs:57-59 *)
| WSRepeat (st : option wrepeat_state)                (* Repeat, repeat.rs:116-122;
                                                       RepeatContentStream, 210-216 *)
| WSRepeatOrElse (st : option wrepeat_or_else_state)  (* RepeatOrElse, repeat.rs:74-81;
                                                       RepeatContentOrElse, 261-269 *)
| WSAttr (st : option wattr_state)                    (* modifier/attribute.rs:9-17 *)
(* FallibleState, modifier/mod.rs:96-103 *)
with wfallible_state :=
| WFStart (r : wstrm + stream_error)
| WFEmit (s : wstrm)
(* ExpandState, modifier/mod.rs:183-193 *)
with wexpand_state :=
| WXStart (s : wstrm)
| WXEmitStream (s : wstrm)
| WXEmitClosingTag (tag : ident)
(* CombineState, modifier/mod.rs:270-273 *)
with wcombine_state :=
| WCmbFirst (s1 s2 : wstrm)
| WCmbSecond (s2 : wstrm)
(* SingleElementState, select/element.rs:70-80 *)
with wsingle_state :=
| WSEStart (ev : event) (s : wstrm)
| WSEUntilClose (tag : ident) (s : wstrm) (level : nat)
(* SelectState, select/mod.rs:230-238 *)
with wselect_state :=
| WSelScanning (level : nat)
| WSelActive (level : nat) (s : wstrm)
(* SelectOnceState, select/mod.rs:137-151 *)
with wselect_once_state :=
| WSelOScanning (m : selector) (b : once) (direct : bool) (level : nat)
| WSelOActive (s : wstrm)
| WSelOPassthrough
(* SelectContentState, select_contents.rs:101-119; [source] of [Open] is the stream
   inside the [Expand] *)
with wselect_content_state :=
| WSCOpen (source : wstrm) (b : wcontent_builder)
| WSCContent (source : loc) (s : wstrm) (tag : ident)
| WSCClose (source : loc) (tag : ident)
(* the [BuildOnce<CurrentContent<S>>] implementations given to [SelectContent]: user
   closures (builder.rs:72-83), remove.rs:53-65, replace.rs:76-92, append.rs:74-90,
   prepend.rs:73-89, subselect_any.rs:93-133, subselect_direct.rs:94-138,
   repeat.rs:229-252 *)
with wcontent_builder :=
| WCBUser (b : once)
| WCBRemove
| WCBReplace (n : wstrm)
| WCBAppend (n : wstrm)
| WCBPrepend (n : wstrm)
| WCBSelect (direct : bool) (m : selector) (b : builder)
| WCBSelectOnce (direct : bool) (m : selector) (b : once)
| WCBRepeat (i : items)
(* TemplateState, apply.rs:90-98 *)
with wtemplate_apply_state :=
| WTACollect (s : wstrm) (f : W -> list event -> W * (list event + stream_error))
| WTAEmit (events : list event) (index : nat)
(* State, repeat.rs:147-168 *)
with wrepeat_state :=
| WRCollect (s : wstrm) (i : items)
| WRNext (template : list event) (i : items)
| WREmit (template : list event) (s : wstrm) (i : items)
(* RepeatOrElseState, repeat.rs:15-33; [contents]: the stepper is [RepeatContent::new]
   (repeat.rs:300) instead of [Repeat::new] (repeat.rs:111) *)
with wrepeat_or_else_state :=
| WROEStart (contents : bool) (s : wstrm) (it : iterator) (b : once)
| WROEFallback (s : wstrm)
| WROERepeat (s : wstrm)
(* State, modifier/attribute.rs:9-17 *)
with wattr_state :=
| WAStart (s : wstrm) (c : attr_cmd)
| WAEmit (s : wstrm).

(** ** Heap, world and outcomes *)

Inductive wcell := WCell (s : wstrm) | WBorrowed.
(** the heap of the library and the world of the program *)
Notation wheap := (gmap loc wcell * W)%type.

(** A location not in the heap (allocation by [Rc::new]). *)
Definition wfresh_loc (h : gmap loc wcell) : loc :=
  map_fold (fun l _ m => Pos.max (Pos.succ l) m) 1%positive h.

Inductive wout (A : Type) :=
| WOutOfFuel
| WPanicked
| WDone (h : wheap) (a : A).
Arguments WOutOfFuel {A}.
Arguments WPanicked {A}.
Arguments WDone {A} h a.

Definition wbind {A B} (o : wout A) (k : wheap -> A -> wout B) : wout B :=
  match o with
  | WOutOfFuel => WOutOfFuel
  | WPanicked => WPanicked
  | WDone h a => k h a
  end.

(** ** Building: the methods of [Api] *)

(** [into_stream], content.rs:10-89, template.rs:379-404 *)
Fixpoint winto_stream (c : content) : wstrm :=
  match c with
  | CTemplate events => WSTemplate events 0
  | CData d => WSContent (Some d)
  | CValue v => WSContent (Some v)
  | CStatic s => WSContent (Some (enc_from_unencoded_static_str s))
  | CInt z => WSContent (Some (enc_from_encoded_tendril (decimal_z z)))
  | CStream events stop => WSUser events stop
  | CResult (inl c) => WSFallible (Some (WFStart (inl (winto_stream c))))
  | CResult (inr e) => WSFallible (Some (WFStart (inr e)))
  end.
Fixpoint wcontent_stream (c : wcontent) : wstrm :=
  match c with
  | WCPlain c => winto_stream c
  | WCLive f => WSLive (Some f)
  | WCOk c => WSFallible (Some (WFStart (inl (wcontent_stream c))))
  end.

(** [SelectAny::new], [SelectDirect::new] (select_any.rs:22-26, select_direct.rs:22-26,
    select/mod.rs:169-177) *)
Definition wselect_new (h : wheap) (source : wstrm) (m : selector) (b : builder)
    (direct : bool) : wheap * wstrm :=
  let l := wfresh_loc (fst h) in
  ((<[l := WCell source]> (fst h), snd h), WSSelect l m b 0 direct (Some (WSelScanning 0))).

(** [SelectAnyOnce::new], [SelectDirectOnce::new] (select_any.rs:54-58,
    select_direct.rs:54-58, select/mod.rs:69-79) *)
Definition wselect_once_new (h : wheap) (source : wstrm) (m : selector) (b : once)
    (direct : bool) : wheap * wstrm :=
  let l := wfresh_loc (fst h) in
  ((<[l := WCell source]> (fst h), snd h),
   WSSelectOnce l (Some (WSelOScanning m b direct 0))).

(** [SelectContent::new], select_contents.rs:29-34 *)
Definition wselect_content_new (source : wstrm) (b : wcontent_builder) : wstrm :=
  WSSelectContent (Some (WSCOpen source b)).

(** [Append::new] append.rs:20-24, [Prepend::new] prepend.rs:19-23,
    [Replace::new] replace.rs:19-26 *)
Definition wappend_new (s n : wstrm) : wstrm := WSCombine (Some (WCmbFirst s n)).
Definition wprepend_new (s n : wstrm) : wstrm := WSCombine (Some (WCmbFirst n s)).
Definition wreplace_new (s n : wstrm) : wstrm := wprepend_new (WSRemove s) n.

(** [Fallible::new], modifier/mod.rs:116-120 *)
Definition wfallible_new (r : wstrm + stream_error) : wstrm := WSFallible (Some (WFStart r)).

(** [Fallible::new(name.into_identifier().map(..).map_err(Into::into))], as in
    transform.rs:1676-1684 *)
Definition wattr_new (h : wheap) (s : wstrm) (name : ident + identifier_error)
    (c : ident -> option attr_cmd) : wout wstrm :=
  match name with
  | inr e => WDone h (wfallible_new (inr (SEIdentifier e)))
  | inl name =>
      match c name with
      | Some c => WDone h (wfallible_new (inl (WSAttr (Some (WAStart s c)))))
      | None => WPanicked
      end
  end.

(** One call of an [Api] method on a stream, transform.rs:159-2141. *)
Fixpoint wbuild_op (o : wop) (h : wheap) (s : wstrm) {struct o} : wout wstrm :=
  let wbuild := fix wbuild (p : wpipeline) (h : wheap) (s : wstrm) {struct p} : wout wstrm :=
    match p with
    | [] => WDone h s
    | o :: p => wbind (wbuild_op o h s) (fun h s => wbuild p h s)
    end in
  match o with
  | WApply p => wbuild p h s
  | WIntoBoxed => WDone h s
  | WIntoBoxedElement => WDone h s
  | WApplyEither first p _ =>
      wbind (wbuild p h s) (fun h s => WDone h (WSApplyEither first s))
  | WApplyAsTemplate f => WDone h (WSTemplateApply (Some (WTACollect s f)))
  | WSelect direct sel b =>
      match sel with
      | inl m => let '(h, s) := wselect_new h s m b direct in WDone h (wfallible_new (inl s))
      | inr e => WDone h (wfallible_new (inr e))
      end
  | WSelectOnce direct sel b =>
      match sel with
      | inl m =>
          let '(h, s) := wselect_once_new h s m b direct in WDone h (wfallible_new (inl s))
      | inr e => WDone h (wfallible_new (inr e))
      end
  | WRemove => WDone h (WSRemove s)
  | WPrepend c => WDone h (wprepend_new s (wcontent_stream c))
  | WAppend c => WDone h (wappend_new s (wcontent_stream c))
  | WReplace c => WDone h (wreplace_new s (wcontent_stream c))
  | WRepeat it => WDone h (WSRepeat (Some (WRCollect s (plain it))))
  | WRepeatOrElse it b => WDone h (WSRepeatOrElse (Some (WROEStart false s it b)))
  | WSubselectContents b => WDone h (wselect_content_new s (WCBUser b))
  | WSubselect direct sel b =>
      match sel with
      | inl m => WDone h (wfallible_new (inl (wselect_content_new s (WCBSelect direct m b))))
      | inr e => WDone h (wfallible_new (inr e))
      end
  | WSubselectOnce direct sel b =>
      match sel with
      | inl m => WDone h (wfallible_new (inl (wselect_content_new s (WCBSelectOnce direct m b))))
      | inr e => WDone h (wfallible_new (inr e))
      end
  | WRemoveContents => WDone h (wselect_content_new s WCBRemove)
  | WPrependContents c => WDone h (wselect_content_new s (WCBPrepend (wcontent_stream c)))
  | WAppendContents c => WDone h (wselect_content_new s (WCBAppend (wcontent_stream c)))
  | WReplaceContents c => WDone h (wselect_content_new s (WCBReplace (wcontent_stream c)))
  | WRepeatContents it => WDone h (wselect_content_new s (WCBRepeat (plain it)))
  | WRepeatContentsOrElse it b => WDone h (WSRepeatOrElse (Some (WROEStart true s it b)))
  | WAddAttribute name v => wattr_new h s name (fun name => Some (AAddAttribute name v))
  | WAddToAttribute name v sep =>
      wattr_new h s name (fun name => Some (AAddToAttribute name v sep))
  | WReplaceAttribute name v =>
      wattr_new h s name (fun name => Some (AReplaceAttribute name (Some v)))
  | WSetAttribute name v => wattr_new h s name (fun name => Some (ASetAttribute name v))
  | WRemoveAttribute name => wattr_new h s name (fun name => Some (ARemoveAttribute name))
  | WAddClass name =>
      wattr_new h s name (fun name =>
        match static_ident (lit "class") with
        | Some class => Some (AAddToAttribute class (ident_into_value name)
                                (enc_from_unencoded_static_str (lit " ")))
        | None => None
        end)
  | WRemoveClass name => wattr_new h s name (fun name => Some (ARemoveClass name))
  | WRemoveId =>
      match static_ident (lit "id") with
      | Some id => WDone h (WSAttr (Some (WAStart s (ARemoveAttribute id))))
      | None => WPanicked
      end
  | WSetId name =>
      wattr_new h s name (fun name =>
        match static_ident (lit "id") with
        | Some id => Some (ASetAttribute id (Some (ident_into_value name)))
        | None => None
        end)
  end.

(** the calls of a builder, one after the other *)
Fixpoint wbuild (p : wpipeline) (h : wheap) (s : wstrm) : wout wstrm :=
  match p with
  | [] => WDone h s
  | o :: p => wbind (wbuild_op o h s) (fun h s => wbuild p h s)
  end.

(** [transform::build_once], [build_mut], [build_mut_mapped], transform.rs:13-35: the builder
    runs, which changes the world *)
Definition run_builder (b : once) (h : wheap) (s : wstrm) : wout wstrm :=
  let '(w, p) := b (snd h) in wbuild p (fst h, w) s.

(** [BuildOnce::build_once] of the builders given to [SelectContent] (see
    [Machine.content_builder]) *)
Definition wbuild_content (b : wcontent_builder) (h : wheap) (s : wstrm) : wout wstrm :=
  match b with
  | WCBUser b => run_builder b h s
  | WCBRemove => WDone h (WSRemove s)
  | WCBReplace n => WDone h (wreplace_new s n)
  | WCBAppend n => WDone h (wappend_new s n)
  | WCBPrepend n => WDone h (wprepend_new s n)
  | WCBSelect direct m b => let '(h, s) := wselect_new h s m b direct in WDone h s
  | WCBSelectOnce direct m b => let '(h, s) := wselect_once_new h s m b direct in WDone h s
  | WCBRepeat i => WDone h (WSRepeat (Some (WRCollect s i)))
  end.

(** ** Running *)

Notation wstep_out := (wout (wstrm * stream_result)).

(** See [Machine.engine]. *)
Record wengine := WEngine
  { wne : wheap -> wstrm -> wstep_out;
    wsk : wheap -> wstrm -> wstep_out;
    wdr : wheap -> wstrm -> wstep_out;
    wco : wheap -> wstrm -> list event -> wout (list event + stream_error) }.

(** Continue with an [Ok] result, or fail with the same error ([?]); [dead] is the
    state of the calling stream after an error. *)
Definition won_ok (o : wstep_out) (dead : wstrm -> wstrm)
    (k : wheap -> wstrm -> option event -> wstep_out) : wstep_out :=
  wbind o (fun h '(s, r) =>
    match r with
    | inl r => k h s r
    | inr e => WDone h (dead s, inr e)
    end).

(** result of [State::step] when the closure gives an event and a new state, ends, or
    fails, modifier/mod.rs:68-81 *)
Definition wemit (h : wheap) (s : wstrm) (ev : event) : wstep_out := WDone h (s, inl (Some ev)).
Definition wfinish (h : wheap) (s : wstrm) : wstep_out := WDone h (s, inl None).
Definition wfail (h : wheap) (s : wstrm) (e : stream_error) : wstep_out := WDone h (s, inr e).

(** [passthrough], modifier/mod.rs:84-93 *)
Definition wpassthrough (o : wstep_out) (dead : wstrm) (cont : wstrm -> wstrm) : wstep_out :=
  won_ok o (fun _ => dead) (fun h s r =>
    match r with
    | Some ev => wemit h (cont s) ev
    | None => wfinish h dead
    end).

(** [RefCell::borrow_mut], calling [f] on the content, and dropping the guard *)
Definition wwith_cell (h : wheap) (l : loc) (f : wheap -> wstrm -> wstep_out) : wstep_out :=
  match fst h !! l with
  | Some (WCell s) =>
      wbind (f (<[l := WBorrowed]> (fst h), snd h) s) (fun h '(s, r) =>
        WDone (<[l := WCell s]> (fst h), snd h) (WSShared l, r))
  | Some WBorrowed => WPanicked
  | None => WPanicked
  end.

(** [Peek::peek], modifier/mod.rs:210-221 *)
Definition wpeek (e : wengine) (h : wheap) (s : wstrm) : wstep_out :=
  match s with
  | WSPeek s (Some ev) => WDone h (WSPeek s (Some ev), inl (Some ev))
  | WSPeek s None =>
      won_ok (wsk e h s) (fun s => WSPeek s None) (fun h s r => WDone h (WSPeek s r, inl r))
  | _ => WPanicked
  end.

(** [next_event] of every stream *)
Definition wne_body (e : wengine) (h : wheap) (s : wstrm) : wstep_out :=
  match s with
  (* template.rs:125-136 *)
  | WSTemplate events index =>
      match nth_error events index with
      | Some ev => wemit h (WSTemplate events (S index)) ev
      | None => wfinish h (WSTemplate events index)
      end
  (* a stream outside the library, see [content] *)
  | WSUser events stop =>
      match events, stop with
      | ev :: events, _ => wemit h (WSUser events stop) ev
      | [], Some err => wfail h (WSUser [] None) err
      | [], None => wfinish h (WSUser [] None)
      end
  (* a stream outside the library, see [wcontent] *)
  | WSLive None => wfinish h s
  | WSLive (Some f) =>
      let '(w, r) := f 0 (snd h) in
      match r with
      | inl (Some ev) => wemit (fst h, w) (WSLive (Some (fun n => f (S n)))) ev
      | inl None => wfinish (fst h, w) (WSLive None)
      | inr err => wfail (fst h, w) (WSLive None) err
      end
  (* content.rs:112-117 *)
  | WSContent d =>
      match d with
      | Some d => wemit h (WSContent None) (Data d)
      | None => wfinish h (WSContent None)
      end
  (* event.rs:702-707 *)
  | WSShared l => wwith_cell h l (wne e)
  (* modifier/mod.rs:125-137 *)
  | WSFallible None => wfinish h s
  | WSFallible (Some (WFStart (inl s))) => wemit h (WSFallible (Some (WFEmit s))) Noop
  | WSFallible (Some (WFStart (inr err))) => wfail h (WSFallible None) err
  | WSFallible (Some (WFEmit s)) =>
      wpassthrough (wne e h s) (WSFallible None) (fun s => WSFallible (Some (WFEmit s)))
  (* modifier/mod.rs:155-180 *)
  | WSExpand None => wfinish h s
  | WSExpand (Some (WXStart s)) =>
      won_ok (wsk e h s) (fun _ => WSExpand None) (fun h s r =>
        match r with
        | Some (OpeningTag tag attrs) =>
            wemit h (WSExpand (Some (WXEmitStream s))) (OpeningTag tag attrs)
        | Some (SelfClosedTag tag attrs) =>
            wemit h (WSExpand (Some (WXEmitClosingTag tag))) (OpeningTag tag attrs)
        | Some (VoidTag tag attrs) => wemit h (WSExpand None) (VoidTag tag attrs)
        | other => wfail h (WSExpand None) (expected_open other)
        end)
  | WSExpand (Some (WXEmitStream s)) =>
      wpassthrough (wne e h s) (WSExpand None) (fun s => WSExpand (Some (WXEmitStream s)))
  | WSExpand (Some (WXEmitClosingTag tag)) => wemit h (WSExpand None) (ClosingTag tag)
  (* modifier/mod.rs:226-234 *)
  | WSPeek s (Some ev) => wemit h (WSPeek s None) ev
  | WSPeek s None =>
      won_ok (wsk e h s) (fun s => WSPeek s None) (fun h s r => WDone h (WSPeek s None, inl r))
  (* modifier/mod.rs:250-267 *)
  | WSCombine None => wfinish h s
  | WSCombine (Some (WCmbFirst s1 s2)) =>
      won_ok (wsk e h s1) (fun _ => WSCombine None) (fun h s1 r =>
        match r with
        | Some ev => wemit h (WSCombine (Some (WCmbFirst s1 s2))) ev
        | None => wemit h (WSCombine (Some (WCmbSecond s2))) Noop
        end)
  | WSCombine (Some (WCmbSecond s2)) =>
      wpassthrough (wsk e h s2) (WSCombine None) (fun s2 => WSCombine (Some (WCmbSecond s2)))
  (* remove.rs:22-28 *)
  | WSRemove s => wdr e h s
  (* select/element.rs:23-67 *)
  | WSSingle None => wfinish h s
  | WSSingle (Some (WSEStart ev s)) =>
      match ev with
      | OpeningTag tag attrs =>
          wemit h (WSSingle (Some (WSEUntilClose tag s 0))) (OpeningTag tag attrs)
      | SelfClosedTag tag attrs => wemit h (WSSingle None) (SelfClosedTag tag attrs)
      | VoidTag tag attrs => wemit h (WSSingle None) (VoidTag tag attrs)
      | other => wfail h (WSSingle None) (expected_open (Some other))
      end
  | WSSingle (Some (WSEUntilClose tag s level)) =>
      won_ok (wne e h s) (fun _ => WSSingle None) (fun h s r =>
        match r with
        | None => wfinish h (WSSingle None)
        | Some ev =>
            if is_opening_tag_for ev tag
            then wemit h (WSSingle (Some (WSEUntilClose tag s (S level)))) ev
            else if is_closing_tag_for ev tag
            then match level with
                 | O => wemit h (WSSingle None) ev
                 | S level => wemit h (WSSingle (Some (WSEUntilClose tag s level))) ev
                 end
            else wemit h (WSSingle (Some (WSEUntilClose tag s level))) ev
        end)
  (* select/mod.rs:189-227 *)
  | WSSelect source m b calls direct None => wfinish h s
  | WSSelect source m b calls direct (Some (WSelScanning level)) =>
      let self := WSSelect source m b in
      won_ok (wsk e h (WSShared source)) (fun _ => self calls direct None) (fun h _ r =>
        match r with
        | None => wfinish h (self calls direct None)
        | Some ev =>
            if include direct level && matches m ev
            then wbind (run_builder (b calls) h (WSSingle (Some (WSEStart ev (WSShared source)))))
                   (fun h new_stream =>
                      wemit h (self (S calls) direct (Some (WSelActive level new_stream))) Noop)
            else match adjust level ev with
                 | inl new_level => wemit h (self calls direct (Some (WSelScanning new_level))) ev
                 | inr err => wfail h (self calls direct None) err
                 end
        end)
  | WSSelect source m b calls direct (Some (WSelActive level s)) =>
      let self := WSSelect source m b calls direct in
      won_ok (wne e h s) (fun _ => self None) (fun h s r =>
        match r with
        | None => wemit h (self (Some (WSelScanning level))) Noop
        | Some ev => wemit h (self (Some (WSelActive level s))) ev
        end)
  (* select/mod.rs:91-135 *)
  | WSSelectOnce source None => wfinish h s
  | WSSelectOnce source (Some (WSelOScanning m b direct level)) =>
      won_ok (wsk e h (WSShared source)) (fun _ => WSSelectOnce source None) (fun h _ r =>
        match r with
        | None => wfinish h (WSSelectOnce source None)
        | Some ev =>
            if include direct level && matches m ev
            then wbind (run_builder b h (WSSingle (Some (WSEStart ev (WSShared source)))))
                   (fun h new_stream =>
                      wemit h (WSSelectOnce source (Some (WSelOActive new_stream))) Noop)
            else match adjust level ev with
                 | inl new_level =>
                     wemit h (WSSelectOnce source (Some (WSelOScanning m b direct new_level))) ev
                 | inr err => wfail h (WSSelectOnce source None) err
                 end
        end)
  | WSSelectOnce source (Some (WSelOActive s)) =>
      won_ok (wne e h s) (fun _ => WSSelectOnce source None) (fun h s r =>
        match r with
        | None => wemit h (WSSelectOnce source (Some WSelOPassthrough)) Noop
        | Some ev => wemit h (WSSelectOnce source (Some (WSelOActive s))) ev
        end)
  | WSSelectOnce source (Some WSelOPassthrough) =>
      wpassthrough (wne e h (WSShared source)) (WSSelectOnce source None)
        (fun _ => WSSelectOnce source (Some WSelOPassthrough))
  (* select_contents.rs:43-99; the source is wrapped in [Expand] by [new], line 30 *)
  | WSSelectContent None => wfinish h s
  | WSSelectContent (Some (WSCOpen source b)) =>
      let dead := WSSelectContent None in
      won_ok (wsk e h (WSExpand (Some (WXStart source)))) (fun _ => dead) (fun h source r =>
        match r with
        | None => wfail h dead (expected_open None)
        | Some (OpeningTag tag attrs) =>
            let l := wfresh_loc (fst h) in
            let h := (<[l := WCell (WSPeek source None)]> (fst h), snd h) in
            wbind (wbuild_content b h (WSCurrentContent (Some (tag, l, 0))))
              (fun h s =>
                 wemit h (WSSelectContent (Some (WSCContent l s tag))) (OpeningTag tag attrs))
        | Some (VoidTag tag attrs) => wemit h dead (VoidTag tag attrs)
        | Some other => wfail h dead (expected_open (Some other))
        end)
  | WSSelectContent (Some (WSCContent source s tag)) =>
      won_ok (wne e h s) (fun _ => WSSelectContent None) (fun h s r =>
        match r with
        | None => wemit h (WSSelectContent (Some (WSCClose source tag))) Noop
        | Some ev => wemit h (WSSelectContent (Some (WSCContent source s tag))) ev
        end)
  | WSSelectContent (Some (WSCClose source tag)) =>
      let dead := WSSelectContent None in
      won_ok (wsk e h (WSShared source)) (fun _ => dead) (fun h _ r =>
        match r with
        | Some (ClosingTag closed_tag) =>
            if ident_eqb closed_tag tag then wemit h dead (ClosingTag closed_tag)
            else wfail h dead (unexpected_close closed_tag)
        | other => wfail h dead (expected_close other tag)
        end)
  (* select_contents.rs:139-169 *)
  | WSCurrentContent None => wfinish h s
  | WSCurrentContent (Some (tag, l, level)) =>
      let dead := WSCurrentContent None in
      let next h :=
        won_ok (wne e h (WSShared l)) (fun _ => dead) (fun h _ r =>
          match r with
          | None => wfail h dead (missing_close tag)
          | Some ev =>
              match adjust level ev with
              | inl level => wemit h (WSCurrentContent (Some (tag, l, level))) ev
              | inr _ => wfail h dead (missing_close tag)
              end
          end) in
      if negb (Nat.eqb level 0) then next h
      else won_ok (wwith_cell h l (wpeek e)) (fun _ => dead) (fun h _ r =>
             match r with
             | None => wfail h dead (missing_close tag)
             | Some ev => if is_closing_tag_for ev tag then wfinish h dead else next h
             end)
  (* apply.rs:36-47 *)
  | WSApplyEither first s =>
      wbind (wne e h s) (fun h '(s, r) => WDone h (WSApplyEither first s, r))
  (* apply.rs:70-87 *)
  | WSTemplateApply None => wfinish h s
  | WSTemplateApply (Some (WTACollect s f)) =>
      wbind (wco e h s []) (fun h r =>
        match r with
        | inr err => wfail h (WSTemplateApply None) err
        | inl template =>
            match f (snd h) template with
            | (w, inr err) => wfail (fst h, w) (WSTemplateApply None) err
            | (w, inl applied) =>
                wemit (fst h, w) (WSTemplateApply (Some (WTAEmit applied 0))) Noop
            end
        end)
  | WSTemplateApply (Some (WTAEmit events index)) =>
      wpassthrough (wne e h (WSTemplate events index)) (WSTemplateApply None)
        (fun s => match s with
                  | WSTemplate events index => WSTemplateApply (Some (WTAEmit events index))
                  | s => s
                  end)
  (* repeat.rs:170-208 *)
  | WSRepeat None => wfinish h s
  | WSRepeat (Some (WRCollect s i)) =>
      wbind (wco e h s []) (fun h r =>
        match r with
        | inr err => wfail h (WSRepeat None) err
        | inl template => wemit h (WSRepeat (Some (WRNext template i))) Noop
        end)
  | WSRepeat (Some (WRNext template i)) =>
      match next_item i (snd h) with
      | (w, _, None) => wfinish (fst h, w) (WSRepeat None)
      | (w, i, Some b) =>
          wbind (run_builder b (fst h, w) (WSTemplate template 0))
            (fun h s => wemit h (WSRepeat (Some (WREmit template s i))) Noop)
      end
  | WSRepeat (Some (WREmit template s i)) =>
      won_ok (wne e h s) (fun _ => WSRepeat None) (fun h s r =>
        match r with
        | Some ev => wemit h (WSRepeat (Some (WREmit template s i))) ev
        | None => wemit h (WSRepeat (Some (WRNext template i))) Noop
        end)
  (* repeat.rs:35-66 *)
  | WSRepeatOrElse None => wfinish h s
  | WSRepeatOrElse (Some (WROEStart contents s it b)) =>
      match it 0 (snd h) with
      | (w, Some item) =>
          let i := Items (Some item) (fun n => it (S n)) in
          let stream := if contents then wselect_content_new s (WCBRepeat i)
                        else WSRepeat (Some (WRCollect s i)) in
          wemit (fst h, w) (WSRepeatOrElse (Some (WROERepeat stream))) Noop
      | (w, None) =>
          wbind (run_builder b (fst h, w) s)
            (fun h s => wemit h (WSRepeatOrElse (Some (WROEFallback s))) Noop)
      end
  | WSRepeatOrElse (Some (WROEFallback s)) =>
      wpassthrough (wne e h s) (WSRepeatOrElse None)
        (fun s => WSRepeatOrElse (Some (WROEFallback s)))
  | WSRepeatOrElse (Some (WROERepeat s)) =>
      wpassthrough (wne e h s) (WSRepeatOrElse None)
        (fun s => WSRepeatOrElse (Some (WROERepeat s)))
  (* attribute.rs:19-39 *)
  | WSAttr None => wfinish h s
  | WSAttr (Some (WAStart s c)) =>
      won_ok (wsk e h s) (fun _ => WSAttr None) (fun h s r =>
        match r with
        | Some (OpeningTag tag attrs) =>
            wemit h (WSAttr (Some (WAEmit s))) (OpeningTag tag (apply_attr c attrs))
        | Some (SelfClosedTag tag attrs) =>
            wemit h (WSAttr None) (SelfClosedTag tag (apply_attr c attrs))
        | Some (VoidTag tag attrs) =>
            wemit h (WSAttr None) (VoidTag tag (apply_attr c attrs))
        | other => wfail h (WSAttr None) (expected_open other)
        end)
  | WSAttr (Some (WAEmit s)) =>
      wpassthrough (wne e h s) (WSAttr None) (fun s => WSAttr (Some (WAEmit s)))
  end.

(** [next_event_skip_noop], event.rs:683-690 *)
Definition wsk_body (e : wengine) (h : wheap) (s : wstrm) : wstep_out :=
  wbind (wne e h s) (fun h '(s, r) =>
    match r with
    | inl (Some Noop) => wsk e h s
    | other => WDone h (s, other)
    end).

(** [Remove::next_event], remove.rs:24-27 *)
Definition wdr_body (e : wengine) (h : wheap) (s : wstrm) : wstep_out :=
  wbind (wne e h s) (fun h '(s, r) =>
    match r with
    | inl (Some _) => wdr e h s
    | other => WDone h (WSRemove s, other)
    end).

(** [Template::from_stream], template.rs:345-356; [acc] is [events] *)
Definition wco_body (e : wengine) (h : wheap) (s : wstrm) (acc : list event)
  : wout (list event + stream_error) :=
  wbind (wsk e h s) (fun h '(s, r) =>
    match r with
    | inl (Some ev) => wco e h s (acc ++ [ev])
    | inl None => WDone h (inl acc)
    | inr err => WDone h (inr err)
    end).

(** The functions up to a given depth of calls and loop iterations. *)
Fixpoint wrun (n : nat) : wengine :=
  match n with
  | O => WEngine (fun _ _ => WOutOfFuel) (fun _ _ => WOutOfFuel) (fun _ _ => WOutOfFuel)
                 (fun _ _ _ => WOutOfFuel)
  | S n => let e := wrun n in WEngine (wne_body e) (wsk_body e) (wdr_body e) (wco_body e)
  end.

(** [Template::transform], template.rs:359-366, in a world *)
Definition wtransform (n : nat) (events : list event) (b : once) (w : W)
  : wout (list event + stream_error) :=
  wbind (run_builder b (∅, w) (WSTemplate events 0)) (fun h s => wco (wrun n) h s []).

End World.

Arguments wcontent W : clear implicits.
Arguments wop W : clear implicits.
Arguments items W : clear implicits.
Arguments wstrm W : clear implicits.
Arguments wcell W : clear implicits.
Arguments wout W A : clear implicits.
Arguments wengine W : clear implicits.
Notation wpipeline W := (list (wop W)).
Notation once W := (W -> W * list (wop W))%type.
Notation builder W := (nat -> W -> W * list (wop W))%type.
Notation iterator W := (nat -> W -> W * option (W -> W * list (wop W)))%type.
Notation live W := (nat -> W -> W * (option event + stream_error))%type.
Notation wheap W := (gmap loc (wcell W) * W)%type.
Notation wstep_out W := (wout W (wstrm W * (option event + stream_error))).
Global Arguments WOutOfFuel {W A}.
Global Arguments WPanicked {W A}.
Global Arguments WDone {W A} h a.
