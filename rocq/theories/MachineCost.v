(** Model of the number of calls a transformation makes.  No proofs.

    The functions of [Machine] again, clause by clause, with a counter.  Counted are the
    calls of [next_event], the iterations of [next_event_skip_noop] (event.rs:683-690), of
    [Remove::next_event] (remove.rs:24-27) and of [Template::from_stream]
    (template.rs:345-356), the calls of [Peek::peek] (modifier/mod.rs:210-221), and the
    calls of [Api] methods made by builders.  That is every loop and every recursion of
    src/modifier and of [Template::transform].

    Not counted: what happens inside a step that does not call another stream (comparing
    names, matching a selector, changing the attributes of one tag, cloning one event), the
    forwarding streams erased in [Machine] (a constant for each [Api] call) and what a
    function given to [apply_as_template] does. *)
From Coq Require Import List.
From stdpp Require Import gmap.
From Verif Require Import Text Event Input Parse Selector Machine.
Local Open Scope nat_scope.

(** An outcome and the number of calls made so far. *)
Notation cout A := (out A * nat)%type.
Notation step_out_c := (cout (strm * stream_result)).

Definition ret_c {A} (h : heap) (a : A) : cout A := (Done h a, 0).
(** One call or iteration more. *)
Definition tick {A} (o : cout A) : cout A := let '(x, n) := o in (x, S n).
Definition cbind {A B} (o : cout A) (k : heap -> A -> cout B) : cout B :=
  match o with
  | (OutOfFuel, n) => (OutOfFuel, n)
  | (Panicked, n) => (Panicked, n)
  | (Done h a, n) => let '(x, j) := k h a in (x, n + j)
  end.

(** ** Building *)

(** How many [Api] methods one call runs: itself and, if its builder is called at once,
    those of the builder (transform.rs:255-548).  The builders of selections and repetitions
    are called later. *)
Fixpoint calls_op (o : op) : nat :=
  let calls := fix calls (p : pipeline) : nat :=
    match p with
    | [] => 0
    | o :: p => calls_op o + calls p
    end in
  match o with
  | OApply p | OApplyEither _ p _ => S (calls p)
  | _ => 1
  end.
Fixpoint calls (p : pipeline) : nat :=
  match p with
  | [] => 0
  | o :: p => calls_op o + calls p
  end.

(** [Machine.build], transform.rs:13-35 *)
Definition build_c (p : pipeline) (h : heap) (s : strm) : cout strm := (build p h s, calls p).
(** [Machine.build_content]: a builder of the library counts as one call *)
Definition build_content_c (b : content_builder) (h : heap) (s : strm) : cout strm :=
  (build_content b h s, match b with CBUser p => calls p | _ => 1 end).

(** ** Running *)

(** See [Machine.engine]. *)
Record engine_c := EngineC
  { ne_c : heap -> strm -> step_out_c;
    sk_c : heap -> strm -> step_out_c;
    dr_c : heap -> strm -> step_out_c;
    co_c : heap -> strm -> list event -> cout (list event + stream_error) }.

(** Continue with an [Ok] result, or fail with the same error ([?]); [dead] is the
    state of the calling stream after an error. *)
Definition on_ok_c (o : step_out_c) (dead : strm -> strm)
    (k : heap -> strm -> option event -> step_out_c) : step_out_c :=
  cbind o (fun h '(s, r) =>
    match r with
    | inl r => k h s r
    | inr e => ret_c h (dead s, inr e)
    end).

(** result of [State::step] when the closure gives an event and a new state, ends, or
    fails, modifier/mod.rs:68-81 *)
Definition emit_c (h : heap) (s : strm) (ev : event) : step_out_c := ret_c h (s, inl (Some ev)).
Definition finish_c (h : heap) (s : strm) : step_out_c := ret_c h (s, inl None).
Definition fail_c (h : heap) (s : strm) (e : stream_error) : step_out_c := ret_c h (s, inr e).

(** [passthrough], modifier/mod.rs:84-93 *)
Definition passthrough_c (o : step_out_c) (dead : strm) (cont : strm -> strm) : step_out_c :=
  on_ok_c o (fun _ => dead) (fun h s r =>
    match r with
    | Some ev => emit_c h (cont s) ev
    | None => finish_c h dead
    end).

(** [RefCell::borrow_mut], calling [f] on the content, and dropping the guard *)
Definition with_cell_c (h : heap) (l : loc) (f : heap -> strm -> step_out_c) : step_out_c :=
  match h !! l with
  | Some (Cell s) =>
      cbind (f (<[l := Borrowed]> h) s) (fun h '(s, r) =>
        ret_c (<[l := Cell s]> h) (SShared l, r))
  | Some Borrowed => (Panicked, 0)
  | None => (Panicked, 0)
  end.

(** [Peek::peek], modifier/mod.rs:210-221: fills the buffer and returns it.  Any other
    stream than [SPeek] would be ill-typed in Rust. *)
Definition peek_c (e : engine_c) (h : heap) (s : strm) : step_out_c :=
  tick match s with
  | SPeek s (Some ev) => ret_c h (SPeek s (Some ev), inl (Some ev))
  | SPeek s None =>
      on_ok_c (sk_c e h s) (fun s => SPeek s None) (fun h s r => ret_c h (SPeek s r, inl r))
  | _ => (Panicked, 0)
  end.

(** [next_event] of every stream *)
Definition ne_body_c (e : engine_c) (h : heap) (s : strm) : step_out_c :=
  match s with
  (* template.rs:125-136 *)
  | STemplate events index =>
      match nth_error events index with
      | Some ev => emit_c h (STemplate events (S index)) ev
      | None => finish_c h (STemplate events index)
      end
  (* a stream outside the library, see [content] *)
  | SUser events stop =>
      match events, stop with
      | ev :: events, _ => emit_c h (SUser events stop) ev
      | [], Some err => fail_c h (SUser [] None) err
      | [], None => finish_c h (SUser [] None)
      end
  (* content.rs:112-117 *)
  | SContent d =>
      match d with
      | Some d => emit_c h (SContent None) (Data d)
      | None => finish_c h (SContent None)
      end
  (* event.rs:702-707 *)
  | SShared l => with_cell_c h l (ne_c e)
  (* modifier/mod.rs:125-137 *)
  | SFallible None => finish_c h s
  | SFallible (Some (FStart (inl s))) => emit_c h (SFallible (Some (FEmit s))) Noop
  | SFallible (Some (FStart (inr err))) => fail_c h (SFallible None) err
  | SFallible (Some (FEmit s)) =>
      passthrough_c (ne_c e h s) (SFallible None) (fun s => SFallible (Some (FEmit s)))
  (* modifier/mod.rs:155-180 *)
  | SExpand None => finish_c h s
  | SExpand (Some (XStart s)) =>
      on_ok_c (sk_c e h s) (fun _ => SExpand None) (fun h s r =>
        match r with
        | Some (OpeningTag tag attrs) =>
            emit_c h (SExpand (Some (XEmitStream s))) (OpeningTag tag attrs)
        | Some (SelfClosedTag tag attrs) =>
            emit_c h (SExpand (Some (XEmitClosingTag tag))) (OpeningTag tag attrs)
        | Some (VoidTag tag attrs) => emit_c h (SExpand None) (VoidTag tag attrs)
        | other => fail_c h (SExpand None) (expected_open other)
        end)
  | SExpand (Some (XEmitStream s)) =>
      passthrough_c (ne_c e h s) (SExpand None) (fun s => SExpand (Some (XEmitStream s)))
  | SExpand (Some (XEmitClosingTag tag)) => emit_c h (SExpand None) (ClosingTag tag)
  (* modifier/mod.rs:226-234 *)
  | SPeek s (Some ev) => emit_c h (SPeek s None) ev
  | SPeek s None =>
      on_ok_c (sk_c e h s) (fun s => SPeek s None) (fun h s r => ret_c h (SPeek s None, inl r))
  (* modifier/mod.rs:250-267 *)
  | SCombine None => finish_c h s
  | SCombine (Some (CmbFirst s1 s2)) =>
      on_ok_c (sk_c e h s1) (fun _ => SCombine None) (fun h s1 r =>
        match r with
        | Some ev => emit_c h (SCombine (Some (CmbFirst s1 s2))) ev
        | None => emit_c h (SCombine (Some (CmbSecond s2))) Noop
        end)
  | SCombine (Some (CmbSecond s2)) =>
      passthrough_c (sk_c e h s2) (SCombine None) (fun s2 => SCombine (Some (CmbSecond s2)))
  (* remove.rs:22-28 *)
  | SRemove s => dr_c e h s
  (* select/element.rs:23-67 *)
  | SSingle None => finish_c h s
  | SSingle (Some (SEStart ev s)) =>
      match ev with
      | OpeningTag tag attrs =>
          emit_c h (SSingle (Some (SEUntilClose tag s 0))) (OpeningTag tag attrs)
      | SelfClosedTag tag attrs => emit_c h (SSingle None) (SelfClosedTag tag attrs)
      | VoidTag tag attrs => emit_c h (SSingle None) (VoidTag tag attrs)
      | other => fail_c h (SSingle None) (expected_open (Some other))
      end
  | SSingle (Some (SEUntilClose tag s level)) =>
      on_ok_c (ne_c e h s) (fun _ => SSingle None) (fun h s r =>
        match r with
        | None => finish_c h (SSingle None)
        | Some ev =>
            if is_opening_tag_for ev tag
            then emit_c h (SSingle (Some (SEUntilClose tag s (S level)))) ev
            else if is_closing_tag_for ev tag
            then match level with
                 | O => emit_c h (SSingle None) ev
                 | S level => emit_c h (SSingle (Some (SEUntilClose tag s level))) ev
                 end
            else emit_c h (SSingle (Some (SEUntilClose tag s level))) ev
        end)
  (* select/mod.rs:189-227 *)
  | SSelect source m b calls direct None => finish_c h s
  | SSelect source m b calls direct (Some (SelScanning level)) =>
      let self := SSelect source m b in
      on_ok_c (sk_c e h (SShared source)) (fun _ => self calls direct None) (fun h _ r =>
        match r with
        | None => finish_c h (self calls direct None)
        | Some ev =>
            if include direct level && matches m ev
            then cbind (build_c (b calls) h (SSingle (Some (SEStart ev (SShared source)))))
                   (fun h new_stream =>
                      emit_c h (self (S calls) direct (Some (SelActive level new_stream))) Noop)
            else match adjust level ev with
                 | inl new_level => emit_c h (self calls direct (Some (SelScanning new_level))) ev
                 | inr err => fail_c h (self calls direct None) err
                 end
        end)
  | SSelect source m b calls direct (Some (SelActive level s)) =>
      let self := SSelect source m b calls direct in
      on_ok_c (ne_c e h s) (fun _ => self None) (fun h s r =>
        match r with
        | None => emit_c h (self (Some (SelScanning level))) Noop
        | Some ev => emit_c h (self (Some (SelActive level s))) ev
        end)
  (* select/mod.rs:91-135 *)
  | SSelectOnce source None => finish_c h s
  | SSelectOnce source (Some (SelOScanning m p direct level)) =>
      on_ok_c (sk_c e h (SShared source)) (fun _ => SSelectOnce source None) (fun h _ r =>
        match r with
        | None => finish_c h (SSelectOnce source None)
        | Some ev =>
            if include direct level && matches m ev
            then cbind (build_c p h (SSingle (Some (SEStart ev (SShared source)))))
                   (fun h new_stream =>
                      emit_c h (SSelectOnce source (Some (SelOActive new_stream))) Noop)
            else match adjust level ev with
                 | inl new_level =>
                     emit_c h (SSelectOnce source (Some (SelOScanning m p direct new_level))) ev
                 | inr err => fail_c h (SSelectOnce source None) err
                 end
        end)
  | SSelectOnce source (Some (SelOActive s)) =>
      on_ok_c (ne_c e h s) (fun _ => SSelectOnce source None) (fun h s r =>
        match r with
        | None => emit_c h (SSelectOnce source (Some SelOPassthrough)) Noop
        | Some ev => emit_c h (SSelectOnce source (Some (SelOActive s))) ev
        end)
  | SSelectOnce source (Some SelOPassthrough) =>
      passthrough_c (ne_c e h (SShared source)) (SSelectOnce source None)
        (fun _ => SSelectOnce source (Some SelOPassthrough))
  (* select_contents.rs:43-99; the source is wrapped in [Expand] by [new], line 30 *)
  | SSelectContent None => finish_c h s
  | SSelectContent (Some (SCOpen source b)) =>
      let dead := SSelectContent None in
      on_ok_c (sk_c e h (SExpand (Some (XStart source)))) (fun _ => dead) (fun h source r =>
        match r with
        | None => fail_c h dead (expected_open None)
        | Some (OpeningTag tag attrs) =>
            let l := fresh_loc h in
            let h := <[l := Cell (SPeek source None)]> h in
            cbind (build_content_c b h (SCurrentContent (Some (tag, l, 0))))
              (fun h s =>
                 emit_c h (SSelectContent (Some (SCContent l s tag))) (OpeningTag tag attrs))
        | Some (VoidTag tag attrs) => emit_c h dead (VoidTag tag attrs)
        | Some other => fail_c h dead (expected_open (Some other))
        end)
  | SSelectContent (Some (SCContent source s tag)) =>
      on_ok_c (ne_c e h s) (fun _ => SSelectContent None) (fun h s r =>
        match r with
        | None => emit_c h (SSelectContent (Some (SCClose source tag))) Noop
        | Some ev => emit_c h (SSelectContent (Some (SCContent source s tag))) ev
        end)
  | SSelectContent (Some (SCClose source tag)) =>
      let dead := SSelectContent None in
      on_ok_c (sk_c e h (SShared source)) (fun _ => dead) (fun h _ r =>
        match r with
        | Some (ClosingTag closed_tag) =>
            if ident_eqb closed_tag tag then emit_c h dead (ClosingTag closed_tag)
            else fail_c h dead (unexpected_close closed_tag)
        | other => fail_c h dead (expected_close other tag)
        end)
  (* select_contents.rs:139-169 *)
  | SCurrentContent None => finish_c h s
  | SCurrentContent (Some (tag, l, level)) =>
      let dead := SCurrentContent None in
      let next h :=
        on_ok_c (ne_c e h (SShared l)) (fun _ => dead) (fun h _ r =>
          match r with
          | None => fail_c h dead (missing_close tag)
          | Some ev =>
              match adjust level ev with
              | inl level => emit_c h (SCurrentContent (Some (tag, l, level))) ev
              | inr _ => fail_c h dead (missing_close tag)
              end
          end) in
      if negb (Nat.eqb level 0) then next h
      else on_ok_c (with_cell_c h l (peek_c e)) (fun _ => dead) (fun h _ r =>
             match r with
             | None => fail_c h dead (missing_close tag)
             | Some ev => if is_closing_tag_for ev tag then finish_c h dead else next h
             end)
  (* apply.rs:36-47 *)
  | SApplyEither first s =>
      cbind (ne_c e h s) (fun h '(s, r) => ret_c h (SApplyEither first s, r))
  (* apply.rs:70-87 *)
  | STemplateApply None => finish_c h s
  | STemplateApply (Some (TACollect s f)) =>
      cbind (co_c e h s []) (fun h r =>
        match r with
        | inr err => fail_c h (STemplateApply None) err
        | inl template =>
            match f template with
            | inr err => fail_c h (STemplateApply None) err
            | inl applied => emit_c h (STemplateApply (Some (TAEmit applied 0))) Noop
            end
        end)
  | STemplateApply (Some (TAEmit events index)) =>
      passthrough_c (ne_c e h (STemplate events index)) (STemplateApply None)
        (fun s => match s with
                  | STemplate events index => STemplateApply (Some (TAEmit events index))
                  | s => s
                  end)
  (* repeat.rs:170-208 *)
  | SRepeat None => finish_c h s
  | SRepeat (Some (RCollect s bs)) =>
      cbind (co_c e h s []) (fun h r =>
        match r with
        | inr err => fail_c h (SRepeat None) err
        | inl template => emit_c h (SRepeat (Some (RNext template bs))) Noop
        end)
  | SRepeat (Some (RNext template bs)) =>
      match bs with
      | [] => finish_c h (SRepeat None)
      | p :: bs =>
          cbind (build_c p h (STemplate template 0))
            (fun h s => emit_c h (SRepeat (Some (REmit template s bs))) Noop)
      end
  | SRepeat (Some (REmit template s bs)) =>
      on_ok_c (ne_c e h s) (fun _ => SRepeat None) (fun h s r =>
        match r with
        | Some ev => emit_c h (SRepeat (Some (REmit template s bs))) ev
        | None => emit_c h (SRepeat (Some (RNext template bs))) Noop
        end)
  (* repeat.rs:35-66 *)
  | SRepeatOrElse None => finish_c h s
  | SRepeatOrElse (Some (ROEStart contents s bs p)) =>
      match bs with
      | _ :: _ =>
          let stream := if contents then select_content_new s (CBRepeat bs)
                        else SRepeat (Some (RCollect s bs)) in
          emit_c h (SRepeatOrElse (Some (ROERepeat stream))) Noop
      | [] =>
          cbind (build_c p h s)
            (fun h s => emit_c h (SRepeatOrElse (Some (ROEFallback s))) Noop)
      end
  | SRepeatOrElse (Some (ROEFallback s)) =>
      passthrough_c (ne_c e h s) (SRepeatOrElse None)
        (fun s => SRepeatOrElse (Some (ROEFallback s)))
  | SRepeatOrElse (Some (ROERepeat s)) =>
      passthrough_c (ne_c e h s) (SRepeatOrElse None)
        (fun s => SRepeatOrElse (Some (ROERepeat s)))
  (* attribute.rs:19-39 *)
  | SAttr None => finish_c h s
  | SAttr (Some (AStart s c)) =>
      on_ok_c (sk_c e h s) (fun _ => SAttr None) (fun h s r =>
        match r with
        | Some (OpeningTag tag attrs) =>
            emit_c h (SAttr (Some (AEmit s))) (OpeningTag tag (apply_attr c attrs))
        | Some (SelfClosedTag tag attrs) =>
            emit_c h (SAttr None) (SelfClosedTag tag (apply_attr c attrs))
        | Some (VoidTag tag attrs) =>
            emit_c h (SAttr None) (VoidTag tag (apply_attr c attrs))
        | other => fail_c h (SAttr None) (expected_open other)
        end)
  | SAttr (Some (AEmit s)) =>
      passthrough_c (ne_c e h s) (SAttr None) (fun s => SAttr (Some (AEmit s)))
  end.

(** [next_event_skip_noop], event.rs:683-690 *)
Definition sk_body_c (e : engine_c) (h : heap) (s : strm) : step_out_c :=
  cbind (ne_c e h s) (fun h '(s, r) =>
    match r with
    | inl (Some Noop) => sk_c e h s
    | other => ret_c h (s, other)
    end).

(** [Remove::next_event], remove.rs:24-27 *)
Definition dr_body_c (e : engine_c) (h : heap) (s : strm) : step_out_c :=
  cbind (ne_c e h s) (fun h '(s, r) =>
    match r with
    | inl (Some _) => dr_c e h s
    | other => ret_c h (SRemove s, other)
    end).

(** [Template::from_stream], template.rs:345-356; [acc] is [events] *)
Definition co_body_c (e : engine_c) (h : heap) (s : strm) (acc : list event)
  : cout (list event + stream_error) :=
  cbind (sk_c e h s) (fun h '(s, r) =>
    match r with
    | inl (Some ev) => co_c e h s (acc ++ [ev])
    | inl None => ret_c h (inl acc)
    | inr err => ret_c h (inr err)
    end).

(** The functions up to a given depth of calls and loop iterations; each call and each
    iteration counts. *)
Fixpoint run_c (n : nat) : engine_c :=
  match n with
  | O => EngineC (fun _ _ => (OutOfFuel, 0)) (fun _ _ => (OutOfFuel, 0))
                 (fun _ _ => (OutOfFuel, 0)) (fun _ _ _ => (OutOfFuel, 0))
  | S n => let e := run_c n in
           EngineC (fun h s => tick (ne_body_c e h s)) (fun h s => tick (sk_body_c e h s))
                   (fun h s => tick (dr_body_c e h s)) (fun h s acc => tick (co_body_c e h s acc))
  end.

(** [Template::transform], template.rs:359-366 *)
Definition transform_c (n : nat) (events : list event) (p : pipeline)
  : cout (list event + stream_error) :=
  cbind (build_c p ∅ (STemplate events 0)) (fun h s => co_c (run_c n) h s []).
