(** Model of the depth of function calls in a transformation.  No proofs.

    [Machine.run n] bounds calls inside each other and iterations of loops together.  Here
    they are counted separately: [deep loops d] are the functions of the streams if there
    is room for [d] calls inside each other, with at most [loops] iterations of each loop.
    The functions are those of [Machine]; only the three loops are loops now:
    [next_event_skip_noop] (event.rs:683-690), [Remove::next_event] (remove.rs:24-27) and
    [Template::from_stream] (template.rs:345-356).  No other function of src/modifier calls
    itself or has a loop over events.

    Streams whose [next_event] only forwards are erased in [Machine] (see there): they take
    part in the real depth with a constant number of calls for each [Api] call.  [dr] is
    part of [next_event] in the code, and counted as a call of its own here.  What a function
    given to [apply_as_template] does is not counted. *)
From stdpp Require Import gmap.
From Verif Require Import Text Event Input Parse Selector Machine.
Local Open Scope nat_scope.

(** event.rs:683-690: [loop { match self.next_event() { Ok(Some(Noop)) => continue, .. } }] *)
Fixpoint sk_loop (next : heap -> strm -> step_out) (k : nat) (h : heap) (s : strm) : step_out :=
  match k with
  | O => OutOfFuel
  | S k => obind (next h s) (fun h '(s, r) =>
             match r with
             | inl (Some Noop) => sk_loop next k h s
             | other => Done h (s, other)
             end)
  end.

(** remove.rs:25: [while let Some(_) = self.stream.next_event()? {}] *)
Fixpoint dr_loop (next : heap -> strm -> step_out) (k : nat) (h : heap) (s : strm) : step_out :=
  match k with
  | O => OutOfFuel
  | S k => obind (next h s) (fun h '(s, r) =>
             match r with
             | inl (Some _) => dr_loop next k h s
             | other => Done h (SRemove s, other)
             end)
  end.

(** template.rs:350-352: [while let Some(event) = stream.next_event_skip_noop()? { .. }] *)
Fixpoint co_loop (skip : heap -> strm -> step_out) (k : nat) (h : heap) (s : strm)
    (acc : list event) : out (list event + stream_error) :=
  match k with
  | O => OutOfFuel
  | S k => obind (skip h s) (fun h '(s, r) =>
             match r with
             | inl (Some ev) => co_loop skip k h s (acc ++ [ev])
             | inl None => Done h (inl acc)
             | inr err => Done h (inr err)
             end)
  end.

(** The functions if there is room for [d] calls inside each other. *)
Fixpoint deep (loops d : nat) : engine :=
  match d with
  | O => Engine (fun _ _ => OutOfFuel) (fun _ _ => OutOfFuel) (fun _ _ => OutOfFuel)
                (fun _ _ _ => OutOfFuel)
  | S d => let e := deep loops d in
           Engine (ne_body e) (sk_loop (ne e) loops) (dr_loop (ne e) loops) (co_loop (sk e) loops)
  end.

(** [Template::transform], template.rs:359-366 *)
Definition transform_deep (loops d : nat) (events : list event) (p : pipeline)
  : out (list event + stream_error) :=
  obind (build p ∅ (STemplate events 0)) (fun h s => co (deep loops d) h s []).
