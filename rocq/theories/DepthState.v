(** Model of the depth of function calls in a transformation whose closures have state.  No
    proofs.  See [Depth], of which this is the variant for [MachineState].

    Such a transformation need not return, so not having enough room must be told apart from not
    having come to an end.  The functions that are left when there is no more room are therefore a
    parameter, [none]: they may do anything. *)
From stdpp Require Import gmap.
From Verif Require Import Text Event Input Parse Selector Machine MachineState.
Local Open Scope nat_scope.

Section World.
Context {W : Type}.

(** event.rs:683-690: [loop { match self.next_event() { Ok(Some(Noop)) => continue, .. } }] *)
Fixpoint wsk_loop (next : wheap W -> wstrm W -> wstep_out W) (k : nat) (h : wheap W) (s : wstrm W)
  : wstep_out W :=
  match k with
  | O => WOutOfFuel
  | S k => wbind (next h s) (fun h '(s, r) =>
             match r with
             | inl (Some Noop) => wsk_loop next k h s
             | other => WDone h (s, other)
             end)
  end.

(** remove.rs:25: [while let Some(_) = self.stream.next_event()? {}] *)
Fixpoint wdr_loop (next : wheap W -> wstrm W -> wstep_out W) (k : nat) (h : wheap W) (s : wstrm W)
  : wstep_out W :=
  match k with
  | O => WOutOfFuel
  | S k => wbind (next h s) (fun h '(s, r) =>
             match r with
             | inl (Some _) => wdr_loop next k h s
             | other => WDone h (WSRemove s, other)
             end)
  end.

(** template.rs:350-352: [while let Some(event) = stream.next_event_skip_noop()? { .. }] *)
Fixpoint wco_loop (skip : wheap W -> wstrm W -> wstep_out W) (k : nat) (h : wheap W) (s : wstrm W)
    (acc : list event) : wout W (list event + stream_error) :=
  match k with
  | O => WOutOfFuel
  | S k => wbind (skip h s) (fun h '(s, r) =>
             match r with
             | inl (Some ev) => wco_loop skip k h s (acc ++ [ev])
             | inl None => WDone h (inl acc)
             | inr err => WDone h (inr err)
             end)
  end.

(** The functions if there is room for [d] calls inside each other. *)
Fixpoint wdeep (none : wengine W) (loops d : nat) : wengine W :=
  match d with
  | O => none
  | S d => let e := wdeep none loops d in
           WEngine (wne_body e) (wsk_loop (wne e) loops) (wdr_loop (wne e) loops)
                   (wco_loop (wsk e) loops)
  end.

(** [Template::transform], template.rs:359-366 *)
Definition wtransform_deep (none : wengine W) (loops d : nat) (events : list event) (b : once W)
    (w : W) : wout W (list event + stream_error) :=
  wbind (run_builder b (∅, w) (WSTemplate events 0)) (fun h s => wco (wdeep none loops d) h s []).

End World.
