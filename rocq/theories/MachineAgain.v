(** Model of the library, with streams given as contents that can be asked again.

    [MachineState] takes it that a stream of the program is not asked again after it has ended
    or failed.  Here it can be: it then answers as it likes, for instance with events.  (The
    trait [Stream], event.rs:677-691, does not say what such a stream has to do.)

    Everything else is as in [MachineState]. *)
From Coq Require Import String ZArith.
From stdpp Require Import gmap.
From Verif Require Import Text Event Input Parse Selector Machine MachineState.
Local Open Scope nat_scope.

Section World.
Context {W : Type}.

(** [next_event] of every stream, see [wne_body] *)
Definition ane_body (e : wengine W) (h : wheap W) (s : wstrm W) : wstep_out W :=
  match s with
  | WSLive (Some f) =>
      let '(w, r) := f 0 (snd h) in WDone (fst h, w) (WSLive (Some (fun n => f (S n))), r)
  | s => wne_body e h s
  end.

(** [next_event_skip_noop] (event.rs:683-690), [Remove::next_event] (remove.rs:24-27) and
    [Template::from_stream] (template.rs:345-356) are those of [MachineState]. *)
Fixpoint arun (n : nat) : wengine W :=
  match n with
  | O => WEngine (fun _ _ => WOutOfFuel) (fun _ _ => WOutOfFuel) (fun _ _ => WOutOfFuel)
                 (fun _ _ _ => WOutOfFuel)
  | S n => let e := arun n in WEngine (ane_body e) (wsk_body e) (wdr_body e) (wco_body e)
  end.

(** [Template::transform], template.rs:359-366 *)
Definition atransform (n : nat) (events : list event) (b : once W) (w : W)
  : wout W (list event + stream_error) :=
  wbind (run_builder b (∅, w) (WSTemplate events 0)) (fun h s => wco (arun n) h s []).
End World.
