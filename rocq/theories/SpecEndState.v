(** Specification for C79: streams that have ended, when closures have state.  See [SpecEnd].  No
    proofs. *)
From stdpp Require Import gmap.
From Verif Require Import Text Event Selector Machine MachineState SpecEnd.

(** [next_event] gives this answer and leaves the stream as [s'], the cells and the state of the
    program as [h']. *)
Definition WAnswers {W} (h : wheap W) (s : wstrm W) (h' : wheap W) (s' : wstrm W)
    (r : stream_result) : Prop :=
  exists n, wne (wrun n) h s = WDone h' (s', r).
(** the same for [next_event_skip_noop] *)
Definition WAnswersSkip {W} (h : wheap W) (s : wstrm W) (h' : wheap W) (s' : wstrm W)
    (r : stream_result) : Prop :=
  exists n, wsk (wrun n) h s = WDone h' (s', r).

(** The answers of a stream that is asked again and again, by [next_event] or by
    [next_event_skip_noop].  Between two questions the program may do anything to its state. *)
Inductive WAsked {W} : wheap W -> wstrm W -> list stream_result -> Prop :=
| WAsked_no_more h s : WAsked h s []
| WAsked_next h s h' s' r w rs : WAnswers h s h' s' r -> WAsked (fst h', w) s' rs ->
    WAsked h s (r :: rs)
| WAsked_skip h s h' s' r w rs : WAnswersSkip h s h' s' r -> WAsked (fst h', w) s' rs ->
    WAsked h s (r :: rs).
