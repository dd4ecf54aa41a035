(** Specification for C72: streams that have ended. *)
From stdpp Require Import gmap.
From Verif Require Import Text Event Selector Machine.

(** The answers after which a stream has nothing more to give. *)
Definition Stops (r : stream_result) : Prop := r = inl None \/ exists err, r = inr err.

(** [next_event] gives this answer and leaves the stream as [s'] and the cells as [h']. *)
Definition Answers (h : heap) (s : strm) (h' : heap) (s' : strm) (r : stream_result) : Prop :=
  exists n, ne (run n) h s = Done h' (s', r).
(** the same for [next_event_skip_noop] *)
Definition AnswersSkip (h : heap) (s : strm) (h' : heap) (s' : strm) (r : stream_result) : Prop :=
  exists n, sk (run n) h s = Done h' (s', r).

(** The answers of a stream that is asked again and again, by [next_event] or by
    [next_event_skip_noop]. *)
Inductive Asked : heap -> strm -> list stream_result -> Prop :=
| Asked_no_more h s : Asked h s []
| Asked_next h s h' s' r rs : Answers h s h' s' r -> Asked h' s' rs -> Asked h s (r :: rs)
| Asked_skip h s h' s' r rs : AnswersSkip h s h' s' r -> Asked h' s' rs -> Asked h s (r :: rs).
