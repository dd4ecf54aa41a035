(** Specification for C83: [repeat] when iterators and the closures they yield have state.
    No proofs. *)
From Coq Require Import List.
From stdpp Require Import list.
From Verif Require Import Event Input Selector Machine MachineState SpecTransform SpecState.
Local Open Scope nat_scope.

(** The calls [p], made in the state there is. *)
Definition calls {W} (p : wpipeline W) : once W := fun w => (w, p).
(** The calls [p] and then those of the closure [b]. *)
Definition calls_then {W} (p : wpipeline W) (b : once W) : once W :=
  fun w => let '(w1, q) := b w in (w1, p ++ q).

(** [r] and then the result [res]. *)
Definition followed (r : list event) (res : list event + stream_error) : list event + stream_error :=
  match res with inl x => inl (r ++ x) | inr e => inr e end.

(** [Repeats evs it k w res w']: in the state [w], from the [k]-th call of the iterator [it] on,
    the copies of [evs] give [res] and leave the state [w'].  The closure of an item is run on a
    copy of its own, in the state that the iterator left; the iterator is called again in the
    state in which that run ended. *)
Inductive Repeats {W} (evs : list event) (it : iterator W)
  : nat -> W -> list event + stream_error -> W -> Prop :=
| Rp_next k w w1 item res w' :
    it k w = (w1, item) -> Copies evs it k item w1 res w' -> Repeats evs it k w res w'
(** [Copies evs it k item w res w']: the same once the [k]-th call was made and gave [item]. *)
with Copies {W} (evs : list event) (it : iterator W)
  : nat -> option (once W) -> W -> list event + stream_error -> W -> Prop :=
| Cp_end k w : Copies evs it k None w (inl []) w
| Cp_copy k b w r w1 res w' :
    GivesIn evs b w (inl r) w1 -> Repeats evs it (S k) w1 res w' ->
    Copies evs it k (Some b) w (followed r res) w'
| Cp_fail k b w e w' : GivesIn evs b w (inr e) w' -> Copies evs it k (Some b) w (inr e) w'.

(** What is left of the result of the function of [apply_as_template]: its events without
    [Noop]s. *)
Definition applied (res : list event + stream_error) : list event + stream_error :=
  match res with inl evs => inl (strip_noops evs) | inr e => inr e end.
