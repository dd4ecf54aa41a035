(** Specification for C84: [append], [prepend], [replace] and [remove] when closures and content
    streams have state.  No proofs. *)
From Coq Require Import List.
From stdpp Require Import list.
From Verif Require Import Event Input Selector Machine MachineState SpecTransform SpecState SpecRepeatState.
Local Open Scope nat_scope.

(** [LiveGives f k w res w']: reading the stream [f] from its [k]-th call on, in the state [w],
    gives [res] and leaves [w'].  It is not called again after it ended or failed. *)
Inductive LiveGives {W} (f : nat -> W -> W * stream_result) : nat -> W -> list event + stream_error -> W -> Prop :=
| LG_end k w w' : f k w = (w', inl None) -> LiveGives f k w (inl []) w'
| LG_fail k w e w' : f k w = (w', inr e) -> LiveGives f k w (inr e) w'
| LG_noop k w w1 res w' : f k w = (w1, inl (Some Noop)) -> LiveGives f (S k) w1 res w' -> LiveGives f k w res w'
| LG_event k w ev w1 res w' : f k w = (w1, inl (Some ev)) -> ev <> Noop -> LiveGives f (S k) w1 res w' ->
    LiveGives f k w (followed [ev] res) w'.

(** [ContentRuns c w res w']: content given to a call, read in the state [w]. *)
Inductive ContentRuns {W} : wcontent W -> W -> list event + stream_error -> W -> Prop :=
| CR_plain c res w : ContentGives c res -> ContentRuns (WCPlain c) w (applied res) w
| CR_live f w res w' : LiveGives f 0 w res w' -> ContentRuns (WCLive f) w res w'
| CR_ok c w res w' : ContentRuns c w res w' -> ContentRuns (WCOk c) w res w'.

(** [r] in place of the result [res]; errors stay. *)
Definition instead (r : list event) (res : list event + stream_error) : list event + stream_error :=
  match res with inl _ => inl r | inr e => inr e end.
