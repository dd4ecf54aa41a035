(** Specification for C89. *)
From Verif Require Import Text Event Input Selector Machine MachineState.

(** Calls with a selector that could not be made, and the error that says so. *)
Inductive BadSelector {W} : wop W -> stream_error -> Prop :=
| BS_select direct err b : BadSelector (WSelect direct (inr err) b) err
| BS_select_once direct err b : BadSelector (WSelectOnce direct (inr err) b) err
| BS_subselect direct err b : BadSelector (WSubselect direct (inr err) b) err
| BS_subselect_once direct err b : BadSelector (WSubselectOnce direct (inr err) b) err.
