(** What a closure with state given to [select] does, call by call. *)
From stdpp Require Import list.
From Verif Require Import Event Input Machine MachineState SpecState.
Local Open Scope nat_scope.

(** Called in the state [w 0], the closure makes the calls [p 0] and leaves the state [w 1];
    called in that one it makes the calls [p 1] and leaves [w 2]; and so on, [n] times.  The
    calls it makes have no state themselves. *)
Definition Calls_in_turn {W} (b : builder W) (w : nat -> W) (p : nat -> pipeline) (n : nat) : Prop :=
  forall k, k < n -> b k (w k) = (w (S k), map stateless_op (p k)).
