(** Specification for C58: how deeply calls and builders are put into each other in a
    program.  Documents do not occur. *)
From stdpp Require Import gmap.
From Verif Require Import Text Event Selector Machine SpecTransform.
Local Open Scope nat_scope.

(** Results in results, [Ok(Ok(..))]. *)
Fixpoint nesting (c : content) : nat :=
  match c with
  | CResult (inl c) => S (nesting c)
  | _ => 0
  end.

(** [Depth p d]: [d] bounds the number of calls of [p]; a call counts one more than the
    deepest of its builders, and than the results its content is wrapped in.  (For builders
    that are called more than once the bound has to hold for all calls.) *)
Inductive Depth : pipeline -> nat -> Prop :=
| Depth_nil d : Depth [] d
| Depth_cons o p d d' :
    (forall q, Sub o q -> Depth q d) ->
    (forall c, op_content o = Some c -> nesting c <= d) ->
    Depth p d' -> Depth (o :: p) (S (d + d')).
