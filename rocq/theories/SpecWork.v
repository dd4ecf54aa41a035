(** Specification for C63: the size of a program.  No proofs. *)
From Coq Require Import List.
From stdpp Require Import gmap.
From Verif Require Import Text Event Input Parse Selector Machine.
From Verif Require Import SpecTransform.
Local Open Scope nat_scope.

(** The number of events of a content. *)
Fixpoint content_size (c : content) : nat :=
  match c with
  | CTemplate events | CStream events _ => length events
  | CResult (inl c) => S (content_size c)
  | _ => 1
  end.

(** The number of items of a repetition. *)
Definition items (o : op) : nat :=
  match o with
  | ORepeat bs | ORepeatOrElse bs _ | ORepeatContents bs | ORepeatContentsOrElse bs _ => length bs
  | _ => 0
  end.

(** A program has size [m] if it makes at most [m] calls one after the other, each with at
    most [m] items and with contents of at most [m] events, if the functions it gives to
    [apply_as_template] return at most [m] times as many events as they get (and [m] more),
    and if its builders, in every invocation, are programs of size [m - 1]. *)
Fixpoint Sized (m : nat) (p : pipeline) : Prop :=
  match m with
  | O => p = []
  | S m' =>
      length p <= m /\
      forall o, In o p ->
        (forall q, Sub o q -> Sized m' q) /\
        (forall c, op_content o = Some c -> content_size c <= m) /\
        items o <= m /\
        (forall f events result, op_function o = Some f -> f events = inl result ->
           length result <= m * (length events + 1))
  end.
