(** Transforming a document piece by piece. *)
From Coq Require Import String ZArith List Bool.
From Verif Require Import Text Event Input Parse Selector Machine Template.
From Verif Require Import SpecText SpecAttr SpecParse SpecTree SpecTransform SpecOps.
Import ListNotations.

(** One result after another: the events of both, or the first error. *)
Definition followed_by (r1 r2 : list event + stream_error) : list event + stream_error :=
  match r1, r2 with
  | inl evs1, inl evs2 => inl (evs1 ++ evs2)
  | inl _, inr e => inr e
  | inr e, _ => inr e
  end.
Fixpoint all_of (rs : list (list event + stream_error)) : list event + stream_error :=
  match rs with
  | [] => inl []
  | r :: rs => followed_by r (all_of rs)
  end.

(** Programs without memory: selections whose builder does not ask which of the matches it is
    given, and removals. *)
Inductive Local : pipeline -> Prop :=
| Local_nil : Local []
| Local_then o p : LocalCall o -> Local p -> Local (o :: p)
with LocalCall : op -> Prop :=
| Local_select d sel b : (forall k, b k = b 0%nat) -> (forall m, sel = inl m -> ElementSelector m) ->
    LocalCall (OSelect d sel b)
| Local_remove : LocalCall ORemove
| Local_boxed : LocalCall OIntoBoxed
| Local_apply p : Local p -> LocalCall (OApply p)
| Local_either first p other : Local p -> LocalCall (OApplyEither first p other).

(** Programs that do not touch elements with this opening tag: selections on every level
    whose selector it does not match. *)
Inductive PassesBy (ev : event) : pipeline -> Prop :=
| Passes_nil : PassesBy ev []
| Passes_then o p : PassesByCall ev o -> PassesBy ev p -> PassesBy ev (o :: p)
with PassesByCall (ev : event) : op -> Prop :=
| Passes_select m b : ElementSelector m -> matches m ev = false ->
    PassesByCall ev (OSelect false (inl m) b)
| Passes_boxed : PassesByCall ev OIntoBoxed
| Passes_apply p : PassesBy ev p -> PassesByCall ev (OApply p)
| Passes_either first p other : PassesBy ev p -> PassesByCall ev (OApplyEither first p other).
