(** Specification for C68: programs with state whose iterators and streams end. *)
From Coq Require Import List.
From stdpp Require Import gmap.
From Verif Require Import Text Event Selector Machine MachineState.
Local Open Scope nat_scope.

(** In whatever worlds the iterator is called, after finitely many items there is no more. *)
Inductive Ends {W} : iterator W -> Prop :=
| Ends_next (it : iterator W) :
    (forall w w' b, it 0 w = (w', Some b) -> Ends (fun n => it (S n))) -> Ends it.

(** The same for a stream of the program: in whatever worlds it is asked, after finitely many
    events it ends or fails. *)
Inductive EndsEvents {W} : live W -> Prop :=
| EndsEvents_next (f : live W) :
    (forall w w' ev, f 0 w = (w', inl (Some ev)) -> EndsEvents (fun n => f (S n))) -> EndsEvents f.

(** The stream of the program given to a call as content. *)
Fixpoint Reads {W} (c : wcontent W) (f : live W) : Prop :=
  match c with
  | WCPlain _ => False
  | WCLive f' => f = f'
  | WCOk c => Reads c f
  end.
Definition Puts {W} (o : wop W) (f : live W) : Prop :=
  match o with
  | WPrepend c | WAppend c | WReplace c
  | WPrependContents c | WAppendContents c | WReplaceContents c => Reads c f
  | _ => False
  end.

(** The iterator given to a call. *)
Definition Asks {W} (o : wop W) (it : iterator W) : Prop :=
  match o with
  | WRepeat it' | WRepeatContents it' => it = it'
  | WRepeatOrElse it' _ | WRepeatContentsOrElse it' _ => it = it'
  | _ => False
  end.

(** A closure given to a call, at some time, in some world, makes the calls [q]. *)
Definition Makes {W} (o : wop W) (q : list (wop W)) : Prop :=
  match o with
  | WApply p | WApplyEither _ p _ => q = p
  | WSelect _ _ b | WSubselect _ _ b => exists k w, q = snd (b k w)
  | WSelectOnce _ _ b | WSubselectOnce _ _ b | WSubselectContents b => exists w, q = snd (b w)
  | WRepeat it | WRepeatContents it =>
      exists k v v' b w, it k v = (v', Some b) /\ q = snd (b w)
  | WRepeatOrElse it b0 | WRepeatContentsOrElse it b0 =>
      (exists k v v' b w, it k v = (v', Some b) /\ q = snd (b w)) \/ exists w, q = snd (b0 w)
  | _ => False
  end.

(** All iterators and streams of the calls end, also those of calls that closures make. *)
Inductive Ending {W} : list (wop W) -> Prop :=
| Ending_intro p :
    (forall o it, In o p -> Asks o it -> Ends it) ->
    (forall o f, In o p -> Puts o f -> EndsEvents f) ->
    (forall o q, In o p -> Makes o q -> Ending q) -> Ending p.
