(** What a pipeline does to a finished list of events: an intermediate semantics without
    heap, states and fuel.  [PipelineProofs] shows that the streams compute it; the
    properties are then derived from it and do not mention it. *)
From Coq Require Import String ZArith.
From stdpp Require Import gmap.
From Verif Require Import Text Event Input Parse Selector Machine SpecTransform.
Local Open Scope nat_scope.

(** Events produced by a stream, and how it stops: end or error. *)
Notation trace := (list event * option stream_error)%type.

Definition tapp (x y : trace) : trace :=
  match snd x with
  | None => (fst x ++ fst y, snd y)
  | Some e => (fst x, Some e)
  end.

(** ** Elements *)

(** Up to and including the closing tag of [tag], counting tags of this name only. *)
Fixpoint d_until (tag : ident) (level : nat) (evs : list event)
  : option (list event * list event) :=
  match evs with
  | [] => None
  | ev :: evs =>
      let go level := match d_until tag level evs with
                      | Some (elem, rest) => Some (ev :: elem, rest)
                      | None => None
                      end in
      if is_opening_tag_for ev tag then go (S level)
      else if is_closing_tag_for ev tag
      then match level with
           | O => Some ([ev], evs)
           | S level => go level
           end
      else go level
  end.

(** The element that starts with [ev], and what follows it. *)
Definition d_single (ev : event) (rest : list event) (t : option stream_error)
  : trace * list event :=
  match ev with
  | OpeningTag tag _ =>
      match d_until tag 0 rest with
      | Some (elem, rest') => ((ev :: elem, None), rest')
      | None => ((ev :: rest, t), [])
      end
  | SelfClosedTag _ _ | VoidTag _ _ => (([ev], None), rest)
  | other => (([], Some (expected_open (Some other))), rest)
  end.

(** ** Selections; [g] is the effect of the builder's pipelines *)

Fixpoint d_select (fuel : nat) (m : selector) (g : nat -> trace -> trace) (direct : bool)
    (level calls : nat) (evs : list event) (t : option stream_error) : trace :=
  match fuel, evs with
  | S fuel, ev :: rest =>
      if include direct level && matches m ev
      then let '(elem, rest') := d_single ev rest t in
           tapp (g calls elem) (d_select fuel m g direct level (S calls) rest' t)
      else match adjust level ev with
           | inl level => tapp ([ev], None) (d_select fuel m g direct level calls rest t)
           | inr err => ([], Some err)
           end
  | _, _ => ([], t)
  end.

Fixpoint d_select_once (m : selector) (g : trace -> trace) (direct : bool)
    (level : nat) (evs : list event) (t : option stream_error) : trace :=
  match evs with
  | ev :: rest =>
      if include direct level && matches m ev
      then let '(elem, rest') := d_single ev rest t in tapp (g elem) (rest', t)
      else match adjust level ev with
           | inl level => tapp ([ev], None) (d_select_once m g direct level rest t)
           | inr err => ([], Some err)
           end
  | [] => ([], t)
  end.

(** The children of an element. *)
Definition d_contents (g : trace -> trace) (x : trace) : trace :=
  match x with
  | ([], t) => ([], Some (match t with Some e => e | None => expected_open None end))
  | (VoidTag tag attrs :: _, _) => ([VoidTag tag attrs], None)
  | (SelfClosedTag tag attrs :: _, _) =>
      tapp ([OpeningTag tag attrs], None) (tapp (g ([], None)) ([ClosingTag tag], None))
  | (OpeningTag tag attrs :: rest, None) =>
      tapp ([OpeningTag tag attrs], None)
           (tapp (g (removelast rest, None)) ([List.last rest Noop], None))
  | (OpeningTag tag attrs :: rest, Some e) =>
      tapp ([OpeningTag tag attrs], None) (g (rest, Some e))
  | (other :: _, _) => ([], Some (expected_open (Some other)))
  end.

Definition d_remove (x : trace) : trace := ([], snd x).
Definition d_repeat (gs : list (trace -> trace)) (x : trace) : trace :=
  match snd x with
  | Some e => ([], Some e)
  | None => fold_right (fun g y => tapp (g x) y) ([], None) gs
  end.
Definition d_as_template (f : list event -> list event + stream_error) (x : trace) : trace :=
  match snd x with
  | Some e => ([], Some e)
  | None => match f (fst x) with inl evs => (evs, None) | inr e => ([], Some e) end
  end.

Fixpoint d_content (c : content) : trace :=
  match c with
  | CTemplate events => (events, None)
  | CData d => ([Data d], None)
  | CValue v => ([Data v], None)
  | CStatic s => ([Data (enc_from_unencoded_static_str s)], None)
  | CInt z => ([Data (enc_from_encoded_tendril (decimal_z z))], None)
  | CStream events stop => (strip_noops events, stop)
  | CResult (inl c) => d_content c
  | CResult (inr e) => ([], Some e)
  end.

(** ** Attributes *)

Definition d_attr (c : attr_cmd) (x : trace) : trace :=
  match x with
  | ([], t) => ([], Some (match t with Some e => e | None => expected_open None end))
  | (OpeningTag tag attrs :: rest, t) => (OpeningTag tag (apply_attr c attrs) :: rest, t)
  | (SelfClosedTag tag attrs :: _, _) => ([SelfClosedTag tag (apply_attr c attrs)], None)
  | (VoidTag tag attrs :: _, _) => ([VoidTag tag (apply_attr c attrs)], None)
  | (other :: _, _) => ([], Some (expected_open (Some other)))
  end.
Definition d_named (name : ident + identifier_error) (c : ident -> attr_cmd) (x : trace)
  : trace :=
  match name with
  | inl name => d_attr (c name) x
  | inr e => ([], Some (SEIdentifier e))
  end.
Definition class_ident : ident := Ident (StaticStr (lit "class")).
Definition id_ident : ident := Ident (StaticStr (lit "id")).

(** ** Pipelines *)

Fixpoint d_op (o : op) (x : trace) {struct o} : trace :=
  let d_pipe := fix d_pipe (p : pipeline) (x : trace) {struct p} : trace :=
    match p with
    | [] => x
    | o :: p => d_pipe p (d_op o x)
    end in
  match o with
  | OApply p => d_pipe p x
  | OIntoBoxed => x
  | OIntoBoxedElement => x
  | OApplyEither _ p _ => d_pipe p x
  | OApplyAsTemplate f => d_as_template f x
  | OSelect direct sel b =>
      match sel with
      | inl m => d_select (length (fst x)) m (fun k => d_pipe (b k)) direct 0 0 (fst x) (snd x)
      | inr e => ([], Some e)
      end
  | OSelectOnce direct sel p =>
      match sel with
      | inl m => d_select_once m (d_pipe p) direct 0 (fst x) (snd x)
      | inr e => ([], Some e)
      end
  | ORemove => d_remove x
  | OPrepend c => tapp (d_content c) x
  | OAppend c => tapp x (d_content c)
  | OReplace c => tapp (d_content c) (d_remove x)
  | ORepeat bs => d_repeat (map (fun p x => d_pipe p x) bs) x
  | ORepeatOrElse bs p =>
      match bs with
      | [] => d_pipe p x
      | _ => d_repeat (map (fun p x => d_pipe p x) bs) x
      end
  | OSubselectContents p => d_contents (d_pipe p) x
  | OSubselect direct sel b =>
      match sel with
      | inl m => d_contents (fun x => d_select (length (fst x)) m (fun k => d_pipe (b k))
                                        direct 0 0 (fst x) (snd x)) x
      | inr e => ([], Some e)
      end
  | OSubselectOnce direct sel p =>
      match sel with
      | inl m => d_contents (fun x => d_select_once m (d_pipe p) direct 0 (fst x) (snd x)) x
      | inr e => ([], Some e)
      end
  | ORemoveContents => d_contents d_remove x
  | OPrependContents c => d_contents (fun x => tapp (d_content c) x) x
  | OAppendContents c => d_contents (fun x => tapp x (d_content c)) x
  | OReplaceContents c => d_contents (fun x => tapp (d_content c) (d_remove x)) x
  | ORepeatContents bs => d_contents (d_repeat (map (fun p x => d_pipe p x) bs)) x
  | ORepeatContentsOrElse bs p =>
      match bs with
      | [] => d_pipe p x
      | _ => d_contents (d_repeat (map (fun p x => d_pipe p x) bs)) x
      end
  | OAddAttribute name v => d_named name (fun name => AAddAttribute name v) x
  | OAddToAttribute name v sep => d_named name (fun name => AAddToAttribute name v sep) x
  | OReplaceAttribute name v => d_named name (fun name => AReplaceAttribute name (Some v)) x
  | OSetAttribute name v => d_named name (fun name => ASetAttribute name v) x
  | ORemoveAttribute name => d_named name ARemoveAttribute x
  | OAddClass name =>
      d_named name (fun name => AAddToAttribute class_ident (ident_into_value name)
                                  (enc_from_unencoded_static_str (lit " "))) x
  | ORemoveClass name => d_named name ARemoveClass x
  | ORemoveId => d_attr (ARemoveAttribute id_ident) x
  | OSetId name =>
      d_named name (fun name => ASetAttribute id_ident (Some (ident_into_value name))) x
  end.

Fixpoint d_pipe (p : pipeline) (x : trace) : trace :=
  match p with
  | [] => x
  | o :: p => d_pipe p (d_op o x)
  end.

(** ** Sub-pipelines *)

Lemma op_sub_ind (P : op -> Prop) :
  (forall o, (forall p, Sub o p -> forall o', In o' p -> P o') -> P o) -> forall o, P o.
Proof.
  intros IH. fix F 1. intros o.
  refine (let FP := fix G (p : pipeline) : forall o', In o' p -> P o' :=
            match p with
            | [] => fun o' H => match H with end
            | o :: p => fun o' H => match H with
                                    | or_introl E => eq_ind o P (F o) o' E
                                    | or_intror H => G p o' H
                                    end
            end in _).
  refine (let FB := fix G (bs : list pipeline) : forall p, In p bs -> forall o', In o' p -> P o' :=
            match bs with
            | [] => fun p H => match H with end
            | q :: bs => fun p H =>
                match H with
                | or_introl E => eq_ind q (fun p => forall o', In o' p -> P o') (FP q) p E
                | or_intror H => G bs p H
                end
            end in _).
  apply IH. intros p Hp. destruct o; simpl in Hp; try contradiction.
  - subst p. apply FP.
  - subst p. apply FP.
  - destruct Hp as [k ->]. apply FP.
  - subst p. apply FP.
  - exact (FB _ p Hp).
  - destruct Hp as [Hp| ->]; [exact (FB _ p Hp)|apply FP].
  - subst p. apply FP.
  - destruct Hp as [k ->]. apply FP.
  - subst p. apply FP.
  - exact (FB _ p Hp).
  - destruct Hp as [Hp| ->]; [exact (FB _ p Hp)|apply FP].
Qed.
