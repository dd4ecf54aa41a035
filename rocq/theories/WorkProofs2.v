(** Proofs for C63: potentials of streams. *)
From Coq Require Import List Lia PeanoNat.
From stdpp Require Import gmap.
From Verif Require Import Text Event Input Parse Selector Machine.
From Verif Require Import SpecTransform SpecWork MachineCost.
Local Open Scope nat_scope.

(** ** Growth

    What a builder makes of a stream with the potential [a] per unit of the stream below,
    [b] and [d] (see [P]) has the potential [g * a], [g * (b + 1)] and [g], where [g]
    depends on [d] and the size of the program. *)

(** for the builders given to [SelectContent]; [f] is the growth of the builders inside *)
Definition content_growth (f : nat -> nat) (m d : nat) : nat :=
  4 * f d + 40 * (f (d + 2) + 1) + 4 * (3 + S m * (5 * f 1 + 5)) + 4 * 3 ^ S m + d + 30.
(** for one call *)
Definition op_growth (f : nat -> nat) (m d : nat) : nat :=
  100 * (f d + f (d + 2) + S m * (f 1 + 1) + content_growth f m (d + 7) + 3 ^ S m + S m + d + 10).
(** for at most [n] calls *)
Fixpoint list_growth (g : nat -> nat) (n d : nat) : nat :=
  match n with
  | O => S d
  | S n => list_growth g n (g d) * (g d + 1) + g d
  end.
Fixpoint growth (m d : nat) : nat :=
  match m with
  | O => S d
  | S m' => list_growth (op_growth (growth m') m') m d
  end.

(** ** Potentials *)

(** For each cell of the heap: the cell below, and the potential of the stream in the cell
    (see [P]). *)
Notation pots := (gmap loc (loc * nat * nat * nat)).

Definition CB (q : nat) (b : content_builder) : Prop :=
  match b with
  | CBUser p | CBSelectOnce _ _ p => Sized q p
  | CBRemove => True
  | CBReplace n | CBAppend n | CBPrepend n =>
      exists c, n = into_stream c /\ content_size c <= S q
  | CBSelect _ _ b => forall k, Sized q (b k)
  | CBRepeat bs => length bs <= S q /\ forall p, In p bs -> Sized q p
  end.

(** [P R s base a b d]: all calls of [s] that give events cost at most [a] for each unit
    that the potential of the cell [base] loses, and [b] more; each other call costs [d]
    more. *)
Inductive P (R : pots) : strm -> loc -> nat -> nat -> nat -> Prop :=
| P_template evs i l a b d : length evs - i <= b -> 1 <= d -> P R (STemplate evs i) l a b d
| P_user evs e l a b d : length evs <= b -> 1 <= d -> P R (SUser evs e) l a b d
| P_content_none l a b d : 1 <= d -> P R (SContent None) l a b d
| P_content c l a b d : 1 <= b -> 1 <= d -> P R (SContent (Some c)) l a b d
| P_shared l l' al bl dl a b d : R !! l = Some (l', al, bl, dl) -> 2 <= a -> S dl <= d ->
    P R (SShared l) l a b d
| P_fallible_none l a b d : 1 <= d -> P R (SFallible None) l a b d
| P_fallible_err e l a b d : 1 <= d -> P R (SFallible (Some (FStart (inr e)))) l a b d
| P_fallible_start s x y z l a b d : P R s l x y z -> 2 * x <= a -> 2 * y + 1 <= b -> z + 1 <= d ->
    P R (SFallible (Some (FStart (inl s)))) l a b d
| P_fallible_emit s x y z l a b d : P R s l x y z -> 2 * x <= a -> 2 * y <= b -> z + 1 <= d ->
    P R (SFallible (Some (FEmit s))) l a b d
| P_expand_none l a b d : 1 <= d -> P R (SExpand None) l a b d
| P_expand_start s x y z l a b d : P R s l x y z -> 2 * x <= a -> 2 * y + 2 <= b -> z + 2 <= d ->
    P R (SExpand (Some (XStart s))) l a b d
| P_expand_emit s x y z l a b d : P R s l x y z -> 2 * x <= a -> 2 * y <= b -> z + 1 <= d ->
    P R (SExpand (Some (XEmitStream s))) l a b d
| P_expand_close tag l a b d : 1 <= b -> 1 <= d -> P R (SExpand (Some (XEmitClosingTag tag))) l a b d
| P_peek_none s x y z l a b d : P R s l x y z -> 4 * x <= a -> 4 * y <= b -> z + 2 <= d ->
    P R (SPeek s None) l a b d
| P_peek s ev x y z l a b d : P R s l x y z -> 4 * x <= a -> 4 * y + 1 <= b -> z + 2 <= d ->
    P R (SPeek s (Some ev)) l a b d
| P_combine_none l a b d : 1 <= d -> P R (SCombine None) l a b d
| P_combine_first s1 s2 x1 y1 z1 x2 y2 z2 l a b d : P R s1 l x1 y1 z1 -> P R s2 l x2 y2 z2 ->
    3 * x1 + 3 * x2 <= a -> 3 * y1 + 3 * y2 + z1 + 3 <= b -> z1 + 2 <= d -> z2 + 2 <= d ->
    P R (SCombine (Some (CmbFirst s1 s2))) l a b d
| P_combine_second s2 x y z l a b d : P R s2 l x y z -> 3 * x <= a -> 3 * y <= b -> z + 2 <= d ->
    P R (SCombine (Some (CmbSecond s2))) l a b d
| P_remove s x y z l a b d : P R s l x y z -> 2 * x <= a -> 2 * y <= b -> z + 2 <= d ->
    P R (SRemove s) l a b d
| P_single_none l a b d : 1 <= d -> P R (SSingle None) l a b d
| P_single_start ev s x y z l a b d : P R s l x y z -> 2 * x <= a -> 2 * y + 1 <= b -> z + 1 <= d ->
    P R (SSingle (Some (SEStart ev s))) l a b d
| P_single_until tag s level x y z l a b d : P R s l x y z -> 2 * x <= a -> 2 * y <= b -> z + 1 <= d ->
    P R (SSingle (Some (SEUntilClose tag s level))) l a b d
| P_select_none c m bd calls direct l a b d : 1 <= d -> P R (SSelect c m bd calls direct None) l a b d
| P_select_scan c al bl dl q A m bd calls direct level l a b d :
    R !! c = Some (l, al, bl, dl) -> (forall k, Sized q (bd k)) ->
    10 * growth q (dl + 2) + 10 <= A -> A * al <= a -> A * bl <= b ->
    dl + 3 <= d -> growth q (dl + 2) + 1 <= d ->
    P R (SSelect c m bd calls direct (Some (SelScanning level))) l a b d
| P_select_active c al bl dl q A m bd calls direct level s x y z l a b d :
    R !! c = Some (l, al, bl, dl) -> (forall k, Sized q (bd k)) ->
    10 * growth q (dl + 2) + 10 <= A -> P R s c x y z -> 2 * x <= A ->
    A * al <= a -> A * bl + 2 * y + z + 2 <= b ->
    dl + 3 <= d -> growth q (dl + 2) + 1 <= d -> z + 1 <= d ->
    P R (SSelect c m bd calls direct (Some (SelActive level s))) l a b d
| P_once_none c l a b d : 1 <= d -> P R (SSelectOnce c None) l a b d
| P_once_scan c al bl dl q A m p direct level l a b d :
    R !! c = Some (l, al, bl, dl) -> Sized q p ->
    10 * growth q (dl + 2) + 10 <= A -> A * al <= a -> A * bl <= b ->
    dl + 3 <= d -> growth q (dl + 2) + 1 <= d ->
    P R (SSelectOnce c (Some (SelOScanning m p direct level))) l a b d
| P_once_active c al bl dl A s x y z l a b d :
    R !! c = Some (l, al, bl, dl) -> 4 <= A -> P R s c x y z -> 2 * x <= A ->
    A * al <= a -> A * bl + 2 * y + z + 2 <= b -> dl + 3 <= d -> z + 1 <= d ->
    P R (SSelectOnce c (Some (SelOActive s))) l a b d
| P_once_pass c al bl dl A l a b d :
    R !! c = Some (l, al, bl, dl) -> 4 <= A -> A * al <= a -> A * bl <= b -> dl + 3 <= d ->
    P R (SSelectOnce c (Some SelOPassthrough)) l a b d
| P_contents_none l a b d : 1 <= d -> P R (SSelectContent None) l a b d
| P_contents_open s x y z q G bd l a b d : P R s l x y z -> CB q bd ->
    content_growth (growth q) q (z + 7) <= G ->
    (2 * G + 8) * (8 * x) <= a -> (2 * G + 8) * (8 * y + 8) + 4 * G + 5 <= b ->
    z + 7 <= d -> G + 1 <= d ->
    P R (SSelectContent (Some (SCOpen s bd))) l a b d
| P_contents_content c al bl dl A s x y z tag l a b d :
    R !! c = Some (l, al, bl, dl) -> 8 <= A -> P R s c x y z -> 2 * x <= A ->
    A * al <= a -> A * bl + 2 * y + z + 2 <= b -> dl + 3 <= d -> z + 1 <= d ->
    P R (SSelectContent (Some (SCContent c s tag))) l a b d
| P_contents_close c al bl dl A tag l a b d :
    R !! c = Some (l, al, bl, dl) -> 8 <= A -> A * al <= a -> A * bl <= b -> dl + 3 <= d ->
    P R (SSelectContent (Some (SCClose c tag))) l a b d
| P_current_none l a b d : 1 <= d -> P R (SCurrentContent None) l a b d
| P_current tag l l' al bl dl level a b d :
    R !! l = Some (l', al, bl, dl) -> 4 <= a -> dl + 3 <= d ->
    P R (SCurrentContent (Some (tag, l, level))) l a b d
| P_either first s x y z l a b d : P R s l x y z -> 2 * x <= a -> 2 * y <= b -> z + 1 <= d ->
    P R (SApplyEither first s) l a b d
| P_apply_none l a b d : 1 <= d -> P R (STemplateApply None) l a b d
| P_apply_collect s (f : list event -> list event + stream_error) K x y z l a b d : P R s l x y z ->
    (forall evs evs', f evs = inl evs' -> length evs' <= K * (length evs + 1)) ->
    (3 + 2 * K) * x <= a -> (3 + 2 * K) * y + 2 * K + z + 3 <= b -> z + 3 <= d ->
    P R (STemplateApply (Some (TACollect s f))) l a b d
| P_apply_emit evs i l a b d : 2 * (length evs - i) <= b -> 2 <= d ->
    P R (STemplateApply (Some (TAEmit evs i))) l a b d
| P_repeat_none l a b d : 1 <= d -> P R (SRepeat None) l a b d
| P_repeat_collect s bs q E x y z l a b d : P R s l x y z -> (forall p, In p bs -> Sized q p) ->
    5 * growth q 1 + 5 <= E ->
    (3 + length bs * E) * x <= a -> (3 + length bs * E) * y + length bs * E + z + 3 <= b ->
    z + 3 <= d -> growth q 1 + 1 <= d ->
    P R (SRepeat (Some (RCollect s bs))) l a b d
| P_repeat_next evs bs q E l a b d : (forall p, In p bs -> Sized q p) ->
    5 * growth q 1 + 5 <= E -> length bs * E * (length evs + 1) <= b -> growth q 1 + 1 <= d ->
    P R (SRepeat (Some (RNext evs bs))) l a b d
| P_repeat_emit evs s bs q E x y z l a b d : P R s l x y z -> (forall p, In p bs -> Sized q p) ->
    5 * growth q 1 + 5 <= E -> 2 * x <= a ->
    2 * y + z + 2 + length bs * E * (length evs + 1) <= b -> growth q 1 + 1 <= d -> z + 1 <= d ->
    P R (SRepeat (Some (REmit evs s bs))) l a b d
| P_roe_none l a b d : 1 <= d -> P R (SRepeatOrElse None) l a b d
| P_roe_start (contents : bool) s bs p q x y z x' y' z' l a b d :
    P R s l x y z -> Sized q p ->
    P R (if contents then select_content_new s (CBRepeat bs) else SRepeat (Some (RCollect s bs)))
      l x' y' z' ->
    2 * (growth q z * x) <= a -> 2 * (growth q z * (y + 1)) + growth q z + 1 <= b ->
    growth q z + 1 <= d ->
    2 * x' <= a -> 2 * y' + 1 <= b -> z' + 1 <= d ->
    P R (SRepeatOrElse (Some (ROEStart contents s bs p))) l a b d
| P_roe_fallback s x y z l a b d : P R s l x y z -> 2 * x <= a -> 2 * y <= b -> z + 1 <= d ->
    P R (SRepeatOrElse (Some (ROEFallback s))) l a b d
| P_roe_repeat s x y z l a b d : P R s l x y z -> 2 * x <= a -> 2 * y <= b -> z + 1 <= d ->
    P R (SRepeatOrElse (Some (ROERepeat s))) l a b d
| P_attr_none l a b d : 1 <= d -> P R (SAttr None) l a b d
| P_attr_start s c x y z l a b d : P R s l x y z -> 2 * x <= a -> 2 * y + 1 <= b -> z + 2 <= d ->
    P R (SAttr (Some (AStart s c))) l a b d
| P_attr_emit s x y z l a b d : P R s l x y z -> 2 * x <= a -> 2 * y <= b -> z + 1 <= d ->
    P R (SAttr (Some (AEmit s))) l a b d.

Lemma P_mono R s l a b d : P R s l a b d -> forall a' b' d', a <= a' -> b <= b' -> d <= d' ->
  P R s l a' b' d'.
Proof.
  intros H a' b' d' Ha Hb Hd.
  destruct H;
    [eapply P_template|eapply P_user|eapply P_content_none|eapply P_content|eapply P_shared
    |eapply P_fallible_none|eapply P_fallible_err|eapply P_fallible_start|eapply P_fallible_emit
    |eapply P_expand_none|eapply P_expand_start|eapply P_expand_emit|eapply P_expand_close
    |eapply P_peek_none|eapply P_peek|eapply P_combine_none|eapply P_combine_first
    |eapply P_combine_second|eapply P_remove|eapply P_single_none|eapply P_single_start
    |eapply P_single_until|eapply P_select_none|eapply P_select_scan|eapply P_select_active
    |eapply P_once_none|eapply P_once_scan|eapply P_once_active|eapply P_once_pass
    |eapply P_contents_none|eapply P_contents_open|eapply P_contents_content|eapply P_contents_close
    |eapply P_current_none|eapply P_current|eapply P_either|eapply P_apply_none
    |eapply P_apply_collect|eapply P_apply_emit|eapply P_repeat_none|eapply P_repeat_collect
    |eapply P_repeat_next|eapply P_repeat_emit|eapply P_roe_none|eapply P_roe_start
    |eapply P_roe_fallback|eapply P_roe_repeat|eapply P_attr_none|eapply P_attr_start
    |eapply P_attr_emit];
    try eassumption; try lia.
Qed.

(** [R'] is [R] after the potential of each cell [l] has lost [del l]. *)
Definition Moved (del : loc -> nat) (R R' : pots) : Prop :=
  forall l l' a b d, R !! l = Some (l', a, b, d) ->
  exists b', R' !! l = Some (l', a, b', d) /\ b + a * del l' = b' + del l.

Lemma mulr c a n : c <= a -> c * n <= a * n.
Proof. apply Nat.mul_le_mono_r. Qed.

(** Arithmetic with products: multiplies the bounds among the hypotheses. *)
Definition Hidden (X : Prop) : Prop := X.
Ltac prods n :=
  repeat match goal with
  | H : ?c <= ?a |- _ =>
      lazymatch goal with
      | _ : Hidden (c * n <= a * n) |- _ => fail
      | _ => assert (Hidden (c * n <= a * n)) by exact (mulr c a n H)
      end
  end;
  unfold Hidden in *.

Lemma P_moved del R R' : Moved del R R' -> forall s l a b d,
  P R s l a b d -> P R' s l a (b + a * del l) d.
Proof.
  intros HR s l a b d H.
  assert (Hsel : forall c l al bl dl A a', R !! c = Some (l, al, bl, dl) -> A * al <= a' ->
    exists bl', R' !! c = Some (l, al, bl', dl) /\ A * bl' + A * del c <= A * bl + a' * del l).
  { intros c l0 al bl dl A a' Hc HA. destruct (HR _ _ _ _ _ Hc) as (bl' & Hc' & E).
    exists bl'. split; [exact Hc'|]. pose proof (mulr _ _ (del l0) HA). nia. }
  induction H;
    repeat match goal with IH : Moved _ _ _ -> _ |- _ => specialize (IH HR) end;
    try match goal with
    | H : R !! ?c = Some (?l, ?al, ?bl, ?dl), HA : ?A * ?al <= ?a |- P _ _ ?l ?a _ _ =>
        destruct (Hsel c l al bl dl A a H HA) as (bl' & Hc' & Hbl)
    | H : R !! ?c = Some _ |- _ => destruct (HR _ _ _ _ _ H) as (bl' & Hc' & Hbl)
    end.
  - apply P_template; lia.
  - apply P_user; lia.
  - apply P_content_none; lia.
  - apply P_content; lia.
  - eapply P_shared; [eassumption|lia..].
  - apply P_fallible_none; lia.
  - apply P_fallible_err; lia.
  - prods (del l). eapply P_fallible_start; [eassumption|lia..].
  - prods (del l). eapply P_fallible_emit; [eassumption|lia..].
  - apply P_expand_none; lia.
  - prods (del l). eapply P_expand_start; [eassumption|lia..].
  - prods (del l). eapply P_expand_emit; [eassumption|lia..].
  - apply P_expand_close; lia.
  - prods (del l). eapply P_peek_none; [eassumption|lia..].
  - prods (del l). eapply P_peek; [eassumption|lia..].
  - apply P_combine_none; lia.
  - prods (del l). eapply P_combine_first; [eassumption|eassumption|lia..].
  - prods (del l). eapply P_combine_second; [eassumption|lia..].
  - prods (del l). eapply P_remove; [eassumption|lia..].
  - apply P_single_none; lia.
  - prods (del l). eapply P_single_start; [eassumption|lia..].
  - prods (del l). eapply P_single_until; [eassumption|lia..].
  - apply P_select_none; lia.
  - eapply P_select_scan; [eassumption..|lia|lia|lia].
  - prods (del c). eapply P_select_active; [eassumption..|lia|lia|lia|lia].
  - apply P_once_none; lia.
  - eapply P_once_scan; [eassumption..|lia|lia|lia].
  - prods (del c). eapply P_once_active; [eassumption..|lia|lia|lia].
  - eapply P_once_pass; [eassumption..|lia|lia].
  - apply P_contents_none; lia.
  - prods (del l). eapply P_contents_open; [eassumption..|lia|lia|lia].
  - prods (del c). eapply P_contents_content; [eassumption..|lia|lia|lia].
  - eapply P_contents_close; [eassumption..|lia|lia].
  - apply P_current_none; lia.
  - eapply P_current; [eassumption|lia..].
  - prods (del l). eapply P_either; [eassumption|lia..].
  - apply P_apply_none; lia.
  - prods (del l). eapply P_apply_collect; [eassumption..|lia|lia].
  - apply P_apply_emit; lia.
  - apply P_repeat_none; lia.
  - prods (del l). eapply P_repeat_collect; [eassumption..|lia|lia|lia].
  - eapply P_repeat_next; [eassumption..|lia|lia].
  - prods (del l). eapply P_repeat_emit; [eassumption..|lia|lia|lia].
  - apply P_roe_none; lia.
  - prods (del l). eapply P_roe_start; [eassumption..|lia|lia|lia|lia|lia].
  - prods (del l). eapply P_roe_fallback; [eassumption|lia..].
  - prods (del l). eapply P_roe_repeat; [eassumption|lia..].
  - apply P_attr_none; lia.
  - prods (del l). eapply P_attr_start; [eassumption|lia..].
  - prods (del l). eapply P_attr_emit; [eassumption|lia..].
Qed.
