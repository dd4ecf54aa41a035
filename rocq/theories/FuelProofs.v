(** More fuel does not change the result of a run. *)
From Coq Require Import String ZArith.
From stdpp Require Import gmap.
From Verif Require Import Text Event Input Parse Selector Machine.
Local Open Scope nat_scope.

(** [o'] is the result [o], or [o] is no result yet. *)
Definition le_out {A} (o o' : out A) : Prop := o = OutOfFuel \/ o = o'.

Lemma le_refl {A} (o : out A) : le_out o o.
Proof. now right. Qed.
Lemma le_trans {A} (a b c : out A) : le_out a b -> le_out b c -> le_out a c.
Proof. intros [->| ->]; [now left|auto]. Qed.
Lemma le_obind {A B} (o o' : out A) (k k' : heap -> A -> out B) :
  le_out o o' -> (forall h a, le_out (k h a) (k' h a)) -> le_out (obind o k) (obind o' k').
Proof.
  intros [->| ->] Hk; [now left|]. destruct o'; simpl; auto using le_refl.
Qed.
Lemma le_on_ok o o' dead (k k' : heap -> strm -> option event -> step_out) :
  le_out o o' -> (forall h s r, le_out (k h s r) (k' h s r)) ->
  le_out (on_ok o dead k) (on_ok o' dead k').
Proof.
  intros Ho Hk. apply le_obind; auto. intros h [s [r|err]]; auto using le_refl.
Qed.
Lemma le_passthrough o o' dead cont :
  le_out o o' -> le_out (passthrough o dead cont) (passthrough o' dead cont).
Proof. intros Ho. apply le_on_ok; auto using le_refl. Qed.
Lemma le_with_cell h l (f f' : heap -> strm -> step_out) :
  (forall h s, le_out (f h s) (f' h s)) -> le_out (with_cell h l f) (with_cell h l f').
Proof.
  intros Hf. unfold with_cell. destruct (h !! l) as [[s|]|]; auto using le_refl.
  apply le_obind; auto. intros h' [s' r]. apply le_refl.
Qed.

Definition le_engine (e e' : engine) : Prop :=
  (forall h s, le_out (ne e h s) (ne e' h s)) /\ (forall h s, le_out (sk e h s) (sk e' h s)) /\
  (forall h s, le_out (dr e h s) (dr e' h s)) /\
  (forall h s acc, le_out (co e h s acc) (co e' h s acc)).

Lemma le_peek e e' h s : le_engine e e' -> le_out (peek e h s) (peek e' h s).
Proof.
  intros (Hn & Hs & Hd & Hc). destruct s; try apply le_refl. destruct buffered; [apply le_refl|].
  apply le_on_ok; auto using le_refl.
Qed.

Lemma le_ne_body e e' h s : le_engine e e' -> le_out (ne_body e h s) (ne_body e' h s).
Proof.
  intros He. pose proof He as (Hn & Hs & Hd & Hc).
  destruct s as [| | | |[[[|]|]|]|[[]|]|? []|[[]|]| |[[]|]|? ? ? ? ? [[]|]|? [[]|]|[[]|]
                 |[[[]]|]| |[[]|]|[[]|]|[[]|]|[[]|]]; cbn [ne_body];
    try apply le_refl;
    try (apply le_passthrough; auto);
    try (apply le_on_ok; auto using le_refl; fail);
    try (apply le_obind; auto using le_refl; fail);
    auto.
  - apply le_with_cell; auto.
  - destruct (negb (Nat.eqb n 0)).
    + apply le_on_ok; auto using le_refl.
    + apply le_on_ok; [apply le_with_cell; intros; now apply le_peek|].
      intros h1 s1 [ev|]; [|apply le_refl]. destruct (is_closing_tag_for ev i); [apply le_refl|].
      apply le_on_ok; auto using le_refl.
Qed.

Lemma le_run n : le_engine (run n) (run (S n)).
Proof.
  induction n as [|n IH].
  - repeat split; intros; now left.
  - pose proof IH as (Hn & Hs & Hd & Hc). split; [|split; [|split]].
    + intros h s. now apply le_ne_body.
    + intros h s. apply le_obind; auto. intros h1 [s1 [[[]|]|]]; auto using le_refl.
    + intros h s. apply le_obind; auto. intros h1 [s1 [[ev|]|]]; auto using le_refl.
    + intros h s acc. apply le_obind; auto. intros h1 [s1 [[ev|]|]]; auto using le_refl.
Qed.

Lemma le_co n m h s acc : n <= m -> le_out (co (run n) h s acc) (co (run m) h s acc).
Proof.
  induction 1 as [|m _ IH]; [apply le_refl|]. eapply le_trans; [exact IH|]. apply le_run.
Qed.

Lemma transform_mono n m evs p : n <= m -> le_out (transform n evs p) (transform m evs p).
Proof.
  intros Hle. unfold transform. destruct (build p ∅ (STemplate evs 0)) as [| |h s]; simpl;
    try apply le_refl. now apply le_co.
Qed.
Lemma transform_done n m evs p h r :
  n <= m -> transform n evs p = Done h r -> transform m evs p = Done h r.
Proof.
  intros Hle H. destruct (transform_mono n m evs p Hle) as [E|E]; congruence.
Qed.
Lemma transform_panic n m evs p :
  n <= m -> transform n evs p = Panicked -> transform m evs p = Panicked.
Proof.
  intros Hle H. destruct (transform_mono n m evs p Hle) as [E|E]; congruence.
Qed.
Lemma transform_det n m evs p h h' r r' :
  transform n evs p = Done h r -> transform m evs p = Done h' r' -> r = r'.
Proof.
  intros H1 H2. destruct (Nat.le_ge_cases n m) as [Hle|Hle].
  - pose proof (transform_done _ _ _ _ _ _ Hle H1). congruence.
  - pose proof (transform_done _ _ _ _ _ _ Hle H2). congruence.
Qed.
