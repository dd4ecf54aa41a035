(** Proofs for C63: the counting model gives the results of [Machine]. *)
From Coq Require Import List Lia.
From stdpp Require Import gmap.
From Verif Require Import Text Event Input Parse Selector Machine.
From Verif Require Import MachineCost.
Local Open Scope nat_scope.

Lemma fst_cbind {A B} (o : cout A) (k : heap -> A -> cout B) o' k' :
  fst o = o' -> (forall h a, fst (k h a) = k' h a) -> fst (cbind o k) = obind o' k'.
Proof.
  intros <- Hk. destruct o as [[| |h a] n]; [reflexivity|reflexivity|].
  simpl. specialize (Hk h a). destruct (k h a). exact Hk.
Qed.
Lemma fst_tick {A} (o : cout A) : fst (tick o) = fst o.
Proof. destruct o. reflexivity. Qed.

(** [e] counts what [e0] does. *)
Record Counts (e : engine_c) (e0 : engine) : Prop :=
  { c_ne : forall h s, fst (ne_c e h s) = ne e0 h s;
    c_sk : forall h s, fst (sk_c e h s) = sk e0 h s;
    c_dr : forall h s, fst (dr_c e h s) = dr e0 h s;
    c_co : forall h s acc, fst (co_c e h s acc) = co e0 h s acc }.

Lemma fst_on_ok o dead k o' k' :
  fst o = o' -> (forall h s r, fst (k h s r) = k' h s r) ->
  fst (on_ok_c o dead k) = on_ok o' dead k'.
Proof.
  intros Ho Hk. apply fst_cbind; [exact Ho|]. intros h [s [r|e]]; [apply Hk|reflexivity].
Qed.
Lemma fst_passthrough o dead c o' :
  fst o = o' -> fst (passthrough_c o dead c) = passthrough o' dead c.
Proof. intros Ho. apply fst_on_ok; [exact Ho|]. intros h s [ev|]; reflexivity. Qed.
Lemma fst_with_cell h l f f' :
  (forall h s, fst (f h s) = f' h s) -> fst (with_cell_c h l f) = with_cell h l f'.
Proof.
  intros Hf. unfold with_cell_c, with_cell. destruct (h !! l) as [[s|]|]; [|reflexivity..].
  apply fst_cbind; [apply Hf|]. intros h' [s' r]. reflexivity.
Qed.
Lemma fst_peek e e0 h s : Counts e e0 -> fst (peek_c e h s) = peek e0 h s.
Proof.
  intros He. unfold peek_c, peek. rewrite fst_tick. destruct s; try reflexivity.
  destruct buffered; [reflexivity|]. apply fst_on_ok; [apply He|]. reflexivity.
Qed.

Ltac erase He :=
  repeat first
    [ reflexivity | apply He
    | apply fst_passthrough; apply He
    | apply fst_on_ok; [apply He|intros]
    | apply fst_on_ok; [apply fst_with_cell; intros; apply fst_peek, He|intros]
    | apply fst_with_cell; intros; apply He
    | apply fst_cbind; [apply He|intros ? []]
    | apply fst_cbind; [reflexivity|intros ? ?]
    | match goal with |- fst (match ?x with _ => _ end) = _ => destruct x end
    | match goal with |- context [if ?x then _ else _] => destruct x end ].

Lemma fst_ne_body e e0 h s : Counts e e0 -> fst (ne_body_c e h s) = ne_body e0 h s.
Proof.
  intros He.
  destruct s as [| | | |st|st|? pk|st| |st|? ? ? ? ? st|? st|st|st| |st|st|st|st];
    try destruct st as [st|]; try destruct pk as [pk|]; cbn [ne_body_c ne_body]; erase He.
Qed.

Lemma counts n : Counts (run_c n) (run n).
Proof.
  induction n as [|n IH]; [split; reflexivity|].
  split; intros; cbn [run_c run ne sk dr co ne_c sk_c dr_c co_c]; rewrite fst_tick.
  - apply fst_ne_body, IH.
  - apply fst_cbind; [apply IH|]. intros h' [s' [[[]|]|]]; try reflexivity. apply IH.
  - apply fst_cbind; [apply IH|]. intros h' [s' [[|]|]]; try reflexivity. apply IH.
  - apply fst_cbind; [apply IH|]. intros h' [s' [[|]|]]; try reflexivity. apply IH.
Qed.

Lemma transform_counts n evs p : fst (transform_c n evs p) = transform n evs p.
Proof. apply fst_cbind; [reflexivity|]. intros h s. apply counts. Qed.
