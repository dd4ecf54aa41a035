(** Proofs for C81: what holds of the programs that a program with state can turn out to be. *)
From Coq Require Import String ZArith Lia.
From stdpp Require Import gmap.
From Verif Require Import Text Event Input Parse Template Selector Machine MachineState.
From Verif Require Import SpecText SpecAttr SpecParse SpecRender SpecTree SpecTransform SpecLaws SpecSafe SpecOrigin.
From Verif Require Import SpecState SpecStop SpecNatural SpecNaturalState SpecSafeState.
From Verif Require Import StateProofs4 Prop_Transform Prop_Safe Prop_Origin.
Local Open Scope nat_scope.

Section Turn.
Context {W : Type} (n : nat).

Lemma possible_item k it bs0 : PossibleItems n k it bs0 -> forall p0, In p0 bs0 ->
  exists i (w : W) b w', snd (it i w) = Some b /\ Possible n (snd (b w')) p0.
Proof.
  revert it k. induction bs0 as [|q bs IH]; intros it k H p0 Hin; [done|].
  inversion H as [| |? ? w b w' ? ? Hb Hp Hr]; subst. destruct Hin as [<-|Hin].
  - by exists 0, w, b, w'.
  - destruct (IH _ _ Hr p0 Hin) as (i & v & b' & v' & Hi & Hq). by exists (S i), v, b', v'.
Qed.
Lemma possible_in p p0 : Possible n p p0 -> forall o0, In o0 p0 -> exists o : wop W, In o p /\ PossibleOp n o o0.
Proof.
  revert p. induction p0 as [|a p0 IH]; intros p H o0 Hin; [done|].
  inversion H as [|o p' ? ? Ho Hp]; subst. destruct Hin as [<-|Hin].
  - exists o. split; [by left|done].
  - destruct (IH _ Hp o0 Hin) as (o' & ? & ?). exists o'. split; [by right|done].
Qed.
Lemma possible_in_rev p p0 : Possible n p p0 -> forall o : wop W, In o p -> exists o0, In o0 p0 /\ PossibleOp n o o0.
Proof.
  revert p0. induction p as [|a p IH]; intros p0 H o Hin; [done|].
  inversion H as [|? ? o0 p1 Ho Hp]; subst. destruct Hin as [<-|Hin].
  - exists o0. split; [by left|done].
  - destruct (IH _ Hp o Hin) as (o' & ? & ?). exists o'. split; [by right|done].
Qed.
Lemma possible_sub o o0 : PossibleOp n o o0 -> forall q0, Sub o0 q0 ->
  exists q : wpipeline W, Makes o q /\ Possible n q q0.
Proof.
  pose proof possible_item as Hit.
  intros Ho q0 Hs. destruct Ho; cbn in Hs; try contradiction; subst.
  all: try (destruct Hs as [k ->]; match goal with H : forall k, exists w, Possible _ _ _ |- _ =>
         destruct (H k) as [w Hw]; exists (snd (b k w)); split; [by exists k, w|exact Hw] end; fail).
  all: try (by eexists; split; [reflexivity|eassumption]).
  all: try (by eexists; split; [eexists; reflexivity|eassumption]).
  all: try (destruct Hs as [Hs| ->]; [|by eexists; split; [right; eexists; reflexivity|eassumption]]).
  all: match goal with H : PossibleItems _ _ _ _ |- _ => destruct (Hit _ _ _ H _ Hs) as (i & v & b' & v' & Hi & Hq) end;
    exists (snd (b' v')); (split; [|exact Hq]); cbn;
    destruct (it i v) as [v2 r] eqn:E; cbn in Hi; subst; first [by exists i, v, v2, b', v' | left; by exists i, v, v2, b', v'].
Qed.
Lemma possible_occurs p0 o0 : Occurs p0 o0 -> forall p : wpipeline W, Possible n p p0 ->
  exists o, WOccurs p o /\ PossibleOp n o o0.
Proof.
  induction 1 as [o0 p0 Hin|o0 p0 q0 o' Hin Hs _ IH]; intros p Hp.
  - destruct (possible_in _ _ Hp _ Hin) as (o & Ho & Hop). exists o. split; [by apply WOccurs_here|done].
  - destruct (possible_in _ _ Hp _ Hin) as (o & Ho & Hop).
    destruct (possible_sub _ _ Hop _ Hs) as (q & Hm & Hq). destruct (IH q Hq) as (o2 & Ho2 & ?).
    exists o2. split; [by eapply WOccurs_deeper|done].
Qed.

(** ** Arguments *)

Lemma possible_content o o0 c0 : PossibleOp n o o0 -> op_content o0 = Some c0 ->
  exists c : wcontent W, wop_content o = Some c /\ PossibleContent n c c0.
Proof. intros H Hc. destruct H; try discriminate; injection Hc as ->; eauto. Qed.
Lemma possible_name (o : wop W) o0 : PossibleOp n o o0 -> op_name o0 = wop_name o.
Proof. by destruct 1. Qed.
Lemma possible_selector (o : wop W) o0 : PossibleOp n o o0 -> op_selector o0 = wop_selector o.
Proof. by destruct 1. Qed.
Lemma possible_function (o : wop W) o0 f0 : PossibleOp n o o0 -> op_function o0 = Some f0 ->
  exists f, o = WApplyAsTemplate f /\ forall x, exists w, f0 x = snd (f w x).
Proof. intros H Hf. destruct H; try discriminate. injection Hf as <-. eauto. Qed.
Lemma possible_events k (f : live W) evs stop : PossibleEvents k f evs stop ->
  (forall err, stop = Some err -> exists i w, snd (f i w) = inr err) /\
  (forall ev, In ev evs -> exists i w, snd (f i w) = inl (Some ev)).
Proof.
  induction 1 as [k f w H|k f w err H|f|k f w ev evs stop H _ [IH1 IH2]]; split.
  - discriminate.
  - done.
  - intros err' [= <-]. eauto.
  - done.
  - discriminate.
  - done.
  - intros err He. destruct (IH1 err He) as (i & v & ?). by exists (S i), v.
  - intros ev' [<-|Hin]; [eauto|]. destruct (IH2 ev' Hin) as (i & v & ?). by exists (S i), v.
Qed.
Lemma strip_in ev evs : In ev (strip_noops evs) -> In ev evs.
Proof. unfold strip_noops. intros H. apply List.filter_In in H as [H _]. exact H. Qed.
Lemma possible_content_gives (c : wcontent W) c0 r : PossibleContent n c c0 -> ContentGives c0 r ->
  (exists c1, PlainIn c c1 /\ ContentGives c1 r) \/
  (exists f, Reads c f /\ match r with
     | inl evs => forall ev, In ev evs -> exists i w, snd (f i w) = inl (Some ev)
     | inr err => exists i w, snd (f i w) = inr err end).
Proof.
  intros H. revert r. induction H as [c|f evs stop H|c c0 _ IH]; intros r Hr.
  - left. by exists c.
  - right. exists f. split; [done|]. destruct (possible_events _ _ _ _ H) as [H1 H2]. inversion Hr; subst.
    + intros ev Hev. by apply H2, strip_in.
    + by apply H1.
  - inversion Hr; subst. by apply IH.
Qed.
Lemma possible_plain (c : wcontent W) c0 c1 r : PossibleContent n c c0 -> PlainIn c c1 -> ContentGives c1 r ->
  ContentGives c0 r.
Proof.
  intros H. induction H as [c|f evs stop H|c c0 _ IH]; cbn; intros H1 Hr; [by subst|done|].
  constructor. auto.
Qed.

Lemma possible_valid (p : wpipeline W) p0 : WValidArgs n p -> Possible n p p0 -> ValidArgs p0.
Proof.
  intros (Hn & Hs & Hf & Hb) Hp. split_and!.
  - intros o0 i Ho Hi. destruct (possible_occurs _ _ Ho _ Hp) as (o & Ho2 & Hop). apply (Hn o i Ho2).
    by rewrite <- (possible_name _ _ Hop).
  - intros o0 evs Ho (c0 & Hc & Hg). destruct (possible_occurs _ _ Ho _ Hp) as (o & Ho2 & Hop).
    destruct (possible_content _ _ _ Hop Hc) as (c & Hc2 & Hcp). apply (Hs o evs Ho2). by exists c, c0.
  - intros o0 f0 x y Ho Hf0 Hx Hy. destruct (possible_occurs _ _ Ho _ Hp) as (o & Ho2 & Hop).
    destruct (possible_function _ _ _ Hop Hf0) as (f & -> & H). destruct (H x) as [w Hw]. rewrite Hw in Hy. eauto.
  - intros o0 evs Ho (c0 & Hc & Hg). destruct (possible_occurs _ _ Ho _ Hp) as (o & Ho2 & Hop).
    destruct (possible_content _ _ _ Hop Hc) as (c & Hc2 & Hcp). apply (Hb o evs Ho2). by exists c, c0.
Qed.
Lemma possible_elements (p : wpipeline W) p0 : WElements p -> Possible n p p0 -> ElementSelectors p0.
Proof.
  intros H Hp o0 m Ho Hm. destruct (possible_occurs _ _ Ho _ Hp) as (o & Ho2 & Hop). apply (H o m Ho2).
  by rewrite <- (possible_selector _ _ Hop).
Qed.

(** ** Types *)

Lemma possible_typed : forall (p : wpipeline W) p0, Possible n p p0 ->
  forall e e', wtyped e p e' -> typed e p0 e'
with possible_typed_op : forall (o : wop W) o0, PossibleOp n o o0 ->
  forall e e', wtyped_op e o e' -> typed_op e o0 e'
with possible_typed_items : forall k (it : iterator W) bs0, PossibleItems n k it bs0 -> forall e,
  (forall k v b w, snd (it k v) = Some b -> exists e', wtyped e (snd (b w)) e') ->
  Forall (fun p => exists e', typed e p e') bs0.
Proof.
  - intros p p0 [|o p' o0 p0' Ho Hp] e e' Ht; inversion Ht; subst; [constructor|].
    econstructor; [exact (possible_typed_op _ _ Ho _ _ ltac:(eassumption))
                  |exact (possible_typed _ _ Hp _ _ ltac:(eassumption))].
  - intros o o0 Ho e e' Ht.
    destruct Ho; inversion Ht; subst; try (econstructor; fail).
    all: try (match goal with Hw : forall w, exists e', wtyped _ _ _, Hp : Possible n (snd (_ ?w)) _ |- _ =>
           let e2 := fresh "e2" in let H2 := fresh "H2" in destruct (Hw w) as [e2 H2];
           pose proof (possible_typed _ _ Hp _ _ H2) end).
    all: try (match goal with Hi : PossibleItems n _ _ _, Ht : forall k v b w, _ -> exists e', wtyped ?e _ _ |- _ =>
           pose proof (possible_typed_items _ _ _ Hi e Ht) end).
    all: try (match goal with Hp : Possible n ?p _, Ht : wtyped _ ?p _ |- _ =>
           pose proof (possible_typed _ _ Hp _ _ Ht) end).
    all: try (econstructor; eassumption).
    all: econstructor; intros k; match goal with Hb : forall k, exists w, Possible _ _ _ |- _ => destruct (Hb k) as [w Hw] end;
      match goal with Hx : forall k w, exists e', wtyped _ _ _ |- _ => destruct (Hx k w) as [e2 H2] end;
      exists e2; exact (possible_typed _ _ Hw _ _ H2).
  - intros k it bs0 [| |k' it' w b w' p0 bs Hb Hp Hr] e Ht; constructor.
    + destruct (Ht 0 w b w' Hb) as [e' H']. exists e'. exact (possible_typed _ _ Hp _ _ H').
    + apply (possible_typed_items _ _ _ Hr e). intros k2 v b2 w2 H2. exact (Ht (S k2) v b2 w2 H2).
Qed.
End Turn.
