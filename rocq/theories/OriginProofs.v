(** Everything in the result of a pipeline comes from somewhere. *)
From Coq Require Import String ZArith NArith List.
From stdpp Require Import gmap.
From Verif Require Import Text Event Input Parse Selector Machine Template.
From Verif Require Import SpecText SpecAttr SpecParse SpecRender SpecTree SpecTransform SpecOps SpecSafe SpecLaws SpecOrigin.
From Verif Require Import TextProofs AttrProofs AttrProofs2 ParseProofs ParseProofs6 ParseProofs7 ParseProofs8
  Trace TraceProofs PipelineProofs TreeProofs ReachProofs SelectionProofs OpProofs SafeProofs SafeProofs2 SafeProofs3
  LawProofs LawProofs2 LawProofs3 KeepProofs.
Local Open Scope nat_scope.

Lemma adjusted_refl p a : Adjusted p a a.
Proof. intros f _. reflexivity. Qed.
Lemma without_filter n l l' f : Without n l l' -> (forall x, f x = true -> ~ NamedAs n x) ->
  List.filter f l' = List.filter f l.
Proof.
  intros H Hf. induction H as [|a l l' Ha _ IH|a l l' Ha _ IH]; [reflexivity| |]; cbn [List.filter].
  - destruct (f a) eqn:E; [destruct (Hf a E Ha)|exact IH].
  - now rewrite IH.
Qed.

Section origin.
Context (p0 : pipeline) (src : event -> Prop).
(** [src]: the events something can come from. *)
Definition Comes (ev : event) : Prop := exists x, Origin p0 x ev /\ src x.
Definition CT (x : tree) : Prop := ProperTree x /\ forall ev, In ev (tree_events x) -> Comes ev.
Definition CC (c : attr_cmd) : Prop :=
  ValidName (id_str (cmd_name c)) /\ exists o, Occurs p0 o /\ About o (cmd_about c).

Lemma adjusted_command a c b : CC c -> ValidAttrs b -> Adjusted p0 a b -> Adjusted p0 a (apply_attr c b).
Proof.
  intros (Hv & o & Ho & Ha) Hb H f Hf. rewrite <- (H f Hf).
  assert (exists l', Without (cmd_about c) b l') as (l' & W).
  { destruct c; cbn in *; try (exists (attributes_except b name); now apply except_without).
    exists (attributes_except b class_ident). apply (except_without b class_ident); auto using class_valid. }
  pose proof (command_others c b l' Hb Hv W) as W'.
  assert (G : forall x, f x = true -> ~ NamedAs (cmd_about c) x) by (intros x Hx; now apply (Hf x Hx o)).
  now rewrite <- (without_filter _ _ _ f W' G), (without_filter _ _ _ f W G).
Qed.

Lemma ct_forest F : OkForest CT F <-> Proper F /\ forall ev, In ev (events F) -> Comes ev.
Proof.
  induction F as [|x F IH].
  - split; [intros _; split; [apply proper_nil|intros ev []]|intros _; apply okf_nil].
  - rewrite okf_cons, IH, events_cons. unfold Proper. split.
    + intros ((H1 & H2) & H3 & H4). split; [intros y [<-|Hy]; auto|].
      intros ev Hev. apply in_app_or in Hev as [Hev|Hev]; auto.
    + intros (H1 & H2). repeat split; try (intros; apply H2, in_or_app; auto).
      * apply H1. now left.
      * intros y Hy. apply H1. now right.
Qed.
Lemma ct_ok evs : Ok CT evs <-> WellNested evs /\ forall ev, In ev evs -> Comes ev.
Proof.
  split.
  - intros (F & HF & ->). apply ct_forest in HF as [H1 H2]. split; auto. now exists F.
  - intros ((F & HF & ->) & H). exists F. split; auto. now apply ct_forest.
Qed.
Lemma origin_keep evs p e r : WellNested evs -> (forall ev, In ev evs -> Comes ev) ->
  typed false p e -> ValidArgs p ->
  OkP false CT (fun _ _ => False) (Ok CT) CC false p -> Gives evs p (inl r) ->
  forall ev, In ev r -> Comes ev.
Proof.
  intros Hw Hs Ht Hv Hp Hg.
  apply (proj1 (ct_ok r)).
  apply (keep_pipeline false CT (fun _ _ => False) (Ok CT) CC) with (evs := evs) (p := p) (e := e); auto; try contradiction.
  - now intros x [Hx _].
  - intros t a kids c [H1 H2]. left. inversion H1; subst. rewrite tree_events_elem in H2. split.
    + apply ct_forest. split; auto. intros ev Hev. apply H2. right. apply in_or_app. now left.
    + intros k Hk. apply ct_forest in Hk as [K1 K2]. split; [now constructor|].
      rewrite tree_events_elem. intros ev [<-|Hev]; [apply H2; now left|].
      apply in_app_or in Hev as [Hev|Hev]; auto. apply H2. right. apply in_or_app. now right.
  - intros t a [H1 H2]. inversion H1; subst. split.
    + match goal with H : ValidEvent _ |- _ => destruct H end. constructor; auto using same_name_refl. intros x [].
    + destruct (H2 _ (or_introl eq_refl)) as (x & Hx & Sx).
      intros ev [<-|[<-|[]]]; exists x; (split; [|exact Sx]); inversion Hx; subst; try (constructor; auto using adjusted_refl; fail).
  - intros c t a Hc [H1 H2]. inversion H1; subst. match goal with H : ValidEvent _ |- _ => destruct H as [V1 V2] end.
    split.
    + constructor; auto. split; auto. apply apply_attr_valid; auto. apply Hc.
    + destruct (H2 _ (or_introl eq_refl)) as (x & Hx & Sx).
      intros ev [<-|[]]; exists x; (split; [|exact Sx]); inversion Hx; subst; constructor; apply adjusted_command; auto using adjusted_refl.
  - intros c t a Hc [H1 H2]. inversion H1; subst. match goal with H : ValidEvent _ |- _ => destruct H as [V1 V2] end.
    split.
    + constructor; auto. split; auto. apply apply_attr_valid; auto. apply Hc.
    + destruct (H2 _ (or_introl eq_refl)) as (x & Hx & Sx).
      intros ev [<-|[]]; exists x; (split; [|exact Sx]); inversion Hx; subst; constructor; apply adjusted_command; auto using adjusted_refl.
  - intros c t a kids d Hc [H1 H2]. inversion H1; subst. rewrite tree_events_elem in H2.
    split; [constructor; auto; apply apply_attr_valid; auto; apply Hc|].
    rewrite tree_events_elem. intros ev [<-|Hev]; [|apply H2; now right].
    destruct (H2 _ (or_introl eq_refl)) as (x & Hx & Sx). exists x. split; auto.
    inversion Hx; subst; constructor; apply adjusted_command; auto using adjusted_refl.
  - now apply ct_ok.
Qed.
End origin.

Lemma op_command_about o c : op_command o = Some c -> About o (cmd_about c).
Proof.
  destruct o; try discriminate; try (destruct name as [n|]; [|discriminate]); intros E; injection E as <-;
    cbn [cmd_about cmd_name]; constructor.
Qed.
Lemma op_command_valid p o c : NamesValid p -> Occurs p o -> op_command o = Some c -> ValidName (id_str (cmd_name c)).
Proof.
  intros Hn Ho E. assert (forall i, op_name o = Some (inl i) -> ValidName (id_str i)) as H by (intros i; now apply Hn).
  destruct o; try discriminate; try (destruct name as [n|]; [|discriminate]); injection E as <-;
    cbn [cmd_name]; first [apply H; reflexivity|apply class_valid|apply id_valid].
Qed.

Lemma comes_from evs p e r : WellNested evs -> typed false p e -> ValidArgs p -> ElementSelectors p ->
  Gives evs p (inl r) -> forall y, In y r -> exists x, Origin p x y /\ (In x evs \/ Brought p x).
Proof.
  intros Hw Ht Hv Hs Hg y Hy.
  apply (origin_keep p (fun x => In x evs \/ Brought p x) evs p e r); auto.
  - intros ev H. exists ev. split; [constructor|auto].
  - intros k o Ho. pose proof (occurs_in_occurs _ _ _ _ _ Ho) as Ho'. destruct Hv as (V1 & V2 & V3 & _). split.
    + intros c Ec x Ex. pose proof (content_gives c) as Hc. rewrite Ex in Hc.
      assert (Supplied o x) as Hx by (exists c; auto).
      assert (Ok (CT p (fun x => In x evs \/ Brought p x)) x) as Hok.
      { apply ct_ok. split; [now apply (V2 o)|]. intros ev Hev. exists ev. split; [constructor|].
        right. exists o. split; auto. left. now exists x. }
      destruct (Into false k o); exact Hok.
    + intros c Ec. split; [now apply (op_command_valid p o)|]. exists o. split; auto. now apply op_command_about.
    + intros m Em. now apply (Hs o).
    + intros f x z Ef Ez. split; [|contradiction]. intros Hx. apply ct_ok in Hx as [Hx _]. apply ct_ok.
      split; [now apply (V3 o f x z)|]. intros ev Hev. exists ev. split; [constructor|].
      right. exists o. split; auto. right. now exists f, x, z.
Qed.

(** Texts, comments and document types are not changed. *)
Lemma text_comes_from evs p e r : WellNested evs -> typed false p e -> ValidArgs p -> ElementSelectors p ->
  Gives evs p (inl r) -> forall y, In y r ->
  match y with Data _ | RawData _ | Comment _ | Doctype _ => In y evs \/ Brought p y | _ => True end.
Proof.
  intros Hw Ht Hv Hs Hg y Hy. destruct (comes_from evs p e r Hw Ht Hv Hs Hg y Hy) as (x & Hx & Sx).
  destruct y; auto; inversion Hx; subst; exact Sx.
Qed.
