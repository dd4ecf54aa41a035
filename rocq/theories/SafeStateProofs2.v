(** Proofs for C81: results of programs with state. *)
From Coq Require Import String ZArith Lia.
From stdpp Require Import gmap.
From Verif Require Import Text Event Input Parse Template Selector Machine MachineState.
From Verif Require Import SpecText SpecAttr SpecParse SpecRender SpecTree SpecTransform SpecLaws SpecSafe SpecOrigin.
From Verif Require Import SpecState SpecStop SpecNatural SpecNaturalState SpecSafeState.
From Verif Require Import StateProofs4 SafeStateProofs Prop_Transform Prop_Safe Prop_Origin.
Local Open Scope nat_scope.

Section Safe.
Context {W : Type}.
Implicit Types (b : once W) (w : W).

Lemma safe_nested N evs b w e out w' : WellNested evs -> wtyped false (snd (b w)) e ->
  WValidArgs N (snd (b w)) -> GivesIn evs b w (inl out) w' -> WellNested out.
Proof.
  intros Hev Ht Hv Hg. destruct (unroll_gives N _ _ _ _ _ Hg) as (p0 & Hp & Hg0).
  eapply C17_transform; [exact Hev|exact (possible_typed _ _ _ Hp _ _ Ht)|exact (possible_valid _ _ _ Hv Hp)|exact Hg0].
Qed.
Lemma safe_errors N evs b w e err w' : WellNested evs -> wtyped false (snd (b w)) e ->
  WValidArgs N (snd (b w)) -> WElements (snd (b w)) -> GivesIn evs b w (inr err) w' ->
  exists o, WOccurs (snd (b w)) o /\ WSuppliesError o err.
Proof.
  intros Hev Ht Hv Hs Hg. destruct (unroll_gives N _ _ _ _ _ Hg) as (p0 & Hp & Hg0).
  destruct (C29_errors_given evs p0 e err Hev (possible_typed _ _ _ Hp _ _ Ht) (possible_valid _ _ _ Hv Hp)
    (possible_elements _ _ _ Hs Hp) Hg0) as (o0 & Ho & He).
  destruct (possible_occurs _ _ _ Ho _ Hp) as (o & Ho2 & Hop). exists o. split; [done|].
  destruct He as [He|[(i & Hi & ->)|[(c0 & Hc & Hcg)|(f0 & x & Hf & Hx)]]].
  - left. by rewrite <- (possible_selector _ _ _ Hop).
  - right. left. exists i. by rewrite <- (possible_name _ _ _ Hop).
  - destruct (possible_content _ _ _ _ Hop Hc) as (c & Hc2 & Hcp).
    destruct (possible_content_gives _ _ _ _ Hcp Hcg) as [(c1 & H1 & H2)|(f & Hf & i & v & Hi)].
    + right. right. left. by exists c, c1.
    + do 3 right. left. exists f, i, v. split; [|done]. destruct o; cbn in *; congruence.
  - destruct (possible_function _ _ _ _ Hop Hf) as (f & -> & H). destruct (H x) as [v Hv2].
    do 4 right. exists f, v, x. by rewrite <- Hv2.
Qed.
Lemma safe_text N evs b w e out w' : WellNested evs -> wtyped false (snd (b w)) e ->
  WValidArgs N (snd (b w)) -> WElements (snd (b w)) -> GivesIn evs b w (inl out) w' ->
  forall y, In y out ->
  match y with
  | Data _ | RawData _ | Comment _ | Doctype _ => In y evs \/ WBrought (snd (b w)) y
  | _ => True
  end.
Proof.
  intros Hev Ht Hv Hs Hg y Hy. destruct (unroll_gives N _ _ _ _ _ Hg) as (p0 & Hp & Hg0).
  pose proof (C60_text evs p0 e out Hev (possible_typed _ _ _ Hp _ _ Ht) (possible_valid _ _ _ Hv Hp)
    (possible_elements _ _ _ Hs Hp) Hg0 y Hy) as H.
  assert (Brought p0 y -> WBrought (snd (b w)) y) as Hb; [|destruct y; try done; destruct H as [H|H]; auto].
  intros (o0 & Ho & He). destruct (possible_occurs _ _ _ Ho _ Hp) as (o & Ho2 & Hop). exists o. split; [done|].
  destruct He as [(xs & (c0 & Hc & Hcg) & Hin)|(f0 & x & ys & Hf & Hx & Hin)].
  - destruct (possible_content _ _ _ _ Hop Hc) as (c & Hc2 & Hcp).
    destruct (possible_content_gives _ _ _ _ Hcp Hcg) as [(c1 & H1 & H2)|(f & Hf & Hi)].
    + left. by exists c, c1, xs.
    + right. left. destruct (Hi y Hin) as (i & v & Hiv). exists f, i, v. split; [|done].
      destruct o; cbn in *; congruence.
  - right. right. destruct (possible_function _ _ _ _ Hop Hf) as (f & -> & H2). destruct (H2 x) as [v Hv2].
    exists f, v, x, ys. by rewrite <- Hv2.
Qed.

Lemma possible_at_top N p (o : wop W) : WAtTop p o -> forall p0, Possible N p p0 ->
  exists o0, AtTop p0 o0 /\ PossibleOp N o o0.
Proof.
  induction 1 as [o p Hin|q p o Hin _ IH|first q other p o Hin _ IH]; intros p0 Hp;
    destruct (possible_in_rev _ _ _ Hp _ Hin) as (o0 & Hi & Ho).
  - exists o0. split; [by apply AtTop_here|done].
  - inversion Ho as [? q0 Hq| | | | | | | | | | | | | | | | | | | | | | | | | | | | | |]; subst.
    destruct (IH q0 Hq) as (o1 & H1 & ?). exists o1. split; [by eapply AtTop_apply|done].
  - inversion Ho as [| | |? ? q0 ? Hq| | | | | | | | | | | | | | | | | | | | | | | | | | |]; subst.
    destruct (IH q0 Hq) as (o1 & H1 & ?). exists o1. split; [by eapply AtTop_either|done].
Qed.
Lemma safe_surface N evs b w e o r w' : WellNested evs -> wtyped false (snd (b w)) e ->
  WValidArgs N (snd (b w)) -> WAtTop (snd (b w)) o -> WFailing o -> GivesIn evs b w r w' ->
  exists err, r = inr err.
Proof.
  intros Hev Ht Hv Ho Hf Hg. destruct (unroll_gives N _ _ _ _ _ Hg) as (p0 & Hp & Hg0).
  destruct (possible_at_top N _ _ Ho p0 Hp) as (o0 & Ho0 & Hop).
  destruct (C29_errors_surface evs p0 e o0 Hev (possible_typed _ _ _ Hp _ _ Ht) (possible_valid _ _ _ Hv Hp) Ho0)
    as [err He].
  - destruct Hf as [(x & Hx)|[(i & Hi)|(c & c0 & x & Hc & Hpl & Hx)]].
    + left. exists x. by rewrite (possible_selector _ _ _ Hop).
    + right. left. exists i. by rewrite (possible_name _ _ _ Hop).
    + right. right.
      destruct Hc as [->|[->| ->]]; inversion Hop; subst;
        match goal with H : PossibleContent _ _ ?c1 |- _ =>
          exists c1, x; split; [auto|exact (possible_plain _ _ _ _ _ H Hpl Hx)] end.
  - exists err. exact (C29_one_result _ _ _ _ Hg0 He).
Qed.

Lemma possible_static N (o : wop W) o0 : WStaticCall o -> PossibleOp N o o0 -> StaticCall o0.
Proof.
  intros [Hc Hn Hv Hs Hr Hf] Hop. split.
  - intros c0 H. destruct (possible_content _ _ _ _ Hop H) as (c & Hc2 & Hcp).
    destruct (Hc c Hc2) as (c1 & H1 & H2). clear - Hcp H1 H2. induction Hcp as [c|f evs stop _|c c0 _ IH]; cbn in H1.
    + by subst.
    + done.
    + constructor. auto.
  - intros m Hm. destruct Hop; try discriminate; exact (Hn _ m eq_refl Hm) || (eapply Hn; [|exact Hm]; reflexivity).
  - intros v H. destruct Hop; try contradiction; exact (Hv _ v eq_refl H) || (eapply Hv; [|exact H]; reflexivity).
  - intros m Hm. apply Hs. by rewrite <- (possible_selector _ _ _ Hop).
  - assert (forall k (it : iterator W) bs, (forall w, snd (it 1 w) = None) -> PossibleItems N k it bs ->
      Nat.ltb 1 (length bs) = false) as Hit.
    { intros k it bs H Hi. apply Nat.ltb_ge. inversion Hi as [| |? ? w c w' p0 bs0 H1 H2 H3]; subst; cbn; [lia..|].
      inversion H3 as [| |? ? v c' v' p1 bs1 H4 H5 H6]; subst; cbn; [lia..|]. rewrite H in H4. discriminate. }
    destruct Hop; try done; cbn [RepeatsRaw andb]; (eapply Hit; [|eassumption]); intros w1; by apply Hr.
  - destruct (op_function o0) eqn:E; [|done]. destruct (possible_function _ _ _ _ Hop E) as (f & -> & _).
    by destruct (Hf f).
Qed.
Lemma safe_static s opts evs b w e out w' : from_str s opts = TOk evs -> List.Forall NoBang evs ->
  wtyped false (snd (b w)) e -> WNamesValid (snd (b w)) ->
  (forall o, WOccurs (snd (b w)) o -> WStaticCall o) -> GivesIn evs b w (inl out) w' ->
  exists out', from_str (display_events out) (Options None None) = TOk out' /\ SameStructure out out'.
Proof.
  intros Hs Hb Ht Hn Hc Hg. destruct (unroll_gives 0 _ _ _ _ _ Hg) as (p0 & Hp & Hg0).
  eapply C41_static_calls; [exact Hs|exact Hb|exact (possible_typed _ _ _ Hp _ _ Ht)| | |exact Hg0].
  - intros o0 i Ho Hi. destruct (possible_occurs _ _ _ Ho _ Hp) as (o & Ho2 & Hop). apply (Hn o i Ho2).
    by rewrite <- (possible_name _ _ _ Hop).
  - intros o0 Ho. destruct (possible_occurs _ _ _ Ho _ Hp) as (o & Ho2 & Hop). eapply possible_static; eauto.
Qed.
End Safe.
