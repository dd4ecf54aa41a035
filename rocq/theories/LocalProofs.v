(** Programs that work on pieces of documents. *)
From Coq Require Import String ZArith List Bool Lia.
From stdpp Require Import gmap.
From Verif Require Import Text Event Input Parse Selector Machine Template.
From Verif Require Import SpecText SpecAttr SpecParse SpecTree SpecTransform SpecOps SpecLaws SpecSelectLaws SpecLocal.
From Verif Require Import TextProofs AttrProofs AttrProofs2 Trace TraceProofs PipelineProofs TreeProofs.
From Verif Require Import ErrorProofs SelectionProofs OpProofs LawProofs LawProofs2 LawProofs3 SelectLawProofs.
Local Open Scope nat_scope.

(** ** Selections on a sequence *)

Lemma until_more tag B : forall A level el rest, d_until tag level A = Some (el, rest) ->
  d_until tag level (A ++ B) = Some (el, rest ++ B).
Proof.
  induction A as [|ev A IH]; intros level el rest; simpl; [discriminate|].
  assert (forall l, match d_until tag l A with
                    | Some (elem, rest) => Some (ev :: elem, rest) | None => None end = Some (el, rest) ->
                    match d_until tag l (A ++ B) with
                    | Some (elem, rest) => Some (ev :: elem, rest) | None => None end = Some (el, rest ++ B)) as Hgo.
  { intros l. destruct (d_until tag l A) as [[el' rest']|] eqn:E; [|discriminate].
    intros [= <- <-]. now rewrite (IH _ _ _ E). }
  destruct (is_opening_tag_for ev tag); [apply Hgo|].
  destruct (is_closing_tag_for ev tag); [|apply Hgo].
  destruct level; [|apply Hgo]. now intros [= <- <-].
Qed.
Lemma single_more m ev A st el rest B t : ElementSelector m -> matches m ev = true ->
  nest st (ev :: A) = Some [] -> d_single ev A None = (el, rest) ->
  d_single ev (A ++ B) t = (el, rest ++ B).
Proof.
  intros Hm E Hn Ed. pose proof (Hm _ E) as He.
  destruct ev; simpl in He; try (now destruct He); simpl in Ed |- *; try (injection Ed as <- <-; reflexivity).
  simpl in Hn. destruct (valid_start tag attrs); [|discriminate].
  pose proof (until_nest tag st A [] [] Hn) as Hu. simpl in Hu.
  destruct (d_until tag 0 A) as [[e r]|] eqn:Eu.
  - injection Ed as <- <-. now rewrite (until_more _ _ _ _ _ _ Eu).
  - destruct Hu as (i & _ & Hu). destruct i; discriminate Hu.
Qed.

Lemma nest1_level st ev st1 base : nest1 st ev = Some st1 ->
  adjust (length st + base) ev = inl (length st1 + base).
Proof.
  intros En. destruct ev; simpl in En |- *; try discriminate; try (now injection En as <-);
    try (destruct (valid_start tag attrs); [|discriminate]; now injection En as <-).
  destruct st as [|t0 st]; [discriminate|]. destruct (ident_eqb tag t0); [|discriminate].
  now injection En as <-.
Qed.
Lemma dsel_concat m g d B t base : ElementSelector m ->
  forall n A st calls, length A <= n -> nest st A = Some [] ->
  exists calls', dsel m g d (length st + base) calls (A ++ B) t =
  tapp (dsel m g d (length st + base) calls A None) (dsel m g d base calls' B t).
Proof.
  intros Hm. induction n as [|n IH]; intros [|ev A] st calls Hl Hn; try (simpl in Hl; lia).
  1,2: exists calls; simpl in Hn; injection Hn as ->; now rewrite dsel_nil, tapp_nil_l.
  simpl in Hl. destruct (include d (length st + base) && matches m ev) eqn:Em.
  - apply andb_true_iff in Em as [Ei E]. pose proof (single_rest ev A None) as Hr.
    destruct (d_single ev A None) as [el rest] eqn:Ed. simpl in Hr.
    destruct (matched_single _ _ _ _ _ _ Hm E Hn Ed) as (E1 & E2 & E3).
    destruct (IH rest st (S calls)) as (c' & Hc'); [lia|assumption|]. exists c'.
    change ((ev :: A) ++ B) with (ev :: A ++ B). rewrite !dsel_match by auto.
    rewrite (single_more _ _ _ _ _ _ B t Hm E Hn Ed), Ed, Hc'. symmetry. apply tapp_assoc.
  - simpl in Hn. destruct (nest1 st ev) as [st1|] eqn:En; [|discriminate].
    pose proof (nest1_level _ _ _ base En) as Ha.
    destruct (IH A st1 calls) as (c' & Hc'); [lia|assumption|]. exists c'.
    change ((ev :: A) ++ B) with (ev :: A ++ B). rewrite !(dsel_skip _ _ _ _ _ _ _ _ _ Em Ha), Hc'.
    symmetry. apply tapp_assoc.
Qed.

Lemma dsel_calls m g d t : (forall k k' x, g k x = g k' x) -> forall n evs level calls calls', length evs <= n ->
  dsel m g d level calls evs t = dsel m g d level calls' evs t.
Proof.
  intros Hg. induction n as [|n IH]; intros [|ev evs] level calls calls' Hl; try reflexivity; [simpl in Hl; lia|].
  simpl in Hl. destruct (include d level && matches m ev) eqn:Em.
  - apply andb_true_iff in Em as [Ei E]. rewrite !dsel_match by auto.
    pose proof (single_rest ev evs t) as Hr. destruct (d_single ev evs t) as [el rest]. simpl in Hr.
    rewrite (Hg calls calls'). f_equal. apply IH. lia.
  - destruct (adjust level ev) as [l|e] eqn:Ea.
    + rewrite !(dsel_skip _ _ _ _ _ _ _ _ _ Em Ea). f_equal. apply IH. lia.
    + unfold dsel. cbn [length d_select]. now rewrite Em, Ea.
Qed.

(** Selections on every level do not depend on it. *)
Lemma dsel_level m g t : ElementSelector m -> forall n evs st st' a b calls, length evs <= n ->
  nest st evs = Some st' -> (t = None -> st' = []) ->
  dsel m g false (length st + a) calls evs t = dsel m g false (length st + b) calls evs t.
Proof.
  intros Hm. induction n as [|n IH]; intros [|ev evs] st st' a b calls Hl Hn Ht; try reflexivity; [simpl in Hl; lia|].
  simpl in Hl. destruct (matches m ev) eqn:E.
  - rewrite !dsel_match by auto. pose proof (single_rest ev evs t) as Hr.
    pose proof (single_good st ev evs st' t Hn Ht) as Hs.
    destruct (d_single ev evs t) as [el rest] eqn:Ed. simpl in Hr. f_equal.
    destruct Hs as [_ [(_ & _ & Hs)|Hs]]; [apply (IH _ _ st'); auto; lia|].
    assert (rest = []) as ->; [|reflexivity].
    specialize (Hm _ E). unfold d_single in Ed. destruct ev; simpl in Hm; try (now destruct Hm);
      try (injection Ed as <- <-; now destruct Hs).
    destruct (d_until tag 0 evs) as [[? ?]|]; injection Ed as <- <-; [now destruct Hs|reflexivity].
  - simpl in Hn. destruct (nest1 st ev) as [st1|] eqn:En; [|discriminate].
    rewrite (dsel_skip _ _ _ _ (length st1 + a)), (dsel_skip _ _ _ _ (length st1 + b));
      [|exact E|now apply nest1_level|exact E|now apply nest1_level].
    f_equal. apply (IH _ _ st'); auto; lia.
Qed.

(** ** Sequences *)

Definition Splits (f : trace -> trace) : Prop :=
  forall x y, Good false x -> Good false y -> f (tapp x y) = tapp (f x) (f y).

Lemma select_splits m g d : ElementSelector m -> (forall k k' x, g k x = g k' x) ->
  (forall x, Good false x -> snd x <> None -> snd (dsel m g d 0 0 (fst x) (snd x)) <> None) ->
  Splits (fun x => dsel m g d 0 0 (fst x) (snd x)).
Proof.
  intros Hm Hg Hk [A [e|]] [B t] Hx Hy.
  - specialize (Hk (A, Some e) Hx ltac:(discriminate)). simpl in *.
    unfold tapp. simpl. destruct (dsel m g d 0 0 A (Some e)) as [out [e'|]]; [reflexivity|now destruct Hk].
  - unfold tapp at 1. simpl in *.
    destruct (dsel_concat m g d B t 0 Hm (length A) A [] 0 (Nat.le_refl _) Hx) as (c & Hc). simpl in Hc.
    rewrite Hc. f_equal. now apply (dsel_calls m g d t Hg (length B)).
Qed.

Lemma splits_comp f g e' : Splits f -> Keeps f false e' -> Splits g -> Splits (fun x => g (f x)).
Proof.
  intros Hf Hk Hg x y Hx Hy. rewrite Hf by auto. apply Hg; eapply good_false; now apply Hk.
Qed.

Scheme local_ind2 := Minimality for Local Sort Prop
  with local_call_ind2 := Minimality for LocalCall Sort Prop.
Lemma local_splits p : Local p -> forall e', typed false p e' -> WellP p -> Splits (d_pipe p).
Proof.
  apply (local_ind2 (fun p => forall e', typed false p e' -> WellP p -> Splits (d_pipe p))
                    (fun o => forall e', typed_op false o e' -> Well o -> Splits (d_op o))).
  - intros e' _ _ x y _ _. reflexivity.
  - intros o p' _ Ho _ Hp e' Ht Hw. inversion Ht; subst. apply wellp_cons in Hw as [Hw1 Hw2].
    assert (e2 = false) as -> by (eapply typed_false_op; eauto).
    apply (splits_comp (d_op o) (d_pipe p') false); [eapply Ho; eauto|now apply keeps_op|eapply Hp; eauto].
  - intros d sel b Hb Hm e' Ht Hw. destruct sel as [m|err]; [|intros x y _ _; reflexivity].
    pose proof (keeps_op _ _ _ Ht Hw) as Hk.
    apply (select_splits m (fun k => d_pipe (b k)) d).
    + now apply Hm.
    + intros k k' x. now rewrite (Hb k), (Hb k').
    + intros x Hx. apply (Hk x Hx).
  - intros e' _ _ [A [e|]] y _ _; reflexivity.
  - intros e' _ _ x y _ _. reflexivity.
  - intros p' _ Hp e' Ht Hw. inversion Ht; subst. apply (Hp e'); auto. eapply well_sub; eauto. reflexivity.
  - intros f p' o' _ Hp e' Ht Hw. inversion Ht; subst. eapply Hp; eauto. eapply well_sub; eauto. reflexivity.
Qed.

Lemma outcome_tapp x y : outcome (tapp x y) = followed_by (outcome x) (outcome y).
Proof. destruct x as [A [e|]], y as [B [e'|]]; reflexivity. Qed.

Lemma local_concat A B p e r : WellNested A -> WellNested B -> Local p -> typed false p e -> ValidArgs p ->
  (Gives (A ++ B) p r <-> exists rA rB, Gives A p rA /\ Gives B p rB /\ r = followed_by rA rB).
Proof.
  intros HA HB Hl Ht Hv. pose proof (good_template _ HA) as GA. pose proof (good_template _ HB) as GB.
  assert (Good false (A ++ B, None)) as GAB by exact (good_tapp _ _ GA GB).
  rewrite (gives_iff _ _ _ _ _ GAB Ht Hv).
  pose proof (local_splits p Hl e Ht (valid_args_well _ Hv) (A, None) (B, None) GA GB) as Hs.
  unfold tapp at 1 in Hs. cbn [fst snd] in Hs. rewrite Hs, outcome_tapp. split.
  - intros ->. do 2 eexists. split; [|split; [|reflexivity]]; eapply gives_iff; eauto.
  - intros (rA & rB & H1 & H2 & ->).
    apply (gives_iff _ _ _ _ _ GA Ht Hv) in H1. apply (gives_iff _ _ _ _ _ GB Ht Hv) in H2. now subst.
Qed.

Lemma followed_by_nothing r : followed_by r (inl []) = r.
Proof. destruct r; simpl; [now rewrite app_nil_r|reflexivity]. Qed.
Lemma local_pieces F p e r : Proper F -> F <> [] -> Local p -> typed false p e -> ValidArgs p ->
  (Gives (events F) p r <->
   exists rs, Forall2 (fun x r => Gives (tree_events x) p r) F rs /\ r = all_of rs).
Proof.
  intros HF Hne Hl Ht Hv. revert r HF Hne. induction F as [|x F IH]; intros r HF Hne; [congruence|].
  apply proper_cons in HF as [Hx HF]. clear Hne. destruct F as [|y F].
  - rewrite events_cons. change (events []) with (@nil event). rewrite app_nil_r. split.
    + intros H. exists [r]. split; [now repeat constructor|]. simpl. now rewrite followed_by_nothing.
    + intros (rs & H & ->). inversion H as [|? ? ? ? H1 H2]; subst. inversion H2; subst. simpl.
      now rewrite followed_by_nothing.
  - rewrite events_cons.
    rewrite (local_concat _ (events (y :: F)) p e r); [|now apply well_nested_tree|exists (y :: F); auto|auto|auto|auto].
    split.
    + intros (rA & rB & H1 & H2 & ->). apply IH in H2; [|assumption|discriminate].
      destruct H2 as (rs & H2 & ->). exists (rA :: rs). split; [now constructor|reflexivity].
    + intros (rs & H & ->). inversion H as [|? rA ? rs' H1 H2]; subst. exists rA, (all_of rs').
      split; [exact H1|]. split; [|reflexivity]. apply IH; [assumption|discriminate|eauto].
Qed.

(** ** Elements around *)

Definition around (ev : event) (c : ident) (x : trace) : trace :=
  tapp ([ev], None) (tapp x ([ClosingTag c], None)).
Definition Wraps (ev : event) (c : ident) (f : trace -> trace) : Prop :=
  forall x, Good false x -> f (around ev c x) = around ev c (f x).

Lemma select_wraps m g t a c : ElementSelector m -> matches m (OpeningTag t a) = false ->
  (forall x, Good false x -> snd x <> None -> snd (dsel m g false 0 0 (fst x) (snd x)) <> None) ->
  Wraps (OpeningTag t a) c (fun x => dsel m g false 0 0 (fst x) (snd x)).
Proof.
  intros Hm Ha Hk [K [e|]] Hx; unfold around.
  - specialize (Hk _ Hx ltac:(discriminate)). destruct Hx as [st Hx]. unfold tapp at 2 3. simpl in Hx, Hk |- *.
    rewrite (dsel_skip _ _ _ _ 1) by auto.
    pose proof (dsel_level m g (Some e) Hm (length K) K [] st 1 0 0 (Nat.le_refl _) Hx ltac:(discriminate)) as El.
    simpl in El. rewrite El.
    destruct (dsel m g false 0 0 K (Some e)) as [out [e'|]]; [reflexivity|now destruct Hk].
  - unfold tapp at 1 2. simpl. unfold Good in Hx. simpl in Hx.
    rewrite (dsel_skip _ _ _ _ 1) by auto. f_equal.
    destruct (dsel_concat m g false [ClosingTag c] None 1 Hm (length K) K [] 0 (Nat.le_refl _) Hx) as (n & Hn).
    pose proof (dsel_level m g None Hm (length K) K [] [] 1 0 0 (Nat.le_refl _) Hx ltac:(auto)) as El.
    simpl in Hn, El. rewrite Hn, El. f_equal. rewrite (dsel_skip _ _ _ _ 0); [now rewrite dsel_nil|simpl|reflexivity].
    destruct (matches m (ClosingTag c)) eqn:E; auto. apply Hm in E. now simpl in E.
Qed.

Scheme passes_ind2 := Minimality for PassesBy Sort Prop
  with passes_call_ind2 := Minimality for PassesByCall Sort Prop.
Lemma passes_wraps t a c p : PassesBy (OpeningTag t a) p ->
  forall e', typed false p e' -> WellP p -> Wraps (OpeningTag t a) c (d_pipe p).
Proof.
  apply (passes_ind2 (OpeningTag t a)
    (fun p => forall e', typed false p e' -> WellP p -> Wraps (OpeningTag t a) c (d_pipe p))
    (fun o => forall e', typed_op false o e' -> Well o -> Wraps (OpeningTag t a) c (d_op o))).
  - intros e' _ _ x _. reflexivity.
  - intros o p' _ Ho _ Hp e' Ht Hw x Hx. inversion Ht; subst. apply wellp_cons in Hw as [Hw1 Hw2].
    assert (e2 = false) as -> by (eapply typed_false_op; eauto). simpl.
    rewrite (Ho false H2 Hw1 x Hx). apply (Hp e'); auto. now apply (keeps_op _ _ _ H2 Hw1).
  - intros m b Hm Ha e' Ht Hw. pose proof (keeps_op _ _ _ Ht Hw) as Hk.
    apply (select_wraps m (fun k => d_pipe (b k))); auto. intros x Hx. apply (Hk x Hx).
  - intros e' _ _ x _. reflexivity.
  - intros p' _ Hp e' Ht Hw. inversion Ht; subst. apply (Hp e'); auto. eapply well_sub; eauto. reflexivity.
  - intros f p' o' _ Hp e' Ht Hw. inversion Ht; subst. eapply Hp; eauto. eapply well_sub; eauto. reflexivity.
Qed.

Lemma passes_inside t a K c p e r : ProperTree (Elem t a K c) -> PassesBy (OpeningTag t a) p ->
  typed false p e -> ValidArgs p ->
  (Gives (tree_events (Elem t a K c)) p r <->
   exists r', Gives (events K) p r' /\
     r = followed_by (inl [OpeningTag t a]) (followed_by r' (inl [ClosingTag c]))).
Proof.
  intros Hp Hl Ht Hv. assert (Proper K) as HK by (inversion Hp; subst; auto).
  pose proof (good_template _ (ex_intro _ K (conj HK eq_refl))) as GK.
  pose proof (good_template _ (well_nested_tree _ Hp)) as GT.
  rewrite (gives_iff _ _ _ _ _ GT Ht Hv).
  pose proof (passes_wraps t a c p Hl e Ht (valid_args_well _ Hv) (events K, None) GK) as Hs.
  rewrite tree_events_elem. unfold around at 1, tapp at 1 2 in Hs. simpl in Hs. rewrite Hs.
  unfold around. rewrite !outcome_tapp. change (outcome ([OpeningTag t a], None)) with (@inl _ stream_error [OpeningTag t a]).
  change (outcome ([ClosingTag c], None)) with (@inl _ stream_error [ClosingTag c]).
  split.
  - intros ->. eexists. split; [|reflexivity]. eapply gives_iff; eauto.
  - intros (r' & H1 & ->). apply (gives_iff _ _ _ _ _ GK Ht Hv) in H1. now subst.
Qed.
