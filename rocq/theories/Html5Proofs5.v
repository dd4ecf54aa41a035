(** The tokenizer of the HTML standard on texts that the parser of the library accepts. *)
From Coq Require Import String List NArith Bool Lia.
Import ListNotations.
From Verif Require Import Text Event Template SpecText SpecAttr SpecParse SpecRender SpecHtml5
  SpecCharRef SpecHtmlRead TextProofs ParseProofs Html5Proofs Html5Proofs2 ParseProofs9.
Open Scope N_scope.

(** ** Tidy markup, part by part *)

Definition Neat (s : str) : Prop :=
  (forall c, In c (unquoted false s) -> Space c -> white c = true) /\ Trimmed false s.
Definition Neatly (slice : str) : Prop :=
  (forall p c r, slice = p ++ c :: r -> In p (map lit ["<"; "</"; "<!"]%string) -> ~ Space c) /\
  Neat slice.
Definition Spaces (w : str) : Prop := forall c, In c w -> white c = true.

Lemma unquoted_out x y : ~ In 34 x -> unquoted false (x ++ y) = x ++ unquoted false y.
Proof.
  induction x as [|c x IH]; cbn [In app unquoted]; intros H; auto.
  rewrite (eqb_false c 34) by tauto. now rewrite IH by tauto.
Qed.
Lemma unquoted_in x y : ~ In 34 x -> unquoted true (x ++ y) = unquoted true y.
Proof.
  induction x as [|c x IH]; cbn [In app unquoted]; intros H; auto.
  rewrite (eqb_false c 34) by tauto. now rewrite IH by tauto.
Qed.
Lemma trimmed_app i x y : ~ In 34 x -> (Trimmed i (x ++ y) <-> Trimmed i y).
Proof.
  induction x as [|c x IH]; cbn [In app Trimmed]; intros H; [tauto|].
  rewrite (eqb_false c 34) by tauto. apply IH. tauto.
Qed.
Lemma neat_app x y : ~ In 34 x -> Neat (x ++ y) ->
  (forall c, In c x -> Space c -> white c = true) /\ Neat y.
Proof.
  intros Hx [H1 H2]. rewrite unquoted_out in H1 by auto. apply trimmed_app in H2; auto.
  split; [|split; auto].
  - intros c Hc Hs. apply (H1 c); auto. apply in_or_app; auto.
  - intros c Hc. apply H1. apply in_or_app; auto.
Qed.
Lemma blank_quote w : Blank w -> ~ In 34 w.
Proof. intros H Hc. pose proof (blank_in _ _ H Hc) as Hs. now apply space_not_delim in Hs. Qed.
Lemma neat_blank w y : Blank w -> Neat (w ++ y) -> Spaces w /\ Neat y.
Proof.
  intros Hw H. destruct (neat_app w y (blank_quote w Hw) H) as [H1 H2]. split; auto.
  intros c Hc. apply H1; auto. now apply (blank_in w).
Qed.
Lemma neat_value w v y : Blank w -> ~ In 34 v -> Neat (34 :: w ++ v ++ 34 :: y) -> w = [] /\ Neat y.
Proof.
  intros Hw Hv [H1 H2]. cbn [unquoted Trimmed] in H1, H2. change (34 =? 34) with true in H1, H2.
  cbn [negb] in H1, H2. destruct H2 as [H2 H3]. split.
  - destruct w as [|c w]; auto. exfalso. apply (H2 eq_refl). exists c, (w ++ v ++ 34 :: y).
    split; auto. now inversion Hw.
  - assert (Hq : ~ In 34 (w ++ v)) by (apply not_in_app; auto using blank_quote).
    rewrite app_assoc in H1, H3. rewrite (unquoted_in _ _ Hq) in H1. rewrite (trimmed_app _ _ _ Hq) in H3.
    cbn [unquoted Trimmed] in H1, H3. change (34 =? 34) with true in H1, H3. cbn [negb] in H1, H3.
    split; [|tauto]. intros c Hc. apply H1. right. now right.
Qed.

Section scripting.
Context (b : bool) (ref : bool -> str -> option (str * nat)) (LR : Local_ref ref).
Notation Run := (Run b ref).
Notation read_from := (read_from b ref).
Notation read_attributes := (read_attributes ref).
Notation start_token := (start_token ref).
Notation html_attributes l a := (seen_attributes ref (html_attributes l a)).
Definition emitted (g : tag) (f : bool) : list token := snd (fst (emit b g f)).
Definition next (g : tag) (f : bool) : state := fst (fst (emit b g f)).

(** ** Between the parts of a tag *)

(** The tag [g] has been read so far; white space, a slash, the end, or — if it is not in the
    middle of a name — another attribute may follow. *)
Definition Open (g : tag) (x : state) : Prop := Ready g x \/ x = SAfterValue g.
Definition Mid (g : tag) (x : state) : Prop :=
  Open g x \/ (exists g' a, x = SAttributeName g' a /\ g = add g' a []) \/
  (exists e n, x = STagName e n /\ g = Tg e n []).

Lemma mid_white g x c : Mid g x -> white c = true -> exists y, feed1 b x c = Some (y, []) /\ Ready g y.
Proof.
  intros Hx Hc.
  cut (exists y, feed b 4 x c = (y, []) /\ Ready g y).
  { intros (y & H1 & H2). exists y. split; auto. apply feed1_intro; auto. apply unref_neq. intros ->. discriminate. }
  unfold Mid, Open, Ready in *.
  destruct Hx as [[[->|(g' & a & -> & ->)]| ->]|[(g' & a & -> & ->)|(e & n & -> & ->)]].
  - exists (SBeforeAttributeName g). cbn [feed step]. rewrite Hc. auto.
  - exists (SAfterAttributeName g' a). cbn [feed step]. rewrite Hc. split; [reflexivity|]. right; eauto.
  - exists (SBeforeAttributeName g). cbn [feed step]. rewrite Hc. auto.
  - exists (SAfterAttributeName g' a). cbn [feed step]. rewrite Hc. cbn [orb]. unfold again. cbn [step]. rewrite Hc.
    split; [reflexivity|]. right; eauto.
  - exists (SBeforeAttributeName (Tg e n [])). cbn [feed step]. rewrite Hc. auto.
Qed.
Lemma ready_spaces w : Spaces w -> forall g x, Ready g x -> exists y, Run x w [] y /\ Ready g y.
Proof.
  induction w as [|c w IH]; intros Hw g x Hx.
  - exists x. split; [apply run_nil|auto].
  - destruct (mid_white g x c (or_introl (or_introl Hx)) (Hw c (or_introl eq_refl))) as (y & H1 & H2).
    destruct (IH (fun d Hd => Hw d (or_intror Hd)) g y H2) as (z & H3 & H4).
    exists z. split; auto. eapply run_cons; eauto.
Qed.
Lemma mid_spaces w : Spaces w -> forall g x, Mid g x ->
  exists y, Run x w [] y /\ Mid g y /\ (w <> [] -> Ready g y).
Proof.
  intros Hw g x Hx. destruct w as [|c w].
  - exists x. split; [apply run_nil|]. split; auto. easy.
  - destruct (mid_white g x c Hx (Hw c (or_introl eq_refl))) as (y & H1 & H2).
    destruct (ready_spaces w (fun d Hd => Hw d (or_intror Hd)) g y H2) as (z & H3 & H4).
    exists z. split; [eapply run_cons; eauto|]. split; auto. left. now left.
Qed.
Ltac gt := change (white 62) with false; change (62 =? 47) with false;
  change (62 =? 62) with true; change (62 =? 61) with false; cbn [orb].
Lemma mid_end g x : Mid g x -> Run x [62] (emitted g false) (next g false).
Proof.
  unfold Mid, Open, Ready, emitted, next.
  intros [[[->|(g' & a & -> & ->)]| ->]|[(g' & a & -> & ->)|(e & n & -> & ->)]];
    apply run_char, feed1_intro; try reflexivity; cbn [feed step]; gt; unfold again; cbn [step]; gt;
    unfold emit; destruct (t_end _); reflexivity.
Qed.
Lemma mid_slash g x : Mid g x -> Run x [47] [] (SSelfClosing g).
Proof.
  unfold Mid, Open, Ready.
  intros [[[->|(g' & a & -> & ->)]| ->]|[(g' & a & -> & ->)|(e & n & -> & ->)]];
    apply run_char; reflexivity.
Qed.
Lemma slash_end g w : Spaces w -> exists f, Run (SSelfClosing g) (w ++ [62]) (emitted g f) (next g f).
Proof.
  intros Hw. destruct w as [|c w].
  - exists true. apply run_char, feed1_intro; [|reflexivity]. cbn [feed step]. gt. unfold emitted, next, emit. destruct (t_end g); reflexivity.
  - exists false. assert (Hc := Hw c (or_introl eq_refl)).
    destruct (ready_spaces w (fun d Hd => Hw d (or_intror Hd)) g (SBeforeAttributeName g)) as (y & H1 & H2).
    { now left. }
    apply run_cons with (SBeforeAttributeName g).
    + apply feed1_intro; [|now apply unref_calm]. cbn [feed step]. assert (N : c <> 62) by (intros ->; discriminate).
      rewrite (eqb_false c 62 N). unfold again. cbn [step]. now rewrite Hc.
    + eapply run_app0; [exact H1|]. apply mid_end. left. now left.
Qed.

(** ** Attributes *)

Lemma open_name g x s : Open g x -> s <> [] -> (forall c, In c s -> Plain c) ->
  Run x s [] (SAttributeName g (lower s)).
Proof.
  intros [[->|(g' & a & -> & ->)]| ->] Hs Hp; [now apply run_before|now apply after_again|].
  destruct s as [|c s]; [easy|].
  apply run_cons with (SAttributeName g [small c]).
  - apply feed1_intro; [|now apply unref_calm].
    destruct (Hp c (or_introl eq_refl)) as (H1 & H2 & H3 & H4 & H5). cbn [feed step].
    rewrite H1, (eqb_false c 47), (eqb_false c 62) by auto. unfold again.
    cbn [step]. rewrite H1, (eqb_false c 47), (eqb_false c 62), (eqb_false c 61) by auto.
    unfold again. cbn [step]. rewrite H1, (eqb_false c 47), (eqb_false c 62), (eqb_false c 61) by auto.
    cbn [orb]. unfold go. now rewrite low_small.
  - change (lower (c :: s)) with ([small c] ++ lower s).
    apply run_attribute. intros d Hd. apply Hp. now right.
Qed.
Lemma name_equals w : Spaces w -> forall g a,
  Run (SAttributeName g a) (w ++ [61]) [] (SBeforeAttributeValue g a).
Proof.
  intros Hw g a. destruct w as [|c w]; [now apply run_char|].
  apply run_cons with (SAfterAttributeName g a).
  { apply feed1_intro; [|now apply unref_calm].
    cbn [feed step]. rewrite (Hw c (or_introl eq_refl)). cbn [orb]. unfold again. cbn [step].
    now rewrite (Hw c (or_introl eq_refl)). }
  assert (H : Spaces w) by (intros d Hd; apply Hw; now right). clear Hw.
  induction w as [|d w IH]; [now apply run_char|].
  apply run_cons with (SAfterAttributeName g a).
  - apply feed1_intro; [|now apply unref_calm]. cbn [feed step]. now rewrite (H d (or_introl eq_refl)).
  - apply IH. intros e He. apply H. now right.
Qed.
Lemma equals_quote w : Spaces w -> forall g a,
  Run (SBeforeAttributeValue g a) (w ++ [34]) [] (SValueDouble g a []).
Proof.
  intros H g a. induction w as [|d w IH]; [now apply run_char|].
  apply run_cons with (SBeforeAttributeValue g a).
  - apply feed1_intro; [|apply unref_neq; intros ->; specialize (H 38 (or_introl eq_refl)); discriminate].
    cbn [feed step]. now rewrite (H d (or_introl eq_refl)).
  - apply IH. intros e He. apply H. now right.
Qed.

Lemma attrs_word s a l r : Attrs s (a :: l) r -> ~ WordEnds s.
Proof.
  intros H [E|(c & q & E & Hc)]; inversion H as [|n w s0 l' r' [[Hn [Hw _]] _] _ _ _
    |n w1 w2 w3 v w4 s0 l' r' [[Hn [Hw _]] _] _ _ _ _ _ _]; subst; destruct n as [|x n];
    try easy; injection E as -> E; apply (Hw c); auto; now left.
Qed.
Lemma name_quote n r : Name n r -> ~ In 34 n.
Proof. intros [[_ [H _]] _] Hq. apply (H 34 Hq). unfold Delimiter. simpl. tauto. Qed.

Lemma run_attrs s l r : Attrs s l r -> Neat s -> Forall HtmlAttribute l ->
  forall g x, Mid g x -> (l <> [] -> Open g x) ->
  exists p y, s = p ++ r /\ Run x p [] y /\ Mid (read_attributes g l) y /\ Neat r.
Proof.
  induction 1 as [r|n w s l r Hn Hg Hb Hs IH|n w1 w2 w3 v w4 s l r Hn H1 H2 H3 Hv H4 Hs IH];
    intros Hneat Hl g x Hx Ho.
  - exists [], x. split; [auto|]. split; [apply run_nil|auto].
  - inversion Hl as [|? ? Ha Hl']; subst. destruct (attribute_plain _ Ha) as [He Hp]. cbn in He, Hp.
    destruct (neat_app _ _ (name_quote _ _ Hn) Hneat) as [_ N1].
    destruct (neat_blank _ _ (proj1 Hg) N1) as [W1 N2].
    assert (R1 := open_name g x n (Ho ltac:(easy)) He Hp).
    assert (M1 : Mid (add g (lower n) []) (SAttributeName g (lower n))) by (right; left; eauto).
    destruct (mid_spaces w W1 _ _ M1) as (y & R2 & M2 & O2).
    destruct (IH N2 Hl' _ y M2) as (p & z & -> & R3 & M3 & N3).
    { intros El. left. apply O2. intros ->. destruct l as [|a l]; [easy|].
      apply (attrs_word _ _ _ _ Hs). destruct Hn as [[_ [_ Hw]] _]. exact Hw. }
    exists (n ++ w ++ p), z. rewrite <- !app_assoc. split; auto. split; [|split; auto].
    eapply run_app0; [exact R1|]. eapply run_app0; [exact R2|exact R3].
  - inversion Hl as [|? ? Ha Hl']; subst. destruct (attribute_plain _ Ha) as [He Hp]. cbn in He, Hp.
    destruct Ha as (_ & _ & _ & Hz & _). cbn in Hz.
    destruct (neat_app _ _ (name_quote _ _ Hn) Hneat) as [_ N1].
    destruct (neat_blank _ _ H1 N1) as [W1 N2].
    destruct (neat_app [61] _ ltac:(intros [E|[]]; discriminate) N2) as [_ N3].
    destruct (neat_blank _ _ H2 N3) as [W2 N4].
    destruct (neat_value _ _ _ (proj1 H3) Hv N4) as [-> N5].
    destruct (neat_blank _ _ (proj1 H4) N5) as [W4 N6].
    assert (R1 := open_name g x n (Ho ltac:(easy)) He Hp).
    assert (R2 := name_equals w1 W1 g (lower n)).
    assert (R3 := equals_quote w2 W2 g (lower n)).
    assert (R4 := run_value b ref LR g (lower n) v Hv Hz []). cbn [app] in R4.
    set (v' := expand (ref true) 0 v) in *.
    destruct (mid_spaces w4 W4 (add g (lower n) v') (SAfterValue (add g (lower n) v'))) as (y & R6 & M6 & O6).
    { left. now right. }
    destruct w4 as [|c4 w4].
    + destruct (IH N6 Hl' (add g (lower n) v') (SAfterValue (add g (lower n) v'))) as (p & z & E & R7 & M7 & N7).
      { left. now right. } { intros _. now right. }
      exists (n ++ (w1 ++ [61]) ++ (w2 ++ [34]) ++ (v ++ [34]) ++ p), z.
      split; [rewrite E; repeat first [rewrite <- app_assoc | progress cbn [app]]; reflexivity|].
      split; [|split; auto].
      clear R6. repeat (eapply run_app0; [eassumption|]). exact R7.
    + destruct (IH N6 Hl' (add g (lower n) v') y M6) as (p & z & E & R7 & M7 & N7).
      { intros _. left. now apply O6. }
      exists (n ++ (w1 ++ [61]) ++ (w2 ++ [34]) ++ (v ++ [34]) ++ (c4 :: w4) ++ p), z.
      split; [rewrite E; repeat first [rewrite <- app_assoc | progress cbn [app]]; reflexivity|].
      split; [|split; auto].
      repeat (eapply run_app0; [eassumption|]). exact R7.
Qed.

(** ** Tags *)

Lemma tidy_first p c r w s : Neatly s -> s = p ++ w ++ c :: r -> Blank w ->
  In p (map lit ["<"; "</"; "<!"]%string) -> w = [].
Proof.
  intros (H & _) -> Hw Hp. destruct w as [|d w]; auto. exfalso.
  apply (H p d (w ++ c :: r) eq_refl Hp). now inversion Hw.
Qed.
Lemma neat_tail x y : ~ In 34 x -> Neat (x ++ y) -> Neat y.
Proof. intros H1 H2. now apply (neat_app x y). Qed.
Definition WrittenTag (s n : str) (a : attributes) (slash : bool) : Prop :=
  exists r w w' s', s = 60 :: w ++ n ++ w' ++ s' /\ Blank w /\ Name n (w' ++ s') /\
                    Gap w' s' /\ Attrs s' a r /\
  if slash then exists w, Blank w /\ r = 47 :: w ++ [62] else r = [62].
Lemma run_written_tag s n a slash : WrittenTag s n a slash -> Neatly s ->
  HtmlName n -> Forall HtmlAttribute a ->
  exists f, Run SData s (start_token n a f) (after_start b (lower n)) /\ (slash = false -> f = false).
Proof.
  intros (r & w & w' & s' & -> & Hw & Hn & Hg & Ha & Hr) Ht Hh Hf.
  assert (En : exists c n', n = c :: n') by (destruct n; [now destruct Hn as [[? _] _]|eauto]).
  destruct En as (c & n' & En).
  assert (w = []).
  { apply (tidy_first [60] c (n' ++ w' ++ s') w _ Ht); auto.
    - rewrite En. reflexivity.
    - now left. }
  subst w. cbn [app] in *. destruct Ht as (_ & N0).
  assert (N1 : Neat (w' ++ s')).
  { apply (neat_tail (60 :: n)); auto. intros [E|E]; [discriminate|]. now apply name_quote in Hn. }
  destruct (neat_blank _ _ (proj1 Hg) N1) as [W2 N2].
  assert (R1 := run_start b ref n Hh).
  destruct (mid_spaces w' W2 (Tg false (lower n) []) (STagName false (lower n))) as (x & R2 & M2 & O2).
  { right. right. eauto. }
  destruct (run_attrs s' a r Ha N2 Hf (Tg false (lower n) []) x M2) as (p & y & -> & R3 & M3 & N3).
  { intros El. left. apply O2. intros ->. destruct a as [|a0 a]; [easy|].
    apply (attrs_word _ _ _ _ Ha). destruct Hn as [[_ [_ Hd]] _]. exact Hd. }
  rewrite read_attributes_start in M3.
  assert (G : exists f, Run y r (start_token n a f) (after_start b (lower n)) /\ (slash = false -> f = false)).
  { destruct slash.
    - destruct Hr as (w & Hw' & ->).
      destruct (neat_blank w [62] Hw' (neat_tail [47] _ ltac:(intros [E|[]]; discriminate) N3)) as [W4 _].
      destruct (slash_end (Tg false (lower n) (html_attributes [] a)) w W4) as (f & R4).
      exists f. split; [|easy].
      apply (run_app0 b ref y [47] (SSelfClosing (Tg false (lower n) (html_attributes [] a))) (w ++ [62])); auto.
      now apply mid_slash.
    - subst r. exists false. split; auto. exact (mid_end _ _ M3). }
  destruct G as (f & R4 & Hf4). exists f. split; auto.
  replace (60 :: n ++ w' ++ p ++ r) with ((60 :: n) ++ w' ++ p ++ r) by reflexivity.
  eapply run_app0; [exact R1|]. eapply run_app0; [exact R2|]. eapply run_app0; [exact R3|exact R4].
Qed.

(** The shape of a tidy end tag. *)
Lemma tidy_end s n : EndTag s n -> Neatly s ->
  exists w, s = lit "</" ++ n ++ w ++ [62] /\ Spaces w.
Proof.
  intros (w & w' & w'' & -> & H1 & H2 & H3 & Hn) Ht.
  assert (w = []).
  { apply (tidy_first [60] 47 (w' ++ n ++ w'' ++ [62]) w _ Ht); auto. now left. }
  subst w. cbn [app] in *.
  assert (En : exists c n', n = c :: n') by (destruct n; [now destruct Hn as [[? _] _]|eauto]).
  destruct En as (c & n' & En).
  assert (w' = []).
  { apply (tidy_first [60; 47] c (n' ++ w'' ++ [62]) w' _ Ht); auto.
    - rewrite En. reflexivity.
    - right. now left. }
  subst w'. cbn [app] in *. exists w''. split; [reflexivity|].
  destruct Ht as (_ & N0).
  assert (N1 : Neat (w'' ++ [62])).
  { apply (neat_tail (60 :: 47 :: n)); auto. intros [E|[E|E]]; try discriminate. now apply name_quote in Hn. }
  now destruct (neat_blank _ _ H3 N1).
Qed.
Lemma run_written_end s n : EndTag s n -> Neatly s -> HtmlName n ->
  Run SData s [TEnd (lower n)] SData.
Proof.
  intros He Ht Hn. destruct (tidy_end s n He Ht) as (w & -> & Hw).
  change (lit "</" ++ n ++ w ++ [62]) with ((60 :: 47 :: n) ++ w ++ [62]).
  eapply run_app0; [now apply run_end_start|].
  destruct (mid_spaces w Hw (Tg true (lower n) []) (STagName true (lower n))) as (x & R2 & M2 & _).
  { right. right. eauto. }
  eapply run_app0; [exact R2|]. exact (mid_end _ _ M2).
Qed.

Lemma text_end_spaces k n m w : m <> [] -> Letters m -> lower m = n -> Spaces w ->
  Run (SRawLess k n) ([47] ++ m ++ w ++ [62]) [TEnd n] SData.
Proof.
  intros Hm Hl Hn Hw. destruct w as [|d w]; [now apply (text_end b ref k n m)|]. cbn [app].
  apply run_cons with (SRawEndTagOpen k n); [destruct k; reflexivity|].
  destruct Hl as [|c m Hc Hl]; [easy|]. cbn [app].
  apply run_cons with (SRawEndTagName k n [c]).
  { apply alpha_spec in Hc. apply feed1_intro; [|apply unref_neq, (alpha_neq c); auto].
    cbn [feed step]. rewrite Hc. unfold again. cbn [step]. now rewrite Hc. }
  eapply run_app0; [now apply run_raw_name|].
  assert (Hlow : map low ([c] ++ m) = n).
  { rewrite low_lower; [exact Hn|]. intros [H0|H0].
    - unfold Letter, char in *. lia.
    - rewrite Forall_forall in Hl. specialize (Hl 0 H0). unfold Letter in Hl. lia. }
  assert (Hd := Hw d (or_introl eq_refl)).
  apply run_cons with (SBeforeAttributeName (Tg true n [])).
  { apply feed1_intro; [|apply unref_neq; intros ->; discriminate].
    cbn [feed step]. rewrite alpha_false.
    2: { apply white_spec in Hd. unfold Letter. simpl in Hd. unfold char in *. lia. }
    rewrite Hlow, same_refl, Hd. reflexivity. }
  destruct (ready_spaces w (fun e He => Hw e (or_intror He)) (Tg true n []) (SBeforeAttributeName (Tg true n []))) as (y & R & M).
  { now left. }
  eapply run_app0; [exact R|]. apply (mid_end (Tg true n []) y). left. now left.
Qed.

(** ** Doctype *)

Lemma doctype_keyword kw : SameName kw (lit "doctype") -> Run SData (lit "<!" ++ kw) [] SDoctype.
Proof.
  intros H. change (lit "doctype") with [100; 111; 99; 116; 121; 112; 101] in H.
  repeat match goal with
         | H : SameName _ (_ :: _) |- _ => inversion H; clear H; subst
         | H : Forall2 SameLetter _ (_ :: _) |- _ => inversion H; clear H; subst
         | H : SameName _ [] |- _ => inversion H; clear H; subst
         | H : Forall2 SameLetter _ [] |- _ => inversion H; clear H; subst
         end.
  repeat match goal with
         | H : SameLetter ?x ?k |- _ =>
             assert (x = k \/ x = k - 32) by (unfold SameLetter in H; cbn; unfold char in *; lia); clear H
         end.
  eapply run_app0 with (SMarkup []).
  { repeat (eapply run_cons; [reflexivity|]). apply run_nil. }
  repeat match goal with
         | H : ?x = ?k \/ ?x = ?k - 32 |- _ =>
             assert (low x = k) by (destruct H as [-> | ->]; reflexivity);
             assert (45 <> x) by (destruct H as [-> | ->]; discriminate); clear H
         end.
  repeat (eapply run_cons;
    [apply feed1_intro; [|now apply unref_calm]; cbn [feed step app map]; 
     repeat match goal with H : low ?x = _ |- _ => progress rewrite H end;
     cbn [same]; 
     repeat match goal with H : 45 <> ?x |- _ => rewrite (eqb_false x 45) by congruence end;
     reflexivity|]).
  apply run_nil.
Qed.
Lemma doctype_spaces w : Spaces w -> Run SBeforeDoctypeName w [] SBeforeDoctypeName.
Proof.
  induction w as [|c w IH]; intros H; [apply run_nil|].
  apply run_cons with SBeforeDoctypeName.
  - apply feed1_intro; [|now apply unref_calm]. cbn [feed step]. now rewrite (H c (or_introl eq_refl)).
  - apply IH. intros d Hd. apply H. now right.
Qed.
Lemma doctype_end w : Spaces w -> forall n, Run (SDoctypeName n) (w ++ [62]) [TDoctype n] SData.
Proof.
  intros H n. destruct w as [|c w]; [now apply run_char|].
  apply run_cons with (SAfterDoctypeName n).
  { apply feed1_intro; [|now apply unref_calm]. cbn [feed step]. now rewrite (H c (or_introl eq_refl)). }
  assert (Hw : Spaces w) by (intros d Hd; apply H; now right). clear H.
  induction w as [|d w IH]; [now apply run_char|].
  apply run_cons with (SAfterDoctypeName n).
  - apply feed1_intro; [|now apply unref_calm]. cbn [feed step]. assert (Hd := Hw d (or_introl eq_refl)).
    assert (N : d <> 62) by (intros ->; discriminate). rewrite (eqb_false d 62 N). reflexivity.
  - apply IH. intros e He. apply Hw. now right.
Qed.
Lemma same_name_quote n k : SameName n k -> (forall c, In c k -> 65 <= c) -> ~ In 34 n.
Proof.
  induction 1 as [|x y n k H _ IH]; intros Hk; [easy|]. intros [->|E].
  - specialize (Hk y (or_introl eq_refl)). unfold SameLetter, char in *. lia.
  - apply IH; auto. intros c Hc. apply Hk. now right.
Qed.
Lemma run_written_doctype w kw w' c w'' :
  Neatly (lit "<!" ++ w ++ kw ++ w' ++ c ++ w'' ++ [62]) ->
  Blank w -> SameName kw (lit "doctype") -> Blank w' -> WordEnds (w' ++ c) ->
  SameName c (lit "html") -> Blank w'' ->
  Run SData (lit "<!" ++ w ++ kw ++ w' ++ c ++ w'' ++ [62]) [TDoctype (lower c)] SData.
Proof.
  intros Ht H1 H2 H3 H4 H5 H6.
  assert (Ek : exists x k, kw = x :: k) by (inversion H2; eauto).
  destruct Ek as (k0 & k' & Ek).
  assert (w = []).
  { apply (tidy_first (lit "<!") k0 (k' ++ w' ++ c ++ w'' ++ [62]) w _ Ht); auto.
    - rewrite Ek. reflexivity.
    - right. right. now left. }
  subst w. cbn [app] in *. destruct Ht as (_ & N0).
  assert (Q1 : ~ In 34 (lit "<!" ++ kw)).
  { apply not_in_app; [plain|]. apply (same_name_quote _ _ H2).
    intros d Hd. repeat (destruct Hd as [<-|Hd]; [easy|]). destruct Hd. }
  rewrite app_assoc in N0 |- *.
  assert (N1 := neat_tail _ _ Q1 N0).
  destruct (neat_blank _ _ H3 N1) as [W1 N2].
  assert (Q2 : ~ In 34 c). { apply (same_name_quote _ _ H5). intros d Hd. repeat (destruct Hd as [<-|Hd]; [easy|]). destruct Hd. }
  destruct (neat_blank _ _ H6 (neat_tail _ _ Q2 N2)) as [W2 _].
  eapply run_app0; [now apply doctype_keyword|].
  pose proof (doctype_chars c H5) as Hp.
  assert (Ew : w' <> []).
  { intros ->. cbn [app] in H4. destruct H4 as [->|(d & q & -> & Hd)]; [inversion H5|].
    pose proof (doctype_letters _ H5 d (or_introl eq_refl)) as E.
    unfold Delimiter in Hd. simpl in Hd. unfold char in *. lia. }
  destruct w' as [|x w']; [easy|]. cbn [app].
  apply run_cons with SBeforeDoctypeName.
  { apply feed1_intro; [|now apply unref_calm]. cbn [feed step]. now rewrite (W1 x (or_introl eq_refl)). }
  eapply run_app0; [apply doctype_spaces; intros d Hd; apply W1; now right|].
  destruct c as [|y c]; [inversion H5|]. cbn [app].
  apply run_cons with (SDoctypeName [small y]).
  { apply feed1_intro; [|now apply unref_calm]. destruct (Hp y (or_introl eq_refl)) as (E1 & E2 & E3 & _ & E5).
    cbn [feed step]. rewrite E1, (eqb_false y 62) by auto. unfold go. now rewrite low_small. }
  eapply run_app0; [apply run_doctype_name; intros d Hd; apply Hp; now right|].
  now apply doctype_end.
Qed.

(** ** Whole texts *)

(** What is asked of the slices here is a part of [SliceOf] and [Tidy] that is kept when
    newlines are normalized. *)
Definition Start (ev : event) (t : ident) (a : attributes) : Prop :=
  ev = OpeningTag t a \/ ev = VoidTag t a \/ ev = SelfClosedTag t a.
Inductive Written : str -> event -> Prop :=
| Wr_text s ev c : ev = Data c \/ ev = RawData c -> enc_str c = s -> Written s ev
| Wr_comment c d : enc_str d = c -> Written (lit "<!--" ++ c ++ lit "-->") (Comment d)
| Wr_doctype w kw w' c w'' d :
    Blank w -> SameName kw (lit "doctype") -> Blank w' -> WordEnds (w' ++ c) ->
    SameName c (lit "html") -> Blank w'' -> enc_str d = c ->
    Neatly (lit "<!" ++ w ++ kw ++ w' ++ c ++ w'' ++ [62]) ->
    Written (lit "<!" ++ w ++ kw ++ w' ++ c ++ w'' ++ [62]) (Doctype d)
| Wr_end s n t : EndTag s n -> id_str t = n -> Neatly s -> Written s (ClosingTag t)
| Wr_tag s n a slash ev t : WrittenTag s n a slash -> Start ev t a -> id_str t = n -> Neatly s ->
    Written s ev.
Ltac start := match goal with H : Start _ _ _ |- _ =>
  let X := fresh in destruct H as [X|[X|X]]; inversion X; clear X; subst end.
Ltac texty := match goal with H : _ = Data _ \/ _ = RawData _ |- _ =>
  destruct H as [H|H]; inversion H; clear H; subst end.

Lemma reading_start s ev t a : Start ev t a ->
  Written s ev -> HtmlName (id_str t) -> Forall HtmlAttribute a ->
  Begins (eq 60) s /\
  exists o, Run SData s o (after_start b (lower (id_str t))) /\
    map unflag o = map unflag (map (expand_token ref) (event_tokens ev)).
Proof.
  intros He Hs Hn Ha.
  assert (G : exists slash, WrittenTag s (id_str t) a slash /\ Neatly s).
  { inversion Hs as [? ? ? H|? ? ?|? ? ? ? ? ?|? ? ? ?|? ? ? ? ? ? ? H]; subst;
      start; try discriminate; try texty; try start; eauto. }
  destruct G as (slash & G & Ht). split.
  { destruct G as (? & ? & ? & ? & -> & _). eexists _, _. split; reflexivity. }
  destruct (run_written_tag _ _ _ _ G Ht Hn Ha) as (f & R & _).
  exists (start_token (id_str t) a f). split; auto.
  destruct He as [-> | [-> | ->]]; reflexivity.
Qed.
Lemma texts_slices slices texts : Forall2 Written slices texts ->
  Forall (fun ev => exists c, ev = Data c \/ ev = RawData c) texts -> concat slices = leading texts.
Proof.
  induction 1 as [|s ev slices texts H _ IH]; intros F; [reflexivity|].
  inversion F as [|? ? (c & Hc) F']; subst. cbn [concat]. rewrite (IH F').
  inversion H; subst; try (destruct Hc; discriminate); try start; try (destruct Hc; discriminate).
  texty; destruct Hc as [Hc|Hc]; inversion Hc; subst; reflexivity.
Qed.

(** Reading the text emits the tokens, up to flags of start tags. *)
Lemma reading_standard evs : Standard b evs -> forall slices,
  Forall2 Written slices evs -> forall acc, ~ In 60 acc ->
  map unflag (read_from SData 0 (acc ++ concat slices)) = map unflag (shown ref b false acc evs).
Proof.
  assert (M : forall acc s o y r o', ~ In 60 acc -> Begins (eq 60) s -> Run SData s o y ->
    map unflag o = map unflag o' -> forall t, map unflag (read_from y 0 r) = map unflag t ->
    map unflag (read_from SData 0 (acc ++ s ++ r)) = map unflag (shown_text ref false acc ++ o' ++ t)).
  { intros acc s o y r o' H1 H2 H3 H4 t H5. rewrite (read_markup b ref LR acc s o y r) by auto.
    now rewrite !map_app, H4, H5. }
  induction 1 as [|evs _ IH|ev c evs Hev _ Hc _ IH|c evs Hc _ IH|c evs Hc _ IH
                 |ev t a evs Hev Ht Ha _ IH|t evs Ht _ IH
                 |t a texts t' evs Ht Hr Ha Hx Hc Hs Ht' _ IH]; intros slices F acc Hacc;
    [inversion F; subst; cbn [concat shown]; rewrite (read_text b ref LR) by auto;
     cbn [SpecCharRef.read_from finish]; now rewrite app_nil_r|..];
    inversion F as [|s ? sl ? F0 F1]; subst; cbn [concat].
  - inversion F0; subst; [texty|start].
  - assert (Es : s = enc_str c).
    { inversion F0; subst; try (destruct Hev; discriminate); try start; try (destruct Hev; discriminate).
      destruct Hev as [-> | ->]; texty; reflexivity. }
    assert (H : ~ In 60 (acc ++ enc_str c)) by (intros H; apply in_app_or in H; tauto).
    subst s. rewrite app_assoc. destruct Hev as [-> | ->]; cbn [shown]; now apply IH.
  - assert (Es : s = lit "<!--" ++ enc_str c ++ lit "-->") by (inversion F0; subst; [texty|reflexivity|start]).
    subst s. cbn [shown]. eapply M; [auto|eexists _, _; split; reflexivity|now apply run_comment|reflexivity|].
    now apply (IH sl F1 []).
  - assert (R : Begins (eq 60) s /\ Run SData s [TDoctype (lower (enc_str c))] SData).
    { inversion F0; subst; [texty| |start]. split; [eexists _, _; split; reflexivity|]. now apply run_written_doctype. }
    destruct R as [R1 R2]. cbn [shown]. eapply M; [auto|exact R1|exact R2|reflexivity|].
    now apply (IH sl F1 []).
  - assert (Hn := after_ordinary b _ Ht). assert (Hw := ordinary_raw b _ Ht). destruct Ht as (Ht & _).
    destruct (reading_start s ev t a Hev F0 Ht Ha) as (R1 & o & R2 & R3). rewrite Hn in R2.
    specialize (IH sl F1 [] (fun x => x)). cbn [app] in IH.
    destruct Hev as [-> | [-> | ->]]; cbn [shown raw_after]; rewrite ?Hw; (eapply M; eauto).
  - assert (R : Begins (eq 60) s /\ Run SData s [TEnd (lower (id_str t))] SData).
    { inversion F0; subst; [texty| |start]. split; [|now apply run_written_end].
      match goal with H : EndTag _ _ |- _ => destruct H as (? & ? & ? & -> & _) end.
      eexists _, _. split; reflexivity. }
    destruct R as [R1 R2]. cbn [shown]. eapply M; [auto|exact R1|exact R2|reflexivity|].
    now apply (IH sl F1 []).
  - apply Forall2_app_inv_r in F1 as (sl1 & sl2 & F1 & F2 & ->).
    inversion F2 as [|s2 ? sl ? F3 F4]; subst.
    destruct Hr as (r & Hr & Hrn).
    assert (El : lower (id_str t) = r).
    { rewrite <- (lower_letters b r Hr). now apply lower_same_name. }
    destruct (after_text b r Hr) as (k & Hk & Hke & Hks).
    pose proof (texts_slices _ _ F1 Hx) as Hd1.
    rewrite concat_app, Hd1.
    destruct (reading_start s (OpeningTag t a) t a (or_introl eq_refl) F0 Ht Ha) as (R1 & o & R2 & R3).
    cbn [shown raw_after]. eapply M; [auto|exact R1|exact R2|exact R3|].
    rewrite El, Hk. rewrite shown_texts by auto. cbn [app shown concat].
    assert (He : EndTag s2 (id_str t') /\ Neatly s2).
    { inversion F3; subst; [texty| |start]. auto. }
    destruct He as [He T3].
    destruct (tidy_end _ _ He T3) as (w & -> & Hw).
    destruct (read_element_text b ref LR k r (id_str t) (47 :: (id_str t' ++ w ++ [62]) ++ concat sl)) with
      (c := leading texts) (x := SRaw k r) (p := @nil char) (o := @nil char) as (o' & Ho' & H1); auto.
    { intros E. rewrite (Hks E) in Hrn. exact Hrn. }
    { cbn. auto. }
    cbn [app] in Ho'. subst o'.
    destruct (text_letters b r Hr) as [Hl Hne].
    etransitivity; [apply f_equal; exact H1|]. cbn [app]. rewrite !map_app.
    rewrite (text_raw b ref r Hr k Hk (id_str t) _ El). f_equal.
    assert (Et' : lower (id_str t') = r).
    { rewrite <- El. now apply lower_same_name, same_name_sym. }
    assert (Hne' : id_str t' <> []) by apply Ht'.
    assert (Hl' : Letters (id_str t')).
    { apply same_name_letters with r; auto.
      apply same_name_trans with (id_str t); auto using same_name_sym. }
    pose proof (text_end_spaces k r (id_str t') w Hne' Hl' Et' Hw (concat sl)) as H4.
    cbn [app] in H4. etransitivity; [apply f_equal; exact H4|].
    cbn [map expand_token event_tokens raw_after app]. rewrite Et'. f_equal. now apply (IH sl F4 []).
Qed.
End scripting.
