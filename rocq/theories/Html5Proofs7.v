(** Rendering and normalization of newlines; examples and texts that are read otherwise. *)
From Coq Require Import String List NArith Bool Lia.
Import ListNotations.
From Verif Require Import Text Event Input Parse Selector Template SpecText SpecAttr SpecParse SpecRender
  SpecHtml5 SpecCharRef SpecHtmlRead TextProofs ParseProofs ParseProofs3 ParseProofs6 ParseProofs9 Html5Proofs Html5Proofs2 Html5Proofs5 Html5Proofs6.
From Verif Require Html5Proofs4.
Open Scope N_scope.

Ltac html_name := apply Html5Proofs4.html_name_lit; [vm_compute; eauto|vm_compute; reflexivity|vm_compute; reflexivity|vm_compute; reflexivity].
Ltac ordinary := apply Html5Proofs4.ordinary_lit; [html_name|vm_compute; reflexivity|vm_compute; reflexivity].

(** ** Rendering *)

Definition NamesOk (ev : event) : Prop :=
  match ev with
  | OpeningTag t a | SelfClosedTag t a | VoidTag t a =>
      ~ In 13 (id_str t) /\ Forall (fun x => ~ In 13 (id_str (a_name x))) a
  | ClosingTag t => ~ In 13 (id_str t)
  | _ => True
  end.
Lemma names_attributes a : Forall HtmlAttribute a -> Forall (fun x => ~ In 13 (id_str (a_name x))) a.
Proof. apply List.Forall_impl. intros x (_ & [_ H] & _). exact H. Qed.
Lemma standard_names b evs : Standard b evs -> Forall NamesOk evs.
Proof.
  induction 1 as [|evs _ IH|ev c evs Hev _ Hc _ IH|c evs Hc _ IH|c evs Hc _ IH
                 |ev t a evs Hev Ht Ha _ IH|t evs Ht _ IH
                 |t a texts t' evs Ht Hr Ha Hx Hc Hs Ht' _ IH]; auto; try (constructor; [exact I|auto]; fail).
  - constructor; auto. destruct Hev as [-> | ->]; exact I.
  - constructor; auto. destruct Ht as [(_ & [_ Ht] & _) _].
    destruct Hev as [-> | [-> | ->]]; (split; [exact Ht|now apply names_attributes]).
  - constructor; auto. apply Ht.
  - constructor; [split; [apply Ht|now apply names_attributes]|].
    apply Forall_app. split.
    + eapply List.Forall_impl; [|exact Hx]. intros ev (c & [-> | ->]); exact I.
    + constructor; auto. apply Ht'.
Qed.
Lemma names_nl ev : NamesOk (nl_event ev) -> NamesOk ev.
Proof.
  destruct ev; cbn; auto; intros [H1 H2]; (split; [exact H1|]);
    rewrite Forall_map in H2; exact H2.
Qed.
Lemma nl_display_attributes a : Forall (fun x => ~ In 13 (id_str (a_name x))) a -> forall f s, ~ Begins (eq 10) s ->
  newlines (display_attributes_loop f a ++ s) = display_attributes_loop f (map nl_attribute a) ++ newlines s.
Proof.
  induction 1 as [|x l Hx _ IH]; intros f s Hs; [reflexivity|]. cbn [map display_attributes_loop].
  rewrite <- !app_assoc. rewrite nl_plain by (destruct f; plain). f_equal.
  assert (E : newlines (display_attribute x ++ display_attributes_loop false l ++ s) =
              display_attribute (nl_attribute x) ++ newlines (display_attributes_loop false l ++ s)).
  { unfold display_attribute. rewrite <- !app_assoc. rewrite nl_plain by exact Hx. f_equal.
    cbn [nl_attribute a_value]. destruct (a_value x) as [v|]; cbn [option_map]; [|reflexivity].
    rewrite <- !app_assoc. rewrite nl_plain by plain. f_equal.
    apply (nl_end (enc_str v) 34); discriminate. }
  rewrite E. f_equal. now apply IH.
Qed.
Lemma nl_display_tag t a s : ~ In 13 (id_str t) -> Forall (fun x => ~ In 13 (id_str (a_name x))) a ->
  ~ Begins (eq 10) s -> newlines (display_tag t a ++ s) = display_tag t (map nl_attribute a) ++ newlines s.
Proof.
  intros H1 H2 H3. unfold display_tag. rewrite <- !app_assoc. rewrite nl_plain by exact H1. f_equal.
  destruct a as [|x l]; [reflexivity|].
  cbn [map]. rewrite <- !app_assoc. rewrite nl_plain by plain. f_equal.
  now apply (nl_display_attributes (x :: l)).
Qed.
Lemma nl_display_event ev : NamesOk ev -> newlines (display_event ev) = display_event (nl_event ev).
Proof.
  destruct ev as [|d|d|d|d|t a|t|t a|t a]; cbn [NamesOk display_event nl_event]; intros H; auto.
  - rewrite nl_plain by plain. f_equal. apply (nl_end (enc_str d) 62 []); discriminate.
  - rewrite nl_plain by plain. f_equal. apply (nl_end (enc_str d) 45 [45; 62]); discriminate.
  - destruct H as [H1 H2]. rewrite nl_plain by plain. f_equal.
    rewrite nl_display_tag; auto. intros (? & ? & E & <-). discriminate.
  - rewrite nl_plain by plain. f_equal. rewrite nl_plain by auto. reflexivity.
  - destruct H as [H1 H2]. rewrite nl_plain by plain. f_equal.
    rewrite nl_display_tag; auto. intros (? & ? & E & <-). discriminate.
  - destruct H as [H1 H2]. rewrite nl_plain by plain. f_equal.
    rewrite nl_display_tag; auto. intros (? & ? & E & <-). discriminate.
Qed.
Lemma nl_display evs : Forall NamesOk evs -> UndividedNewlines evs ->
  newlines (display_events evs) = display_events (map nl_event evs).
Proof.
  induction 1 as [|ev evs H _ IH]; intros U; [reflexivity|]. cbn [display_events map].
  rewrite nl_app.
  - rewrite nl_display_event by auto. f_equal. apply IH. intros p q E (a & Ea). apply (U (ev :: p) q).
    + now rewrite E.
    + exists (display_event ev ++ a). cbn [display_events]. now rewrite Ea, <- app_assoc.
  - intros p E. apply (U [ev] evs eq_refl). exists p. cbn [display_events]. now rewrite app_nil_r.
Qed.
Lemma standard_nl_display b evs : UndividedNewlines evs -> Standard b (map nl_event evs) ->
  newlines (display_events evs) = display_events (map nl_event evs).
Proof.
  intros U H. apply nl_display; auto.
  pose proof (standard_names b _ H) as F. rewrite Forall_map in F.
  eapply List.Forall_impl; [|exact F]. intros ev. apply names_nl.
Qed.
Lemma standard_newlines b evs : UndividedNewlines evs -> Standard b (map nl_event evs) ->
  tokens b (display_events evs) = flat_map event_tokens (map nl_event evs).
Proof.
  intros U H. pose proof (standard_tokens b _ H) as E. unfold tokens in E.
  rewrite newlines_id in E by (now apply (clean_standard b)).
  unfold tokens. rewrite (standard_nl_display b) by auto. exact E.
Qed.

Lemma display_ends ev : ~ Texty ev -> ev <> Noop -> exists p, display_event ev = 60 :: p ++ [62].
Proof.
  intros Ht Hn. destruct ev as [|d|d|d|d|t a|t|t a|t a]; try easy; cbn [display_event].
  - exists (lit "!doctype " ++ enc_str d). rewrite <- app_assoc. reflexivity.
  - exists (lit "!--" ++ enc_str d ++ lit "--"). rewrite <- !app_assoc. reflexivity.
  - elim Ht. eexists; left; reflexivity.
  - elim Ht. eexists; right; reflexivity.
  - exists (display_tag t a). reflexivity.
  - exists (47 :: id_str t). reflexivity.
  - exists (display_tag t a ++ lit " /"). rewrite <- app_assoc. reflexivity.
  - exists (display_tag t a). reflexivity.
Qed.
Lemma apart_undivided evs : Apart evs -> ~ In Noop evs -> UndividedNewlines evs.
Proof.
  intros A N p q E (a & Ea) Hb. destruct q as [|y q]; [destruct Hb as (? & ? & ? & _); discriminate|].
  destruct p as [|x0 p0]; [destruct a; discriminate|].
  destruct (exists_last (l := x0 :: p0) ltac:(discriminate)) as (p & x & Ep). rewrite Ep in *. clear Ep x0 p0.
  assert (Nx : x <> Noop) by (intros ->; apply N; rewrite E; apply in_or_app; left; apply in_or_app; right; now left).
  assert (Ny : y <> Noop) by (intros ->; apply N; rewrite E; apply in_or_app; right; now left).
  destruct (texty_dec x) as [Hx|Hx].
  - assert (~ Texty y) as Hy. { intros Hy. apply (A p x y q); auto. now rewrite E, <- app_assoc. }
    destruct (display_ends y Hy Ny) as (r & Er). cbn [display_events] in Hb. rewrite Er in Hb.
    destruct Hb as (? & ? & Eb & <-). discriminate.
  - destruct (display_ends x Hx Nx) as (r & Er). rewrite display_app in Ea. cbn [display_events] in Ea.
    rewrite Er, app_nil_r in Ea. change (60 :: r ++ [62]) with ((60 :: r) ++ [62]) in Ea.
    rewrite app_assoc in Ea. apply app_inj_tail in Ea as [_ Ea]. discriminate.
Qed.
Lemma parsed_undivided s o evs : from_str s o = TOk evs -> UndividedNewlines evs.
Proof.
  intros H. apply apart_undivided; [eapply from_str_apart; eauto|].
  destruct (from_str_slices _ _ _ H) as (sl & _ & F). clear H. intros X.
  induction F as [|s' ev sl evs H _ IH]; [easy|]. destruct X as [->|X]; [inversion H|auto].
Qed.

Lemma parsed_rendered b s o evs slices : from_str s o = TOk evs ->
  s = concat slices -> Forall2 SliceOf slices evs -> Forall2 Tidy slices evs ->
  Standard b (map nl_event evs) ->
  map unflag (tokens b (display_events evs)) = map unflag (tokens b s).
Proof.
  intros H E Hs Ht Hstd. rewrite (parsed_tokens b s o evs slices) by auto.
  rewrite standard_newlines; auto. eapply parsed_undivided; eauto.
Qed.

(** ** Texts that are read otherwise *)

Lemma otherwise s o evs : from_str s default_options = TOk evs ->
  (forall b, Standard b (map nl_event evs)) -> (forall b, tokens b s = o) ->
  map unflag o <> map unflag (flat_map event_tokens (map nl_event evs)) -> ReadOtherwise s o.
Proof. intros H1 H2 H3 H4. exists evs. split; auto. Qed.
Lemma standard_p b a : Forall HtmlAttribute a ->
  Standard b [OpeningTag (name (lit "p")) a; ClosingTag (name (lit "p"))].
Proof.
  intros H. eapply Std_tag; [left; reflexivity| |exact H|].
  - cbn. ordinary.
  - apply Std_end; [cbn; html_name|constructor].
Qed.
Lemma attribute_lit n v : HtmlName (lit n) -> forallb (fun c => negb (c =? 34)) (lit v) = true ->
  forallb (fun c => negb (c =? 0) && negb (c =? 13)) (lit v) = true ->
  HtmlAttribute (Attribute (name (lit n)) (Some (raw (lit v)))).
Proof. intros (H1 & H2 & _) H3 H4. split; [exact H1|]. split; [exact H2|]. now apply Html5Proofs4.eh_value. Qed.
Lemma flag_lit n : HtmlName (lit n) -> HtmlAttribute (Attribute (name (lit n)) None).
Proof. intros (H1 & H2 & _). split; [exact H1|]. split; [exact H2|exact I]. Qed.

Lemma value_otherwise : ReadOtherwise (lit "<p a="" x""></p>")
  [TStart (lit "p") [(lit "a", lit " x")] false; TEnd (lit "p")].
Proof.
  eapply otherwise; [vm_compute; reflexivity| |intros []; vm_compute; reflexivity|vm_compute; discriminate].
  intros b. apply (standard_p b [Attribute (name (lit "a")) (Some (raw (lit "x")))]).
  constructor; [|constructor]. apply attribute_lit; [html_name|reflexivity|reflexivity].
Qed.
Lemma start_otherwise : ReadOtherwise (lit "< p></p>") (chars (lit "< p>") ++ [TEnd (lit "p")]).
Proof.
  eapply otherwise; [vm_compute; reflexivity| |intros []; vm_compute; reflexivity|vm_compute; discriminate].
  intros b. now apply (standard_p b []).
Qed.
Lemma end_otherwise : ReadOtherwise (lit "<p></ p>") [TStart (lit "p") [] false; TComment (lit " p")].
Proof.
  eapply otherwise; [vm_compute; reflexivity| |intros []; vm_compute; reflexivity|vm_compute; discriminate].
  intros b. now apply (standard_p b []).
Qed.
Lemma doctype_otherwise : ReadOtherwise (lit "<! doctype html>") [TComment (lit " doctype html")].
Proof.
  eapply otherwise; [vm_compute; reflexivity| |intros []; vm_compute; reflexivity|vm_compute; discriminate].
  intros b. apply Std_doctype; [apply same_name_refl|constructor].
Qed.
Lemma space_otherwise : ReadOtherwise (lit "<p " ++ 160 :: lit "a></p>")
  [TStart (lit "p") [(160 :: lit "a", [])] false; TEnd (lit "p")].
Proof.
  eapply otherwise; [vm_compute; reflexivity| |intros []; vm_compute; reflexivity|vm_compute; discriminate].
  intros b. apply (standard_p b [Attribute (name (lit "a")) None]).
  constructor; [|constructor]. apply flag_lit. html_name.
Qed.

(** ** An example *)

Definition er_slices : list str :=
  [lit "<!DOCTYPE" ++ [13; 10] ++ lit "html >";
   lit "<P" ++ [13; 10] ++ lit " A = ""1" ++ [13; 10] ++ lit "2""b  >";
   lit "x" ++ 13 :: lit "y"; lit "<br / >"; lit "</p" ++ 9 :: lit ">"].
Definition er_events : list event :=
  [Doctype (raw (lit "html"));
   OpeningTag (name (lit "P"))
     [Attribute (name (lit "A")) (Some (raw (lit "1" ++ [13; 10] ++ lit "2"))); Attribute (name (lit "b")) None];
   Data (raw (lit "x" ++ 13 :: lit "y")); VoidTag (name (lit "br")) []; ClosingTag (name (lit "p"))].

Lemma spells_parse s e ev cl : from_str (s ++ 60 :: e) (Options None None) = TOk [ev; ClosingTag cl] ->
  ~ In 60 e -> SliceOf s ev /\ Spells (60 :: e) (ClosingTag cl).
Proof.
  intros P H60. destruct (from_str_slices _ _ _ P) as (sl & E & F).
  inversion F as [|a ? l ? Ha F2]; subst. inversion F2 as [|b ? l2 ? Hb F3]; subst. inversion F3; subst.
  cbn [concat] in E. rewrite app_nil_r in E. cbn [SliceOf] in Hb.
  pose proof Hb as Hb'. inversion Hb' as [| | |? n He| | |]; subst. destruct (end_tag_inside _ _ He) as (e' & -> & H60').
  assert (Z : forall (a b x y : str), a ++ 60 :: b = x ++ 60 :: y -> ~ In 60 b -> ~ In 60 y -> b = y).
  { clear. induction a as [|c a IH]; intros b [|d x] y E Hb Hy; simpl in E.
    - congruence.
    - injection E as _ E. exfalso. apply Hb. rewrite E. apply in_elt.
    - injection E as _ E. exfalso. apply Hy. rewrite <- E. apply in_elt.
    - injection E as -> E. eauto. }
  assert (X : e = e') by (apply (Z s e a e'); auto). subst e'.
  apply app_inv_tail in E. subst a. auto.
Qed.
Lemma spells_one s ev : from_str s (Options None None) = TOk [ev] -> SliceOf s ev.
Proof.
  intros P. destruct (from_str_slices _ _ _ P) as (sl & -> & F).
  inversion F as [|a ? l ? Ha F2]; subst. inversion F2; subst. cbn [concat]. now rewrite app_nil_r.
Qed.
Lemma er_spells : Forall2 SliceOf er_slices er_events.
Proof.
  assert (forall s e ev cl, from_str (s ++ 60 :: e) (Options None None) = TOk [ev; ClosingTag cl] ->
    ~ In 60 e -> SliceOf s ev) as Ho by (intros; eapply spells_parse; eauto).
  apply Forall2_cons; [apply spells_one; vm_compute; reflexivity|].
  apply Forall2_cons; [|apply Forall2_cons; [apply spells_one; vm_compute; reflexivity|
    apply Forall2_cons; [apply spells_one; vm_compute; reflexivity|apply Forall2_cons; [|constructor]]]].
  - apply (Ho _ (lit "/p>") _ (name (lit "p"))); [vm_compute; reflexivity|plain].
  - apply (spells_parse (lit "<p>") (lit "/p" ++ 9 :: lit ">") (OpeningTag (name (lit "p")) [])); [vm_compute; reflexivity|plain].
Qed.
Definition space (c : char) : bool :=
  ((9 <=? c) && (c <=? 13)) || ((8192 <=? c) && (c <=? 8202)) ||
  existsb (N.eqb c) [32; 133; 160; 5760; 8232; 8233; 8239; 8287; 12288].
Lemma space_dec c : space c = true <-> Space c.
Proof.
  unfold space, Space. rewrite !orb_true_iff, !andb_true_iff, !N.leb_le, existsb_exists.
  split.
  - intros [[H|H]|(x & H1 & H2)]; auto. apply N.eqb_eq in H2. subst x. auto.
  - intros [H|[H|H]]; auto. right. exists c. split; auto. apply N.eqb_refl.
Qed.
Fixpoint trimmed (i : bool) (s : str) : bool :=
  match s with
  | [] => true
  | c :: s => if c =? 34 then (i || match s with d :: _ => negb (space d) | [] => true end) && trimmed (negb i) s
              else trimmed i s
  end.
Lemma trimmed_dec s : forall i, trimmed i s = true -> Trimmed i s.
Proof.
  induction s as [|c s IH]; intros i; cbn [trimmed Trimmed]; auto. destruct (c =? 34); auto.
  rewrite andb_true_iff, orb_true_iff. intros [H1 H2]. split; auto.
  intros ->. destruct H1 as [H1|H1]; [discriminate|]. intros (d & r & -> & Hd).
  apply space_dec in Hd. rewrite Hd in H1. discriminate.
Qed.
Lemma tidy_dec s : forallb (fun c => negb (space c) || existsb (N.eqb c) [9; 10; 12; 13; 32]) (unquoted false s) = true ->
  trimmed false s = true ->
  match s with
  | 60 :: 47 :: c :: _ | 60 :: 33 :: c :: _ => space c = false
  | 60 :: c :: _ => space c = false
  | _ => False
  end -> TidyMarkup s.
Proof.
  intros H1 H2 H3. split; [|split].
  - intros p c r -> Hp Hc. apply space_dec in Hc.
    destruct Hp as [<-|[<-|[<-|[]]]]; cbn in H3; try congruence.
    destruct (N.eq_dec c 47) as [->|N1]; [discriminate|]. destruct (N.eq_dec c 33) as [->|N2]; [discriminate|].
    assert (H4 : space c = false); [|congruence].
    clear -H3 N1 N2. destruct c as [|c]; auto.
    repeat (destruct c as [c|c|]; auto; try (now elim N1); try (now elim N2)).
  - intros c Hc Hs. rewrite forallb_forall in H1. specialize (H1 c Hc). apply space_dec in Hs.
    rewrite Hs in H1. cbn [negb orb] in H1. apply existsb_exists in H1 as (x & Hx & E).
    apply N.eqb_eq in E. subst x. exact Hx.
  - now apply trimmed_dec.
Qed.
Lemma er_tidy : Forall2 Tidy er_slices er_events.
Proof.
  repeat (apply Forall2_cons; [first [exact I|apply tidy_dec; vm_compute; reflexivity]|]). constructor.
Qed.
Lemma er_parsed : from_str (concat er_slices) default_options = TOk er_events.
Proof. vm_compute. reflexivity. Qed.
Lemma er_standard b : Standard b (map nl_event er_events).
Proof.
  apply Std_doctype; [apply same_name_refl|].
  eapply Std_tag; [left; reflexivity|cbn; ordinary| |].
  { constructor; [|constructor; [|constructor]].
    - assert (HtmlName (lit "A")) as (H1 & H2 & _) by html_name. split; [exact H1|]. split; [exact H2|].
      cbn [a_value nl_attribute option_map nl enc_str raw]. split; [plain|apply Html5Proofs4.clean_dec; reflexivity].
    - apply flag_lit. html_name. }
  eapply Std_text; [left; reflexivity|apply Html5Proofs4.clean_dec; reflexivity|plain|].
  eapply Std_tag; [right; left; reflexivity|cbn; ordinary|constructor|].
  apply Std_end; [cbn; html_name|constructor].
Qed.
Lemma er_tokens b : map unflag (tokens b (concat er_slices)) =
  [TDoctype (lit "html"); TStart (lit "p") [(lit "a", lit "1" ++ 10 :: lit "2"); (lit "b", [])] false]
  ++ chars (lit "x" ++ 10 :: lit "y") ++ [TStart (lit "br") [] false; TEnd (lit "p")].
Proof.
  rewrite (parsed_tokens b _ _ _ _ er_parsed eq_refl er_spells er_tidy (er_standard b)). reflexivity.
Qed.
