(** The tokenizer of the HTML standard on rendered templates. *)
From Coq Require Import String List NArith Bool Lia Wf_nat.
Import ListNotations.
From Verif Require Import Text Event SpecText SpecAttr SpecParse SpecRender SpecHtml5 SpecCharRef TextProofs.
Open Scope N_scope.

(** ** Booleans *)

Lemma same_spec a b : same a b = true <-> a = b.
Proof.
  revert b; induction a as [|x a IH]; intros [|y b]; simpl; split; intros H; try easy.
  - apply andb_true_iff in H as [H1 H2]. apply N.eqb_eq in H1. apply IH in H2. congruence.
  - injection H as -> ->. rewrite N.eqb_refl; simpl. now apply IH.
Qed.
Lemma same_refl a : same a a = true.
Proof. now apply same_spec. Qed.
Lemma same_false a b : same a b = false <-> a <> b.
Proof.
  rewrite <- not_true_iff_false, same_spec. tauto.
Qed.

Lemma eqb_false (c d : N) : c <> d -> (c =? d) = false.
Proof. apply N.eqb_neq. Qed.

Lemma upper_spec c : upper c = true <-> 65 <= c <= 90.
Proof. unfold upper. rewrite andb_true_iff, !N.leb_le. lia. Qed.
Lemma alpha_spec c : alpha c = true <-> Letter c.
Proof.
  unfold alpha, Letter. rewrite orb_true_iff, upper_spec, andb_true_iff, !N.leb_le. lia.
Qed.
Lemma white_spec c : white c = true <-> In c [9; 10; 12; 32].
Proof.
  unfold white. rewrite !orb_true_iff, !N.eqb_eq. simpl. intuition congruence.
Qed.
Lemma white_false c : ~ In c [9; 10; 12; 32] -> white c = false.
Proof. intros H. apply not_true_iff_false. now rewrite white_spec. Qed.
Lemma alpha_false c : ~ Letter c -> alpha c = false.
Proof. intros H. apply not_true_iff_false. now rewrite alpha_spec. Qed.
Lemma nul_id c : c <> 0 -> nul c = c.
Proof. intros H. unfold nul. now rewrite (eqb_false c 0). Qed.
Lemma low_small c : c <> 0 -> low c = small c.
Proof. intros H. unfold low, small. destruct (upper c); auto using nul_id. Qed.
Lemma low_lower s : ~ In 0 s -> map low s = lower s.
Proof.
  induction s as [|c s IH]; simpl; intros H; auto.
  rewrite low_small by tauto. rewrite IH; tauto.
Qed.

(** ** Consuming a character takes at most three steps *)

Definition rank (s : state) (c : char) : nat :=
  match s with
  | STagOpen | SEndTagOpen | SBeforeAttributeName _ | SBeforeAttributeValue _ _
  | SMarkup _ | SCommentStart | SCommentStartDash | SCommentLess _ | SCommentLessBang _
  | SCommentEndDash _ | SCommentEnd _ | SCommentEndBang _ | SDoctype
  | SEscapeStart _ | SEscapeStartDash _ | SDoubleLess _ | SDoubleEscapeEnd _ _ => 1
  | SAfterValue _ | SSelfClosing _ | SCommentLessBangDash _ | SCommentLessBangDashDash _
  | SRawLess _ _ | SRawEndTagOpen _ _ => 2
  | SAttributeName _ _ => if white c || (c =? 47) || (c =? 62) then 1 else 0
  | SAfterAttributeName _ _ => if white c || (c =? 47) || (c =? 61) || (c =? 62) then 0 else 1
  | SRawEndTagName _ _ _ => if alpha c then 0 else 1
  | SDoubleEscapeStart _ _ => if alpha c then 0 else 1
  | _ => 0
  end%nat.

Lemma rank_step b s c s' o : step b s c = (s', o, true) -> (rank s' c < rank s c)%nat.
Proof.
  destruct s as [| | | | | | | | | | | | | | | | | | | | | | | | | | | | | |k|k|k|k| | | | | | | | | |]; cbn [step rank];
    try destruct k;
    unfold go, again, out, out_again, comment, doctype, emit;
    repeat match goal with
           | |- context [if ?b then _ else _] => destruct b eqn:?; cbn [orb]
           end; intros H; inversion H; subst; cbn [rank]; try lia;
    repeat match goal with
           | H : _ = true |- _ => progress rewrite H in *
           | H : _ = false |- _ => progress rewrite H in *
           end; cbn [orb andb negb] in *; try discriminate; try lia.
  all: repeat match goal with
           | H : (_ || _)%bool = false |- _ => apply orb_false_iff in H; destruct H
           | H : (_ || _)%bool = true |- _ => apply orb_true_iff in H
           | H : _ \/ _ |- _ => destruct H
           | H : ?x = _ |- context [?x] => rewrite H
           | H : ?x = false, K : ?x = true |- _ => rewrite H in K; discriminate
           end; cbn [orb andb]; try lia.
  all: now rewrite ?orb_true_r; cbn [orb]; auto.
Qed.
Lemma rank_small s c : (rank s c <= 2)%nat.
Proof. destruct s; cbn [rank]; try lia; repeat match goal with |- context [if ?b then _ else _] => destruct b end; lia. Qed.
Lemma feed_more b k : forall s c, (rank s c < k)%nat -> forall j, feed b (k + j) s c = feed b k s c.
Proof.
  induction k as [|k IH]; intros s c Hr j; [lia|]. cbn [feed Nat.add].
  destruct (step b s c) as [[s' o] r] eqn:Es. destruct r; auto.
  apply rank_step in Es. rewrite IH by lia. reflexivity.
Qed.

Lemma feed_enough b s c j : feed b (4 + j) s c = feed b 4 s c.
Proof. apply feed_more. pose proof (rank_small s c). lia. Qed.

(** Characters of names *)
Definition Plain (c : char) : Prop := white c = false /\ c <> 47 /\ c <> 62 /\ c <> 61 /\ c <> 0.

Lemma writable_plain n c : Writable n -> Clean n -> In c n -> Plain c.
Proof.
  intros [[_ V] D] [Z _] Hc. destruct (V c Hc) as (_ & Hs & Hf).
  repeat split; try (intros ->; apply Hf; unfold ForbiddenChar; simpl; tauto).
  - apply white_false. intros H. apply Hs. unfold AsciiSpace. simpl in H. unfold char in *. lia.
Qed.
Lemma attribute_plain a : HtmlAttribute a ->
  id_str (a_name a) <> [] /\ forall c, In c (id_str (a_name a)) -> Plain c.
Proof.
  intros (H1 & H2 & _). split; [apply H1|]. intros c Hc. now apply (writable_plain _ c H1 H2).
Qed.

(** ** Reading a piece of text *)

(** States in which no reference is replaced, even if the "&" is consumed again. *)
Definition calm (x : state) : bool :=
  match x with
  | SData | STagOpen | SBeforeAttributeValue _ _
  | SValueDouble _ _ _ | SValueSingle _ _ _ | SValueUnquoted _ _ _
  | SRaw Rcdata _ | SRawLess Rcdata _ | SRawEndTagOpen Rcdata _ | SRawEndTagName Rcdata _ _ => false
  | _ => true
  end.
Definition unref (x : state) (c : char) : bool := negb (c =? 38) || calm x.
Lemma calm_takes x : calm x = true -> takes x = None.
Proof. destruct x as [| | | | | | | | | | | | | | | | | | | | | | | | | | | | | |k| | | | | | | | | | | | |]; try destruct k; easy. Qed.
Lemma calm_step b x y o : step b x 38 = (y, o, true) -> calm x = true -> calm y = true.
Proof.
  destruct x as [| | | | | | | | | | | | | | | | | | | | | | | | | | | | | |k|k|k|k| | | | | | | | | |]; try destruct k; cbn [step calm]; try easy;
    repeat match goal with
           | |- context [if ?t then _ else _] => destruct t
           end; unfold go, again, out, out_again, comment, doctype, emit;
    repeat match goal with
           | |- context [if ?t then _ else _] => destruct t
           end; intros H; inversion H; subst; auto.
Qed.

(** How characters after an "&" are replaced does not depend on what comes after a quote or
    after "<". *)
Definition Local_ref (ref : bool -> str -> option (str * nat)) : Prop :=
  (forall a t x k, ref a t = Some (x, k) -> (k <= length t)%nat) /\
  (forall a t c r, In c [34; 60] -> ref a (t ++ c :: r) = ref a t).
(** References that are not replaced. *)
Definition verbatim (a : bool) (s : str) : option (str * nat) := None.
Lemma verbatim_local : Local_ref verbatim.
Proof. split; [discriminate|reflexivity]. Qed.
Lemma verbatim_expand a k s : expand (verbatim a) 0 s = s /\ (k = O -> expand (verbatim a) k s = s).
Proof.
  assert (H : expand (verbatim a) 0 s = s).
  { induction s as [|c s IH]; cbn [expand verbatim]; auto. destruct (c =? 38); now rewrite IH. }
  split; auto. now intros ->.
Qed.
Lemma verbatim_feed b k : forall x c r, feed_ref b verbatim k x c r = (feed b k x c, O).
Proof.
  induction k as [|k IH]; intros x c r; cbn [feed_ref feed]; auto.
  replace (if c =? 38 then match takes x with Some a => verbatim a r | None => None end else None)
    with (@None (str * nat)) by (destruct (c =? 38); auto; destruct (takes x); auto).
  destruct (step b x c) as [[y o] t]. destruct t; auto. rewrite IH. destruct (feed b k y c); auto.
Qed.
Lemma verbatim_read b s : forall x, read_from b verbatim x 0 s = tokens_from b x s.
Proof.
  induction s as [|c s IH]; intros x; cbn [read_from tokens_from]; auto.
  rewrite verbatim_feed. destruct (feed b 4 x c) as [y o]. now rewrite IH.
Qed.

Section scripting.
Context (b : bool) (ref : bool -> str -> option (str * nat)).

Lemma unref_feed k : forall x c r, unref x c = true -> feed_ref b ref k x c r = (feed b k x c, O).
Proof.
  induction k as [|k IH]; intros x c r H; cbn [feed_ref feed]; auto.
  replace (if c =? 38 then match takes x with Some a => ref a r | None => None end else None)
    with (@None (str * nat)).
  2: { unfold unref in H. destruct (c =? 38); auto. cbn in H. now rewrite (calm_takes x H). }
  destruct (step b x c) as [[y o] t] eqn:Es. destruct t; auto. rewrite IH; [destruct (feed b k y c); auto|].
  unfold unref in *. destruct (c =? 38) eqn:E; auto. apply N.eqb_eq in E. subst c. cbn in *.
  now apply (calm_step b x y o).
Qed.

(** Reading [s] in state [x] emits [o] and leads to state [y]. *)
Definition Run (x : state) (s : str) (o : list token) (y : state) : Prop :=
  forall r, read_from b ref x 0 (s ++ r) = o ++ read_from b ref y 0 r.
(** Consuming a character that is not the "&" of a reference *)
Definition feed1 (x : state) (c : char) : option (state * list token) :=
  if unref x c then Some (feed b 4 x c) else None.
Lemma feed1_intro x c y o : feed b 4 x c = (y, o) -> unref x c = true -> feed1 x c = Some (y, o).
Proof. intros H1 H2. unfold feed1. now rewrite H2, H1. Qed.

Lemma run_nil x : Run x [] [] x.
Proof. intros r. reflexivity. Qed.
Lemma run_app x s1 o1 y s2 o2 z : Run x s1 o1 y -> Run y s2 o2 z -> Run x (s1 ++ s2) (o1 ++ o2) z.
Proof. intros H1 H2 r. now rewrite <- app_assoc, H1, H2, app_assoc. Qed.
Lemma run_app0 x s1 y s2 o2 z : Run x s1 [] y -> Run y s2 o2 z -> Run x (s1 ++ s2) o2 z.
Proof. apply (run_app _ _ []). Qed.
Lemma run_char x c o y : feed1 x c = Some (y, o) -> Run x [c] o y.
Proof.
  unfold feed1. intros H r. destruct (unref x c) eqn:E; [|discriminate].
  assert (H' : feed b 4 x c = (y, o)) by congruence.
  cbn [app]. change (read_from b ref x 0 (c :: r)) with
    (let '(y, o, j) := feed_ref b ref 4 x c r in o ++ read_from b ref y j r).
  now rewrite unref_feed, H'.
Qed.
Lemma run_cons x c y s o z : feed1 x c = Some (y, []) -> Run y s o z -> Run x (c :: s) o z.
Proof. intros H1 H2. apply (run_app0 x [c] y s); auto using run_char. Qed.
Lemma run_cons_out x c o y s o' z :
  feed1 x c = Some (y, o) -> Run y s o' z -> Run x (c :: s) (o ++ o') z.
Proof. intros H1 H2. apply (run_app x [c] o y s); auto using run_char. Qed.
Lemma unref_calm x c : calm x = true -> unref x c = true.
Proof. unfold unref. intros ->. apply orb_true_r. Qed.
Lemma unref_neq x c : c <> 38 -> unref x c = true.
Proof. unfold unref. intros H. now rewrite (eqb_false c 38). Qed.

(** Names *)
Lemma step_name e n c : Plain c -> feed b 4 (STagName e n) c = (STagName e (n ++ [small c]), []).
Proof.
  intros (H1 & H2 & H3 & _ & H5). cbn [feed step]. rewrite H1, (eqb_false c 47), (eqb_false c 62) by auto.
  unfold go. now rewrite low_small.
Qed.
Lemma run_name e s : (forall c, In c s -> Plain c) ->
  forall n, Run (STagName e n) s [] (STagName e (n ++ lower s)).
Proof.
  induction s as [|c s IH]; intros H n.
  - simpl. rewrite app_nil_r. apply run_nil.
  - apply run_cons with (STagName e (n ++ [small c])); [apply feed1_intro; [apply step_name, H; now left|now apply unref_calm]|].
    cbn [lower map]. replace (n ++ small c :: map small s) with ((n ++ [small c]) ++ lower s)
      by (rewrite <- app_assoc; reflexivity).
    apply IH. intros d Hd. apply H. now right.
Qed.
Lemma step_attribute g a c :
  Plain c -> feed b 4 (SAttributeName g a) c = (SAttributeName g (a ++ [small c]), []).
Proof.
  intros (H1 & H2 & H3 & H4 & H5). cbn [feed step].
  rewrite H1, (eqb_false c 47), (eqb_false c 62), (eqb_false c 61) by auto. cbn [orb].
  unfold go. now rewrite low_small.
Qed.
Lemma run_attribute g s : (forall c, In c s -> Plain c) ->
  forall a, Run (SAttributeName g a) s [] (SAttributeName g (a ++ lower s)).
Proof.
  induction s as [|c s IH]; intros H a.
  - simpl. rewrite app_nil_r. apply run_nil.
  - apply run_cons with (SAttributeName g (a ++ [small c])); [apply feed1_intro; [apply step_attribute, H; now left|now apply unref_calm]|].
    cbn [lower map]. replace (a ++ small c :: map small s) with ((a ++ [small c]) ++ lower s)
      by (rewrite <- app_assoc; reflexivity).
    apply IH. intros d Hd. apply H. now right.
Qed.
Lemma run_before g s : s <> [] -> (forall c, In c s -> Plain c) ->
  Run (SBeforeAttributeName g) s [] (SAttributeName g (lower s)).
Proof.
  intros Hs H. destruct s as [|c s]; [easy|].
  apply run_cons with (SAttributeName g [small c]).
  - apply feed1_intro; [|now apply unref_calm].
    destruct (H c (or_introl eq_refl)) as (H1 & H2 & H3 & H4 & H5). cbn [feed step].
    rewrite H1, (eqb_false c 47), (eqb_false c 62), (eqb_false c 61) by auto. unfold again.
    cbn [step]. rewrite H1, (eqb_false c 47), (eqb_false c 62), (eqb_false c 61) by auto.
    cbn [orb]. unfold go. now rewrite low_small.
  - change (lower (c :: s)) with ([small c] ++ lower s).
    apply run_attribute. intros d Hd. apply H. now right.
Qed.
(** Values *)
Context (LR : Local_ref ref).
Lemma read_skip x k : forall s r, (k <= length s)%nat ->
  read_from b ref x k (s ++ r) = read_from b ref x 0 (skipn k s ++ r).
Proof.
  induction k as [|k IH]; intros s r H; [reflexivity|].
  destruct s as [|c s]; cbn [length] in H; [lia|]. cbn [app skipn]. cbn [read_from]. apply IH. lia.
Qed.
Lemma expand_skip f k : forall s, expand f k s = expand f 0 (skipn k s).
Proof.
  induction k as [|k IH]; intros s; [reflexivity|]. destruct s as [|c s]; [reflexivity|].
  cbn [skipn]. rewrite <- IH. reflexivity.
Qed.
Lemma read_cons x c t : read_from b ref x 0 (c :: t) =
  (let '(y, o, j) := feed_ref b ref 4 x c t in o ++ read_from b ref y j t).
Proof. reflexivity. Qed.
Lemma read_unref x c t y o : feed b 4 x c = (y, o) -> unref x c = true ->
  read_from b ref x 0 (c :: t) = o ++ read_from b ref y 0 t.
Proof. intros H1 H2. rewrite read_cons, unref_feed by auto. now rewrite H1. Qed.
Lemma read_taken x a t s k : takes x = Some a -> ref a t = Some (s, k) ->
  read_from b ref x 0 (38 :: t) = snd (put x s) ++ read_from b ref (fst (put x s)) k t.
Proof.
  intros H1 H2. rewrite read_cons.
  replace (feed_ref b ref 4 x 38 t) with (put x s, k).
  - destruct (put x s); reflexivity.
  - unfold feed_ref. change (38 =? 38) with true. cbv iota. rewrite H1, H2. reflexivity.
Qed.
Lemma read_untaken x a t y o : takes x = Some a -> ref a t = None -> step b x 38 = (y, o, false) ->
  read_from b ref x 0 (38 :: t) = o ++ read_from b ref y 0 t.
Proof.
  intros H1 H2 H3. rewrite read_cons.
  replace (feed_ref b ref 4 x 38 t) with (y, o, O); [reflexivity|].
  unfold feed_ref. change (38 =? 38) with true. cbv iota. rewrite H1, H2, H3. reflexivity.
Qed.
Lemma run_value g a s : ~ In 34 s -> ~ In 0 s ->
  forall v, Run (SValueDouble g a v) (s ++ [34]) [] (SAfterValue (add g a (v ++ expand (ref true) 0 s))).
Proof.
  intros H H0 v r. cbn [app]. remember (length s) as m eqn:Em. revert s Em H H0 v.
  induction m as [m IH] using lt_wf_ind. intros s -> H H0 v. destruct s as [|c s].
  - cbn [app expand]. rewrite app_nil_r. reflexivity.
  - cbn [In] in H, H0.
    assert (G : forall d, read_from b ref (SValueDouble g a (v ++ [d])) 0 ((s ++ [34]) ++ r) =
      read_from b ref (SAfterValue (add g a (v ++ d :: expand (ref true) 0 s))) 0 r).
    { intros d. rewrite (IH (length s)); [|cbn; lia|auto|tauto|tauto].
      now rewrite <- app_assoc. }
    assert (E : feed b 4 (SValueDouble g a v) c = (SValueDouble g a (v ++ [c]), [])).
    { cbn [feed step]. rewrite (eqb_false c 34) by tauto. unfold go. now rewrite nul_id by tauto. }
    cbn [app expand]. destruct (c =? 38) eqn:E38.
    + apply N.eqb_eq in E38. subst c.
      assert (Er : ref true ((s ++ [34]) ++ r) = ref true s).
      { rewrite <- app_assoc. cbn [app]. apply LR. now left. }
      destruct (ref true s) as [[x k]|] eqn:Es.
      * rewrite (read_taken _ true _ x k) by auto. cbn [put fst snd app].
        assert (Hk : (k <= length s)%nat) by (now apply (proj1 LR true s x k)).
        rewrite <- app_assoc, read_skip by auto. rewrite app_assoc.
        rewrite (IH (length (skipn k s))); [|rewrite skipn_length; cbn; lia|auto| |].
        -- now rewrite <- app_assoc, (expand_skip _ k).
        -- intros Hi. apply H. right. rewrite <- (firstn_skipn k s). apply in_or_app. now right.
        -- intros Hi. apply H0. right. rewrite <- (firstn_skipn k s). apply in_or_app. now right.
      * rewrite (read_untaken _ true _ (SValueDouble g a (v ++ [38])) []) by auto. apply G.
    + rewrite (read_unref _ c _ _ _ E) by (unfold unref; now rewrite E38). apply G.
Qed.

(** The state in which the attributes [l] of [g] have been read. *)
Definition add_attribute (g : tag) (a : attribute) : tag :=
  add g (lower (id_str (a_name a))) match a_value a with Some v => expand (ref true) 0 (enc_str v) | None => [] end.
Definition read_attributes (g : tag) (l : attributes) : tag := fold_left add_attribute l g.

(** After one attribute, either in the state after the value or in the name. *)
Definition AfterOne (g : tag) (a : attribute) (x : state) : Prop :=
  x = SAfterValue (add_attribute g a) \/
  (x = SAttributeName g (lower (id_str (a_name a))) /\ a_value a = None).
Lemma run_one g a : HtmlAttribute a ->
  exists x, Run (SBeforeAttributeName g) (display_attribute a) [] x /\ AfterOne g a x.
Proof.
  intros Ha. destruct (attribute_plain a Ha) as [Hn Hp]. destruct Ha as (_ & _ & Hv).
  unfold display_attribute, AfterOne, add_attribute. destruct (a_value a) as [v|].
  - eexists; split; [|left; reflexivity]. destruct Hv as [Hv [Hz _]].
    eapply run_app0; [apply run_before; auto|]. cbn [app].
    eapply run_cons; [reflexivity|]. eapply run_cons; [reflexivity|].
    exact (run_value _ _ _ Hv Hz []).
  - rewrite app_nil_r. eexists; split; [apply run_before; auto|]. right. auto.
Qed.

(** ... then comes a space, or the end of the tag *)
Lemma after_space g a x : AfterOne g a x ->
  Run x [32] [] (SBeforeAttributeName (add_attribute g a)) \/
  (Run x [32] [] (SAfterAttributeName g (lower (id_str (a_name a)))) /\ a_value a = None).
Proof.
  intros [-> | [-> H]].
  - left. eapply run_cons; [reflexivity|apply run_nil].
  - right; split; auto. eapply run_cons; [reflexivity|apply run_nil].
Qed.
Lemma after_again g n s : s <> [] -> (forall c, In c s -> Plain c) ->
  Run (SAfterAttributeName g n) s [] (SAttributeName (add g n []) (lower s)).
Proof.
  intros Hs H. destruct s as [|c s]; [easy|].
  apply run_cons with (SAttributeName (add g n []) [small c]).
  - apply feed1_intro; [|now apply unref_calm].
    destruct (H c (or_introl eq_refl)) as (H1 & H2 & H3 & H4 & H5). cbn [feed step].
    rewrite H1, (eqb_false c 47), (eqb_false c 62), (eqb_false c 61) by auto. unfold again.
    cbn [step]. rewrite H1, (eqb_false c 47), (eqb_false c 62), (eqb_false c 61) by auto.
    cbn [orb]. unfold go. now rewrite low_small.
  - change (lower (c :: s)) with ([small c] ++ lower s).
    apply run_attribute. intros d Hd. apply H. now right.
Qed.

(** The states from which the next attribute, a slash or the end may be read, where the
    attributes read so far make the tag [g]. *)
Definition Ready (g : tag) (x : state) : Prop :=
  x = SBeforeAttributeName g \/
  exists g' a, x = SAfterAttributeName g' a /\ g = add g' a [].
Lemma ready_one g x a : Ready g x -> HtmlAttribute a ->
  exists y, Run x (display_attribute a) [] y /\ AfterOne g a y.
Proof.
  intros [-> | (g' & n & -> & ->)] Ha; [now apply run_one|].
  destruct (attribute_plain a Ha) as [Hn Hp]. destruct Ha as (_ & _ & Hv).
  unfold display_attribute, AfterOne, add_attribute. destruct (a_value a) as [v|].
  - eexists; split; [|left; reflexivity]. destruct Hv as [Hv [Hz _]].
    eapply run_app0; [apply after_again; auto|]. cbn [app].
    eapply run_cons; [reflexivity|]. eapply run_cons; [reflexivity|].
    exact (run_value _ _ _ Hv Hz []).
  - rewrite app_nil_r. eexists; split; [apply after_again; auto|]. right. auto.
Qed.
Lemma one_space g a x : AfterOne g a x -> exists y, Run x [32] [] y /\ Ready (add_attribute g a) y.
Proof.
  intros H. destruct (after_space g a x H) as [H1|[H1 H2]]; eexists; (split; [exact H1|]).
  - now left.
  - right. exists g, (lower (id_str (a_name a))). split; auto. unfold add_attribute. now rewrite H2.
Qed.
Lemma run_attributes l : Forall HtmlAttribute l -> forall a g x,
  Ready g x -> HtmlAttribute a ->
  exists g' c y, Run x (display_attributes (a :: l)) [] y /\ AfterOne g' c y /\
                 add_attribute g' c = read_attributes g (a :: l).
Proof.
  unfold display_attributes. intros Hl.
  assert (G : forall a g x, Ready g x -> HtmlAttribute a ->
    exists g' c y, Run x (display_attribute a ++ display_attributes_loop false l) [] y /\
                   AfterOne g' c y /\ add_attribute g' c = read_attributes g (a :: l)).
  { induction Hl as [|a' l Ha' Hl IH]; intros a g x Hx Ha.
    - destruct (ready_one g x a Hx Ha) as (y & H1 & H2). exists g, a, y.
      cbn [display_attributes_loop]. rewrite app_nil_r. auto.
    - destruct (ready_one g x a Hx Ha) as (y & H1 & H2).
      destruct (one_space g a y H2) as (z & H3 & H4).
      destruct (IH a' _ z H4 Ha') as (g' & c & w & H5 & H6 & H7).
      exists g', c, w. split; [|split; auto].
      eapply run_app0; [exact H1|]. cbn [display_attributes_loop].
      eapply run_app0; [exact H3|exact H5]. }
  intros a g x Hx Ha. destruct (G a g x Hx Ha) as (g' & c & y & H1 & H2 & H3).
  exists g', c, y. cbn [display_attributes_loop app]. auto.
Qed.

Lemma after_end g a x (H : AfterOne g a x) :
  Run x [62] (snd (fst (emit b (add_attribute g a) false))) (fst (fst (emit b (add_attribute g a) false))).
Proof.
  destruct H as [-> | [-> H]].
  - apply run_char, feed1_intro; [|reflexivity]. cbn [feed step]. change (white 62) with false. cbv iota.
    change (62 =? 47) with false. change (62 =? 62) with true. cbv iota.
    unfold emit. destruct (t_end _); reflexivity.
  - apply run_char, feed1_intro; [|reflexivity]. cbn [feed step]. change (white 62) with false.
    change (62 =? 47) with false. change (62 =? 62) with true. change (62 =? 61) with false.
    cbn [orb]. unfold again. cbn [step]. change (white 62) with false.
    change (62 =? 47) with false. change (62 =? 62) with true. change (62 =? 61) with false.
    cbv iota. unfold add_attribute. rewrite H. unfold emit. destruct (t_end _); reflexivity.
Qed.
Lemma ready_slash g x : Ready g x ->
  Run x [47; 62] (snd (fst (emit b g true))) (fst (fst (emit b g true))).
Proof.
  intros H. apply run_cons with (SSelfClosing g).
  - destruct H as [-> | (g' & a & -> & ->)]; reflexivity.
  - apply run_char, feed1_intro; [|reflexivity]. cbn [feed step]. change (62 =? 62) with true. cbv iota.
    unfold emit. destruct (t_end _); reflexivity.
Qed.

(** ** Tags *)

Lemma begins_letter n : Begins Letter n -> exists c r, n = c :: r /\ alpha c = true.
Proof. intros (c & r & -> & H). exists c, r. split; auto. now apply alpha_spec. Qed.
Lemma alpha_neq c d : alpha c = true -> alpha d = false -> c <> d.
Proof. intros H1 H2 ->. congruence. Qed.

Lemma run_start n : HtmlName n -> Run SData (60 :: n) [] (STagName false (lower n)).
Proof.
  intros (Hw & Hc & Hl). destruct (begins_letter n Hl) as (c & r & -> & Ha).
  apply run_cons with STagOpen; [reflexivity|].
  apply run_cons with (STagName false [small c]).
  - apply feed1_intro; [|apply unref_neq, (alpha_neq c); auto]. cbn [feed step].
    rewrite (eqb_false c 33), (eqb_false c 47) by (apply (alpha_neq c); auto).
    rewrite Ha. unfold again. cbn [step].
    destruct (writable_plain _ c Hw Hc (or_introl eq_refl)) as (H1 & H2 & H3 & _ & H5).
    rewrite H1, (eqb_false c 47), (eqb_false c 62) by auto. unfold go. now rewrite low_small.
  - change (lower (c :: r)) with ([small c] ++ lower r). apply run_name.
    intros d Hd. apply (writable_plain (c :: r) d Hw Hc). now right.
Qed.
Lemma run_end_start n : HtmlName n -> Run SData (60 :: 47 :: n) [] (STagName true (lower n)).
Proof.
  intros (Hw & Hc & Hl). destruct (begins_letter n Hl) as (c & r & -> & Ha).
  apply run_cons with STagOpen; [reflexivity|].
  apply run_cons with SEndTagOpen; [reflexivity|].
  apply run_cons with (STagName true [small c]).
  - apply feed1_intro; [|apply unref_neq, (alpha_neq c); auto]. cbn [feed step]. rewrite Ha. unfold again. cbn [step].
    destruct (writable_plain _ c Hw Hc (or_introl eq_refl)) as (H1 & H2 & H3 & _ & H5).
    rewrite H1, (eqb_false c 47), (eqb_false c 62) by auto. unfold go. now rewrite low_small.
  - change (lower (c :: r)) with ([small c] ++ lower r). apply run_name.
    intros d Hd. apply (writable_plain (c :: r) d Hw Hc). now right.
Qed.
Lemma run_end n : HtmlName n -> Run SData (lit "</" ++ n ++ [62]) [TEnd (lower n)] SData.
Proof.
  intros H. change (lit "</" ++ n ++ [62]) with ((60 :: 47 :: n) ++ [62]).
  eapply run_app0; [now apply run_end_start|]. now apply run_char.
Qed.

(** The attributes of the tag *)
Lemma same_sym a c : same a c = same c a.
Proof.
  destruct (same a c) eqn:E.
  - apply same_spec in E as ->. now rewrite same_refl.
  - symmetry. apply same_false. apply same_false in E. congruence.
Qed.
Definition seen_attributes (l : list (str * str)) : list (str * str) :=
  map (fun x => (fst x, expand (ref true) 0 (snd x))) l.
Lemma read_attributes_spec l : forall g seen,
  (forall n, existsb (same n) seen = existsb (fun x => same (fst x) n) (t_attrs g)) ->
  read_attributes g l =
  Tg (t_end g) (t_name g) (t_attrs g ++ seen_attributes (html_attributes seen l)).
Proof.
  induction l as [|a l IH]; intros [e m attrs] seen H; cbn [read_attributes fold_left html_attributes t_end t_name t_attrs].
  - now rewrite app_nil_r.
  - fold (read_attributes (add_attribute (Tg e m attrs) a) l).
    cbn [t_attrs] in H. unfold add_attribute, add. cbn [t_end t_name t_attrs].
    rewrite <- (H (lower (id_str (a_name a)))).
    destruct (existsb (same (lower (id_str (a_name a)))) seen) eqn:E.
    + now apply IH.
    + rewrite (IH _ (lower (id_str (a_name a)) :: seen)); cbn [t_end t_name t_attrs].
      * rewrite <- app_assoc. cbn [seen_attributes map fst snd app].
        destruct (a_value a); reflexivity.
      * intros n. rewrite existsb_app. cbn [existsb fst].
        rewrite (H n), (same_sym n), orb_false_r. apply orb_comm.
Qed.
Lemma read_attributes_start e n a :
  read_attributes (Tg e n []) a = Tg e n (seen_attributes (html_attributes [] a)).
Proof. rewrite (read_attributes_spec a (Tg e n []) []); reflexivity. Qed.

Definition start_token (n : str) (a : attributes) (self : bool) : list token :=
  [TStart (lower n) (seen_attributes (html_attributes [] a)) self].
Lemma run_tag t a : HtmlName (id_str t) -> Forall HtmlAttribute a ->
  Run SData ([60] ++ display_tag t a ++ [62]) (start_token (id_str t) a false)
      (after_start b (lower (id_str t))).
Proof.
  intros Ht Ha. unfold display_tag.
  replace ([60] ++ (id_str t ++ match a with [] => [] | _ => [c_space] ++ display_attributes a end) ++ [62])
    with ((60 :: id_str t) ++ match a with [] => [] | _ => [c_space] ++ display_attributes a end ++ [62])
    by (cbn [app]; now rewrite <- app_assoc).
  eapply run_app0; [now apply run_start|]. destruct Ha as [|x l Hx Hl].
  - apply run_char. reflexivity.
  - cbn [app]. apply run_cons with (SBeforeAttributeName (Tg false (lower (id_str t)) [])); [reflexivity|].
    destruct (run_attributes l Hl x (Tg false (lower (id_str t)) []) _ (or_introl eq_refl) Hx) as (g & c & y & H1 & H2 & H3).
    eapply run_app0; [exact H1|]. pose proof (after_end g c y H2) as H4.
    rewrite H3, read_attributes_start in H4. exact H4.
Qed.
Lemma run_self t a : HtmlName (id_str t) -> Forall HtmlAttribute a ->
  Run SData ([60] ++ display_tag t a ++ lit " />") (start_token (id_str t) a true)
      (after_start b (lower (id_str t))).
Proof.
  intros Ht Ha. unfold display_tag.
  replace ([60] ++ (id_str t ++ match a with [] => [] | _ => [c_space] ++ display_attributes a end) ++ lit " />")
    with ((60 :: id_str t) ++ match a with [] => [] | _ => [c_space] ++ display_attributes a end ++ [32; 47; 62])
    by (cbn [app]; now rewrite <- app_assoc).
  eapply run_app0; [now apply run_start|]. destruct Ha as [|x l Hx Hl].
  - cbn [app]. apply run_cons with (SBeforeAttributeName (Tg false (lower (id_str t)) [])); [reflexivity|].
    exact (ready_slash (Tg false (lower (id_str t)) []) _ (or_introl eq_refl)).
  - cbn [app]. apply run_cons with (SBeforeAttributeName (Tg false (lower (id_str t)) [])); [reflexivity|].
    destruct (run_attributes l Hl x (Tg false (lower (id_str t)) []) _ (or_introl eq_refl) Hx) as (g & c & y & H1 & H2 & H3).
    eapply run_app0; [exact H1|]. destruct (one_space g c y H2) as (z & H4 & H5).
    change [32; 47; 62] with ([32] ++ [47; 62]). eapply run_app0; [exact H4|].
    rewrite H3, read_attributes_start in H5. exact (ready_slash _ _ H5).
Qed.

(** ** Comments *)

(** [p] has been read in the comment. *)
Definition InComment (x : state) (p : str) : Prop :=
  match x with
  | SCommentStart => p = []
  | SCommentStartDash => p = [45]
  | SComment d | SCommentLess d | SCommentLessBang d => p = d
  | SCommentLessBangDash d | SCommentEndDash d => p = d ++ [45]
  | SCommentLessBangDashDash d | SCommentEnd d => p = d ++ [45; 45]
  | SCommentEndBang d => p = d ++ [45; 45; 33]
  | _ => False
  end.
Lemma comment_end x p : InComment x p -> Run x (lit "-->") [TComment p] SData.
Proof.
  destruct x; cbn [InComment]; try easy; intros ->;
    repeat (eapply run_cons; [reflexivity|]); apply run_char; cbn; rewrite <- ?app_assoc; reflexivity.
Qed.
Lemma comment_prefix p q : CommentText (p ++ q) -> CommentText p.
Proof.
  intros ((C1 & C2) & H1 & H2 & H3 & H4).
  split; [split; intros H; [apply C1|apply C2]; apply in_or_app; now left|].
  split; [|split; [|split]].
  - intros r ->. apply (H1 (r ++ q)). now rewrite <- app_assoc.
  - intros r ->. apply (H2 (r ++ q)). now rewrite <- app_assoc.
  - intros u r ->. apply (H3 u (r ++ q)). now rewrite <- !app_assoc.
  - intros u r ->. apply (H4 u (r ++ q)). now rewrite <- !app_assoc.
Qed.
Lemma comment_step x p c : InComment x p -> CommentText (p ++ [c]) ->
  exists y, Run x [c] [] y /\ InComment y (p ++ [c]).
Proof.
  intros Hx ((C1 & _) & H1 & H2 & H3 & H4).
  assert (Hc : c <> 0). { intros ->. apply C1. apply in_or_app. right. now left. }
  destruct x as [| | | | | | | | | | | | | | | | | |d|d|d|d|d|d|d|d| | | | | | | | | | | | | | | | | |]; cbn [InComment] in Hx; try easy; subst p;
  (destruct (N.eq_dec c 45) as [->|N1];
   [|destruct (N.eq_dec c 60) as [->|N2];
     [|destruct (N.eq_dec c 33) as [->|N3];
       [|destruct (N.eq_dec c 62) as [->|N4];
         [|apply eqb_false in N1, N2, N3, N4]]]]);
  try (eexists; split; [apply run_char; reflexivity|cbn; rewrite <- ?app_assoc; reflexivity]);
  try (exfalso; first [ now apply (H1 []) | now apply (H2 [])
         | apply (H3 d []); cbn; rewrite <- ?app_assoc; reflexivity
         | apply (H4 d []); cbn; rewrite <- ?app_assoc; reflexivity ]);
  (eexists; split;
    [apply run_char, feed1_intro; [|now apply unref_calm]; cbn [feed step]; unfold go, again;
     repeat first [rewrite N1 | rewrite N2 | rewrite N3 | rewrite N4 | progress cbn [step]
                  | progress unfold go, again];
     rewrite ?nul_id by auto; reflexivity
    |cbn; rewrite <- ?app_assoc; reflexivity]).
Qed.
Lemma run_comment_text c : CommentText c -> exists x, Run SCommentStart c [] x /\ InComment x c.
Proof.
  induction c as [|d c IH] using rev_ind; intros H.
  - exists SCommentStart. split; [apply run_nil|reflexivity].
  - destruct (IH (comment_prefix _ _ H)) as (x & H1 & H2).
    destruct (comment_step x c d H2 H) as (y & H3 & H4).
    exists y. split; auto. eapply run_app0; eauto.
Qed.
Lemma run_comment c : CommentText c ->
  Run SData (lit "<!--" ++ c ++ lit "-->") [TComment c] SData.
Proof.
  intros H. destruct (run_comment_text c H) as (x & H1 & H2).
  eapply run_app0 with SCommentStart.
  { repeat (eapply run_cons; [reflexivity|]). apply run_nil. }
  eapply run_app0; [exact H1|]. now apply comment_end.
Qed.
End scripting.
