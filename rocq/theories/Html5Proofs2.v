(** The tokenizer of the HTML standard on rendered templates: text and whole templates. *)
From Coq Require Import String List NArith Bool Lia Wf_nat.
Import ListNotations.
From Verif Require Import Text Event SpecText SpecAttr SpecParse SpecRender SpecHtml5 SpecCharRef TextProofs
  Html5Proofs.
Open Scope N_scope.

Lemma lower_same_name n m : lower n = lower m <-> SameName n m.
Proof.
  revert m; induction n as [|x n IH]; intros [|y m]; split; intros H; try easy; try (now inversion H).
  - constructor.
  - injection H as H1 H2. constructor; [now apply lower_same|now apply IH].
  - inversion H as [|? ? ? ? H1 H2]; subst. cbn. f_equal; [now apply lower_same|now apply IH].
Qed.

Section scripting.
Context (b : bool) (ref : bool -> str -> option (str * nat)) (LR : Local_ref ref).
Notation Run := (Run b ref).
Notation read_from := (read_from b ref).

(** ** Text *)

Lemma local_end a s r : r = [] \/ (exists r', r = 60 :: r') -> ref a (s ++ r) = ref a s.
Proof.
  intros [-> | (r' & ->)]; [now rewrite app_nil_r|]. apply LR. right; now left.
Qed.
Lemma in_skipn k (s : str) c : In c (skipn k s) -> In c s.
Proof. intros H. rewrite <- (firstn_skipn k s). apply in_or_app. now right. Qed.
Lemma read_text r : r = [] \/ (exists r', r = 60 :: r') -> forall s, ~ In 60 s ->
  read_from SData 0 (s ++ r) = chars (expand (ref false) 0 s) ++ read_from SData 0 r.
Proof.
  intros Hr s. remember (length s) as m eqn:Em. revert s Em.
  induction m as [m IH] using lt_wf_ind. intros s -> H. destruct s as [|c s]; [reflexivity|].
  cbn [In] in H. cbn [app expand]. destruct (c =? 38) eqn:E38.
  - apply N.eqb_eq in E38. subst c. pose proof (local_end false s r Hr) as Er.
    destruct (ref false s) as [[x k]|] eqn:Es.
    + rewrite (read_taken b ref _ false _ x k) by auto. cbn [put fst snd].
      assert (Hk : (k <= length s)%nat) by (now apply (proj1 LR false s x k)).
      rewrite read_skip by auto. rewrite (IH (length (skipn k s))); [|rewrite skipn_length; cbn; lia|auto|].
      * rewrite (expand_skip _ k). unfold chars. now rewrite map_app, app_assoc.
      * intros Hi. apply in_skipn in Hi. tauto.
    + rewrite (read_untaken b ref _ false _ SData [TChar 38]) by auto.
      rewrite (IH (length s)); [reflexivity|cbn; lia|auto|tauto].
  - rewrite (read_unref b ref _ c _ SData [TChar c]).
    + rewrite (IH (length s)); [reflexivity|cbn; lia|auto|tauto].
    + cbn [feed step]. rewrite (eqb_false c 60) by tauto. reflexivity.
    + unfold unref. now rewrite E38.
Qed.

Lemma doctype_letters c : SameName c (lit "html") -> forall d, In d c -> 65 <= d.
Proof.
  intros H d Hd. change (lit "html") with [104; 116; 109; 108] in H.
  assert (H1 : exists e, In e [104; 116; 109; 108] /\ SameLetter d e).
  { clear -H Hd. revert Hd. induction H as [|x y l m Hxy _ IH]; intros Hd; [easy|].
    destruct Hd as [->|Hd]; [exists y; split; [now left|auto]|].
    destruct (IH Hd) as (e & He & Hs). exists e. split; [now right|auto]. }
  destruct H1 as (e & He & Hs).
  unfold SameLetter in Hs; simpl in He; unfold char in *; lia.
Qed.
Lemma doctype_chars c : SameName c (lit "html") -> forall d, In d c -> Plain d.
Proof.
  intros H d Hd. pose proof (doctype_letters c H d Hd) as Hl.
  repeat split; try (intros ->; unfold char in *; lia).
  apply white_false. simpl. unfold char in *; lia.
Qed.
Lemma step_doctype n c : Plain c -> feed b 4 (SDoctypeName n) c = (SDoctypeName (n ++ [small c]), []).
Proof.
  intros (H1 & H2 & H3 & _ & H5). cbn [feed step]. rewrite H1, (eqb_false c 62) by auto.
  unfold go. now rewrite low_small.
Qed.
Lemma run_doctype_name s : (forall c, In c s -> Plain c) ->
  forall n, Run (SDoctypeName n) s [] (SDoctypeName (n ++ lower s)).
Proof.
  induction s as [|c s IH]; intros H n.
  - simpl. rewrite app_nil_r. apply run_nil.
  - apply run_cons with (SDoctypeName (n ++ [small c])); [apply feed1_intro; [apply step_doctype, H; now left|now apply unref_calm]|].
    cbn [lower map]. replace (n ++ small c :: map small s) with ((n ++ [small c]) ++ lower s)
      by (rewrite <- app_assoc; reflexivity).
    apply IH. intros d Hd. apply H. now right.
Qed.
Lemma run_doctype c : SameName c (lit "html") ->
  Run SData (lit "<!doctype " ++ c ++ [62]) [TDoctype (lower c)] SData.
Proof.
  intros H. pose proof (doctype_chars c H) as Hp.
  eapply run_app0 with SBeforeDoctypeName.
  { repeat (eapply run_cons; [reflexivity|]). apply run_nil. }
  destruct c as [|x c]; [inversion H|]. cbn [app].
  apply run_cons with (SDoctypeName [small x]).
  { apply feed1_intro; [|now apply unref_calm].
    destruct (Hp x (or_introl eq_refl)) as (H1 & H2 & H3 & _ & H5).
    cbn [feed step]. rewrite H1, (eqb_false x 62) by auto. unfold go. now rewrite low_small. }
  eapply run_app0; [apply run_doctype_name; intros d Hd; apply Hp; now right|].
  now apply run_char.
Qed.

(** ** Text elements *)

(** Of the text [p] of the element [n], everything but what is given by the state has been
    emitted. *)
Definition InText (k : kind) (n : str) (x : state) (p o : str) : Prop :=
  match x with
  | SRaw k' n' => k' = k /\ n' = n /\ p = o
  | SRawLess k' n' => k' = k /\ n' = n /\ p = o ++ [60]
  | SRawEndTagOpen k' n' => k' = k /\ n' = n /\ p = o ++ [60; 47]
  | SRawEndTagName k' n' m =>
      k' = k /\ n' = n /\ p = o ++ [60; 47] ++ m /\ ~ In 0 m
  | SEscapeStart n' => k = Script /\ n' = n /\ p = o /\ exists q, p = q ++ [60; 33]
  | SEscapeStartDash n' => k = Script /\ n' = n /\ p = o /\ exists q, p = q ++ [60; 33; 45]
  | _ => False
  end.
(** What is pending is emitted before another "<". *)
Lemma in_text_less k n x p o : k <> Escaped -> InText k n x p o ->
  exists o', p = o ++ o' /\ feed b 4 x 60 = (SRawLess k n, chars o').
Proof.
  intros Hk. destruct x; cbn [InText]; try easy.
  - intros (-> & -> & ->). exists []. rewrite app_nil_r. auto.
  - intros (-> & -> & ->). exists [60]. split; auto. destruct k; reflexivity || easy.
  - intros (-> & -> & ->). exists [60; 47]. split; auto.
  - intros (-> & -> & -> & _). eexists. split; [reflexivity|].
    cbn [feed step]. change (alpha 60) with false. cbv iota.
    change (white 60) with false. change (60 =? 47) with false. change (60 =? 62) with false.
    rewrite !andb_false_r. unfold out_again. change (step b (SRaw k n) 60) with (go (SRawLess k n)). unfold go. now rewrite app_nil_r.
  - intros (-> & -> & -> & _). exists []. rewrite app_nil_r. auto.
  - intros (-> & -> & -> & _). exists []. rewrite app_nil_r. auto.
Qed.

Definition Letters (s : str) : Prop := Forall Letter s.
Lemma letters_alpha s c : Letters s -> In c s -> alpha c = true.
Proof. intros H Hc. apply alpha_spec. unfold Letters in H. rewrite Forall_forall in H. now apply H. Qed.
Lemma run_raw_name k n m : Letters m -> forall u, Run (SRawEndTagName k n u) m [] (SRawEndTagName k n (u ++ m)).
Proof.
  induction 1 as [|c m Hc Hm IH]; intros u.
  - rewrite app_nil_r. apply run_nil.
  - apply run_cons with (SRawEndTagName k n (u ++ [c])).
    + apply alpha_spec in Hc. apply feed1_intro; [|apply unref_neq, (alpha_neq c); auto].
      cbn [feed step]. now rewrite Hc.
    + replace (u ++ c :: m) with ((u ++ [c]) ++ m) by (rewrite <- app_assoc; reflexivity). apply IH.
Qed.
Lemma text_end k n m : m <> [] -> Letters m -> lower m = n ->
  Run (SRawLess k n) ([47] ++ m ++ [62]) [TEnd n] SData.
Proof.
  intros Hm Hl Hn. cbn [app].
  apply run_cons with (SRawEndTagOpen k n); [destruct k; reflexivity|].
  destruct Hl as [|c m Hc Hl]; [easy|]. cbn [app].
  apply run_cons with (SRawEndTagName k n [c]).
  { apply alpha_spec in Hc. apply feed1_intro; [|apply unref_neq, (alpha_neq c); auto].
    cbn [feed step]. rewrite Hc. unfold again. cbn [step]. now rewrite Hc. }
  eapply run_app0; [now apply run_raw_name|]. apply run_char, feed1_intro; [|reflexivity].
  assert (Hlow : map low ([c] ++ m) = n).
  { rewrite low_lower; [exact Hn|]. intros [H0|H0].
    - unfold Letter, char in *. lia.
    - rewrite Forall_forall in Hl. specialize (Hl 0 H0). unfold Letter in Hl. lia. }
  cbn [feed step]. change (alpha 62) with false. cbv iota. rewrite Hlow, same_refl.
  reflexivity.
Qed.

Lemma element_prefix n p q : ElementText n (p ++ q) -> ElementText n p.
Proof.
  intros ((C1 & C2) & H1 & H2).
  split; [split; intros H; [apply C1|apply C2]; apply in_or_app; now left|]. split.
  - intros u v -> (m & d & r & -> & H). apply (H1 u (lit "</" ++ m ++ d :: r ++ q)).
    + now rewrite <- !app_assoc.
    + exists m, d, (r ++ q). auto.
  - intros Hs u v ->. apply (H2 Hs u (v ++ q)). now rewrite <- !app_assoc.
Qed.

Lemma text_step k n name x p o c : k <> Escaped -> (k = Script -> SameName name (lit "script")) ->
  lower name = n -> InText k n x p o -> ElementText name (p ++ [c]) ->
  exists o' y, feed b 4 x c = (y, chars o') /\ InText k n y (p ++ [c]) (o ++ o').
Proof.
  intros Hk Hks Hn Hx ((C1 & _) & H1 & H2).
  assert (Hc : c <> 0). { intros ->. apply C1. apply in_or_app. right. now left. }
  destruct (N.eq_dec c 60) as [->|N60].
  { destruct (in_text_less k n x p o Hk Hx) as (o' & -> & H).
    exists o', (SRawLess k n). split; auto. cbn [InText]. auto. }
  pose proof (eqb_false c 60 N60) as E60.
  destruct x; cbn [InText] in Hx; try easy.
  - destruct Hx as (-> & -> & ->). exists [c], (SRaw k n). split; [|cbn; auto].
    cbn [feed step]. rewrite E60. destruct k; try easy; rewrite nul_id by auto; reflexivity.
  - destruct Hx as (-> & -> & ->). destruct (N.eq_dec c 47) as [->|N47].
    { exists [], (SRawEndTagOpen k n). split; [reflexivity|]. cbn. rewrite <- app_assoc, app_nil_r. auto. }
    pose proof (eqb_false c 47 N47) as E47.
    assert (G : step b (SRawLess k n) c = out_again (SRaw k n) [60] ->
      exists o' y, feed b 4 (SRawLess k n) c = (y, chars o') /\ InText k n y ((o ++ [60]) ++ [c]) (o ++ o')).
    { intros Hy. exists [60; c], (SRaw k n). split; [|cbn; rewrite <- app_assoc; auto].
      cbn [feed]. rewrite Hy. unfold out_again. cbn [step]. rewrite E60.
      destruct k; try easy; rewrite nul_id by auto; reflexivity. }
    destruct k; try easy.
    + apply G. cbn [step]. now rewrite E47.
    + apply G. cbn [step]. now rewrite E47.
    + destruct (N.eq_dec c 33) as [->|N33].
      * exists [60; 33], (SEscapeStart n). split; [reflexivity|]. cbn. rewrite <- app_assoc.
        split; [|split; [|split]]; auto. now exists o.
      * apply G. cbn [step]. rewrite E47, (eqb_false c 33 N33). reflexivity.
  - destruct Hx as (-> & -> & ->). destruct (alpha c) eqn:Ea.
    + exists [], (SRawEndTagName k n [c]). split.
      * cbn [feed step]. rewrite Ea. unfold again. cbn [step]. now rewrite Ea.
      * cbn. rewrite <- app_assoc, app_nil_r. split; [|split; [|split]]; auto. intros [->|[]]; auto.
    + exists [60; 47; c], (SRaw k n). split; [|cbn; rewrite <- app_assoc; auto].
      cbn [feed step]. rewrite Ea. unfold out_again. cbn [step]. rewrite E60.
      destruct k; try easy; rewrite nul_id by auto; reflexivity.
  - destruct Hx as (-> & -> & -> & Hz). destruct (alpha c) eqn:Ea.
    + exists [], (SRawEndTagName k n (b0 ++ [c])). split.
      * cbn [feed step]. now rewrite Ea.
      * cbn. rewrite app_nil_r, <- app_assoc. split; [|split; [|split]]; auto.
        intros H. apply in_app_or in H as [H|[->|[]]]; auto.
    + exists ([60; 47] ++ b0 ++ [c]), (SRaw k n). split.
      2: { cbn. rewrite <- app_assoc. auto. }
      assert (Hno : same (map low b0) n = true -> ~ In c [9; 10; 12; 32; 47; 62]).
      { intros Hs Hin. apply same_spec in Hs.
        apply (H1 o ([60; 47] ++ b0 ++ [c])); [now rewrite <- !app_assoc|].
        exists b0, c, []. split; [reflexivity|]. split; auto.
        apply lower_same_name. rewrite <- low_lower, Hs by auto. auto. }
      cbn [feed step]. rewrite Ea.
      destruct (same (map low b0) n) eqn:Es.
      * specialize (Hno eq_refl). cbn [In] in Hno.
        rewrite white_false, (eqb_false c 47), (eqb_false c 62)
          by (cbn [In]; intuition congruence).
        cbn [andb]. unfold out_again. cbn [step]. rewrite E60.
        destruct k; try easy; rewrite nul_id by auto; cbn; unfold chars; rewrite map_app; reflexivity.
      * cbn [andb]. unfold out_again. cbn [step]. rewrite E60.
        destruct k; try easy; rewrite nul_id by auto; cbn; unfold chars; rewrite map_app; reflexivity.
  - destruct Hx as (-> & -> & -> & q & ->). destruct (N.eq_dec c 45) as [->|N45].
    + exists [45], (SEscapeStartDash n). split; [reflexivity|]. cbn. split; [|split; [|split]]; auto.
      exists q. now rewrite <- app_assoc.
    + exists [c], (SRaw Script n). split; [|cbn; auto].
      cbn [feed step]. rewrite (eqb_false c 45 N45). unfold again. cbn [step]. rewrite E60.
      rewrite nul_id by auto. reflexivity.
  - destruct Hx as (-> & -> & -> & q & ->). destruct (N.eq_dec c 45) as [->|N45].
    + exfalso. apply (H2 (Hks eq_refl) q []). now rewrite <- app_assoc.
    + exists [c], (SRaw Script n). split; [|cbn; auto].
      cbn [feed step]. rewrite (eqb_false c 45 N45). unfold again. cbn [step]. rewrite E60.
      rewrite nul_id by auto. reflexivity.
Qed.
(** What a reader sees of the text of an element *)
Definition element_text (k : kind) (s : str) : str :=
  match k with Rcdata => expand (ref false) 0 s | _ => s end.
(** An "&" ends everything that is pending. *)
Lemma in_text_amp k n x p o t : k <> Escaped -> InText k n x p o ->
  exists o', p = o ++ o' /\ read_from x 0 (38 :: t) = chars o' ++ read_from (SRaw k n) 0 (38 :: t).
Proof.
  intros Hk Hx.
  assert (H : exists o', p = o ++ o' /\ (x = SRaw k n /\ o' = [] \/ step b x 38 = (SRaw k n, chars o', true))).
  { destruct x; cbn [InText] in Hx; try easy.
    - destruct Hx as (-> & -> & ->). exists []. rewrite app_nil_r. auto.
    - destruct Hx as (-> & -> & ->). exists [60]. split; auto. right. destruct k; reflexivity || easy.
    - destruct Hx as (-> & -> & ->). exists [60; 47]. split; auto.
    - destruct Hx as (-> & -> & -> & _). eexists. split; [reflexivity|]. right.
      cbn [step]. change (alpha 38) with false. cbv iota.
      change (white 38) with false. change (38 =? 47) with false. change (38 =? 62) with false.
      rewrite !andb_false_r. reflexivity.
    - destruct Hx as (-> & -> & -> & _). exists []. rewrite app_nil_r. auto.
    - destruct Hx as (-> & -> & -> & _). exists []. rewrite app_nil_r. auto. }
  destruct H as (o' & Hp & [[E1 E2]|Hs]); exists o'; (split; [exact Hp|]); [now subst|].
  assert (Ht : takes x = None).
  { destruct x as [| | | | | | | | | | | | | | | | | | | | | | | | | | | | | |k'| | | | | | | | | | | | |]; try reflexivity; try easy. cbn [InText] in Hx. destruct Hx as (-> & -> & _).
    exfalso. cbn [step] in Hs. destruct k; try easy. }
  rewrite !read_cons.
  assert (E : feed_ref b ref 4 x 38 t =
    (let '(z, o1, j) := feed_ref b ref 3 (SRaw k n) 38 t in (z, chars o' ++ o1, j))).
  { change (feed_ref b ref 4 x 38 t) with
      (match match takes x with Some a => ref a t | None => None end with
       | Some (s, j) => (put x s, j)
       | None => let '(y, o, r) := step b x 38 in
                 if r then let '(z, o', j) := feed_ref b ref 3 y 38 t in (z, o ++ o', j) else (y, o, O)
       end).
    rewrite Ht, Hs. reflexivity. }
  rewrite E.
  assert (E3 : feed_ref b ref 3 (SRaw k n) 38 t = feed_ref b ref 4 (SRaw k n) 38 t) by (destruct k; easy || reflexivity).
  rewrite E3. destruct (feed_ref b ref 4 (SRaw k n) 38 t) as [[z o1] j]. now rewrite app_assoc.
Qed.
Lemma read_element_text k n name r : k <> Escaped -> (k = Script -> SameName name (lit "script")) ->
  lower name = n -> forall c x p o, InText k n x p o -> ElementText name (p ++ c) ->
  exists o', p = o ++ o' /\
    read_from x 0 (c ++ 60 :: r) = chars (o' ++ element_text k c) ++ read_from (SRawLess k n) 0 r.
Proof.
  intros Hk Hks Hn c. remember (length c) as m eqn:Em. revert c Em.
  induction m as [m IH] using lt_wf_ind. intros c -> x p o Hx Hc. destruct c as [|d c].
  - destruct (in_text_less k n x p o Hk Hx) as (o' & H1 & H2). exists o'. split; auto.
    cbn [app]. rewrite (read_unref b ref _ _ _ _ _ H2) by reflexivity.
    replace (element_text k []) with (@nil char) by (destruct k; reflexivity). now rewrite app_nil_r.
  - cbn [app]. destruct (N.eq_dec d 38) as [->|Nd].
    + destruct (in_text_amp k n x p o (c ++ 60 :: r) Hk Hx) as (o' & H1 & H2).
      exists o'. split; auto. etransitivity; [exact H2|]. clear H2. unfold chars. rewrite map_app, <- app_assoc. f_equal.
      assert (G : forall j, (j <= length c)%nat ->
        read_from (SRaw k n) 0 (skipn j c ++ 60 :: r) =
        chars (element_text k (skipn j c)) ++ read_from (SRawLess k n) 0 r).
      { intros j Hj. destruct (IH (length (skipn j c))) with (c := skipn j c) (x := SRaw k n)
          (p := p ++ 38 :: firstn j c) (o := p ++ 38 :: firstn j c) as (o1 & Ho1 & H); auto.
        - rewrite skipn_length. cbn. lia.
        - cbn. auto.
        - rewrite <- app_assoc. cbn [app]. now rewrite firstn_skipn.
        - assert (o1 = []) as ->; [|exact H].
          rewrite <- (app_nil_r (p ++ 38 :: firstn j c)) in Ho1 at 1. now apply app_inv_head in Ho1. }
      destruct (takes (SRaw k n)) as [a|] eqn:Ea.
      * destruct k; try discriminate. injection Ea as <-. cbn [element_text expand].
        change (38 =? 38) with true. cbv iota.
        assert (Er : ref false (c ++ 60 :: r) = ref false c) by (apply local_end; eauto).
        destruct (ref false c) as [[y j]|] eqn:Es.
        -- rewrite (read_taken b ref _ false _ y j) by auto. cbn [put fst snd].
           assert (Hj : (j <= length c)%nat) by (now apply (proj1 LR false c y j)).
           rewrite read_skip by auto. rewrite (G j Hj). cbn [element_text].
           rewrite (expand_skip _ j), map_app, <- app_assoc. reflexivity.
        -- rewrite (read_untaken b ref _ false _ (SRaw Rcdata n) [TChar 38]) by auto.
           specialize (G O). cbn [skipn] in G. rewrite G by lia. reflexivity.
      * match goal with |- context [element_text k ?l] => replace (element_text k l) with l by (destruct k; easy || reflexivity) end. rewrite (read_unref b ref _ 38 _ (SRaw k n) [TChar 38]) by (destruct k; easy || reflexivity).
        specialize (G O). cbn [skipn] in G. rewrite G by lia.
        replace (element_text k c) with c by (destruct k; easy || reflexivity). reflexivity.
    + assert (Hc' : ElementText name ((p ++ [d]) ++ c)) by (now rewrite <- app_assoc).
      destruct (text_step k n name x p o d Hk Hks Hn Hx (element_prefix _ _ _ Hc')) as (o' & y & H1 & H2).
      destruct (IH (length c)) with (c := c) (x := y) (p := p ++ [d]) (o := o ++ o') as (o1 & Ho1 & H); auto.
      rewrite (read_unref b ref _ _ _ _ _ H1) by (now apply unref_neq). rewrite H.
      assert (Hp : exists o2, p = o ++ o2).
      { destruct (in_text_less k n x p o Hk Hx) as (o2 & Ho2 & _). eauto. }
      destruct Hp as (o2 & ->). exists o2. split; auto.
      rewrite <- !app_assoc in Ho1. apply app_inv_head in Ho1.
      replace (element_text k (d :: c)) with (d :: element_text k c).
      2: { destruct k; auto. cbn [element_text expand]. now rewrite (eqb_false d 38). }
      replace (o2 ++ d :: element_text k c) with (o' ++ o1 ++ element_text k c).
      2: { rewrite app_assoc, <- Ho1, <- app_assoc. reflexivity. }
      unfold chars. now rewrite !map_app, <- !app_assoc.
Qed.

(** ** What follows a start tag *)

Lemma text_letters r : In r (TextNames b) -> Letters r /\ r <> [].
Proof.
  intros H. unfold TextNames in H. apply in_app_or in H.
  assert (G : forall l, forallb alpha l = true -> Letters l).
  { intros l. induction l as [|c l IH]; simpl; intros E; constructor.
    - apply alpha_spec. now apply andb_true_iff in E.
    - apply IH. now apply andb_true_iff in E. }
  destruct H as [H|H]; [|destruct b].
  all: repeat (destruct H as [<-|H]; [split; [apply G; reflexivity|discriminate]|]); destruct H.
Qed.
Lemma same_name_letters m r : SameName m r -> Letters r -> Letters m.
Proof.
  induction 1 as [|x y l l' Hxy _ IH]; intros H; [constructor|].
  inversion H; subst. constructor; [|apply IH; assumption].
  unfold SameLetter, Letter, char in *. lia.
Qed.
Lemma lower_letters r : In r (TextNames b) -> lower r = r.
Proof.
  intros H. unfold TextNames in H. apply in_app_or in H.
  destruct H as [H|H]; [|destruct b].
  all: repeat (destruct H as [<-|H]; [reflexivity|]); destruct H.
Qed.
Lemma after_text r : In r (TextNames b) ->
  exists k, after_start b r = SRaw k r /\ k <> Escaped /\ (k = Script -> r = lit "script").
Proof.
  intros H. unfold TextNames in H. apply in_app_or in H.
  destruct H as [H|H]; [|destruct b].
  all: repeat (destruct H as [<-|H]; [eexists; split; [reflexivity|split; easy]|]); destruct H.
Qed.
Lemma after_ordinary n : OrdinaryName b n -> after_start b (lower n) = SData.
Proof.
  intros (_ & H1 & H2). unfold after_start.
  assert (G : forall s, In (lit s) (TextNames b) -> same (lower n) (lit s) = false).
  { intros s Hs. apply same_false. intros E. apply H1. exists (lit s). split; auto.
    apply lower_same_name. rewrite E. symmetry. now apply lower_letters. }
  assert (Hn : same (lower n) (lit "noscript") && b = false).
  { destruct b; [|apply andb_false_r]. rewrite G; [reflexivity|]. simpl. tauto. }
  unfold TextNames in G.
  rewrite !G by (apply in_or_app; left; simpl; tauto).
  rewrite Hn. cbn [orb].
  rewrite (proj2 (same_false _ _)); [reflexivity|].
  intros E. apply H2. apply lower_same_name. now rewrite E.
Qed.

(** ** Templates *)

Lemma display_leading l : Forall (fun ev => exists c, ev = Data c \/ ev = RawData c) l ->
  display_events l = leading l /\ flat_map event_tokens l = chars (leading l).
Proof.
  induction 1 as [|ev l (c & Hc) _ [IH1 IH2]]; [auto|].
  destruct Hc as [-> | ->]; cbn [display_events display_event leading flat_map event_tokens];
    rewrite IH1, IH2; unfold chars; rewrite map_app; auto.
Qed.
Lemma display_app l l' : display_events (l ++ l') = display_events l ++ display_events l'.
Proof. induction l as [|e l IH]; simpl; auto. now rewrite IH, app_assoc. Qed.
Lemma shown_texts raw l : Forall (fun ev => exists c, ev = Data c \/ ev = RawData c) l ->
  forall acc evs, shown ref b raw acc (l ++ evs) = shown ref b raw (acc ++ leading l) evs.
Proof.
  induction 1 as [|ev l (c & Hc) _ IH]; intros acc evs; cbn [leading app]; [now rewrite app_nil_r|].
  destruct Hc as [-> | ->]; cbn [shown leading]; rewrite IH, app_assoc; reflexivity.
Qed.

Lemma ordinary_raw n : OrdinaryName b n -> is_raw b n = false.
Proof.
  intros (_ & H & _). unfold is_raw. apply not_true_iff_false. intros E.
  apply existsb_exists in E as (r & Hr & E). apply same_spec in E. apply H.
  assert (Hin : In r (TextNames b)).
  { unfold TextNames. apply in_app_or in Hr. apply in_or_app. destruct Hr as [Hr|Hr]; [left|now right].
    cbn [map In] in *. tauto. }
  exists r. split; auto. apply lower_same_name. rewrite E. symmetry. now apply lower_letters.
Qed.
Lemma text_raw r : In r (TextNames b) -> forall k, after_start b r = SRaw k r ->
  forall n s, lower n = r -> chars (element_text k s) = shown_text ref (is_raw b n) s.
Proof.
  intros H k Hk n s Hn. unfold TextNames in H. apply in_app_or in H.
  unfold is_raw. rewrite Hn. clear Hn.
  destruct H as [H|H]; [|destruct b].
  all: repeat (destruct H as [<-|H]; [injection Hk as <-; destruct b; reflexivity|]); destruct H.
Qed.

Lemma read_markup acc m o y r : ~ In 60 acc -> Begins (eq 60) m -> Run SData m o y ->
  read_from SData 0 (acc ++ m ++ r) = shown_text ref false acc ++ o ++ read_from y 0 r.
Proof. intros H1 (c & s & -> & <-) H2. rewrite read_text by (cbn; eauto). now rewrite H2. Qed.

Lemma read_standard evs : Standard b evs -> forall acc, ~ In 60 acc ->
  read_from SData 0 (acc ++ display_events evs) = shown ref b false acc evs.
Proof.
  induction 1 as [|evs _ IH|ev c evs Hev _ Hc _ IH|c evs Hc _ IH|c evs Hc _ IH
                 |ev t a evs Hev Ht Ha _ IH|t evs Ht _ IH
                 |t a texts t' evs Ht Hr Ha Hx Hc Hs Ht' _ IH]; intros acc Hacc.
  - cbn [display_events shown]. rewrite read_text by auto. cbn [read_from finish].
    unfold shown_text. now rewrite app_nil_r.
  - now apply IH.
  - assert (H : ~ In 60 (acc ++ enc_str c)) by (intros H; apply in_app_or in H; tauto).
    destruct Hev as [-> | ->]; cbn [display_events display_event shown]; rewrite app_assoc; now apply IH.
  - cbn [display_events shown].
    etransitivity; [exact (read_markup acc _ _ _ _ Hacc (ex_intro _ _ (ex_intro _ _ (conj eq_refl eq_refl))) (run_comment b ref _ Hc))|].
    cbn [map expand_token event_tokens]. do 2 f_equal. now apply (IH []).
  - cbn [display_events shown].
    etransitivity; [exact (read_markup acc _ _ _ _ Hacc (ex_intro _ _ (ex_intro _ _ (conj eq_refl eq_refl))) (run_doctype _ Hc))|].
    cbn [map expand_token event_tokens]. do 2 f_equal. now apply (IH []).
  - assert (Hn := after_ordinary _ Ht). assert (Hw := ordinary_raw _ Ht). destruct Ht as (Ht & _).
    destruct Hev as [-> | [-> | ->]]; cbn [display_events display_event shown].
    + etransitivity; [exact (read_markup acc _ _ _ _ Hacc (ex_intro _ _ (ex_intro _ _ (conj eq_refl eq_refl))) (run_tag b ref LR t a Ht Ha))|].
      cbn [raw_after]. rewrite Hn, Hw. f_equal. cbn [map expand_token event_tokens start_token app]. f_equal. now apply (IH []).
    + etransitivity; [exact (read_markup acc _ _ _ _ Hacc (ex_intro _ _ (ex_intro _ _ (conj eq_refl eq_refl))) (run_tag b ref LR t a Ht Ha))|].
      cbn [raw_after]. rewrite Hn. f_equal. cbn [map expand_token event_tokens start_token app]. f_equal. now apply (IH []).
    + etransitivity; [exact (read_markup acc _ _ _ _ Hacc (ex_intro _ _ (ex_intro _ _ (conj eq_refl eq_refl))) (run_self b ref LR t a Ht Ha))|].
      cbn [raw_after]. rewrite Hn. f_equal. cbn [map expand_token event_tokens start_token app]. f_equal. now apply (IH []).
  - cbn [display_events shown].
    etransitivity; [exact (read_markup acc _ _ _ _ Hacc (ex_intro _ _ (ex_intro _ _ (conj eq_refl eq_refl))) (run_end b ref _ Ht))|].
    cbn [map expand_token event_tokens]. do 2 f_equal. now apply (IH []).
  - destruct Hr as (r & Hr & Hrn).
    assert (El : lower (id_str t) = r).
    { rewrite <- (lower_letters r Hr). now apply lower_same_name. }
    destruct (after_text r Hr) as (k & Hk & Hke & Hks).
    destruct (display_leading texts Hx) as [Hd1 _].
    cbn [display_events display_event shown].
    rewrite display_app, Hd1.
    cbn [display_events display_event].
    etransitivity; [exact (read_markup acc _ _ _ _ Hacc (ex_intro _ _ (ex_intro _ _ (conj eq_refl eq_refl))) (run_tag b ref LR t a Ht Ha))|].
    cbn [raw_after]. f_equal. cbn [map expand_token event_tokens start_token app]. f_equal.
    rewrite shown_texts by auto. cbn [app shown].
    rewrite El, Hk.
    destruct (read_element_text k r (id_str t) (47 :: (id_str t' ++ [62]) ++ display_events evs)) with
      (c := leading texts) (x := SRaw k r) (p := @nil char) (o := @nil char) as (o' & Ho' & H1); auto.
    { intros E. rewrite (Hks E) in Hrn. exact Hrn. }
    { cbn. auto. }
    cbn [app] in Ho'. subst o'.
    destruct (text_letters r Hr) as [Hl Hne].
    etransitivity; [exact H1|]. cbn [app].
    rewrite (text_raw r Hr k Hk (id_str t) _ El). f_equal.
    assert (Et' : lower (id_str t') = r).
    { rewrite <- El. now apply lower_same_name, same_name_sym. }
    assert (H4 := text_end k r (id_str t')).
    assert (Hne' : id_str t' <> []) by apply Ht'.
    assert (Hl' : Letters (id_str t')).
    { apply same_name_letters with r; auto.
      apply same_name_trans with (id_str t); auto using same_name_sym. }
    specialize (H4 Hne' Hl' Et' (display_events evs)). cbn [app] in H4. etransitivity; [exact H4|].
    cbn [map expand_token event_tokens raw_after app]. rewrite Et'. f_equal. now apply (IH []).
Qed.
End scripting.

Lemma verbatim_shown_text raw s : shown_text verbatim raw s = chars s.
Proof. unfold shown_text. destruct raw; auto. now rewrite (proj1 (verbatim_expand false 0 s)). Qed.
Lemma verbatim_token t : expand_token verbatim t = t.
Proof.
  destruct t; auto. cbn [expand_token]. f_equal. induction attrs as [|[n v] l IH]; cbn [map fst snd]; auto.
  now rewrite IH, (proj1 (verbatim_expand true 0 v)).
Qed.
Lemma verbatim_shown b evs : forall raw acc,
  shown verbatim b raw acc evs = chars acc ++ flat_map event_tokens evs.
Proof.
  assert (T : forall l, map (expand_token verbatim) l = l).
  { induction l as [|t l IH]; cbn [map]; auto. now rewrite IH, verbatim_token. }
  induction evs as [|ev evs IH]; intros raw acc; cbn [shown flat_map].
  - now rewrite verbatim_shown_text, app_nil_r.
  - destruct ev; rewrite ?T, IH, ?verbatim_shown_text; cbn [event_tokens flat_map app]; auto;
      unfold chars; now rewrite map_app, <- app_assoc.
Qed.

Lemma newlines_id s : ~ In 13 s -> newlines s = s.
Proof.
  induction s as [|c s IH]; cbn [newlines In]; intros H; auto.
  rewrite (eqb_false c 13) by tauto. now rewrite IH by tauto.
Qed.

Lemma not_in_app {A} (c : A) a b : ~ In c a -> ~ In c b -> ~ In c (a ++ b).
Proof. intros H1 H2 H. apply in_app_or in H. tauto. Qed.
Lemma clean_attributes a : Forall HtmlAttribute a -> forall f, ~ In 13 (display_attributes_loop f a).
Proof.
  induction 1 as [|x l (_ & [_ H1] & H2) _ IH]; intros f; cbn [display_attributes_loop]; [easy|].
  apply not_in_app; [destruct f; simpl; [tauto|intros [E|[]]; discriminate]|].
  apply not_in_app; auto. unfold display_attribute. apply not_in_app; auto.
  destruct (a_value x) as [v|]; [|easy]. destruct H2 as [_ [_ H2]].
  apply not_in_app; [simpl; intros [E|[E|[]]]; discriminate|].
  apply not_in_app; auto. simpl; intros [E|[]]; discriminate.
Qed.
Lemma clean_tag t a : HtmlName (id_str t) -> Forall HtmlAttribute a -> ~ In 13 (display_tag t a).
Proof.
  intros (_ & [_ H] & _) Ha. unfold display_tag. apply not_in_app; auto.
  destruct a; [easy|]. apply not_in_app; [simpl; intros [E|[]]; discriminate|].
  apply (clean_attributes _ Ha).
Qed.
Ltac plain := simpl; intros E; repeat destruct E as [E|E]; try discriminate; try easy.
Lemma clean_standard b evs : Standard b evs -> ~ In 13 (display_events evs).
Proof.
  induction 1 as [|evs _ IH|ev c evs Hev [_ Hc] _ _ IH|c evs [[_ Hc] _] _ IH|c evs Hc _ IH
                 |ev t a evs Hev Ht Ha _ IH|t evs Ht _ IH
                 |t a texts t' evs Ht Hr Ha Hx Hc Hs Ht' _ IH]; cbn [display_events]; auto.
  - apply not_in_app; auto. destruct Hev as [-> | ->]; exact Hc.
  - apply not_in_app; auto. cbn [display_event]. apply not_in_app; [plain|]. apply not_in_app; auto. plain.
  - apply not_in_app; auto. cbn [display_event]. apply not_in_app; [plain|].
    apply not_in_app; [|plain]. intros E. apply (doctype_letters _ Hc) in E. lia.
  - apply not_in_app; auto. destruct Ht as [Ht _]. pose proof (clean_tag t a Ht Ha) as H.
    destruct Hev as [-> | [-> | ->]]; cbn [display_event];
      (apply not_in_app; [plain|]; apply not_in_app; [exact H|plain]).
  - apply not_in_app; auto. cbn [display_event]. apply not_in_app; [plain|].
    apply not_in_app; [apply Ht|plain].
  - cbn [display_event]. pose proof (clean_tag t a Ht Ha) as H.
    destruct (display_leading texts Hx) as [Hd _]. rewrite display_app, Hd.
    apply not_in_app; [apply not_in_app; [plain|]; apply not_in_app; [exact H|plain]|].
    apply not_in_app; [apply Hc|]. cbn [display_events display_event].
    apply not_in_app; auto. apply not_in_app; [plain|]. apply not_in_app; [apply Ht'|plain].
Qed.
Lemma standard_tokens b evs : Standard b evs ->
  tokens b (display_events evs) = flat_map event_tokens evs.
Proof.
  intros H. unfold tokens. rewrite newlines_id by (now apply (clean_standard b)).
  rewrite <- verbatim_read. pose proof (read_standard b verbatim verbatim_local evs H [] (fun x => x)) as E.
  cbn [app] in E. rewrite E. apply verbatim_shown.
Qed.
