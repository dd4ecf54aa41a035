(** Proofs for C73: programs that are like themselves, and renamed programs. *)
From Coq Require Import String ZArith Lia.
From stdpp Require Import gmap.
From Verif Require Import Text Event Input Parse Selector Machine.
From Verif Require Import SpecTransform SpecLaws SpecNatural NaturalProofs TreeProofs.
Local Open Scope nat_scope.

(** ** Occurrences *)

Lemma occurs_one o p o' : In o p -> Occurs [o] o' -> Occurs p o'.
Proof.
  intros Hin H. inversion H as [? ? Ho|a ? q ? Ha Hs Hq]; subst.
  - destruct Ho as [->|[]]. by apply Occurs_here.
  - destruct Ha as [->|[]]. eapply Occurs_deeper; eauto.
Qed.
Lemma occurs_sub o q o' : Sub o q -> Occurs q o' -> Occurs [o] o'.
Proof. intros. eapply Occurs_deeper; [by left|done..]. Qed.
Lemma occurs_self o : Occurs [o] o.
Proof. apply Occurs_here. by left. Qed.

(** ** Attribute calls *)

Definition changing (o : op) : bool :=
  match o with
  | OAddAttribute _ _ | OAddToAttribute _ _ _ | OReplaceAttribute _ _ | OSetAttribute _ _
  | ORemoveAttribute _ | OAddClass _ | ORemoveClass _ | ORemoveId | OSetId _ => true
  | _ => false
  end.
Lemma changing_spec o : changing o = true -> (exists f, Changes o f) \/ (exists err, BadName o err).
Proof.
  destruct o as [| | | | | | | | | | | | | | | | | | | | | |[n|e] v|[n|e] v sep|[n|e] v|[n|e] v|[n|e]|[n|e]|[n|e]| |[n|e]];
    try discriminate; intros _.
  all: first [by right; eexists; constructor | left; eexists; econstructor; reflexivity | left; eexists; constructor].
Qed.
Lemma like_changing k o : changing o = true ->
  (forall f, Changes o f -> forall a a', A k a a' -> A k (f a) (f a')) -> LikeOp k o o.
Proof.
  intros H Hf. destruct (changing_spec o H) as [[f Hc]|[err Hb]].
  - eapply L_attribute; [done|done|by apply Hf|done].
  - by eapply L_bad_name.
Qed.

(** ** Programs that are like themselves *)

Section Self.
Context (k : likeness) (HT : forall t, T k t t) (HA : forall a, A k a a) (HX : forall e, X k e e).

Lemma like_event_refl e : LikeEvent k e e.
Proof. destruct e; try (constructor; done). Qed.
Lemma like_events_refl evs : Forall2 (LikeEvent k) evs evs.
Proof. induction evs; constructor; [apply like_event_refl|done]. Qed.
Lemma like_option_refl {B} (R : B -> B -> Prop) o : (forall x, R x x) -> LikeOption R o o.
Proof. intros H. destruct o; constructor. apply H. Qed.
Lemma like_error_refl err : LikeError k err err.
Proof.
  destruct err as [[t|e|e t]| | | | |]; try (by apply LR_same); constructor;
    try apply like_option_refl; auto using like_event_refl.
Qed.
Lemma like_content_refl c : LikeContent k c c.
Proof.
  revert c. fix IH 1. intros [evs|d|v|s|z|evs stop|[c|e]].
  - apply LC_template, like_events_refl.
  - eapply LC_text; [constructor..|apply HX].
  - eapply LC_text; [constructor..|apply HX].
  - eapply LC_text; [constructor..|apply HX].
  - eapply LC_text; [constructor..|apply HX].
  - apply LC_stream; [apply like_events_refl|apply like_option_refl, like_error_refl].
  - apply LC_ok, IH.
  - apply LC_err, like_error_refl.
Qed.

Definition self_ok (o : op) : Prop :=
  (forall m, op_selector o = Some (inl m) -> alike_sel k m m) /\
  (forall f, op_function o = Some f -> alike_fun k f f) /\
  (forall f, Changes o f -> forall a a', A k a a' -> A k (f a) (f a')).

Lemma like_self_op : forall o, (forall o', Occurs [o] o' -> self_ok o') -> LikeOp k o o.
Proof.
  fix IH 1. intros o Ho.
  assert (forall m, op_selector o = Some m -> LikeSelector k m m) as Hsel.
  { intros [m|err] Hm; constructor; [|apply like_error_refl].
    by apply (Ho o (occurs_self o)). }
  destruct (changing o) eqn:Hch.
  { apply like_changing; [done|]. apply (Ho o (occurs_self o)). }
  pose proof like_content_refl as Hc. pose proof (Ho o (occurs_self o)) as Hself.
  destruct o; try discriminate; constructor; try apply Hc; try (apply Hsel; reflexivity).
  all: try (apply Hself; reflexivity).
  all: try (match goal with |- Like k ?p ?p =>
    assert (forall o', Occurs p o' -> self_ok o') as Hp
      by (intros o' Ho'; apply Ho; eapply occurs_sub; [|exact Ho']; first [reflexivity | by right]);
    clear Ho Hsel Hself Hch; induction p as [|a p IHp]; constructor;
    [apply IH; intros o' Ho'; apply Hp; eapply occurs_one; [|exact Ho']; by left
    |apply IHp; intros o' Ho'; apply Hp; inversion Ho'; subst;
       [by apply Occurs_here; right|eapply Occurs_deeper; [by right|done..]]] end; fail).
  all: try (match goal with |- forall i, Like k (?b i) (?b i) => intros i;
    assert (forall o', Occurs (b i) o' -> self_ok o') as Hp
      by (intros o' Ho'; apply Ho; eapply occurs_sub; [|exact Ho']; by exists i);
    clear Ho Hsel Hself Hch; induction (b i) as [|a p IHp]; constructor;
    [apply IH; intros o' Ho'; apply Hp; eapply occurs_one; [|exact Ho']; by left
    |apply IHp; intros o' Ho'; apply Hp; inversion Ho'; subst;
       [by apply Occurs_here; right|eapply Occurs_deeper; [by right|done..]]] end; fail).
  all: match goal with |- LikeAll k ?bs ?bs =>
    assert (forall p o', In p bs -> Occurs p o' -> self_ok o') as Hb
      by (intros p' o' Hin Ho'; apply Ho; eapply occurs_sub; [|exact Ho']; first [exact Hin | by left]);
    clear Ho Hsel Hself Hch; induction bs as [|q qs IHbs]; constructor;
    [|apply IHbs; intros p' o' Hin; apply Hb; by right];
    assert (forall o', Occurs q o' -> self_ok o') as Hp by (intros o' Ho'; apply (Hb q); [by left|done]);
    clear Hb IHbs; induction q as [|a q IHp]; constructor;
    [apply IH; intros o' Ho'; apply Hp; eapply occurs_one; [|exact Ho']; by left
    |apply IHp; intros o' Ho'; apply Hp; inversion Ho'; subst;
       [by apply Occurs_here; right|eapply Occurs_deeper; [by right|done..]]] end.
Qed.
Lemma like_self p : (forall o, Occurs p o -> self_ok o) -> Like k p p.
Proof.
  intros Hp. induction p as [|a p IHp]; constructor.
  - apply like_self_op. intros o' Ho'. apply Hp. eapply occurs_one; [|exact Ho']. by left.
  - apply IHp. intros o' Ho'. apply Hp. inversion Ho'; subst.
    + by apply Occurs_here; right.
    + eapply Occurs_deeper; [by right|done..].
Qed.
End Self.

(** ** Only texts differ *)

Lemma only_texts_coherent X0 : Coherent (OnlyTexts X0).
Proof. intros s s' t t' Hs Ht. cbn in *. congruence. Qed.
Lemma only_texts_selector X0 m : ElementSelector m -> alike_sel (OnlyTexts X0) m m.
Proof.
  intros Hm e e' He. destruct He as [|x x' Hx Hx' _|t t' a a' Ht Ha|t t' a a' Ht Ha|t t' a a' Ht Ha|t t' Ht];
    cbn in *; subst; try done.
  assert (forall y, IsText y -> matches m y = false) as Hno.
  { intros y Hy. destruct (matches m y) eqn:E; [|done]. destruct (Hm y E). by destruct y. }
  by rewrite (Hno x Hx), (Hno x' Hx').
Qed.
Lemma only_texts (X0 : event -> event -> Prop) evs evs' p r r' : (forall e, X0 e e) -> ElementSelectors p -> NoFunctions p ->
  Forall2 (LikeEvent (OnlyTexts X0)) evs evs' -> Gives evs p r -> Gives evs' p r' ->
  LikeResult (OnlyTexts X0) r r'.
Proof.
  intros HX Hs Hf Hev Hg Hg'.
  assert (Like (OnlyTexts X0) p p) as Hp.
  { apply like_self; [done..|]. intros o Ho. split_and!.
    - intros m Hm. eapply only_texts_selector, Hs; eauto.
    - intros f E. rewrite (Hf o Ho) in E. discriminate.
    - intros f _ a a' Ha. cbn in *. by subst. }
  destruct (proj1 (like_gives _ (only_texts_coherent X0) evs evs' p p Hev Hp) r Hg) as (r2 & H2 & Hl).
  by rewrite (gives_det _ _ _ _ Hg' H2).
Qed.

(** ** Only hidden attributes differ *)

Section Hidden.
Context (hide : str -> bool) (Hcase : CaseBlind hide).
Notation show := (shown hide).
Notation hid i := (hide (id_str i)).

Lemma show_app a b : show (a ++ b) = show a ++ show b.
Proof. unfold shown. by rewrite List.filter_app. Qed.
Lemma show_cons x a : show (x :: a) = if hid (a_name x) then show a else x :: show a.
Proof. unfold shown. cbn. by destruct (hide _). Qed.
Lemma show_except a n : show (attributes_except a n) = attributes_except (show a) n.
Proof.
  induction a as [|x a IH]; [done|]. cbn [attributes_except]. rewrite show_cons.
  destruct (ident_eqb (a_name x) n) eqn:E; cbn [negb].
  - rewrite IH. destruct (hid (a_name x)); [done|]. cbn [attributes_except]. by rewrite E.
  - rewrite show_cons, IH. destruct (hid (a_name x)); [done|]. cbn [attributes_except]. by rewrite E.
Qed.
Lemma hid_eqb i n : ident_eqb i n = true -> hid i = hid n.
Proof. apply Hcase. Qed.
Lemma except_same a n : length a = length (attributes_except a n) <->
  List.existsb (fun x => ident_eqb (a_name x) n) a = false.
Proof.
  assert (forall b, length (attributes_except b n) <= length b) as Hle.
  { induction b as [|x b IH]; cbn; [lia|]. destruct (ident_eqb _ _); cbn; lia. }
  induction a as [|x a IH]; cbn; [done|]. destruct (ident_eqb (a_name x) n) eqn:E; cbn.
  - split; [|done]. intros H. specialize (Hle a). lia.
  - rewrite <- IH. lia.
Qed.
Lemma show_exists a n : hid n = false -> List.existsb (fun x => ident_eqb (a_name x) n) (show a) =
  List.existsb (fun x => ident_eqb (a_name x) n) a.
Proof.
  intros Hn. induction a as [|x a IH]; [done|]. rewrite show_cons. cbn.
  destruct (hid (a_name x)) eqn:E.
  - destruct (ident_eqb (a_name x) n) eqn:E2; [|done]. apply hid_eqb in E2. congruence.
  - cbn. by rewrite IH.
Qed.
Lemma show_change o n f a : About o n -> Changes o f -> hide n = false ->
  show (f a) = f (show a).
Proof.
  assert (forall i v, hid i = false -> show [Attribute i v] = [Attribute i v]) as Hone.
  { intros i v Hi. rewrite show_cons. cbn. by rewrite Hi. }
  assert (forall a i v sep, hid i = false ->
    show (add_to_attribute a i v sep) = add_to_attribute (show a) i v sep) as Hto.
  { intros b i v sep Hi. induction b as [|x b IH]; cbn [add_to_attribute]; [by apply Hone|].
    destruct (ident_eqb (a_name x) i) eqn:E.
    - rewrite !show_cons. cbn [a_name]. rewrite (hid_eqb _ _ E), Hi. cbn [add_to_attribute]. by rewrite E.
    - rewrite !show_cons. destruct (hid (a_name x)); [done|]. cbn [add_to_attribute]. by rewrite E, IH. }
  assert (forall a i v, hid i = false -> show (set_attribute a i v) = set_attribute (show a) i v) as Hset.
  { intros b i v Hi. unfold set_attribute. by rewrite show_app, show_except, Hone. }
  assert (forall i, static_ident (lit "class") = Some i -> hide (lit "class") = false -> hid i = false) as Hcl.
  { intros i [= <-]. done. }
  assert (forall i, static_ident (lit "id") = Some i -> hide (lit "id") = false -> hid i = false) as Hid.
  { intros i [= <-]. done. }
  intros Ha Hc Hn. destruct Hc; inversion Ha; subst.
  - unfold add_attribute. by rewrite show_app, Hone.
  - by apply Hto.
  - unfold replace_attribute. rewrite <- show_except.
    assert (Nat.eqb (length a) (length (attributes_except a n0)) =
            Nat.eqb (length (show a)) (length (show (attributes_except a n0)))) as ->.
    { rewrite show_except. apply Bool.eq_iff_eq_true. rewrite !Nat.eqb_eq, !except_same.
      by rewrite show_exists. }
    destruct (negb _); [|done]. by rewrite show_app, Hone.
  - by apply Hset.
  - apply show_except.
  - apply Hto. by apply Hcl.
  - (* remove_class *)
    assert (forall x c, attribute_has_class x c = true -> hid (a_name x) = false) as Hx.
    { intros x c' H. unfold attribute_has_class, attribute_classes in H.
      destruct (ident_is_eq (a_name x) (lit "class")) eqn:E; [|done]. by rewrite (Hcase _ _ E). }
    assert (has_class (show a) (id_str c) = has_class a (id_str c)) as Hhas.
    { unfold has_class. clear Ha. induction a as [|x a IH]; [done|]. rewrite show_cons. cbn.
      destruct (hid (a_name x)) eqn:E; [|cbn; by rewrite IH].
      destruct (attribute_has_class x (id_str c)) eqn:E2; [|done]. rewrite (Hx _ _ E2) in E. done. }
    unfold remove_class. rewrite Hhas. destruct (has_class a (id_str c)); [|done].
    clear Ha Hhas. induction a as [|x a IH]; [done|]. cbn [remove_class_loop]. rewrite show_cons.
    unfold attribute_remove_class, make_without. destruct (attribute_has_class x (id_str c)) eqn:E2; cbn [negb].
    + pose proof (Hx _ _ E2) as Hx2. rewrite Hx2. cbn [remove_class_loop].
      unfold attribute_remove_class, make_without. rewrite E2. cbn [negb].
      destruct (attribute_classes x) as [cs|] eqn:E3.
      * destruct (enc_is_empty _); [by rewrite IH|]. rewrite show_cons. cbn [a_name]. by rewrite Hx2, IH.
      * rewrite show_cons, Hx2. by rewrite IH.
    + rewrite show_cons. destruct (hid (a_name x)); [by rewrite IH|]. cbn [remove_class_loop].
      unfold attribute_remove_class, make_without. rewrite E2. cbn [negb]. by rewrite IH.
  - apply show_except.
  - apply Hset. by apply Hid.
Qed.
End Hidden.

Section Hidden2.
Context (hide : str -> bool) (Hcase : CaseBlind hide).
Context (Hcl : hide (lit "class") = false) (Hid : hide (lit "id") = false).
Notation show := (shown hide).
Notation hid i := (hide (id_str i)).

Lemma show_has_class a c : has_class (show a) c = has_class a c.
Proof.
  unfold has_class. induction a as [|x a IH]; [done|]. rewrite show_cons. cbn.
  destruct (hid (a_name x)) eqn:E; [|cbn; by rewrite IH].
  destruct (attribute_has_class x c) eqn:E2; [|done].
  unfold attribute_has_class, attribute_classes in E2.
  destruct (ident_is_eq (a_name x) (lit "class")) eqn:E3; [|done].
  apply Hcase in E3. congruence.
Qed.
Lemma show_has_id a i : has_id (show a) i = has_id a i.
Proof.
  induction a as [|x a IH]; [done|]. rewrite show_cons. cbn [has_id].
  destruct (ident_is_eq (a_name x) (lit "id")) eqn:E.
  - rewrite (Hcase _ _ E), Hid. cbn [has_id]. rewrite E, IH. done.
  - destruct (hid (a_name x)); [done|]. cbn [has_id]. by rewrite E, IH.
Qed.
Lemma only_attributes_coherent : Coherent (OnlyAttributes hide).
Proof. intros s s' t t' Hs Ht. cbn in *. congruence. Qed.
Lemma only_attributes_selector m : (forall f, m <> SelCustom f) -> alike_sel (OnlyAttributes hide) m m.
Proof.
  intros Hm e e' He.
  assert (forall a a' c, show a = show a' -> has_class a c = has_class a' c) as Hc.
  { intros a a' c H. by rewrite <- (show_has_class a), <- (show_has_class a'), H. }
  assert (forall a a' i, show a = show a' -> has_id a i = has_id a' i) as Hi.
  { intros a a' i H. by rewrite <- (show_has_id a), <- (show_has_id a'), H. }
  assert (forall t a a', show a = show a' -> forall m, (forall f, m <> SelCustom f) ->
    matches m (OpeningTag t a) = matches m (OpeningTag t a')) as Ht.
  { intros t a a' H m' Hm'. destruct m' as [i|i|i|is|s|f]; cbn.
    - by apply Hi.
    - done.
    - by apply Hc.
    - induction is as [|i is IH]; [done|]. cbn. by rewrite (Hc _ _ _ H), IH.
    - unfold static_matches. cbn. destruct s as [st si sc]. cbn.
      assert ((match sc with Some c => forallb (has_class a) (split_char c_dot c) | None => true end) =
              (match sc with Some c => forallb (has_class a') (split_char c_dot c) | None => true end)) as ->.
      { destruct sc as [c|]; [|done]. induction (split_char c_dot c) as [|x l IH]; [done|].
        cbn. by rewrite (Hc _ _ x H), IH. }
      destruct si as [i|]; [by rewrite (Hi _ _ i H)|done].
    - by destruct (Hm' f). }
  destruct He as [|x x' Hx Hx' HX|t t' a a' HT HA|t t' a a' HT HA|t t' a a' HT HA|t t' HT];
    cbn in *; subst; try done.
  - by apply Ht.
  - pose proof (Ht t' a a' HA m Hm) as H. destruct m; first [exact H | by edestruct Hm].
  - pose proof (Ht t' a a' HA m Hm) as H. destruct m; first [exact H | by edestruct Hm].
Qed.
Lemma only_attributes evs evs' p r r' : LibrarySelectors p -> NoFunctions p ->
  (forall o n, Occurs p o -> About o n -> hide n = false) ->
  Forall2 (LikeEvent (OnlyAttributes hide)) evs evs' -> Gives evs p r -> Gives evs' p r' ->
  LikeResult (OnlyAttributes hide) r r'.
Proof.
  intros Hs Hf Hn Hev Hg Hg'.
  assert (Like (OnlyAttributes hide) p p) as Hp.
  { apply like_self; [done..|]. intros o Ho. split_and!.
    - intros m Hm. eapply only_attributes_selector, Hs; eauto.
    - intros f E. rewrite (Hf o Ho) in E. discriminate.
    - intros f Hc a a' Ha. cbn in *.
      assert (exists n, About o n) as [n Hab] by (destruct Hc; eexists; constructor).
      rewrite !(show_change hide Hcase o n f _ Hab Hc (Hn o n Ho Hab)). by rewrite Ha. }
  destruct (proj1 (like_gives _ only_attributes_coherent evs evs' p p Hev Hp) r Hg) as (r2 & H2 & Hl).
  by rewrite (gives_det _ _ _ _ Hg' H2).
Qed.
End Hidden2.

(** ** Renamed tags *)

Definition Renaming (f : str -> str) : likeness := Likeness (fun t t' => t' = rename_ident f t) eq eq.

Section Renamed.
Context (f : str -> str) (Hf : Renames f).
Notation k := (Renaming f).

Lemma renaming_coherent : Coherent k.
Proof. intros s s' t t' -> ->. unfold ident_eqb. cbn. by rewrite Hf. Qed.
Lemma renamed_event e e' : LikeEvent k e e' <-> e' = rename_event f e.
Proof.
  split.
  - destruct 1 as [|x x' Hx Hx' HX|t t' a a' HT HA|t t' a a' HT HA|t t' a a' HT HA|t t' HT];
      cbn in *; subst; try done. by destruct x'.
  - intros ->. destruct e; cbn; constructor; done.
Qed.
Lemma renamed_events evs evs' : Forall2 (LikeEvent k) evs evs' <-> evs' = map (rename_event f) evs.
Proof.
  split.
  - induction 1 as [|e e' evs evs' He _ IH]; [done|]. cbn. apply renamed_event in He. by subst.
  - intros ->. induction evs; constructor; [by apply renamed_event|done].
Qed.
Lemma renamed_option e e' : LikeOption (LikeEvent k) e e' <-> e' = option_map (rename_event f) e.
Proof.
  split.
  - destruct 1 as [|e e' He]; [done|]. apply renamed_event in He. by subst.
  - intros ->. destruct e; constructor. by apply renamed_event.
Qed.
Lemma renamed_error e e' : LikeError k e e' <-> e' = rename_error f e.
Proof.
  split.
  - destruct 1 as [t t' Ht|e e' He|e e' t t' He Ht|err Herr].
    + cbn in *. by subst.
    + apply renamed_option in He. by subst.
    + apply renamed_option in He. cbn in *. by subst.
    + destruct err; try done. by destruct (Herr error).
  - intros ->. destruct e as [[t|e|e t]| | | | |]; cbn; try (by apply LR_same); constructor; try done;
      by apply renamed_option.
Qed.
Lemma renamed_content c : LikeContent k c (rename_content f c).
Proof.
  revert c. fix IH 1. intros [evs|d|v|s|z|evs stop|[c|e]]; cbn [rename_content].
  - by apply LC_template, renamed_events.
  - eapply LC_text; [constructor..|done].
  - eapply LC_text; [constructor..|done].
  - eapply LC_text; [constructor..|done].
  - eapply LC_text; [constructor..|done].
  - apply LC_stream; [by apply renamed_events|]. destruct stop; constructor. by apply renamed_error.
  - apply LC_ok, IH.
  - by apply LC_err, renamed_error.
Qed.
Lemma renamed_selector m : (forall g, m <> SelCustom g) -> alike_sel k m (rename_selector f m).
Proof.
  intros Hm e e' He. apply renamed_event in He as ->.
  destruct m as [i|i|i|is|s|g]; cbn [rename_selector].
  - by destruct e.
  - destruct e; cbn; try done; unfold ident_eqb; cbn; by rewrite Hf.
  - by destruct e.
  - by destruct e.
  - destruct e; cbn; try done; unfold static_matches; cbn; destruct (st_tag s); cbn; try done;
      unfold ident_is_eq; cbn; by rewrite Hf.
  - by destruct (Hm g).
Qed.
Definition ren_ok (o : op) : Prop :=
  (forall m, op_selector o = Some (inl m) -> forall g, m <> SelCustom g) /\ op_function o = None.
Lemma renamed_op : forall o, (forall o', Occurs [o] o' -> ren_ok o') -> LikeOp k o (rename_op f o).
Proof.
  fix IH 1. intros o Ho.
  assert (forall m, op_selector o = Some m -> LikeSelector k m (rename_argument f m)) as Hsel.
  { intros [m|err] Hm; constructor; [|by apply renamed_error].
    apply renamed_selector. by apply (Ho o (occurs_self o)). }
  destruct (changing o) eqn:Hch.
  { assert (rename_op f o = o) as -> by by destruct o.
    apply like_changing; [done|]. intros g _ a a' Ha. cbn in *. by subst. }
  pose proof renamed_content as Hc. pose proof (proj2 (Ho o (occurs_self o))) as Hself.
  destruct o; try discriminate; cbn [rename_op]; constructor; try apply Hc; try (apply Hsel; reflexivity).
  all: try (match goal with |- Like k ?p _ =>
    assert (forall o', Occurs p o' -> ren_ok o') as Hp
      by (intros o' Ho'; apply Ho; eapply occurs_sub; [|exact Ho']; first [reflexivity | by right]);
    clear Ho Hsel Hself Hch; induction p as [|a p IHp]; constructor;
    [apply IH; intros o' Ho'; apply Hp; eapply occurs_one; [|exact Ho']; by left
    |apply IHp; intros o' Ho'; apply Hp; inversion Ho'; subst;
       [by apply Occurs_here; right|eapply Occurs_deeper; [by right|done..]]] end; fail).
  all: try (match goal with |- forall i, Like k (?b i) _ => intros i;
    assert (forall o', Occurs (b i) o' -> ren_ok o') as Hp
      by (intros o' Ho'; apply Ho; eapply occurs_sub; [|exact Ho']; by exists i);
    clear Ho Hsel Hself Hch; induction (b i) as [|a p IHp]; constructor;
    [apply IH; intros o' Ho'; apply Hp; eapply occurs_one; [|exact Ho']; by left
    |apply IHp; intros o' Ho'; apply Hp; inversion Ho'; subst;
       [by apply Occurs_here; right|eapply Occurs_deeper; [by right|done..]]] end; fail).
  all: match goal with |- LikeAll k ?bs _ =>
    assert (forall p o', In p bs -> Occurs p o' -> ren_ok o') as Hb
      by (intros p' o' Hin Ho'; apply Ho; eapply occurs_sub; [|exact Ho']; first [exact Hin | by left]);
    clear Ho Hsel Hself Hch; induction bs as [|q qs IHbs]; constructor;
    [|apply IHbs; intros p' o' Hin; apply Hb; by right];
    assert (forall o', Occurs q o' -> ren_ok o') as Hp by (intros o' Ho'; apply (Hb q); [by left|done]);
    clear Hb IHbs; induction q as [|a q IHp]; constructor;
    [apply IH; intros o' Ho'; apply Hp; eapply occurs_one; [|exact Ho']; by left
    |apply IHp; intros o' Ho'; apply Hp; inversion Ho'; subst;
       [by apply Occurs_here; right|eapply Occurs_deeper; [by right|done..]]] end.
Qed.
Lemma renamed p : (forall o, Occurs p o -> ren_ok o) -> Like k p (map (rename_op f) p).
Proof.
  intros Hp. induction p as [|a p IHp]; constructor.
  - apply renamed_op. intros o' Ho'. apply Hp. eapply occurs_one; [|exact Ho']. by left.
  - apply IHp. intros o' Ho'. apply Hp. inversion Ho'; subst.
    + by apply Occurs_here; right.
    + eapply Occurs_deeper; [by right|done..].
Qed.
Lemma renamed_gives evs p r : LibrarySelectors p -> NoFunctions p -> Gives evs p r ->
  Gives (map (rename_event f) evs) (map (rename_op f) p) (rename_result f r).
Proof.
  intros Hs Hn Hg.
  assert (Like k p (map (rename_op f) p)) as Hp.
  { apply renamed. intros o Ho. split; [|by apply Hn]. intros m Hm g. by eapply Hs. }
  destruct (proj1 (like_gives k renaming_coherent evs _ p _ (proj2 (renamed_events evs _) eq_refl) Hp) r Hg)
    as (r' & Hr & Hl).
  assert (r' = rename_result f r) as <-; [|done].
  destruct Hl as [out out' Ho|err err' He]; cbn.
  - by rewrite (proj1 (renamed_events _ _) Ho).
  - by rewrite (proj1 (renamed_error _ _) He).
Qed.
End Renamed.
