(** Proofs about [Text]. *)
From Coq Require Import String List NArith ZArith Bool Lia.
Import ListNotations.
From Verif Require Import Text SpecText.
Open Scope N_scope.

Global Arguments N.eqb : simpl never.
Global Arguments N.ltb : simpl never.
Global Arguments N.leb : simpl never.
Global Arguments N.add : simpl never.
Global Arguments N.sub : simpl never.
Global Arguments N.mul : simpl never.
Global Arguments in_chars : simpl never.
Global Arguments is_whitespace : simpl never.
Global Arguments lit : simpl never.

(** ** Generic lemmas *)

Lemma str_eqb_spec a b : str_eqb a b = true <-> a = b.
Proof.
  revert b; induction a as [|x a IH]; intros [|y b]; simpl; try (split; congruence).
  rewrite andb_true_iff, N.eqb_eq, IH. split; [intros [-> ->]|intros [= -> ->]]; auto.
Qed.
Lemma str_eqb_refl a : str_eqb a a = true.
Proof. now apply str_eqb_spec. Qed.

Lemma in_chars_spec cs c : in_chars cs c = true <-> In c cs.
Proof.
  unfold in_chars. rewrite existsb_exists. split.
  - intros (x & H & E). apply N.eqb_eq in E. now subst.
  - intros H. exists c. split; auto. apply N.eqb_refl.
Qed.

Lemma find_char_none p s : find_char p s = None <-> forall c, In c s -> p c = false.
Proof.
  induction s as [|c s IH]; simpl; [split; [tauto|auto]|].
  destruct (p c) eqn:E.
  - split; [discriminate|]. intros H. specialize (H c (or_introl eq_refl)). congruence.
  - destruct (find_char p s).
    + split; [discriminate|]. intros H. exfalso.
      assert (@Some nat n = None) by (apply IH; auto). discriminate.
    + split; auto. intros _ x [<-|Hx]; auto. now apply IH.
Qed.

Lemma find_char_some p s n : find_char p s = Some n ->
  exists pre c post, s = pre ++ c :: post /\ length pre = n /\ p c = true /\
                     forall x, In x pre -> p x = false.
Proof.
  revert n; induction s as [|c s IH]; simpl; intros n H; [discriminate|].
  destruct (p c) eqn:E.
  - injection H as <-. exists [], c, s. repeat split; auto. intros x [].
  - destruct (find_char p s) as [m|]; [|discriminate]. injection H as <-.
    destruct (IH m eq_refl) as (pre & d & post & -> & <- & Hd & Hpre).
    exists (c :: pre), d, post. repeat split; auto. intros x [<-|Hx]; auto.
Qed.

Lemma find_char_app p pre c post :
  (forall x, In x pre -> p x = false) -> p c = true ->
  find_char p (pre ++ c :: post) = Some (length pre).
Proof.
  intros Hpre Hc. induction pre as [|x pre IH]; simpl; [now rewrite Hc|].
  rewrite (Hpre x) by (left; auto). rewrite IH; auto. intros y Hy. apply Hpre; now right.
Qed.

Lemma find_char_lt p s n : find_char p s = Some n -> (n < length s)%nat.
Proof.
  intros H. apply find_char_some in H. destruct H as (pre & c & post & -> & <- & _).
  rewrite app_length. simpl. lia.
Qed.

Lemma firstn_app_exact {A} (a b : list A) : firstn (length a) (a ++ b) = a.
Proof. rewrite firstn_app, Nat.sub_diag, firstn_all; simpl. now rewrite app_nil_r. Qed.
Lemma skipn_app_exact {A} (a b : list A) : skipn (length a) (a ++ b) = b.
Proof. rewrite skipn_app, Nat.sub_diag, skipn_all; simpl. auto. Qed.

(** ** Encoding *)

(** the encoder as a character-wise function *)
Definition escape1 (c : char) : str :=
  match encode_char c with Some e => e | None => [c] end.
Definition escape (s : str) : str := flat_map escape1 s.

Lemma encode_char_some c : in_chars ENCODE_CHARS c = true -> exists e, encode_char c = Some e.
Proof.
  rewrite in_chars_spec. unfold encode_char. simpl. intros H.
  destruct H as [<-|[<-|[<-|[<-|[]]]]]; vm_compute; eauto.
Qed.
Lemma encode_char_none c : in_chars ENCODE_CHARS c = false -> encode_char c = None.
Proof.
  unfold in_chars, ENCODE_CHARS, encode_char; simpl. rewrite !orb_false_iff.
  intros (-> & -> & -> & -> & _). reflexivity.
Qed.
Lemma escape_plain s : (forall c, In c s -> in_chars ENCODE_CHARS c = false) -> escape s = s.
Proof.
  intros H. unfold escape. induction s as [|c s IH]; simpl; auto.
  unfold escape1 at 1. rewrite encode_char_none by (apply H; now left). simpl.
  f_equal. apply IH. intros x Hx. apply H. now right.
Qed.
Lemma escape_app a b : escape (a ++ b) = escape a ++ escape b.
Proof. unfold escape. apply flat_map_app. Qed.

Lemma encode_parts_correct fuel s acc : (length s < fuel)%nat ->
  encode_parts fuel s acc = EncDone (acc ++ escape s).
Proof.
  revert s acc; induction fuel as [|fuel IH]; intros s acc Hf; [lia|].
  simpl. destruct s as [|c0 s0]; [unfold escape; simpl; now rewrite app_nil_r|].
  remember (c0 :: s0) as s eqn:Es. clear Es c0 s0.
  destruct (find_char (in_chars ENCODE_CHARS) s) as [n|] eqn:E.
  - apply find_char_some in E. destruct E as (pre & c & post & -> & <- & Hc & Hpre).
    rewrite skipn_app_exact, firstn_app_exact.
    destruct (encode_char_some c Hc) as [e He]. rewrite He, IH.
    2:{ rewrite app_length in Hf; simpl in Hf; lia. }
    f_equal. rewrite escape_app. rewrite (escape_plain pre) by auto.
    unfold escape at 2. simpl. unfold escape1 at 1. rewrite He.
    rewrite <- !app_assoc. reflexivity.
  - rewrite skipn_all, firstn_all. rewrite escape_plain; auto. now apply find_char_none.
Qed.

Lemma static_opt s : enc_from_unencoded_static_str_opt s =
  Some (Encoded (if existsb (in_chars ENCODE_CHARS) s then Actual (escape s) else StaticStr s)).
Proof.
  unfold enc_from_unencoded_static_str_opt, encode_str_optional.
  destruct (find_char (in_chars ENCODE_CHARS) s) as [n|] eqn:E.
  - rewrite encode_parts_correct by lia. simpl.
    apply find_char_some in E. destruct E as (pre & c & post & -> & _ & Hc & _).
    rewrite existsb_app. simpl. rewrite Hc, orb_true_r. reflexivity.
  - rewrite find_char_none in E.
    replace (existsb (in_chars ENCODE_CHARS) s) with false; auto.
    symmetry. apply not_true_iff_false. rewrite existsb_exists. intros (x & Hx & H).
    rewrite E in H; [discriminate|auto].
Qed.

Lemma static_never_panics s : exists e, enc_from_unencoded_static_str_opt s = Some e.
Proof. rewrite static_opt. eauto. Qed.

Lemma static_str s : enc_str (enc_from_unencoded_static_str s) = escape s.
Proof.
  unfold enc_from_unencoded_static_str. rewrite static_opt. unfold enc_str; simpl.
  destruct (existsb (in_chars ENCODE_CHARS) s) eqn:E; simpl; auto.
  symmetry. apply escape_plain. intros c Hc. apply not_true_iff_false. intros H.
  apply not_true_iff_false in E. apply E. apply existsb_exists. eauto.
Qed.

Lemma escape1_cases c :
  (Entity c (escape1 c)) \/ (escape1 c = [c] /\ c <> 38 /\ c <> 60 /\ c <> 62 /\ c <> 34).
Proof.
  unfold escape1, encode_char, c_amp, c_lt, c_gt, c_quot.
  destruct (N.eqb_spec c 38) as [->|]; [left; constructor|].
  destruct (N.eqb_spec c 60) as [->|]; [left; constructor|].
  destruct (N.eqb_spec c 62) as [->|]; [left; constructor|].
  destruct (N.eqb_spec c 34) as [->|]; [left; constructor|]. right. auto.
Qed.

Lemma escape_decodes s : Decodes (escape s) s.
Proof.
  induction s as [|c s IH]; [constructor|]. change (escape (c :: s)) with (escape1 c ++ escape s).
  destruct (escape1_cases c) as [H|(-> & H & _)].
  - now constructor.
  - simpl. now constructor.
Qed.

Lemma entity_cons c e : Entity c e -> exists t, e = 38 :: t.
Proof. intros []; vm_compute; eauto. Qed.
Lemma entity_app_inj c e r c' e' r' :
  Entity c e -> Entity c' e' -> e ++ r = e' ++ r' -> c = c' /\ r = r'.
Proof.
  intros [] []; vm_compute; intros [= H]; try discriminate; auto.
Qed.

Lemma decodes_functional r s s' : Decodes r s -> Decodes r s' -> s = s'.
Proof.
  intros H. revert s'. induction H as [|c r s Hc H IH|c e r s He H IH]; intros s' H'.
  - inversion H' as [| |c e r s He Hr E]; auto. destruct (entity_cons _ _ He) as [t ->].
    discriminate.
  - inversion H' as [|c' r' s2 Hc' Hr E|c' e r' s2 He Hr E]; subst.
    + f_equal; auto.
    + destruct (entity_cons _ _ He) as [t ->]. injection E as E _. congruence.
  - remember (e ++ r) as er eqn:E. destruct H' as [|c' r' s2 Hc' Hr|c' e' r' s2 He' Hr].
    + destruct (entity_cons _ _ He) as [t ->]. discriminate.
    + destruct (entity_cons _ _ He) as [t ->]. injection E as E _. congruence.
    + destruct (entity_app_inj _ _ _ _ _ _ He He' (eq_sym E)) as [-> ->]. f_equal; auto.
Qed.

Lemma skip_prefix (x : char) t r pre post : ~ In x t -> t ++ r = pre ++ x :: post ->
  exists pre', r = pre' ++ x :: post.
Proof.
  revert pre; induction t as [|y t IH]; intros pre Ht E; simpl in *; [eauto|].
  destruct pre as [|z pre]; simpl in E; injection E as -> E.
  - tauto.
  - apply (IH pre); tauto.
Qed.

Lemma escape_inert s : Inert (escape s).
Proof.
  split.
  - intros c Hc. unfold escape in Hc. apply in_flat_map in Hc. destruct Hc as (x & _ & Hc).
    destruct (escape1_cases x) as [H|(E & H)].
    + destruct H; vm_compute in Hc;
        repeat (destruct Hc as [<-|Hc]; [repeat split; discriminate|]); destruct Hc.
    + rewrite E in Hc. destruct Hc as [<-|[]]. tauto.
  - induction s as [|c s IH]; intros pre post E.
    { destruct pre; discriminate. }
    change (escape (c :: s)) with (escape1 c ++ escape s) in E.
    destruct (escape1_cases c) as [H|(Ec & H & _)].
    + (* the '&' is the first of the entity or comes later *)
      destruct pre as [|p pre].
      * exists c, (escape1 c), (escape s). split; auto.
      * assert (exists t, escape1 c = 38 :: t /\ ~ In 38 t) as (t & Et & Ht).
        { destruct H; eexists; (split; [vm_compute; reflexivity|]); vm_compute;
            intuition discriminate. }
        rewrite Et in E. injection E as _ E. destruct (skip_prefix _ _ _ _ _ Ht E) as [pre' E'].
        apply (IH _ _ E').
    + rewrite Ec in E. simpl in E. destruct pre as [|p pre]; simpl in E.
      * injection E as E _. congruence.
      * injection E as _ E. apply (IH _ _ E).
Qed.

(** ** Identifiers *)

Lemma is_whitespace_ascii c : c < 128 -> (is_whitespace c = true <-> AsciiSpace c).
Proof.
  intros H. unfold is_whitespace, AsciiSpace.
  rewrite !orb_true_iff, !andb_true_iff, !N.leb_le, !N.eqb_eq. lia.
Qed.
Lemma forbidden_spec c : in_chars FORBIDDEN c = true <-> ForbiddenChar c.
Proof. apply in_chars_spec. Qed.
Lemma is_ascii_spec s : is_ascii s = true <-> forall c, In c s -> c < 128.
Proof.
  unfold is_ascii, char_is_ascii. rewrite forallb_forall.
  split; intros H c Hc; specialize (H c Hc); now apply N.ltb_lt.
Qed.

Lemma find_none_iff {A} (f : A -> bool) l : find f l = None <-> forall x, In x l -> f x = false.
Proof.
  split; [apply find_none|]. intros H. destruct (find f l) eqn:E; auto.
  apply find_some in E. destruct E as [E1 E2]. rewrite H in E2; auto. discriminate.
Qed.
Lemma find_first {A} (f : A -> bool) l x : find f l = Some x ->
  exists pre post, l = pre ++ x :: post /\ f x = true /\ forall y, In y pre -> f y = false.
Proof.
  induction l as [|a l IH]; simpl; [discriminate|]. destruct (f a) eqn:E.
  - intros [= ->]. exists [], l. repeat split; auto. intros y [].
  - intros H. destruct (IH H) as (pre & post & -> & Hx & Hp).
    exists (a :: pre), post. repeat split; auto. intros y [<-|Hy]; auto.
Qed.
Lemma find_first_conv {A} (f : A -> bool) pre x post :
  f x = true -> (forall y, In y pre -> f y = false) -> find f (pre ++ x :: post) = Some x.
Proof.
  intros Hx Hp. induction pre as [|a pre IH]; simpl; [now rewrite Hx|].
  rewrite (Hp a) by now left. apply IH. intros y Hy. apply Hp. now right.
Qed.

Lemma validate_ok s : ValidName s -> validate s = inl s.
Proof.
  intros [Hne H]. unfold validate. destruct s as [|c s]; [congruence|].
  remember (c :: s) as t. clear Heqt.
  replace (is_ascii t) with true.
  2:{ symmetry. apply is_ascii_spec. intros x Hx. now apply H. }
  simpl.
  replace (find is_whitespace t) with (@None char).
  2:{ symmetry. apply find_none_iff. intros x Hx. destruct (H x Hx) as (H1 & H2 & _).
      apply not_true_iff_false. rewrite is_whitespace_ascii; auto. }
  replace (find (in_chars FORBIDDEN) t) with (@None char); auto.
  symmetry. apply find_none_iff. intros x Hx. destruct (H x Hx) as (_ & _ & H3).
  apply not_true_iff_false. now rewrite forbidden_spec.
Qed.

Lemma validate_inv s :
  match validate s with
  | inl t => t = s /\ ValidName s
  | inr e => NameError s e
  end.
Proof.
  unfold validate. destruct s as [|c s]; [reflexivity|].
  remember (c :: s) as t eqn:Et.
  assert (Hne : t <> []) by (rewrite Et; discriminate). clear Et c s.
  destruct (is_ascii t) eqn:Ha; simpl.
  - rewrite is_ascii_spec in Ha.
    destruct (find is_whitespace t) as [w|] eqn:Ew.
    + apply find_first in Ew. destruct Ew as (pre & post & -> & Hw & Hp).
      split; auto. exists pre, post. repeat split; auto.
      * apply is_whitespace_ascii; auto. apply Ha, in_or_app. right; now left.
      * intros x Hx. rewrite <- is_whitespace_ascii.
        -- rewrite Hp; auto.
        -- apply Ha, in_or_app. now left.
    + assert (Hnw : forall x, In x t -> ~ AsciiSpace x).
      { intros x Hx. rewrite find_none_iff in Ew. rewrite <- is_whitespace_ascii by auto.
        rewrite Ew; auto. }
      destruct (find (in_chars FORBIDDEN) t) as [w|] eqn:Ef.
      * apply find_first in Ef. destruct Ef as (pre & post & E & Hw & Hp).
        split; auto. split; auto. exists pre, post. repeat split; auto.
        -- now apply forbidden_spec.
        -- intros x Hx. rewrite <- forbidden_spec, Hp; auto.
      * split; auto. split; auto. intros x Hx. repeat split; auto.
        rewrite find_none_iff in Ef. rewrite <- forbidden_spec, Ef; auto.
  - assert (E : existsb (fun c => negb (char_is_ascii c)) t = true).
    { clear Hne. induction t as [|c t IH]; simpl in *; [discriminate|].
      destruct (char_is_ascii c); simpl in *; auto. }
    apply existsb_exists in E. destruct E as (x & Hx & E). exists x. split; auto.
    unfold char_is_ascii in E. apply negb_true_iff, N.ltb_ge in E. auto.
Qed.

Lemma validate_iff s : (exists t, validate s = inl t) <-> ValidName s.
Proof.
  split.
  - intros [t E]. pose proof (validate_inv s) as H. rewrite E in H. tauto.
  - intros H. exists s. now apply validate_ok.
Qed.

Lemma first_such_unique P c d s : FirstSuch P c s -> FirstSuch P d s -> c = d.
Proof.
  intros (p1 & q1 & E1 & H1 & N1) (p2 & q2 & E2 & H2 & N2). subst s.
  revert p2 N2 E2. induction p1 as [|x p1 IH]; intros [|y p2] N2 E2; simpl in *.
  - congruence.
  - injection E2 as -> E2. exfalso. apply (N2 y); auto.
  - injection E2 as -> E2. exfalso. apply (N1 d); auto.
  - injection E2 as -> E2. apply (IH (fun z Hz => N1 z (or_intror Hz)) p2); auto.
Qed.

(** a given text has at most one reason for rejection, and none if it is valid *)
Lemma name_error_functional s e e' : NameError s e -> NameError s e' -> e = e'.
Proof.
  assert (L : forall c P s, FirstSuch P c s -> In c s /\ P c).
  { intros c P s0 (p & q & -> & H & _). split; auto. apply in_or_app. right; now left. }
  assert (X : forall c, (forall x, In x s -> x < 128) -> In c s -> 128 <= c -> False).
  { intros c H Hc Hge. specialize (H c Hc). lia. }
  destruct e as [| |c|c], e' as [| |d|d]; simpl; intros H H'; auto.
  - subst. destruct H' as (x & [] & _).
  - subst. destruct H' as (_ & H'). apply L in H'. destruct H' as [[] _].
  - subst. destruct H' as (_ & _ & H'). apply L in H'. destruct H' as [[] _].
  - subst. destruct H as (x & [] & _).
  - destruct H as (x & Hx & H), H' as (H' & _). exfalso; eauto.
  - destruct H as (x & Hx & H), H' as (H' & _). exfalso; eauto.
  - subst. destruct H as (_ & H). apply L in H. destruct H as [[] _].
  - destruct H' as (x & Hx & H'), H as (H & _). exfalso; eauto.
  - destruct H as [_ H], H' as [_ H']. f_equal. eapply first_such_unique; eauto.
  - destruct H as [_ H], H' as (_ & H' & _). apply L in H. destruct H as [H1 H2].
    exfalso. eapply H'; eauto.
  - subst. destruct H as (_ & _ & H). apply L in H. destruct H as [[] _].
  - destruct H' as (x & Hx & H'), H as (H & _). exfalso; eauto.
  - destruct H as (_ & H & _), H' as [_ H']. apply L in H'. destruct H' as [H1 H2].
    exfalso. eapply H; eauto.
  - destruct H as (_ & _ & H), H' as (_ & _ & H'). f_equal. eapply first_such_unique; eauto.
Qed.
Lemma name_error_invalid s e : NameError s e -> ~ ValidName s.
Proof.
  intros H [Hne Hv]. destruct e as [| |c|c]; simpl in H.
  - auto.
  - destruct H as (c & Hc & H). apply Hv in Hc. lia.
  - destruct H as (_ & pre & post & -> & H & _).
    destruct (Hv c) as (_ & H' & _); auto. apply in_or_app; right; now left.
  - destruct H as (_ & _ & pre & post & -> & H & _).
    destruct (Hv c) as (_ & _ & H'); auto. apply in_or_app; right; now left.
Qed.

Lemma ident_from_str_iff s i :
  ident_from_str s = inl i <-> ValidName s /\ i = Ident (Actual s).
Proof.
  unfold ident_from_str. pose proof (validate_inv s) as H.
  destruct (validate s) as [t|e] eqn:E.
  - destruct H as [-> H]. split; [intros [= <-]; auto|intros [_ ->]; auto].
  - split; [discriminate|]. intros [Hv _]. apply validate_ok in Hv. congruence.
Qed.
Lemma ident_from_static_str_iff s i :
  ident_from_static_str s = inl i <-> ValidName s /\ i = Ident (StaticStr s).
Proof.
  unfold ident_from_static_str. pose proof (validate_inv s) as H.
  destruct (validate s) as [t|e] eqn:E.
  - destruct H as [-> H]. split; [intros [= <-]; auto|intros [_ ->]; auto].
  - split; [discriminate|]. intros [Hv _]. apply validate_ok in Hv. congruence.
Qed.
Lemma ident_from_str_err s e : ident_from_str s = inr e <-> NameError s e.
Proof.
  unfold ident_from_str. pose proof (validate_inv s) as H.
  destruct (validate s) as [t|e'] eqn:E.
  - destruct H as [-> H]. split; [discriminate|]. intros He. now apply name_error_invalid in He.
  - split; [intros [= <-]; auto|]. intros He. f_equal. eapply name_error_functional; eauto.
Qed.
Lemma ident_from_static_str_err s e : ident_from_static_str s = inr e <-> NameError s e.
Proof.
  unfold ident_from_static_str. pose proof (validate_inv s) as H.
  destruct (validate s) as [t|e'] eqn:E.
  - destruct H as [-> H]. split; [discriminate|]. intros He. now apply name_error_invalid in He.
  - split; [intros [= <-]; auto|]. intros He. f_equal. eapply name_error_functional; eauto.
Qed.

(** ** Equality of identifiers *)

Definition valid_ident (i : ident) : Prop := ValidName (id_str i).

Lemma lower_same x y : to_ascii_lower x = to_ascii_lower y <-> SameLetter x y.
Proof.
  unfold to_ascii_lower, SameLetter.
  destruct (N.leb_spec 65 x), (N.leb_spec x 90), (N.leb_spec 65 y), (N.leb_spec y 90);
    simpl; lia.
Qed.
Lemma eq_ignore_spec a b : eq_ignore_ascii_case a b = true <-> SameName a b.
Proof.
  unfold eq_ignore_ascii_case, SameName. rewrite str_eqb_spec.
  revert b; induction a as [|x a IH]; intros [|y b]; simpl.
  - split; constructor.
  - split; [discriminate|inversion 1].
  - split; [discriminate|inversion 1].
  - split.
    + intros [= H1 H2]. constructor; [now apply lower_same|now apply IH].
    + inversion 1; subst. f_equal; [now apply lower_same|now apply IH].
Qed.
Lemma identifier_eq_spec a b :
  identifier_eq a b = true <-> is_ascii a = true /\ is_ascii b = true /\ SameName a b.
Proof. unfold identifier_eq. rewrite !andb_true_iff, eq_ignore_spec. tauto. Qed.

Lemma same_name_refl a : SameName a a.
Proof. induction a; constructor; auto. now left. Qed.
Lemma same_name_sym a b : SameName a b -> SameName b a.
Proof. unfold SameName, SameLetter. induction 1; constructor; auto. lia. Qed.
Lemma same_name_trans a b c : SameName a b -> SameName b c -> SameName a c.
Proof.
  rewrite <- !eq_ignore_spec. unfold eq_ignore_ascii_case. rewrite !str_eqb_spec. congruence.
Qed.

Lemma same_name_ascii a b : SameName a b -> is_ascii a = is_ascii b.
Proof.
  induction 1 as [|x y a b H _ IH]; auto. unfold is_ascii in *. simpl. rewrite IH. f_equal.
  unfold char_is_ascii, SameLetter in *. destruct (N.ltb_spec x 128), (N.ltb_spec y 128); auto; lia.
Qed.

Lemma valid_ascii s : ValidName s -> is_ascii s = true.
Proof. intros [_ H]. apply is_ascii_spec. intros c Hc. now apply H. Qed.

Lemma ident_eqb_spec a b : valid_ident a -> valid_ident b ->
  (ident_eqb a b = true <-> SameName (id_str a) (id_str b)).
Proof.
  intros Ha Hb. unfold ident_eqb. rewrite identifier_eq_spec.
  rewrite (valid_ascii _ Ha), (valid_ascii _ Hb). tauto.
Qed.
Lemma ident_eqb_sym a b : ident_eqb a b = ident_eqb b a.
Proof.
  apply eq_true_iff_eq. unfold ident_eqb. rewrite !identifier_eq_spec.
  split; intros (? & ? & ?); repeat split; auto; now apply same_name_sym.
Qed.
Lemma ident_eqb_trans a b c : ident_eqb a b = true -> ident_eqb b c = true -> ident_eqb a c = true.
Proof.
  unfold ident_eqb. rewrite !identifier_eq_spec. intros (? & ? & ?) (? & ? & ?).
  repeat split; auto. eapply same_name_trans; eauto.
Qed.
Lemma ident_eqb_refl a : is_ascii (id_str a) = true -> ident_eqb a a = true.
Proof. intros H. apply identifier_eq_spec. repeat split; auto. apply same_name_refl. Qed.
(** equal identifiers cannot be told apart by comparing with a third one *)
Lemma ident_eqb_cong a b c : ident_eqb a b = true -> ident_eqb a c = ident_eqb b c.
Proof.
  intros H. apply eq_true_iff_eq. split; intros H'.
  - eapply ident_eqb_trans; [rewrite ident_eqb_sym; exact H|exact H'].
  - eapply ident_eqb_trans; eauto.
Qed.

(** ** Decimal numerals *)

Lemma read_digits_app acc s t : read_digits acc (s ++ t) = read_digits (read_digits acc s) t.
Proof. revert acc; induction s; intros acc; simpl; auto. Qed.

Lemma decimal_aux_spec fuel n acc : n < 2 ^ N.of_nat fuel -> (0 < fuel)%nat ->
  exists s, decimal_aux fuel n acc = s ++ acc /\ s <> [] /\ Forall IsDigit s /\
            (forall a, read_digits a s = a * 10 ^ N.of_nat (length s) + n) /\
            (forall r, s = 48 :: r -> r = []).
Proof.
  revert n acc; induction fuel as [|fuel IH]; intros n acc Hn Hf; [lia|]. simpl.
  pose proof (N.mod_upper_bound n 10 ltac:(lia)) as Hm.
  destruct (N.ltb_spec n 10) as [Hlt|Hge].
  - exists [48 + n mod 10]. rewrite N.mod_small by lia. repeat split; auto.
    + discriminate.
    + constructor; [|constructor]. unfold IsDigit. lia.
    + intros a. simpl. unfold digit_value. lia.
    + intros r [= _ <-]. auto.
  - rewrite Nnat.Nat2N.inj_succ, N.pow_succ_r in Hn by lia.
    assert (Hq : n / 10 < 2 ^ N.of_nat fuel).
    { apply N.div_lt_upper_bound; lia. }
    destruct fuel as [|fuel'].
    { simpl in Hn. lia. }
    destruct (IH (n / 10) (48 + n mod 10 :: acc) Hq ltac:(lia)) as (s & E & Hne & Hd & Hr & H0).
    rewrite E. exists (s ++ [48 + n mod 10]). rewrite <- app_assoc. simpl.
    repeat split; auto.
    + destruct s; discriminate.
    + apply Forall_app. split; auto. constructor; [|constructor]. unfold IsDigit.
      revert Hm. generalize (n mod 10). intros; lia.
    + intros a. rewrite read_digits_app, Hr. simpl. unfold digit_value.
      rewrite app_length. simpl. rewrite Nnat.Nat2N.inj_add, N.pow_add_r.
      change (10 ^ N.of_nat 1) with 10. pose proof (N.div_mod n 10 ltac:(lia)).
      replace (48 + n mod 10 - 48) with (n mod 10) by (generalize (n mod 10); intros; lia).
      replace (a * (10 ^ N.of_nat (length s) * 10)) with (10 * (a * 10 ^ N.of_nat (length s)))
        by (rewrite (N.mul_comm _ 10), !N.mul_assoc, (N.mul_comm a 10); reflexivity).
      lia.
    + intros r Er. destruct s as [|d s]; [congruence|]. injection Er as -> Er.
      rewrite (H0 s eq_refl) in *. exfalso. specialize (Hr 0). simpl in Hr.
      unfold digit_value in Hr. assert (10 / 10 <= n / 10) by (apply N.div_le_mono; lia).
      change (10 / 10) with 1 in *. lia.
Qed.

Lemma decimal_numeral n : Numeral n (decimal n).
Proof.
  unfold decimal. destruct (decimal_aux_spec (S (N.to_nat (N.log2 n))) n []) as
    (s & -> & Hne & Hd & Hr & H0).
  - rewrite Nnat.Nat2N.inj_succ, Nnat.N2Nat.id. destruct (N.eq_dec n 0) as [->|].
    + vm_compute; reflexivity.
    + apply N.log2_spec. lia.
  - lia.
  - rewrite app_nil_r. repeat split; auto. now rewrite Hr.
Qed.

Lemma decimal_z_numeral z : SignedNumeral z (decimal_z z).
Proof.
  destruct z as [|p|p]; simpl.
  - apply decimal_numeral.
  - apply decimal_numeral.
  - exists (decimal (Npos p)). split; auto. apply decimal_numeral.
Qed.

Lemma numeral_markup n s c : Numeral n s -> In c s -> IsDigit c.
Proof. intros (_ & H & _) Hc. rewrite Forall_forall in H. auto. Qed.

Lemma decimal_z_chars z c : In c (decimal_z z) -> IsDigit c \/ c = 45.
Proof.
  destruct z as [|p|p]; unfold decimal_z.
  - intros H. left. eapply numeral_markup; [apply decimal_numeral|exact H].
  - intros H. left. eapply numeral_markup; [apply decimal_numeral|exact H].
  - intros [<-|H]; [now right|]. left. eapply numeral_markup; [apply decimal_numeral|exact H].
Qed.

Lemma signed_numeral_inj z z' s : SignedNumeral z s -> SignedNumeral z' s -> z = z'.
Proof.
  assert (L : forall n s t, Numeral n s -> s <> 45 :: t).
  { intros n s0 t (_ & H & _) ->. inversion H. unfold IsDigit in *. lia. }
  assert (U : forall n m s, Numeral n s -> Numeral m s -> n = m).
  { intros n m s0 (_ & _ & H & _) (_ & _ & H' & _). congruence. }
  assert (P : forall z z' s, Numeral (Z.to_N z) s -> Numeral (Z.to_N z') s ->
                             (0 <= z)%Z -> (0 <= z')%Z -> z = z').
  { intros a b s0 H H' Ha Hb. pose proof (U _ _ _ H H'). lia. }
  destruct z as [|p|p], z' as [|p'|p']; intros H H';
    try (eapply P; [exact H|exact H'|lia|lia]; fail).
  - destruct H' as (t & -> & _). exfalso. eapply L; eauto.
  - destruct H' as (t & -> & _). exfalso. eapply L; eauto.
  - destruct H as (t & -> & _). exfalso. eapply L; eauto.
  - destruct H as (t & -> & _). exfalso. eapply L; eauto.
  - destruct H as (t & -> & H), H' as (t' & E & H'). injection E as <-.
    pose proof (U _ _ _ H H') as E. congruence.
Qed.
