(** The messages have the wording of the specification, and nothing else has. *)
From Coq Require Import String List NArith Bool Lia.
Import ListNotations.
From Verif Require Import Text Event Input Parse Selector Template Messages SpecText SpecWording TextProofs MessageProofs.
Open Scope N_scope.

(** ** Numerals are unique *)

Section numerals.
Context (B : N) (val : char -> N) (dig : char -> Prop) (V : str -> N).
Context (V_nil : V [] = 0) (V_snoc : forall s c, V (s ++ [c]) = B * V s + val c)
        (val_lt : forall c, dig c -> val c < B)
        (val_inj : forall c d, dig c -> dig d -> val c = val d -> c = d)
        (zero_dig : dig 48) (zero : val 48 = 0).
Lemma numeral_positive s : Forall dig s -> s <> [] -> (forall r, s <> 48 :: r) -> 0 < V s.
Proof.
  induction s as [|c s IH] using rev_ind; [easy|]. intros Hd _ Hz. apply Forall_app in Hd as [Hd Hc].
  inversion_clear Hc. rewrite V_snoc. destruct s as [|x s].
  - rewrite V_nil. assert (val c <> 0); [|lia]. intros E. apply (Hz []). cbn. f_equal. apply val_inj; auto. lia.
  - assert (0 < V (x :: s)).
    { apply IH; [auto|easy|]. intros r E. injection E as -> ->. now apply (Hz (r ++ [c])). }
    assert (val c < B) by auto. assert (B * 1 <= B * V (x :: s)) by (apply N.mul_le_mono_l; lia). lia.
Qed.
Lemma numeral_unique s : forall t, Forall dig s -> Forall dig t -> s <> [] -> t <> [] ->
  (forall r, s = 48 :: r -> r = []) -> (forall r, t = 48 :: r -> r = []) -> V s = V t -> s = t.
Proof.
  induction s as [|c s IH] using rev_ind; [easy|]. intros t Hs Ht _ Hn Zs Zt E.
  destruct t as [|d t _] using rev_ind; [easy|].
  apply Forall_app in Hs as [Hs Hc], Ht as [Ht Hd]. inversion_clear Hc. inversion_clear Hd.
  rewrite !V_snoc in E. assert (val c < B /\ val d < B) as [Lc Ld] by auto.
  assert (V s = V t /\ val c = val d) as [E1 E2].
  { apply (N.div_mod_unique B); lia. }
  assert (c = d) as -> by auto. f_equal.
  assert (P : forall u x, Forall dig u -> (forall r, u ++ [x] = 48 :: r -> r = []) -> u <> [] -> 0 < V u).
  { intros u x Hu Z Nu. apply numeral_positive; auto. intros r ->. specialize (Z (r ++ [x]) eq_refl). destruct r; discriminate. }
  destruct s as [|x s], t as [|y t]; auto.
  - specialize (P _ d Ht Zt). rewrite <- E1, V_nil in P. assert (0 < 0) by (apply P; easy). lia.
  - specialize (P _ d Hs Zs). rewrite E1, V_nil in P. assert (0 < 0) by (apply P; easy). lia.
  - apply IH; auto; try easy.
    + intros r Er. injection Er as -> ->. specialize (Zs (r ++ [d]) eq_refl). destruct r; discriminate.
    + intros r Er. injection Er as -> ->. specialize (Zt (r ++ [d]) eq_refl). destruct r; discriminate.
Qed.
End numerals.

Lemma decimal_unique n s t : Numeral n s -> Numeral n t -> s = t.
Proof.
  intros (A1 & A2 & A3 & A4) (B1 & B2 & B3 & B4).
  apply (numeral_unique 10 digit_value IsDigit (read_digits 0)); auto; try congruence; unfold IsDigit, digit_value.
  - intros u c. rewrite read_digits_app. reflexivity.
  - lia.
  - lia.
  - lia.
Qed.
Lemma hex_unique n s t : HexNumeral n s -> HexNumeral n t -> s = t.
Proof.
  intros (A1 & A2 & A3 & A4) (B1 & B2 & B3 & B4).
  apply (numeral_unique 16 hex_value (fun c => 48 <= c <= 57 \/ 97 <= c <= 102)
    (fun s => fold_left (fun v c => 16 * v + hex_value c) s 0)); auto; try congruence.
  - intros u c. rewrite fold_left_app. reflexivity.
  - intros c. unfold hex_value. destruct (N.leb_spec c 57); lia.
  - intros c d. unfold hex_value. destruct (N.leb_spec c 57), (N.leb_spec d 57); lia.
  - lia.
Qed.

Lemma hex_aux_spec fuel : forall n acc, n < 2 ^ N.of_nat fuel -> (0 < fuel)%nat ->
  exists s, hex_aux fuel n acc = s ++ acc /\ HexNumeral n s.
Proof.
  induction fuel as [|fuel IH]; intros n acc Hn Hf; [lia|]. cbn [hex_aux].
  pose proof (N.mod_upper_bound n 16 ltac:(lia)) as Hm.
  set (c := if n mod 16 <? 10 then 48 + n mod 16 else 87 + n mod 16).
  assert (Hc : (48 <= c <= 57 \/ 97 <= c <= 102) /\ hex_value c = n mod 16).
  { unfold c, hex_value. revert Hm. generalize (n mod 16). intros m Hm.
    destruct (N.ltb_spec m 10); [destruct (N.leb_spec (48 + m) 57)|destruct (N.leb_spec (87 + m) 57)]; lia. }
  destruct Hc as [Hc Hv].
  destruct (N.ltb_spec n 16) as [Hlt|Hge].
  - exists [c]. split; [reflexivity|]. split; [discriminate|]. split; [auto|]. split.
    + cbn [fold_left]. rewrite Hv, N.mod_small by lia. lia.
    + intros r [= _ <-]. auto.
  - rewrite Nnat.Nat2N.inj_succ, N.pow_succ_r in Hn by lia.
    assert (Hq : n / 16 < 2 ^ N.of_nat fuel) by (apply N.div_lt_upper_bound; lia).
    destruct fuel as [|fuel']; [cbn in Hn; lia|].
    destruct (IH (n / 16) (c :: acc) Hq ltac:(lia)) as (s & E & Hne & Hd & Hr & H0).
    exists (s ++ [c]). split; [rewrite <- app_assoc; exact E|]. split; [|split; [|split]].
    + destruct s; discriminate.
    + apply Forall_app. auto.
    + rewrite fold_left_app, Hr. cbn [fold_left]. rewrite Hv. symmetry. apply N.div_mod. lia.
    + intros r Er. destruct s as [|d s]; [congruence|]. injection Er as -> Er.
      exfalso. assert (E0 : n / 16 = 0) by (rewrite <- Hr, (H0 s eq_refl); reflexivity).
      assert (16 / 16 <= n / 16) by (apply N.div_le_mono; lia). change (16 / 16) with 1 in *. lia.
Qed.
Lemma hex_numeral n : HexNumeral n (hex n).
Proof.
  unfold hex. destruct (hex_aux_spec (S (N.to_nat (N.log2 n))) n []) as (s & E & H).
  - rewrite Nnat.Nat2N.inj_succ, Nnat.N2Nat.id. destruct (N.eq_dec n 0) as [->|].
    + vm_compute; reflexivity.
    + apply N.log2_spec. lia.
  - lia.
  - rewrite E, app_nil_r. exact H.
Qed.

Lemma char_text c : CharText c (escape_default c).
Proof.
  unfold escape_default.
  destruct (N.eqb_spec c 9); [now apply CT_tab|]. destruct (N.eqb_spec c 13); [now apply CT_return|].
  destruct (N.eqb_spec c 10); [now apply CT_newline|].
  destruct (N.eqb_spec c 39); [apply CT_backslash; subst; simpl; auto|].
  destruct (N.eqb_spec c 34); [apply CT_backslash; subst; simpl; auto|].
  destruct (N.eqb_spec c 92); [apply CT_backslash; subst; simpl; auto|]. cbn [orb].
  destruct (N.leb_spec 32 c), (N.leb_spec c 126); cbn [andb].
  - apply CT_plain; [lia|]. simpl. intuition congruence.
  - apply CT_other; [lia|simpl; intuition congruence|apply hex_numeral].
  - apply CT_other; [lia|simpl; intuition congruence|apply hex_numeral].
  - lia.
Qed.
Lemma char_text_unique c s t : CharText c s -> CharText c t -> s = t.
Proof.
  intros [H|H|H|H|H H'|s' H H' H''] [K|K|K|K|K K'|t' K K' K'']; auto; try lia;
    try (subst c; simpl in *; lia); try (simpl in *; lia); try contradiction.
  now rewrite (hex_unique c s' t' H'' K'').
Qed.

(** ** Formats *)

Lemma fills_unique args f s : Fills args f s -> forall t, Fills args f t -> s = t.
Proof.
  induction 1 as [|c f args s Hc _ IH|a f args s _ IH]; intros t H; inversion H; subst; try congruence.
  - f_equal. auto.
  - f_equal. auto.
Qed.
Lemma fills_eq args f s t : Fills args f s -> s = t -> Fills args f t.
Proof. now intros H <-. Qed.
Ltac filled :=
  eapply fills_eq;
  [match goal with |- Fills _ (lit ?x) _ => let v := eval vm_compute in (lit x) in change (lit x) with v end;
   repeat first [apply F_hole | apply F_char; [discriminate|]]; apply F_end
  |].

Lemma at_location l : At l (display_location l).
Proof.
  exists (display_nat (line l)), (display_nat (column l)), (display_nat (offset l)).
  repeat split; try apply display_nat_numeral. filled. reflexivity.
Qed.
Lemma at_unique l s t : At l s -> At l t -> s = t.
Proof.
  intros (a & b & c & A & B & C & H) (a' & b' & c' & A' & B' & C' & H').
  rewrite (decimal_unique _ _ _ A' A), (decimal_unique _ _ _ B' B), (decimal_unique _ _ _ C' C) in H'.
  eapply fills_unique; eauto.
Qed.
Lemma listed_others l : l <> [] -> forall i,
  exists s, Listed l s /\ display_others i l = (if Nat.eqb i 0 then [] else lit ",") ++ s.
Proof.
  induction l as [|[t x] l IH]; [easy|]. intros _ i. destruct l as [|y l].
  - exists (lit "'" ++ t ++ lit "'"). split; [apply L_one; filled; reflexivity|].
    cbn [display_others]. now rewrite !app_nil_r.
  - destruct (IH ltac:(easy) (S i)) as (s & Hs & E).
    exists (lit "'" ++ t ++ lit "'," ++ s). split.
    + eapply L_more; [easy|exact Hs|]. filled. cbn [app]. now rewrite app_nil_r.
    + remember (y :: l) as m. cbn [display_others]. rewrite E. cbn [Nat.eqb]. reflexivity.
Qed.
Lemma listed_unique l s : Listed l s -> forall t, Listed l t -> s = t.
Proof.
  induction 1 as [t l s H|t l rest r s Hne _ IH H]; intros u Hu; inversion Hu; subst; try congruence.
  - eapply fills_unique; eauto.
  - match goal with K : Listed rest ?x |- _ => rewrite <- (IH x K) in * end. eapply fills_unique; eauto.
Qed.
Lemma kind_text ev : exists k, KindText ev k /\ found ev = lit k.
Proof. destruct ev as [[]|]; eexists; (split; [constructor|reflexivity]). Qed.
Lemma kind_unique ev k k' : KindText ev k -> KindText ev k' -> k = k'.
Proof. destruct 1; inversion 1; reflexivity. Qed.

Ltac finish := filled; cbn [app]; rewrite ?app_nil_r; repeat (cbn [app]; rewrite <- ?app_assoc); reflexivity.

Section worded.
Context (io : N -> str) (utf8 : nat -> str).
Lemma parse_worded e : Worded io utf8 (ErrParse e) (display_parse_error e).
Proof.
  destruct e; try (eapply W_place; [constructor|apply at_location|finish]; fail);
    try (eapply W_tag; [constructor|apply at_location|finish]; fail).
  - eapply W_value; [apply at_location|finish].
  - eapply W_unclosed_value; [apply at_location|finish].
  - destruct inner as [t l]. destruct others as [|x others].
    + eapply W_tag; [constructor|apply at_location|]. filled. cbn [display_parse_error]. cbn [app].
      now rewrite !app_nil_r.
    + destruct (listed_others (x :: others) ltac:(easy) 0) as (s & Hs & E).
      eapply W_missing; [easy|apply at_location|exact Hs|]. filled. cbn [display_parse_error]. rewrite E. reflexivity.
  - eapply W_stack; [apply at_location|apply display_nat_numeral|finish].
  - eapply W_mismatch; [apply at_location|apply at_location|finish].
Qed.
Lemma worded e : Worded io utf8 e (display_error io utf8 e).
Proof.
  destruct e as [e|e|e|e|e|e|e|e|e|e|e|e|e|c|v]; cbn [display_error].
  - destruct e; apply W_plain; constructor.
  - apply W_plain; constructor.
  - destruct e as [t|ev|ev t]; cbn [display_malformed].
    + apply W_closing. finish.
    + destruct (kind_text ev) as (k & Hk & E). rewrite E. eapply W_expected_opening; [exact Hk|finish].
    + destruct (kind_text ev) as (k & Hk & E). rewrite E. eapply W_expected_closing; [exact Hk|finish].
  - destruct e; try (apply W_plain; constructor). eapply W_length; [apply display_nat_numeral|finish].
  - destruct e; constructor; finish.
  - apply parse_worded.
  - destruct e; try (apply W_plain; constructor).
    + eapply W_whitespace; [apply char_text|finish].
    + eapply W_forbidden; [apply char_text|finish].
  - apply W_plain; constructor.
  - apply W_plain; constructor.
  - apply W_plain; constructor.
  - destruct e; apply W_plain; constructor.
  - destruct e; try (apply W_plain; constructor). eapply W_class; [apply display_nat_numeral|finish].
  - destruct e; try (apply W_plain; constructor). eapply W_static_class; [apply display_nat_numeral|finish].
  - constructor.
  - constructor.
Qed.
Lemma worded_unique e s t : Worded io utf8 e s -> Worded io utf8 e t -> s = t.
Proof.
  intros H K.
  destruct H; inversion K; subst;
  repeat match goal with
  | P : PlainText _ _ |- _ => inversion P; clear P; subst
  | P : PlaceText _ _ _ |- _ => inversion P; clear P; subst
  | P : TagText _ _ _ _ |- _ => inversion P; clear P; subst
  end; try congruence; auto;
  repeat match goal with
  | A : At ?l ?x, B : At ?l ?y |- _ => first [constr_eq x y; clear B|rewrite (at_unique l y x B A) in *; clear B]
  | A : Number ?l ?x, B : Number ?l ?y |- _ => first [constr_eq x y; clear B|rewrite (decimal_unique _ y x B A) in *; clear B]
  | A : CharText ?l ?x, B : CharText ?l ?y |- _ => first [constr_eq x y; clear B|rewrite (char_text_unique l y x B A) in *; clear B]
  | A : KindText ?l ?x, B : KindText ?l ?y |- _ => first [constr_eq x y; clear B|rewrite (kind_unique l y x B A) in *; clear B]
  | A : Listed ?l ?x, B : Listed ?l ?y |- _ => first [constr_eq x y; clear B|rewrite (listed_unique l y B x A) in *; clear B]
  end; eauto using fills_unique.
Qed.
Lemma wording e s : Worded io utf8 e s <-> s = display_error io utf8 e.
Proof.
  split; [intros H; eapply worded_unique; eauto using worded|]. intros ->. apply worded.
Qed.
End worded.

Lemma char_texts c s : CharText c s <-> s = escape_default c.
Proof.
  split; [intros H; eapply char_text_unique; eauto using char_text|]. intros ->. apply char_text.
Qed.
Lemma char_text_tells c d s : CharText c s -> CharText d s -> c = d.
Proof.
  intros H K. destruct H as [H|H|H|H|H H'|s H H' H'']; inversion K as [K1 K2|K1 K2|K1 K2|K1 K2|K1 K1' K2|s' K1 K1' K1'' K2];
    try congruence; try (cbn [In] in *; lia); try (injection K2 as K2; cbn [In] in *; lia);
    try (injection K2 as K2 K3; cbn [In] in *; lia).
  - apply app_inv_tail in K2. subst s'.
    destruct H'' as (_ & _ & <- & _), K1'' as (_ & _ & <- & _). reflexivity.
Qed.
Lemma wording_example io utf8 :
  Worded io utf8
    (ErrParse (MissingClosingTags (lit "em", Location 12 7 340) [(lit "p", Location 2 1 12); (lit "body", Location 1 1 0)]))
    (lit "Unclosed 'em' tag starting at line 12 column 7 (byte offset 340)(also unclosed are: 'p','body')").
Proof. apply wording. vm_compute. reflexivity. Qed.
Lemma escape_example :
  CharText 10 (lit "\n") /\ CharText 34 (lit "\""") /\ CharText 8239 (lit "\u{202f}") /\
  Worded (fun _ => []) (fun _ => []) (ErrIdentifier (IdForbidden 39)) (lit "Identifier contains forbidden character '\''").
Proof. repeat split; try apply char_texts; try apply wording; vm_compute; reflexivity. Qed.
