(** Bounds for the numbers of steps of the parser's parts. *)
From Coq Require Import String List NArith Bool Lia PeanoNat.
From Verif Require Import Selector Machine Template Text Event Input Parse ParseCost SpecText SpecAttr SpecLocation SpecParse ParseProofs CostProofs.
Import ListNotations.
Local Open Scope nat_scope.

Definition Sp {A} (m : costed A) (Q : A -> nat -> Prop) : Prop := Q (fst m) (snd m).
Lemma sp_ret {A} (a : A) (Q : A -> nat -> Prop) : Q a 0 -> Sp (ret a) Q.
Proof. exact (fun H => H). Qed.
Lemma sp_costs {A} n (a : A) (Q : A -> nat -> Prop) : Q a n -> Sp (costs n a) Q.
Proof. exact (fun H => H). Qed.
Lemma sp_bind {A B} (m : costed A) (f : A -> costed B) Q R :
  Sp m Q -> (forall a k, Q a k -> Sp (f a) (fun b j => R b (k + j))) -> Sp (bind m f) R.
Proof. unfold Sp. intros H K. rewrite fst_bind, snd_bind. auto. Qed.
Lemma sp_weak {A} (m : costed A) (Q R : A -> nat -> Prop) : Sp m Q -> (forall a k, Q a k -> R a k) -> Sp m R.
Proof. unfold Sp. auto. Qed.
Lemma sp_and {A} (m : costed A) (Q R : A -> nat -> Prop) : Sp m Q -> Sp m R -> Sp m (fun a k => Q a k /\ R a k).
Proof. unfold Sp. auto. Qed.

Lemma sp_exact {A} n (a : A) : Sp (costs n a) (fun x k => x = a /\ k = n).
Proof. split; reflexivity. Qed.

(** ** input.rs *)

Lemma find_char_some p s n : find_char p s = Some n ->
  exists w c r, s = w ++ c :: r /\ length w = n /\ p c = true /\ (forall x, In x w -> p x = false).
Proof.
  revert n. induction s as [|c s IH]; intros n; [easy|]. cbn [find_char]. destruct (p c) eqn:Ec.
  - intros [= <-]. exists [], c, s. cbn. tauto.
  - destruct (find_char p s) as [k|]; [|easy]. intros [= <-]. destruct (IH k eq_refl) as (w & d & r & -> & E1 & E2 & E3).
    exists (c :: w), d, r. cbn. split; [reflexivity|]. split; [now rewrite E1|]. split; [exact E2|].
    intros x [<-|Hx]; auto.
Qed.
Lemma find_char_none p s : find_char p s = None -> forall x, In x s -> p x = false.
Proof.
  induction s as [|c s IH]; [easy|]. cbn [find_char]. destruct (p c) eqn:Ec; [easy|].
  destruct (find_char p s); [easy|]. intros _ x [<-|Hx]; auto.
Qed.

Lemma sp_advanced i w r : content i = w ++ r ->
  Sp (advanced_c i (length w)) (fun j k => content j = r /\ k = 3 * length w + 2).
Proof.
  intros E. unfold Sp, advanced_c. rewrite fst_bind, snd_bind. cbn [fst snd costs with_consumed_c content].
  rewrite E, firstn_app, firstn_all, Nat.sub_diag, skipn_app, skipn_all, Nat.sub_diag.
  cbn [firstn skipn app]. rewrite app_nil_r. split; [reflexivity|lia].
Qed.
Lemma sp_consumed i w r : content i = w ++ r ->
  Sp (consumed_c i (length w)) (fun j k => fst j = w /\ content (snd j) = r /\ k = 3 * length w + 2).
Proof.
  intros E. unfold consumed_c. eapply sp_bind; [eapply sp_advanced; eassumption|]. intros j k [H1 H2]. apply sp_ret.
  cbn [fst snd]. rewrite E, firstn_app, firstn_all, Nat.sub_diag. cbn. rewrite app_nil_r. repeat split; [exact H1|lia].
Qed.
Lemma sp_take_all i : Sp (take_all_c i) (fun j k => fst j = content i /\ content (snd j) = [] /\ k = 3 * length (content i) + 2).
Proof. apply sp_consumed. now rewrite app_nil_r. Qed.

Lemma sp_take_until_char i c : Sp (take_until_char_c i c) (fun o k =>
  match o with
  | None => ~ In c (content i) /\ k = length (content i) + 1
  | Some (d, j) => content i = d ++ content j /\ (exists r, content j = c :: r) /\ ~ In c d /\ k <= 4 * length d + 3
  end).
Proof.
  unfold take_until_char_c. eapply sp_bind; [eapply sp_exact|].
  intros o k [-> ->]. destruct (find_char (N.eqb c) (content i)) as [n|] eqn:E.
  - apply find_char_some in E as (w & x & r & E & El & Ex & Ew). apply N.eqb_eq in Ex. subst x n.
    eapply sp_bind; [eapply sp_consumed; eassumption|]. intros [d j] k (E1 & E2 & ->). cbn [fst snd] in E1, E2. subst d.
    apply sp_ret. rewrite E2. repeat split; [exact E|now exists r| |lia].
    intros H. apply Ew in H. now rewrite N.eqb_refl in H.
  - apply sp_ret. split; [|lia]. intros H. apply (find_char_none _ _ E) in H. now rewrite N.eqb_refl in H.
Qed.
Lemma sp_take_until_str i p : Sp (take_until_str_c i p) (fun o k =>
  match o with
  | None => k = S (length p) * (length (content i) + 1)
  | Some (d, j) => content i = d ++ content j /\ (exists r, content j = p ++ r) /\ k <= S (length p) * (length d + 1) + 3 * length d + 2
  end).
Proof.
  unfold take_until_str_c. eapply sp_bind; [eapply sp_exact|].
  intros o k [-> ->]. destruct (find_str p (content i)) as [n|] eqn:E.
  - apply find_str_some in E as (w & r & E & El & _). subst n.
    eapply sp_bind; [eapply sp_consumed; eassumption|]. intros [d j] k (E1 & E2 & ->). cbn [fst snd] in E1, E2. subst d.
    apply sp_ret. rewrite E2. repeat split; [exact E|now exists r|nia].
  - apply sp_ret. nia.
Qed.
Lemma sp_take_str i p : Sp (take_str_c i p) (fun o k =>
  match o with
  | None => ~ (exists r, content i = p ++ r) /\ k = length p + 1
  | Some j => content i = p ++ content j /\ k = 4 * length p + 3
  end).
Proof.
  unfold take_str_c. eapply sp_bind; [eapply sp_exact|]. intros b k [-> ->].
  destruct (starts_with p (content i)) eqn:E.
  - apply starts_with_iff in E as (r & E). eapply sp_bind; [eapply sp_advanced; eassumption|]. intros j k [E1 ->].
    apply sp_ret. rewrite E1. split; [exact E|lia].
  - apply sp_ret. split; [|lia]. intros H. apply starts_with_iff in H. congruence.
Qed.
Lemma sp_take_char i c : Sp (take_char_c i c) (fun o k =>
  match o with
  | None => (forall r, content i <> c :: r) /\ k <= 10
  | Some j => content i = c :: content j /\ k <= 10
  end).
Proof.
  unfold take_char_c. eapply sp_bind; [eapply sp_exact|]. intros b k [-> ->].
  destruct (starts_with [c] (content i)) eqn:E.
  - apply starts_with_iff in E as (r & E). eapply sp_bind; [apply (sp_advanced i [c]); exact E|]. intros j k [E1 ->].
    apply sp_ret. rewrite E1. split; [exact E|cbn; lia].
  - apply sp_ret. split; [|cbn; lia]. intros r H. assert (starts_with [c] (content i) = true); [|congruence].
    apply starts_with_iff. now exists r.
Qed.
Lemma sp_skip i : Sp (skip_whitespace_c i) (fun j k =>
  exists w, content i = w ++ content j /\ Blank w /\ ~ Begins Space (content j) /\ k <= 4 * length w + 3).
Proof.
  unfold skip_whitespace_c. destruct (gap_split (content i)) as (w & r & E & [Hb Hg]).
  eapply sp_bind; [eapply sp_exact|]. intros t k [-> ->].
  assert (Et : trim_left (content i) = r) by (rewrite E; now apply trim_left_gap).
  rewrite Et. replace (length (content i) - length r) with (length w) by (rewrite E, app_length; lia).
  eapply sp_weak; [eapply sp_advanced; eassumption|]. intros j k [E1 ->]. exists w. rewrite E1. repeat split; auto; lia.
Qed.
Lemma sp_take_word i : Sp (take_word_c i) (fun o k =>
  match o with
  | None => k <= 3
  | Some (w, j) => content i = w ++ content j /\ w <> [] /\ (forall c, In c w -> ~ Delimiter c) /\ k <= 4 * length w + 3 /\
      WordEnds (content j)
  end).
Proof.
  unfold take_word_c. eapply sp_bind; [eapply sp_exact|]. intros b k [-> ->]. cbv zeta.
  destruct (find_char (in_chars TERMINATORS) (content i)) as [n|] eqn:E.
  - apply find_char_some in E as (w & x & r & E & El & Ex & Ew). subst n. destruct w as [|y w].
    + apply sp_ret. cbn. lia.
    + cbn [length]. eapply sp_bind; [apply (sp_consumed i (y :: w)); exact E|].
      intros [d j] k (E1 & E2 & ->). cbn [fst snd] in E1, E2. subst d. apply sp_ret. rewrite E2.
      repeat split; [exact E|easy| |cbn [length]; lia|right; exists x, r; split; [reflexivity|now apply terminators]].
      intros c H. apply terminators_false, Ew, H.
  - pose proof (find_char_none _ _ E) as Ew. destruct (content i) as [|y w] eqn:Ei.
    + apply sp_ret. cbn. lia.
    + cbn [length]. eapply sp_bind; [apply (sp_consumed i (y :: w) []); now rewrite app_nil_r|].
      intros [d j] k (E1 & E2 & ->). cbn [fst snd] in E1, E2. subst d. apply sp_ret. rewrite E2, app_nil_r.
      repeat split; [easy| |cbn [length]; lia|now left]. intros c H. apply terminators_false, Ew, H.
Qed.
Lemma from_str_text w x : ident_from_str w = inl x -> id_str x = w.
Proof.
  unfold ident_from_str, validate. destruct w; [easy|]. destruct (negb _); [easy|]. destruct (find _ _); [easy|].
  destruct (find _ _); [easy|]. now intros [= <-].
Qed.
Lemma sp_take_identifier i : Sp (take_identifier_c i) (fun o k =>
  exists w, (forall c, In c w -> ~ Delimiter c) /\ k <= 8 * length w + 4 /\ exists r, content i = w ++ r /\
  match o with
  | inl (Some (x, j)) => id_str x = w /\ r = content j /\ w <> [] /\ WordEnds r
  | inl None => w = []
  | _ => True
  end).
Proof.
  unfold take_identifier_c. eapply sp_bind; [apply sp_take_word|]. intros [[w j]|] k.
  - intros (E & Hn & Hd & Hk & He). eapply sp_bind; [eapply sp_exact|]. intros y k' [-> ->].
    destruct (ident_from_str w) as [x|e] eqn:Ex; apply sp_ret; exists w; (split; [auto|]); (split; [lia|]); exists (content j); auto.
    apply from_str_text in Ex. auto.
  - intros Hk. apply sp_ret. exists []. split; [easy|]. split; [cbn; lia|]. exists (content i). easy.
Qed.
Lemma sp_take_exact i s : Sp (try_take_exact_identifier_c i s) (fun o k =>
  exists w, (forall c, In c w -> ~ Delimiter c) /\ k <= 10 * length w + 2 * length s + 5 /\ exists r, content i = w ++ r /\
  match o with
  | Some (x, j) => r = content j /\ w <> []
  | _ => True
  end).
Proof.
  unfold try_take_exact_identifier_c. eapply sp_bind; [apply sp_take_word|]. intros [[w j]|] k.
  - intros (E & Hn & Hd & Hk & He). eapply sp_bind; [eapply sp_exact|]. intros y k' [-> ->].
    destruct (ident_from_str w) as [x|e] eqn:Ex.
    + apply from_str_text in Ex. eapply sp_bind; [eapply sp_exact|]. intros b k' [-> ->].
      rewrite Ex. destruct (identifier_eq w s); apply sp_ret; exists w; (split; [auto|]); (split; [lia|]); exists (content j); auto.
    + apply sp_ret; exists w; (split; [auto|]); (split; [lia|]); exists (content j); auto.
  - intros Hk. apply sp_ret. exists []. split; [easy|]. split; [cbn; lia|]. exists (content i). easy.
Qed.

(** ** Tags *)

Lemma blank_not w c : Blank w -> c = 60%N \/ c = 62%N \/ c = 47%N -> ~ In c w.
Proof. intros Hb Hc Hi. pose proof (space_not_delim c (blank_in _ _ Hb Hi)). intuition congruence. Qed.
Lemma word_not w c : (forall c, In c w -> ~ Delimiter c) -> c = 60%N \/ c = 62%N \/ c = 47%N -> ~ In c w.
Proof. intros Hb Hc Hi. apply (Hb _ Hi). unfold Delimiter. cbn [In]. intuition. Qed.

(** An end tag, or what was looked at to find that there is none: [w] *)
Definition CloseCost (i : input) (o : option (presult parsed)) (k : nat) : Prop :=
  exists w r, content i = w ++ r /\ ~ In 60%N (tl w) /\ k <= 20 * length w + 60 /\
  match o with
  | Some (POk p) => (exists w1 w2, w = 60%N :: w1 ++ 47%N :: w2 ++ [62%N] /\ Blank w1) /\ r = content (p_rest p) /\
      p_next_mode p = ModeData /\
      (exists x, loc_value (p_event p) = ClosingTag x /\ length (id_str x) <= length w)
  | None => ~ In 62%N w /\ (w = [] \/ exists r, content i = 60%N :: r)
  | Some _ => True
  end.
Ltac noin := cbn [tl]; repeat first [rewrite in_app_iff | progress (cbn [In])];
  repeat match goal with
  | H : Blank ?w |- _ => pose proof (blank_not w 60%N H (or_introl eq_refl)); pose proof (blank_not w 62%N H (or_intror (or_introl eq_refl))); clear H
  | H : forall c, In c ?w -> ~ Delimiter c |- _ => pose proof (word_not w 60%N H (or_introl eq_refl)); pose proof (word_not w 62%N H (or_intror (or_introl eq_refl))); clear H
  end; intuition congruence.
Ltac sizes := rewrite ?app_length; cbn [length]; rewrite ?app_length; cbn [length]; rewrite ?app_length; cbn [length]; lia.
Ltac flat := repeat first [rewrite <- app_assoc | progress (cbn [app])]; reflexivity.
Lemma sp_close i : Sp (try_parse_tag_close_c i) (CloseCost i).
Proof.
  unfold try_parse_tag_close_c. eapply sp_bind; [apply sp_take_char|]. intros [j|] k.
  2:{ intros [E Hk]. apply sp_ret. exists [], (content i). cbn [length tl In app]. split; [reflexivity|]. split; [auto|]. split; [lia|]. auto. }
  intros [E Hk]. eapply sp_bind; [apply sp_skip|]. intros j1 k1 (w1 & E1 & B1 & G1 & Hk1).
  eapply sp_bind; [apply sp_take_char|]. intros [j2|] k2.
  2:{ intros [E2 Hk2]. apply sp_ret. exists (60%N :: w1), (content j1). rewrite E, E1. split; [reflexivity|].
      split; [noin|]. split; [sizes|]. split; [noin|right; now eexists]. }
  intros [E2 Hk2]. eapply sp_bind; [apply sp_skip|]. intros j3 k3 (w3 & E3 & B3 & G3 & Hk3).
  eapply sp_bind; [apply sp_take_identifier|]. intros o k4 (w4 & D4 & Hk4 & r & E4 & Ho).
  assert (Hi : content i = (60%N :: w1 ++ 47%N :: w3 ++ w4) ++ r).
  { rewrite E, E1, E2, E3, E4. flat. }
  destruct o as [[[x j4]|]|e].
  2:{ apply sp_ret. exists (60%N :: w1 ++ 47%N :: w3 ++ w4), r. split; [exact Hi|]. split; [noin|]. split; [sizes|exact I]. }
  2:{ apply sp_ret. exists (60%N :: w1 ++ 47%N :: w3 ++ w4), r. split; [exact Hi|]. split; [noin|]. split; [sizes|exact I]. }
  destruct Ho as (Hx & -> & Hne & _).
  eapply sp_bind; [apply sp_skip|]. intros j5 k5 (w5 & E5 & B5 & G5 & Hk5).
  eapply sp_bind; [apply sp_take_char|]. intros [j6|] k6.
  2:{ intros [E6 Hk6]. apply sp_costs. exists (60%N :: w1 ++ 47%N :: w3 ++ w4 ++ w5), (content j5). rewrite Hi, E5, Hx.
      split; [flat|]. split; [noin|]. split; [sizes|exact I]. }
  intros [E6 Hk6]. apply sp_ret. exists (60%N :: w1 ++ 47%N :: (w3 ++ w4 ++ w5) ++ [62%N]), (content j6).
  split; [rewrite Hi, E5, E6; flat|].
  split; [noin|]. split; [sizes|]. split; [now exists w1, (w3 ++ w4 ++ w5)|]. split; [reflexivity|]. split; [reflexivity|].
  exists x. split; [reflexivity|]. rewrite Hx. sizes.
Qed.

Lemma sp_attribute tag i : Sp (try_parse_attribute_c tag i) (fun o k =>
  match o with
  | POk (Some (a, j)) => exists w, content i = w ++ content j /\ w <> [] /\ k <= 30 * length w + 60
  | POk None => k <= 10
  | _ => k <= 30 * length (content i) + length tag + 60
  end).
Proof.
  unfold try_parse_attribute_c. eapply sp_bind; [apply sp_take_identifier|]. intros o k (w & D & Hk & r & E & Ho).
  destruct o as [[[x j]|]|e].
  2:{ apply sp_ret. subst w. cbn in Hk. lia. }
  2:{ apply sp_ret. rewrite E. sizes. }
  destruct Ho as (Hx & -> & Hne & _).
  eapply sp_bind; [apply sp_skip|]. intros j1 k1 (w1 & E1 & B1 & G1 & Hk1).
  eapply sp_bind; [apply sp_take_char|]. intros [j2|] k2.
  2:{ intros [_ Hk2]. apply sp_ret. exists (w ++ w1). rewrite E, E1. split; [flat|]. split; [now destruct w|sizes]. }
  intros [E2 Hk2]. eapply sp_bind; [apply sp_skip|]. intros j3 k3 (w3 & E3 & B3 & G3 & Hk3). cbv zeta.
  eapply sp_bind; [apply sp_take_char|]. intros [j4|] k4.
  2:{ intros [_ Hk4]. apply sp_costs. rewrite E, E1, E2, E3, Hx. sizes. }
  intros [E4 Hk4]. eapply sp_bind; [apply sp_skip|]. intros j5 k5 (w5 & E5 & B5 & G5 & Hk5).
  eapply sp_bind; [apply sp_take_until_char|]. intros [[v j6]|] k6.
  2:{ intros [_ Hk6]. apply sp_costs. rewrite E, E1, E2, E3, E4, E5, Hx. rewrite Hk6. sizes. }
  intros (E6 & _ & _ & Hk6). eapply sp_bind; [apply sp_take_char|]. intros [j7|] k7.
  2:{ intros [_ Hk7]. apply sp_ret. rewrite E, E1, E2, E3, E4, E5, E6. sizes. }
  intros [E7 Hk7]. eapply sp_bind; [eapply sp_exact|]. intros v' k8 [-> ->]. apply sp_ret.
  exists (w ++ w1 ++ 61%N :: w3 ++ 34%N :: w5 ++ v ++ [34%N]). rewrite E, E1, E2, E3, E4, E5, E6, E7.
  split; [flat|]. split; [now destruct w|]. sizes.
Qed.
Lemma sp_attributes_loop tag n : forall i acc, Sp (parse_attributes_loop_c n tag i acc) (fun o k =>
  match o with
  | POk (l, j) => exists w, content i = w ++ content j /\ k <= 100 * length w + 10
  | _ => k <= 100 * length (content i) + length tag + 60
  end).
Proof.
  induction n as [|n IH]; intros i acc; cbn [parse_attributes_loop_c]; [apply sp_ret; lia|].
  destruct (input_is_empty i); [apply sp_costs; exists []; cbn; split; [reflexivity|lia]|].
  eapply sp_bind; [apply sp_attribute|]. intros [[[a j]|]| | |] k; intros H.
  - destruct H as (w & E & Hn & Hk). eapply sp_bind; [apply sp_skip|]. intros j1 k1 (w1 & E1 & B1 & G1 & Hk1).
    assert (1 <= length w) by (destruct w; [easy|cbn; lia]).
    eapply sp_weak; [apply IH|]. intros [[l j2]| | |] k2.
    + intros (w2 & E2 & Hk2). exists (w ++ w1 ++ w2). rewrite E, E1, E2. split; [flat|sizes].
    + intros Hk2. rewrite E, E1. sizes.
    + intros Hk2. rewrite E, E1. sizes.
    + intros Hk2. rewrite E, E1. sizes.
  - apply sp_ret. exists []. cbn. split; [reflexivity|lia].
  - apply sp_ret. lia.
  - apply sp_ret. lia.
  - apply sp_ret. lia.
Qed.
Lemma sp_attributes tag i : Sp (parse_attributes_c tag i) (fun o k =>
  match o with
  | POk (l, j) => exists w, content i = w ++ content j /\ k <= 100 * length w + 20
  | _ => k <= 100 * length (content i) + length tag + 70
  end).
Proof.
  unfold parse_attributes_c. eapply sp_bind; [apply sp_skip|]. intros j k (w & E & B & G & Hk).
  eapply sp_weak; [apply sp_attributes_loop|]. intros [[l j2]| | |] k2.
  - intros (w2 & E2 & Hk2). exists (w ++ w2). rewrite E, E2. split; [flat|sizes].
  - intros Hk2. rewrite E. sizes.
  - intros Hk2. rewrite E. sizes.
  - intros Hk2. rewrite E. sizes.
Qed.
Lemma trim_left_length s : length (trim_left s) <= length s.
Proof. induction s as [|c s IH]; [reflexivity|]. cbn [trim_left]. destruct (is_whitespace c); cbn [length]; lia. Qed.
