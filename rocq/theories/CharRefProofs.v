(** Character references: where they end, and what becomes of encoded text. *)
From Coq Require Import String List NArith PeanoNat Bool Lia Wf_nat.
Import ListNotations.
From Verif Require Import Text Event SpecText SpecAttr SpecParse SpecRender SpecHtml5 SpecEntities SpecCharRef TextProofs
  Html5Proofs Html5Proofs2.
Open Scope N_scope.

(** ** The table *)

(** Letters and digits, and a semicolon at the end or nowhere. *)
Fixpoint good_name (n : str) : bool :=
  match n with
  | [] => true
  | [c] => alnum c || (c =? 59)
  | c :: n => alnum c && good_name n
  end.
Lemma good_names : forallb (fun x => good_name (fst x)) names = true.
Proof. vm_compute. reflexivity. Qed.
Lemma names_good x : In x names -> good_name (fst x) = true.
Proof. intros H. exact (proj1 (List.forallb_forall _ _) good_names x H). Qed.
Lemma good_cons c n : good_name (c :: n) = true -> n <> [] -> alnum c = true /\ good_name n = true.
Proof. destruct n as [|d n]; [easy|]. cbn [good_name]. rewrite andb_true_iff. auto. Qed.

(** A character that can be part of a reference only as its last one. *)
Definition stops (c : char) : Prop := alnum c = false /\ c <> 35.

Lemma starts_stop n : good_name n = true -> forall p c q, alnum c = false ->
  starts n (p ++ c :: q) = starts n (p ++ [c]).
Proof.
  induction n as [|x n IH]; intros Hn p c q Hc; [reflexivity|].
  destruct p as [|y p]; cbn [app starts].
  - destruct (x =? c) eqn:E; [|reflexivity]. apply N.eqb_eq in E. subst x.
    destruct n as [|z n]; [reflexivity|]. apply good_cons in Hn as [Hn _]; [congruence|easy].
  - destruct (x =? y); [|reflexivity]. cbn [andb].
    destruct n as [|z n]; [reflexivity|]. apply IH; auto. now apply (good_cons x).
Qed.
Lemma starts_end n : good_name n = true -> forall p c, alnum c = false -> c <> 59 ->
  starts n (p ++ [c]) = starts n p.
Proof.
  induction n as [|x n IH]; intros Hn p c Hc Hs; [reflexivity|].
  destruct p as [|y p]; cbn [app starts].
  - destruct (x =? c) eqn:E; [|reflexivity]. apply N.eqb_eq in E. subst x.
    destruct n as [|z n].
    + cbn [good_name] in Hn. rewrite Hc, (eqb_false c 59 Hs) in Hn. discriminate.
    + apply good_cons in Hn as [Hn _]; [congruence|easy].
  - destruct (x =? y); [|reflexivity]. cbn [andb].
    destruct n as [|z n]; [reflexivity|]. apply IH; auto. now apply (good_cons x).
Qed.
Lemma starts_length n : forall s, starts n s = true -> (length n <= length s)%nat.
Proof.
  induction n as [|x n IH]; intros [|y s]; cbn [starts length]; try lia; try discriminate.
  intros H. apply andb_true_iff in H as [_ H]. specialize (IH s H). lia.
Qed.
Lemma starts_prefix n : forall s, starts n s = true -> exists t, s = n ++ t.
Proof.
  induction n as [|x n IH]; intros s H; [now exists s|].
  destruct s as [|y s]; [discriminate|]. cbn [starts] in H. apply andb_true_iff in H as [E H].
  apply N.eqb_eq in E. subst y. destruct (IH s H) as (t & ->). now exists t.
Qed.

Lemma longest_ext l s s' : (forall x, In x l -> starts (fst x) s = starts (fst x) s') ->
  longest l s = longest l s'.
Proof.
  unfold longest. generalize (@None (list char * str)). induction l as [|x l IH]; intros o H; [reflexivity|].
  cbn [fold_left]. rewrite (H x (or_introl eq_refl)). apply IH. intros y Hy. apply H. now right.
Qed.
Lemma longest_in l s x : longest l s = Some x -> In x l /\ starts (fst x) s = true.
Proof.
  unfold longest.
  assert (G : forall l o, fold_left (fun found x =>
      if starts (fst x) s
         && match found with Some y => Nat.ltb (length (fst y)) (length (fst x)) | None => true end
      then Some x else found) l o = Some x ->
    (In x l /\ starts (fst x) s = true) \/ o = Some x).
  { clear. induction l as [|y l IH]; intros o H; [now right|]. cbn [fold_left] in H.
    apply IH in H as [[H1 H2]|H]; [left; split; [now right|auto]|].
    destruct (starts (fst y) s) eqn:E; cbn [andb] in H; [|now right].
    destruct (match o with Some y0 => Nat.ltb (length (fst y0)) (length (fst y)) | None => true end); [|now right].
    injection H as ->. left. split; [now left|auto]. }
  intros H. apply G in H as [H|H]; [exact H|discriminate].
Qed.

(** ** References stop where they have to *)

Lemma number_stop base val p : forall n c q, val c = None ->
  number base val n (p ++ c :: q) = number base val n p.
Proof.
  induction p as [|d p IH]; intros n c q Hc; cbn [app number]; [now rewrite Hc|].
  destruct (val d); auto. now rewrite IH.
Qed.
Lemma number_length base val s : forall n, (snd (number base val n s) <= length s)%nat.
Proof.
  induction s as [|d s IH]; intros n; cbn [number]; [cbn; lia|]. destruct (val d) as [v|]; [|cbn; lia].
  specialize (IH (base * n + v)). destruct (number base val (base * n + v) s). cbn in *. lia.
Qed.
Lemma semicolon_stop p c q k : (k <= length p)%nat -> semicolon (p ++ c :: q) k = semicolon (p ++ [c]) k.
Proof.
  intros H. unfold semicolon. destruct (Nat.eq_dec k (length p)) as [->|N].
  - rewrite !nth_error_app2 by lia. now rewrite Nat.sub_diag.
  - now rewrite !nth_error_app1 by lia.
Qed.
Lemma semicolon_end p c k : (k <= length p)%nat -> c <> 59 -> semicolon (p ++ [c]) k = semicolon p k.
Proof.
  intros H Hc. unfold semicolon. destruct (Nat.eq_dec k (length p)) as [->|N].
  - rewrite nth_error_app2, Nat.sub_diag by lia. cbn [nth_error]. rewrite (eqb_false c 59 Hc).
    pose proof (proj2 (nth_error_None p (length p)) (le_n _)) as E. unfold char in *. now rewrite E.
  - now rewrite nth_error_app1 by lia.
Qed.
Lemma semicolon_length s k : (k <= length s)%nat -> (semicolon s k <= length s)%nat.
Proof.
  intros H. unfold semicolon. destruct (nth_error s k) eqn:E; [|auto]. destruct (c =? 59); auto.
  assert (nth_error s k <> None) as E' by congruence. apply nth_error_Some in E'. lia.
Qed.
Lemma alnum_digit c : alnum c = false -> decimal_digit c = None /\ hex_digit c = None /\ (c =? 120) = false /\ (c =? 88) = false.
Proof.
  unfold alnum, decimal_digit, hex_digit, alpha, upper. intros H. apply orb_false_iff in H as [H Hd].
  rewrite Hd. split; [reflexivity|].
  apply orb_false_iff in H as [H1 H2].
  apply andb_false_iff in H1, H2. rewrite !N.leb_gt in H1, H2.
  split; [|split; apply eqb_false; lia].
  replace ((65 <=? c) && (c <=? 70)) with false.
  2: { symmetry. apply andb_false_iff. rewrite !N.leb_gt. lia. }
  replace ((97 <=? c) && (c <=? 102)) with false; [reflexivity|].
  symmetry. apply andb_false_iff. rewrite !N.leb_gt. lia.
Qed.

Lemma numeric_stop p c q : alnum c = false -> numeric (p ++ c :: q) = numeric (p ++ [c]).
Proof.
  intros Hc. destruct (alnum_digit c Hc) as (Hd & Hh & H1 & H2).
  destruct p as [|d p]; cbn [app numeric].
  - rewrite H1, H2. cbn [orb number]. now rewrite Hd.
  - destruct ((d =? 120) || (d =? 88)).
    + rewrite !number_stop by auto. pose proof (number_length 16 hex_digit p 0) as L.
      destruct (number 16 hex_digit 0 p) as [n k]. cbn in L. destruct k; auto. now rewrite semicolon_stop.
    + change (d :: p ++ c :: q) with ((d :: p) ++ c :: q). change (d :: p ++ [c]) with ((d :: p) ++ [c]).
      rewrite !number_stop by auto. pose proof (number_length 10 decimal_digit (d :: p) 0) as L.
      destruct (number 10 decimal_digit 0 (d :: p)) as [n k]. cbn [snd] in L. destruct k; auto.
      now rewrite semicolon_stop.
Qed.
Lemma numeric_end p c : alnum c = false -> c <> 59 -> numeric (p ++ [c]) = numeric p.
Proof.
  intros Hc Hs. destruct (alnum_digit c Hc) as (Hd & Hh & H1 & H2).
  destruct p as [|d p]; cbn [app numeric].
  - rewrite H1, H2. cbn [orb number]. now rewrite Hd.
  - destruct ((d =? 120) || (d =? 88)).
    + rewrite !number_stop by auto. pose proof (number_length 16 hex_digit p 0) as L.
      destruct (number 16 hex_digit 0 p) as [n k]. cbn in L. destruct k; auto. now rewrite semicolon_end.
    + change (d :: p ++ [c]) with ((d :: p) ++ [c]).
      rewrite !number_stop by auto. pose proof (number_length 10 decimal_digit (d :: p) 0) as L.
      destruct (number 10 decimal_digit 0 (d :: p)) as [n k]. cbn [snd] in L. destruct k; auto.
      now rewrite semicolon_end.
Qed.

Lemma good_last n c : good_name (n ++ [c]) = true -> alnum c = false -> c = 59.
Proof.
  induction n as [|x n IH]; cbn [app]; intros H Hc.
  - cbn [good_name] in H. rewrite Hc in H. now apply N.eqb_eq.
  - apply IH; auto. apply (good_cons x (n ++ [c])); auto. destruct n; easy.
Qed.
Lemma named_stop a p c q : alnum c = false -> named names a (p ++ c :: q) = named names a (p ++ [c]).
Proof.
  intros Hc. unfold named.
  rewrite (longest_ext names (p ++ c :: q) (p ++ [c])) by (intros x Hx; apply starts_stop; auto using names_good).
  destruct (longest names (p ++ [c])) as [[n x]|] eqn:E; auto. apply longest_in in E as [Hin Hs].
  apply names_good in Hin. cbn [fst] in *.
  pose proof (starts_length _ _ Hs) as L. rewrite app_length in L. cbn [length] in L.
  destruct (Nat.eq_dec (length n) (length p + 1)) as [En|Nn].
  - assert (last n 0 = 59) as ->.
    { destruct (starts_prefix _ _ Hs) as (t & Et).
      assert (t = []) as ->.
      { apply (f_equal (@length char)) in Et. rewrite !app_length in Et. cbn [length] in Et. destruct t; auto. cbn in Et. lia. }
      rewrite app_nil_r in Et. subst n. rewrite last_last. now apply (good_last p c). }
    cbn [negb N.eqb]. change (59 =? 59) with true. cbn [negb]. now rewrite !andb_false_r.
  - destruct (Nat.eq_dec (length n) (length p)) as [Ep|Np].
    + rewrite !nth_error_app2 by lia. rewrite Ep, Nat.sub_diag. reflexivity.
    + now rewrite !nth_error_app1 by lia.
Qed.
Lemma named_end a p c : alnum c = false -> c <> 59 -> c <> 61 -> named names a (p ++ [c]) = named names a p.
Proof.
  intros Hc Hs He. unfold named.
  rewrite (longest_ext names (p ++ [c]) p) by (intros x Hx; apply starts_end; auto using names_good).
  destruct (longest names p) as [[n x]|] eqn:E; auto. apply longest_in in E as [Hin Hp]. cbn [fst] in *.
  pose proof (starts_length _ _ Hp) as L.
  destruct (Nat.eq_dec (length n) (length p)) as [Ep|Np].
  - rewrite nth_error_app2 by lia. rewrite Ep, Nat.sub_diag. cbn [nth_error].
    rewrite (eqb_false c 61 He), Hc. cbn [orb].
    pose proof (proj2 (nth_error_None p (length p)) (le_n _)) as E. unfold char in *. now rewrite E.
  - now rewrite nth_error_app1 by lia.
Qed.

Lemma reference_stop a p c q : stops c -> reference a (p ++ c :: q) = reference a (p ++ [c]).
Proof.
  intros [Hc H35]. destruct p as [|d p]; cbn [app reference].
  - rewrite (eqb_false c 35 H35). exact (named_stop a [] c q Hc).
  - destruct (d =? 35); [now apply numeric_stop|]. exact (named_stop a (d :: p) c q Hc).
Qed.
Lemma reference_end a p c : stops c -> c <> 59 -> c <> 61 -> reference a (p ++ [c]) = reference a p.
Proof.
  intros [Hc H35] Hs He. destruct p as [|d p]; cbn [app reference].
  - rewrite (eqb_false c 35 H35). exact (named_end a [] c Hc Hs He).
  - destruct (d =? 35); [now apply numeric_end|]. exact (named_end a (d :: p) c Hc Hs He).
Qed.
Lemma reference_length a t x k : reference a t = Some (x, k) -> (k <= length t)%nat.
Proof.
  destruct t as [|c t]; [discriminate|]. cbn [reference]. destruct (c =? 35).
  - destruct t as [|d t]; [discriminate|]. cbn [numeric]. destruct ((d =? 120) || (d =? 88)).
    + pose proof (number_length 16 hex_digit t 0) as L. destruct (number 16 hex_digit 0 t) as [n j]. cbn [snd] in L.
      destruct j; [discriminate|]. intros H. injection H as _ <-.
      pose proof (semicolon_length t (S j) L). cbn [length]. lia.
    + pose proof (number_length 10 decimal_digit (d :: t) 0) as L. destruct (number 10 decimal_digit 0 (d :: t)) as [n j].
      cbn [snd] in L. destruct j; [discriminate|]. intros H. injection H as _ <-.
      pose proof (semicolon_length (d :: t) (S j) L). cbn [length] in *. lia.
  - unfold named. destruct (longest names (c :: t)) as [[n y]|] eqn:E; [|discriminate].
    apply longest_in in E as [_ E]. apply starts_length in E. cbn [fst] in E.
    destruct (_ && _); [discriminate|]. intros H. injection H as _ <-. exact E.
Qed.
Lemma reference_local : Local_ref reference.
Proof.
  split; [exact reference_length|]. intros a t c r H.
  assert (S : stops c /\ c <> 59 /\ c <> 61) by (destruct H as [<-|[<-|[]]]; repeat split; discriminate).
  destruct S as (S & N1 & N2). rewrite reference_stop by exact S. now apply reference_end.
Qed.

(** ** Settled texts *)

Lemma settled_tail p q : Settled (p ++ q) -> Settled q.
Proof. intros H u v ->. apply (H (p ++ u) v). now rewrite app_assoc. Qed.
Lemma settled_nil : Settled [].
Proof. intros [|? ?] q E; discriminate. Qed.
Lemma settled_app a b : Settled a -> Settled b -> Settled (a ++ b).
Proof.
  intros Ha Hb p q E. symmetry in E.
  assert (G : (exists u, a = p ++ 38 :: u /\ q = u ++ b) \/ (exists u, b = u ++ 38 :: q)).
  { clear -E. revert a E. induction p as [|x p IH]; intros a E; cbn [app] in E.
    - destruct a as [|y a]; cbn [app] in E; [right; exists []; now rewrite E|].
      injection E as E1 E2. left. exists a. now subst.
    - destruct a as [|y a]; cbn [app] in E; [right; exists (x :: p); now rewrite <- E|].
      injection E as E1 E2. subst y. destruct (IH a E2) as [(u & -> & ->)|H]; [left; exists u; auto|now right]. }
  destruct G as [(u & -> & ->)|(u & ->)].
  - destruct (Ha p u eq_refl) as (c & Hc & Hs). exists c. split; auto. apply in_or_app. now left.
  - now apply (Hb u q).
Qed.
Lemma expand_settled a r : forall s, Settled s ->
  expand (reference a) 0 (s ++ r) = expand (reference a) 0 s ++ expand (reference a) 0 r.
Proof.
  intros s. remember (length s) as m eqn:Em. revert s Em.
  induction m as [m IH] using lt_wf_ind. intros s -> H. destruct s as [|c s]; [reflexivity|].
  cbn [app expand]. destruct (c =? 38) eqn:E38.
  - apply N.eqb_eq in E38. subst c. destruct (H [] s eq_refl) as (c & Hc & Hs).
    apply in_split in Hc as (u & v & Es).
    assert (Er : reference a (s ++ r) = reference a s).
    { rewrite Es, <- app_assoc. cbn [app].
      etransitivity; [exact (reference_stop a u c (v ++ r) Hs)|]. symmetry. exact (reference_stop a u c v Hs). }
    rewrite Er. destruct (reference a s) as [[x k]|] eqn:E.
    + pose proof (reference_length _ _ _ _ E) as Hk.
      rewrite (expand_skip _ k), (expand_skip _ k s).
      rewrite skipn_app. replace (k - length s)%nat with O by lia. cbn [skipn].
      rewrite (IH (length (skipn k s))); [now rewrite app_assoc|rewrite skipn_length; cbn; lia|auto|].
      apply (settled_tail (38 :: firstn k s)). cbn [app]. rewrite firstn_skipn. exact H.
    + cbn [app]. f_equal. apply (IH (length s)); [cbn; lia|auto|]. now apply (settled_tail [38]).
  - cbn [app]. f_equal. apply (IH (length s)); [cbn; lia|auto|]. now apply (settled_tail [c]).
Qed.

(** ** Encoded text *)

Lemma entity_reference c e a : Entity c e -> exists n, e = 38 :: n /\
  forall r, reference a (n ++ r) = Some ([c], length n).
Proof.
  assert (G : forall p x, reference a (p ++ [59]) = Some ([x], S (length p)) ->
    forall r, reference a ((p ++ [59]) ++ r) = Some ([x], length (p ++ [59]))).
  { intros p x H r. rewrite <- app_assoc. cbn [app].
    etransitivity; [apply (reference_stop a p 59 r); split; [reflexivity|discriminate]|].
    etransitivity; [exact H|]. rewrite app_length. cbn [length]. do 2 f_equal. lia. }
  intros H. destruct H; eexists; (split; [reflexivity|]).
  - apply (G (lit "amp")). destruct a; vm_compute; reflexivity.
  - apply (G (lit "lt")). destruct a; vm_compute; reflexivity.
  - apply (G (lit "gt")). destruct a; vm_compute; reflexivity.
  - apply (G (lit "quot")). destruct a; vm_compute; reflexivity.
Qed.
Lemma decodes_expand r s : Decodes r s -> forall a, expand (reference a) 0 r = s.
Proof.
  induction 1 as [|c r s Hc H IH|c e r s He H IH]; intros a; [reflexivity| |].
  - cbn [expand]. rewrite (eqb_false c 38 Hc). now rewrite IH.
  - destruct (entity_reference c e a He) as (n & -> & Hr). cbn [app expand].
    change (38 =? 38) with true. cbv iota. rewrite Hr, expand_skip.
    rewrite skipn_app, skipn_all, Nat.sub_diag. cbn [skipn app]. now rewrite IH.
Qed.
Lemma decodes_settled r s : Decodes r s -> Settled r.
Proof.
  induction 1 as [|c r s Hc H IH|c e r s He H IH]; [apply settled_nil| |].
  - apply (settled_app [c] r); auto. intros [|x p] q E; injection E as E1 E2; [congruence|destruct p; discriminate].
  - apply settled_app; auto. intros p q E.
    assert (Hq : In 59 q).
    { clear -He E. destruct He; vm_compute in E;
        (destruct p as [|x p]; [injection E as <-; simpl; tauto|]); injection E as _ E; exfalso;
        apply (f_equal (fun l => existsb (N.eqb 38) l)) in E; rewrite existsb_app in E; cbn [existsb] in E;
        rewrite orb_true_r in E; discriminate. }
    exists 59. split; auto. split; [reflexivity|discriminate].
Qed.

(** ** Whole templates *)

Lemma shown_settled b evs : SettledTexts evs -> forall raw acc, Settled acc ->
  shown reference b raw acc evs = shown_text reference raw acc ++ shown_each reference b raw evs.
Proof.
  induction evs as [|ev evs IH]; intros S raw acc Ha; cbn [shown shown_each].
  - now rewrite app_nil_r.
  - assert (S' : SettledTexts evs).
    { intros c [H|H]; apply S; [left|right]; now right. }
    assert (T : forall c, Settled (enc_str c) ->
      shown_text reference raw (acc ++ enc_str c) = shown_text reference raw acc ++ shown_text reference raw (enc_str c)).
    { intros c Hc. unfold shown_text. destruct raw; [unfold chars; now rewrite map_app|].
      rewrite expand_settled by auto. unfold chars. now rewrite map_app. }
    assert (N : forall raw, shown reference b raw [] evs = shown_each reference b raw evs).
    { intros raw'. rewrite (IH S' raw' [] settled_nil). unfold shown_text. destruct raw'; reflexivity. }
    destruct ev; rewrite ?N, <- ?app_assoc; auto.
    + assert (Hc : Settled (enc_str content)) by (apply S; left; now left).
      rewrite IH by auto using settled_app. now rewrite T, <- app_assoc.
    + assert (Hc : Settled (enc_str content)) by (apply S; right; now left).
      rewrite IH by auto using settled_app. now rewrite T, <- app_assoc.
Qed.
Lemma shown_settled0 b evs : SettledTexts evs ->
  shown reference b false [] evs = shown_each reference b false evs.
Proof. intros H. now rewrite (shown_settled b evs H false [] settled_nil). Qed.

Lemma standard_shown b evs : Standard b evs ->
  read b (display_events evs) = shown reference b false [] evs.
Proof.
  intros H. unfold read. rewrite newlines_id by (now apply (clean_standard b)).
  exact (read_standard b reference reference_local evs H [] (fun x => x)).
Qed.
