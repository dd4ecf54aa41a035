(** Proofs about UTF-8 and [from_file]. *)
From Coq Require Import List NArith ZArith Arith Bool Lia.
Import ListNotations.
From Verif Require Import Text Input Parse Selector Template SpecLocation TextProofs LocationProofs.
Local Open Scope N_scope.

Ltac euclid := zify; Z.to_euclidean_division_equations; lia.

Ltac break_le :=
  repeat match goal with
  | H : (_ && _) = true |- _ => apply andb_true_iff in H; destruct H
  | H : (_ <=? _) = true |- _ => apply N.leb_le in H
  | H : (_ <=? _) = false |- _ => apply N.leb_gt in H
  | H : (_ <? _) = true |- _ => apply N.ltb_lt in H
  | H : (_ <? _) = false |- _ => apply N.ltb_ge in H
  | H : (_ =? _) = true |- _ => apply N.eqb_eq in H
  | H : (_ =? _) = false |- _ => apply N.eqb_neq in H
  end.

Lemma leb_t a b : a <= b -> (a <=? b) = true. Proof. apply N.leb_le. Qed.
Lemma leb_f a b : b < a -> (a <=? b) = false. Proof. apply N.leb_gt. Qed.
Lemma ltb_t a b : a < b -> (a <? b) = true. Proof. apply N.ltb_lt. Qed.
Lemma ltb_f a b : b <= a -> (a <? b) = false. Proof. apply N.ltb_ge. Qed.

Lemma utf8_first_char c rest : Scalar c ->
  utf8_first (utf8_char c ++ rest) = Some (c, length (utf8_char c)).
Proof.
  intros Hc. unfold utf8_char.
  destruct (c <? 128) eqn:E1; [|destruct (c <? 2048) eqn:E2; [|destruct (c <? 65536) eqn:E3]];
    break_le; cbn [app length utf8_first].
  - rewrite ltb_t by auto. reflexivity.
  - set (q := c / 64). set (r := c mod 64).
    assert (Hq : c = 64 * q + r /\ r < 64 /\ 2 <= q < 32) by (unfold q, r; euclid).
    rewrite ltb_f by lia. rewrite !leb_t by lia. unfold is_cont. rewrite !leb_t by lia.
    cbn [andb]. do 2 f_equal. lia.
  - set (q1 := c / 4096). set (q2 := (c / 64) mod 64). set (r := c mod 64).
    assert (Hq : c = 64 * (64 * q1 + q2) + r /\ r < 64 /\ q2 < 64 /\ q1 < 16) by (unfold q1, q2, r; euclid).
    rewrite ltb_f by lia. rewrite (leb_f (224 + q1)) by lia. rewrite andb_false_r.
    rewrite !(leb_t 224), !(leb_t (224 + q1)) by lia. cbn [andb].
    unfold is_cont. rewrite !(leb_t 128), !(leb_t (128 + _) 191) by lia. cbn [andb].
    destruct (224 + q1 =? 224) eqn:E; break_le.
    + rewrite leb_t by lia. cbn [andb]. do 2 f_equal. lia.
    + destruct (224 + q1 =? 237) eqn:E'; break_le.
      * rewrite leb_t by (destruct Hc; lia). cbn [andb]. do 2 f_equal. lia.
      * cbn [andb]. do 2 f_equal. lia.
  - set (q1 := c / 262144). set (q2 := (c / 4096) mod 64). set (q3 := (c / 64) mod 64).
    set (r := c mod 64).
    assert (Hq : c = 64 * (64 * (64 * q1 + q2) + q3) + r /\ r < 64 /\ q2 < 64 /\ q3 < 64 /\ q1 < 5).
    { destruct Hc as [Hc|Hc]; [lia|]. unfold q1, q2, q3, r. euclid. }
    assert (Hc' : c < 1114112) by (destruct Hc; lia).
    rewrite ltb_f by lia. rewrite (leb_f (240 + q1)) by lia. rewrite andb_false_r.
    rewrite (leb_f (240 + q1) 239) by lia. rewrite andb_false_r.
    rewrite !(leb_t 240), !(leb_t (240 + q1)) by lia. cbn [andb].
    unfold is_cont. rewrite !(leb_t 128), !(leb_t (128 + _) 191) by lia. cbn [andb].
    destruct (240 + q1 =? 240) eqn:E; break_le.
    + rewrite leb_t by lia. cbn [andb]. do 2 f_equal. lia.
    + destruct (240 + q1 =? 244) eqn:E'; break_le.
      * rewrite leb_t by lia. cbn [andb]. do 2 f_equal. lia.
      * cbn [andb]. do 2 f_equal. lia.
Qed.

Lemma utf8_first_some bs c n : utf8_first bs = Some (c, n) ->
  Scalar c /\ n = length (utf8_char c) /\ exists rest, bs = utf8_char c ++ rest.
Proof.
  unfold utf8_first, is_cont, Scalar, utf8_char.
  destruct bs as [|b0 t0]; [discriminate|].
  destruct (b0 <? 128) eqn:E0.
  { intros [= -> <-]. rewrite E0. break_le. repeat split; [lia|]. now exists t0. }
  destruct t0 as [|b1 t1]; [discriminate|].
  destruct ((194 <=? b0) && (b0 <=? 223)) eqn:E1.
  { destruct ((128 <=? b1) && (b1 <=? 191)) eqn:E2; [|discriminate]. intros X.
    injection X as X <-. break_le. rewrite ltb_f, ltb_t by lia. repeat split; [lia|].
    exists t1. cbn [app]. f_equal; [euclid|]. f_equal. euclid. }
  destruct t1 as [|b2 t2]; [discriminate|].
  destruct ((224 <=? b0) && (b0 <=? 239)) eqn:E2.
  { match goal with |- (if ?x then _ else _) = _ -> _ => destruct x eqn:E3; [|discriminate] end. intros X. injection X as X <-.
    apply andb_true_iff in E3. destruct E3 as [E3 E4].
    assert (H : 2048 <= c < 55296 \/ 57344 <= c < 65536).
    { destruct (b0 =? 224) eqn:E5; [|destruct (b0 =? 237) eqn:E6]; break_le; lia. }
    assert (H1 : 128 <= b1 <= 191).
    { destruct (b0 =? 224) eqn:E5; [|destruct (b0 =? 237) eqn:E6]; break_le; lia. }
    break_le. rewrite ltb_f, ltb_f, ltb_t by lia. repeat split; [lia|].
    exists t2. cbn [app]. f_equal; [euclid|]. f_equal; [euclid|]. f_equal. euclid. }
  destruct t2 as [|b3 t3]; [discriminate|].
  destruct ((240 <=? b0) && (b0 <=? 244)) eqn:E3; [|discriminate].
  match goal with |- (if ?x then _ else _) = _ -> _ => destruct x eqn:E4; [|discriminate] end. intros X. injection X as X <-.
  apply andb_true_iff in E4. destruct E4 as [E4 E5]. apply andb_true_iff in E4. destruct E4 as [E4 E6].
  assert (H : 65536 <= c < 1114112).
  { destruct (b0 =? 240) eqn:E7; [|destruct (b0 =? 244) eqn:E8]; break_le; lia. }
  assert (H1 : 128 <= b1 <= 191).
  { destruct (b0 =? 240) eqn:E7; [|destruct (b0 =? 244) eqn:E8]; break_le; lia. }
  break_le. rewrite !ltb_f by lia. repeat split; [lia|].
  exists t3. cbn [app]. f_equal; [euclid|]. f_equal; [euclid|]. f_equal; [euclid|]. f_equal. euclid.
Qed.

Lemma utf8_char_pos c : (0 < length (utf8_char c))%nat.
Proof. unfold utf8_char. destruct (c <? 128), (c <? 2048), (c <? 65536); simpl; lia. Qed.

Lemma skipn_app_len {A} (a b : list A) n : n = length a -> skipn n (a ++ b) = b.
Proof. intros ->. apply skipn_app_exact. Qed.

Lemma utf8_prefix_spec fuel bs s n rest : (length bs <= fuel)%nat ->
  utf8_prefix fuel bs = (s, n, rest) ->
  bs = utf8 s ++ rest /\ n = length (utf8 s) /\ ScalarStr s /\ utf8_first rest = None.
Proof.
  revert bs s n rest; induction fuel as [|fuel IH]; intros bs s n rest Hf; simpl.
  - intros [= <- <- <-]. repeat split; auto. intros ? []. destruct bs; [reflexivity|simpl in Hf; lia].
  - destruct (utf8_first bs) as [[c k]|] eqn:E.
    + apply utf8_first_some in E. destruct E as (Hc & -> & r & ->).
      destruct (utf8_prefix fuel _) as [[s' m] rest'] eqn:E'.
      rewrite skipn_app_exact in E'. apply IH in E'.
      2:{ rewrite app_length in Hf. pose proof (utf8_char_pos c). unfold byte, char in *; lia. }
      destruct E' as (-> & -> & Hs & Hr). intros [= <- <- <-].
      unfold utf8. cbn [flat_map]. fold (utf8 s'). rewrite <- app_assoc, app_length.
      repeat split; auto. intros x [<-|Hx]; auto.
    + intros [= <- <- <-]. repeat split; auto. intros ? [].
Qed.

Lemma utf8_prefix_unique s1 r1 s2 r2 : ScalarStr s1 -> ScalarStr s2 ->
  utf8_first r1 = None -> utf8_first r2 = None ->
  utf8 s1 ++ r1 = utf8 s2 ++ r2 -> s1 = s2 /\ r1 = r2.
Proof.
  intros H1 H2 Hr1 Hr2. revert s2 H2. induction s1 as [|c s1 IH]; intros s2 H2 E.
  - destruct s2 as [|d s2]; auto. exfalso. simpl in E. subst r1.
    rewrite <- app_assoc, utf8_first_char in Hr1; [discriminate|]. apply H2. now left.
  - destruct s2 as [|d s2].
    + exfalso. simpl in E. subst r2.
      rewrite <- app_assoc, utf8_first_char in Hr2; [discriminate|]. apply H1. now left.
    + simpl in E. rewrite <- !app_assoc in E.
      assert (Hc : Scalar c) by (apply H1; now left). assert (Hd : Scalar d) by (apply H2; now left).
      pose proof (utf8_first_char c (utf8 s1 ++ r1) Hc) as X.
      rewrite E, utf8_first_char in X by auto. injection X as -> _.
      apply app_inv_head in E. destruct (IH (fun x Hx => H1 x (or_intror Hx)) s2) as [-> ->]; auto.
      intros x Hx. apply H2. now right.
Qed.

Lemma utf8_inj s1 s2 : ScalarStr s1 -> ScalarStr s2 -> utf8 s1 = utf8 s2 -> s1 = s2.
Proof.
  intros H1 H2 E. apply (utf8_prefix_unique s1 [] s2 []); auto. now rewrite !app_nil_r.
Qed.

Lemma from_utf8_prefix_valid s : ScalarStr s ->
  from_utf8_prefix (utf8 s) = (s, length (utf8 s), []).
Proof.
  intros Hs. unfold from_utf8_prefix.
  match goal with |- ?t = _ => destruct t as [[s' n] r] eqn:E end.
  apply utf8_prefix_spec in E; auto. destruct E as (E & -> & Hs' & Hr).
  rewrite <- (app_nil_r (utf8 s)) in E.
  destruct (utf8_prefix_unique s [] s' r) as [<- <-]; auto.
Qed.

(** ** Reading *)

Definition Nonempty (reads : schedule) : Prop := forall bs, In (inl bs) reads -> bs <> [].

Lemma scalar_app a b : ScalarStr a -> ScalarStr b -> ScalarStr (a ++ b).
Proof. intros Ha Hb c Hc. apply in_app_or in Hc. destruct Hc; auto. Qed.

Definition over (limit : option nat) (n : nat) : bool :=
  match limit with Some l => Nat.ltb l n | None => false end.

(** one iteration *)
Lemma read_loop_step fuel path limit buf reads acc :
  read_loop (S fuel) path limit buf reads acc =
  match match buf with
        | [] => match reads with
                | [] => inl ([], [])
                | inl bs :: reads => inl (bs, reads)
                | inr code :: _ => inr code
                end
        | _ :: _ => inl (buf, reads)
        end with
  | inr code => Some (inr (FileRead path code))
  | inl ([], _) => Some (inl acc)
  | inl (data, reads) =>
      let '(s, n, rest) := from_utf8_prefix data in
      match n with
      | O => Some (inr (FileDecode path 0))
      | S _ => match limit with
               | Some l => if Nat.ltb l (str_len (acc ++ s))
                           then Some (inr (FileInput path (LengthLimitExceeded l)))
                           else read_loop fuel path limit rest reads (acc ++ s)
               | None => read_loop fuel path limit rest reads (acc ++ s)
               end
      end
  end.
Proof.
  simpl. destruct buf as [|b buf]; [destruct reads as [|[[|b bs]|code] reads]|]; auto;
    destruct (from_utf8_prefix _) as [[s n] rest]; destruct n; auto; destruct limit; auto.
Qed.

Inductive Outcome (path : str) (limit : option nat) (total : str) : option (str + file_error) -> Prop :=
| Out_ok : over limit (str_len total) = false -> Outcome path limit total (Some (inl total))
| Out_limit l : limit = Some l -> over limit (str_len total) = true ->
    Outcome path limit total (Some (inr (FileInput path (LengthLimitExceeded l)))).

Lemma nonempty_tail r reads : Nonempty (r :: reads) -> Nonempty reads.
Proof. intros H bs Hb. apply H. now right. Qed.

Lemma read_loop_ok fuel path limit buf reads acc s : Nonempty reads -> ScalarStr acc ->
  over limit (str_len acc) = false ->
  read_loop fuel path limit buf reads acc = Some (inl s) ->
  ScalarStr s /\ over limit (str_len s) = false /\
  exists chunks, reads = map inl chunks /\ utf8 s = utf8 acc ++ buf ++ concat chunks.
Proof.
  revert buf reads acc. induction fuel as [|fuel IH]; intros buf reads acc Hne Hacc Hov;
    [discriminate|]. rewrite read_loop_step.
  assert (Hrec : forall d reads', Nonempty reads' -> d <> [] ->
    (let '(s0, n, rest) := from_utf8_prefix d in
      match n with
      | O => Some (inr (FileDecode path 0))
      | S _ => match limit with
               | Some l => if Nat.ltb l (str_len (acc ++ s0))
                           then Some (inr (FileInput path (LengthLimitExceeded l)))
                           else read_loop fuel path limit rest reads' (acc ++ s0)
               | None => read_loop fuel path limit rest reads' (acc ++ s0)
               end
      end) = Some (inl s) ->
    ScalarStr s /\ over limit (str_len s) = false /\
    exists chunks, reads' = map inl chunks /\ utf8 s = utf8 acc ++ d ++ concat chunks).
  { intros d reads' Hne' Hd. destruct (from_utf8_prefix d) as [[s0 n] rest] eqn:E.
    apply utf8_prefix_spec in E; auto. destruct E as (-> & -> & Hs0 & _).
    destruct (length (utf8 s0)); [discriminate|].
    assert (G : over limit (str_len (acc ++ s0)) = false ->
      read_loop fuel path limit rest reads' (acc ++ s0) = Some (inl s) ->
      ScalarStr s /\ over limit (str_len s) = false /\
      exists chunks, reads' = map inl chunks /\
        utf8 s = utf8 acc ++ (utf8 s0 ++ rest) ++ concat chunks).
    { intros Ho X. apply IH in X; auto using scalar_app.
      destruct X as (X1 & X2 & chunks & -> & X3). repeat split; auto. exists chunks. split; auto.
      now rewrite X3, utf8_app, <- !app_assoc. }
    destruct limit as [l|]; [|auto]. cbn [over] in G.
    destruct (Nat.ltb l (str_len (acc ++ s0))); [discriminate|auto]. }
  destruct buf as [|b buf]; [destruct reads as [|[[|b bs]|code] reads]|].
  - intros [= <-]. repeat split; auto. exists []. rewrite !app_nil_r. auto.
  - exfalso. apply (Hne []); auto. now left.
  - intros X. apply (Hrec (b :: bs) reads) in X; [|now apply nonempty_tail in Hne|discriminate].
    destruct X as (X1 & X2 & chunks & -> & X3). repeat split; auto.
    exists ((b :: bs) :: chunks). split; auto.
  - discriminate.
  - intros X. apply (Hrec (b :: buf) reads) in X; auto.
Qed.

(** errors of the loop *)
Lemma read_loop_err fuel path limit buf reads acc e : Nonempty reads ->
  read_loop fuel path limit buf reads acc = Some (inr e) ->
  (exists code, In (inr code) reads /\ e = FileRead path code) \/
  (e = FileDecode path 0) \/
  (exists l, limit = Some l /\ e = FileInput path (LengthLimitExceeded l)).
Proof.
  revert buf reads acc. induction fuel as [|fuel IH]; intros buf reads acc Hne; [discriminate|].
  rewrite read_loop_step.
  assert (Hrec : forall d reads', Nonempty reads' -> (forall code, In (inr code) reads' -> In (inr code) reads) ->
    (let '(s0, n, rest) := from_utf8_prefix d in
      match n with
      | O => Some (inr (FileDecode path 0))
      | S _ => match limit with
               | Some l => if Nat.ltb l (str_len (acc ++ s0))
                           then Some (inr (FileInput path (LengthLimitExceeded l)))
                           else read_loop fuel path limit rest reads' (acc ++ s0)
               | None => read_loop fuel path limit rest reads' (acc ++ s0)
               end
      end) = Some (inr e) ->
    (exists code, In (inr code) reads /\ e = FileRead path code) \/
    (e = FileDecode path 0) \/
    (exists l, limit = Some l /\ e = FileInput path (LengthLimitExceeded l))).
  { intros d reads' Hne' Hin. destruct (from_utf8_prefix d) as [[s0 n] rest].
    destruct n; [intros [= <-]; auto|].
    assert (G : read_loop fuel path limit rest reads' (acc ++ s0) = Some (inr e) ->
      (exists code, In (inr code) reads /\ e = FileRead path code) \/
      (e = FileDecode path 0) \/
      (exists l, limit = Some l /\ e = FileInput path (LengthLimitExceeded l))).
    { intros X. apply IH in X; auto. destruct X as [(code & H & ->)|X]; auto. left. eauto. }
    destruct limit as [l|]; [|auto].
    destruct (Nat.ltb l (str_len (acc ++ s0))); [intros [= <-]; right; right; eauto|auto]. }
  destruct buf as [|b buf]; [destruct reads as [|[[|b bs]|code] reads]|].
  - discriminate.
  - exfalso. apply (Hne []); auto. now left.
  - apply (Hrec (b :: bs) reads); [now apply nonempty_tail in Hne|]. intros code H. now right.
  - intros [= <-]. left. exists code. split; auto. now left.
  - apply (Hrec (b :: buf) reads); auto.
Qed.

(** fuel *)
Lemma read_loop_fuel fuel path limit buf reads acc :
  (length buf + schedule_size reads <= fuel)%nat ->
  read_loop fuel path limit buf reads acc <> None.
Proof.
  revert buf reads acc. induction fuel as [|fuel IH]; intros buf reads acc Hf.
  { exfalso. assert (1 <= schedule_size reads)%nat; [|lia].
    clear. induction reads as [|[bs|code] reads IH]; simpl in *; lia. }
  rewrite read_loop_step.
  assert (Hrec : forall d reads', d <> [] -> (length d + schedule_size reads' <= S fuel)%nat ->
    (let '(s0, n, rest) := from_utf8_prefix d in
      match n with
      | O => Some (inr (FileDecode path 0))
      | S _ => match limit with
               | Some l => if Nat.ltb l (str_len (acc ++ s0))
                           then Some (inr (FileInput path (LengthLimitExceeded l)))
                           else read_loop fuel path limit rest reads' (acc ++ s0)
               | None => read_loop fuel path limit rest reads' (acc ++ s0)
               end
      end) <> None).
  { intros d reads' Hd Hl. destruct (from_utf8_prefix d) as [[s0 n] rest] eqn:E.
    apply utf8_prefix_spec in E; auto. destruct E as (-> & -> & _ & _).
    destruct (length (utf8 s0)) eqn:En; [discriminate|]. rewrite app_length in Hl.
    destruct limit as [l|]; [destruct (Nat.ltb _ _); [discriminate|]|]; apply IH; unfold byte in *; lia. }
  destruct buf as [|b buf]; [destruct reads as [|[[|b bs]|code] reads]|]; try discriminate.
  - apply Hrec; [discriminate|]. simpl in *. lia.
  - apply Hrec; [discriminate|auto].
Qed.

(** reads that split no character *)
Lemma read_loop_whole fuel path limit pieces acc :
  (forall p, In p pieces -> p <> [] /\ ScalarStr p) ->
  over limit (str_len acc) = false -> (length pieces < fuel)%nat ->
  read_loop fuel path limit [] (map (fun p => inl (utf8 p)) pieces) acc =
  Some (if over limit (str_len (acc ++ concat pieces))
        then inr (FileInput path (LengthLimitExceeded (match limit with Some l => l | None => 0%nat end)))
        else inl (acc ++ concat pieces)).
Proof.
  revert pieces acc. induction fuel as [|fuel IH]; intros pieces acc Hp Hov Hf; [lia|].
  rewrite read_loop_step. destruct pieces as [|p pieces]; simpl map; cbv iota.
  - cbn [concat]. rewrite app_nil_r, Hov. reflexivity.
  - destruct (Hp p (or_introl eq_refl)) as [Hp1 Hp2].
    destruct (utf8 p) as [|b bs] eqn:Eu.
    { exfalso. destruct p as [|c p]; [congruence|]. simpl in Eu. pose proof (utf8_char_pos c).
      destruct (utf8_char c); [simpl in *; lia|discriminate]. }
    rewrite <- Eu. rewrite from_utf8_prefix_valid by auto. rewrite Eu. cbn [length].
    cbn [concat]. rewrite app_assoc.
    assert (G : over limit (str_len (acc ++ p)) = false ->
      read_loop fuel path limit [] (map (fun p => inl (utf8 p)) pieces) (acc ++ p) =
      Some (if over limit (str_len ((acc ++ p) ++ concat pieces))
        then inr (FileInput path (LengthLimitExceeded (match limit with Some l => l | None => 0%nat end)))
        else inl ((acc ++ p) ++ concat pieces))).
    { intros Ho. apply IH; auto; [|simpl in Hf; lia]. intros q Hq. apply Hp. now right. }
    destruct limit as [l|]; [|now apply G]. cbn [over] in *.
    destruct (Nat.ltb_spec l (str_len (acc ++ p))) as [L|L].
    + replace (Nat.ltb l (str_len ((acc ++ p) ++ concat pieces))) with true; auto.
      symmetry. apply Nat.ltb_lt. rewrite !str_len_utf8 in *. rewrite utf8_app, app_length. lia.
    + apply G. auto.
Qed.
