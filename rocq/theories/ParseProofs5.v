(** Proofs about the whole parser: the iterator and [collect]. *)
From Coq Require Import String List NArith Arith Bool Lia.
Import ListNotations.
From Verif Require Import Text Event Input Parse SpecText SpecAttr SpecLocation SpecParse
  TextProofs AttrProofs AttrProofs2 LocationProofs ParseProofs ParseProofs2 ParseProofs3 ParseProofs4.
Local Open Scope N_scope.

Definition entry (e : str * str) : located ident := Located (loc_of (fst e)) (name (snd e)).
Definition state (o : options) (pre s : str) (m : option str) (st : open_stack) : iter :=
  Iter (at_ pre s) (mode_of m) (map entry st) o.
Definition good_mode (m : option str) : Prop := match m with Some t => In t RawNames | None => True end.

Lemma reads_app limit s0 pre s m st evs : Reads limit s0 pre s m st evs -> s0 = pre ++ s.
Proof. induction 1; auto. rewrite <- app_assoc. auto. Qed.

Lemma spells_name slice ev : Spells slice ev ->
  match ev with
  | OpeningTag t _ | SelfClosedTag t _ | VoidTag t _ | ClosingTag t =>
      exists n, t = name n /\ ValidName n
  | _ => True
  end.
Proof.
  assert (HvT : forall slice n a slash, Tag slice n a slash -> ValidName n).
  { intros ? n a slash (r & (_ & _ & w & w' & s' & _ & _ & Hn & _) & _). apply Hn. }
  destruct 1; auto; eexists; split; eauto. destruct H as (? & ? & ? & _ & _ & _ & _ & Hn). apply Hn.
Qed.
Lemma spells_nonempty slice ev : Spells slice ev -> slice <> [].
Proof.
  assert (X : forall slice n a slash, Tag slice n a slash -> slice <> []).
  { intros ? n a slash (r & (_ & _ & w & w' & s' & -> & _) & _). discriminate. }
  destruct 1; eauto; try discriminate.
  destruct H as (? & ? & ? & -> & _). discriminate.
Qed.

Lemma item_good m slice rest ev m' : Item m slice rest ev m' -> good_mode m'.
Proof.
  destruct 1 as [? ? ev m' _ H _|]; [|exact I]. destruct m' as [t|]; [|exact I].
  destruct ev; try discriminate. apply H.
Qed.
Lemma reads_mode limit s0 pre s m st evs : Reads limit s0 pre s m st evs ->
  match m with Some t => In t RawNames /\ st <> [] | None => True end.
Proof.
  destruct 1 as [|pre slice rest m m' st st' evs ev HR Hne Hi Hn]; [exact I|].
  destruct m' as [t|]; [|exact I]. pose proof (item_good _ _ _ _ _ Hi) as Hg.
  inversion Hi as [? ? ? ? _ H _|]; subst.
  split; auto. destruct ev; try discriminate H. destruct Hn as [_ ->]. discriminate.
Qed.

Lemma ident_eqb_names n n' : ValidName n -> (ident_eqb (name n) (name n') = true <-> SameName n n').
Proof.
  intros H. unfold ident_eqb. change (id_str (name n)) with n. change (id_str (name n')) with n'.
  rewrite identifier_eq_spec. split; [tauto|]. intros E. pose proof (same_name_ascii _ _ E) as A.
  rewrite (valid_ascii _ H) in *. auto.
Qed.

(** parsing one item in either mode *)
Lemma parse_cases p s m : s <> [] -> good_mode m ->
  (exists slice rest ev m', s = slice ++ rest /\ Item m slice rest ev m' /\
     parse (mode_of m) (at_ p s) = item_ok p slice rest ev m') \/
  (m = None /\ exists e, parse (mode_of m) (at_ p s) = PErr e /\ forall limit st, Fault limit p s st e).
Proof.
  intros Hne Hm. destruct m as [t|]; cbn [parse mode_of].
  - left. destruct (raw_cases p t s) as (slice & rest & E & Hi & R).
    { apply raw_ascii. exact Hm. }
    exists slice, rest, (RawData (raw slice)), None. auto.
  - destruct (parse_data_cases p s Hne); auto.
Qed.
Lemma item_complete p m slice rest ev m' : good_mode m -> Item m slice rest ev m' ->
  parse (mode_of m) (at_ p (slice ++ rest)) = item_ok p slice rest ev m'.
Proof.
  intros Hg H. destruct m as [t|]; cbn [parse mode_of]; [|now apply parse_data_complete].
  inversion H as [|? ? ? H1 H2]; subst.
  destruct (raw_cases p t (slice ++ rest)) as (slice' & rest' & E & Hi & R).
  { apply raw_ascii. exact Hg. }
  inversion Hi as [|? ? ? H3 H4]; subst.
  destruct (raw_det t _ _ _ _ E H1 H2 H3 H4) as [-> ->]. exact R.
Qed.

(** one call of [next] at the level of items *)
Definition next_item (o : options) (pre : str) (st : open_stack) (ev : event)
    (ok : open_stack -> iter) (r : option (presult event) * iter) : Prop :=
  match ev with
  | OpeningTag t _ =>
      if match max_stack_depth o with Some l => Nat.eqb l (length st) | None => false end
      then exists k it, max_stack_depth o = Some k /\ length st = k /\
           r = (Some (PErr (StackLimitExceeded (id_str t) (loc_of pre) k)), it)
      else r = (Some (POk ev), ok ((pre, id_str t) :: st))
  | ClosingTag t =>
      match st with
      | [] => exists it, r = (Some (PErr (UnexpectedClosingTag (id_str t) (loc_of pre))), it)
      | (p, n) :: st' =>
          if ident_eqb t (name n) then r = (Some (POk ev), ok st')
          else exists it, r = (Some (PErr (MismatchedClosingTag n (loc_of p) (id_str t) (loc_of pre))), it)
      end
  | _ => r = (Some (POk ev), ok st)
  end.
Lemma iter_next_item o pre s m st slice rest ev m' :
  s <> [] -> (forall t a, ev = OpeningTag t a -> exists n, t = name n) ->
  parse (mode_of m) (at_ pre s) = item_ok pre slice rest ev m' ->
  next_item o pre st ev (fun st' => state o (pre ++ slice) rest m' st') (iter_next (state o pre s m st)).
Proof.
  intros Hne Hop R. unfold iter_next, state. cbn [it_rest it_mode it_stack it_options].
  replace (input_is_empty (at_ pre s)) with false by (destruct s; [congruence|reflexivity]).
  rewrite R. unfold item_ok.
  destruct ev; cbn [next_item iter_next_close it_rest it_mode it_stack it_options];
    try reflexivity.
  - rewrite map_length. destruct (max_stack_depth o) as [l|] eqn:El.
    + destruct (Nat.eqb_spec l (length st)) as [E|E].
      * exists l. eexists. repeat split; auto.
      * destruct (Hop tag attrs eq_refl) as [n ->]. reflexivity.
    + destruct (Hop tag attrs eq_refl) as [n ->]. reflexivity.
  - destruct st as [|[p n] st]; cbn [map entry fst snd loc_value loc_at].
    + eexists. reflexivity.
    + destruct (ident_eqb tag (name n)); cbn [negb]; [reflexivity|eexists; reflexivity].
Qed.

Lemma iter_next_end o pre m e st :
  iter_next (state o pre [] m (e :: st))
  = (Some (PErr (MissingClosingTags (stack_entry (entry e)) (map stack_entry (rev (map entry st))))),
     state o pre [] m st).
Proof. reflexivity. Qed.

Lemma unclosed_entry e : Unclosed e (stack_entry (entry e)).
Proof. split; [reflexivity|apply at_prefix_loc_of]. Qed.

(** what one call of [next] does *)
Lemma iter_next_cases o pre s m st : good_mode m ->
  (s = [] /\ st = [] /\ exists it, iter_next (state o pre s m st) = (None, it)) \/
  (exists slice rest ev m' st', s = slice ++ rest /\ s <> [] /\ Item m slice rest ev m' /\
     Nest (max_stack_depth o) pre ev st st' /\
     iter_next (state o pre s m st) = (Some (POk ev), state o (pre ++ slice) rest m' st')) \/
  (exists e it, iter_next (state o pre s m st) = (Some (PErr e), it) /\
     (m = None \/ s = []) /\ Fault (max_stack_depth o) pre s st e).
Proof.
  intros Hg. destruct s as [|c s].
  { destruct st as [|e st].
    - left. repeat split; auto. eexists. reflexivity.
    - right. right. rewrite iter_next_end. eexists _, _. split; [reflexivity|].
      split; auto. cbn [Fault]. split; auto. exists e, st. split; auto. split; [apply unclosed_entry|].
      rewrite <- map_rev, map_map. induction (rev st); constructor; auto. apply unclosed_entry. }
  right. remember (c :: s) as s1. assert (Hne : s1 <> []) by (subst; discriminate). clear c s Heqs1.
  rename s1 into s.
  destruct (parse_cases pre s m Hne Hg) as [(slice & rest & ev & m' & -> & Hi & R)|(Hm & e & R & Hf)].
  2:{ right. unfold iter_next, state. cbn [it_rest it_mode it_stack it_options].
      replace (input_is_empty (at_ pre s)) with false by (destruct s; [congruence|reflexivity]).
      rewrite R. eexists _, _. split; [reflexivity|]. split; [auto|apply Hf]. }
  assert (Hname : match ev with
     | OpeningTag t _ | SelfClosedTag t _ | VoidTag t _ | ClosingTag t =>
         exists n, t = name n /\ ValidName n
     | _ => True end).
  { inversion Hi as [? ? ? ? Hs|]; subst; auto. now apply spells_name in Hs. }
  assert (H : next_item o pre st ev (fun st' => state o (pre ++ slice) rest m' st')
                (iter_next (state o pre (slice ++ rest) m st))).
  { apply iter_next_item; auto. intros t a ->. destruct Hname as (n & -> & _). eauto. }
  destruct ev; cbn [next_item] in H; try (left; exists slice, rest; do 3 eexists;
    split; [reflexivity|]; split; [assumption|]; split; [exact Hi|]; split; [reflexivity|exact H]).
  - destruct (max_stack_depth o) as [l|] eqn:El.
    + destruct (Nat.eqb_spec l (length st)) as [E|E].
      * right. destruct H as (k & it & Ek & Ek' & ->). eexists _, _. split; [reflexivity|].
        split; [left; inversion Hi; auto|].
        cbn [Fault]. split; [apply at_prefix_loc_of|]. split; auto. split; auto.
        exists slice, rest, tag, attrs. split; auto. split; auto.
        inversion Hi; subst; auto.
      * left. exists slice, rest. do 3 eexists. split; [reflexivity|]. split; [assumption|].
        split; [exact Hi|]. split; [|exact H]. cbn [Nest]. split; auto. congruence.
    + left. exists slice, rest. do 3 eexists. split; [reflexivity|]. split; [assumption|].
      split; [exact Hi|]. split; [|exact H]. cbn [Nest]. split; auto; discriminate.
  - destruct Hname as (n & -> & Hv).
    assert (He : EndTag slice n).
    { inversion Hi as [? ? ? ? Hs|]; subst. inversion Hs; subst; auto. }
    destruct st as [|[p n'] st].
    + right. destruct H as (it & ->). eexists _, _. split; [reflexivity|].
      split; [left; inversion Hi; auto|].
      cbn [Fault]. split; [apply at_prefix_loc_of|]. split; auto. exists slice, rest. auto.
    + destruct (ident_eqb (name n) (name n')) eqn:Ei.
      * left. exists slice, rest. do 3 eexists. split; [reflexivity|]. split; [assumption|].
        split; [exact Hi|]. split; [|exact H]. cbn [Nest]. exists p, n'. split; auto.
        apply ident_eqb_names in Ei; auto.
      * right. destruct H as (it & ->). eexists _, _. split; [reflexivity|].
        split; [left; inversion Hi; auto|].
        cbn [Fault]. split; [apply at_prefix_loc_of|]. exists p, st. split; auto.
        split; [apply at_prefix_loc_of|]. exists slice, rest. split; auto. split; auto.
        intros E. apply (ident_eqb_names n n' Hv) in E. congruence.
Qed.

Lemma iter_next_complete o pre m st slice rest ev m' st' : good_mode m ->
  slice ++ rest <> [] -> Item m slice rest ev m' -> Nest (max_stack_depth o) pre ev st st' ->
  iter_next (state o pre (slice ++ rest) m st) = (Some (POk ev), state o (pre ++ slice) rest m' st').
Proof.
  intros Hg Hne Hi Hn.
  assert (Hname : match ev with
     | OpeningTag t _ | SelfClosedTag t _ | VoidTag t _ | ClosingTag t =>
         exists n, t = name n /\ ValidName n
     | _ => True end).
  { inversion Hi as [? ? ? ? Hs|]; subst; auto. now apply spells_name in Hs. }
  assert (H : next_item o pre st ev (fun st' => state o (pre ++ slice) rest m' st')
                (iter_next (state o pre (slice ++ rest) m st))).
  { apply iter_next_item; auto.
    - intros t a ->. destruct Hname as (n & -> & _). eauto.
    - now apply item_complete. }
  destruct ev; cbn [next_item Nest] in H, Hn; try (subst st'; exact H).
  - destruct Hn as [Hl ->]. destruct (max_stack_depth o) as [l|]; [|exact H].
    destruct (Nat.eqb_spec l (length st)) as [E|E]; [congruence|exact H].
  - destruct Hn as (p & n' & -> & Hs). destruct Hname as (n & -> & Hv).
    rewrite (proj2 (ident_eqb_names n n' Hv) Hs) in H. exact H.
Qed.

(** ** The loop *)

Definition measure (s : str) (m : option str) : nat :=
  (2 * length s + match m with Some _ => 1 | None => 0 end)%nat.
Lemma item_measure m slice rest ev m' : slice ++ rest <> [] -> Item m slice rest ev m' ->
  (measure rest m' < measure (slice ++ rest) m)%nat.
Proof.
  intros Hne Hi. unfold measure. rewrite app_length. inversion Hi as [? ? ? ? Hs|]; subst.
  - apply spells_nonempty in Hs. destruct slice; [congruence|]. simpl. destruct m'; lia.
  - lia.
Qed.
Lemma reads_measure limit s0 pre s m st evs : Reads limit s0 pre s m st evs ->
  (length evs + measure s m <= 2 * length s0)%nat.
Proof.
  induction 1 as [|pre slice rest m m' st st' evs ev HR IH Hne Hi Hn].
  - unfold measure. simpl. lia.
  - apply item_measure in Hi; auto. rewrite app_length. simpl. lia.
Qed.

Lemma collect_cases fuel o s0 pre s m st evs : (measure s m < fuel)%nat ->
  Reads (max_stack_depth o) s0 pre s m st evs ->
  (exists evs', collect fuel (state o pre s m st) (rev evs) = POk evs' /\
                Document (max_stack_depth o) s0 evs') \/
  (exists e pre' s' m' st' evs', collect fuel (state o pre s m st) (rev evs) = PErr e /\
     Reads (max_stack_depth o) s0 pre' s' m' st' evs' /\ (m' = None \/ s' = []) /\
     Fault (max_stack_depth o) pre' s' st' e).
Proof.
  revert pre s m st evs; induction fuel as [|fuel IH]; intros pre s m st evs L HR; [lia|].
  pose proof (reads_mode _ _ _ _ _ _ _ HR) as Hm.
  assert (Hg : good_mode m) by (destruct m; [apply Hm|exact I]).
  cbn [collect].
  destruct (iter_next_cases o pre s m st Hg)
    as [(-> & -> & it & R)|[(slice & rest & ev & m' & st' & -> & Hne & Hi & Hn & R)|(e & it & R & Hm' & Hf)]];
    rewrite R.
  - left. exists evs. rewrite rev_involutive. split; auto. unfold Document.
    pose proof (reads_app _ _ _ _ _ _ _ HR) as E. rewrite app_nil_r in E. subst pre.
    destruct m; [tauto|exact HR].
  - pose proof (R_step _ _ _ _ _ _ _ _ _ _ _ HR Hne Hi Hn) as HR'.
    replace (ev :: rev evs) with (rev (evs ++ [ev])) by (rewrite rev_app_distr; reflexivity).
    apply IH; auto. apply item_measure in Hi; auto. lia.
  - right. exists e, pre, s, m, st, evs. auto.
Qed.

Lemma parse_cases_all s o :
  (exists evs, parse_events s o = POk evs /\ Document (max_stack_depth o) s evs) \/
  (exists e pre s' m st evs, parse_events s o = PErr e /\
     Reads (max_stack_depth o) s pre s' m st evs /\ (m = None \/ s' = []) /\
     Fault (max_stack_depth o) pre s' st e).
Proof.
  unfold parse_events, iter_new. rewrite input_new_at.
  change (Iter (at_ [] s) ModeData [] o) with (state o [] s None []).
  apply (collect_cases (2 * length s + 2) o s [] s None [] []).
  - unfold measure. lia.
  - constructor.
Qed.

Lemma collect_reads o s0 pre s m st evs : Reads (max_stack_depth o) s0 pre s m st evs ->
  forall fuel, collect (length evs + fuel) (iter_new s0 o) []
               = collect fuel (state o pre s m st) (rev evs).
Proof.
  induction 1 as [|pre slice rest m m' st st' evs ev HR IH Hne Hi Hn]; intros fuel.
  - reflexivity.
  - rewrite app_length. simpl length. rewrite <- Nat.add_assoc. rewrite IH. cbn [Nat.add collect].
    pose proof (reads_mode _ _ _ _ _ _ _ HR) as Hm.
    assert (Hg : good_mode m) by (destruct m; [apply Hm|exact I]).
    rewrite (iter_next_complete o pre m st slice rest ev m' st'); auto.
    now rewrite rev_app_distr.
Qed.
Lemma document_parses s o evs : Document (max_stack_depth o) s evs -> parse_events s o = POk evs.
Proof.
  intros H. unfold parse_events. pose proof (reads_measure _ _ _ _ _ _ _ H) as L.
  unfold measure in L. simpl in L.
  replace (2 * length s + 2)%nat with (length evs + S (2 * length s + 1 - length evs))%nat by lia.
  rewrite (collect_reads _ _ _ _ _ _ _ H). cbn. now rewrite rev_involutive.
Qed.

(** The parser accepts exactly the documents. *)
Lemma parse_iff s o evs : parse_events s o = POk evs <-> Document (max_stack_depth o) s evs.
Proof.
  split; [|apply document_parses]. intros H.
  destruct (parse_cases_all s o) as [(evs' & E & D)|(e & ? & ? & ? & ? & ? & E & _)]; congruence.
Qed.
Lemma parse_error_fault' s o e : parse_events s o = PErr e ->
  exists pre rest m st evs, s = pre ++ rest /\
    Reads (max_stack_depth o) s pre rest m st evs /\ (m = None \/ rest = []) /\
    Fault (max_stack_depth o) pre rest st e.
Proof.
  intros H. destruct (parse_cases_all s o) as [(evs' & E & D)|(e' & pre & s' & m & st & evs & E & R & F)];
    [congruence|]. assert (e' = e) by congruence. subst. exists pre, s', m, st, evs. split; auto.
  eapply reads_app; eauto.
Qed.
Lemma parse_error_fault s o e : parse_events s o = PErr e ->
  exists pre rest m st evs, s = pre ++ rest /\
    Reads (max_stack_depth o) s pre rest m st evs /\ Fault (max_stack_depth o) pre rest st e.
Proof.
  intros H. apply parse_error_fault' in H. destruct H as (pre & rest & m & st & evs & E & R & _ & F).
  exists pre, rest, m, st, evs. auto.
Qed.
Lemma parse_total s o : (exists evs, parse_events s o = POk evs) \/ (exists e, parse_events s o = PErr e).
Proof.
  destruct (parse_cases_all s o) as [(evs & E & D)|(e & ? & ? & ? & ? & ? & E & _)]; eauto.
Qed.
Lemma document_unique limit s evs evs' : Document limit s evs -> Document limit s evs' -> evs = evs'.
Proof.
  intros H H'. apply (document_parses s (Options limit None)) in H.
  apply (document_parses s (Options limit None)) in H'. congruence.
Qed.
