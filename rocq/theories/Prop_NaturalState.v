(** Property C80 (what programs with state look at). *)
From Coq Require Import String ZArith List Bool Lia.
From stdpp Require Import gmap.
From Verif Require Import Text Event Input Parse Selector Machine MachineState.
From Verif Require Import SpecTree SpecTransform SpecLaws SpecState SpecStop SpecNatural SpecNaturalState.
From Verif Require Import NaturalStateProofs NaturalStateProofs2 Prop_Ops Prop_Natural.
Local Open Scope nat_scope.
Local Open Scope list_scope.

(** ** C80 What programs with state look at

    As C73, for programs whose closures, iterators and content streams share state. *)

(** Two templates and two programs that are alike ([R] says which states of the one stand for
    which states of the other): started in states that correspond, both transformations return,
    the results are alike and the states afterwards correspond, or neither returns. *)
Theorem C80_like : forall (W V : Type) k (R : W -> V -> Prop) evs evs' (b : once W) (c : once V) w v,
  Coherent k -> Forall2 (LikeEvent k) evs evs' -> R w v -> WLikeOnce k R b c ->
  (forall r w', GivesIn evs b w r w' ->
     exists r' v', GivesIn evs' c v r' v' /\ LikeResult k r r' /\ R w' v') /\
  (forall r' v', GivesIn evs' c v r' v' ->
     exists r w', GivesIn evs b w r w' /\ LikeResult k r r' /\ R w' v').
Proof. exact (fun W V k R evs evs' b c w v Hco => like_gives k Hco R evs evs' b c w v). Qed.
Print Assumptions C80_like.

(** Texts: exchanging texts in the template exchanges texts in the result; the program does not
    learn about it, as the state afterwards is the same. *)
Theorem C80_texts : forall (W : Type) (X0 : event -> event -> Prop) evs evs' (b : once W) w r w1 r' w1',
  (forall e, X0 e e) -> WElementSelectors b -> WNoFunctions b ->
  Forall2 (LikeEvent (OnlyTexts X0)) evs evs' -> GivesIn evs b w r w1 -> GivesIn evs' b w r' w1' ->
  LikeResult (OnlyTexts X0) r r' /\ w1 = w1'.
Proof. exact @wonly_texts. Qed.
Print Assumptions C80_texts.

(** Attributes: likewise for those that no call is about, other than [class] and [id]. *)
Theorem C80_attributes : forall (W : Type) hide evs evs' (b : once W) w r w1 r' w1',
  CaseBlind hide -> hide (lit "class") = false -> hide (lit "id") = false ->
  WLibrarySelectors b -> WNoFunctions b ->
  (forall o n, CanMake b o -> WAbout o n -> hide n = false) ->
  Forall2 (LikeEvent (OnlyAttributes hide)) evs evs' -> GivesIn evs b w r w1 -> GivesIn evs' b w r' w1' ->
  LikeResult (OnlyAttributes hide) r r' /\ w1 = w1'.
Proof. exact @wonly_attributes. Qed.
Print Assumptions C80_attributes.

(** Names of tags: renaming them in the template, in selectors and in contents, also in those that
    come from streams, renames them in the result and leaves the same state. *)
Theorem C80_renamed : forall (W : Type) f evs (b : once W) w r w',
  Renames f -> WLibrarySelectors b -> WNoFunctions b -> GivesIn evs b w r w' ->
  GivesIn (map (rename_event f) evs) (rename_once f b) w (rename_result f r) w'.
Proof. exact (fun W f evs b w r w' Hf => wrenamed_gives f Hf evs b w r w'). Qed.
Print Assumptions C80_renamed.

(** ** Examples *)

(** Running. *)
Definition ens_out {W} (o : wout W (list event + stream_error)) : option (W * (list event + stream_error)) :=
  match o with WDone h r => Some (snd h, r) | _ => None end.
Lemma ens_run {W} n evs (b : once W) w r w' :
  ens_out (wtransform n evs b w) = Some (w', r) -> GivesIn evs b w r w'.
Proof.
  intros H. unfold ens_out in H. destruct (wtransform n evs b w) as [| |[h v] r'] eqn:E; try discriminate.
  injection H as <- <-. exists n, h. exact E.
Qed.

(** [br] elements get numbers, counted by the program; [p] elements get as last contents the text
    of a stream that counts its calls, too. *)
Definition ens_value (w : nat) : value := Encoded (Actual (decimal_z (Z.of_nat w))).
Definition ens_stream : live nat := fun i w => (S w, inl (if i =? 0 then Some eo_br else None)).
Definition ens_number (w : nat) : wop nat := WSetAttribute (inl (eo_id "title")) (Some (ens_value w)).
Definition ens_program : once nat := fun w =>
  (w, [WSelect false (inl (SelTag (eo_id "br"))) (fun _ w => (S w, [ens_number w]));
       WSelect false (inl (SelTag (eo_id "p"))) (fun _ w => (w, [WAppendContents (WCLive ens_stream)]))]).
Definition ens_br (w : nat) : event :=
  VoidTag (eo_id "br") [Attribute (eo_id "title") (Some (ens_value w))].
Definition ens_result : list event := [eo_open; eo_text "1"; ens_br 0; eo_br; eo_close; ens_br 3].
Lemma ens_gives : GivesIn en_events ens_program 0 (inl ens_result) 4.
Proof. apply (ens_run 60). vm_compute. reflexivity. Qed.
Lemma ens_makes o : CanMake ens_program o ->
  o = WSelect false (inl (SelTag (eo_id "br"))) (fun _ w => (S w, [ens_number w])) \/
  o = WSelect false (inl (SelTag (eo_id "p"))) (fun _ w => (w, [WAppendContents (WCLive ens_stream)])) \/
  (exists w, o = ens_number w) \/ o = WAppendContents (WCLive ens_stream).
Proof.
  intros [w Ho]. cbn in Ho. inversion Ho as [? ? Hin|? a q ? Hin Hm Hq]; subst.
  - destruct Hin as [<-|[<-|[]]]; auto.
  - destruct Hin as [<-|[<-|[]]]; destruct Hm as (i & w' & ->); cbn in Hq;
      inversion Hq as [? ? Hin|? a' q' ? Hin Hm Hq']; subst; destruct Hin as [<-|[]]; eauto; destruct Hm.
Qed.
Lemma ens_library : WLibrarySelectors ens_program.
Proof.
  intros o m Ho Hm f ->. destruct (ens_makes o Ho) as [->|[->|[[w ->]| ->]]]; inversion Hm.
Qed.
Lemma ens_elements : WElementSelectors ens_program.
Proof.
  intros o m Ho Hm. destruct (ens_makes o Ho) as [->|[->|[[w ->]| ->]]]; inversion Hm;
    intros [] H; try discriminate; exact I.
Qed.
Lemma ens_functions : WNoFunctions ens_program.
Proof. intros f Ho. destruct (ens_makes _ Ho) as [H|[H|[[w H]|H]]]; discriminate. Qed.

(** Any text, or a comment, in place of the text of the paragraph: the counter ends with the same
    number. *)
Example C80_example_texts : forall x r w, IsText x ->
  GivesIn [eo_open; x; eo_br; eo_close; eo_br] ens_program 0 r w ->
  LikeResult (OnlyTexts (en_instead x)) (inl ens_result) r /\ w = 4.
Proof.
  intros x r w Hx H. destruct (C80_texts nat (en_instead x) en_events [eo_open; x; eo_br; eo_close; eo_br]
    ens_program 0 (inl ens_result) 4 r w) as [H1 H2]; [now left|..].
  - apply ens_elements.
  - apply ens_functions.
  - constructor; [now constructor|]. constructor; [apply LE_text; [exact I|exact Hx|now right]|].
    repeat (constructor; [now constructor|]). constructor.
  - apply ens_gives.
  - exact H.
  - auto.
Qed.
Example C80_example_attributes : forall style r w,
  GivesIn [OpeningTag (eo_id "p") (Attribute (eo_id "STYLE") style :: eo_attrs); eo_text "1"; eo_br; eo_close;
         VoidTag (eo_id "br") [Attribute (eo_id "style") style]] ens_program 0 r w ->
  LikeResult (OnlyAttributes en_hide) (inl ens_result) r /\ w = 4.
Proof.
  intros style r w H. refine (let '(conj H1 H2) := C80_attributes nat en_hide en_events _ ens_program 0
    (inl ens_result) 4 r w en_blind eq_refl eq_refl ens_library ens_functions _ _ _ H in conj H1 (eq_sym H2)).
  - intros o n Ho (o' & -> & Hn). destruct (ens_makes _ Ho) as [E|[E|[[u E]|E]]]; destruct o'; try discriminate;
      inversion Hn; subst; try discriminate.
    unfold ens_number in E. injection E as -> ->. reflexivity.
  - constructor; [now apply LE_open|]. constructor; [apply LE_text; first [exact I | reflexivity]|].
    constructor; [now apply LE_void|]. constructor; [now apply LE_close|].
    constructor; [now apply LE_void|]. constructor.
  - apply ens_gives.
Qed.

(** Names of tags with a prefix. *)
Example C80_example_renamed :
  GivesIn (map (rename_event en_prefix) en_events) (rename_once en_prefix ens_program) 0
    (inl (map (rename_event en_prefix) ens_result)) 4.
Proof. exact (C80_renamed nat en_prefix _ _ 0 _ 4 en_renames ens_library ens_functions ens_gives). Qed.

(** Another program, which keeps a list in place of the number and writes a word where the first
    writes its number, on the template with another text. *)
Definition ens_count (w : nat) (v : list bool) : Prop := w = length v.
Definition ens_first : once nat := fun w =>
  (w, [WSelect false (inl (SelTag (eo_id "p"))) (fun _ w => (S w, [WAppendContents (WCPlain (CInt (Z.of_nat w)))]))]).
Definition ens_second : once (list bool) := fun v =>
  (v, [WSelect false (inl (SelTag (eo_id "P"))) (fun i v => (v ++ [Nat.even i], [WAppendContents (WCPlain (CStatic (lit "w")))]))]).
Lemma ens_like : WLikeOnce en_text ens_count ens_first ens_second.
Proof.
  apply WL_once; [intros w v Hw; exact Hw|]. intros w v Hw. cbn. constructor; [|constructor]. apply WL_select.
  - apply LS_ok. intros e e' He.
    destruct He as [|[] [] Hx Hx' _|t t' a a' Ht _|t t' a a' Ht _|t t' a a' Ht _|t t' Ht];
      try (destruct Hx; fail); try (destruct Hx'; fail); cbn in *; subst; reflexivity.
  - intros i. apply WL_once; intros w' v' Hw'; cbn.
    + unfold ens_count in *. rewrite app_length, Hw'. cbn. lia.
    + constructor; [|constructor]. apply WL_append_contents, WLC_plain. eapply LC_text; [constructor..|exact I].
Qed.
Example C80_example_like : exists r, GivesIn en_comment ens_second [] r [true] /\
  LikeResult en_text (inl [eo_open; eo_text "1"; eo_br; eo_int 0; eo_close; eo_br]) r.
Proof.
  destruct (proj1 (C80_like _ _ en_text ens_count en_events en_comment ens_first ens_second 0 []
    en_coherent en_like_events eq_refl ens_like) (inl [eo_open; eo_text "1"; eo_br; eo_int 0; eo_close; eo_br]) 1)
    as (r & v & H & Hl & Hv).
  - apply (ens_run 60). vm_compute. reflexivity.
  - exists r. split; [|exact Hl].
    assert (GivesIn en_comment ens_second [] (inl [eo_open; Comment (Encoded (StaticStr (lit "2"))); eo_br;
      Data (Encoded (StaticStr (lit "w"))); eo_close; eo_br]) [true]) as H2
      by (apply (ens_run 60); vm_compute; reflexivity).
    destruct (StateProofs4.gives_in_det _ _ _ _ _ _ _ H H2) as [-> ->]. exact H2.
Qed.
