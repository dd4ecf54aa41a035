(** Properties C33 and C34: selectors. *)
From Coq Require Import String List NArith Bool.
Import ListNotations.
From Verif Require Import Text Event Selector SpecText SpecAttr SpecSelect SelectProofs.
Open Scope N_scope.

(** ** C33 Selector strings parse to what they say *)

(** Every string has exactly one reading as [tag][#id][.class]*. *)
Theorem C33_unique_reading : forall s, exists tag id classes, Shape s tag id classes /\
  forall tag' id' classes', Shape s tag' id' classes' ->
    tag = tag' /\ id = id' /\ classes = classes'.
Proof.
  exact (fun s => match shape_total s with
                  | ex_intro _ t (ex_intro _ i (ex_intro _ c H)) =>
                      ex_intro _ t (ex_intro _ i (ex_intro _ c
                        (conj H (fun t' i' c' H' => shape_det s t i c t' i' c' H H'))))
                  end).
Qed.
Print Assumptions C33_unique_reading.

(** A string is accepted exactly if some part is present and all present parts are names. *)
Theorem C33_accepted_iff : forall s tag id classes, Shape s tag id classes ->
  ((exists st, static_into_selector s = inl st) <->
   (tag <> None \/ id <> None \/ classes <> []) /\
   OptValid tag /\ OptValid id /\ forall c, In c classes -> ValidName c).
Proof. exact static_ok_iff. Qed.
Print Assumptions C33_accepted_iff.

(** The error names the first offending part and the reason. *)
Theorem C33_error_iff : forall s tag id classes e, Shape s tag id classes ->
  (static_into_selector s = inr e <-> ShapeError tag id classes e).
Proof. exact static_err_iff. Qed.
Print Assumptions C33_error_iff.

(** Only the empty string is rejected as unrestricted. *)
Theorem C33_unrestricted_iff : forall s,
  static_into_selector s = inr StaticUnrestricted <-> s = [].
Proof. exact static_unrestricted. Qed.
Print Assumptions C33_unrestricted_iff.

(** [Id], [Tag] and [Class] accept exactly the names. *)
Theorem C33_typed_construction : forall v,
  (ValidName v -> id_from_str v = inl (SelId (Ident (Actual v))) /\
                  tag_from_str v = inl (SelTag (Ident (Actual v))) /\
                  class_from_str v = inl (SelClass (Ident (Actual v)))) /\
  (forall e, NameError v e -> id_from_str v = inr (SESelector (SelErrId e)) /\
                  tag_from_str v = inr (SESelector (SelErrTag e)) /\
                  class_from_str v = inr (SESelector (SelErrClass e))).
Proof. exact typed_construction. Qed.
Print Assumptions C33_typed_construction.

(** [Classes] accepts exactly the non-empty lists of names, and otherwise reports the first
    that is none. *)
Theorem C33_classes_accepted : forall vs sel, classes_from_str_iterator vs = inl sel <->
  vs <> [] /\ (forall v, In v vs -> ValidName v) /\
  exists ids, sel = SelClasses ids /\ map id_str ids = vs /\
              ids = map (fun v => Ident (Actual v)) vs.
Proof. exact classes_ok. Qed.
Print Assumptions C33_classes_accepted.

Theorem C33_classes_error : forall vs e, classes_from_str_iterator vs = inr e <->
  (vs = [] /\ e = SESelector (SelErrClasses ClassesEmpty)) \/
  exists pre v post ie, vs = pre ++ v :: post /\ (forall d, In d pre -> ValidName d) /\
    NameError v ie /\ e = SESelector (SelErrClasses (ClassesIdentifier (length pre) ie)).
Proof. exact classes_err. Qed.
Print Assumptions C33_classes_error.

(** ** C34 A selector matches exactly the described elements *)

Theorem C34_static : forall s st tag id classes ev, Shape s tag id classes ->
  static_into_selector s = inl st -> ValidEvent ev ->
  (matches (SelStatic st) ev = true <-> Described tag id classes ev).
Proof. exact static_matches_described. Qed.
Print Assumptions C34_static.

Theorem C34_typed : forall ev, ValidEvent ev ->
  (forall i, ValidName (id_str i) -> (matches (SelTag i) ev = true <-> Described (Some (id_str i)) None [] ev)) /\
  (forall i, ValidName (id_str i) -> (matches (SelId i) ev = true <-> Described None (Some (id_str i)) [] ev)) /\
  (forall i, ValidName (id_str i) -> (matches (SelClass i) ev = true <-> Described None None [id_str i] ev)) /\
  (forall is, (forall i, In i is -> ValidName (id_str i)) ->
     (matches (SelClasses is) ev = true <-> Described None None (map id_str is) ev)).
Proof. exact typed_matches. Qed.
Print Assumptions C34_typed.

(** ** A concrete case *)

Definition ex_sel : str := lit "li#x#y.a.b".
Example C33_example_shape : Shape ex_sel (Some (lit "li")) (Some (lit "x#y")) [lit "a"; lit "b"].
Proof.
  apply shape with (lit "li") (lit "#x#y.a.b"); try reflexivity.
  - vm_compute. intuition discriminate.
  - vm_compute. intuition discriminate.
  - right. split; [discriminate|reflexivity].
  - apply (shape_id (lit "x#y") (lit ".a.b")).
    + vm_compute. intuition discriminate.
    + apply (shape_classes (lit "a") [lit "b"]).
      intros d [<-|[<-|[]]]; vm_compute; intuition discriminate.
Qed.
Example C33_example_ok : exists st, static_into_selector ex_sel = inl st.
Proof. eexists. reflexivity. Qed.
Example C33_example_error :
  static_into_selector (lit "li..b") = inr (StaticClass 0 IdEmpty).
Proof. reflexivity. Qed.
Example C34_example : exists st, static_into_selector ex_sel = inl st /\
  matches (SelStatic st)
    (OpeningTag (Ident (Actual (lit "LI")))
       [Attribute (Ident (Actual (lit "ID"))) (Some (Encoded (Actual (lit "X#Y"))));
        Attribute (Ident (Actual (lit "class"))) (Some (Encoded (Actual (lit "b c"))));
        Attribute (Ident (Actual (lit "class"))) (Some (Encoded (Actual (lit "A"))))]) = true.
Proof. eexists. split; reflexivity. Qed.
