(** The test suite of the library replayed on the model.  These are sanity checks of the
    model, not proofs of any property. *)
From Coq Require Import String ZArith.
From stdpp Require Import gmap.
From Verif Require Import Text Event Input Parse Selector Machine Template Messages.

Definition run_test (p : pipeline) (s : string) : option str :=
  match from_str (lit s) default_options with
  | TOk t => match transform 200 t p with
             | Done _ (inl t) => Some (display_events t)
             | _ => None
             end
  | _ => None
  end.
(** like [transform_test!] of lib.rs *)
Definition test (s : string) (expected : string) (p : pipeline) : bool :=
  match run_test p s with Some r => str_eqb r (lit expected) | None => false end.

Definition sel (s : string) := select_str (lit s).
Definition name (s : string) := ident_from_static_str (lit s).
Definition txt (s : string) : value := enc_from_unencoded_static_str (lit s).
Definition foo := CStatic (lit "foo").
Definition append_99 := [OAppendContents (CInt 99)].
Definition select s p := OSelect false (sel s) (fun _ => p).
Definition select_direct s p := OSelect true (sel s) (fun _ => p).
Definition select_once s p := OSelectOnce false (sel s) p.
Definition select_direct_once s p := OSelectOnce true (sel s) p.
Definition subselect s p := OSubselect false (sel s) (fun _ => p).
Definition subselect_direct s p := OSubselect true (sel s) (fun _ => p).
Definition subselect_once s p := OSubselectOnce false (sel s) p.
Definition subselect_direct_once s p := OSubselectOnce true (sel s) p.

Local Open Scope string_scope.

(** modifier/remove.rs *)
Example t1 : test "<a><b>23</b>45<c>67</c><b>89</b></a>" "<a><b></b>45<c>67</c><b></b></a>"
  [select "b" [ORemoveContents]] = true.
Proof. vm_compute. reflexivity. Qed.
Example t2 : test "<a><b>23</b>45<c>67</c><b>89</b></a>" "<a>45<c>67</c></a>"
  [select "b" [ORemove]] = true.
Proof. vm_compute. reflexivity. Qed.
(** modifier/replace.rs *)
Example t3 : test "<a><b>23</b><link><b>93</b></a>" "<a><b>23</b><link><b>93</b></a>"
  [select "link" [OReplaceContents foo]] = true.
Proof. vm_compute. reflexivity. Qed.
Example t4 : test "<a><b>23</b><c/><b>93</b></a>" "<a><b>23</b><c>foo</c><b>93</b></a>"
  [select "c" [OReplaceContents foo]] = true.
Proof. vm_compute. reflexivity. Qed.
Example t5 : test "<a><b>23</b><c>42</c><b>93</b></a>" "<a><b>23</b>foo<b>93</b></a>"
  [select "c" [OReplace foo]] = true.
Proof. vm_compute. reflexivity. Qed.
(** modifier/append.rs, modifier/prepend.rs *)
Example t6 : test "<a><b>23</b><c>42</c><b>93</b></a>" "<a><b>23</b><c>42foo</c><b>93</b></a>"
  [select "c" [OAppendContents foo]] = true.
Proof. vm_compute. reflexivity. Qed.
Example t7 : test "<a><b>23</b><c>42</c><b>93</b></a>" "<a><b>23</b><c>42</c>foo<b>93</b></a>"
  [select "c" [OAppend foo]] = true.
Proof. vm_compute. reflexivity. Qed.
Example t8 : test "<a><b>23</b><c>42</c><b>93</b></a>" "<a><b>23</b><c>foo42</c><b>93</b></a>"
  [select "c" [OPrependContents foo]] = true.
Proof. vm_compute. reflexivity. Qed.
Example t9 : test "<a><b>23</b><c>42</c><b>93</b></a>" "<a><b>23</b>foo<c>42</c><b>93</b></a>"
  [select "c" [OPrepend foo]] = true.
Proof. vm_compute. reflexivity. Qed.
(** modifier/select/*.rs *)
Example t10 : test "<b><b>23</b></b><b>45</b>" "<b><b>2399</b></b><b>45</b>"
  [select "b" [subselect "b" append_99]] = true.
Proof. vm_compute. reflexivity. Qed.
Example t11 : test "<a><a><a>23</a></a></a>" "<a><a><a>99</a></a></a>"
  [select "a" [subselect "a" [subselect "a" [OReplaceContents (CStatic (lit "99"))]]]] = true.
Proof. vm_compute. reflexivity. Qed.
Example t12 : test "<a><a>23</a></a>" "<a><a>23</a></a>"
  [select "a" [subselect "a" [subselect "a" [OReplaceContents (CStatic (lit "99"))]]]] = true.
Proof. vm_compute. reflexivity. Qed.
Example t13 : test "<b><b>23</b><b>45</b></b><b>67<b>89</b></b>"
                   "<b><b>2399</b><b>45</b></b><b>67<b>89</b></b>"
  [select_once "b" [subselect_once "b" append_99]] = true.
Proof. vm_compute. reflexivity. Qed.
Example t14 : test "<b><b>23</b><b>45</b></b><b>67<b>89</b></b>"
                   "<b><b>2399</b><b>45</b></b><b>67<b>8999</b></b>"
  [select "b" [subselect_once "b" append_99]] = true.
Proof. vm_compute. reflexivity. Qed.
Example t15 : test "<a><b>23</b>45<c>67</c><b>89</b></a>" "<a><b></b>45<c>67</c><b></b></a>"
  [select "b" [OSubselectContents [ORemove]]] = true.
Proof. vm_compute. reflexivity. Qed.
Example t16 : test "<p><b>23</b></p><b>45</b><b>67</b>" "<p><b>23</b></p><b>4599</b><b>6799</b>"
  [select_direct "b" append_99] = true.
Proof. vm_compute. reflexivity. Qed.
Example t17 : test "<p><b>23</b></p><b>45</b><b>67</b>" "<p><b>23</b></p><b>4599</b><b>67</b>"
  [select_direct_once "b" append_99] = true.
Proof. vm_compute. reflexivity. Qed.
Example t18 : test "<a><b><c><b>foo</b></c></b></a>" "<a><b><c><b>foo</b></c></b></a>"
  [select "b" []] = true.
Proof. vm_compute. reflexivity. Qed.
Example t19 : test "<b><a><b>00</b></a><b><b>23</b></b><b>45</b></b>"
                   "<b><a><b>00</b></a><b><b>23</b>99</b><b>4599</b></b>"
  [select "b" [subselect_direct "b" append_99]] = true.
Proof. vm_compute. reflexivity. Qed.
Example t20 : test "<c></c><d /><a><a>23</a></a><a>23</a>" "<c></c><d /><a>99</a><a>99</a>"
  [select_direct "a" [select_direct "a" [OReplaceContents (CStatic (lit "99"))]]] = true.
Proof. vm_compute. reflexivity. Qed.
Example t21 : test "<b><a><b>00</b></a><b><b>23</b></b><b>45</b></b>"
                   "<b><a><b>00</b></a><b><b>23</b>99</b><b>45</b></b>"
  [select_once "b" [subselect_direct_once "b" append_99]] = true.
Proof. vm_compute. reflexivity. Qed.
Example t22 : test "<p><b>23</b></p><b>45</b>" "<p><b>2399</b></p><b>4599</b>"
  [select "b" append_99] = true.
Proof. vm_compute. reflexivity. Qed.
Example t23 : test "<p><b>23</b></p><b>45</b>" "<p><b>2399</b></p><b>45</b>"
  [select_once "b" append_99] = true.
Proof. vm_compute. reflexivity. Qed.
(** modifier/attribute.rs *)
Example t24 : test "<a class=""foo bar"">23</a>" "<a class=""foo bar baz"">23</a>"
  [select "a" [OAddClass (name "baz")]] = true.
Proof. vm_compute. reflexivity. Qed.
Example t25 : test "<a>23</a>" "<a class=""baz"">23</a>"
  [select "a" [OAddClass (name "baz")]] = true.
Proof. vm_compute. reflexivity. Qed.
Example t26 : test "<a class=""foo bar baz"">23</a>" "<a class=""foo baz"">23</a>"
  [select "a" [ORemoveClass (name "bar")]] = true.
Proof. vm_compute. reflexivity. Qed.
Example t27 : test "<a x=""1"" y=""2"" />" "<a y=""2"" x=""3"" />"
  [select "a" [OSetAttribute (name "x") (Some (txt "3"))]] = true.
Proof. vm_compute. reflexivity. Qed.
Example t28 : test "<a id=""q"" x>23</a>" "<a x id=""new"">23</a>"
  [select "a#q" [OSetId (name "new")]] = true.
Proof. vm_compute. reflexivity. Qed.
(** modifier/repeat.rs *)
Example t29 : test "<a><b>2</b></a>" "<a><b>2x</b><b>2y</b></a>"
  [select "b" [ORepeat [[OAppendContents (CStatic (lit "x"))];
                        [OAppendContents (CStatic (lit "y"))]]]] = true.
Proof. vm_compute. reflexivity. Qed.
Example t30 : test "<a><b>2</b></a>" "<a><b>x2y2</b></a>"
  [select "b" [ORepeatContents [[OPrepend (CStatic (lit "x"))];
                                [OPrepend (CStatic (lit "y"))]]]] = true.
Proof. vm_compute. reflexivity. Qed.
Example t31 : test "<a><b>2</b></a>" "<a></a>"
  [select "b" [ORepeatContentsOrElse [] [ORemove]]] = true.
Proof. vm_compute. reflexivity. Qed.
Example t32 : test "<a><b>2</b></a>" "<a><b>2</b>foo</a>"
  [select "b" [ORepeatOrElse [] [OAppend foo]]] = true.
Proof. vm_compute. reflexivity. Qed.
(** content.rs, static text is encoded *)
Example t33 : test "<a>1</a>" "<a>&lt;&amp;&quot;&gt;</a>"
  [select "a" [OReplaceContents (CStatic (lit "<&"">"))]] = true.
Proof. vm_compute. reflexivity. Qed.
Example t34 : test "<a>1</a>" "<a>-17</a>"
  [select "a" [OReplaceContents (CInt (-17))]] = true.
Proof. vm_compute. reflexivity. Qed.

(** parse.rs: rendering and errors *)
Example t35 : test "<!DOCTYPE html><!-- c --><A x = "" 1"" y / ><script> <b> </script >"
                   "<!doctype html><!-- c --><A x=""1"" y /><script> <b> </script>" [] = true.
Proof. vm_compute. reflexivity. Qed.
Example t36 : parse_events (lit "<a>
<b></c>") default_options
  = PErr (MismatchedClosingTag (lit "b") (Location 2 1 4) (lit "c") (Location 2 4 7)).
Proof. vm_compute. reflexivity. Qed.
Example t37 : parse_events (lit "<a><b>") default_options
  = PErr (MissingClosingTags (lit "b", Location 1 4 3) [(lit "a", Location 1 1 0)]).
Proof. vm_compute. reflexivity. Qed.
Example t38 : parse_events (lit "<a><b></b></a>") (Options (Some 1%nat) None)
  = PErr (StackLimitExceeded (lit "b") (Location 1 4 3) 1).
Proof. vm_compute. reflexivity. Qed.

(** template.rs *)
Example t39 : with_element (name "br") = inl [VoidTag (Ident (StaticStr (lit "br"))) []].
Proof. vm_compute. reflexivity. Qed.
Example t40 : match with_transformed_element 100 (name "a") append_99 with
              | Done _ (inl t) => str_eqb (display_events t) (lit "<a>99</a>")
              | _ => false
              end = true.
Proof. vm_compute. reflexivity. Qed.
(** U+00E9 is C3 A9 *)
Example t41 : from_file [] (inl [inl [97; 195; 169]; inl [60; 98; 47; 62]]%N) default_options
  = from_file [] (inl [inl [97; 195; 169; 60]; inl [98; 47; 62]]%N) default_options.
Proof. vm_compute. reflexivity. Qed.
