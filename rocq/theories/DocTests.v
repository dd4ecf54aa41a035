(** The examples of the documentation of the library replayed on the model: each is an
    executable claim of the authors ([cargo test] runs them).  These are sanity checks of
    the model, not proofs of any property.  The first lines of the examples are cited. *)
From Coq Require Import String ZArith.
From stdpp Require Import gmap.
From Verif Require Import Text Event Input Parse Selector Machine Template Messages ModelTests.

Local Open Scope string_scope.

Definition nothing : stream_error := expected_open None.
(** [output.contains(x)] *)
Fixpoint has (x s : str) : bool :=
  starts_with x s || match s with [] => false | _ :: s => has x s end.
Definition documented (s : string) (p : pipeline) (yes no : list string) : bool :=
  match run_test p s with
  | Some r => forallb (fun x => has (lit x) r) yes && forallb (fun x => negb (has (lit x) r)) no
  | None => false
  end.
(** [Data::from_unencoded_str] as the argument of a content call *)
Definition new (s : string) : content := CData (enc_from_unencoded_str (lit s)).
(** [Template::from_str] as the argument of a content call *)
Definition template (s : string) : content :=
  match from_str (lit s) default_options with TOk t => CTemplate t | _ => CResult (inr nothing) end.
(** [Template::transform] *)
Definition transformed (p : pipeline) (t : list event) : list event + stream_error :=
  match transform 200 t p with Done _ r => r | _ => inr nothing end.
Definition element_with (tag : string) (p : pipeline) : list event + stream_error :=
  match with_element (name tag) with inl t => transformed p t | inr _ => inr nothing end.
Definition transformed_element (tag : string) (p : pipeline) : list event + stream_error :=
  match with_transformed_element 200 (name tag) p with Done _ r => r | _ => inr nothing end.
(** a [Result<Template, StreamError>] as the argument of a content call *)
Definition built (r : list event + stream_error) : content :=
  CResult (match r with inl t => inl (CTemplate t) | inr e => inr e end).
Definition id_of s := id_from_str (lit s).
Definition tag_of s := tag_from_str (lit s).
Definition class_of s := class_from_str (lit s).
Definition classes_of (l : list string) := classes_from_str_iterator (map lit l).
Definition with_selector s p := OSelect false s (fun _ => p).

(** src/transform.rs:41 *)
Example d1 : documented "
<html>
<head><title>Title</title></head>
<body></body>
</html>
"
  [select "head" [OIntoBoxed; select "title" [OReplaceContents (new "New Title")]; OIntoBoxed]]
  ["<title>New Title</title>"] [] = true.
Proof. vm_compute. reflexivity. Qed.
(** src/transform.rs:78 *)
Example d2 : documented "
<html>
<head><title>Title</title></head>
<body></body>
</html>
"
  [select "title" [OIntoBoxedElement; OReplaceContents (new "New Title"); OIntoBoxedElement]]
  ["<title>New Title</title>"] [] = true.
Proof. vm_compute. reflexivity. Qed.
(** src/transform.rs:167 *)
Example d3 : documented "
<head><title>Title</title></head>
"
  [select "head" [OIntoBoxed; select "title" [OReplaceContents (new "New Title")]; OIntoBoxed]]
  ["<title>New Title</title>"] [] = true.
Proof. vm_compute. reflexivity. Qed.
(** src/transform.rs:206 *)
Example d4 : documented "
<div id=""one""/>
<div id=""two""/>
"
  [select "#one" [OAddClass (name "first"); OApply [OReplaceContents (CStatic (lit "Fn Content")); OIntoBoxed]];
   select "#two" [OAddClass (name "second"); OApply [OReplaceContents (CStatic (lit "Closure Content"))]]]
  ["<div id=""one"" class=""first"">Fn Content</div>"; "<div id=""two"" class=""second"">Closure Content</div>"] [] = true.
Proof. vm_compute. reflexivity. Qed.
(** src/transform.rs:259 *)
Example d5 : documented "
<div id=""one"">Default Value</div>
<div id=""two"">Default Value</div>
"
  [select "#one" [OIntoBoxedElement; OApplyEither true [OReplaceContents (CInt 10)] true; OIntoBoxed];
   select "#two" [OIntoBoxedElement; OApplyEither false [] true; OIntoBoxed]]
  ["<div id=""one"">10</div>"; "<div id=""two"">Default Value</div>"] [] = true.
Proof. vm_compute. reflexivity. Qed.
(** src/transform.rs:312 (items) *)
Example d6 : documented "
<ul>
<li class=""item"">Item</li>
<li class=""none"">None</li>
</ul>
"
  [select "ul" [OIntoBoxedElement; OApplyEither false [subselect "li.none" [ORemove]; subselect "li.item" [ORepeat [[OAppendContents (CStatic (lit " ")); OAppendContents (CInt 2)]; [OAppendContents (CStatic (lit " ")); OAppendContents (CInt 3)]]]] true; OIntoBoxed]]
  ["<li class=""item"">Item 2</li>"; "<li class=""item"">Item 3</li>"] ["<li class=""none"">"] = true.
Proof. vm_compute. reflexivity. Qed.
(** src/transform.rs:312 (no items) *)
Example d7 : documented "
<ul>
<li class=""item"">Item</li>
<li class=""none"">None</li>
</ul>
"
  [select "ul" [OIntoBoxedElement; OApplyEither true [subselect "li.item" [ORemove]] true; OIntoBoxed]]
  ["<li class=""none"">None</li>"] ["<li class=""item"">"] = true.
Proof. vm_compute. reflexivity. Qed.
(** src/transform.rs:386 *)
Example d8 : documented "
<div id=""one""></div>
<div id=""two""></div>
"
  [select "#one" [OIntoBoxedElement; OApplyEither true [OReplaceContents (CInt 23)] true; OIntoBoxed];
   select "#two" [OIntoBoxedElement; OApplyEither false [OReplaceContents (CStatic (lit "None"))] true; OIntoBoxed]]
  ["<div id=""one"">23</div>"; "<div id=""two"">None</div>"] [] = true.
Proof. vm_compute. reflexivity. Qed.
(** src/transform.rs:446 *)
Example d9 : documented "
<div id=""one""></div>
<div id=""two""></div>
"
  [select "#one" [OIntoBoxedElement; OApplyEither true [OReplaceContents (CInt 23); OPrependContents (CStatic (lit "OK "))] true; OIntoBoxed];
   select "#two" [OIntoBoxedElement; OApplyEither false [OReplaceContents (CInt 42); OPrependContents (CStatic (lit "ERR "))] true; OIntoBoxed]]
  ["<div id=""one"">OK 23</div>"; "<div id=""two"">ERR 42</div>"] [] = true.
Proof. vm_compute. reflexivity. Qed.
(** src/transform.rs:513 *)
Example d10 : documented "
<head><title>Title</title></head>
"
  [select "head" [OIntoBoxed; select_once "title" [OReplaceContents (new "New Title")]; OIntoBoxed]]
  ["<title>New Title</title>"] [] = true.
Proof. vm_compute. reflexivity. Qed.
(** src/transform.rs:554 *)
Example d11 : documented "
<head><title>Title</title></head>
"
  [select "head" [OApplyAsTemplate (transformed [select_once "title" [OReplaceContents (new "New Title")]])]]
  ["<title>New Title</title>"] [] = true.
Proof. vm_compute. reflexivity. Qed.
(** src/transform.rs:606 *)
Example d12 : documented "
<span id=""outer"" class=""name"">Foo</span>
<div>
<span id=""inner"" class=""name"">Bar</span>
</div>
"
  [select ".name" [OAddClass (name "highlight")]]
  ["<span id=""outer"" class=""name highlight"">"; "<span id=""inner"" class=""name highlight"">"] [] = true.
Proof. vm_compute. reflexivity. Qed.
(** src/transform.rs:632 *)
Example d13 : documented "
<div class=""outer main"">
<div class=""inner main"">Content</div>
</div>
"
  [select ".main" [OAddClass (name "highlight")]]
  ["<div class=""outer main highlight"">"; "<div class=""inner main"">"] [] = true.
Proof. vm_compute. reflexivity. Qed.
(** src/transform.rs:680 *)
Example d14 : documented "
<head><title>Title</title></head>
"
  [select_once "title" [OReplaceContents (new "New Title")]]
  ["<title>New Title</title>"] [] = true.
Proof. vm_compute. reflexivity. Qed.
(** src/transform.rs:722 *)
Example d15 : documented "
<span id=""outer"" class=""name"">Foo</span>
<div>
<span id=""inner"" class=""name"">Bar</span>
</div>
"
  [select_direct ".name" [OAddClass (name "highlight")]]
  ["<span id=""outer"" class=""name highlight"">"; "<span id=""inner"" class=""name"">"] [] = true.
Proof. vm_compute. reflexivity. Qed.
(** src/transform.rs:771 *)
Example d16 : documented "
<span id=""outer1"" class=""name"">Foo</span>
<div>
<span id=""inner"" class=""name"">Baz</span>
</div>
<span id=""outer2"" class=""name"">Foo</span>
"
  [select_direct_once ".name" [OAddClass (name "highlight")]]
  ["<span id=""outer1"" class=""name highlight"">"; "<span id=""outer2"" class=""name"">"; "<span id=""inner"" class=""name"">"] [] = true.
Proof. vm_compute. reflexivity. Qed.
(** src/transform.rs:820 *)
Example d17 : documented "
<div><h1>Title</h1><p>Content</p><p>More Content</p></div>
"
  [select "p" [ORemove]]
  ["<div><h1>Title</h1></div>"] [] = true.
Proof. vm_compute. reflexivity. Qed.
(** src/transform.rs:847 *)
Example d18 : documented "
<div><p>Content</p></div>
"
  [select "p" [OPrepend (template "<h1>Title</h1>")]]
  ["<div><h1>Title</h1><p>Content</p></div>"] [] = true.
Proof. vm_compute. reflexivity. Qed.
(** src/transform.rs:884 *)
Example d19 : documented "
<div><h1>Title</h1></div>
"
  [select "h1" [OAppend (template "<p>Content</p>")]]
  ["<div><h1>Title</h1><p>Content</p></div>"] [] = true.
Proof. vm_compute. reflexivity. Qed.
(** src/transform.rs:924 *)
Example d20 : documented "
<div><div id=""title-placeholder""/>Content</div>
"
  [select "#title-placeholder" [OReplace (template "<h1>Title</h1>")]]
  ["<div><h1>Title</h1>Content</div>"] [] = true.
Proof. vm_compute. reflexivity. Qed.
(** src/transform.rs:961 *)
Example d21 : documented "
<ul><li>Item</li></ul>
"
  [select "ul" [subselect "li" [ORepeat [[OAppendContents (CStatic (lit " ")); OAppendContents (CInt 1)]; [OAppendContents (CStatic (lit " ")); OAppendContents (CInt 2)]]]]]
  ["<ul><li>Item 1</li><li>Item 2</li></ul>"] [] = true.
Proof. vm_compute. reflexivity. Qed.
(** src/transform.rs:1002 *)
Example d22 : documented "
<ul id=""one""><li>Item</li></ul>
<ul id=""two""><li>Item</li></ul>
"
  [select "#one" [select "li" [OIntoBoxedElement; ORepeatOrElse [[OReplaceContents (CInt 2)]; [OReplaceContents (CInt 3)]] [OReplaceContents (CStatic (lit "None")); OAddClass (name "none")]; OIntoBoxed]];
   select "#two" [select "li" [OIntoBoxedElement; ORepeatOrElse [] [OReplaceContents (CStatic (lit "None")); OAddClass (name "none")]; OIntoBoxed]]]
  ["<ul id=""one""><li>2</li><li>3</li></ul>"; "<ul id=""two""><li class=""none"">None</li></ul>"] [] = true.
Proof. vm_compute. reflexivity. Qed.
(** src/transform.rs:1083 *)
Example d23 : documented "
<head><title>Title</title></head>
"
  [select "title" [OApply [OIntoBoxedElement; OReplaceContents (new "New Title"); OIntoBoxedElement]]]
  ["<title>New Title</title>"] [] = true.
Proof. vm_compute. reflexivity. Qed.
(** src/transform.rs:1124 *)
Example d24 : documented "
<head><title>Title</title></head>
"
  [select "title" [OIntoBoxedElement; OApply [OReplaceContents (new "New Title"); OIntoBoxedElement]]]
  ["<title>New Title</title>"] [] = true.
Proof. vm_compute. reflexivity. Qed.
(** src/transform.rs:1170 *)
Example d25 : documented "
<div id=""one"">Foo</div>
<div id=""two"">Foo</div>
"
  [select "#one" [OSubselectContents [ORemove]]; select "#two" [ORemoveContents]]
  ["<div id=""one""></div>"; "<div id=""two""></div>"] [] = true.
Proof. vm_compute. reflexivity. Qed.
(** src/transform.rs:1208 (subselect) *)
Example d26 : documented "
<body><div id=""outer""><div id=""inner"">23</div></div></body>
"
  [select "div" [subselect "div" [ORemove]]]
  ["<body><div id=""outer""></div></body>"] [] = true.
Proof. vm_compute. reflexivity. Qed.
(** src/transform.rs:1208 (select) *)
Example d27 : documented "
<body><div id=""outer""><div id=""inner"">23</div></div></body>
"
  [select "div" [select "div" [ORemove]]]
  ["<body></body>"] [] = true.
Proof. vm_compute. reflexivity. Qed.
(** src/transform.rs:1257 *)
Example d28 : documented "
<div>
<div>First</div>
<div>Second</div>
</div>
"
  [select "div" [subselect_once "div" [OAddClass (name "found")]]]
  ["<div class=""found"">First</div>"; "<div>Second</div>"] [] = true.
Proof. vm_compute. reflexivity. Qed.
(** src/transform.rs:1300 *)
Example d29 : documented "
<div>
<div>First</div>
<div>Second</div>
</div>
"
  [select "div" [subselect_direct "div" [OAddClass (name "found")]]]
  ["<div class=""found"">First</div>"; "<div class=""found"">Second</div>"] [] = true.
Proof. vm_compute. reflexivity. Qed.
(** src/transform.rs:1344 *)
Example d30 : documented "
<div>
<article><div>Lower</div></article>
<div>First</div>
<div>Second</div>
</div>
"
  [select "div" [subselect_direct_once "div" [OAddClass (name "found")]]]
  ["<div>Lower</div>"; "<div class=""found"">First</div>"; "<div>Second</div>"] [] = true.
Proof. vm_compute. reflexivity. Qed.
(** src/transform.rs:1389 *)
Example d31 : documented "
<body>Some <em>content</em>.</body>
"
  [select "body" [ORemoveContents]]
  ["<body></body>"] [] = true.
Proof. vm_compute. reflexivity. Qed.
(** src/transform.rs:1414 *)
Example d32 : documented "
<head><title>Title</title></head>
"
  [select "title" [OPrependContents (CStatic (lit "MyApp: "))]]
  ["<title>MyApp: Title</title>"] [] = true.
Proof. vm_compute. reflexivity. Qed.
(** src/transform.rs:1445 *)
Example d33 : documented "
<head><title>Title</title></head>
"
  [select "title" [OAppendContents (CStatic (lit " - MyApp"))]]
  ["<title>Title - MyApp</title>"] [] = true.
Proof. vm_compute. reflexivity. Qed.
(** src/transform.rs:1476 *)
Example d34 : documented "
<head><title>Title</title></head>
"
  [select "title" [OReplaceContents (CStatic (lit "New Title"))]]
  ["<title>New Title</title>"] [] = true.
Proof. vm_compute. reflexivity. Qed.
(** src/transform.rs:1507 *)
Example d35 : documented "
<ul><li>Item</li></ul>
"
  [select "ul" [ORepeatContents [[select_once "li" [OReplaceContents (CInt 2)]]; [select_once "li" [OReplaceContents (CInt 3)]]]]]
  ["<li>2</li><li>3</li>"] [] = true.
Proof. vm_compute. reflexivity. Qed.
(** src/transform.rs:1544 *)
Example d36 : documented "
<ul id=""one""><li>Item</li></ul>
<ul id=""two""><li>Item</li></ul>
"
  [select "#one" [OIntoBoxed; select_once "ul" [ORepeatContentsOrElse
      [[select_once "li" [OReplaceContents (CInt 2)]]; [select_once "li" [OReplaceContents (CInt 3)]]]
      [OReplace (built (element_with "div" [select_once "div" [OReplaceContents (CStatic (lit "None"))]]))]]; OIntoBoxed];
   select "#two" [OIntoBoxed; select_once "ul" [ORepeatContentsOrElse [] [OReplace (built (element_with "div" [select_once "div" [OReplaceContents (CStatic (lit "None"))]]))]]; OIntoBoxed]]
  ["<ul id=""one""><li>2</li><li>3</li></ul>"; "<div>None</div>"] ["<ul id=""two"">"] = true.
Proof. vm_compute. reflexivity. Qed.
(** src/transform.rs:1613 *)
Example d37 : documented "
<a id=""home-link"">Home</a>
"
  [select_once "a#home-link" [OAddAttribute (name "href") (Some (txt "http://example.com/"))]]
  ["<a id=""home-link"" href=""http://example.com/"">Home</a>"] [] = true.
Proof. vm_compute. reflexivity. Qed.
(** src/transform.rs:1649 *)
Example d38 : documented "
<a id=""home-link"">Home</a>
"
  [select_once "a#home-link" [OAddAttribute (name "href") (Some (txt "http://example.com/"))]]
  ["<a id=""home-link"" href=""http://example.com/"">Home</a>"] [] = true.
Proof. vm_compute. reflexivity. Qed.
(** src/transform.rs:1693 *)
Example d39 : documented "
<input id=""info"">
"
  [select_once "input#info" [OAddAttribute (name "disabled") None]]
  ["<input id=""info"" disabled>"] [] = true.
Proof. vm_compute. reflexivity. Qed.
(** src/transform.rs:1731 *)
Example d40 : documented "
<div style=""color: red"">Foo</div>
<div>Bar</div>
"
  [select "div" [OAddToAttribute (name "style") (txt "padding: 0") (txt "; ")]]
  ["<div style=""color: red; padding: 0"">Foo</div>"; "<div style=""padding: 0"">Bar</div>"] [] = true.
Proof. vm_compute. reflexivity. Qed.
(** src/transform.rs:1781 *)
Example d41 : documented "
<a href=""foo.html"">Foo</a>
<a>Bar</a>
"
  [select "a" [OReplaceAttribute (name "href") (txt "new.html")]]
  ["<a href=""new.html"">Foo</a>"; "<a>Bar</a>"] [] = true.
Proof. vm_compute. reflexivity. Qed.
(** src/transform.rs:1826 *)
Example d42 : documented "
<a href=""foo.html"">Foo</a>
<a>Bar</a>
"
  [select "a" [OSetAttribute (name "href") (Some (txt "new.html"))]]
  ["<a href=""new.html"">Foo</a>"; "<a href=""new.html"">Bar</a>"] [] = true.
Proof. vm_compute. reflexivity. Qed.
(** src/transform.rs:1863 *)
Example d43 : documented "
<a href=""foo.html"">Foo</a>
<a>Bar</a>
"
  [select "a" [OSetAttribute (name "href") (Some (txt "new.html"))]]
  ["<a href=""new.html"">Foo</a>"; "<a href=""new.html"">Bar</a>"] [] = true.
Proof. vm_compute. reflexivity. Qed.
(** src/transform.rs:1908 *)
Example d44 : documented "
<input name=""one"" disabled>
<input name=""two"">
"
  [select "input" [OSetAttribute (name "disabled") None]]
  ["<input name=""one"" disabled>"; "<input name=""two"" disabled>"] [] = true.
Proof. vm_compute. reflexivity. Qed.
(** src/transform.rs:1945 *)
Example d45 : documented "
<input name=""info"" disabled>
"
  [select "input" [ORemoveAttribute (name "disabled")]]
  ["<input name=""info"">"] [] = true.
Proof. vm_compute. reflexivity. Qed.
(** src/transform.rs:1980 *)
Example d46 : documented "
<input id=""one"" class=""required"">
<input id=""two"">
"
  [select "input" [OAddClass (name "field")]]
  ["<input id=""one"" class=""required field"">"; "<input id=""two"" class=""field"">"] [] = true.
Proof. vm_compute. reflexivity. Qed.
(** src/transform.rs:2029 *)
Example d47 : documented "
<div id=""one"" class=""warning"">Foo</div>
<div id=""two"" class=""warning msg"">Bar</div>
"
  [select "div" [ORemoveClass (name "warning")]]
  ["<div id=""one"">Foo</div>"; "<div id=""two"" class=""msg"">Bar</div>"] [] = true.
Proof. vm_compute. reflexivity. Qed.
(** src/transform.rs:2070 *)
Example d48 : documented "
<div id=""foo"">Foo</div>
"
  [select "#foo" [ORemoveId]]
  ["<div>Foo</div>"] [] = true.
Proof. vm_compute. reflexivity. Qed.
(** src/transform.rs:2104 *)
Example d49 : documented "
<p>Foo</p>
<p>Bar</p>
"
  [select_direct_once "p" [OSetId (name "first-paragraph")]]
  ["<p id=""first-paragraph"">Foo</p>"; "<p>Bar</p>"] [] = true.
Proof. vm_compute. reflexivity. Qed.
(** src/select.rs:121 *)
Example d50 : documented "
<a id=""home-link"">Home</a>
<a id=""contact-link"">Contact</a>
"
  [with_selector (id_of "home-link") [OSetAttribute (name "href") (Some (txt "index.html"))];
   with_selector (id_of "contact-link") [OSetAttribute (name "href") (Some (txt "contact.html"))]]
  ["id=""home-link"" href=""index.html"""; "id=""contact-link"" href=""contact.html"""] [] = true.
Proof. vm_compute. reflexivity. Qed.
(** src/select.rs:228 *)
Example d51 : documented "
<html>
<head>
<title></title>
</head>
<body/>
</html>
"
  [with_selector (tag_of "title") [OReplaceContents (CStatic (lit "New Title"))];
   with_selector (tag_of "body") [OReplaceContents (CStatic (lit "Content"))]]
  ["<title>New Title</title>"; "<body>Content</body>"] [] = true.
Proof. vm_compute. reflexivity. Qed.
(** src/select.rs:346 *)
Example d52 : documented "
<a class=""home-link"">Home</a>
<a class=""contact-link"">Contact</a>
"
  [with_selector (class_of "home-link") [OSetAttribute (name "href") (Some (txt "index.html"))];
   with_selector (class_of "contact-link") [OSetAttribute (name "href") (Some (txt "contact.html"))]]
  ["class=""home-link"" href=""index.html"""; "class=""contact-link"" href=""contact.html"""] [] = true.
Proof. vm_compute. reflexivity. Qed.
(** src/select.rs:458 *)
Example d53 : documented "
<a class=""home navlink"">Home</a>
<a class=""contact navlink"">Contact</a>
"
  [with_selector (classes_of ["home"; "navlink"]) [OSetAttribute (name "href") (Some (txt "index.html"))];
   with_selector (classes_of ["navlink"; "contact"]) [OSetAttribute (name "href") (Some (txt "contact.html"))]]
  ["class=""home navlink"" href=""index.html"""; "class=""contact navlink"" href=""contact.html"""] [] = true.
Proof. vm_compute. reflexivity. Qed.
(** src/select.rs:625 *)
Example d54 : documented "
<html>
<head><title>Title</title></head>
<body>
<div id=""message"">
Hello
<span class=""current-user"">Current User</span>!
</div>
</body>
</html>
"
  [select "title" [OReplaceContents (CStatic (lit "Welcome Page"))];
   select "#message" [subselect ".current-user" [OReplaceContents (CStatic (lit "Foo"))]]]
  ["<title>Welcome Page</title>"; "<span class=""current-user"">Foo</span>"] [] = true.
Proof. vm_compute. reflexivity. Qed.
(** src/template.rs:238 *)
Example d55 : documented "
<body></body>
"
  [select_once "body" [OReplaceContents (built (element_with "a" [select_once "a" [OSetAttribute (name "href") (Some (txt "index.html")); OReplaceContents (CStatic (lit "Home"))]]))]]
  ["<body><a href=""index.html"">Home</a></body>"] [] = true.
Proof. vm_compute. reflexivity. Qed.
(** src/template.rs:291 *)
Example d56 : documented "
<body></body>
"
  [select_once "body" [OReplaceContents (built (transformed_element "a" [OSetAttribute (name "href") (Some (txt "index.html")); OReplaceContents (CStatic (lit "Home"))]))]]
  ["<body><a href=""index.html"">Home</a></body>"] [] = true.
Proof. vm_compute. reflexivity. Qed.
(** src/text/data.rs:16 *)
Example d57 : documented "
<div id=""content""></div>
"
  [select "div" [OReplaceContents (new "new data")]]
  ["<div id=""content"">new data</div>"] [] = true.
Proof. vm_compute. reflexivity. Qed.
(** src/text/value.rs:15 *)
Example d58 : documented "
<span class=""field-name"">field-name</span>
<input>
"
  [select "input" [OSetAttribute (name "name") (Some (txt "username"))];
   select ".field-name" [OReplaceContents (CValue (txt "username"))]]
  ["<span class=""field-name"">username</span>"; "<input name=""username"">"] [] = true.
Proof. vm_compute. reflexivity. Qed.
