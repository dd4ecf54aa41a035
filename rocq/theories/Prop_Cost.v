(** ** C62 The time parsing takes

    [from_str_c] is the parser with a count of its steps: characters looked at, copied or
    counted, and calls. *)
From Coq Require Import String List NArith.
From Verif Require Import Selector Machine Template Text Event Input Parse ParseCost SpecText SpecAttr SpecParse SpecCost TextProofs CostProofs CostProofs6 CostProofs7.
Import ListNotations.
Local Open Scope nat_scope.

(** Counting does not change the result. *)
Theorem C62_same_result : forall s o, fst (from_str_c s o) = from_str s o.
Proof. exact from_str_same. Qed.
Print Assumptions C62_same_result.

(** Every text, accepted or not, takes at most quadratic time. *)
Theorem C62_quadratic : forall s o, snd (from_str_c s o) <= 1503 * (length s + 1) * (length s + 1).
Proof. exact cost_quadratic. Qed.
Print Assumptions C62_quadratic.

(** A text without scripts, styles, titles and textareas takes linear time, accepted or not. *)
Theorem C62_linear : forall s o, NoRawElement s -> snd (from_str_c s o) <= 1500 * (length s + 1).
Proof. exact cost_linear. Qed.
Print Assumptions C62_linear.

(** Only the characters [<] in raw texts take more than linear time, ... *)
Theorem C62_accepted : forall s o evs, from_str s o = TOk evs ->
  snd (from_str_c s o) <= 1500 * (length s + 1) + 3 * raw_load evs.
Proof. exact cost_accepted. Qed.
Print Assumptions C62_accepted.

(** ... and each of them takes three steps for every character of the raw text before it. *)
Theorem C62_recounted : forall s o evs, from_str s o = TOk evs ->
  3 * raw_positions evs <= snd (from_str_c s o).
Proof. exact cost_below. Qed.
Print Assumptions C62_recounted.

(** Finding: parsing does not take linear time. *)
Theorem C62_linear_refuted : forall K, exists s evs, from_str s default_options = TOk evs /\
  K * (length s + 1) < snd (from_str_c s default_options).
Proof. exact cost_not_linear. Qed.
Print Assumptions C62_linear_refuted.

(** Texts of 57, 97 and 177 characters *)
Example C62_example :
  map (fun n => N.of_nat (snd (from_str_c (script_of n) default_options))) [40; 80; 160]
  = [4009; 12029; 42469]%N.
Proof. vm_compute. reflexivity. Qed.
(** As many characters [<] outside of scripts *)
Example C62_example_linear :
  map (fun n => N.of_nat (snd (from_str_c (concat (repeat (lit "<br>") n)) default_options))) [40; 80; 160]
  = [14322; 28642; 57282]%N.
Proof. vm_compute. reflexivity. Qed.
(** A text without these elements *)
Example C62_example_no_raw : NoRawElement (lit "<p>a</p>").
Proof. exact no_raw_example. Qed.
(** Its raw text has positions 0 and 2, and two brackets in four characters. *)
Example C62_example_raw : let evs := [RawData (raw (lit "<a<b"))] in
  raw_positions evs = 2 /\ raw_load evs = 8.
Proof. vm_compute. split; reflexivity. Qed.
