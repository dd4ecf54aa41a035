(** Proofs about options and limits. *)
From Coq Require Import String List NArith Arith Bool Lia.
Import ListNotations.
From Verif Require Import Text Event Input Parse Selector Template SpecText SpecAttr SpecLocation SpecParse
  SpecDocument TextProofs AttrProofs AttrProofs2 LocationProofs ParseProofs ParseProofs2 ParseProofs3
  ParseProofs4 ParseProofs5 ParseProofs6 ParseProofs10.
Local Open Scope N_scope.

Lemma set_options_snoc o xs x : set_options o (xs ++ [x]) = set_option (set_options o xs) x.
Proof. unfold set_options. now rewrite fold_left_app. Qed.

Lemma last_said_keep S d xs x v : (forall w, ~ S x w) -> LastSaid S d xs v -> LastSaid S d (xs ++ [x]) v.
Proof.
  intros Hx [[H ->]|(a & y & b & -> & Hy & H)].
  - left. split; auto. intros z w Hz. apply in_app_iff in Hz. destruct Hz as [Hz|[<-|[]]]; auto.
  - right. exists a, y, (b ++ [x]). split; [now rewrite <- app_assoc|]. split; auto.
    intros z w Hz. apply in_app_iff in Hz. destruct Hz as [Hz|[<-|[]]]; auto.
Qed.
Lemma last_said_now (S : setting -> option nat -> Prop) d xs x v : S x v -> LastSaid S d (xs ++ [x]) v.
Proof. intros H. right. exists xs, x, []. repeat split; auto. Qed.

Lemma set_options_said o xs :
  LastSaid SaysDepth (max_stack_depth o) xs (max_stack_depth (set_options o xs)) /\
  LastSaid SaysLength (max_input_len o) xs (max_input_len (set_options o xs)).
Proof.
  induction xs as [|x xs [IH1 IH2]] using rev_ind.
  - split; left; auto.
  - rewrite set_options_snoc. destruct x; cbn [set_option max_stack_depth max_input_len]; split;
      first [apply last_said_now; constructor
            |apply last_said_keep; [intros w H; inversion H|assumption]].
Qed.
Lemma says_unique_depth x v w : SaysDepth x v -> SaysDepth x w -> v = w.
Proof. intros H1 H2. destruct H1; inversion H2; auto. Qed.
Lemma says_unique_length x v w : SaysLength x v -> SaysLength x w -> v = w.
Proof. intros H1 H2. destruct H1; inversion H2; auto. Qed.

Lemma accepted_iff s o evs : from_str s o = TOk evs <->
  from_str s default_options = TOk evs /\
  (forall d, max_stack_depth o = Some d -> DepthAtMost d evs) /\
  (forall n, max_input_len o = Some n -> (length (utf8 s) <= n)%nat).
Proof.
  rewrite !from_str_ok, !parse_iff. destruct o as [d n]. cbn [max_stack_depth max_input_len default_options].
  unfold Document. destruct d as [d|]; [rewrite reads_limit|];
    (destruct n as [n|]; split; intros H; decompose [and] H; repeat split; auto;
     intros ? E; try discriminate; injection E as <-; auto).
Qed.
Lemma default_only_parse_errors s : forall e, from_str s default_options = TErr e ->
  exists pe, e = ParseError pe /\ forall t l k, pe <> StackLimitExceeded t l k.
Proof.
  intros e H. destruct e as [n|pe].
  - exfalso. unfold from_str in H. cbn [max_input_len default_options] in H.
    destruct (parse_events s default_options); discriminate.
  - exists pe. split; auto. intros t l k ->. apply from_str_err in H.
    now apply unlimited_no_limit_error in H.
Qed.
Lemma at_least_some a b x : AtLeast a b -> a = Some x -> exists y, b = Some y /\ (y <= x)%nat.
Proof. intros H. apply H. Qed.
Lemma looser_ok s o o' evs : Looser o o' -> from_str s o' = TOk evs -> from_str s o = TOk evs.
Proof.
  intros [L1 L2]. rewrite (accepted_iff s o), (accepted_iff s o'). intros (H & Hd & Hn).
  split; auto. split.
  - intros d E. destruct (L1 d E) as (y & Ey & Hy). specialize (Hd y Ey).
    intros p q Epq. specialize (Hd p q Epq). lia.
  - intros n E. destruct (L2 n E) as (y & Ey & Hy). specialize (Hn y Ey). lia.
Qed.
Lemma reads_looser a b s pre rest m st evs : AtLeast a b ->
  Reads b s pre rest m st evs -> Reads a s pre rest m st evs.
Proof.
  intros H R.
  assert (R0 : Reads None s pre rest m st evs).
  { destruct b as [d|]; auto. apply reads_limit in R. tauto. }
  destruct a as [x|]; auto. destruct (H x eq_refl) as (y & -> & L).
  apply reads_limit. split; auto. apply reads_limit in R. destruct R as [_ R].
  intros p q E. specialize (R p q E). lia.
Qed.
Lemma fault_limit a b pre s st e : (forall t l k, e <> StackLimitExceeded t l k) ->
  Fault b pre s st e -> Fault a pre s st e.
Proof. destruct e; cbn [Fault]; auto. intros H. now destruct (H tag location limit). Qed.
Lemma looser_error s o o' e : Looser o o' -> (forall t l k, e <> StackLimitExceeded t l k) ->
  from_str s o' = TErr (ParseError e) -> from_str s o = TErr (ParseError e).
Proof.
  intros [L1 L2] He. rewrite !errors_exact. intros (Hn & pre & rest & m & st & evs & E & R & Hm & F).
  split.
  - destruct (max_input_len o) as [n|] eqn:En; auto. destruct (L2 n eq_refl) as (y & Ey & Hy).
    rewrite Ey in Hn. lia.
  - exists pre, rest, m, st, evs. split; auto. split; [eapply reads_looser; eauto|]. split; auto.
    eapply fault_limit; eauto.
Qed.
