(** Proofs for C63: the constant of a program, and programs without one. *)
From Coq Require Import String List Lia PeanoNat.
From stdpp Require Import gmap.
From Verif Require Import Text Event Input Parse Selector Machine Template.
From Verif Require Import SpecText SpecAttr SpecParse SpecTree SpecTransform SpecOps SpecWork MachineCost.
From Verif Require Import TextProofs TreeProofs ErrorProofs SelectionProofs OpProofs RobustProofs ApiProofs.
From Verif Require Import WorkProofs WorkProofs6.
Local Open Scope nat_scope.

(** ** Every event of the result is asked for *)

Lemma co_counts n : forall h s acc h' out k,
  co_c (run_c n) h s acc = (Done h' (inl out), k) -> length out <= length acc + k.
Proof.
  induction n as [|n IH]; intros h s acc h' out k; cbn; [discriminate|].
  unfold co_body_c. destruct (sk_c (run_c n) h s) as [[| |h1 [s1 [[ev|]|err]]] k1]; cbn; try discriminate.
  - destruct (co_c (run_c n) h1 s1 (acc ++ [ev])) as [o k2] eqn:E. cbn. intros [= -> <-].
    apply IH in E. rewrite app_length in E. cbn in E. lia.
  - intros [= <- <- <-]. lia.
Qed.
Lemma work_output n evs p h out k :
  transform_c n evs p = (Done h (inl out), k) -> length out <= k.
Proof.
  unfold transform_c. destruct (build_c p ∅ (STemplate evs 0)) as [[| |h1 s1] k1]; cbn; try discriminate.
  destruct (co_c (run_c n) h1 s1 []) as [o k2] eqn:E. cbn. intros [= -> <-].
  apply co_counts in E. cbn in E. lia.
Qed.

(** ** Programs of a given size *)

Lemma work_linear m : exists C, forall p, Sized m p -> forall n evs h r k,
  transform_c n evs p = (Done h r, k) -> k <= C * (length evs + 1).
Proof.
  exists (work_bound m). intros p Hp n evs h r k E. apply (transform_work m p n evs h r k Hp E).
Qed.
Lemma counted evs p r : Gives evs p r <-> exists n h k, transform_c n evs p = (Done h r, k).
Proof.
  split.
  - intros (n & h & E). rewrite <- transform_counts in E.
    destruct (transform_c n evs p) as [o k] eqn:Ec. cbn in E. subst. eauto.
  - intros (n & h & k & E). exists n, h. rewrite <- transform_counts, E. reflexivity.
Qed.
Lemma work_finishes m : exists C, forall p, Sized m p -> forall evs,
  exists n h r k, transform_c n evs p = (Done h r, k) /\ k <= C * (length evs + 1).
Proof.
  destruct (work_linear m) as [C HC]. exists C. intros p Hp evs.
  destruct (transform_gives evs p) as [r Hr]. apply counted in Hr as (n & h & k & E).
  exists n, h, r, k. split; [exact E|eauto].
Qed.
Lemma work_length m : exists C, forall p, Sized m p -> forall evs out,
  Gives evs p (inl out) -> length out <= C * (length evs + 1).
Proof.
  destruct (work_linear m) as [C HC]. exists C. intros p Hp evs out Hg.
  apply counted in Hg as (n & h & k & E). apply work_output in E as Ho. apply HC in E; [lia|exact Hp].
Qed.
Lemma sized_0 m : Sized m [].
Proof. destruct m; [reflexivity|]. split; [simpl; lia|intros o []]. Qed.

(** ** The constant *)

Definition twice : op := ORepeat [[]; []].
Definition doubling (m : nat) : pipeline := List.repeat twice m.

Lemma twice_args : ValidArgs [twice].
Proof.
  apply valid_args_wrap; try reflexivity. intros q [<-|[<-|[]]];
  (split; [|split; [|split]]; intros o; intros; exfalso;
   match goal with Ho : Occurs [] _ |- _ => inversion Ho; simpl in *; contradiction end).
Qed.
Lemma doubling_args m : ValidArgs (doubling m).
Proof.
  induction m as [|m IH].
  - split; [|split; [|split]]; intros o; intros; exfalso;
    match goal with Ho : Occurs _ _ |- _ => inversion Ho; simpl in *; contradiction end.
  - apply (valid_args_app [twice]); [apply twice_args|exact IH].
Qed.
Lemma twice_typed : typed_op false twice false.
Proof. constructor. repeat constructor; eexists; constructor. Qed.
Lemma doubling_typed m : typed false (doubling m) false.
Proof. induction m as [|m IH]; [constructor|]. econstructor; [apply twice_typed|exact IH]. Qed.
Lemma twice_result evs : WellNested evs -> Gives evs [twice] (inl (evs ++ evs)).
Proof.
  intros H. replace (evs ++ evs) with (List.concat [evs; evs]) by (simpl; now rewrite app_nil_r).
  apply (repeat_result false); [exact H| |apply twice_args|].
  - repeat constructor; eexists; constructor.
  - repeat constructor; now apply identity_result.
Qed.
Lemma doubling_result m : forall evs, WellNested evs ->
  exists out, Gives evs (doubling m) (inl out) /\ length out = 2 ^ m * length evs.
Proof.
  induction m as [|m IH]; intros evs H.
  - exists evs. split; [now apply identity_result|simpl; lia].
  - pose proof (twice_result evs H) as H2.
    assert (WellNested (evs ++ evs)) as Hn.
    { apply (OpProofs.gives_selection false [twice] false evs); [exact H|apply typed_one, twice_typed|apply twice_args|exact H2]. }
    destruct (IH _ Hn) as (out & Ho & Hl). exists out. split.
    + apply (chain_result false [twice] (doubling m) false evs (evs ++ evs));
        [exact H|apply (doubling_typed (S m))|apply (doubling_args (S m))|exact H2|exact Ho].
    + rewrite Hl, app_length. simpl. lia.
Qed.
Lemma doubling_sized m : 2 <= m -> Sized m (doubling m).
Proof.
  intros Hm. destruct m as [|m]; [lia|]. split; [unfold doubling; rewrite repeat_length; lia|].
  intros o Ho. apply repeat_spec in Ho as ->. split; [|split; [|split]].
  - intros q [<-|[<-|[]]]; apply sized_0.
  - discriminate.
  - simpl. lia.
  - discriminate.
Qed.
Lemma work_exponential m : 2 <= m -> exists p, Sized m p /\
  forall evs, WellNested evs -> forall n h r k, transform_c n evs p = (Done h r, k) ->
    2 ^ m * length evs <= k.
Proof.
  intros Hm. exists (doubling m). split; [now apply doubling_sized|].
  intros evs H n h r k E. destruct (doubling_result m evs H) as (out & Ho & Hl).
  assert (Gives evs (doubling m) r) as Hr by (apply counted; eauto).
  pose proof (gives_det _ _ _ _ Hr Ho) as ->.
  apply work_output in E. lia.
Qed.

(** ** Without a bound for the builders *)

Definition br : ident := Ident (StaticStr (lit "br")).
Definition brs (n : nat) : list tree := List.repeat (Leaf (VoidTag br [])) n.
Definition kth (k : nat) : pipeline := [ORepeat (List.repeat [] k)].
Definition counting : pipeline := [OSelect false (inl (SelTag br)) kth].

Lemma br_proper : ProperTree (Leaf (VoidTag br [])).
Proof.
  constructor; [exact I|]. split; [|intros a []].
  apply validate_iff. vm_compute. eauto.
Qed.
Lemma brs_proper n : Proper (brs n).
Proof. intros x Hx. apply repeat_spec in Hx as ->. apply br_proper. Qed.
Lemma brs_events n : events (brs n) = List.repeat (VoidTag br []) n.
Proof. induction n as [|n IH]; [reflexivity|]. unfold events in *. simpl. f_equal. exact IH. Qed.
Lemma kth_args k : ValidArgs (kth k).
Proof.
  apply valid_args_wrap; try reflexivity. intros q Hq. apply repeat_spec in Hq as ->.
  apply (doubling_args 0).
Qed.
Lemma counting_args : ValidArgs counting.
Proof. apply valid_args_wrap; try reflexivity. intros q [k ->]. apply kth_args. Qed.
Lemma kth_typed k : typed true (kth k) false.
Proof.
  apply typed_one. constructor. induction k as [|k IH]; simpl; constructor; [|exact IH].
  eexists. constructor.
Qed.
Lemma kth_result k : Gives [VoidTag br []] (kth k) (inl (List.repeat (VoidTag br []) k)).
Proof.
  replace (List.repeat (VoidTag br []) k) with (List.concat (List.repeat [VoidTag br []] k)).
  2: { induction k as [|k IH]; [reflexivity|]. simpl. now rewrite IH. }
  apply (repeat_result false); [apply (well_nested_tree _ br_proper)| |apply kth_args|].
  - induction k as [|k IH]; simpl; constructor; [|exact IH]. eexists. constructor.
  - induction k as [|k IH]; simpl; constructor; [|exact IH].
    apply identity_result, (well_nested_tree _ br_proper).
Qed.
Lemma counting_selects rs : Selects (SelTag br) (brs (length rs)) (brs (length rs)) rs (List.concat rs).
Proof.
  induction rs as [|r rs IH]; [constructor|].
  change (brs (length (r :: rs))) with (Leaf (VoidTag br []) :: brs (length rs)).
  simpl List.concat. constructor; [vm_compute; reflexivity|exact IH].
Qed.
Definition piles (n : nat) : list (list event) :=
  List.map (fun k => List.repeat (VoidTag br []) k) (List.seq 0 n).
Lemma piles_length n : length (piles n) = n.
Proof. unfold piles. rewrite map_length. apply seq_length. Qed.
Lemma counting_result n :
  Gives (events (brs n)) counting (inl (List.concat (piles n))).
Proof.
  rewrite <- (piles_length n) at 1.
  apply (select_result false) with (xs := brs (length (piles n))) (rs := piles n).
  - apply library_selector. discriminate.
  - apply brs_proper.
  - intros k. exists false. apply kth_typed.
  - apply counting_args.
  - apply counting_selects.
  - split; [apply repeat_length|]. intros k x r Hx Hr.
    apply nth_error_In, repeat_spec in Hx as ->.
    unfold piles in Hr. rewrite nth_error_map in Hr.
    destruct (nth_error (List.seq 0 n) k) as [j|] eqn:Ej; [|discriminate].
    injection Hr as <-. apply nth_error_split in Ej as (l1 & l2 & E & <-).
    assert (nth (length l1) (List.seq 0 n) 0 = j) as Hj.
    { rewrite E. apply nth_middle. }
    rewrite seq_nth in Hj; [|rewrite <- (seq_length n 0), E, app_length; simpl; lia].
    simpl in Hj. subst. apply kth_result.
Qed.
Lemma piles_total n : 2 * length (List.concat (piles n)) + n = n * n.
Proof.
  induction n as [|n IH]; [reflexivity|].
  unfold piles in *. rewrite seq_S, map_app, concat_app, app_length. simpl.
  rewrite app_nil_r, repeat_length. nia.
Qed.
Lemma work_unbounded : exists p, forall C, exists evs, WellNested evs /\
  forall n h r k, transform_c n evs p = (Done h r, k) -> C * (length evs + 1) < k.
Proof.
  exists counting. intros C. set (N := 4 * C + 4).
  exists (events (brs N)). split; [exists (brs N); split; [apply brs_proper|reflexivity]|].
  intros n h r k E.
  assert (Gives (events (brs N)) counting r) as Hr by (apply counted; eauto).
  pose proof (gives_det _ _ _ _ Hr (counting_result N)) as ->.
  apply work_output in E. pose proof (piles_total N) as Ht.
  rewrite brs_events, repeat_length. unfold N in *. nia.
Qed.
