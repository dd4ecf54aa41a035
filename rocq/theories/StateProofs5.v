(** Proofs for C67, part 5: programs of bounded size finish in every world, with fuel in
    proportion to the length of the template. *)
From Coq Require Import String ZArith Lia.
From stdpp Require Import gmap.
From Verif Require Import Text Event Input Parse Selector Machine MachineState MachineCost.
From Verif Require Import SpecTree SpecTransform SpecWork SpecState FuelProofs WorkProofs WorkProofs6 WorkProofs7.
From Verif Require Import RobustProofs StateProofs StateProofs2 StateProofs3 StateProofs4.
Local Open Scope nat_scope.

(** ** Who runs out of fuel has spent it *)

Definition Spent {A} (n : nat) (o : cout A) : Prop := fst o = OutOfFuel -> n <= snd o.

Lemma spent_tick {A} n (o : cout A) : Spent n o -> Spent (S n) (tick o).
Proof. unfold Spent. destruct o as [x k]. simpl. intros H E. specialize (H E). lia. Qed.
Lemma spent_0 {A} n (o : cout A) : Spent n o -> Spent n (tick o).
Proof. unfold Spent. destruct o as [x k]. simpl. intros H E. specialize (H E). lia. Qed.
Lemma spent_ret {A} n h (a : A) : Spent n (ret_c h a).
Proof. discriminate. Qed.
Lemma spent_panic {A} n k : Spent (A := A) n (Panicked, k).
Proof. discriminate. Qed.
Lemma spent_bind {A B} n (o : cout A) (k : heap -> A -> cout B) :
  Spent n o -> (forall h a, Spent n (k h a)) -> Spent n (cbind o k).
Proof.
  unfold Spent. destruct o as [[| |h a] j]; simpl; intros Ho Hk E; auto; [discriminate|].
  specialize (Hk h a). destruct (k h a) as [x i]. simpl in *. specialize (Hk E). lia.
Qed.
Lemma spent_ok n (o : step_out_c) dead k :
  Spent n o -> (forall h s r, Spent n (k h s r)) -> Spent n (on_ok_c o dead k).
Proof.
  intros Ho Hk. apply spent_bind; [exact Ho|]. intros h [s [r|e]]; [apply Hk|apply spent_ret].
Qed.
Lemma spent_pass n (o : step_out_c) dead c : Spent n o -> Spent n (passthrough_c o dead c).
Proof. intros Ho. apply spent_ok; [exact Ho|]. intros h s [ev|]; apply spent_ret. Qed.
Lemma spent_cell n h l f : (forall h s, Spent n (f h s)) -> Spent n (with_cell_c h l f).
Proof.
  intros Hf. unfold with_cell_c. destruct (h !! l) as [[s|]|]; [|apply spent_panic..].
  apply spent_bind; [apply Hf|]. intros h' [s' r]. apply spent_ret.
Qed.

(** Building takes no fuel. *)
Lemma attr_fuel h s name c : attr_new h s name c <> OutOfFuel.
Proof. destruct name as [i|e]; simpl; [|discriminate]. destruct (c i); discriminate. Qed.
Lemma build_op_fuel o : forall h s, build_op o h s <> OutOfFuel.
Proof.
  revert o. fix IH 1. intros o h s.
  assert (forall p (Hp : forall o, In o p -> forall h s, build_op o h s <> OutOfFuel) h s,
            build p h s <> OutOfFuel) as HB.
  { clear. induction p as [|o p IHp]; intros Hp h s; [discriminate|]. simpl.
    destruct (build_op o h s) as [| |h1 s1] eqn:E; simpl; [|discriminate|].
    - exfalso. apply (Hp o (or_introl eq_refl) h s E).
    - apply IHp. intros o' Ho'. apply Hp. now right. }
  destruct o; cbn [build_op]; try discriminate; try apply attr_fuel;
    try (match goal with |- context [match ?x with inl _ => _ | inr _ => _ end] => destruct x end; discriminate).
  - change (build p h s <> OutOfFuel). apply HB. clear -IH.
    induction p as [|o p IHp]; intros o' Ho'; [destruct Ho'|].
    destruct Ho' as [<-|Ho']; [apply IH|now apply IHp].
  - change (obind (build p h s) (fun h s => Done h (SApplyEither first s)) <> OutOfFuel).
    assert (build p h s <> OutOfFuel) as H.
    { apply HB. clear -IH. induction p as [|o p IHp]; intros o' Ho'; [destruct Ho'|].
      destruct Ho' as [<-|Ho']; [apply IH|now apply IHp]. }
    destruct (build p h s); [done|discriminate..].
Qed.
Lemma build_fuel p h s : build p h s <> OutOfFuel.
Proof.
  revert h s. induction p as [|o p IH]; intros h s; [discriminate|]. simpl.
  destruct (build_op o h s) as [| |h1 s1] eqn:E; simpl; [by apply build_op_fuel in E|discriminate|apply IH].
Qed.
Lemma spent_build n p h s : Spent n (build_c p h s).
Proof. intros E. simpl in E. by apply build_fuel in E. Qed.
Lemma spent_content n b h s : Spent n (build_content_c b h s).
Proof.
  intros E. simpl in E. exfalso. destruct b; simpl in E; try discriminate. by apply build_fuel in E.
Qed.

Record SpentE (n : nat) (e : engine_c) : Prop :=
  { sp_ne : forall h s, Spent n (ne_c e h s);
    sp_sk : forall h s, Spent n (sk_c e h s);
    sp_dr : forall h s, Spent n (dr_c e h s);
    sp_co : forall h s acc, Spent n (co_c e h s acc) }.
Lemma spent_peek n e h s : SpentE n e -> Spent n (peek_c e h s).
Proof.
  intros He. apply spent_0. destruct s; try apply spent_panic.
  destruct buffered; [apply spent_ret|]. apply spent_ok; [apply He|]. intros. apply spent_ret.
Qed.
Ltac spent He :=
  repeat first
    [ apply spent_ret | apply spent_panic | apply He | apply spent_build | apply spent_content
    | apply spent_pass; apply He
    | apply spent_ok; [apply He|intros]
    | apply spent_ok; [apply spent_cell; intros; apply spent_peek, He|intros]
    | apply spent_cell; intros; apply He
    | apply spent_bind; [apply He|intros ? []]
    | apply spent_bind; [apply spent_build|intros ? ?]
    | apply spent_bind; [apply spent_content|intros ? ?]
    | match goal with |- Spent _ (match ?x with _ => _ end) => destruct x end
    | match goal with |- context [if ?x then _ else _] => destruct x end ].
Lemma spent_ne_body n e h s : SpentE n e -> Spent n (ne_body_c e h s).
Proof.
  intros He.
  destruct s as [| | | |st|st|? pk|st| |st|? ? ? ? ? st|? st|st|st| |st|st|st|st];
    try destruct st as [st|]; try destruct pk as [pk|]; cbn [ne_body_c]; spent He.
Qed.
Lemma spent_run n : SpentE n (run_c n).
Proof.
  induction n as [|n IH]; [split; intros; intros _; simpl; lia|].
  split; intros; cbn [run_c ne_c sk_c dr_c co_c]; apply spent_tick.
  - apply spent_ne_body, IH.
  - apply spent_bind; [apply IH|]. intros h' [s' [[[]|]|]]; try apply spent_ret. apply IH.
  - apply spent_bind; [apply IH|]. intros h' [s' [[|]|]]; try apply spent_ret. apply IH.
  - apply spent_bind; [apply IH|]. intros h' [s' [[|]|]]; try apply spent_ret. apply IH.
Qed.
Lemma spent_transform n evs p : Spent n (transform_c n evs p).
Proof. apply spent_bind; [apply spent_build|]. intros h s. apply spent_run. Qed.

(** ** With more fuel, no fewer steps *)

Definition cle {A} (o o' : cout A) : Prop := (fst o = OutOfFuel /\ snd o <= snd o') \/ o = o'.

Lemma cle_refl {A} (o : cout A) : cle o o.
Proof. now right. Qed.
Lemma cle_trans {A} (a b c : cout A) : cle a b -> cle b c -> cle a c.
Proof.
  intros [[E L]| ->]; [|auto]. intros [[E' L']| <-]; left; (split; [exact E|lia]).
Qed.
Lemma cle_tick {A} (o o' : cout A) : cle o o' -> cle (tick o) (tick o').
Proof.
  intros [[E L]| ->]; [|apply cle_refl]. left. destruct o as [x k], o' as [x' k']. simpl in *.
  split; [exact E|lia].
Qed.
Lemma cle_bind {A B} (o o' : cout A) (k k' : heap -> A -> cout B) :
  cle o o' -> (forall h a, cle (k h a) (k' h a)) -> cle (cbind o k) (cbind o' k').
Proof.
  intros [[E L]| ->] Hk.
  - left. destruct o as [x j]. simpl in E, L. subst x. simpl. split; [reflexivity|].
    destruct o' as [[| |h a] j']; simpl in *; [lia..|]. destruct (k' h a). simpl. lia.
  - destruct o' as [[| |h a] j']; simpl; try apply cle_refl.
    destruct (Hk h a) as [[E L]| ->]; [|apply cle_refl]. left.
    destruct (k h a) as [x i], (k' h a) as [x' i']. simpl in *. split; [exact E|lia].
Qed.
Lemma cle_on_ok o o' dead (k k' : heap -> strm -> option event -> step_out_c) :
  cle o o' -> (forall h s r, cle (k h s r) (k' h s r)) ->
  cle (on_ok_c o dead k) (on_ok_c o' dead k').
Proof.
  intros Ho Hk. apply cle_bind; auto. intros h [s [r|err]]; auto using cle_refl.
Qed.
Lemma cle_passthrough o o' dead cont :
  cle o o' -> cle (passthrough_c o dead cont) (passthrough_c o' dead cont).
Proof. intros Ho. apply cle_on_ok; auto using cle_refl. Qed.
Lemma cle_with_cell h l (f f' : heap -> strm -> step_out_c) :
  (forall h s, cle (f h s) (f' h s)) -> cle (with_cell_c h l f) (with_cell_c h l f').
Proof.
  intros Hf. unfold with_cell_c. destruct (h !! l) as [[s|]|]; auto using cle_refl.
  apply cle_bind; auto. intros h' [s' r]. apply cle_refl.
Qed.
Definition cle_engine (e e' : engine_c) : Prop :=
  (forall h s, cle (ne_c e h s) (ne_c e' h s)) /\ (forall h s, cle (sk_c e h s) (sk_c e' h s)) /\
  (forall h s, cle (dr_c e h s) (dr_c e' h s)) /\
  (forall h s acc, cle (co_c e h s acc) (co_c e' h s acc)).
Lemma cle_peek e e' h s : cle_engine e e' -> cle (peek_c e h s) (peek_c e' h s).
Proof.
  intros (Hn & Hs & Hd & Hc). apply cle_tick. destruct s; try apply cle_refl.
  destruct buffered; [apply cle_refl|]. apply cle_on_ok; auto using cle_refl.
Qed.
Lemma cle_ne_body e e' h s : cle_engine e e' -> cle (ne_body_c e h s) (ne_body_c e' h s).
Proof.
  intros He. pose proof He as (Hn & Hs & Hd & Hc).
  destruct s as [| | | |[[[|]|]|]|[[]|]|? []|[[]|]| |[[]|]|? ? ? ? ? [[]|]|? [[]|]|[[]|]
                 |[[[]]|]| |[[]|]|[[]|]|[[]|]|[[]|]]; cbn [ne_body_c];
    try apply cle_refl;
    try (apply cle_passthrough; auto);
    try (apply cle_on_ok; auto using cle_refl; fail);
    try (apply cle_bind; auto using cle_refl; fail);
    auto.
  - apply cle_with_cell; auto.
  - destruct (negb (Nat.eqb n 0)).
    + apply cle_on_ok; auto using cle_refl.
    + apply cle_on_ok; [apply cle_with_cell; intros; now apply cle_peek|].
      intros h1 s1 [ev|]; [|apply cle_refl]. destruct (is_closing_tag_for ev i); [apply cle_refl|].
      apply cle_on_ok; auto using cle_refl.
Qed.
Lemma cle_run n : cle_engine (run_c n) (run_c (S n)).
Proof.
  induction n as [|n IH].
  - repeat split; intros; left; simpl; (split; [reflexivity|lia]).
  - pose proof IH as (Hn & Hs & Hd & Hc).
    split; [|split; [|split]]; intros h s; intros; cbn [run_c ne_c sk_c dr_c co_c]; apply cle_tick.
    + now apply cle_ne_body.
    + apply cle_bind; [apply Hn|]. intros h1 [s1 [[[]|]|]]; auto using cle_refl.
    + apply cle_bind; [apply Hn|]. intros h1 [s1 [[ev|]|]]; auto using cle_refl.
    + apply cle_bind; [apply Hs|]. intros h1 [s1 [[ev|]|]]; auto using cle_refl.
Qed.
Lemma cle_transform n m evs p : n <= m -> cle (transform_c n evs p) (transform_c m evs p).
Proof.
  induction 1 as [|m _ IH]; [apply cle_refl|]. eapply cle_trans; [exact IH|].
  apply cle_bind; [apply cle_refl|]. intros h s. apply cle_run.
Qed.

(** ** Enough fuel *)

Lemma enough_fuel m : exists C, forall p, Sized m p -> forall evs n,
  C * (length evs + 1) < n -> exists h r, transform n evs p = Done h r.
Proof.
  destruct (work_finishes m) as [C HC]. exists C. intros p Hp evs n Hn.
  destruct (HC p Hp evs) as (n0 & h & r & k & E & Hk).
  destruct (transform n evs p) as [| |h' r'] eqn:Et; [exfalso|exfalso|by eauto].
  - pose proof (transform_counts n evs p) as Ec. rewrite Et in Ec.
    pose proof (spent_transform n evs p Ec) as Hs.
    destruct (Nat.le_ge_cases n n0) as [Hle|Hle].
    + destruct (cle_transform n n0 evs p Hle) as [[_ L]|L]; rewrite E in L.
      * simpl in L. lia.
      * rewrite L in Ec. discriminate.
    + destruct (cle_transform n0 n evs p Hle) as [[L _]|L]; rewrite E in L; [discriminate|].
      rewrite <- L in Ec. discriminate.
  - by apply transform_never_panics in Et.
Qed.
Lemma in_world_enough m : exists C, forall (W : Type) N evs (b : once W) w,
  (forall p0, Possible N (snd (b w)) p0 -> Sized m p0) ->
  exists r w', GivesIn evs b w r w' /\
    forall n, C * (length evs + 1) < n -> exists h, wtransform n evs b w = WDone (h, w') r.
Proof.
  destruct (enough_fuel m) as [C HC]. exists C. intros W N evs b w Hp.
  assert (forall n, C * (length evs + 1) < n -> exists h w' r, wtransform n evs b w = WDone (h, w') r) as H.
  { intros n Hn. destruct (unroll N n evs b w) as (p0 & Hp0 & Ho).
    destruct (HC p0 (Hp _ Hp0) evs n Hn) as (h & r & E). rewrite E in Ho.
    inversion Ho as [| |[h1 w1] ? ?]. eauto. }
  destruct (H (S (C * (length evs + 1))) ltac:(lia)) as (h & w' & r & E).
  exists r, w'. assert (GivesIn evs b w r w') as Hg by (eexists _, _; exact E).
  split; [exact Hg|]. intros n Hn. destruct (H n Hn) as (h1 & w1 & r1 & E1).
  destruct (gives_in_det evs b w r1 w1 r w') as [-> ->]; [eexists _, _; exact E1|exact Hg|eauto].
Qed.
