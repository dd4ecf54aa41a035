(** Proofs for C70: what follows from programs being alike. *)
From Coq Require Import String ZArith Lia.
From stdpp Require Import gmap.
From Verif Require Import Text Event Input Parse Selector Machine MachineState.
From Verif Require Import SpecTransform SpecState SpecStop SpecAlike.
From Verif Require Import StateProofs3 StateProofs4 StopProofs StopProofs2 AlikeProofs.
Local Open Scope nat_scope.

Section Two.
Context {W V : Type} (R : W -> V -> Prop).

Lemma alike_in_step n evs (b : once W) (c : once V) w v :
  R (fst (b w)) (fst (c v)) -> Alike R (snd (b w)) (snd (c v)) ->
  match wtransform n evs b w, wtransform n evs c v with
  | WOutOfFuel, WOutOfFuel | WPanicked, WPanicked => True
  | WDone h r, WDone h' r' => r = r' /\ R (snd h) (snd h')
  | _, _ => False
  end.
Proof.
  intros HR Hp. pose proof (sim_transform R n evs b c w v HR Hp) as H.
  destruct H as [| |h h' r r' Hh Hr]; [done..|]. split; [done|apply Hh].
Qed.
Lemma alike_gives evs (b : once W) (c : once V) w v r :
  R (fst (b w)) (fst (c v)) -> Alike R (snd (b w)) (snd (c v)) -> 
  (forall w', GivesIn evs b w r w' -> exists v', GivesIn evs c v r v' /\ R w' v') /\
  (forall v', GivesIn evs c v r v' -> exists w', GivesIn evs b w r w' /\ R w' v').
Proof.
  intros HR Hp. split.
  - intros w' (n & h & E). pose proof (alike_in_step n evs b c w v HR Hp) as H. rewrite E in H.
    destruct (wtransform n evs c v) as [| |[h' v'] r'] eqn:E'; [done..|]. destruct H as [-> H].
    exists v'. split; [|done]. by exists n, h'.
  - intros v' (n & h & E). pose proof (alike_in_step n evs b c w v HR Hp) as H. rewrite E in H.
    destruct (wtransform n evs b w) as [| |[h' w'] r'] eqn:E'; [done..|]. destruct H as [-> H].
    exists w'. split; [|done]. by exists n, h'.
Qed.
Lemma alike_returns evs (b : once W) (c : once V) w v :
  R (fst (b w)) (fst (c v)) -> Alike R (snd (b w)) (snd (c v)) -> 
  Ending (snd (c v)) -> exists r w', GivesIn evs b w r w'.
Proof.
  intros HR Hp He. destruct (ending_returns evs c v He) as (r & v' & Hg & _).
  destruct (proj2 (alike_gives evs b c w v r HR Hp) v' Hg) as (w' & Hw & _). eauto.
Qed.
End Two.

Lemma keeps_gives {W} (I : W -> Prop) evs (b : once W) w r w' :
  I (fst (b w)) -> Keeps I (snd (b w)) -> GivesIn evs b w r w' -> I w'.
Proof.
  intros Hi Hk Hg.
  destruct (proj1 (alike_gives (fun w v => w = v /\ I w) evs b b w w r (conj eq_refl Hi) Hk) w' Hg)
    as (v & _ & _ & Hv). exact Hv.
Qed.

(** The calls do not depend on the world: they are those of a program without state. *)
Lemma alike_stateless {W} evs (b : once W) w p r :
  Alike (fun _ (_ : unit) => True) (snd (b w)) (map stateless_op p) ->
  ((exists w', GivesIn evs b w r w') <-> Gives evs p r).
Proof.
  intros Hp.
  destruct (alike_gives (fun _ _ => True) evs b (stateless p) w tt r I Hp) as [H1 H2]. split.
  - intros (w' & Hg). destruct (H1 w' Hg) as (v' & Hv & _). by apply stateless_gives in Hv as [? _].
  - intros Hg. destruct (H2 tt) as (w' & Hw & _); [by apply stateless_gives|eauto].
Qed.

(** Every program is like itself. *)
Lemma alike_refl_content {W} (c : wcontent W) : AlikeContent eq c c.
Proof. induction c; constructor; try (intros ? ? ? ->; done); done. Qed.
Lemma alike_refl_op {W} : forall o : wop W, AlikeOp eq o o.
Proof.
  fix IH 1. intros o. destruct o; constructor; try apply alike_refl_content; try (intros ? ? ? ->; done).
  all: try (induction p as [|o' q IHq]; constructor; [apply IH|done]).
  all: try (intros k); constructor; try (intros ? v -> || intros k ? v ->); try done.
  all: try (destruct (b k v) as [u q]; cbn; induction q as [|o' q IHq]; constructor; [apply IH|done]).
  all: try (destruct (b v) as [u q]; cbn; induction q as [|o' q IHq]; constructor; [apply IH|done]).
  all: destruct (it k v) as [u [c|]]; cbn; constructor; constructor; intros ? x ->; [done|];
    destruct (c x) as [y q]; cbn; induction q as [|o' q IHq]; constructor; [apply IH|done].
Qed.
Lemma alike_refl {W} (p : wpipeline W) : Alike eq p p.
Proof. induction p; constructor; [apply alike_refl_op|done]. Qed.
