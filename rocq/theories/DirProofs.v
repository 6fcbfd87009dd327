From Coq Require Import ZArith List Bool Lia.
From Verif Require Import SegSpec SegModel SegProofs ViewModel ViewProofs EcsModel EcsJacProofs BySubModel.
Import ListNotations.
Local Open Scope Z_scope.

Lemma seg_inb_inside m l : forallb (seg_inb m) l = true <-> forall s, In s l -> 0 <= fst s /\ 0 <= snd s /\ fst s + snd s <= m.
Proof.
  rewrite forallb_forall. split; intros H s Hs; specialize (H s Hs); unfold seg_inb, send in *; lia.
Qed.

Section Dir.
Context {V : Type}.
Variables (zero : V) (scale : V -> V) (m : Z).
Hypothesis SZ : scale zero = zero.
Notation dir := (dir (V := V)).
Notation dop := (dop (V := V)).

Lemma inb_nonneg k l : forallb (seg_inb k) l = true -> nonneg l.
Proof. intros H s Hs. apply (proj1 (seg_inb_inside k l) H s Hs). Qed.
Lemma dstep_frame (d d' : dir) o : (forall i, ~ covers (fv d) i -> dq d i = zero) -> dstep zero scale m d o = Some d' ->
  forall i, ~ covers (fv d') i -> dq d' i = zero.
Proof.
  intros H E i Hi. destruct o; cbn in E; try (injection E as <-; cbn in *; reflexivity).
  - destruct (forallb (seg_inb (dsz d)) (fv d)) eqn:Eb; [|discriminate]. destruct (vwrite (dq d) (fv d) small) as [q|] eqn:Eq; [|discriminate].
    injection E as <-. cbn in *. rewrite (vwrite_frame _ _ _ _ (inb_nonneg _ _ Eb) Eq) by exact Hi. apply H, Hi.
  - injection E as <-. cbn in *. rewrite H by exact Hi. exact SZ.
Qed.

(** operations that size the direction *)
Definition sizes (o : dop) : bool := match o with DUpdate | DFree _ | DFreeRaw _ => true | _ => false end.

Lemma drun_app (d : dir) l1 : forall l2, drun zero scale m d (l1 ++ l2) =
  match drun zero scale m d l1 with Some d' => drun zero scale m d' l2 | None => None end.
Proof. revert d. induction l1 as [|o l1 IH]; intros d l2; [reflexivity|]. cbn. destruct (dstep zero scale m d o); [apply IH|reflexivity]. Qed.
Lemma dstep_size (d d' : dir) o : dstep zero scale m d o = Some d' -> dsz d' = if sizes o then m else dsz d.
Proof.
  destruct o; cbn; intros E; try (injection E as <-; reflexivity).
  destruct (forallb _ _); [|discriminate]. destruct (vwrite _ _ _); [|discriminate]. injection E as <-. reflexivity.
Qed.
Lemma drun_spec l : forall d d' : dir, (forall i, ~ covers (fv d) i -> dq d i = zero) -> drun zero scale m d l = Some d' ->
  (forall i, ~ covers (fv d') i -> dq d' i = zero) /\ dsz d' = if existsb sizes l then m else dsz d.
Proof.
  induction l as [|o l IH]; intros d d' H E; cbn in E.
  - injection E as <-. auto.
  - destruct (dstep zero scale m d o) as [d1|] eqn:E1; [|discriminate].
    destruct (IH d1 d' (dstep_frame _ _ _ H E1) E) as [A B]. split; [exact A|]. cbn. rewrite B, (dstep_size _ _ _ E1).
    destruct (sizes o), (existsb sizes l); reflexivity.
Qed.

Lemma direction_zero (l : list dop) (d : dir) : drun zero scale m (dir_init zero m) l = Some d ->
  (forall i, ~ covers (fv d) i -> dq d i = zero) /\
  (existsb sizes l = true -> dsz d = m) /\ (existsb sizes l = false -> dsz d = 0).
Proof.
  intros E. destruct (drun_spec l (dir_init zero m) d) as [A B]; [reflexivity|exact E|].
  split; [exact A|]. split; intros H; rewrite H in B; exact B.
Qed.

(** free variables set by intervals are exactly those intervals, whatever their order *)
Lemma free_set (d : dir) l d' : nonneg l -> dstep zero scale m d (DFree l) = Some d' ->
  (forall i, covers (fv d') i <-> covers l i) /\ NoDup (indices (fv d')) /\ dsz d' = m /\ forall i, dq d' i = zero.
Proof.
  intros N E. cbn in E. injection E as <-. cbn. destruct (normalise_all l N) as (A & B & C & _).
  split; [exact A|]. split; [apply sep_NoDup; assumption|]. auto.
Qed.

Lemma expand_spec (d : dir) (small : list V) : forallb (seg_inb (dsz d)) (fv d) = true -> NoDup (indices (fv d)) ->
  (forall d', dstep zero scale m d (DExpand small) = Some d' ->
     length small = length (indices (fv d)) /\ fv d' = fv d /\ dsz d' = dsz d /\ map (dq d') (indices (fv d)) = small /\
     forall i, ~ covers (fv d) i -> dq d' i = dq d i) /\
  (length small = length (indices (fv d)) -> dstep zero scale m d (DExpand small) <> None).
Proof.
  intros Eb ND. pose proof (inb_nonneg _ _ Eb) as N.
  assert (G : length small = length (indices (fv d)) -> exists w, vwrite (dq d) (fv d) small = Some w /\ vread w (fv d) = small /\
    (forall i, ~ covers (fv d) i -> w i = dq d i)).
  { intros L. apply vwrite_spec; [exact N|exact ND|]. rewrite cardinal_indices by exact N. lia. }
  split.
  - intros d' E. cbn in E. rewrite Eb in E. destruct (vwrite (dq d) (fv d) small) as [q|] eqn:Eq; [|discriminate]. injection E as <-.
    pose proof (vwrite_length _ _ _ _ N Eq) as L. rewrite cardinal_indices in L by exact N.
    destruct G as (w & W1 & W2 & W3); [lia|]. injection W1 as ->. cbn. rewrite vread_indices in W2.
    split; [lia|]. auto.
  - intros L. destruct (G L) as (w & W1 & _). cbn. rewrite Eb, W1. discriminate.
Qed.
End Dir.
