(** Union of two sets of functions. *)
From Coq Require Import ZArith List Bool Lia.
From Verif Require Import ViewModel FunModel FunSpec FunProofs.
Import ListNotations.

Lemma set_adds_app {A} (l m : list (fn A)) : forall s, set_adds s (l ++ m) = match set_adds s l with Some s' => set_adds s' m | None => None end.
Proof. induction l as [|f l IH]; intros s; cbn; [reflexivity|]. destruct (set_add s f); [apply IH|reflexivity]. Qed.
Lemma set_merge_spec {A} (fs gs : list (fn A)) : Forall wf_fn fs -> Forall wf_fn gs -> (forall f g, In f (fs ++ gs) -> In g (fs ++ gs) -> same_input f g) ->
  exists s o r, set_adds set_new fs = Some s /\ set_adds set_new gs = Some o /\ set_merge s o = Some r /\ set_adds set_new (fs ++ gs) = Some r /\ s_fs r = fs ++ gs.
Proof.
  intros Wf Wg SI.
  destruct (set_spec fs Wf) as (s & Es & _); [intros; apply SI; apply in_or_app; auto|].
  destruct (set_spec gs Wg) as (o & Eo & Fo & _); [intros; apply SI; apply in_or_app; auto|].
  destruct (set_spec (fs ++ gs)) as (r & Er & Fr & _); [apply Forall_app; auto|exact SI|].
  exists s, o, r. repeat split; auto. unfold set_merge. rewrite Fo. rewrite set_adds_app, Es in Er. exact Er.
Qed.
