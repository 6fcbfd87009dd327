(** Functions given by an expression. *)
From Coq Require Import Reals List Bool.
From Verif Require Import Geo GeoLemmas SymModel SymSpec SymMain SymCases.
Import ListNotations.
Local Open Scope R_scope.

Lemma call_history roots before q e : Forall (uses roots) before -> In e roots -> history roots q e (before ++ [Move q; Invalidate e]).
Proof.
  intros U I. exists before, [], []. split; [reflexivity|]. split; [|constructor].
  apply Forall_app. split; [exact U|]. repeat constructor. exists e. split; [exact I|constructor].
Qed.
Lemma symbolic_value_right roots before q0 g q e : consistent roots -> safe roots -> Forall (uses roots) before -> In e roots ->
  fst (symbolic_value q e (run before (q0, constructed roots g))) = meaning q e.
Proof.
  intros C S U I. unfold symbolic_value. cbn [fst].
  rewrite <- (fresh_value roots C S q e e (before ++ [Move q; Invalidate e]) q0 g (call_history _ _ _ _ U I) (sub_refl e)).
  unfold run. rewrite <- fold_left_app, <- app_assoc. reflexivity.
Qed.
Lemma symbolic_jacobian_right roots before q0 g Q e : consistent roots -> safe roots -> transposed roots -> Forall (uses roots) before -> In e roots -> motion Q ->
  vderiv (fun t => fst (symbolic_value (Q t) e (run before (q0, constructed roots g)))) 0
    (fst (symbolic_jacobian (Q 0) e (run before (q0, constructed roots g)))).
Proof.
  intros C S T U I M.
  assert (D := jacobian_derivative roots Q e e (before ++ [Move (Q 0); Invalidate e]) q0 g C S T (call_history _ _ _ _ U I) (sub_refl e) M).
  unfold symbolic_jacobian. cbn [fst]. unfold run in D |- *. rewrite <- !fold_left_app. rewrite <- app_assoc in D.
  eapply vderiv_ext; [|exact D]. intros t. cbv beta. symmetry. now apply (symbolic_value_right roots before q0 g).
Qed.
