(** Properties C55 and C56: symbolic expressions. *)
From Coq Require Import Reals List Bool.
From Verif Require Import Geo SymModel SymSpec SymMain SymCases SymExamples SymFun.
Import ListNotations.
Local Open Scope R_scope.

(** C55: the Jacobian read is the derivative of the denoted vector. *)
Theorem C55_derivative : forall roots Q r e ops q0 g,
  consistent roots -> safe roots -> transposed roots -> history roots (Q 0) r ops -> sub e r ->
  motion Q ->
  vderiv (fun t => meaning (Q t) e) 0
    (jac (snd (run (ops ++ [Jacobian e]) (q0, constructed roots g)) (addr e))).
Proof. exact jacobian_derivative. Qed.
Print Assumptions C55_derivative.

(** [SymbolicFunction]: value and Jacobian, whatever was evaluated before. *)
Theorem C55_function_value : forall roots before q0 g q e, consistent roots -> safe roots -> Forall (uses roots) before -> In e roots ->
  fst (symbolic_value q e (run before (q0, constructed roots g))) = meaning q e.
Proof. exact symbolic_value_right. Qed.
Print Assumptions C55_function_value.

Theorem C55_function_jacobian : forall roots before q0 g Q e, consistent roots -> safe roots -> transposed roots -> Forall (uses roots) before -> In e roots -> motion Q ->
  vderiv (fun t => fst (symbolic_value (Q t) e (run before (q0, constructed roots g)))) 0
    (fst (symbolic_jacobian (Q 0) e (run before (q0, constructed roots g)))).
Proof. exact symbolic_jacobian_right. Qed.
Print Assumptions C55_function_jacobian.

(** [ComBetweenFeet]: value and Jacobian, whatever was evaluated before. *)
Theorem C55_com_between_feet_value : forall jl jr jref pl pr pref before q0 g,
  Forall (uses (cbf_roots jl jr jref pl pr)) before -> forall mask q,
  fst (cbf_compute jl jr jref pl pr pref mask q
         (run before (q0, constructed (cbf_roots jl jr jref pl pr) g)))
  = selected mask (cbf_rows jl jr jref pl pr pref q).
Proof. exact cbf_value. Qed.
Print Assumptions C55_com_between_feet_value.

Theorem C55_com_between_feet_jacobian : forall jl jr jref pl pr pref before q0 g,
  Forall (uses (cbf_roots jl jr jref pl pr)) before -> forall mask Q i d, motion Q ->
  let s := run before (q0, constructed (cbf_roots jl jr jref pl pr) g) in
  nth_error (fst (cbf_jacobian jl jr jref pl pr mask (Q 0) s)) i = Some d ->
  deriv (fun t => nth i (fst (cbf_compute jl jr jref pl pr pref mask (Q t) s)) 0) 0 d.
Proof. exact cbf_derivative. Qed.
Print Assumptions C55_com_between_feet_jacobian.

(** The Jacobian of the product by a rotation is wrong. *)
Theorem C55_rotation_refuted : exists Q e ops q0 g,
  consistent [e] /\ safe [e] /\ motion Q /\ history [e] (Q 0) e ops /\
  ~ vderiv (fun t => meaning (Q t) e) 0
      (jac (snd (run (ops ++ [Jacobian e]) (q0, constructed [e] g)) (addr e))).
Proof. exact rotation_refuted. Qed.
Print Assumptions C55_rotation_refuted.

(** So is that of a vector product with a point attached to a joint. *)
Theorem C55_point_refuted : exists Q e ops q0 g,
  consistent [e] /\ transposed [e] /\ motion Q /\ history [e] (Q 0) e ops /\
  ~ vderiv (fun t => meaning (Q t) e) 0
      (jac (snd (run (ops ++ [Jacobian e]) (q0, constructed [e] g)) (addr e))).
Proof. exact point_jacobian_refuted. Qed.
Print Assumptions C55_point_refuted.

(** The hypotheses on motions can be met. *)
Theorem C55_case : forall p, motion (spin p).
Proof. exact spin_motion. Qed.
Print Assumptions C55_case.

(** C56: after the invalidation of [r] what is read from its objects is up to date. *)
Theorem C56_value : forall roots, consistent roots -> safe roots ->
  forall q r e ops q0 g, history roots q r ops -> sub e r ->
  val (snd (run (ops ++ [Value e]) (q0, constructed roots g)) (addr e)) = meaning q e.
Proof. exact fresh_value. Qed.
Print Assumptions C56_value.

Theorem C56_cross : forall roots, consistent roots -> safe roots ->
  forall q r e ops q0 g, history roots q r ops -> sub e r -> crossable e ->
  crs (snd (run (ops ++ [CrossValue e]) (q0, constructed roots g)) (addr e))
  = cross_matrix (meaning q e).
Proof. exact fresh_cross. Qed.
Print Assumptions C56_cross.

(** Jacobians depend only on the current state of the robot. *)
Theorem C56_jacobian : forall roots q r e ops q0 g ops' q0' g',
  consistent roots -> safe roots -> history roots q r ops -> history roots q r ops' -> sub e r ->
  jac (snd (run (ops ++ [Jacobian e]) (q0, constructed roots g)) (addr e)) =
  jac (snd (run (ops' ++ [Jacobian e]) (q0', constructed roots g')) (addr e)).
Proof. exact jacobian_history. Qed.
Print Assumptions C56_jacobian.

(** With a point attached to a joint as operand of a vector product, evaluating
    the Jacobian changes the value computed next. *)
Theorem C56_point_refuted : exists q e ops ops' q0 g,
  consistent [e] /\ history [e] q e ops /\ history [e] q e ops' /\
  val (snd (run (ops ++ [Value e]) (q0, constructed [e] g)) (addr e)) = meaning q e /\
  val (snd (run (ops' ++ [Value e]) (q0, constructed [e] g)) (addr e)) <> meaning q e.
Proof. exact point_value_refuted. Qed.
Print Assumptions C56_point_refuted.

(** With the center of mass as operand the value depends on uninitialised memory. *)
Theorem C56_com_refuted : forall q, exists e ops q0 g g',
  consistent [e] /\ history [e] q e ops /\
  val (snd (run (ops ++ [Value e]) (q0, constructed [e] g)) (addr e)) <>
  val (snd (run (ops ++ [Value e]) (q0, constructed [e] g')) (addr e)).
Proof. exact com_value_refuted. Qed.
Print Assumptions C56_com_refuted.

(** Before the first invalidation the value may be wrong. *)
Theorem C56_uninitialised_refuted : exists roots e q g,
  consistent roots /\ safe roots /\ among roots e /\
  val (snd (run [Move q; Value e] (q, constructed roots g)) (addr e)) <> meaning q e.
Proof. exact uninitialised_refuted. Qed.
Print Assumptions C56_uninitialised_refuted.

(** Invalidating an expression does not invalidate another one sharing an object. *)
Theorem C56_stale_refuted : exists roots e f q q' g,
  consistent roots /\ safe roots /\ among roots e /\ among roots f /\
  (exists s, sub s e /\ sub s f) /\
  let ops := [Move q; Invalidate e; Invalidate f; Value e; Value f; Move q'; Invalidate f] in
  val (snd (run (ops ++ [Value f]) (q, constructed roots g)) (addr f)) = meaning q' f /\
  val (snd (run (ops ++ [Value e]) (q, constructed roots g)) (addr e)) <> meaning q' e.
Proof. exact stale_refuted. Qed.
Print Assumptions C56_stale_refuted.

Theorem C56_case : forall g,
  consistent (cbf_roots 0 1 2 ex ex) /\ safe (cbf_roots 0 1 2 ex ex) /\
  transposed (cbf_roots 0 1 2 ex ex) /\
  history (cbf_roots 0 1 2 ex ex) quarter (cbf_expr 0 1 2 ex ex)
    [Move idq; Invalidate (cbf_xmxlDotu 0 1 ex ex); Jacobian (cbf_xmxlDotu 0 1 ex ex);
     Move quarter; Value (cbf_xmxlDotu 0 1 ex ex); Invalidate (cbf_expr 0 1 2 ex ex);
     Jacobian (cbf_expr 0 1 2 ex ex)] /\
  val (snd (run ([Move idq; Invalidate (cbf_xmxlDotu 0 1 ex ex); Jacobian (cbf_xmxlDotu 0 1 ex ex);
     Move quarter; Value (cbf_xmxlDotu 0 1 ex ex); Invalidate (cbf_expr 0 1 2 ex ex);
     Jacobian (cbf_expr 0 1 2 ex ex)] ++ [Value (cbf_left 0 ex)])
     (idq, constructed (cbf_roots 0 1 2 ex ex) g)) (addr (cbf_left 0 ex))) = V3 0 1 0.
Proof. exact case_value. Qed.
Print Assumptions C56_case.
