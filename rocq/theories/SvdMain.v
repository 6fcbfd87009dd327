(** Descent directions over the reals always exist. *)
From Coq Require Import Reals Epsilon.
From mathcomp Require Import all_ssreflect all_algebra.
From Verif Require Import RField RReal DescentModel DescentExamples AffModel SvdExist.
Set Implicit Arguments. Unset Strict Implicit. Unset Printing Implicit Defensive.
Import GRing.Theory Num.Theory.
Open Scope ring_scope.

Lemma defined n lbl (thr : FR) (ls : seq (level FR n * nat)) stale : exists r mrs ok, direction lbl thr ls stale r mrs ok.
Proof. exact: total (@svd_exists) stale. Qed.
Lemma descends_exists n (thr : FR) (ls : seq (level FR n)) : exists r, descends thr ls r.
Proof.
have [r [mrs [ok h]]] := defined false thr [seq (l, 0%N) | l <- ls] 0.
exists r; apply: desc_many h; by rewrite -map_comp -[LHS]map_id.
Qed.
Lemma descent_function n (thr : FR) (St X : Type) (lv : X -> seq (level FR n)) :
  exists descent : St -> X -> 'cV[FR]_n * St, forall s x, descends thr (lv x) (descent s x).1.
Proof.
exists (fun s x => (epsilon (inhabits (0 : 'cV[FR]_n)) (descends thr (lv x)), s)) => s x.
by apply: epsilon_spec; exact: descends_exists.
Qed.
