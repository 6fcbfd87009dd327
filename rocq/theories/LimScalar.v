(** One variable between bounds, pushed along one coefficient of an equation. *)
From Coq Require Import Reals Lra.
Set Implicit Arguments.
Open Scope R_scope.

Definition cl (l h x : R) : R := if Rle_dec x l then l else if Rle_dec h x then h else x.
Definition fl (l h x : R) : R := if Rle_dec x l then -1 else if Rle_dec h x then 1 else 0.
(** coefficient left by the saturation, e the error *)
Definition coef (l h x a e : R) : R := if Rlt_dec (fl l h x * (a * e)) 0 then 0 else a.

Lemma cl_in l h x : l <= h -> l <= cl l h x <= h.
Proof. intros. unfold cl. repeat destruct Rle_dec; lra. Qed.
Lemma cl_id l h x : l <= x <= h -> cl l h x = x.
Proof. intros. unfold cl. repeat destruct Rle_dec; lra. Qed.
Section S.
Variables (l h x a e c : R).
Hypotheses (Hlh : l < h) (Hx : l <= x <= h) (Hc : 0 < c).
Let a' := coef l h x a e.
Let d := - (e * c) * a'.
Let x' := cl l h (x + d).
Lemma cl_between : (x' - x) * (x + d - x') >= 0.
Proof. unfold x', cl. repeat destruct Rle_dec; nra. Qed.
Lemma step_bounds : - (c * (a' * a') * (e * e)) <= a * (x' - x) * e <= 0.
Proof.
pose proof cl_between as B. unfold d in *.
assert (Ha : a' = 0 \/ a' = a) by (unfold a', coef; destruct Rlt_dec; auto).
destruct Ha as [Ha|Ha]; rewrite Ha in *.
- assert (x' = x) by nra. rewrite H. split; ring_simplify; lra.
- assert (Hd : a * d * e = - (c * (a * a) * (e * e))) by (unfold d; rewrite Ha; ring).
  unfold d in Hd; rewrite Ha in Hd.
  set (u := x' - x) in *. set (v := x + - (e * c) * a - x') in *.
  assert (Huv : u + v = - (e * c) * a) by (unfold u, v; ring).
  assert (Hn : 0 <= c * (a * a) * (e * e)) by (apply Rmult_le_pos; [apply Rmult_le_pos; [lra|nra]|nra]).
  (* u and v have the same sign and sum to -(e c) a *)
  destruct (Rle_lt_dec 0 u) as [Hu|Hu].
  + destruct (Req_dec u 0) as [H0|H0].
    * replace (a * u * e) with 0 by (rewrite H0; ring). lra.
    * assert (0 <= v) by nra. assert (0 <= - (e * a)) by (apply Rmult_le_reg_l with c; [lra|]; nra).
      split; [|nra].
      assert (HH : a * e * u >= a * e * (u + v)) by nra. rewrite Huv in HH. nra.
  + assert (v <= 0) by nra. assert (0 <= e * a) by (apply Rmult_le_reg_l with c; [lra|]; nra).
    split; [|nra].
    assert (HH : a * e * u >= a * e * (u + v)) by nra. rewrite Huv in HH. nra.
Qed.
Lemma step_blocked : fl l h x * (a * e) < 0 -> a' = 0 /\ x' = x.
Proof.
intros H. assert (Ha : a' = 0) by (unfold a', coef; destruct Rlt_dec; [reflexivity|contradiction]).
split; auto. unfold x', d. rewrite Ha. rewrite Rmult_0_r, Rplus_0_r. apply cl_id. lra.
Qed.
Lemma step_hit : x' <> x + d -> a' <> 0 /\ fl l h x' * (a * e) < 0.
Proof.
intros H. assert (Hd0 : d <> 0). { intros E. apply H. unfold x'. rewrite E, Rplus_0_r. apply cl_id; lra. }
assert (Ha0 : a' <> 0). { intros E. apply Hd0. unfold d. rewrite E. ring. }
split; auto. assert (Ha : a' = a) by (unfold a', coef in *; destruct Rlt_dec; [congruence|auto]).
assert (Hs : d * (a * e) < 0). { unfold d in *. rewrite Ha in *. assert (a * e <> 0) by (intros E; apply Hd0; replace (- (e * c) * a) with (- c * (a * e)) by ring; rewrite E; ring).
  replace (- (e * c) * a * (a * e)) with (- (c * ((a * e) * (a * e)))) by ring. assert (0 < (a * e) * (a * e)) by nra. nra. }
unfold x' in *. unfold cl in *. destruct (Rle_dec (x + d) l) as [L|L].
- assert (d < 0) by lra. unfold fl. destruct (Rle_dec l l); [|lra]. nra.
- destruct (Rle_dec h (x + d)) as [U|U]; [|lra]. assert (0 < d) by lra. unfold fl.
  destruct (Rle_dec h l); [lra|]. destruct (Rle_dec h h); [|lra]. nra.
Qed.
Lemma step_strict : a' <> 0 -> e <> 0 -> a * (x' - x) * e < 0.
Proof.
intros Ha0 He. pose proof step_bounds as [_ B]. pose proof cl_between as C.
assert (Ha : a' = a) by (unfold a', coef in *; destruct Rlt_dec; [congruence|auto]).
assert (Hd : d <> 0) by (unfold d; rewrite Ha in *; intros E; apply Rmult_integral in E; destruct E as [E|E]; [|congruence]; apply He; nra).
assert (Hne : a <> 0) by congruence.
assert (Hx' : x' <> x).
{ intros E. assert (Hxd : x' <> x + d) by lra. destruct (step_hit Hxd) as [_ Hf]. rewrite E in Hf.
  unfold a', coef in Ha0. destruct Rlt_dec; congruence. }
destruct (Rle_lt_or_eq_dec _ _ B) as [|E]; auto. exfalso.
apply Rmult_integral in E. destruct E as [E|E]; [|congruence]. apply Rmult_integral in E. destruct E as [E|E]; [congruence|]. lra.
Qed.
Lemma same_side e' : 0 < e * e' -> fl l h x * (a * e) < 0 -> fl l h x * (a * e') < 0.
Proof.
intros H1 H2. assert (H : (fl l h x * a) * e < 0) by lra. assert (G : (fl l h x * a) * e' < 0); [|lra].
set (z := fl l h x * a) in *. destruct (Rle_lt_dec e 0); destruct (Rle_lt_dec e' 0); nra.
Qed.
(** a blocked variable: every value within the bounds increases the error *)
Lemma blocked_best y : l <= y <= h -> a' = 0 -> 0 <= a * (y - x) * e.
Proof.
intros Hy Ha. unfold a', coef, fl in Ha. destruct Rlt_dec as [H|H]; [|rewrite Ha; lra].
destruct (Rle_dec x l).
- assert (x = l) by lra. assert (0 < a * e) by lra. nra.
- destruct (Rle_dec h x); [|lra]. assert (x = h) by lra. nra.
Qed.
End S.
