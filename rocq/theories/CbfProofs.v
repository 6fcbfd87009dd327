From Coq Require Import Reals List Bool Arith Lia Lra Psatz.
From Verif Require Import Geo GeoLemmas SymModel SymSpec SymMain SymCases SymExamples CbfModel CbfSpec.
Import ListNotations.
Local Open Scope R_scope.

Ltac vring := apply v3_eq; gcbn; ring.

Lemma vdot_self u : vdot u u = 0 -> u = v0.
Proof. destruct u as [a b c]. unfold vdot; cbn. intros H. apply v3_eq; cbn; nra. Qed.
Lemma vdot_pos u : u <> v0 -> 0 < vdot u u.
Proof.
  intros N. assert (0 <= vdot u u) by (unfold vdot; nra). destruct (Req_dec (vdot u u) 0) as [E|E]; [elim N; now apply vdot_self|lra].
Qed.
Lemma axis_unit q j : rotation (jR q j) -> vdot (axis q j) (axis q j) = 1.
Proof.
  intros H. assert (E := rotation_inv _ (V3 0 0 1) H). apply (f_equal vz) in E. change (vz (V3 0 0 1)) with 1 in E.
  transitivity (vz (mulv (mtr (jR q j)) (mulv (jR q j) (V3 0 0 1)))); [unfold axis; gcbn; ring|exact E].
Qed.
Lemma row1 m w : vz (mulv (mtr m) w) = vdot (mulv m (V3 0 0 1)) w.
Proof. gcbn; ring. Qed.

(** a vector without component along [z] nor along [u x z] is along [u] *)
Lemma parallel z u d : vdot z z = 1 -> vdot u z = 0 -> vdot z (vcross d u) = 0 ->
  vscale (vdot u u) d = vadd (vscale (vdot d u) u) (vscale (vdot u u * vdot d z) z).
Proof.
  intros Z U D. set (p := vsub d (vscale (vdot d z) z)).
  assert (Pz : vdot z p = 0).
  { unfold p. replace (vdot z (vsub d (vscale (vdot d z) z))) with (vdot d z * (1 - vdot z z)) by (gcbn; ring). rewrite Z; ring. }
  assert (Pc : vdot z (vcross p u) = 0).
  { unfold p. replace (vdot z (vcross (vsub d (vscale (vdot d z) z)) u)) with (vdot z (vcross d u)) by (gcbn; ring). exact D. }
  assert (C : vcross p u = v0).
  { assert (E : vscale (vdot z z) (vcross p u) = vsub (vscale (vdot z (vcross p u)) z) (vcross z (vsub (vscale (vdot u z) p) (vscale (vdot z p) u)))) by (vring).
    rewrite Z, U, Pz, Pc in E. transitivity (vscale 1 (vcross p u)); [vring|]. rewrite E. vring. }
  assert (E : vscale (vdot u u) p = vadd (vscale (vdot p u) u) (vcross u (vcross p u))) by (vring).
  rewrite C in E.
  assert (Du : vdot p u = vdot d u).
  { unfold p. replace (vdot (vsub d (vscale (vdot d z) z)) u) with (vdot d u - vdot d z * vdot u z) by (gcbn; ring). rewrite U; ring. }
  rewrite Du in E. transitivity (vadd (vscale (vdot u u) p) (vscale (vdot u u * vdot d z) z)); [unfold p; vring|]. rewrite E. vring.
Qed.

Lemma strip z l r c : vdot z z = 1 -> vdot (vsub r l) z = 0 -> vsub r l <> v0 ->
  (vdot z (vcross (vsub c (vscale (1/2) (vadd r l))) (vsub r l)) = 0 /\ 0 <= vdot (vsub c l) (vsub r l) /\ vdot (vsub c r) (vsub r l) <= 0) <->
  on_strip z l r c.
Proof.
  intros Z U N. set (u := vsub r l) in *. assert (P := vdot_pos u N).
  assert (E1 : vdot z (vcross (vsub c (vscale (1/2) (vadd r l))) u) = vdot z (vcross (vsub c l) u)) by (unfold u; gcbn; field).
  assert (E2 : vdot (vsub c r) u = vdot (vsub c l) u - vdot u u) by (unfold u; gcbn; ring).
  rewrite E1, E2. split.
  - intros (A & B & C). exists (vdot (vsub c l) u / vdot u u), (vdot (vsub c l) z). split.
    { split; [apply Rmult_le_pos; [exact B|left; now apply Rinv_0_lt_compat]|].
      apply (Rmult_le_reg_r (vdot u u)); [exact P|]. unfold Rdiv. rewrite Rmult_assoc, Rinv_l; lra. }
    assert (E := parallel z u (vsub c l) Z U A).
    assert (F : vsub c l = vadd (vscale (vdot (vsub c l) u / vdot u u) u) (vscale (vdot (vsub c l) z) z)).
    { transitivity (vscale (/ vdot u u) (vscale (vdot u u) (vsub c l))).
      - apply v3_eq; cbn -[vdot]; field; lra.
      - rewrite E. apply v3_eq; cbn -[vdot]; field; lra. }
    transitivity (vadd l (vsub c l)); [vring|]. rewrite F at 1. unfold u. apply v3_eq; cbn -[vdot]; ring.
  - intros (s & h & S & E).
    assert (F : vsub c l = vadd (vscale s u) (vscale h z)) by (rewrite E; unfold u; vring).
    rewrite F.
    assert (G : vdot (vadd (vscale s u) (vscale h z)) u = s * vdot u u + h * vdot u z) by (gcbn; ring).
    rewrite G, U. split; [gcbn; ring|]. split; nra.
Qed.

Lemma put_rows_spec v old : (length v <= length old)%nat -> put_rows v old = Some (v ++ skipn (length v) old).
Proof. intros H. unfold put_rows. now rewrite (proj2 (Nat.leb_le _ _) H). Qed.
Lemma put_rows_exact v old : length v = length old -> put_rows v old = Some v.
Proof. intros H. rewrite put_rows_spec, H, skipn_all, app_nil_r by lia. reflexivity. Qed.
Lemma selected_length {A} b0 b1 b2 b3 (w x y z : A) : length (selected (b0, b1, b2, b3) [w; x; y; z]) = feet_size [b0; b1; b2; b3].
Proof. destruct b0, b1, b2, b3; reflexivity. Qed.

Section Feet.
Variables (jl jr jref : nat) (pl pr pref : v3).
Notation rows := (feet_rows jl jr jref pl pr pref).
Notation called := (called jl jr jref pl pr).

Lemma rowsE q : cbf_rows jl jr jref pl pr pref q = rows q.
Proof. unfold cbf_rows, feet_rows, axis, at_joint. cbv zeta. rewrite row1. reflexivity. Qed.
Lemma computeE s m q : called s -> fst (cbf_compute jl jr jref pl pr pref m q s) = selected m (rows q).
Proof. intros (before & q0 & g & Hb & ->). rewrite (cbf_value jl jr jref pl pr pref before q0 g Hb). now rewrite rowsE. Qed.

Lemma feet_value_spec s b0 b1 b2 b3 more q result : called s -> (feet_size [b0; b1; b2; b3] <= length result)%nat ->
  feet_value jl jr jref pl pr pref (b0 :: b1 :: b2 :: b3 :: more) q s result =
  Some (kept [b0; b1; b2; b3] (rows q) ++ skipn (feet_size [b0; b1; b2; b3]) result).
Proof.
  intros C H. unfold feet_value; cbn [mask4]. rewrite computeE by exact C.
  assert (L : length (selected (b0, b1, b2, b3) (rows q)) = feet_size [b0; b1; b2; b3]) by apply selected_length.
  rewrite put_rows_spec by lia. rewrite L. reflexivity.
Qed.
Lemma feet_value_exact s mask q result : called s -> length mask = 4%nat -> length result = feet_size mask ->
  feet_value jl jr jref pl pr pref mask q s result = Some (kept mask (rows q)).
Proof.
  intros C M H. destruct mask as [|b0 [|b1 [|b2 [|b3 [|]]]]]; try discriminate.
  rewrite feet_value_spec by (auto; lia). now rewrite <- H, skipn_all, app_nil_r.
Qed.
Lemma feet_between s q result r0 r1 r2 r3 : called s -> length result = 4%nat -> rotation (jR q jref) ->
  let l := at_joint q jl pl in let r := at_joint q jr pr in l <> r -> vdot (vsub r l) (axis q jref) = 0 ->
  feet_value jl jr jref pl pr pref [true; true; true; true] q s result = Some [r0; r1; r2; r3] ->
  (r1 = 0 /\ 0 <= r2 /\ r3 <= 0 <-> on_strip (axis q jref) l r (com q)).
Proof.
  intros C H Ro l r N U. rewrite feet_value_exact by auto. unfold feet_rows. cbv zeta. intros E. injection E as _ <- <- <-.
  apply strip; [now apply axis_unit|exact U|]. intros Z. apply N.
  transitivity (vsub r (vsub r l)); [|rewrite Z]; vring.
Qed.

Definition column m q s := fst (cbf_jacobian jl jr jref pl pr m q s).
Lemma column_length b0 b1 b2 b3 q s : called s -> length (column (b0, b1, b2, b3) q s) = feet_size [b0; b1; b2; b3].
Proof. intros (before & q0 & g & Hb & ->). unfold column. rewrite (cbf_jacobianE jl jr jref pl pr before q0 g Hb). apply selected_length. Qed.
Local Opaque cbf_jacobian cbf_compute.
Lemma put_columns_spec b0 b1 b2 b3 cols : forall J, Forall (fun c => called (snd c)) cols -> (length cols <= length J)%nat ->
  Forall (fun c => length c = feet_size [b0; b1; b2; b3]) J ->
  put_columns jl jr jref pl pr (b0, b1, b2, b3) cols J = Some (map (fun c => column (b0, b1, b2, b3) (fst c) (snd c)) cols ++ skipn (length cols) J).
Proof.
  induction cols as [|[q s] cols IH]; intros J C L F; [reflexivity|].
  destruct J as [|c J]; [cbn in L; lia|]. inversion C; subst; inversion F; subst. cbn [put_columns length map skipn app fst snd].
  fold (column (b0, b1, b2, b3) q s). rewrite put_rows_exact by (rewrite column_length; auto).
  rewrite IH by (auto; cbn in L; lia). reflexivity.
Qed.
Lemma feet_jacobian_spec mask cols J : length mask = 4%nat -> Forall (fun c => called (snd c)) cols -> (length cols <= length J)%nat ->
  Forall (fun c => length c = feet_size mask) J ->
  exists J', feet_jacobian jl jr jref pl pr mask cols J = Some J' /\ length J' = length J /\ Forall (fun c => length c = feet_size mask) J' /\
  skipn (length cols) J' = skipn (length cols) J /\
  forall k q s Q s1 result val i, nth_error cols k = Some (q, s) -> motion Q -> Q 0 = q -> called s1 -> length result = feet_size mask ->
    (forall t, feet_value jl jr jref pl pr pref mask (Q t) s1 result = Some (val t)) -> (i < feet_size mask)%nat ->
    deriv (fun t => nth i (val t) 0) 0 (nth i (nth k J' []) 0).
Proof.
  intros M C L F. assert (V := feet_value_exact). destruct mask as [|b0 [|b1 [|b2 [|b3 [|]]]]]; try discriminate. clear M.
  set (m := (b0, b1, b2, b3)). set (f := fun c : robot * (robot * store) => column m (fst c) (snd c)).
  exists (map f cols ++ skipn (length cols) J).
  assert (Lm : length (map f cols) = length cols) by apply map_length.
  split; [now apply put_columns_spec|]. split; [rewrite app_length, Lm, skipn_length; lia|]. split.
  { apply Forall_app. split; [|rewrite <- (firstn_skipn (length cols) J) in F; now apply Forall_app in F].
    apply Forall_forall. intros x I. apply in_map_iff in I. destruct I as (c & <- & I). rewrite Forall_forall in C. apply column_length, C, I. }
  split; [rewrite skipn_app, Lm, Nat.sub_diag, <- Lm, skipn_all; reflexivity|].
  intros k q s Q s1 result val i N Mo E C1 Lr Hv Hi.
  assert (Cs : called s) by (rewrite Forall_forall in C; apply (C (q, s)); eapply nth_error_In; exact N).
  assert (K : nth k (map f cols ++ skipn (length cols) J) [] = column m q s).
  { rewrite app_nth1 by (rewrite Lm; apply nth_error_Some; congruence).
    apply nth_error_nth. now rewrite (map_nth_error f k cols N). }
  rewrite K.
  assert (Hn : nth_error (column m q s) i = Some (nth i (column m q s) 0)) by (apply nth_error_nth'; unfold m; rewrite column_length; auto).
  destruct Cs as (before & q0 & g & Hb & Es).
  rewrite Es in Hn at 1. unfold column at 1 in Hn. rewrite <- E in Hn at 1.
  apply (deriv_ext (fun t => nth i (fst (cbf_compute jl jr jref pl pr pref m (Q t) s)) 0)).
  - intros t. rewrite computeE by (exists before, q0, g; auto).
    specialize (Hv t). rewrite (V s1 [b0; b1; b2; b3] (Q t) result C1 eq_refl Lr) in Hv. injection Hv as <-. reflexivity.
  - rewrite Es. apply (cbf_derivative jl jr jref pl pr pref before q0 g Hb m Q i); [exact Mo|]. rewrite <- Es. rewrite <- Es in Hn. exact Hn.
Qed.
End Feet.

Lemma feet_short jl jr jref pl pr pref mask q s result cols J : (length mask < 4)%nat ->
  feet_value jl jr jref pl pr pref mask q s result = None /\ feet_jacobian jl jr jref pl pr mask cols J = None.
Proof.
  unfold feet_value, feet_jacobian. destruct mask as [|? [|? [|? [|? mask]]]]; cbn; intros; auto; lia.
Qed.

(** * Examples and refutations: feet at the origins of joints 0 and 1, reference joint 2 *)
Definition stand (r p c : v3) : robot :=
  Robot (fun _ => m1) (fun j => match j with 1%nat => r | 2%nat => p | _ => v0 end) (fun _ => v0) (fun _ => v0) c v0.
Definition blank : robot * store := run [] (idq, constructed (cbf_roots 0 1 2 v0 v0) (fun _ => Cell v0 v0 v0 m0 false false false)).
Lemma blank_called : called 0 1 2 v0 v0 blank.
Proof. exact (ex_intro _ [] (ex_intro _ idq (ex_intro _ _ (conj (Forall_nil _) eq_refl)))). Qed.
Definition full := [true; true; true; true].
Lemma stand_rows r p c pref result : length result = 4%nat ->
  feet_value 0 1 2 v0 v0 pref full (stand r p c) blank result =
  Some [vz c - vz pref; vz (vcross (vsub c (vscale (1/2) r)) r); vdot c r; vdot (vsub c r) r].
Proof.
  intros H. rewrite feet_value_exact; [|exact blank_called|reflexivity|exact H].
  destruct r as [a b d], c as [x y z]. unfold kept, full, feet_rows, at_joint, axis, stand. cbn [combine filter map fst snd jR jp com].
  gcbn. apply (f_equal Some). repeat (apply (f_equal2 cons); [field|]). reflexivity.
Qed.

(** x_ref is not in the frame of the reference joint: that joint may move without any effect *)
Lemma height_wrong : exists q q' pref result v, called 0 1 2 v0 v0 blank /\ length result = 4%nat /\ rotation (jR q 2) /\
  at_joint q 2 pref <> at_joint q' 2 pref /\ com q = com q' /\
  feet_value 0 1 2 v0 v0 pref full q blank result = Some v /\ feet_value 0 1 2 v0 v0 pref full q' blank result = Some v /\
  nth 0 v 0 <> vz (vsub (com q') (at_joint q' 2 pref)).
Proof.
  exists (stand (V3 1 0 0) v0 (V3 0 0 1)), (stand (V3 1 0 0) (V3 0 0 1) (V3 0 0 1)), v0, [0; 0; 0; 0].
  eexists. split; [exact blank_called|]. split; [reflexivity|]. split; [exact rotation_1|]. split.
  { intros E. apply (f_equal vz) in E. revert E. unfold at_joint, stand; cbn [jR jp]. gcbn. lra. }
  split; [reflexivity|]. split; [apply stand_rows; reflexivity|]. split; [apply stand_rows; reflexivity|].
  unfold at_joint, stand; cbn [nth jR jp com]. gcbn. lra.
Qed.

(** feet at different heights: the center of mass is above the segment, the last row is positive *)
Lemma sloped_wrong : exists q result r0 r1 r2 r3, called 0 1 2 v0 v0 blank /\ length result = 4%nat /\ rotation (jR q 2) /\
  at_joint q 0 v0 <> at_joint q 1 v0 /\ on_strip (axis q 2) (at_joint q 0 v0) (at_joint q 1 v0) (com q) /\
  feet_value 0 1 2 v0 v0 v0 full q blank result = Some [r0; r1; r2; r3] /\ r1 = 0 /\ 0 < r2 /\ 0 < r3.
Proof.
  exists (stand (V3 1 0 1) v0 (V3 (1/2) 0 (5/2))), [0; 0; 0; 0]. do 4 eexists.
  split; [exact blank_called|]. split; [reflexivity|]. split; [exact rotation_1|]. split.
  { intros E. apply (f_equal vx) in E. revert E. unfold at_joint, stand; cbn [jR jp]. gcbn. lra. }
  split.
  { exists (1/2), 2. split; [lra|]. unfold axis, at_joint, stand; cbn [jR jp com]. apply v3_eq; gcbn; lra. }
  split; [apply stand_rows; reflexivity|]. gcbn. lra.
Qed.

(** the column of an extra degree of freedom is whatever the matrix held *)
Lemma extra_wrong x : length x = 4%nat -> exists c J, called 0 1 2 v0 v0 (snd c) /\ length J = 1%nat /\
  feet_jacobian 0 1 2 v0 v0 full [c] [[0; 0; 0; 0]; x] = Some (J ++ [x]).
Proof.
  intros H. set (c := (stand (V3 1 0 0) v0 (V3 (1/2) 0 1), blank)).
  exists c, [column 0 1 2 v0 v0 (true, true, true, true) (fst c) (snd c)].
  split; [exact blank_called|]. split; [reflexivity|].
  unfold feet_jacobian, full; cbn [mask4].
  rewrite put_columns_spec; [reflexivity|repeat constructor; exact blank_called|cbn; lia|repeat constructor; auto].
Qed.

(** a longer mask: rows that are counted are not written *)
Lemma long_wrong x : exists mask q, feet_size mask = 5%nat /\ exists v, length v = 4%nat /\
  feet_value 0 1 2 v0 v0 v0 mask q blank ([0; 0; 0; 0] ++ [x]) = Some (v ++ [x]).
Proof.
  exists [true; true; true; true; true], (stand (V3 1 0 0) v0 (V3 (1/2) 0 1)). split; [reflexivity|].
  eexists. rewrite feet_value_spec; [|exact blank_called|cbn; lia]. split; [|reflexivity]. reflexivity.
Qed.

(** hypotheses met: the center of mass above the middle of the feet *)
Lemma between_case : let q := stand (V3 1 0 0) v0 (V3 (1/2) 0 1) in rotation (jR q 2) /\ at_joint q 0 v0 <> at_joint q 1 v0 /\
  vdot (vsub (at_joint q 1 v0) (at_joint q 0 v0)) (axis q 2) = 0 /\ on_strip (axis q 2) (at_joint q 0 v0) (at_joint q 1 v0) (com q) /\
  feet_value 0 1 2 v0 v0 v0 full q blank [7; 7; 7; 7] = Some [1; 0; 1/2; - (1/2)].
Proof.
  cbv zeta. split; [exact rotation_1|]. split.
  { intros E. apply (f_equal vx) in E. revert E. unfold at_joint, stand; cbn [jR jp]. gcbn. lra. }
  split; [unfold axis, at_joint, stand; cbn [jR jp]; gcbn; ring|]. split.
  { exists (1/2), 1. split; [lra|]. unfold axis, at_joint, stand; cbn [jR jp com]. apply v3_eq; gcbn; lra. }
  rewrite stand_rows by reflexivity. gcbn. apply (f_equal Some). repeat (apply (f_equal2 cons); [field|]). reflexivity.
Qed.
Lemma jacobian_case : motion (spin (V3 1 0 0)) /\ called 0 1 2 v0 v0 blank /\ feet_size [true; false; true; true] = 3%nat.
Proof. split; [apply spin_motion|]. split; [exact blank_called|reflexivity]. Qed.
