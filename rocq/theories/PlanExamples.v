From Coq Require Import Reals List Bool ZArith Lia Lra.
From Verif Require Import Geo GeoLemmas SegModel SegSpec SegProofs ViewModel EcsModel EcsJacModel EcsJacSpec FunModel ImplFunModel LogDeriv LogMain VisSpec VisProofs PlanModel PlanSpec PlanProofs.
Import ListNotations.
Local Open Scope R_scope.

(** the output follows the input: x = a, y = 2 a, angle 3 a *)
Definition run3 (x : list R) : list R := let a := nth 0 x 0 in [a; 2 * a; cos (3 * a); sin (3 * a)].
Definition col3 (u v w : R) : mat R := mkmat 3 1 (fun i _ => if (i =? 0)%Z then u else if (i =? 1)%Z then v else w).
Definition g_plane (sub : list R -> list R -> list R) (Jf : list R -> mat R) : ifun R R :=
  mkif 5 4 run3 Jf sub [fac_id 4 3] [(0, 1)]%Z [(1, 4)]%Z [(0, 1)]%Z [(1, 3)]%Z.
Definition g_r2so2 : ifun R R := g_plane sub_r2so2 (fun _ => col3 1 2 3).
Definition g_se2 : ifun R R :=
  g_plane sub_se2 (fun x => let a := 3 * nth 0 x 0 in col3 (cos a * 1 + sin a * 2) (cos a * 2 - sin a * 1) 3).
Definition g_so2 : ifun R R :=
  mkif 3 2 (fun x => [cos (3 * nth 0 x 0); sin (3 * nth 0 x 0)]) (fun _ => mkmat 1 1 (fun _ _ => 3)) sub_so2 [fac_id 2 1] [(0, 1)]%Z [(1, 2)]%Z [(0, 1)]%Z [(1, 1)]%Z.
Definition g_r2 : ifun R R :=
  mkif 3 3 (fun x => [nth 0 x 0 * nth 0 x 0; 2 * nth 0 x 0]) (fun x => mkmat 2 1 (fun i _ => if (i =? 0)%Z then 2 * nth 0 x 0 else 2)) sub_rn [fac_id 2 2]
    [(0, 1)]%Z [(1, 2)]%Z [(0, 1)]%Z [(1, 2)]%Z.
Definition zeros (m n : Z) : mat R := mkmat m n (fun _ _ => 0).
Definition ql (l : list R) (i : Z) : R := nth (Z.to_nat i) l 0.
Lemma shape4 sub Jf q : (forall x, nr (Jf x) = 3%Z /\ nc (Jf x) = 1%Z) -> shaped (g_plane sub Jf) (fac_id 4 3) q (zeros 3 4).
Proof.
  intros HJ. constructor; try reflexivity; try apply HJ; try (cbn; lia); try (repeat constructor; cbn; lia).
  - intros s [<-|[]]; cbn; lia.
  - intros s [<-|[]]; cbn; lia.
  - intros i [A B]. apply In_indices in A as (a & [<-|[]] & A), B as (b & [<-|[]] & B). unfold in_seg in A, B. cbn in A, B. lia.
Qed.
Lemma shape_so2 q : shaped g_so2 (fac_id 2 1) q (zeros 1 2).
Proof.
  constructor; try reflexivity; try (cbn; lia); try (repeat constructor; cbn; lia).
  - intros s [<-|[]]; cbn; lia.
  - intros s [<-|[]]; cbn; lia.
  - intros i [A B]. apply In_indices in A as (a & [<-|[]] & A), B as (b & [<-|[]] & B). unfold in_seg in A, B. cbn in A, B. lia.
Qed.
Lemma shape_r2 q : shaped g_r2 (fac_id 2 2) q (zeros 2 3).
Proof.
  constructor; try reflexivity; try (cbn; lia); try (repeat constructor; cbn; lia).
  - intros s [<-|[]]; cbn; lia.
  - intros s [<-|[]]; cbn; lia.
  - intros i [A B]. apply In_indices in A as (a & [<-|[]] & A), B as (b & [<-|[]] & B). unfold in_seg in A, B. cbn in A, B. lia.
Qed.
Lemma d_lin k t : deriv (fun s => k * s) t k.
Proof. eapply deriv_eq; [|apply deriv_scale, derivable_pt_lim_id]. ring. Qed.
Lemma d_cos k c t : deriv (fun s => cos (k * s + c)) t (- sin (k * t + c) * k).
Proof.
  refine (derivable_pt_lim_comp (fun s => k * s + c) cos t _ _ _ (derivable_pt_lim_cos _)).
  eapply deriv_eq; [|apply deriv_add; [apply d_lin|apply deriv_const]]. ring.
Qed.
Lemma d_sin k c t : deriv (fun s => sin (k * s + c)) t (cos (k * t + c) * k).
Proof.
  refine (derivable_pt_lim_comp (fun s => k * s + c) sin t _ _ _ (derivable_pt_lim_sin _)).
  eapply deriv_eq; [|apply deriv_add; [apply d_lin|apply deriv_const]]. ring.
Qed.
Lemma d_cos0 k t : deriv (fun s => cos (k * s)) t (- sin (k * t) * k).
Proof.
  eapply deriv_eq; [|eapply deriv_ext; [|apply (d_cos k 0)]]; [cbv beta; now rewrite Rplus_0_r|intros s; cbv beta; now rewrite Rplus_0_r].
Qed.
Lemma d_sin0 k t : deriv (fun s => sin (k * s)) t (cos (k * t) * k).
Proof.
  eapply deriv_eq; [|eapply deriv_ext; [|apply (d_sin k 0)]]; [cbv beta; now rewrite Rplus_0_r|intros s; cbv beta; now rewrite Rplus_0_r].
Qed.
Lemma unit2 a : cos a * cos a + sin a * sin a = 1.
Proof. pose proof (sin2_cos2 a) as H. unfold Rsqr in H. lra. Qed.
Lemma cos_1_pos : 0 < cos 1.
Proof. pose proof pi_big. apply cos_gt_0; lra. Qed.

(** vectors: input s + 1, outputs (4 s, s) *)
Definition q_r2 (s : R) : Z -> R := ql [1 + s; 4 * s; s].
Definition dq_r2 : Z -> R := ql [1; 4; 1].
Lemma case_vector : shaped g_r2 (fac_id 2 2) (q_r2 0) (zeros 2 3) /\ if_sub g_r2 = sub_rn /\
  let out s := map (q_r2 s) (indices (if_out g_r2)) in
  let val s := if_f g_r2 (map (q_r2 s) (indices (if_in g_r2))) in
  let F := if_J g_r2 (map (q_r2 0) (indices (if_in g_r2))) in
  (forall s, length (val s) = 2%nat) /\
  (forall i, (i < 2)%nat -> deriv (fun s => nth i (out s) 0) 0 (pick dq_r2 (if_outv g_r2) i)) /\
  (forall i, (i < 2)%nat -> deriv (fun s => nth i (val s) 0) 0 (rate F (map dq_r2 (indices (if_inv g_r2))) i)) /\
  if_value g_r2 (q_r2 0) = [0 - 1 * 1; 0 - 2 * 1].
Proof.
  split; [apply shape_r2|]. split; [reflexivity|]. intros out val F. split; [reflexivity|].
  assert (D1 : deriv (fun s => 1 + s) 0 1) by (eapply deriv_eq; [|apply deriv_add; [apply deriv_const|apply derivable_pt_lim_id]]; ring).
  split; [|split].
  - intros i Hi. destruct i as [|[|i]]; [exact (d_lin 4 0)|exact (derivable_pt_lim_id 0)|lia].
  - intros i Hi. destruct i as [|[|i]]; [| |lia].
    + eapply deriv_eq; [|exact (deriv_mul _ _ _ _ _ D1 D1)]. cbv -[Rplus Rmult IZR]. ring.
    + eapply deriv_eq; [|exact (deriv_scale 2 _ _ _ D1)]. cbv -[Rplus Rmult IZR]. ring.
  - cbv -[Rplus Rminus Rmult IZR]. f_equal; [|f_equal]; ring.
Qed.

(** SO(2): input s, output at angle 5 s + 1 *)
Definition q_so2 (s : R) : Z -> R := ql [s; cos (5 * s + 1); sin (5 * s + 1)].
Definition dq_so2 : Z -> R := ql [1; 5].
Lemma case_so2 : shaped g_so2 (fac_id 2 1) (q_so2 0) (zeros 1 2) /\ if_sub g_so2 = sub_so2 /\
  let out s := map (q_so2 s) (indices (if_out g_so2)) in
  let val s := if_f g_so2 (map (q_so2 s) (indices (if_in g_so2))) in
  let F := if_J g_so2 (map (q_so2 0) (indices (if_in g_so2))) in
  (forall s, unit_at 0 (out s)) /\ (forall s, unit_at 0 (val s)) /\
  spins 0 out (pick dq_so2 (if_outv g_so2) 0%nat) /\ spins 0 val (rate F (map dq_so2 (indices (if_inv g_so2))) 0%nat) /\
  ~ opposite 0 (out 0) (val 0).
Proof.
  split; [apply shape_so2|]. split; [reflexivity|]. intros out val F.
  split; [intros s; apply unit2|]. split; [intros s; apply unit2|].
  split; [split; [exact (d_cos 5 1 0)|exact (d_sin 5 1 0)]|].
  split. { replace (rate F (map dq_so2 (indices (if_inv g_so2))) 0%nat) with 3 by (cbv -[Rplus Rmult IZR]; ring).
    split; [exact (d_cos0 3 0)|exact (d_sin0 3 0)]. }
  intros [A _]. change (cos (5 * 0 + 1) = - cos (3 * 0)) in A. rewrite !Rmult_0_r, Rplus_0_l, cos_0 in A. pose proof cos_1_pos. lra.
Qed.

(** R^2 x SO(2): input s, output at (7 s, 8, angle 5 s + 1) *)
Definition q_pl (s : R) : Z -> R := ql [s; 7 * s; 8; cos (5 * s + 1); sin (5 * s + 1)].
Definition dq_pl : Z -> R := ql [1; 7; 0; 5].
Lemma case_r2so2 : shaped g_r2so2 (fac_id 4 3) (q_pl 0) (zeros 3 4) /\ if_sub g_r2so2 = sub_r2so2 /\
  let out s := map (q_pl s) (indices (if_out g_r2so2)) in
  let val s := if_f g_r2so2 (map (q_pl s) (indices (if_in g_r2so2))) in
  let F := if_J g_r2so2 (map (q_pl 0) (indices (if_in g_r2so2))) in
  let Vout := pick dq_pl (if_outv g_r2so2) in let Vin := rate F (map dq_pl (indices (if_inv g_r2so2))) in
  (forall s, unit_at 2 (out s)) /\ (forall s, unit_at 2 (val s)) /\
  slides out (Vout 0%nat) (Vout 1%nat) /\ spins 2 out (Vout 2%nat) /\ slides val (Vin 0%nat) (Vin 1%nat) /\ spins 2 val (Vin 2%nat) /\
  ~ opposite 2 (out 0) (val 0).
Proof.
  split; [apply shape4; intros x; split; reflexivity|]. split; [reflexivity|]. intros out val F Vout Vin.
  split; [intros s; apply unit2|]. split; [intros s; apply unit2|].
  split; [split; [exact (d_lin 7 0)|exact (deriv_const 8 0)]|].
  split; [split; [exact (d_cos 5 1 0)|exact (d_sin 5 1 0)]|].
  assert (V0 : Vin 0%nat = 1) by (cbv -[Rplus Rmult IZR]; ring).
  assert (V1 : Vin 1%nat = 2) by (cbv -[Rplus Rmult IZR]; ring).
  assert (V2 : Vin 2%nat = 3) by (cbv -[Rplus Rmult IZR]; ring).
  rewrite V0, V1, V2.
  split; [split; [exact (derivable_pt_lim_id 0)|exact (d_lin 2 0)]|].
  split; [split; [exact (d_cos0 3 0)|exact (d_sin0 3 0)]|].
  intros [A _]. change (cos (5 * 0 + 1) = - cos (3 * 0)) in A. rewrite !Rmult_0_r, Rplus_0_l, cos_0 in A. pose proof cos_1_pos. lra.
Qed.

(** SE(2): input s, output at (0, s, angle 5 s), equal to the value of the function at 0 *)
Definition q_eq (s : R) : Z -> R := ql [s; 0; s; cos (5 * s); sin (5 * s)].
Definition dq_eq : Z -> R := ql [1; 0; 1; 5].
Lemma case_se2 : shaped g_se2 (fac_id 4 3) (q_eq 0) (zeros 3 4) /\ if_sub g_se2 = sub_se2 /\
  let out s := map (q_eq s) (indices (if_out g_se2)) in
  let val s := if_f g_se2 (map (q_eq s) (indices (if_in g_se2))) in
  let F := if_J g_se2 (map (q_eq 0) (indices (if_in g_se2))) in
  let Vout := pick dq_eq (if_outv g_se2) in let Vin := rate F (map dq_eq (indices (if_inv g_se2))) in
  (forall s, unit_at 2 (out s)) /\ (forall s, unit_at 2 (val s)) /\
  slides_body out (Vout 0%nat) (Vout 1%nat) /\ spins 2 out (Vout 2%nat) /\ slides_body val (Vin 0%nat) (Vin 1%nat) /\ spins 2 val (Vin 2%nat) /\
  (forall k, (k < 4)%nat -> nth k (out 0) 0 = nth k (val 0) 0).
Proof.
  split; [apply shape4; intros x; split; reflexivity|]. split; [reflexivity|]. intros out val F Vout Vin.
  split; [intros s; apply unit2|]. split; [intros s; apply unit2|].
  assert (Z5 : 5 * 0 = 0) by ring. assert (Z3 : 3 * 0 = 0) by ring.
  split. { assert (C : nth 2 (out 0) 0 = 1) by (change (cos (5 * 0) = 1); now rewrite Z5, cos_0). assert (S : nth 3 (out 0) 0 = 0) by (change (sin (5 * 0) = 0); now rewrite Z5, sin_0).
    unfold slides_body. cbv zeta. rewrite C, S.
    split; (eapply deriv_eq; [|first [exact (derivable_pt_lim_id 0)|exact (deriv_const 0 0)]]); cbv -[Rplus Rmult Rminus IZR]; ring. }
  split; [split; [exact (d_cos0 5 0)|exact (d_sin0 5 0)]|].
  assert (V0 : Vin 0%nat = 1) by (cbv -[Rplus Rmult Rminus IZR cos sin]; rewrite Z3, cos_0, sin_0; ring).
  assert (V1 : Vin 1%nat = 2) by (cbv -[Rplus Rmult Rminus IZR cos sin]; rewrite Z3, cos_0, sin_0; ring).
  assert (V2 : Vin 2%nat = 3) by (cbv -[Rplus Rmult IZR]; ring).
  rewrite V0, V1, V2.
  split. { assert (C : nth 2 (val 0) 0 = 1) by (change (cos (3 * 0) = 1); now rewrite Z3, cos_0). assert (S : nth 3 (val 0) 0 = 0) by (change (sin (3 * 0) = 0); now rewrite Z3, sin_0).
    unfold slides_body. cbv zeta. rewrite C, S.
    split; (eapply deriv_eq; [|first [exact (derivable_pt_lim_id 0)|exact (d_lin 2 0)]]); cbv -[Rplus Rmult Rminus IZR]; ring. }
  split; [split; [exact (d_cos0 3 0)|exact (d_sin0 3 0)]|].
  intros k Hk. unfold out, val. do 4 (destruct k as [|k]; [cbv -[Rplus Rmult IZR cos sin]; rewrite ?Z5, ?Z3; ring|]). lia.
Qed.

(** SE(2): output a quarter of turn from the value of a constant function, moving along its own x axis *)
Definition g_c : ifun R R :=
  mkif 4 3 (fun _ => [0; 0; 1; 0]) (fun _ => mkmat 3 0 (fun _ _ => 0)) sub_se2 [fac_id 4 3] [] [(0, 4)]%Z [] [(0, 3)]%Z.
Definition q_quarter (s : R) : Z -> R := ql [0; s; 0; 1].
Definition dq_quarter : Z -> R := ql [1; 0; 0].
Lemma shape_c q : shaped g_c (fac_id 4 3) q (zeros 3 3).
Proof.
  constructor; try reflexivity; try (cbn; lia); try (repeat constructor; cbn; lia).
  all: try (intros s [<-|[]]; cbn; lia).
  all: intros i [[] _].
Qed.
Lemma refuted_se2 : exists g q dq J J', shaped g (fac_id 4 3) (q 0) J /\ if_sub g = sub_se2 /\
  let out s := map (q s) (indices (if_out g)) in
  let val s := if_f g (map (q s) (indices (if_in g))) in
  let F := if_J g (map (q 0) (indices (if_in g))) in
  let Vout := pick dq (if_outv g) in let Vin := rate F (map dq (indices (if_inv g))) in
  (forall s, unit_at 2 (out s)) /\ (forall s, unit_at 2 (val s)) /\
  slides_body out (Vout 0%nat) (Vout 1%nat) /\ spins 2 out (Vout 2%nat) /\ slides_body val (Vin 0%nat) (Vin 1%nat) /\ spins 2 val (Vin 2%nat) /\
  ~ opposite 2 (out 0) (val 0) /\
  if_jacobian 0 g (q 0) J = Some J' /\ ~ jacobian_is_derivative g 3 q dq J'.
Proof.
  destruct (id_rows g_c q_quarter dq_quarter (zeros 3 3) 4 3 ltac:(lia) (shape_c _)) as (J' & EJ & ER).
  exists g_c, q_quarter, dq_quarter, (zeros 3 3), J'. split; [apply shape_c|]. split; [reflexivity|].
  intros out val F Vout Vin.
  split; [intros s; change (0 * 0 + 1 * 1 = 1); ring|].
  split; [intros s; change (1 * 1 + 0 * 0 = 1); ring|].
  split. { split; (eapply deriv_eq; [|first [exact (deriv_const 0 0)|exact (derivable_pt_lim_id 0)]]); cbv -[Rplus Rmult Rminus Ropp IZR]; ring. }
  split. { split; (eapply deriv_eq; [|first [exact (deriv_const 0 0)|exact (deriv_const 1 0)]]); cbv -[Rplus Rmult Rminus Ropp IZR]; ring. }
  split. { split; (eapply deriv_eq; [|exact (deriv_const 0 0)]); cbv -[Rplus Rmult Rminus Ropp IZR]; ring. }
  split. { split; (eapply deriv_eq; [|first [exact (deriv_const 1 0)|exact (deriv_const 0 0)]]); cbv -[Rplus Rmult Rminus Ropp IZR]; ring. }
  split. { intros [A _]. change (0 = - 1) in A. lra. }
  split; [exact EJ|]. intros X. specialize (X 1%nat ltac:(lia)). rewrite ER in X by (cbn; lia).
  assert (V : pick dq_quarter (if_outv g_c) 1 - rate (if_J g_c (map (q_quarter 0) (indices (if_in g_c)))) (map dq_quarter (indices (if_inv g_c))) 1 = 0).
  { cbv -[Rplus Rmult Rminus IZR]. ring. }
  rewrite V in X. pose proof pi_big as PB.
  assert (T : forall s, angle2 (map (q_quarter s) (indices (if_out g_c))) [0; 0; 1; 0] = PI / 2).
  { intros s. change (log2 (1 * 0 + 0 * 1) (1 * 1 - 0 * 0) = PI / 2).
    replace (1 * 0 + 0 * 1) with 0 by ring. replace (1 * 1 - 0 * 0) with 1 by ring. unfold log2. rewrite acos_0. destruct (Rle_dec 0 1); lra. }
  assert (A : se2_alpha (PI / 2) = PI / 4).
  { unfold se2_alpha. rewrite Rabs_pos_eq by lra. destruct (Rlt_dec (PI / 2) (/ 10000)); [lra|]. rewrite sin_PI2, cos_PI2. field. }
  assert (Y : deriv (fun s => nth 1 (if_value g_c (q_quarter s)) 0) 0 (PI / 4)).
  { apply (deriv_ext (fun s => PI / 4 * s)); [|apply d_lin]. intros s.
    change (PI / 4 * s = nth 1 (sub_se2 (map (q_quarter s) (indices (if_out g_c))) [0; 0; 1; 0]) 0).
    unfold sub_se2. cbv zeta. rewrite T, A. cbv -[Rplus Rmult Rminus Rdiv IZR PI]. field. }
  assert (Z := deriv_unique _ _ _ _ X Y). lra.
Qed.
