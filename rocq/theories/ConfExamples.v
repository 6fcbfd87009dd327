From Coq Require Import Reals List Bool Arith Lia Lra.
From Verif Require Import Geo GeoLemmas Rigid RigidExamples LogModel LogSpec RotProofs LogProofs LogMain LogDeriv ConfModel ConfSpec ConfProofs.
Import ListNotations.
Local Open Scope R_scope.

Definition vel (v : v3) (i : nat) : R := coord v i.
(** [so3_dd] is the derivative of the difference of rotations *)
Lemma so3_moves g A t v : rotation g -> (forall s, rotation (A s)) -> mderiv A t (mul (A t) (cross_matrix v)) ->
  let th := fst (logSO3 (mul (mtr (A t)) g)) in / 1000000 < th < PI \/ th = 0 ->
  diff_moves 3 (so3_diff g) (so3_dd g) A t (vel v).
Proof.
  intros Hg HA D th Hth i Hi. subst th.
  assert (M : mderiv (fun s => mul (mtr (A s)) g) t (mul (cross_matrix (vopp v)) (mul (mtr (A t)) g))).
  { assert (E : mul (cross_matrix (vopp v)) (mul (mtr (A t)) g) = mul (mtr (mul (A t) (cross_matrix v))) g).
    { rewrite mtr_mul, mtr_cross, mulA. f_equal. generalize v. clear. geo. }
    rewrite E. eapply mderiv_eq; [|apply mderiv_mul; [apply mderiv_tr, D|apply (mderiv_const g)]]. cbv beta.
    generalize (mtr (mul (A t) (cross_matrix v))) (mtr (A t)). clear. geo. }
  assert (L := log_deriv_fixed (fun s => mul (mtr (A s)) g) t (vopp v) (fun s => rotation_mul _ _ (rotation_mtr _ (HA s)) Hg) M Hth).
  cbv beta in L. unfold so3_diff, so3_dd. destruct (logSO3 (mul (mtr (A t)) g)) as [th r] eqn:E. cbn [fst snd] in L.
  unfold apply. cbn [rsum]. destruct L as (L1 & L2 & L3).
  destruct i as [|[|[|i]]]; [| | |lia]; cbn [coord rowm]; (eapply deriv_eq; [|eassumption]); unfold mulv, vel, vopp, vdot; cbn [vx vy vz coord]; ring.
Qed.

(** rotation by a quarter turn about (3/5, 4/5, 0) *)
Definition m_ex : m3 := M3 (V3 (9/25) (12/25) (4/5)) (V3 (12/25) (16/25) (-3/5)) (V3 (-4/5) (3/5) 0).
Lemma m_ex_rotation : rotation m_ex.
Proof. split; [unfold m_ex; cv; f_equal; f_equal; field|unfold m_ex; cv; field]. Qed.
Lemma m_ex_angle : angle m_ex = PI / 2.
Proof.
  unfold angle. assert (T : trace m_ex = 1) by (unfold trace, m_ex; cbn; field). rewrite T.
  destruct (Rlt_dec 3 1); [lra|]. destruct (Rlt_dec 1 (-1)); [lra|]. replace ((1 - 1) / 2) with 0 by field. apply acos_0.
Qed.
Lemma m_ex_log : logSO3 m_ex = (PI / 2, vscale (PI / 2) (V3 (3/5) (4/5) 0)).
Proof.
  assert (P := PI2_1). assert (Q := PI_4). unfold PI2 in P. unfold logSO3. rewrite m_ex_angle.
  destruct (Rlt_dec (PI / 2) (PI - / 100)) as [_|N]; [|lra]. destruct (Rlt_dec (/ 1000000) (PI / 2)) as [_|N]; [|lra].
  rewrite sin_PI2. f_equal. unfold vee, m_ex. cv. f_equal; field.
Qed.
(** goal at the identity, the robot turns about its own vertical axis from that attitude *)
Definition A_ex (s : R) : m3 := mul (mtr m_ex) (rotz s).
Lemma A_ex_rotation s : rotation (A_ex s).
Proof. apply rotation_mul; [apply rotation_mtr, m_ex_rotation|apply rotz_rotation]. Qed.
Lemma A_ex_0 : A_ex 0 = mtr m_ex.
Proof. unfold A_ex, rotz, m_ex. rewrite cos_0, sin_0. cv. f_equal; f_equal; field. Qed.
Lemma A_ex_moves : mderiv A_ex 0 (mul (A_ex 0) (cross_matrix ez)).
Proof.
  unfold A_ex. assert (D : mderiv rotz 0 (mul (rotz 0) (cross_matrix ez))) by apply (proj1 (turn_moves 0)).
  eapply mderiv_eq; [|apply mderiv_mul; [apply (mderiv_const (mtr m_ex))|exact D]]. cbv beta. rewrite mulA.
  generalize (mul (rotz 0) (cross_matrix ez)) (mtr m_ex) (rotz 0). clear. geo.
Qed.
Lemma A_ex_log : logSO3 (mul (mtr (A_ex 0)) m1) = (PI / 2, vscale (PI / 2) (V3 (3/5) (4/5) 0)).
Proof. rewrite A_ex_0, mtrK, mulm1. exact m_ex_log. Qed.
Lemma A_ex_diff : diff_moves 3 (so3_diff m1) (so3_dd m1) A_ex 0 (vel ez).
Proof.
  apply so3_moves; [apply rotation_1|apply A_ex_rotation|exact A_ex_moves|]. rewrite A_ex_log. cbn [fst]. assert (P := PI2_1). assert (Q := PI_4). unfold PI2 in P. left. lra.
Qed.
(** only the first coordinate is constrained *)
Lemma rotation_wrong : exists D, deriv (fun s => cc_value 3 (so3_diff m1) [1; 0; 0] (A_ex s)) 0 D /\ D <> 0 /\
  apply 3 (cc_jacobian 3 (so3_diff m1) (so3_dd m1) [1; 0; 0] (A_ex 0)) (vel ez) = 0.
Proof.
  eexists. split; [apply (cc_true _ _ _ [1; 0; 0] _ _ _ A_ex_diff)|]. split.
  - cbn [rsum nth]. unfold apply. cbn [rsum]. unfold so3_diff, so3_dd. rewrite A_ex_log. cbn [snd]. unfold vel. cbn [coord ez vx vy vz].
    assert (P := PI2_1). assert (Q := PI_4). unfold PI2 in P.
    assert (J : vz (rowm (computeJlog (PI / 2) (vscale (PI / 2) (V3 (3 / 5) (4 / 5) 0))) 0) = - (/ 2 * (PI / 2 * (4 / 5)))).
    { unfold computeJlog, jlog. destruct (Rlt_dec (PI / 2) (/ 1000000)) as [N|_]; [lra|]. cbn [rowm coord]. cv. ring. }
    rewrite J. cbn [coord vscale vx]. replace (0 + _ + _ + _) with (PI * PI * (3 / 50)) by field.  nra.
  - unfold apply. cbn [rsum]. unfold cc_jacobian at 3. unfold vel, w. cbn [coord ez vx vy vz nth]. ring.
Qed.

(** the same motion, same weights for all coordinates *)
Lemma same_uniform {Q} (dd : Q -> nat -> nat -> R) c q : same_weights 3 dd [c; c; c] q.
Proof. intros i j Hi Hj _. destruct i as [|[|[|i]]], j as [|[|[|j]]]; try lia; reflexivity. Qed.
(** vector space *)
Lemma same_vector n (goal : nat -> R) ws q : same_weights n (fun (_ : nat -> R) i j => if (i =? j)%nat then -1 else 0) ws q.
Proof. intros i j Hi Hj N. destruct (Nat.eqb_spec i j) as [->|]; [reflexivity|lra]. Qed.
Lemma vector_moves n (goal : nat -> R) A t v : (forall i, (i < n)%nat -> deriv (fun s => A s i) t (v i)) ->
  diff_moves n (fun (q : nat -> R) i => goal i - q i) (fun _ i j => if (i =? j)%nat then -1 else 0) A t v.
Proof.
  intros H i Hi. eapply deriv_eq; [|apply deriv_sub; [apply deriv_const|apply H, Hi]]. unfold apply.
  assert (E : forall m, rsum m (fun j => (if (i =? j)%nat then -1 else 0) * v j) = if (i <? m)%nat then - v i else 0).
  { induction m as [|m IH]; [reflexivity|]. cbn [rsum]. rewrite IH. destruct (Nat.eqb_spec i m) as [E|N].
    - subst m. rewrite Nat.ltb_irrefl, (proj2 (Nat.ltb_lt i (S i)) (Nat.lt_succ_diag_r i)). ring.
    - destruct (Nat.ltb_spec i m), (Nat.ltb_spec i (S m)); try lia; ring. }
  rewrite E. destruct (Nat.ltb_spec i n); [ring|lia].
Qed.

(** a free-flyer given by 7 parameters, a revolute joint with 1, one extra variable *)
Definition dev_ex : dev := Dev 9 8 [Jnt 0 7 0 6; Jnt 7 1 6 1].
Lemma dev_ex_good : good_dev dev_ex.
Proof.
  split; [|split].
  - intros j [<-|[<-|[]]]; cbn; lia.
  - intros j j' i [<-|[<-|[]]] [<-|[<-|[]]] [A B] [C D]; cbn in *; try reflexivity; lia.
  - intros j j' i [<-|[<-|[]]] [<-|[<-|[]]] [A B] [C D]; cbn in *; try reflexivity; lia.
Qed.
Lemma case_conf : good_dev dev_ex /\ mask_weights (repeat 1 8) [true; false; false; false; false; false; false; false] = Some [1; 0; 0; 0; 0; 0; 0; 0] /\
  option_map c_act (set_weights dev_ex [1; 0; 0; 0; 0; 0; 0; 0]) = Some [true; true; true; true; true; true; true; false; true] /\
  option_map c_actd (set_weights dev_ex [1; 0; 0; 0; 0; 0; 0; 0]) = Some [true; true; true; true; true; true; false; true] /\
  set_weights dev_ex [1; 0] = None.
Proof.
  split; [exact dev_ex_good|]. split; [reflexivity|].
  unfold set_weights, all_zero, is0. cbn -[Req_EM_T].
  destruct (Req_EM_T 1 0); [lra|]. destruct (Req_EM_T 0 0); [|lra]. cbn. repeat split; reflexivity.
Qed.
(** two revolute joints and an extra variable *)
Definition dev_vec : dev := Dev 3 3 [Jnt 0 1 0 1; Jnt 1 1 1 1].
Lemma case_local : good_dev dev_vec /\ local_diff dev_vec (fun q i => INR i - q i) /\
  option_map c_act (set_weights dev_vec [0; 1; 0]) = Some [false; true; true].
Proof.
  split; [|split].
  - split; [|split].
    + intros j [<-|[<-|[]]]; cbn; lia.
    + intros j j' i [<-|[<-|[]]] [<-|[<-|[]]] [A B] [C D]; cbn in *; try reflexivity; lia.
    + intros j j' i [<-|[<-|[]]] [<-|[<-|[]]] [A B] [C D]; cbn in *; try reflexivity; lia.
  - intros i q q' Hi H K. f_equal. cbn in Hi. destruct i as [|[|[|i]]]; [| | |lia].
    + apply (H (Jnt 0 1 0 1)); [now left|unfold inv; cbn; lia|unfold inq; cbn; lia].
    + apply (H (Jnt 1 1 1 1)); [right; now left|unfold inv; cbn; lia|unfold inq; cbn; lia].
    + apply K; [intros j [<-|[<-|[]]]; unfold inv; cbn; lia|cbn; lia|intros j [<-|[<-|[]]]; unfold inq; cbn; lia].
  - unfold set_weights, all_zero, is0. cbn -[Req_EM_T]. destruct (Req_EM_T 1 0); [lra|]. destruct (Req_EM_T 0 0); [|lra]. reflexivity.
Qed.
