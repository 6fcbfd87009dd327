From Coq Require Import Reals List Bool ZArith Lia Lra.
From Verif Require Import Geo GeoLemmas Rigid RigidExamples ViewModel LogModel LogProofs LogMain LogExamples LogPi SE3Proofs GTModel VisModel VisSpec SfModel SfSpec SfProofs.
Import ListNotations.
Local Open Scope R_scope.

(** a joint that turns and moves with its only degree of freedom, one extra degree of freedom *)
Definition st_turn (s : R) : state := mkst [1 + s; 7] (turn (1 + s)) (mkmat 6 1 (fun i _ => tw_at (Tw (mulv (mtr (rotz (1 + s))) ex) ez) i)).
Definition half_mask : list bool := [true; false; false; false; false; true].
Definition any_obj (s : R) : obj := mkobj [] 12 (mkmat 0 0 (fun _ _ => s)) true true.
Definition J22 : mat R := mkmat 2 2 (fun _ _ => 3).
Lemma selected_half : selected half_mask = [0; 5]%nat.
Proof. reflexivity. Qed.
Lemma case_joint_frame : length half_mask = 6%nat /\ nc J22 = (nc (s_J (st_turn 0%R)) + 1)%Z /\ length [1; 0] = Z.to_nat (nc J22) /\
  (Z.of_nat (length (selected half_mask)) <= nr J22)%Z /\
  (forall s, rotation (rot (s_M (st_turn s)))) /\
  moves (fun s => s_M (st_turn s)) 0 (vec6 (rate (s_J (st_turn 0)) (velocity (s_J (st_turn 0)) [1; 0]))) /\
  fst (logSO3 (rot (s_M (st_turn 0)))) = 1 /\
  (forall s, fst (sf_compute (mksf JointFrame half_mask (Some 1%Z)) (st_turn s) (any_obj s) [0; 0]) =
     Some [vx (tra (turn (1 + s))); vz (snd (logSO3 (rotz (1 + s))))]).
Proof.
  split; [reflexivity|]. split; [reflexivity|]. split; [reflexivity|]. split; [cbn; lia|].
  split; [intros s; apply rotz_rotation|]. split; [|split].
  - assert (K : forall f d, derivable_pt_lim f 1 d -> deriv (fun s => f (1 + s)) 0 d).
    { intros f d H. assert (H' : derivable_pt_lim f (1 + 0) d) by (now rewrite Rplus_0_r).
      assert (C := derivable_pt_lim_comp (fun s => 1 + s) f 0 1 d). rewrite Rmult_1_r in C. apply C; [|exact H'].
      assert (P := derivable_pt_lim_plus (fct_cte 1) id 0 0 1 (derivable_pt_lim_const 1 0) (derivable_pt_lim_id 0)). rewrite Rplus_0_l in P. exact P. }
    destruct (turn_moves 1) as [[(A1 & A2 & A3) [(B1 & B2 & B3) (C1 & C2 & C3)]] (D1 & D2 & D3)].
    cbn [rot turn] in *. 
    assert (E : vec6 (rate (s_J (st_turn 0)) (velocity (s_J (st_turn 0)) [1; 0])) = Tw (mulv (mtr (rotz 1)) ex) ez).
    { cbv -[Rplus Rmult Ropp cos sin IZR]. rewrite !Rplus_0_r. f_equal; f_equal; ring. }
    rewrite E. assert (E1 : 1 + 0 = 1) by ring. split; cbn [s_M st_turn rot turn tra]; rewrite E1.
    + repeat split; first [apply (K _ _ A1)|apply (K _ _ A2)|apply (K _ _ A3)|apply (K _ _ B1)|apply (K _ _ B2)|apply (K _ _ B3)|apply (K _ _ C1)|apply (K _ _ C2)|apply (K _ _ C3)].
    + split; [apply (K _ _ D1)|split; [apply (K _ _ D2)|apply (K _ _ D3)]].
  - cbn [s_M st_turn rot turn]. rewrite Rplus_0_r. pose proof pi_big. rewrite rotz_log by lra. reflexivity.
  - intros s. unfold sf_compute. cbn [fst sf_mask sf_expr]. rewrite fresh_value. reflexivity.
Qed.

(** the square of the parameter and its Jacobian, without robot *)
Definition sq (x : list R) : list R := [nth 0 x 0 * nth 0 x 0; nth 1 x 0].
Definition sqJ (x : list R) : mat R := mkmat 2 2 (fun i j => if (i =? 0)%Z then (if (j =? 0)%Z then 2 * nth 0 x 0 else 0) else (if (j =? 0)%Z then 0 else 1)).
Lemma case_function : nr (sqJ (s_arg (st_turn 0))) = 2%Z /\ (forall s, length (sq (s_arg (st_turn s))) = 2%nat) /\
  (forall i, (i < 2)%nat -> deriv (fun s => nth i (sq (s_arg (st_turn s))) 0) 0 (rate (sqJ (s_arg (st_turn 0))) (velocity (sqJ (s_arg (st_turn 0))) [1; 0]) i)) /\
  (forall s, fst (sf_compute (mksf (FunctionExp sq sqJ) [true; true] None) (st_turn s) (any_obj s) [0; 0]) = Some [(1 + s) * (1 + s); 7]).
Proof.
  split; [reflexivity|]. split; [reflexivity|]. split; [|intros s; reflexivity].
  intros i Hi. destruct i as [|[|i]]; [| |lia]; cbv [nth sq sqJ rate velocity s_arg st_turn nc at_ dotf firstn Z.to_nat Pos.to_nat Pos.iter_op Nat.add Z.of_nat Z.eqb Pos.of_succ_nat Pos.eqb].
  - assert (D : deriv (fun s => 1 + s) 0 1) by (eapply deriv_eq; [|apply deriv_add; [apply deriv_const|apply derivable_pt_lim_id]]; ring).
    eapply deriv_eq; [|exact (deriv_mul _ _ _ _ _ D D)].
    cbv beta. ring.
  - eapply deriv_eq; [|apply deriv_const]. ring.
Qed.
(** part of the rows are selected: the others keep what the caller had *)
Lemma mask_refuted : exists f st o l1 l2 r1 r2, length (sf_mask f) = length (expr_value (sf_expr f) st) /\
  length l1 = length (sf_mask f) /\ length l2 = length (sf_mask f) /\
  fst (sf_compute f st o l1) = Some r1 /\ fst (sf_compute f st o l2) = Some r2 /\ r1 <> r2.
Proof.
  exists (mksf (FunctionExp sq sqJ) [true; false] None), (st_turn 0), (any_obj 0), [0; 1], [0; 2], [(1 + 0) * (1 + 0); 1], [(1 + 0) * (1 + 0); 2].
  do 5 (split; [reflexivity|]). intros E. injection E. lra.
Qed.
(** pose as output: seven numbers, six rows *)
Lemma function_refuted : exists g gJ st, length (g (s_arg st)) = 7%nat /\ nr (gJ (s_arg st)) = 6%Z /\
  forall x o J, fst (sf_jacobian (mksf (FunctionExp g gJ) (repeat true 7) x) st o J) = None.
Proof.
  exists (fun _ => [0; 0; 0; 0; 0; 0; 1]), (fun _ => mkmat 6 2 (fun _ _ => 0)), (st_turn 0).
  split; [reflexivity|]. split; [reflexivity|]. intros x o J. apply function_out. cbn. lia.
Qed.
