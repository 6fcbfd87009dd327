From Coq Require Import Reals List Bool Arith ZArith Lra.
From Verif Require Import Geo Rigid SegModel ViewModel EcsModel EcsRhsModel ImplModel ImplSpec DistModel GTModel GTSpec RelComModel RTModel SatModel SerModel SerSpec SerProofs.
Import ListNotations.
Local Open Scope R_scope.

(** two functions in the same archive: the first one has no input *)
Definition ex_d0 : dfun := DF 0 0 4 [] [] 11 12.
Definition ex_d : dfun := DF 3 3 5 [true; false; true] [true; false; true] 13 14.
Definition ex_aff : affine := Aff ex_d 3 [[1; 0; 2]; [0; 0; 3]] [5; 7].
Lemma ex_sizes : sizes_ok ex_d0 /\ sizes_ok ex_d. Proof. repeat split. Qed.
Lemma ex_archive : get rCst (fun c => get rAff (fun a => ret_ (c, a))) (wCst (Cst ex_d0 [4; 6] 4) ++ wAff ex_aff) =
  Some ((Cst ex_d0 [4; 6] 4, ex_aff), []).
Proof. reflexivity. Qed.
Lemma ex_aff_value : aff_value ex_aff [1; 8; 2] = [10; 13].
Proof. unfold aff_value, ex_aff, dotl; cbn. f_equal; [ring|f_equal; ring]. Qed.
Lemma ex_rcom : exists f, rc_create (Some 2%nat) (V3 1 2 3) [true; false; true] = Some f /\
  rRC (wRC (RCF ex_d 1 7 f)) = Some (RCF ex_d 1 7 f, []).
Proof. eexists. split; reflexivity. Qed.

(** position of the origin of joint 1 along x and z, then saved and loaded *)
Definition ex_o : opts := Opts false true false false.
Definition ex_k : kins := Kins (fun _ => SE3 m1 (V3 1 2 3)) (fun _ => [Tw (V3 1 0 0) v0; Tw (V3 0 1 0) v0; Tw (V3 0 0 1) v0]).
Definition ex_quat (m : m3) : list R := [0; 0; 0; 1].
Definition ex_id (m : m3) : bool := false.
Definition ex_zero (v : v3) : bool := false.
Definition ex_gt : gtf := gt_new ex_id ex_zero ex_o ex_d 1 3 true [true; false; true] [SetJ2 (Some 1%nat)].
Lemma ex_good : good_mask ex_o [true; false; true]. Proof. repeat split; cbn; discriminate. Qed.
Lemma ex_gt_value : gtf_value ex_quat ex_o ex_gt ex_k 2 = Some [1; 3].
Proof. cbv -[Rplus Rmult Rminus Ropp R0 R1 IZR]. repeat f_equal; ring. Qed.
Lemma ex_gt_loaded : exists f, rGT ex_o (wGT ex_o ex_gt) = Some (f, []) /\ gtf_value ex_quat ex_o f ex_k 2 = None /\
  gtf_jacobian ex_o f ex_k [0; 0; 0] [[0; 0]; [0; 0]; [0; 0]] <> None /\
  gtf_jacobian ex_o f ex_k [0; 0; 0] [[0; 0]; [0; 0]; [0; 0]] = gtf_jacobian ex_o ex_gt ex_k [0; 0; 0] [[0; 0]; [0; 0]; [0; 0]].
Proof. eexists. split; [reflexivity|]. split; [reflexivity|]. split; [discriminate|reflexivity]. Qed.

(** a constraint of two rows, one of them an equality *)
Definition ex_im : imo := im_new (fun _ => 2%nat) (fun _ => 2%nat) 3 [Equality; EqualToZero] [true; true] [0; 0].
Lemma ex_im_ok : impl_reach (i_i ex_im) /\ length (i_rhs ex_im) = m_rhs (i_i ex_im) /\ length (i_out ex_im) = 2%nat /\ i_logn ex_im = 2%nat.
Proof. split; [apply ir_new|repeat split]. Qed.
Lemma ex_im_config : im_from_config (fun _ => 2%nat) (fun _ => 2%nat) (fun _ q => q) (fun _ x => x) (fun _ x => x) ex_im [4; 5] = Some [4; 0].
Proof. reflexivity. Qed.
Lemma ex_im_loaded : exists c, rI (wI ex_im) = Some (c, []) /\
  im_from_config (fun _ => 2%nat) (fun _ => 2%nat) (fun _ q => q) (fun _ x => x) (fun _ x => x) c [4; 5] = None.
Proof. eexists. split; reflexivity. Qed.

(** bounds 0 and 1 on two variables *)
Lemma ex_bounds : exists b, rBnd (wBnd (bnd_new [0; 0] [1; 1])) = Some (b, []) /\
  (exists s, bnd_sat (fun _ _ => true) (bnd_new [0; 0] [1; 1]) [2; 3] = Some s /\ qs s 0%Z = 0 /\ ret s = true) /\
  bnd_sat (fun _ _ => true) b [2; 3] = None.
Proof. eexists. split; [reflexivity|]. split; [eexists; split; [reflexivity|split; reflexivity]|reflexivity]. Qed.
