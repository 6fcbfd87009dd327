(** C76: saving and loading functions and constraints. *)
From Coq Require Import Reals List Bool Arith ZArith.
From Verif Require Import Geo Rigid SegModel ViewModel EcsModel EcsRhsModel ImplModel ImplSpec DistModel GTModel GTSpec RelComModel RTModel SatModel SerModel SerSpec SerProofs SerExamples.
Import ListNotations.
Local Open Scope R_scope.

(** Affine, constant, identity, relative center of mass and explicit relative transformation
    functions: what is loaded has the members of the base class and the value and the Jacobian of
    what was saved. *)
Theorem C76_functions :
  (forall f, sizes_ok (a_d f) -> exists f', comes_back wAff rAff f f' /\ a_d f' = a_d f /\
     (forall x, aff_value f' x = aff_value f x) /\ aff_jacobian f' = aff_jacobian f) /\
  (forall f, sizes_ok (c_d f) -> exists f', comes_back wCst rCst f f' /\ c_d f' = c_d f /\ (forall x, cst_value f' x = cst_value f x)) /\
  (forall d, sizes_ok d -> comes_back wD rD d d) /\
  (forall d r c j v m f, sizes_ok d -> rc_create j v m = Some f -> exists f', comes_back wRC rRC (RCF d r c f) f' /\
     rf_d f' = d /\ (forall k old, rc_value (rf_f f') k old = rc_value f k old) /\ (forall k old, rc_jacobian (rf_f f') k old = rc_jacobian f k old)) /\
  (forall f, sizes_ok (ro_d f) -> exists f', comes_back wRT rRT f f' /\ ro_d f' = ro_d f /\
     forall pos k, rt_value (ro_f pos f') k = rt_value (ro_f pos f) k /\ rt_jacobian (ro_f pos f') k = rt_jacobian (ro_f pos f) k).
Proof. exact functions_restored. Qed.
Print Assumptions C76_functions.
Example C76_functions_case : sizes_ok ex_d0 /\ sizes_ok ex_d.
Proof. exact ex_sizes. Qed.
Example C76_archive_case : get rCst (fun c => get rAff (fun a => ret_ (c, a))) (wCst (Cst ex_d0 [4; 6] 4) ++ wAff ex_aff) =
  Some ((Cst ex_d0 [4; 6] 4, ex_aff), []).
Proof. exact ex_archive. Qed.
Example C76_affine_case : aff_value ex_aff [1; 8; 2] = [10; 13].
Proof. exact ex_aff_value. Qed.
Example C76_com_case : exists f, rc_create (Some 2%nat) (V3 1 2 3) [true; false; true] = Some f /\
  rRC (wRC (RCF ex_d 1 7 f)) = Some (RCF ex_d 1 7 f, []).
Proof. exact ex_rcom. Qed.

(** Implicit form of an explicit constraint: all members come back, the temporaries with the sizes
    given by the constructor. *)
Theorem C76_implicit_function : forall insz insv outq outv spn d f a b c e oj ij, sizes_ok d ->
  let g := if_new insz insv outq outv spn d f a b c e oj ij in comes_back wIF (rIF insz insv outq outv spn) g g.
Proof. exact if_back. Qed.
Print Assumptions C76_implicit_function.

(** Transformation functions: the Jacobian, the joints, the frames and the mask come back. *)
Theorem C76_transformation : forall isId isZero o d robot cols r2 mask l, sizes_ok d ->
  let f := gt_new isId isZero o d robot cols r2 mask l in
  exists f', comes_back (wGT o) (rGT o) f f' /\ gt_d f' = d /\ gt_m f' = gt_m f /\
    (forall k junk old, gtf_jacobian o f' k junk old = gtf_jacobian o f k junk old).
Proof. exact transformation_restored. Qed.
Print Assumptions C76_transformation.

(** The value does not: the rows that the mask selects are not restored, and no row is written in
    a result that has at least one. *)
Theorem C76_transformation_refuted : forall isId isZero quat, (forall m, length (quat m) = 4%nat) ->
  forall o d robot cols r2 mask l, sizes_ok d -> good_mask o mask -> existsb (fun b => b) mask = true ->
  let f := gt_new isId isZero o d robot cols r2 mask l in let n := out_size o mask in
  (0 < n)%nat /\ (forall k, gtf_value quat o f k n = Some (value quat o (gt_m f) k)) /\
  exists f', comes_back (wGT o) (rGT o) f f' /\ forall k, gtf_value quat o f' k n = None.
Proof. exact transformation_lost. Qed.
Print Assumptions C76_transformation_refuted.
Example C76_transformation_case : good_mask ex_o [true; false; true] /\ gtf_value ex_quat ex_o ex_gt ex_k 2 = Some [1; 3].
Proof. exact (conj ex_good ex_gt_value). Qed.
Example C76_transformation_loaded_case : exists f, rGT ex_o (wGT ex_o ex_gt) = Some (f, []) /\ gtf_value ex_quat ex_o f ex_k 2 = None /\
  gtf_jacobian ex_o f ex_k [0; 0; 0] [[0; 0]; [0; 0]; [0; 0]] <> None /\
  gtf_jacobian ex_o f ex_k [0; 0; 0] [[0; 0]; [0; 0]; [0; 0]] = gtf_jacobian ex_o ex_gt ex_k [0; 0; 0] [[0; 0]; [0; 0]; [0; 0]].
Proof. exact ex_gt_loaded. Qed.

(** Constraints: comparison types, rows, function, right hand side and right hand side function
    come back. *)
Theorem C76_constraint : forall c, impl_reach (i_i c) -> length (i_rhs c) = m_rhs (i_i c) ->
  exists c', comes_back wI rI c c' /\ i_i c' = i_i c /\ i_rhs c' = i_rhs c /\ i_rhsf c' = i_rhsf c.
Proof. exact constraint_restored. Qed.
Print Assumptions C76_constraint.

(** The element where right hand sides are computed does not: after loading, computing the right
    hand side from a configuration, or from the right hand side function, writes out of bounds;
    without right hand side function, an empty vector is returned. *)
Theorem C76_constraint_refuted : forall nq nv val logq expq c, impl_reach (i_i c) -> length (i_rhs c) = m_rhs (i_i c) ->
  (0 < nq (m_fun (i_i c)))%nat -> length (i_out c) = nq (m_fun (i_i c)) -> i_logn c = nv (m_fun (i_i c)) ->
  (forall q, im_from_config nq nv val logq expq c q <> None) /\
  exists c', comes_back wI rI c c' /\ (forall q, im_from_config nq nv val logq expq c' q = None) /\
  match i_rhsf c with
  | None => forall t, im_at nq val c t = Some (i_out c) /\ im_at nq val c' t = Some []
  | Some g => nq g = nq (m_fun (i_i c)) -> forall t, im_at nq val c t = Some (val g [t]) /\ im_at nq val c' t = None
  end.
Proof. exact constraint_lost. Qed.
Print Assumptions C76_constraint_refuted.
Example C76_constraint_case : impl_reach (i_i ex_im) /\ length (i_rhs ex_im) = m_rhs (i_i ex_im) /\ length (i_out ex_im) = 2%nat /\ i_logn ex_im = 2%nat.
Proof. exact ex_im_ok. Qed.
Example C76_constraint_loaded_case : exists c, rI (wI ex_im) = Some (c, []) /\
  im_from_config (fun _ => 2%nat) (fun _ => 2%nat) (fun _ q => q) (fun _ x => x) (fun _ x => x) c [4; 5] = None.
Proof. exact ex_im_loaded. Qed.
Example C76_constraint_config_case :
  im_from_config (fun _ => 2%nat) (fun _ => 2%nat) (fun _ q => q) (fun _ x => x) (fun _ x => x) ex_im [4; 5] = Some [4; 0].
Proof. exact ex_im_config. Qed.

(** Box constraints given to a solver: the bounds come back, the map from configuration to velocity
    variables does not, and saturation reads it out of bounds. *)
Theorem C76_bounds_refuted : forall leb lb ub, length lb = length ub ->
  exists b', comes_back wBnd rBnd (bnd_new lb ub) b' /\ b_lb b' = lb /\ b_ub b' = ub /\
  forall q, q <> [] -> (length q <= length ub)%nat -> bnd_sat leb (bnd_new lb ub) q <> None /\ bnd_sat leb b' q = None.
Proof. exact bounds_lost_all. Qed.
Print Assumptions C76_bounds_refuted.
Example C76_bounds_case : exists b, rBnd (wBnd (bnd_new [0; 0] [1; 1])) = Some (b, []) /\
  (exists s, bnd_sat (fun _ _ => true) (bnd_new [0; 0] [1; 1]) [2; 3] = Some s /\ qs s 0%Z = 0 /\ ret s = true) /\
  bnd_sat (fun _ _ => true) b [2; 3] = None.
Proof. exact ex_bounds. Qed.
