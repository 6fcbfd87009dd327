(** Properties C48, C49, C50, C63, C65 and C66. *)
From Coq Require Import ZArith List Bool Reals Lra Lia.
From Verif Require Import ImplModel HierModel BySubModel EqSolverProofs ViewModel FunModel FunSpec FunProofs FunMerge FdModel FdProofs
  EqModel EqProofs FunExamples.
Import ListNotations.

(** C48 *)
Theorem C48_value : forall f t1 t2 t i,
  r_val (extract f t1 t2) t i = r_val f (if gtb t1 t2 then t1 - t else t1 + t)%R i.
Proof. exact extract_value. Qed.
Print Assumptions C48_value.

(** The Jacobian is the derivative exactly when the interval is reversed, the function
    returned is the original one, or the derivatives at t - t1 and t1 + t agree. *)
Theorem C48_derivative : forall f t1 t2 t i, (forall u, derivable_pt_lim (fun v => r_val f v i) u (r_jac f u i)) ->
  (derivable_pt_lim (fun u => r_val (extract f t1 t2) u i) t (r_jac (extract f t1 t2) t i) <->
   (t2 < t1 \/ (t1 = 0 /\ 0 < t2) \/ r_jac f (t - t1) i = r_jac f (t1 + t) i))%R.
Proof. exact extract_derivative. Qed.
Print Assumptions C48_derivative.

Theorem C48_derivative_refuted : exists f t1 t2 t i, (forall u, derivable_pt_lim (fun v => r_val f v i) u (r_jac f u i)) /\ (t1 < t2)%R /\
  ~ derivable_pt_lim (fun u => r_val (extract f t1 t2) u i) t (r_jac (extract f t1 t2) t i).
Proof.
  exists square, 1%R, 2%R, 0%R, 0%nat. split; [apply square_derivable|]. split; [lra|].
  rewrite extract_derivative by apply square_derivable. cbn. lra.
Qed.
Print Assumptions C48_derivative_refuted.

Example C48_case : r_val (extract square 3%R 1%R) 2%R 0%nat = 1%R /\ r_val (extract square 1%R 3%R) 2%R 0%nat = 9%R /\
  derivable_pt_lim (fun u => r_val (extract square 3%R 1%R) u 0%nat) 2%R (-2)%R.
Proof.
  rewrite !extract_value. unfold gtb. destruct (Rlt_dec 1%R 3%R); [|lra]. destruct (Rlt_dec 3%R 1%R); [lra|]. cbn. split; [ring|]. split; [ring|].
  pose proof (proj2 (extract_derivative square 3%R 1%R 2%R 0%nat (square_derivable 0%nat)) (or_introl r)) as H.
  replace (-2)%R with (r_jac (extract square 3%R 1%R) 2%R 0%nat); [exact H|].
  unfold extract, is0, extracted, gtb. destruct (Req_EM_T 3%R 0%R); [lra|]. cbn. destruct (Rlt_dec 1%R 3%R); [cbn; ring|contradiction].
Qed.

(** C49 *)
Theorem C49_stack : forall (A : Type) (fs : list (fn A)), Forall wf_fn fs -> (forall f g, In f fs -> In g fs -> same_input f g) ->
  exists s, set_adds set_new fs = Some s /\ s_fs s = fs /\
  s_out s = sumz (map f_out fs) /\ s_outd s = sumz (map f_outd fs) /\
  (forall f, In f fs -> s_in s = f_in f /\ s_ind s = f_ind f) /\
  length (s_act s) = Z.to_nat (s_in s) /\ length (s_actd s) = Z.to_nat (s_ind s) /\
  (forall i, nth i (s_act s) false = true <-> exists f, In f fs /\ nth i (f_act f) false = true) /\
  (forall i, nth i (s_actd s) false = true <-> exists f, In f fs /\ nth i (f_actd f) false = true) /\
  (forall x res, length x = Z.to_nat (s_in s) -> length res = Z.to_nat (s_out s) ->
     set_compute s x res = Some (concat (map (fun f => f_val f x) fs))) /\
  (forall x m, length x = Z.to_nat (s_in s) -> nr m = s_outd s -> nc m = s_ind s ->
     exists m', set_jacobian s x m = Some m' /\ nr m' = nr m /\ nc m' = nc m /\
     forall k f, nth_error fs k = Some f ->
       let r := sumz (map f_outd (firstn k fs)) in
       exists old new, row_block m r (f_outd f) old /\ f_jac f x old = Some new /\ row_block m' r (f_outd f) new).
Proof. exact @set_spec. Qed.
Print Assumptions C49_stack.

(** merging two sets gives the set of the members of both *)
Theorem C49_merge : forall (A : Type) (fs gs : list (fn A)), Forall wf_fn fs -> Forall wf_fn gs -> (forall f g, In f (fs ++ gs) -> In g (fs ++ gs) -> same_input f g) ->
  exists s o r, set_adds set_new fs = Some s /\ set_adds set_new gs = Some o /\ set_merge s o = Some r /\ set_adds set_new (fs ++ gs) = Some r /\ s_fs r = fs ++ gs.
Proof. exact @set_merge_spec. Qed.
Print Assumptions C49_merge.

Example C49_case :
  Forall wf_fn [fsum; fsev] /\ (forall f g, In f [fsum; fsev] -> In g [fsum; fsev] -> same_input f g) /\
  option_map (fun s => (s_out s, s_act s, set_compute s [1; 2]%Z [0; 0; 0]%Z, option_map dump (set_jacobian s [1; 2]%Z (mkmat 3 2 (fun _ _ => 9)%Z))))
    (set_adds set_new [fsum; fsev]) = Some (3%Z, [true; true], Some [3; 4; 14]%Z, Some [[1; 1]; [0; 2]; [0; 7]]%Z).
Proof.
  split; [exact (Forall_cons _ fsum_wf (Forall_cons _ fsev_wf (Forall_nil _)))|]. split; [|vm_compute; reflexivity].
  intros f g [<-|[<-|[]]] [<-|[<-|[]]]; split; reflexivity.
Qed.

(** C50: functions of vectors that only depend on the coefficients of the vector *)
Theorem C50_affine : forall n A b eps adp x J i k, (0 < eps)%R -> (k < n)%nat -> (adp k = false -> A i k = 0%R) ->
  central vector_op eps adp (affine_value n A b) x n J i k = A i k /\ forward vector_op eps adp (affine_value n A b) x n J i k = A i k.
Proof. exact affine_exact. Qed.
Print Assumptions C50_affine.

(** [shift x k t]: x with t added to coefficient k *)
Theorem C50_quadratic : forall eps adp f x n J i k c0 c1 c2, respects f -> (0 < eps)%R -> (k < n)%nat -> adp k = true ->
  (forall t, f (shift x k t) i = c0 + c1 * t + c2 * t * t)%R ->
  central vector_op eps adp f x n J i k = c1 /\ forward vector_op eps adp f x n J i k = (c1 + c2 * step eps k x)%R.
Proof. exact quadratic_exact. Qed.
Print Assumptions C50_quadratic.

Theorem C50_converges : forall adp f x i k d, respects f -> adp k = true ->
  derivable_pt_lim (fun t => f (shift x k t) i) 0 d ->
  forall delta, (0 < delta)%R -> exists eps0, (0 < eps0)%R /\ forall eps n J, (0 < eps < eps0)%R -> (k < n)%nat ->
    (Rabs (forward vector_op eps adp f x n J i k - d) < delta /\ Rabs (central vector_op eps adp f x n J i k - d) < delta)%R.
Proof. exact forward_converges. Qed.
Print Assumptions C50_converges.

(** columns of inactive variables are zero, columns beyond the n-th are not written *)
Theorem C50_other_columns : forall eps adp f x n J i k, respects f ->
  ((k < n)%nat -> adp k = false -> central vector_op eps adp f x n J i k = 0%R /\ forward vector_op eps adp f x n J i k = 0%R) /\
  ((n <= k)%nat -> central vector_op eps adp f x n J i k = J i k /\ forward vector_op eps adp f x n J i k = J i k).
Proof.
  exact (fun eps adp f x n J i k RF => conj
    (fun K D => conj (eq_trans (vector_central eps adp f x n J i k RF) (ltb_case1 K D)) (eq_trans (vector_forward eps adp f x n J i k RF) (ltb_case1 K D)))
    (fun K => conj (eq_trans (vector_central eps adp f x n J i k RF) (ltb_case2 K)) (eq_trans (vector_forward eps adp f x n J i k RF) (ltb_case2 K)))).
Qed.
Print Assumptions C50_other_columns.

(** on a robot: quotients of values at configurations integrated from x *)
Theorem C50_robot : forall integ eps adp f x n J i k, respects f -> (forall u v, (forall k, u k = v k) -> forall k, integ x u k = integ x v k) ->
  (k < n)%nat -> adp k = true ->
  forward (robot_op integ) eps adp f x n J i k = ((f (integ x (unit_vec k (step eps k x))) i - f x i) / step eps k x)%R /\
  central (robot_op integ) eps adp f x n J i k =
    ((f (integ x (unit_vec k (step eps k x))) i - f (integ x (unit_vec k (- step eps k x))) i) / step eps k x / 2)%R.
Proof.
  exact (fun integ eps adp f x n J i k RF RI K D => conj
    (eq_trans (robot_forward integ eps adp f x n J i k RF RI) (ltb_case3 K D)) (eq_trans (robot_central integ eps adp f x n J i k RF RI) (ltb_case3 K D))).
Qed.
Print Assumptions C50_robot.

(** f (x) = x_0^2 + x_1 at (3, 0) *)
Example C50_case :
  let f := (fun (x : vec) (_ : nat) => x 0%nat * x 0%nat + x 1%nat)%R in let x := (fun k : nat => if Nat.eqb k 0 then 3 else 0)%R in
  central vector_op 1%R (fun _ => true) f x 2%nat (fun _ _ => 0)%R 0%nat 0%nat = 6%R /\
  forward vector_op 1%R (fun _ => true) f x 2%nat (fun _ _ => 0)%R 0%nat 0%nat = 9%R.
Proof.
  intros f x.
  destruct (quadratic_exact 1%R (fun _ => true) f x 2%nat (fun _ _ => 0%R) 0%nat 0%nat 9%R 6%R 1%R) as [H1 H2]; try lra; try lia; auto.
  - intros u v H i. unfold f. now rewrite !H.
  - intros t. unfold f, x, shift. cbn. ring.
  - rewrite H1, H2. unfold step, is0, x. cbn. rewrite Rabs_right by lra. destruct (Req_EM_T 3%R 0%R); lra.
Qed.

(** C63: comparison of scalars decides equality (no NaN) *)
Theorem C63_symmetric : forall (V : Type) (veq : V -> V -> bool), (forall x y, veq x y = true <-> x = y) ->
  forall f g, fun_eq veq f g = fun_eq veq g f.
Proof. exact @fun_eq_sym. Qed.
Print Assumptions C63_symmetric.

Theorem C63_reflexive : forall (V : Type) (veq : V -> V -> bool), (forall x y, veq x y = true <-> x = y) ->
  forall f, fun_eq veq f f = match fk f with
                   | KConstant _ => B false
                   | KContact _ floors objects => if Nat.leb (length objects) (length floors) then B true else Undef
                   | _ => B true
                   end.
Proof. exact @fun_eq_refl. Qed.
Print Assumptions C63_reflexive.

(** classes whose comparison involves all members: equal means identical *)
Theorem C63_sound : forall (V : Type) (veq : V -> V -> bool), (forall x y, veq x y = true <-> x = y) ->
  forall f g : fun_ V, match fk f with KIdentity | KAffine _ _ | KPoints _ _ _ _ _ | KConfig _ _ _ | KSubset _ _ _ | KActiveSet _ _ | KManip _ _ _ _ _ => True | _ => False end ->
  fun_eq veq f g = B true -> f = g.
Proof. exact @fun_eq_sound. Qed.
Print Assumptions C63_sound.

(** constant functions are equal exactly when their values differ *)
Theorem C63_constant : forall (V : Type) (veq : V -> V -> bool), (forall x y, veq x y = true <-> x = y) ->
  forall b c b' c', fun_eq veq (mkfun b (KConstant c)) (mkfun b' (KConstant c')) = B true <-> b = b' /\ c <> c'.
Proof. exact @constant_eq. Qed.
Print Assumptions C63_constant.

(** the joints and frames of transformation functions are not compared *)
Theorem C63_transformation : forall (V : Type) (veq : V -> V -> bool)
  b cl r j1 j2 F1 F2 m b' cl' r' j1' j2' F1' F2' m',
  fun_eq veq (mkfun b (KTransform cl r j1 j2 F1 F2 m)) (mkfun b' (KTransform cl' r' j1' j2' F1' F2' m')) = B true <->
  b = b' /\ cl = cl' /\ r = r' /\ m = m'.
Proof. exact @transform_eq. Qed.
Print Assumptions C63_transformation.

(** neither are the object surfaces of contacts, nor the floor surfaces beyond the number of objects *)
Theorem C63_contact : forall (V : Type) (veq : V -> V -> bool), (forall x y, veq x y = true <-> x = y) ->
  forall b r fl ob b' r' fl' ob', (length ob <= length fl)%nat -> (length ob <= length fl')%nat ->
  fun_eq veq (mkfun b (KContact r fl ob)) (mkfun b' (KContact r' fl' ob')) = B true <->
  b = b' /\ r = r' /\ length ob = length ob' /\ firstn (length ob) fl = firstn (length ob) fl'.
Proof. exact @contact_eq. Qed.
Print Assumptions C63_contact.

(** Consequence for the solvers: a constraint on a transformation between other joints is
    taken for one that is already there, and not added. *)
Theorem C63_lost_constraint : forall (V : Type) (veq : V -> V -> bool)
  (feq : fun_ V -> fun_ V -> bool), (forall f g, feq f g = true <-> fun_eq veq f g = B true) ->
  forall iadd fuel (s : bs (fun_ V) V) (d c : bc (fun_ V) V) p b cl r m j1 j2 F1 F2 j1' j2' F1' F2',
  In d (bs_cons s) -> bc_con d = None -> bc_con c = None ->
  bc_f d = mkfun b (KTransform cl r j1 j2 F1 F2 m) -> bc_f c = mkfun b (KTransform cl r j1' j2' F1' F2' m) ->
  m_cmp (ic_i (bc_c d)) = m_cmp (ic_i (bc_c c)) -> m_rhs (ic_i (bc_c d)) = m_rhs (ic_i (bc_c c)) ->
  badd feq iadd fuel s c p = (s, BNo).
Proof. exact @lost_constraint. Qed.
Print Assumptions C63_lost_constraint.

Example C63_case : fun_eq Z.eqb (tf 1 2) (tf 3 4) = B true /\ tf 1 2 <> tf 3 4 /\
  fun_eq Z.eqb (mkfun (mkbase 1 0 0 3) (KConstant [1%Z])) (mkfun (mkbase 1 0 0 3) (KConstant [1%Z])) = B false /\
  fun_eq Z.eqb (mkfun (mkbase 1 2 2 2) (KAffine [[1; 2]]%Z [3%Z])) (mkfun (mkbase 1 2 2 2) (KAffine [[1; 2]]%Z [3%Z])) = B true /\
  fun_eq Z.eqb (mkfun (mkbase 1 1 1 1) (KExtracted false 2%Z 7)) (mkfun (mkbase 1 1 1 1) (KExtracted true 5%Z 8)) = B true /\
  fun_eq Z.eqb (mkfun (mkbase 1 7 6 5) (KContact 0 [[1%Z]] [[2%Z]; [3%Z]])) (mkfun (mkbase 1 7 6 5) (KContact 0 [[1%Z]] [[2%Z]; [3%Z]])) = Undef.
Proof. repeat split; try reflexivity. discriminate. Qed.

(** C65 *)
Theorem C65_subset : forall (A : Type) (g : fn A) nargs nders sa sd x m,
  wf_fn g -> snd sa = f_in g -> snd sd = f_ind g -> fits sa nargs -> fits sd nders ->
  length x = Z.to_nat nargs -> nr m = f_outd g -> nc m = nders ->
  let f := subset_fn g nargs nders sa sd in
  f_val f x = f_val g (segment sa x) /\
  exists m' b b', f_jac f x m = Some m' /\ nr m' = nr m /\ nc m' = nc m /\
    col_block m (fst sd) (snd sd) b /\ f_jac g (segment sa x) b = Some b' /\ col_block m' (fst sd) (snd sd) b' /\
    forall i j, ~ (fst sd <= j < fst sd + snd sd)%Z -> at_ m' i j = at_ m i j.
Proof. exact @subset_spec. Qed.
Print Assumptions C65_subset.

Theorem C65_subset_active : forall (A : Type) (g : fn A) nargs nders sa sd i,
  wf_fn g -> snd sa = f_in g -> snd sd = f_ind g -> fits sa nargs -> fits sd nders ->
  (nth i (f_act (subset_fn g nargs nders sa sd)) false = true <->
     (fst sa <= Z.of_nat i < fst sa + snd sa)%Z /\ nth (i - Z.to_nat (fst sa)) (f_act g) false = true) /\
  (nth i (f_actd (subset_fn g nargs nders sa sd)) false = true <->
     (fst sd <= Z.of_nat i < fst sd + snd sd)%Z /\ nth (i - Z.to_nat (fst sd)) (f_actd g) false = true).
Proof. exact @subset_active. Qed.
Print Assumptions C65_subset_active.

(** Hence the computed Jacobian depends on what the matrix contained before. *)
Theorem C65_columns_refuted : exists (f : fn Z) x m1 m2 m1' m2',
  f_jac f x m1 = Some m1' /\ f_jac f x m2 = Some m2' /\ nr m1 = nr m2 /\ nc m1 = nc m2 /\ dump m1' <> dump m2'.
Proof.
  exists (subset_fn f3 2 2 (1, 1)%Z (1, 1)%Z), [5; 6]%Z, (mkmat 1 2 (fun _ _ => 0)%Z), (mkmat 1 2 (fun _ _ => 8)%Z).
  eexists. eexists. split; [vm_compute; reflexivity|]. split; [vm_compute; reflexivity|]. repeat split. vm_compute. discriminate.
Qed.
Print Assumptions C65_columns_refuted.

Example C65_case :
  wf_fn f3 /\ fits (1, 1)%Z 2 /\
  f_val (subset_fn f3 2 2 (1, 1)%Z (1, 1)%Z) [5; 6]%Z = [18]%Z /\
  option_map dump (f_jac (subset_fn f3 2 2 (1, 1)%Z (1, 1)%Z) [5; 6]%Z (mkmat 1 2 (fun _ _ => 0)%Z)) = Some [[0; 3]]%Z /\
  f_val (difference_fn vsub Z.opp f3 2 2 (0, 1)%Z (0, 1)%Z (1, 1)%Z (1, 1)%Z) [5; 6]%Z = [-3]%Z /\
  option_map dump (f_jac (difference_fn vsub Z.opp f3 2 2 (0, 1)%Z (0, 1)%Z (1, 1)%Z (1, 1)%Z) [5; 6]%Z (mkmat 1 2 (fun _ _ => 0)%Z)) = Some [[3; -3]]%Z.
Proof. split; [apply f3_wf|]. split; [unfold fits; cbn; lia|]. repeat split; vm_compute; reflexivity. Qed.

(** C66 *)
Theorem C66_derivative : forall n A b x v i,
  derivable_pt_lim (fun t => affine_value n A b (fun k => x k + t * v k)%R i) 0 (dot n (A i) v).
Proof. exact affine_derivative. Qed.
Print Assumptions C66_derivative.

Theorem C66_active : forall m n A b j, (j < n)%nat ->
  (affine_active m A j = true <-> exists i x t, (i < m)%nat /\ affine_value n A b (shift x j t) i <> affine_value n A b x i).
Proof. exact affine_active_spec. Qed.
Print Assumptions C66_active.

Example C66_case : let A := (fun i j : nat => if Nat.eqb j 1 then 2 else 0)%R in
  affine_active 2%nat A 0%nat = false /\ affine_active 2%nat A 1%nat = true /\ affine_value 2%nat A (fun _ => 5)%R (fun _ => 3)%R 0%nat = 11%R.
Proof.
  cbv zeta. unfold affine_active, affine_value, dot, is0. cbn. destruct (Req_EM_T 0%R 0%R); [|lra]. destruct (Req_EM_T 2%R 0%R); [lra|]. cbn. repeat split; ring.
Qed.
