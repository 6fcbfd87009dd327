(** Theorems of property C44: reduced Jacobian of the solver by substitution. *)
From Coq Require Import ZArith List Bool Reals Lra Lia.
From Verif Require Import SegModel SegSpec ViewModel ViewProofs EcsModel EcsSpec EcsOrderProofs EcsJacModel EcsJacSpec RedModel RedProofs RedDerivProofs
  ImplModel HierModel BySubModel BySubSpec RedRowProofs EcsFinalProofs RedExamples.
Import ListNotations.
Open Scope Z_scope.

(** Entry (p, c) is the total derivative of active row p with respect to free variable c:
    sum over all variables of the partial derivative times the variation of the variable
    through the explicit constraints ([T], the total Jacobian of C18).  This includes the
    case where the update is skipped because no explicit constraint reads a free variable. *)
Theorem C44_total : forall (V Rh : Type) iadd (P : con V Rh -> Prop) n m, family n m P ->
  forall (st : ecs V Rh) Fs rows (Jf : mat R) T, reach iadd P n m st -> jac_sizes (data st) Fs ->
  nc Jf = m -> inside (nr Jf) rows -> total_jacobian 0%R 1%R Rplus Rmult m (data st) Fs T ->
  exists M, reduced 0%R 1%R Rplus Rmult st Fs rows Jf = Some M /\ nr M = cardinal rows /\ nc M = cardinal (notOutDers st) /\
    forall p c r j, nth_error (indices rows) p = Some r -> nth_error (indices (notOutDers st)) c = Some j ->
      at_ M (Z.of_nat p) (Z.of_nat c) = ksum 0%R Rplus (Z.to_nat m) (fun i => (at_ Jf r i * T i j)%R).
Proof. exact @reduced_spec. Qed.
Print Assumptions C44_total.

(** In vector spaces: derivative of a residual evaluated after the explicit constraints are
    solved, along any curve of configurations. *)
Theorem C44_derivative : forall (Rh : Type) iadd (P : con R Rh -> Prop) m, family m m P ->
  (forall c, P c -> c_in c = c_inv c /\ c_out c = c_outv c) ->
  forall (st : ecs R Rh) rl Fs rows (Jf M : mat R) (q r : R -> Z -> R) (dq : Z -> R) (f : Z -> (Z -> R) -> R),
  reach iadd P m m st -> length rl = length (data st) -> (forall c, In c (data st) -> sized c) ->
  jac_sizes (data st) Fs -> nc Jf = m -> inside (nr Jf) rows ->
  reduced 0%R 1%R Rplus Rmult st Fs rows Jf = Some M ->
  (forall t, solve (with_rhs st rl) (q t) = Some (r t)) ->
  (forall k c F rh, nth_error (data st) k = Some c -> nth_error Fs k = Some F -> nth_error rl k = Some rh ->
     diff_along (c_val c rh) (map (r 0%R) (indices (c_in c))) F (length (indices (c_out c)))) ->
  (forall i, 0 <= i < m -> derivable_pt_lim (fun t => q t i) 0 (dq i)) ->
  (forall i (g : R -> Z -> R) dg, covers rows i -> g 0%R = r 0%R ->
     (forall x, 0 <= x < m -> derivable_pt_lim (fun t => g t x) 0 (dg x)) ->
     derivable_pt_lim (fun t => f i (g t)) 0 (ksum 0%R Rplus (Z.to_nat m) (fun x => (at_ Jf i x * dg x)%R))) ->
  forall p i, nth_error (indices rows) p = Some i ->
    derivable_pt_lim (fun t => f i (r t)) 0
      (ksum 0%R Rplus (length (indices (notOutDers st)))
         (fun c => (at_ M (Z.of_nat p) c * dq (nth (Z.to_nat c) (indices (notOutDers st)) 0%Z))%R)).
Proof. exact @reduced_derivative. Qed.
Print Assumptions C44_derivative.

(** Rows of constraints that are left out: their residual does not vary with the free
    variables.  [g] is a row of the Jacobian of constraint c, zero for the variables that c
    does not declare active. *)
Theorem C44_dropped_rows : forall (F V : Type) (iadd : Z -> Z -> Z) (P : con V (list V) -> Prop) n m (st : ecs V (list V)) junk
  (c : ic F V) Fs T (g : Z -> R),
  family n m P -> exact_add iadd -> reach iadd P n m st -> length (ic_adp c) = Z.to_nat m -> jac_sizes (data st) Fs ->
  total_jacobian 0%R 1%R Rplus Rmult m (data st) Fs T ->
  act_bs iadd junk st (notOutDers st) c = false ->
  (forall i, 0 <= i < m -> ~ uses c i -> g i = 0%R) ->
  forall j, free_var m (data st) j -> ksum 0%R Rplus (Z.to_nat m) (fun i => (g i * T i j)%R) = 0%R.
Proof. exact @dropped_rows. Qed.
Print Assumptions C44_dropped_rows.

(** q1 = q0^2 and residual q0 q1 at q0 = 1: derivative 1 + 2 of q0^3 *)
Example C44_case : (exists M, reduced 0%R 1%R Rplus Rmult sq_st [sq_F] [(0, 1)] sq_J = Some M /\ at_ M 0 0 = 3%R) /\
  reach Z.add (fun c => c = sq_con) 2 2 sq_st /\ family 2 2 (fun c => c = sq_con) /\
  total_jacobian 0%R 1%R Rplus Rmult 2 (data sq_st) [sq_F] sq_T /\
  (forall t, exists r, solve (with_rhs sq_st [tt]) (sq_q t) = Some r /\ r 0 = (1 + t)%R /\ r 1 = ((1 + t) * (1 + t))%R) /\
  derivable_pt_lim (fun t => ((1 + t) * ((1 + t) * (1 + t)))%R) 0 3%R.
Proof.
  split; [exact sq_value|]. split; [exact sq_reach|]. split; [exact sq_family|]. split; [exact sq_total|]. split; [exact sq_solve|].
  exact sq_curve.
Qed.
Example C44_set_case :
  let Fs := [mkmat 1 2 (fun _ j => 2 + j); mkmat 1 2 (fun _ j => 5 + j)] in
  match reduced 0 1 Z.add Z.mul ex_st Fs [(1, 1)] (mkmat 2 6 (fun i j => if i =? 1 then j + 1 else 0)) with
  | Some M => nr M = 1 /\ nc M = 4 /\ map (at_ M 0) [0; 1; 2; 3] = [116; 140; 15; 4]
  | None => False
  end.
Proof. vm_compute. repeat split. Qed.
