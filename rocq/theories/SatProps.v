(** Property C33: saturation.

    [sat_list leb lb ub q pairs s]: effect of clamping configuration variable i into
    [lb i, ub i] and writing the flag of velocity variable k, for each pair (i, k), on
    the vectors and boolean of s.  [clamped lb ub v w f hit]: v becomes w with flag f;
    hit: a bound was reached. *)
From Coq Require Import ZArith List Bool Reals Floats.SpecFloat.
From Verif Require Import ViewModel SatModel SatProofs SatBase NanModel.
Import ListNotations.
Open Scope Z_scope.

Theorem C33_bounds : forall lb ub q n m (s : sst R),
  let r := sat_list Rleb lb ub q (bounds_pairs n m) s in
  (forall i, 0 <= i < n -> exists f hit, clamped (lb i) (ub i) (q i) (qs r i) f hit /\ ((forall j, i < j < n -> m j <> m i) -> fl r (m i) = f) /\ (hit -> ret r = true)) /\
  (forall i, ~ 0 <= i < n -> qs r i = qs s i) /\
  (forall k, (forall j, 0 <= j < n -> m j <> k) -> fl r k = fl s k) /\
  (ret s = false -> (ret r = true <-> exists i, 0 <= i < n /\ ((q i <= lb i)%R \/ (ub i <= q i)%R))).
Proof. exact bounds_values. Qed.
Print Assumptions C33_bounds.

(** within the bounds, idempotent *)
Theorem C33_idempotent : forall lb ub q n m (s : sst R), (forall i, 0 <= i < n -> (lb i <= ub i)%R) ->
  let r := sat_list Rleb lb ub q (bounds_pairs n m) s in
  let r2 := sat_list Rleb lb ub (qs r) (bounds_pairs n m) (mksst (qs r) (fl r) false) in
  (forall i, 0 <= i < n -> (lb i <= qs r i <= ub i)%R) /\ (forall i, qs r2 i = qs r i) /\ (ret s = false -> ret r2 = ret r) /\
  ((forall i, 0 <= i < n -> (lb i < ub i)%R) -> forall k, fl r2 k = fl r k).
Proof. exact bounds_twice. Qed.
Print Assumptions C33_idempotent.

(** input and output may be the same vector *)
Theorem C33_in_place : forall (V : Type) (leb : V -> V -> bool) lb ub l, NoDup (map fst l) ->
  forall (s : sst V) q, (forall i, In i (map fst l) -> qs s i = q i) ->
  sat_list_in_place leb lb ub l s = sat_list leb lb ub q l s.
Proof. exact @in_place. Qed.
Print Assumptions C33_in_place.

(** without bounds nothing changes, as with bounds when every variable is strictly inside *)
Theorem C33_base : forall (q : Z -> R), let b := base_saturate q in
  (forall i, qs b i = q i) /\ (forall k, fl b k = 0) /\ ret b = false /\
  forall lb ub n m s, ret s = false -> (forall i, 0 <= i < n -> (lb i < q i < ub i)%R) -> (forall i j, 0 <= i < n -> 0 <= j < n -> m i = m j -> i = j) ->
  let r := sat_list Rleb lb ub q (bounds_pairs n m) s in
  (forall i, 0 <= i < n -> qs r i = qs b i /\ fl r (m i) = fl b (m i)) /\ ret r = ret b.
Proof. exact base_same. Qed.
Print Assumptions C33_base.

(** bounds of a robot: joints one after the other, then d extra variables *)
Theorem C33_device : forall lb ub q l d (s : sst R), consecutive 0 0 l -> 0 <= d -> ret s = false ->
  let n := total_nq l + d in
  let r := sat_list Rleb lb ub q (device_pairs l (total_nq l) (total_nv l) d) s in
  (forall i, 0 <= i < n -> exists f hit, clamped (lb i) (ub i) (q i) (qs r i) f hit) /\
  (forall i, ~ 0 <= i < n -> qs r i = qs s i) /\
  (ret r = true <-> exists i, 0 <= i < n /\ ((q i <= lb i)%R \/ (ub i <= q i)%R)) /\
  (forall k, 0 <= k < d -> exists w hit, clamped (lb (total_nq l + k)) (ub (total_nq l + k)) (q (total_nq l + k)) w (fl r (total_nv l + k)) hit).
Proof. exact device_values. Qed.
Print Assumptions C33_device.

(** Flags of the joints: a velocity variable has the flag of the configuration variable of
    same rank, the last one that of the last configuration variable of the joint. *)
Theorem C33_joint_flags : forall lb ub q l1 j l2 d (s : sst R) k, let l := l1 ++ j :: l2 in consecutive 0 0 l -> 0 <= d ->
  (forall j', In j' l2 -> j_nv j' = 0 -> j_nq j' = 0) -> 0 <= k < j_nv j -> j_nv j <= j_nq j ->
  let i := j_iq j + (if k + 1 =? j_nv j then j_nq j - 1 else k) in
  let r := sat_list Rleb lb ub q (device_pairs l (total_nq l) (total_nv l) d) s in
  exists w hit, clamped (lb i) (ub i) (q i) w (fl r (j_iv j + k)) hit.
Proof. exact joint_flags. Qed.
Print Assumptions C33_joint_flags.

(** With two configuration variables for one velocity variable, the flag of a
    variable at its bound is overwritten: a bound is reached but no flag is set. *)
Theorem C33_flag_lost_refuted : exists (lb ub q : Z -> Z) n m (s : sst Z),
  let r := sat_list Z.leb lb ub q (bounds_pairs n m) s in
  ret s = false /\ ret r = true /\ q 0 = ub 0 /\ 0 <= 0 < n /\ forall k, fl r k = 0.
Proof.
  exists (fun _ => -1), (fun _ => 1), (fun i => if i =? 0 then 1 else 0), 2, (fun _ => 0), (mksst (fun _ => 0) (fun _ => 0) false).
  cbv zeta. repeat split; try reflexivity; try discriminate. intros k. vm_compute. destruct k; reflexivity.
Qed.
Print Assumptions C33_flag_lost_refuted.

(** NaN goes through unclamped and unnoticed. *)
Theorem C33_nan_refuted : exists lb ub v : spec_float, SFleb lb ub = true /\ clamp SFleb lb ub v = (v, 0, false) /\
  SFleb lb v = false /\ SFleb v ub = false.
Proof. exists fzero, fzero, S754_nan. vm_compute. auto. Qed.
Print Assumptions C33_nan_refuted.

(** columns of the reduced Jacobian that are zeroed: variables at a bound that the
    gradient -J^T e pushes outside *)
Theorem C33_columns : forall sat free (J : mat R) (e : list R) i j v,
  nth_error free (Z.to_nat j) = Some v -> sat v = -1 \/ sat v = 0 \/ sat v = 1 ->
  let g := tdot 0%R Rplus Rmult J e j 0 in
  let J' := compute_saturation 0%R Rplus Rmult (fun x => if Rlt_dec x 0 then true else false) IZR true sat free J e in
  ((sat v = 1 /\ (0 < - g)%R) \/ (sat v = -1 /\ (- g < 0)%R) -> at_ J' i j = 0%R) /\
  (~ ((sat v = 1 /\ (0 < - g)%R) \/ (sat v = -1 /\ (- g < 0)%R)) -> at_ J' i j = at_ J i j) /\ nr J' = nr J /\ nc J' = nc J.
Proof. exact saturated_columns. Qed.
Print Assumptions C33_columns.

Theorem C33_gradient : forall (J : mat R) e j i,
  tdot 0%R Rplus Rmult J e j i = fold_right Rplus 0%R (map (fun p => (at_ J (i + Z.of_nat (fst p)) j * snd p)%R) (combine (seq 0 (length e)) e)).
Proof. exact tdot_sum. Qed.
Print Assumptions C33_gradient.

(** an arm with a planar rotation joint (2 configuration variables, 1 velocity), a
    sliding joint and an extra variable *)
Example C33_case :
  let joints := [mkjoint 2 1 0 0; mkjoint 1 1 2 1] in
  let l := device_pairs joints 3 2 1 in
  consecutive 0 0 joints /\ total_nq joints = 3 /\ total_nv joints = 2 /\
  l = [(0, 0); (1, 0); (2, 1); (3, 2)] /\
  (let r := sat_list Z.leb (fun _ => -5) (fun _ => 5) (fun i => if i =? 2 then 9 else i) l (mksst (fun _ => 0) (fun _ => 7) false) in
   map (qs r) [0; 1; 2; 3; 4] = [0; 1; 5; 3; 0] /\ map (fl r) [0; 1; 2; 3] = [0; 1; 0; 7] /\ ret r = true).
Proof. cbn. repeat split; try reflexivity; discriminate. Qed.
