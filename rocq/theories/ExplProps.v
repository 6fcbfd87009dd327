(** Properties C62 and C64. *)
From Coq Require Import ZArith List Bool Reals Lia.
From Verif Require Import SegModel SegSpec SegProofs ViewModel ViewProofs EcsModel EcsSpec EcsJacModel EcsJacSpec FunModel ImplFunModel ImplFunProofs
  LockModel LockProofs ExplExamples.
Import ListNotations.
Open Scope Z_scope.

(** C62.  [locks]: distinct joints with their values; all are accepted, the free
    variables are those of the other joints, and solving writes the sum of the value
    and the right hand side (zero after the additions) in each locked joint. *)
Theorem C62_whole : forall (V : Type) (zero : V) (integ : nat -> list V -> list V -> list V) (l : layout) e,
  wf_layout l -> 0 <= e -> forall iadd fuel (locks : list (nat * list V)), (1 <= fuel)%nat ->
  NoDup (map fst locks) -> (forall k v, In (k, v) locks -> (k < length l)%nat) ->
  (forall k v r, In (k, v) locks -> length (integ k v r) = Z.to_nat (size_q l k)) ->
  exists st, adds iadd fuel (init (dev_q l e) (dev_v l e)) (map (fun p => lk_con (lock_whole zero integ l (fst p) (snd p))) locks)
               = (st, map Added (seq 0 (length locks))) /\
  rhsl st = map (fun p => repeat zero (Z.to_nat (size_v l (fst p)))) locks /\
  (forall i, covers (notOutArgs st) i <-> 0 <= i < dev_q l e /\ forall k v, In (k, v) locks -> ~ rank_q l k <= i < rank_q l k + size_q l k) /\
  (forall i, covers (notOutDers st) i <-> 0 <= i < dev_v l e /\ forall k v, In (k, v) locks -> ~ rank_v l k <= i < rank_v l k + size_v l k) /\
  forall rl q, length rl = length locks -> exists q', solve (with_rhs st rl) q = Some q' /\
    (forall k v r, In ((k, v), r) (combine locks rl) -> map q' (zseq (rank_q l k) (Z.to_nat (size_q l k))) = integ k v r) /\
    (forall i, (forall k v, In (k, v) locks -> ~ rank_q l k <= i < rank_q l k + size_q l k) -> q' i = q i).
Proof. exact @whole_spec. Qed.
Print Assumptions C62_whole.

(** The other constructors pass the output configuration interval as input velocity:
    the output configuration is empty, the rank is read out of bounds, and adding the
    constraint to a set of explicit constraints is undefined in every state. *)
Theorem C62_partial_refuted : forall (V : Type) (zero : V) vadd l k index value iadd fuel st,
  let c := lock_partial zero vadd l k index value in
  c_out (lk_con c) = [] /\ c_inv (lk_con c) = [(rank_q l k, size_q l k - index)] /\ c_outv (lk_con c) = [(rank_v l k, size_v l k - index)] /\
  rank_in_configuration c = None /\ (value <> [] -> lk_asserts c = false) /\ add iadd fuel st (lk_con c) = (st, Undef).
Proof. exact partial_spec. Qed.
Print Assumptions C62_partial_refuted.
Theorem C62_extra_refuted : forall (V : Type) (zero : V) vadd l e index value iadd fuel st,
  let c := lock_extra zero vadd l e index value in
  c_out (lk_con c) = [] /\ c_inv (lk_con c) = [(total fst l + index, Z.of_nat (length value))] /\
  c_outv (lk_con c) = [(total snd l + index, Z.of_nat (length value))] /\
  rank_in_configuration c = None /\ (value <> [] -> lk_asserts c = false) /\ add iadd fuel st (lk_con c) = (st, Undef).
Proof. exact extra_spec. Qed.
Print Assumptions C62_extra_refuted.

(** The ranks reported: those of the joint, the first dropped variables of a partially locked joint not being skipped. *)
Theorem C62_ranks : forall (V : Type) (zero : V) integ vadd l k e index value,
  rank_in_configuration (lock_whole zero integ l k value) = Some (rank_q l k) /\
  rank_in_velocity (lock_whole zero integ l k value) = Some (rank_v l k) /\
  rank_in_velocity (lock_partial zero vadd l k index value) = Some (rank_v l k) /\
  rank_in_velocity (lock_extra zero vadd l e index value) = Some (total snd l + index).
Proof. exact ranks. Qed.
Print Assumptions C62_ranks.

Example C62_case : wf_layout robot /\
  (let '(st, rs) := adds Z.add 1 (init (dev_q robot 2) (dev_v robot 2))
      [lk_con (lock_whole 0 zinteg robot 2 [3; 4]); lk_con (lock_whole 0 zinteg robot 1 [5])] in
   (rs, notOutArgs st, notOutDers st, option_map (fun q => map q [6; 7; 8; 9; 10]) (solve st (fun i => i))))
  = ([Added 0; Added 1], [(0, 7); (10, 2)], [(0, 6); (8, 2)], Some [6; 5; 3; 4; 10]).
Proof. split; [|vm_compute; reflexivity]. intros x [<-|[<-|[<-|[]]]]; cbn; lia. Qed.

(** C64 *)
Theorem C64_equivalence : forall (V K : Type) (integ : list V -> list V -> list V) (elt tan : list V -> Prop) (g : ifun V K) (c : con V (list V)) q r,
  (forall a v, elt a -> tan v -> if_sub g (integ a v) a = v) ->
  (forall a b, elt a -> elt b -> integ a (if_sub g b a) = b) ->
  c_in c = if_in g -> c_out c = if_out g -> (forall rhs x, c_val c rhs x = integ (if_f g x) rhs) ->
  elt (map q (indices (if_out g))) -> elt (if_f g (map q (indices (if_in g)))) -> tan r ->
  (if_value g q = r <-> satisfies q c r).
Proof. exact @implicit_explicit. Qed.
Print Assumptions C64_equivalence.

Theorem C64_after_solve : forall (V K : Type) (integ : list V -> list V -> list V) iadd (P : con V (list V) -> Prop) n m, family n m P ->
  forall (st : ecs V (list V)) rl q q' k c r (g : ifun V K), reach iadd P n m st -> length rl = length (data st) ->
  (forall c, In c (data st) -> sized c) -> solve (with_rhs st rl) q = Some q' ->
  nth_error (data st) k = Some c -> nth_error rl k = Some r ->
  c_in c = if_in g -> c_out c = if_out g -> (forall rhs x, c_val c rhs x = integ (if_f g x) rhs) ->
  (forall a, a = if_f g (map q' (indices (if_in g))) -> if_sub g (integ a r) a = r) ->
  if_value g q' = r.
Proof. exact @solved_implicit. Qed.
Print Assumptions C64_after_solve.

Theorem C64_active : forall (V K : Type) (g : ifun V K) i,
  (if_active g i = true <-> covers (if_in g) i \/ covers (if_out g) i) /\ (if_activev g i = true <-> covers (if_inv g) i \/ covers (if_outv g) i).
Proof. exact @active_spec. Qed.
Print Assumptions C64_active.

(** output space with one factor *)
Theorem C64_blocks : forall (V K : Type) (zero : K) (g : ifun V K) fa q J, if_space g = [fa] -> 0 <= fa_v fa ->
  let qo := vread q (if_out g) in let fq := if_f g (vread q (if_in g)) in let F := if_J g (vread q (if_in g)) in
  nr J = fa_v fa -> nc J = if_nv g ->
  inside (if_nv g) (if_inv g) -> inside (if_nv g) (if_outv g) ->
  NoDup (indices (if_inv g)) -> NoDup (indices (if_outv g)) -> (forall i, ~ (covers (if_inv g) i /\ covers (if_outv g) i)) ->
  cardinal (if_outv g) = fa_v fa -> 0 <= if_nv g ->
  length qo = Z.to_nat (fa_q fa) -> length fq = Z.to_nat (fa_q fa) ->
  nr F = fa_v fa -> nc F = cardinal (if_inv g) ->
  (nr (fa_out fa qo fq) = fa_v fa /\ nc (fa_out fa qo fq) = fa_v fa) ->
  (forall M, nr M = fa_v fa -> nc M = cardinal (if_inv g) -> nr (fa_in fa qo fq M) = nr M /\ nc (fa_in fa qo fq M) = nc M) ->
  exists J', if_jacobian zero g q J = Some J' /\ nr J' = nr J /\ nc J' = nc J /\
    (forall i p j, 0 <= i < fa_v fa -> nth_error (indices (if_outv g)) p = Some j -> at_ J' i j = at_ (fa_out fa qo fq) i (Z.of_nat p)) /\
    (forall i p j, 0 <= i < fa_v fa -> nth_error (indices (if_inv g)) p = Some j -> at_ J' i j = at_ (fa_in fa qo fq (rows_of 0 (fa_v fa) F)) i (Z.of_nat p)) /\
    (forall i j, 0 <= i < fa_v fa -> ~ covers (if_inv g) j -> ~ covers (if_outv g) j -> at_ J' i j = zero).
Proof. exact @single_jacobian. Qed.
Print Assumptions C64_blocks.

(** output space R^n: the Jacobian is the derivative of the value along every curve *)
Theorem C64_vector_space : forall (g : ifun R R) n (q : R -> Z -> R) dq J J',
  if_space g = [plain 0%R 1%R Ropp n] -> if_sub g = (fun a b => map (fun p => (fst p - snd p)%R) (combine a b)) -> if_in g = if_inv g -> if_out g = if_outv g ->
  0 <= n -> nr J = n -> nc J = if_nv g -> 0 <= if_nv g ->
  inside (if_nv g) (if_inv g) -> inside (if_nv g) (if_outv g) ->
  NoDup (indices (if_inv g)) -> NoDup (indices (if_outv g)) -> (forall i, ~ (covers (if_inv g) i /\ covers (if_outv g) i)) ->
  cardinal (if_outv g) = n -> (forall x, length x = length (indices (if_in g)) -> length (if_f g x) = Z.to_nat n) ->
  let x0 := map (q 0%R) (indices (if_in g)) in
  nr (if_J g x0) = n -> nc (if_J g x0) = cardinal (if_inv g) -> diff_along (if_f g) x0 (if_J g x0) (Z.to_nat n) ->
  (forall i, 0 <= i < if_nv g -> derivable_pt_lim (fun t => q t i) 0 (dq i)) ->
  if_jacobian 0%R g (q 0%R) J = Some J' ->
  forall i, (i < Z.to_nat n)%nat ->
    derivable_pt_lim (fun t => nth i (if_value g (q t)) 0%R) 0 (ksum 0%R Rplus (Z.to_nat (if_nv g)) (fun j => (at_ J' (Z.of_nat i) j * dq j)%R)).
Proof. exact plain_derivative. Qed.
Print Assumptions C64_vector_space.

(** With two factors of positive dimension the row offset is counted twice: the
    Jacobian is written out of bounds, whatever the function. *)
Theorem C64_several_factors_refuted : forall (V K : Type) (zero : K) (g : ifun V K) fa fb t q J,
  if_space g = fa :: fb :: t -> 0 < fa_v fa -> 0 < fa_v fb ->
  nonneg (if_outv g) -> fa_v fa + fa_v fb <= cardinal (if_outv g) -> if_jacobian zero g q J = None.
Proof. exact @several_undefined. Qed.
Print Assumptions C64_several_factors_refuted.

Example C64_case : if_value (exif [plain 0 1 Z.opp 2]) (fun i => i * i) = [8; 14] /\
  option_map zdump (if_jacobian 0 (exif [plain 0 1 Z.opp 2]) (fun i => i * i) (mkmat 2 6 (fun _ _ => 9)))
    = Some [[-1; -1; 0; 1; 0; 0]; [0; -2; 0; 0; 1; 0]] /\
  if_jacobian 0 (exif [plain 0 1 Z.opp 1; plain 0 1 Z.opp 1]) (fun i => i * i) (mkmat 2 6 (fun _ _ => 9)) = None.
Proof. repeat split; vm_compute; reflexivity. Qed.
