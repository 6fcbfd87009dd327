(** Property C67. *)
From Coq Require Import ZArith List Bool Lia.
From Verif Require Import ViewModel FunModel FunSpec SegSpec FunProofs FunDiffProofs FunExamples.
Import ListNotations.
Open Scope Z_scope.

(** [sub]: difference in the output space of g, [neg]: opposite. *)
Theorem C67_difference : forall (A : Type) (sub : list A -> list A -> list A) (neg : A -> A) (g : fn A) nargs nders la ld ra rd x m,
  wf_fn g -> snd la = f_in g -> snd ra = f_in g -> snd ld = f_ind g -> snd rd = f_ind g ->
  fits la nargs -> fits ra nargs -> fits ld nders -> fits rd nders -> apart ld rd ->
  length x = Z.to_nat nargs -> nr m = f_outd g -> nc m = nders ->
  let f := difference_fn sub neg g nargs nders la ld ra rd in
  f_val f x = sub (f_val g (segment la x)) (f_val g (segment ra x)) /\
  exists m' bl br bl' br', f_jac f x m = Some m' /\ nr m' = nr m /\ nc m' = nc m /\
    col_block m (fst ld) (snd ld) bl /\ f_jac g (segment la x) bl = Some bl' /\ col_block m' (fst ld) (snd ld) bl' /\
    col_block m (fst rd) (snd rd) br /\ f_jac g (segment ra x) br = Some br' /\
    (forall i j, 0 <= i < nr m -> 0 <= j < snd rd -> at_ m' i (fst rd + j) = neg (at_ br' i j)) /\
    forall i j, ~ (fst ld <= j < fst ld + snd ld) -> ~ (fst rd <= j < fst rd + snd rd) -> at_ m' i j = at_ m i j.
Proof. exact @difference_spec. Qed.
Print Assumptions C67_difference.

Theorem C67_difference_active : forall (A : Type) (sub : list A -> list A -> list A) (neg : A -> A) (g : fn A) nargs nders la ld ra rd i,
  wf_fn g -> snd la = f_in g -> snd ra = f_in g -> snd ld = f_ind g -> snd rd = f_ind g ->
  fits la nargs -> fits ra nargs -> fits ld nders -> fits rd nders -> apart la ra -> apart ld rd ->
  let f := difference_fn sub neg g nargs nders la ld ra rd in
  let shifted (s : Z * Z) (fl : list bool) := fst s <= Z.of_nat i < fst s + snd s /\ nth (i - Z.to_nat (fst s)) fl false = true in
  (nth i (f_act f) false = true <-> shifted la (f_act g) \/ shifted ra (f_act g)) /\
  (nth i (f_actd f) false = true <-> shifted ld (f_actd g) \/ shifted rd (f_actd g)).
Proof. exact @difference_active. Qed.
Print Assumptions C67_difference_active.

(** With overlapping intervals neither holds: f x = g x - g x is zero with Jacobian -3... *)
Theorem C67_overlap_jacobian_refuted : exists (g : fn Z), wf_fn g /\
  let f := difference_fn vsub Z.opp g 1 1 (0, 1) (0, 1) (0, 1) (0, 1) in
  (forall x, f_val f [x] = [0]) /\ forall x m, nr m = 1 -> nc m = 1 -> option_map dump (f_jac f [x] m) = Some [[-3]].
Proof.
  exists f3. split; [apply f3_wf|]. cbv zeta. split.
  - intros x. cbn -[Z.mul Z.sub]. f_equal. apply Z.sub_diag.
  - intros x [a b h]. cbn. intros -> ->. reflexivity.
Qed.
Print Assumptions C67_overlap_jacobian_refuted.

(** ... and a parameter the value depends on is flagged inactive. *)
Theorem C67_overlap_active_refuted : exists (g : fn Z), wf_fn g /\
  let f := difference_fn vsub Z.opp g 3 3 (0, 2) (0, 2) (1, 2) (1, 2) in
  nth 1 (f_act f) false = false /\ f_val f [0; 0; 0] <> f_val f [0; 1; 0].
Proof. exists g2. split; [apply g2_wf|]. cbv zeta. split; [reflexivity|]. vm_compute. discriminate. Qed.
Print Assumptions C67_overlap_active_refuted.

(** Function with saturated variables. *)
Theorem C67_active_set : forall (A : Type) (zero : A) (g : fn A) l x m, wf_fn g -> Forall (fun s => fits s (f_ind g)) l ->
  length x = Z.to_nat (f_in g) -> nr m = f_outd g -> nc m = f_ind g ->
  let f := active_set_fn zero g l in
  f_val f x = f_val g x /\ (forall i, (i < Z.to_nat (f_ind g))%nat -> nth i (f_actd f) false = true) /\
  exists mg m', f_jac g x m = Some mg /\ f_jac f x m = Some m' /\ nr m' = nr m /\ nc m' = nc m /\
  forall i j, (covers l j -> at_ m' i j = zero) /\ (~ covers l j -> at_ m' i j = at_ mg i j).
Proof. exact @active_set_spec. Qed.
Print Assumptions C67_active_set.

(** so that a variable is flagged active though its column is null at every point *)
Theorem C67_saturated_active_refuted : exists (g : fn Z) l j, wf_fn g /\ Forall (fun s => fits s (f_ind g)) l /\
  let f := active_set_fn 0 g l in nth j (f_actd f) false = true /\
  forall x m m', nr m = f_outd g -> nc m = f_ind g -> f_jac f x m = Some m' -> forall i, at_ m' i (Z.of_nat j) = 0.
Proof.
  exists f3, [(0, 1)], 0%nat. split; [apply f3_wf|]. split; [repeat constructor; cbn; lia|]. cbv zeta. split; [reflexivity|].
  intros [|x [|y t]] m m'; cbn [f_jac active_set_fn].
  - discriminate.
  - intros Hr Hc. unfold jacobian. rewrite Hr, Hc. cbn. rewrite Hr, Hc. cbn. intros E. injection E as <-. reflexivity.
  - unfold jacobian. replace (Z.of_nat _ =? f_in f3) with false; [discriminate|]. symmetry. apply Z.eqb_neq. cbn [length f_in f3]. lia.
Qed.
Print Assumptions C67_saturated_active_refuted.

Example C67_case :
  wf_fn f3 /\ wf_fn g2 /\ apart (0, 1) (1, 1) /\ fits (0, 1) 2 /\ fits (1, 1) 2 /\
  f_val (difference_fn vsub Z.opp f3 2 2 (0, 1) (0, 1) (1, 1) (1, 1)) [5; 6] = [-3] /\
  option_map dump (f_jac (difference_fn vsub Z.opp f3 2 2 (0, 1) (0, 1) (1, 1) (1, 1)) [5; 6] (mkmat 1 2 (fun _ _ => 0))) = Some [[3; -3]] /\
  f_actd (difference_fn vsub Z.opp g2 4 4 (2, 2) (2, 2) (0, 2) (0, 2)) = [false; true; false; true] /\
  option_map dump (f_jac (active_set_fn 0 g2 [(0, 1)]) [5; 6] (mkmat 1 2 (fun _ _ => 8))) = Some [[0; 1]] /\
  option_map dump (f_jac (active_set_fn 0 g2 [(1, 1)]) [5; 6] (mkmat 1 2 (fun _ _ => 8))) = Some [[0; 0]].
Proof. split; [apply f3_wf|]. split; [apply g2_wf|]. split; [left; cbn; lia|]. split; [unfold fits; cbn; lia|]. split; [unfold fits; cbn; lia|]. repeat split; vm_compute; reflexivity. Qed.
