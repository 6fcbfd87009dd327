(** Six variables, exA and exB of EcsFinalProofs.v: 4 = 0 + 1 + rhs, 5 = 2 + 4 + rhs. *)
From Coq Require Import ZArith List Bool Lia.
From Verif Require Import ViewModel SegModel SegSpec EcsModel EcsSpec EcsFinalProofs SatModel IntModel IntSpec.
Import ListNotations.
Open Scope Z_scope.

Definition zplus (q v : Z -> Z) : Z -> Z := fun i => q i + v i.
Definition vec (l : list Z) : Z -> Z := fun i => nth (Z.to_nat i) l 0.
Definition six := bounds_pairs 6 (fun i => i).
Definition step lb ub rl from v := option_map (fun r => (map (qs r) (zrange 6), map (fl r) (zrange 6), ret r))
  (bintegrate Z.leb zplus (fun _ => lb) (fun _ => ub) six (with_rhs ex_st rl) (vec from) (vec v) (fun _ => 7)).

(** outputs 4 and 5 leave the bounds (-10, 10) and no bound is reported *)
Lemma output_bounds_refuted : exists (e : ecs Z Z) rl lb ub from v r,
  reach Z.add (fun c => In c exs) 6 6 e /\ (forall c, In c (data e) -> sized c) /\ length rl = length (data e) /\
  (forall i, lb i < from i < ub i) /\ satisfies_all from (combine (data e) rl) /\
  bintegrate Z.leb zplus lb ub six (with_rhs e rl) from v (fun _ => 0) = Some r /\
  ret r = false /\ (forall k, 0 <= k < 6 -> fl r k = 0) /\ ub 4 < qs r 4.
Proof.
  destruct (bintegrate Z.leb zplus (fun _ => -10) (fun _ => 10) six (with_rhs ex_st [0; 0])
    (fun i => if i =? 5 then 3 else if i =? 4 then 2 else 1) (vec [5; 5]) (fun _ => 0)) as [r|] eqn:E; [|vm_compute in E; discriminate].
  exists ex_st, [0; 0], (fun _ => -10), (fun _ => 10), (fun i => if i =? 5 then 3 else if i =? 4 then 2 else 1), (vec [5; 5]), r.
  split; [exact ex_reach|]. split; [exact ex_sized|]. split; [reflexivity|].
  split; [intros i; destruct (i =? 5), (i =? 4); lia|].
  split. { intros c x H. vm_compute in H. destruct H as [H|[H|[]]]; injection H as <- <-; reflexivity. }
  split; [exact E|]. vm_compute in E. injection E as <-. cbn [ret fl qs]. split; [reflexivity|].
  split; [|reflexivity]. intros k Hk.
  assert (C : k = 0 \/ k = 1 \/ k = 2 \/ k = 3 \/ k = 4 \/ k = 5) by lia.
  destruct C as [->|[->|[->|[->|[->| ->]]]]]; reflexivity.
Qed.

(** a bound is reported for output 4, and every variable of the result is strictly
    within the bounds *)
Lemma report_refuted : exists (e : ecs Z Z) rl lb ub from v r,
  reach Z.add (fun c => In c exs) 6 6 e /\ (forall c, In c (data e) -> sized c) /\ length rl = length (data e) /\
  bintegrate Z.leb zplus lb ub six (with_rhs e rl) from v (fun _ => 0) = Some r /\
  ret r = true /\ (forall i, 0 <= i < 6 -> lb i < qs r i < ub i).
Proof.
  destruct (bintegrate Z.leb zplus (fun _ => -10) (fun _ => 10) six (with_rhs ex_st [0; 0])
    (vec [1; 1; 1; 1; 2; 3]) (vec [1; 1; 0; 0; 20; 0]) (fun _ => 0)) as [r|] eqn:E; [|vm_compute in E; discriminate].
  exists ex_st, [0; 0], (fun _ => -10), (fun _ => 10), (vec [1; 1; 1; 1; 2; 3]), (vec [1; 1; 0; 0; 20; 0]), r.
  split; [exact ex_reach|]. split; [exact ex_sized|]. split; [reflexivity|]. split; [exact E|].
  vm_compute in E. injection E as <-. cbn [ret fl qs]. split; [reflexivity|]. intros k Hk.
  assert (C : k = 0 \/ k = 1 \/ k = 2 \/ k = 3 \/ k = 4 \/ k = 5) by lia.
  destruct C as [->|[->|[->|[->|[->| ->]]]]]; split; reflexivity.
Qed.
