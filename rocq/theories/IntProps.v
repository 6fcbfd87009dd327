(** C81, first part: one step of the solver by substitution. *)
From Coq Require Import ZArith List Bool.
From Verif Require Import ViewModel SegModel SegSpec EcsModel EcsSpec EcsFinalProofs SatModel IntModel IntSpec IntProofs IntExamples.
Import ListNotations.
Open Scope Z_scope.

(** integrate of HierarchicalIterative: [pairs], the variables that go through clamp with
    their flag; p, the sum computed in the configuration space *)
Theorem C81_integrate : forall (V D : Type) (leb : V -> V -> bool) (plus : (Z -> V) -> D -> Z -> V) lb ub pairs from (v : D) sat,
  NoDup (map fst pairs) ->
  let p := plus from v in
  let r := integrate leb plus lb ub pairs from v sat in
  (forall i, In i (map fst pairs) -> brought leb (lb i) (ub i) (p i) (qs r i)) /\
  (forall i, ~ In i (map fst pairs) -> qs r i = p i) /\
  (ret r = true <-> exists i, In i (map fst pairs) /\ outside leb (lb i) (ub i) (p i)) /\
  (forall k, ~ In k (map snd pairs) -> fl r k = sat k) /\
  (forall l1 i k l2, pairs = l1 ++ (i, k) :: l2 -> ~ In k (map snd l2) -> flagged leb (lb i) (ub i) (p i) (fl r k)).
Proof. exact @integrate_spec. Qed.
Print Assumptions C81_integrate.

(** integrate of BySubstitution: the explicit constraints hold, the other variables are
    brought within the bounds, the report is that of the configuration before the
    explicit constraints are solved *)
Theorem C81_integrate_explicit : forall (V Rh D : Type) (leb : V -> V -> bool) (plus : (Z -> V) -> D -> Z -> V) iadd
  (P : con V Rh -> Prop) n m, family n m P -> forall (e : ecs V Rh) rl lb ub pairs from (v : D) sat, reach iadd P n m e ->
  length rl = length (data e) -> (forall c, In c (data e) -> sized c) -> NoDup (map fst pairs) ->
  let p := plus from v in
  exists r, bintegrate leb plus lb ub pairs (with_rhs e rl) from v sat = Some r /\
  satisfies_all (qs r) (combine (data e) rl) /\
  (forall i, ~ output (data e) i -> In i (map fst pairs) -> brought leb (lb i) (ub i) (p i) (qs r i)) /\
  (total leb -> forall i, ~ output (data e) i -> In i (map fst pairs) -> leb (lb i) (ub i) = true -> within leb (lb i) (ub i) (qs r i)) /\
  (forall i, ~ output (data e) i -> ~ In i (map fst pairs) -> qs r i = p i) /\
  (ret r = true <-> exists i, In i (map fst pairs) /\ outside leb (lb i) (ub i) (p i)) /\
  (forall k, ~ In k (map snd pairs) -> fl r k = sat k) /\
  (forall l1 i k l2, pairs = l1 ++ (i, k) :: l2 -> ~ In k (map snd l2) -> flagged leb (lb i) (ub i) (p i) (fl r k)).
Proof. exact @bintegrate_spec. Qed.
Print Assumptions C81_integrate_explicit.

(** Outputs of explicit constraints may leave the bounds without report ... *)
Theorem C81_output_bounds_refuted : exists (e : ecs Z Z) rl lb ub from v r,
  reach Z.add (fun c => In c exs) 6 6 e /\ (forall c, In c (data e) -> sized c) /\ length rl = length (data e) /\
  (forall i, lb i < from i < ub i) /\ satisfies_all from (combine (data e) rl) /\
  bintegrate Z.leb zplus lb ub six (with_rhs e rl) from v (fun _ => 0) = Some r /\
  ret r = false /\ (forall k, 0 <= k < 6 -> fl r k = 0) /\ ub 4 < qs r 4.
Proof. exact output_bounds_refuted. Qed.
Print Assumptions C81_output_bounds_refuted.

(** ... and a bound may be reported though the result is strictly within the bounds *)
Theorem C81_report_refuted : exists (e : ecs Z Z) rl lb ub from v r,
  reach Z.add (fun c => In c exs) 6 6 e /\ (forall c, In c (data e) -> sized c) /\ length rl = length (data e) /\
  bintegrate Z.leb zplus lb ub six (with_rhs e rl) from v (fun _ => 0) = Some r /\
  ret r = true /\ (forall i, 0 <= i < 6 -> lb i < qs r i < ub i).
Proof. exact report_refuted. Qed.
Print Assumptions C81_report_refuted.

Example C81_integrate_case :
  family 6 6 (fun c => In c exs) /\ reach Z.add (fun c => In c exs) 6 6 ex_st /\ (forall c, In c (data ex_st) -> sized c) /\
  data ex_st = [exB; exA] /\ map fst six = [0; 1; 2; 3; 4; 5] /\
  step (-100) 100 [0; 0] [1; 1; 1; 1; 2; 3] [5; -200; 3; 4; 1; 1] = Some ([6; -100; 4; 5; -94; -90], [0; -1; 0; 0; 0; 0], true) /\
  step (-10) 10 [0; 0] [1; 1; 1; 1; 2; 3] [5; 5; 0; 0; 0; 0] = Some ([6; 6; 1; 1; 12; 13], [0; 0; 0; 0; 0; 0], false).
Proof. split; [exact ex_family|]. split; [exact ex_reach|]. split; [exact ex_sized|]. vm_compute. auto. Qed.
