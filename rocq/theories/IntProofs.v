From Coq Require Import ZArith List Bool.
From Verif Require Import ViewModel SegModel SegSpec EcsModel EcsSpec EcsFinalProofs SatModel SatProofs IntModel IntSpec.
Import ListNotations.
Open Scope Z_scope.

Section P.
Context {V Rh D : Type}.
Variable leb : V -> V -> bool.
Lemma clamp_cases lb ub v : brought leb lb ub v (cval leb lb ub v) /\ flagged leb lb ub v (cflag leb lb ub v) /\
  (chit leb lb ub v = true <-> outside leb lb ub v).
Proof.
  unfold brought, flagged, outside, cval, cflag, chit, clamp.
  destruct (leb v lb), (leb ub v); cbn; repeat split; intros; try discriminate; auto. destruct H; discriminate.
Qed.
Lemma brought_within lb ub v w : total leb -> leb lb ub = true -> brought leb lb ub v w -> within leb lb ub w.
Proof.
  intros T B (A1 & A2 & A3). assert (R : forall x, leb x x = true) by (intros x; destruct (T x x); auto). unfold within.
  destruct (leb v lb) eqn:E1; [rewrite A1 by reflexivity; auto|].
  destruct (leb ub v) eqn:E2; [rewrite A2 by reflexivity; auto|].
  rewrite A3 by reflexivity. destruct (T v lb), (T ub v); try congruence. auto.
Qed.
Variable plus : (Z -> V) -> D -> Z -> V.
Variable iadd : Z -> Z -> Z.
Variables (P : con V Rh -> Prop) (n m : Z).
Hypothesis FAM : family n m P.

Lemma integrate_spec lb ub pairs from v sat : NoDup (map fst pairs) ->
  let p := plus from v in
  let r := integrate leb plus lb ub pairs from v sat in
  (forall i, In i (map fst pairs) -> brought leb (lb i) (ub i) (p i) (qs r i)) /\
  (forall i, ~ In i (map fst pairs) -> qs r i = p i) /\
  (ret r = true <-> exists i, In i (map fst pairs) /\ outside leb (lb i) (ub i) (p i)) /\
  (forall k, ~ In k (map snd pairs) -> fl r k = sat k) /\
  (forall l1 i k l2, pairs = l1 ++ (i, k) :: l2 -> ~ In k (map snd l2) -> flagged leb (lb i) (ub i) (p i) (fl r k)).
Proof.
  intros N p r.
  assert (E : r = sat_list leb lb ub p pairs (mksst p sat false)) by (apply in_place; [exact N|reflexivity]).
  clearbody r. subst r. split; [|split; [|split; [|split]]].
  - intros i Hi. rewrite (proj1 (sat_list_qs leb lb ub p pairs _) i Hi). apply clamp_cases.
  - intros i Hi. rewrite (proj2 (sat_list_qs leb lb ub p pairs _) i Hi). reflexivity.
  - rewrite sat_list_ret. cbn [ret]. rewrite orb_false_r, existsb_exists. split.
    + intros (x & Hx & H). exists (fst x). split; [apply in_map; exact Hx|]. apply clamp_cases. exact H.
    + intros (i & Hi & H). apply in_map_iff in Hi as (x & <- & Hx). exists x. split; [exact Hx|]. apply clamp_cases. exact H.
  - intros k Hk. apply (proj1 (sat_list_fl leb lb ub p pairs (mksst p sat false) k) Hk).
  - intros l1 i k l2 E Hk. rewrite (proj2 (sat_list_fl leb lb ub p pairs (mksst p sat false) k) l1 i l2 E Hk). apply clamp_cases.
Qed.

Lemma bintegrate_spec (e : ecs V Rh) rl lb ub pairs from v sat : reach iadd P n m e ->
  length rl = length (data e) -> (forall c, In c (data e) -> sized c) -> NoDup (map fst pairs) ->
  let p := plus from v in
  exists r, bintegrate leb plus lb ub pairs (with_rhs e rl) from v sat = Some r /\
  satisfies_all (qs r) (combine (data e) rl) /\
  (forall i, ~ output (data e) i -> In i (map fst pairs) -> brought leb (lb i) (ub i) (p i) (qs r i)) /\
  (total leb -> forall i, ~ output (data e) i -> In i (map fst pairs) -> leb (lb i) (ub i) = true -> within leb (lb i) (ub i) (qs r i)) /\
  (forall i, ~ output (data e) i -> ~ In i (map fst pairs) -> qs r i = p i) /\
  (ret r = true <-> exists i, In i (map fst pairs) /\ outside leb (lb i) (ub i) (p i)) /\
  (forall k, ~ In k (map snd pairs) -> fl r k = sat k) /\
  (forall l1 i k l2, pairs = l1 ++ (i, k) :: l2 -> ~ In k (map snd l2) -> flagged leb (lb i) (ub i) (p i) (fl r k)).
Proof.
  intros HR L S N p. destruct (integrate_spec lb ub pairs from v sat N) as (A & B & C & D1 & D2). fold p in A, B, C, D2.
  unfold bintegrate. destruct (solve_spec iadd P n m FAM e rl (qs (integrate leb plus lb ub pairs from v sat)) HR L S) as (q' & E & (H1 & H2) & _).
  rewrite E. eexists. split; [reflexivity|]. cbn [qs fl ret].
  assert (M : map fst (combine (data e) rl) = data e).
  { clear -L. revert rl L. induction (data e) as [|c l IH]; intros [|r rl] L; cbn in *; try discriminate; [reflexivity|]. f_equal. apply IH. injection L; auto. }
  rewrite M in H2.
  split; [exact H1|]. split; [intros i O Hi; rewrite (H2 i O); auto|].
  split; [intros T i O Hi B1; rewrite (H2 i O); eapply brought_within; eauto|].
  split; [intros i O Hi; rewrite (H2 i O); auto|]. auto.
Qed.
End P.
