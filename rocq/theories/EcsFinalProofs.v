(** Statements of C12-C17 for every reachable explicit constraint set. *)
From Coq Require Import ZArith List Bool Lia ZifyBool Permutation.
From Verif Require Import SegModel SegSpec SegProofs ViewModel ViewProofs EcsModel EcsSpec EcsProofs EcsOrderProofs EcsMainProofs EcsSolveProofs.
Import ListNotations.
Open Scope Z_scope.

Section Final.
Context {V Rh : Type}.
Notation con := (con V Rh).
Notation ecs := (ecs V Rh).
Variable iadd : Z -> Z -> Z.
Variables (P : con -> Prop) (n m : Z).
Hypothesis FAM : family n m P.

Lemma add_iff (st : ecs) c : reach iadd P n m st -> P c ->
  exists fuel0, forall fuel, (fuel0 <= fuel)%nat ->
  (acceptable (data st) c -> exists st', add iadd fuel st c = (st', Added (length (data st))) /\
     data st' = data st ++ [c] /\ rhsl st' = rhsl st ++ [c_rhs0 c]) /\
  (~ acceptable (data st) c ->
    add iadd fuel st c = (st, Refused) \/ add iadd fuel st c = (st, Thrown)).
Proof.
  intros HR Pc. destruct (add_big iadd P n m st c FAM (reach_inv iadd P n m st FAM HR) Pc) as (f0 & H).
  exists f0; intros fuel Hf. destruct (H fuel Hf) as [(A & st' & E & _ & E1 & E2)|(A & E)]; split; intros X; try contradiction.
  - exists st'; auto.
  - exact E.
Qed.

Lemma add_any_fuel (st st' : ecs) c fuel r : reach iadd P n m st -> P c ->
  add iadd fuel st c = (st', r) ->
  r <> Undef /\
  (forall k, r = Added k -> k = length (data st) /\ acceptable (data st) c /\ data st' = data st ++ [c]) /\
  ((forall k, r <> Added k) -> st' = st) /\
  (r = Refused \/ r = Thrown -> ~ acceptable (data st) c) /\
  (r = Thrown -> meet (c_in c) (c_out c)).
Proof.
  intros HR Pc E. pose proof (reach_inv iadd P n m st FAM HR) as I.
  destruct (add_any iadd P n m st c fuel st' r FAM I Pc E) as [(-> & A & _ & D & _)|[(H & -> & A)|(-> & ->)]].
  - split; [discriminate|]. split; [intros k Hk; injection Hk as <-; auto|].
    split; [intros H; destruct (H _ eq_refl)|]. split; [intros [H|H]; discriminate | discriminate].
  - split; [destruct H as [-> | ->]; discriminate|].
    split; [intros k ->; destruct H as [H|H]; discriminate|]. split; [reflexivity|]. split; [intros _; exact A|].
    intros ->. unfold add in E. destruct FAM as (_ & _ & HW & _).
    destruct (HW c Pc) as ((o & Ho) & (ov & Hov) & W1 & W2 & _).
    rewrite Ho, Hov in E.
    destruct (existsb (fun s => overlap s o) (c_in c)) eqn:X.
    + apply existsb_exists in X as (s & Hs & Xs). rewrite Ho.
      assert (N1 : 0 <= snd s) by apply (W1 s Hs).
      assert (N2 : 0 <= snd o) by (apply (W2 o); rewrite Ho; left; reflexivity).
      apply overlap_spec in Xs as [(i & X1 & X2) _]; auto.
      exists i; split; [exists s | exists o]; split; auto; left; reflexivity.
    + repeat match type of E with
      | (if ?b then _ else _) = _ => destruct b; try discriminate
      | match ?x with _ => _ end = _ => destruct x; try discriminate
      end.
  - split; [discriminate|]. split; [discriminate|]. split; [reflexivity|]. split; [intros [H|H]; discriminate | discriminate].
Qed.

Lemma no_double_no_cycle (st : ecs) : reach iadd P n m st ->
  (forall k1 k2 c1 c2 i, nth_error (data st) k1 = Some c1 -> nth_error (data st) k2 = Some c2 ->
     covers (c_out c1) i -> covers (c_out c2) i -> k1 = k2) /\
  (forall k1 k2 c1 c2 i, nth_error (data st) k1 = Some c1 -> nth_error (data st) k2 = Some c2 ->
     covers (c_outv c1) i -> covers (c_outv c2) i -> k1 = k2) /\
  (forall c i, In c (data st) -> covers (c_out c) i -> ~ needs (data st) c i).
Proof.
  intros HR. pose proof (reach_inv iadd P n m st FAM HR) as I. split; [|split].
  - intros; eapply (tab_disjoint c_out (data st) (argF st)); eauto. apply I.
  - intros; eapply (tab_disjoint c_outv (data st) (derF st)); eauto. apply I.
  - intros c i Hc Hi Hn. destruct (i_rank _ _ _ _ _ I) as [rank HRk].
    pose proof (ranked_needs (data st) rank c HRk Hc i i Hi Hn). lia.
Qed.

Lemma loop_check_terminates (st : ecs) c : reach iadd P n m st -> P c ->
  exists fuel0, forall fuel, (fuel0 <= fuel)%nat -> snd (add iadd fuel st c) <> NoFuel.
Proof.
  intros HR Pc. destruct (add_big iadd P n m st c FAM (reach_inv iadd P n m st FAM HR) Pc) as (f0 & H).
  exists f0; intros fuel Hf. destruct (H fuel Hf) as [(A & st' & E & _)|(A & [E|E])]; rewrite E; discriminate.
Qed.

Lemma index_sets (st : ecs) : reach iadd P n m st ->
  (forall i, covers (outArgs st) i <-> output (data st) i) /\
  (forall i, covers (notOutArgs st) i <-> 0 <= i < n /\ ~ output (data st) i) /\
  (forall i, covers (inArgs st) i <-> input (data st) i /\ ~ output (data st) i) /\
  (forall i, covers (outDers st) i <-> outputv (data st) i) /\
  (forall i, covers (notOutDers st) i <-> 0 <= i < m /\ ~ outputv (data st) i) /\
  (forall i, covers (inDers st) i <-> inputv (data st) i /\ ~ outputv (data st) i) /\
  Forall sorted_separated [outArgs st; notOutArgs st; inArgs st; outDers st; notOutDers st; inDers st].
Proof.
  intros HR. pose proof (reach_inv iadd P n m st FAM HR) as I. destruct I.
  repeat (split; [assumption|]). repeat constructor; tauto.
Qed.

Lemma order_spec (st : ecs) : reach iadd P n m st ->
  Permutation (order st) (seq 0 (length (data st))) /\
  (forall l1 k l2 c d k', order st = l1 ++ k :: l2 ->
     nth_error (data st) k = Some c -> nth_error (data st) k' = Some d ->
     meet (c_in c) (c_out d) \/ meet (c_inv c) (c_outv d) -> In k' l1).
Proof.
  intros HR. pose proof (reach_inv iadd P n m st FAM HR) as I. split; [apply I|].
  intros l1 k l2 c d k' Ho Hk Hk' Hm.
  assert (Pc : P c) by (apply I; eapply nth_error_In; exact Hk).
  assert (Pd : P d) by (apply I; eapply nth_error_In; exact Hk').
  destruct FAM as (_ & _ & _ & HC).
  assert (M : meet (c_in c) (c_out d)) by (destruct Hm as [M|M]; [exact M | apply (HC c d Pc Pd); exact M]).
  destruct M as (i & M1 & M2). eapply (topo_conf iadd P n m FAM st); eauto.
Qed.

Lemma solve_spec (st : ecs) rl q : reach iadd P n m st ->
  length rl = length (data st) -> (forall c, In c (data st) -> sized c) ->
  exists q', solve (with_rhs st rl) q = Some q' /\
    solution (combine (data st) rl) q q' /\
    (forall q2, solution (combine (data st) rl) q q2 -> forall i, q2 i = q' i).
Proof.
  intros HR HL HS. pose proof (reach_inv iadd P n m st FAM HR) as I.
  pose proof (inv_with_rhs iadd P n m st rl I HL) as I2.
  destruct (solve_solution iadd P n m FAM (with_rhs st rl) q I2 HS) as (q' & E & S).
  exists q'; split; [exact E|]. split; [exact S|].
  intros q2 S2 i. apply (solution_unique iadd P n m FAM (with_rhs st rl) q q2 q' I2 S2 S).
Qed.

Lemma solve_inputs_only (st : ecs) rl q1 q2 r1 r2 : reach iadd P n m st ->
  length rl = length (data st) -> (forall c, In c (data st) -> sized c) ->
  (forall i, ~ output (data st) i -> q1 i = q2 i) ->
  solve (with_rhs st rl) q1 = Some r1 -> solve (with_rhs st rl) q2 = Some r2 -> forall i, r1 i = r2 i.
Proof.
  intros HR HL HS Hq E1 E2 i.
  destruct (solve_spec st rl q1 HR HL HS) as (a & A1 & A2 & A3).
  destruct (solve_spec st rl q2 HR HL HS) as (b & B1 & B2 & B3).
  rewrite E1 in A1; injection A1 as <-. rewrite E2 in B1; injection B1 as <-.
  apply B3. eapply solution_input; [|exact A2]. rewrite map_fst_combine by exact HL. exact Hq.
Qed.

Lemma solve_twice (st : ecs) rl q r1 r2 : reach iadd P n m st ->
  length rl = length (data st) -> (forall c, In c (data st) -> sized c) ->
  solve (with_rhs st rl) q = Some r1 -> solve (with_rhs st rl) r1 = Some r2 -> forall i, r2 i = r1 i.
Proof.
  intros HR HL HS E1 E2 i.
  destruct (solve_spec st rl q HR HL HS) as (a & A1 & A2 & A3).
  destruct (solve_spec st rl r1 HR HL HS) as (b & B1 & B2 & B3).
  rewrite E1 in A1; injection A1 as <-. rewrite E2 in B1; injection B1 as <-.
  symmetry. apply B3. destruct A2 as [A2 _]. split; [exact A2 | reflexivity].
Qed.

Lemma solve_add_order (st1 st2 : ecs) rl1 rl2 q r1 r2 :
  reach iadd P n m st1 -> reach iadd P n m st2 ->
  length rl1 = length (data st1) -> length rl2 = length (data st2) ->
  (forall c, In c (data st1) -> sized c) ->
  Permutation (combine (data st1) rl1) (combine (data st2) rl2) ->
  solve (with_rhs st1 rl1) q = Some r1 -> solve (with_rhs st2 rl2) q = Some r2 -> forall i, r1 i = r2 i.
Proof.
  intros HR1 HR2 HL1 HL2 HS HP E1 E2 i.
  assert (HS2 : forall c, In c (data st2) -> sized c).
  { intros c Hc. rewrite <- (map_fst_combine _ rl2 HL2) in Hc.
    apply (Permutation_in c (Permutation_sym (Permutation_map fst HP))) in Hc.
    rewrite (map_fst_combine _ rl1 HL1) in Hc. auto. }
  destruct (solve_spec st1 rl1 q HR1 HL1 HS) as (a & A1 & A2 & A3).
  destruct (solve_spec st2 rl2 q HR2 HL2 HS2) as (b & B1 & B2 & B3).
  rewrite E1 in A1; injection A1 as <-. rewrite E2 in B1; injection B1 as <-.
  apply B3. eapply solution_perm; [|exact A2].
  intros x; split; intros Hx; [apply (Permutation_in x HP Hx) | apply (Permutation_in x (Permutation_sym HP) Hx)].
Qed.

Hypothesis EX : exact_add iadd.

Lemma deps_spec (st : ecs) k c j : reach iadd P n m st -> nth_error (data st) k = Some c ->
  0 <= deps st k j /\ (0 < deps st k j <-> needsv (data st) c j /\ ~ outputv (data st) j).
Proof.
  intros HR Hk. pose proof (reach_inv iadd P n m st FAM HR) as I.
  assert (L : (k < length (data st))%nat) by (apply nth_error_Some; congruence).
  destruct (i_deps _ _ _ _ _ I EX k j L) as [D1 D2]. split; [exact D1|]. rewrite D2. unfold dep. split.
  - intros (Hn & c' & Hc' & Hd). rewrite Hk in Hc'; injection Hc' as <-. split; [exact Hd|].
    intros (d & Hd1 & Hd2). apply In_nth_error in Hd1 as [k' Hk'].
    pose proof (proj1 (i_der _ _ _ _ _ I) _ _ _ Hk' Hd2); lia.
  - intros (Hd & Hn). split; [|exists c; auto].
    destruct (Z.ltb_spec (derF st j) 0) as [|Hge]; [assumption|]. exfalso; apply Hn.
    destruct (proj2 (i_der _ _ _ _ _ I) j Hge) as (d & H1 & H2). exists d; split; [eapply nth_error_In; exact H1 | exact H2].
Qed.

Lemma dof_rows_spec (st : ecs) rows : forall l k0 (mm : Z -> list Z) i,
  rows = (fun k => vread (deps st k) (inDers st)) ->
  (exists k c, nth_error l k = Some c /\ covers (c_outv c) i /\
     (forall k' c', nth_error l k' = Some c' -> covers (c_outv c') i -> k' = k) /\
     dof_rows st mm k0 l i = rows (k0 + k)%nat) \/
  ((forall c, In c l -> ~ covers (c_outv c) i) /\ dof_rows st mm k0 l i = mm i) \/
  (exists k1 k2 c1 c2, k1 <> k2 /\ nth_error l k1 = Some c1 /\ nth_error l k2 = Some c2 /\ covers (c_outv c1) i /\ covers (c_outv c2) i).
Proof.
  intros l; induction l as [|c l IH]; intros k0 mm i Hr; cbn [dof_rows].
  - right; left; split; [intros c [] | reflexivity].
  - destruct (IH (S k0) (write_rows mm (c_outv c) (vread (deps st k0) (inDers st))) i Hr)
      as [(k & c' & H1 & H2 & H3 & H4)|[(H1 & H2)|(k1 & k2 & c1 & c2 & H0 & H1 & H2 & H3 & H4)]].
    + destruct (covers_dec (c_outv c) i) as [Hc|Hc].
      * right; right. exists O, (S k), c, c'; auto.
      * left. exists (S k), c'. split; [exact H1|]. split; [exact H2|]. split.
        -- intros [|k'] c2 E Ei; cbn in E; [injection E as <-; contradiction|]. f_equal; eapply H3; eauto.
        -- rewrite H4; f_equal; lia.
    + destruct (covers_dec (c_outv c) i) as [Hc|Hc].
      * left. exists O, c. split; [reflexivity|]. split; [exact Hc|]. split.
        -- intros [|k'] c2 E Ei; [reflexivity|]. cbn in E. apply nth_error_In in E. destruct (H1 _ E Ei).
        -- rewrite H2, Nat.add_0_r, Hr. unfold write_rows.
           replace (existsb _ _) with true; [reflexivity|]. symmetry; apply existsb_exists.
           destruct Hc as (s & Hs & Hi). exists s; split; [exact Hs|]. unfold in_seg in Hi; unfold send; lia.
      * right; left. split; [intros d [<-|Hd]; [exact Hc | apply H1; exact Hd]|].
        rewrite H2. unfold write_rows.
        destruct (existsb _ _) eqn:E; [|reflexivity]. exfalso; apply Hc.
        apply existsb_exists in E as (s & Hs & Hi). exists s; split; [exact Hs | unfold in_seg; unfold send in Hi; lia].
    + right; right. exists (S k1), (S k2), c1, c2; repeat split; auto.
Qed.

Lemma dof_deps_spec (st : ecs) junk : reach iadd P n m st -> 0 < cardinal (inDers st) ->
  length (dof_deps junk st) = length (indices (outDers st)) /\
  forall p i, nth_error (indices (outDers st)) p = Some i ->
  exists row, nth_error (dof_deps junk st) p = Some row /\ length row = length (indices (inDers st)) /\
  forall x j, nth_error (indices (inDers st)) x = Some j ->
  exists v, nth_error row x = Some v /\ 0 <= v /\
    (0 < v <-> exists c, In c (data st) /\ covers (c_outv c) i /\ needsv (data st) c j).
Proof.
  intros HR Hpos. pose proof (reach_inv iadd P n m st FAM HR) as I.
  unfold dof_deps. destruct (Z.eqb_spec (cardinal (inDers st)) 0) as [E|_]; [lia|].
  rewrite vread_indices. split; [apply map_length|].
  intros p i Hp. exists (dof_rows st junk 0 (data st) i).
  split; [rewrite nth_error_map, Hp; reflexivity|].
  destruct (dof_rows_spec st (fun k => vread (deps st k) (inDers st)) (data st) O junk i eq_refl)
    as [(k & c & H1 & H2 & H3 & H4)|[(H1 & H2)|(k1 & k2 & c1 & c2 & H0 & H1 & H2 & H3 & H4)]].
  - rewrite H4, Nat.add_0_l. rewrite vread_indices. split; [apply map_length|].
    intros x j Hx. exists (deps st k j). split; [rewrite nth_error_map, Hx; reflexivity|].
    destruct (deps_spec st k c j HR H1) as [D1 D2]. split; [exact D1|]. rewrite D2.
    assert (Hj : ~ outputv (data st) j) by (apply (i_inv _ _ _ _ _ I j), In_indices; eapply nth_error_In; exact Hx).
    split.
    + intros [Hn _]. exists c; split; [eapply nth_error_In; exact H1 | auto].
    + intros (d & Hd & Hdi & Hn). split; [|exact Hj].
      apply In_nth_error in Hd as [k' Hk']. pose proof (H3 _ _ Hk' Hdi) as E. subst k'.
      rewrite H1 in Hk'; injection Hk' as <-. exact Hn.
  - exfalso. apply nth_error_In, In_indices, (i_outv _ _ _ _ _ I) in Hp. destruct Hp as (c & Hc & Hi). apply (H1 c Hc Hi).
  - exfalso. apply H0. eapply (tab_disjoint c_outv (data st) (derF st)); eauto. apply I.
Qed.
End Final.

(** * Concrete sets *)

(** a constraint on 5 joints of dimension one: reads [ins], writes [out] *)
Definition mk (ins : list (Z * Z)) (out : Z * Z) (t : cmp) : con Z Z :=
  mkcon ins [out] ins [out] [t] (fun r l => [fold_right Z.add r l]) 0.

Definition run (iadd : Z -> Z -> Z) (fuel : nat) {V Rh} (st : ecs V Rh) (l : list (con V Rh)) : ecs V Rh * list outcome :=
  fold_left (fun acc c => let '(s, o) := acc in let '(s', r) := add iadd fuel s c in (s', o ++ [r])) l (st, []).

(** Unsorted inputs: index 0 is an input of the only constraint, not an output, and
    missing from inArgs. *)
Lemma unsorted_inputs_lost :
  exists (c : con Z Z) st i, add Z.add 100 (init 6 6) c = (st, Added 0) /\
    input [c] i /\ ~ output [c] i /\ ~ covers (inArgs st) i /\ ~ covers (inDers st) i.
Proof.
  exists (mk [(5, 1); (0, 1)] (2, 1) EqualToZero).
  destruct (add Z.add 100 (init 6 6) (mk [(5, 1); (0, 1)] (2, 1) EqualToZero)) as [st r] eqn:E.
  assert (Hr : snd (st, r) = Added 0) by (rewrite <- E; vm_compute; reflexivity).
  assert (Hi : inArgs (fst (st, r)) = [(5, 1)]) by (rewrite <- E; vm_compute; reflexivity).
  assert (Hd : inDers (fst (st, r)) = [(5, 1)]) by (rewrite <- E; vm_compute; reflexivity).
  cbn [fst snd] in *. exists st, 0. rewrite Hr, Hi, Hd. split; [reflexivity|].
  split; [exists (mk [(5, 1); (0, 1)] (2, 1) EqualToZero); split; [left; reflexivity|]; exists (0, 1); split; [right; left; reflexivity | unfold in_seg; cbn; lia]|].
  assert (N : ~ covers [(5, 1)] 0) by (intros (s & [<-|[]] & H); unfold in_seg in H; cbn in H; lia).
  split; [|split; exact N].
  intros (c & [<-|[]] & (s & [<-|[]] & H)); unfold in_seg in H; cbn in H; lia.
Qed.

(** An input interval strictly inside the output is refused, not reported by the
    exception of the sanity check. *)
Lemma self_overlap_not_thrown :
  exists (c : con Z Z), meet (c_in c) (c_out c) /\ wf_con 6 6 c /\
    snd (add Z.add 100 (init 6 6) c) = Refused.
Proof.
  exists (mkcon [(2, 1)] [(1, 3)] [(2, 1)] [(1, 3)] [EqualToZero] (fun r l => l ++ l ++ l) 0).
  split; [|split].
  - exists 2; split; eexists; (split; [left; reflexivity | unfold in_seg; cbn; lia]).
  - split; [eexists; reflexivity|]. split; [eexists; reflexivity|].
    repeat split; try (intros u []); try (destruct H as [<-|[]]; cbn; lia).
  - vm_compute; reflexivity.
Qed.

(** Velocity intervals not matching the configuration intervals: the second
    addition passes the loop check and never returns. *)
Definition bad1 : con Z Z := mkcon [(0, 1)] [(1, 1)] [(2, 1)] [(1, 1)] [EqualToZero] (fun r l => l) 0.
Definition bad2 : con Z Z := mkcon [(0, 1)] [(2, 1)] [(1, 1)] [(2, 1)] [EqualToZero] (fun r l => l) 0.

Lemma bad_order_endless df fuel : df 1 = 0 -> df 2 = 1 -> forall r s, d_comp s 0%nat = false -> d_comp s 1%nat = false ->
  (r = 0%nat \/ r = 1%nat) ->
  compute_order Z.add 4 [bad1; bad2] df fuel r s = Fuel.
Proof.
  intros D1 D2. induction fuel as [|f IH]; intros r s H0 H1 [-> | ->]; cbn [compute_order]; rewrite ?H0, ?H1; try reflexivity.
  - cbn [nth_error]. replace (append (c_inv bad1)) with [2] by (vm_compute; reflexivity).
    cbn [order_inputs]. rewrite D2. cbn. rewrite (IH 1%nat) by auto. reflexivity.
  - cbn [nth_error]. replace (append (c_inv bad2)) with [1] by (vm_compute; reflexivity).
    cbn [order_inputs]. rewrite D1. cbn. rewrite (IH 0%nat) by auto. reflexivity.
Qed.

Lemma inconsistent_endless :
  exists (c1 c2 : con Z Z) st, wf_con 4 4 c1 /\ wf_con 4 4 c2 /\
    add Z.add 10 (init 4 4) c1 = (st, Added 0) /\ acceptable (data st) c2 /\
    forall fuel, add Z.add fuel st c2 = (st, NoFuel).
Proof.
  exists bad1, bad2.
  destruct (add Z.add 10 (init 4 4) bad1) as [st r] eqn:E.
  assert (Hr : snd (st, r) = Added 0) by (rewrite <- E; vm_compute; reflexivity).
  assert (Hd : data (fst (st, r)) = [bad1]) by (rewrite <- E; reflexivity).
  assert (Hq : nq (fst (st, r)) = 4) by (rewrite <- E; reflexivity).
  assert (Hv : nv (fst (st, r)) = 4) by (rewrite <- E; reflexivity).
  assert (Ha : forall i, argF (fst (st, r)) i = fill (fun _ => -1) (1, 1) 0 i) by (rewrite <- E; reflexivity).
  assert (Hf : forall i, derF (fst (st, r)) i = fill (fun _ => -1) (1, 1) 0 i) by (rewrite <- E; reflexivity).
  assert (Ho : outArgs (fst (st, r)) = [(1, 1)]) by (rewrite <- E; vm_compute; reflexivity).
  assert (Hov : outDers (fst (st, r)) = [(1, 1)]) by (rewrite <- E; vm_compute; reflexivity).
  assert (Hi : inArgs (fst (st, r)) = [(0, 1)]) by (rewrite <- E; vm_compute; reflexivity).
  assert (Hiv : inDers (fst (st, r)) = [(2, 1)]) by (rewrite <- E; vm_compute; reflexivity).
  cbn [fst snd] in *. exists st. rewrite Hr.
  split; [|split; [|split; [reflexivity|split]]].
  - split; [eexists; reflexivity|]. split; [eexists; reflexivity|].
    repeat split; try (intros u []); try (destruct H as [<-|[]]; cbn; lia).
  - split; [eexists; reflexivity|]. split; [eexists; reflexivity|].
    repeat split; try (intros u []); try (destruct H as [<-|[]]; cbn; lia).
  - rewrite Hd. split; [|split].
    + intros t [<-|[]]; auto.
    + intros i (s & [<-|[]] & H1) (c & [<-|[]] & (s2 & [<-|[]] & H2)); unfold in_seg in *; cbn in *; lia.
    + intros i (s & [<-|[]] & H1) Hn.
      assert (G : forall x, needs [bad1] bad2 x -> x = 0).
      { intros x Hx; induction Hx as [x (s & [<-|[]] & H)|x y d Hy IH Hd2 Hdy (s & Hs & H)].
        - unfold in_seg in H; cbn in H; lia.
        - destruct Hd2 as [<-|[]]. destruct Hs as [<-|[]]. unfold in_seg in H; cbn in H; lia. }
      rewrite (G i Hn) in H1. unfold in_seg in H1; cbn in H1; lia.
  - intros fuel. unfold add. cbn [c_out c_outv bad2 c_in c_cmp existsb].
    replace (overlap (0, 1) (2, 1)) with false by (vm_compute; reflexivity).
    rewrite Hq, Hv, Hd. cbn [orb bad_cmp cmp_eqb negb andb].
    replace (seg_inb 4 (2, 1)) with true by (vm_compute; reflexivity). cbn [negb].
    assert (Hv2 : vread (argF st) [(2, 1)] = [-1]).
    { transitivity (map (argF st) [2]); [reflexivity|]. cbn [map]. rewrite Ha. reflexivity. }
    rewrite Hv2.
    cbn [existsb orb Z.leb].
    replace (0 <=? -1) with false by reflexivity. cbn [orb].
    replace (append [(0, 1)]) with [0] by (vm_compute; reflexivity).
    destruct fuel as [|fuel]; cbn [loop_check]; [reflexivity|].
    replace ((fst (2, 1) <=? 0) && (0 <? send (2, 1))) with false by reflexivity.
    replace (negb ((0 <=? 0) && (0 <? 4))) with false by reflexivity.
    rewrite Ha. replace (fill (fun _ => -1) (1, 1) 0 0 <? 0) with true by reflexivity.
    destruct fuel as [|fuel]; cbn [loop_check].
    all: rewrite Ho, Hov, Hi, Hiv;
      replace (upd_out [(1, 1)] (2, 1)) with [(1, 2)] by (vm_compute; reflexivity);
      replace (diff_sl (0, 4) [(1, 2)]) with (Some [(0, 1); (3, 1)]) by (vm_compute; reflexivity);
      replace (upd_in [(0, 1)] [(0, 1)] [(1, 2)]) with (Some [(0, 1)]) by (vm_compute; reflexivity);
      cbn [c_inv bad2];
      replace (upd_in [(2, 1)] [(1, 1)] [(1, 2)]) with (@Some (list (Z * Z)) []) by (vm_compute; reflexivity);
      cbn [length app seq order_all];
      rewrite bad_order_endless; auto;
      unfold fill; cbn; rewrite ?Hf; reflexivity.
Qed.

(** No free input: the matrix keeps one row per velocity variable. *)
Lemma dof_deps_no_input :
  exists (st : ecs Z Z) (c : con Z Z), add Z.add 10 (init 3 3) c = (st, Added 0) /\ wf_con 3 3 c /\
    length (dof_deps (fun _ => []) st) <> length (indices (outDers st)).
Proof.
  set (c := mkcon [] [(0, 1)] [] [(0, 1)] [EqualToZero] (fun r l => [0]) 0 : con Z Z).
  destruct (add Z.add 10 (init 3 3) c) as [st r] eqn:E.
  assert (Hr : snd (st, r) = Added 0) by (rewrite <- E; vm_compute; reflexivity).
  assert (Hn : nv (fst (st, r)) = 3) by (rewrite <- E; reflexivity).
  assert (Hi : inDers (fst (st, r)) = []) by (rewrite <- E; vm_compute; reflexivity).
  assert (Ho : outDers (fst (st, r)) = [(0, 1)]) by (rewrite <- E; vm_compute; reflexivity).
  cbn [fst snd] in *. exists st, c. split; [rewrite <- Hr; exact E| split].
  - split; [eexists; reflexivity|]. split; [eexists; reflexivity|].
    repeat split; try (intros u []); try (destruct H as [<-|[]]; cbn; lia); destruct H.
  - unfold dof_deps. rewrite Hi, Ho, Hn. vm_compute. discriminate.
Qed.

(** A set used in the examples: 6 variables; exA computes 4 from 0 and 1, exB
    computes 5 from 4 and 2; exC would close a loop; exD computes 5 again; exE is an
    inequality. *)
Definition exA := mk [(0, 2)] (4, 1) Equality.
Definition exB := mk [(2, 1); (4, 1)] (5, 1) EqualToZero.
Definition exC := mk [(5, 1)] (0, 1) EqualToZero.
Definition exD := mk [(3, 1)] (5, 1) EqualToZero.
Definition exE := mk [(0, 1)] (1, 1) Superior.
Definition exs := [exA; exB; exC; exD; exE].

Lemma ex_family : family 6 6 (fun c => In c exs).
Proof.
  split; [lia|]. split; [lia|]. split.
  - intros c Hc.
    assert (exists ins out t, c = mk ins out t /\ inside_ 6 ins /\ inside_ 6 [out] /\ lex_sorted ins) as (ins & out & t & -> & H1 & H2 & H3).
    { unfold exs in Hc; cbn [In] in Hc.
      assert (I1 : forall s : Z * Z, (0 <=? fst s) && (0 <=? snd s) && (fst s + snd s <=? 6) = true ->
        0 <= fst s /\ 0 <= snd s /\ fst s + snd s <= 6) by (intros s; lia).
      assert (I2 : forall l, forallb (fun s : Z * Z => (0 <=? fst s) && (0 <=? snd s) && (fst s + snd s <=? 6)) l = true -> inside_ 6 l)
        by (intros l H s Hs; apply I1; exact (proj1 (forallb_forall _ _) H s Hs)).
      repeat (destruct Hc as [<-|Hc]; [eexists _, _, _; split; [reflexivity | split; [apply I2; reflexivity | split; [apply I2; reflexivity|]]]|]).
      all: try destruct Hc.
      all: unfold lex_sorted; cbn [chain]; repeat split; cbn [In]; intros u Hu; repeat (destruct Hu as [<-|Hu]; [left; cbn; lia|]); destruct Hu. }
    unfold mk. split; [eexists; reflexivity|]. split; [eexists; reflexivity|]. repeat (split; [assumption|]). assumption.
  - intros c d Hc Hd.
    assert (forall x, In x exs -> c_in x = c_inv x /\ c_out x = c_outv x) as E.
    { intros x Hx; unfold exs in Hx; cbn [In] in Hx. repeat (destruct Hx as [<-|Hx]; [split; reflexivity|]). destruct Hx. }
    destruct (E c Hc) as [E1 E2], (E d Hd) as [E3 E4]. unfold consistent. rewrite E1, E2, E4. tauto.
Qed.

Lemma run_reach {V Rh} iadd (P : con V Rh -> Prop) n m fuel l : forall st o, reach iadd P n m st -> (forall c, In c l -> P c) ->
  reach iadd P n m (fst (fold_left (fun acc c => let '(s, o) := acc in let '(s', r) := add iadd fuel s c in (s', o ++ [r])) l (st, o))).
Proof.
  induction l as [|c l IH]; intros st o HR HP; cbn [fold_left]; [exact HR|].
  destruct (add iadd fuel st c) as [s' r] eqn:E. apply IH; [|intros x Hx; apply HP; right; exact Hx].
  eapply reach_add; [exact HR | apply HP; left; reflexivity | exact E].
Qed.

Definition ex_st : ecs Z Z := fst (run Z.add 20 (init 6 6) [exB; exA; exC; exD; exE]).
Lemma ex_reach : reach Z.add (fun c => In c exs) 6 6 ex_st.
Proof.
  apply (run_reach Z.add _ 6 6 20 [exB; exA; exC; exD; exE] (init 6 6) []); [constructor|].
  intros c Hc; unfold exs; cbn [In] in *. tauto.
Qed.
Lemma ex_sized : forall c, In c (data ex_st) -> sized c.
Proof.
  intros c Hc r x _. vm_compute in Hc. destruct Hc as [<-|[<-|[]]]; reflexivity.
Qed.
