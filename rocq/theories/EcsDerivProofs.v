(** The Jacobian computed by the set is the derivative of its resolution map. *)
From Coq Require Import ZArith List Bool Lia ZifyBool Permutation Reals Lra.
From Verif Require Import SegModel SegSpec SegProofs ViewModel ViewProofs EcsModel EcsSpec EcsProofs EcsOrderProofs EcsMainProofs EcsSolveProofs EcsFinalProofs EcsJacModel EcsJacSpec EcsJacProofs.
Import ListNotations.
Open Scope Z_scope.

Notation rdot := (dot 0%R Rplus Rmult).
Notation rsum := (ksum 0%R Rplus).

Lemma fold_dot_acc (l : list (R * R)) s : fold_left (fun s p => (s + fst p * snd p)%R) l s = (s + fold_left (fun s p => (s + fst p * snd p)%R) l 0)%R.
Proof.
  revert s; induction l as [|[u v] l IH]; intros s; cbn [fold_left]; [lra|].
  rewrite (IH (s + _)%R), (IH (0 + _)%R). cbn [fst snd]; lra.
Qed.
Lemma rdot_cons a la b lb : rdot (a :: la) (b :: lb) = (a * b + rdot la lb)%R.
Proof. unfold dot; cbn [combine fold_left fst snd]. rewrite fold_dot_acc. lra. Qed.
Lemma rdot_nil_r a : rdot a [] = 0%R.
Proof. unfold dot; destruct a; reflexivity. Qed.
Lemma rdot_nil_l b : rdot [] b = 0%R.
Proof. reflexivity. Qed.

Lemma rdot_add (f g : Z -> R) l : forall a, rdot a (map (fun x => (f x + g x)%R) l) = (rdot a (map f l) + rdot a (map g l))%R.
Proof.
  induction l as [|x l IH]; intros [|u a]; cbn [map]; rewrite ?rdot_nil_r, ?rdot_nil_l; try lra.
  rewrite !rdot_cons, IH; lra.
Qed.
Lemma rdot_scal (f : Z -> R) c l : forall a, rdot a (map (fun x => (f x * c)%R) l) = (rdot a (map f l) * c)%R.
Proof.
  induction l as [|x l IH]; intros [|u a]; cbn [map]; rewrite ?rdot_nil_r, ?rdot_nil_l; try lra.
  rewrite !rdot_cons, IH; lra.
Qed.
Lemma rdot_sum (J : Z -> Z -> R) (v : Z -> R) l a N :
  rdot a (map (fun x => rsum N (fun j => (J x j * v j)%R)) l) = rsum N (fun j => (rdot a (map (fun x => J x j) l) * v j)%R).
Proof.
  induction N as [|N IH]; cbn [ksum].
  - revert a; induction l as [|x l IHl]; intros [|u a]; cbn [map]; rewrite ?rdot_nil_r, ?rdot_nil_l; try lra.
    rewrite rdot_cons, IHl; lra.
  - rewrite (rdot_add (fun x => rsum N (fun j => (J x j * v j)%R)) (fun x => (J x (Z.of_nat N) * v (Z.of_nat N))%R)).
    rewrite IH, (rdot_scal (fun x => J x (Z.of_nat N))). lra.
Qed.
Lemma rsum_delta N i (v : Z -> R) : 0 <= i < Z.of_nat N ->
  rsum N (fun j => ((if i =? j then 1 else 0) * v j)%R) = v i.
Proof.
  induction N as [|N IH]; intros Hi; [lia|]. cbn [ksum].
  assert (Z0 : forall k, (Z.of_nat k <= i) -> rsum k (fun j => ((if i =? j then 1 else 0) * v j)%R) = 0%R).
  { induction k as [|k IHk]; intros Hk; cbn [ksum]; [reflexivity|]. rewrite IHk by lia.
    destruct (Z.eqb_spec i (Z.of_nat k)); [lia|]. lra. }
  destruct (Z.eqb_spec i (Z.of_nat N)) as [->|Hne].
  - rewrite Z0 by lia. lra.
  - rewrite IH by lia. lra.
Qed.

Lemma derive_eq f g x l l' : (forall t, f t = g t) -> l = l' -> derivable_pt_lim g x l' -> derivable_pt_lim f x l.
Proof. intros H -> D eps He. destruct (D eps He) as [d Hd]. exists d. intros h Hh Hl. rewrite !H. apply Hd; auto. Qed.

Lemma nth_map_Z (f : Z -> R) l k x : nth_error l k = Some x -> nth k (map f l) 0%R = f x.
Proof. intros H. apply nth_error_nth. rewrite nth_error_map, H; reflexivity. Qed.

Section Deriv.
Context {Rh : Type}.
Notation con := (con R Rh).
Notation ecs := (ecs R Rh).
Variable iadd : Z -> Z -> Z.
Variables (P : con -> Prop) (m : Z).
Hypothesis FAM : family m m P.
(** vector space: configuration and velocity variables coincide *)
Hypothesis VEC : forall c, P c -> c_in c = c_inv c /\ c_out c = c_outv c.

Lemma jacobian_is_derivative (st : ecs) rl Fs (J : mat R) (q r : R -> Z -> R) (dq : Z -> R) :
  reach iadd P m m st -> length rl = length (data st) -> (forall c, In c (data st) -> sized c) ->
  jac_sizes (data st) Fs -> jacobian 0%R 1%R Rplus Rmult st Fs = Some J ->
  (forall t, solve (with_rhs st rl) (q t) = Some (r t)) ->
  (forall k c F rh, nth_error (data st) k = Some c -> nth_error Fs k = Some F -> nth_error rl k = Some rh ->
     diff_along (c_val c rh) (map (r 0%R) (indices (c_in c))) F (length (indices (c_out c)))) ->
  (forall i, 0 <= i < m -> derivable_pt_lim (fun t => q t i) 0 (dq i)) ->
  forall i, 0 <= i < m ->
    derivable_pt_lim (fun t => r t i) 0 (rsum (Z.to_nat m) (fun j => (at_ J i j * dq j)%R)).
Proof.
  intros HR HL HS HSz HJ HSol HDiff Hdq.
  pose proof (reach_inv iadd P m m st FAM HR) as I.
  destruct (jacobian_spec 0%R 1%R Rplus Rmult (Rplus_0_l 0) Rmult_0_r iadd P m m FAM st Fs HR HSz) as (J' & E & _ & _ & [T1 T2] & _).
  rewrite HJ in E; injection E as <-.
  assert (HSolves : forall t, solution (combine (data st) rl) (q t) (r t)).
  { intros t. destruct (solve_spec iadd P m m FAM st rl (q t) HR HL HS) as (q' & E & S & _).
    rewrite HSol in E; injection E as <-. exact S. }
  assert (HV : forall c, In c (data st) -> c_in c = c_inv c /\ c_out c = c_outv c) by (intros c Hc; apply VEC, I, Hc).
  assert (HO : forall i, outputv (data st) i -> output (data st) i).
  { intros i (c & Hc & Hi). exists c; split; [exact Hc|]. rewrite (proj2 (HV c Hc)); exact Hi. }
  assert (HO2 : forall i, output (data st) i -> outputv (data st) i).
  { intros i (c & Hc & Hi). exists c; split; [exact Hc|]. rewrite <- (proj2 (HV c Hc)); exact Hi. }
  set (D := fun i => rsum (Z.to_nat m) (fun j => (at_ J i j * dq j)%R)).
  assert (HFree : forall i, 0 <= i < m -> ~ outputv (data st) i -> D i = dq i).
  { intros i Hi Hn. unfold D. rewrite <- (rsum_delta (Z.to_nat m) i dq) by lia.
    apply ksum_ext. intros j Hj. rewrite (T1 i (Z.of_nat j)); auto; lia. }
  assert (HChain : forall k c F p i, nth_error (data st) k = Some c -> nth_error Fs k = Some F ->
     nth_error (indices (c_outv c)) p = Some i -> D i = rdot (row_of F p (length (indices (c_inv c)))) (map D (indices (c_inv c)))).
  { intros k c F p i Hc HF Hp. unfold D. rewrite rdot_sum. apply ksum_ext. intros j Hj.
    rewrite (T2 k c F p i (Z.of_nat j) Hc HF Hp) by lia. reflexivity. }
  assert (G : forall l1 l2, order st = l1 ++ l2 -> forall x, 0 <= x < m ->
     ((exists k c, In k l1 /\ nth_error (data st) k = Some c /\ covers (c_outv c) x) \/ ~ outputv (data st) x) ->
     derivable_pt_lim (fun t => r t x) 0 (D x)).
  { induction l1 as [|k l1 IH] using rev_ind; intros l2 Ho x Hx HH.
    - destruct HH as [(k & c & [] & _)|HH].
      eapply derive_eq; [| apply HFree; auto | apply Hdq; exact Hx].
      intros t. apply (proj2 (HSolves t)). rewrite map_fst_combine by exact HL. intros H; apply HH, HO2, H.
    - rewrite <- app_assoc in Ho; cbn in Ho.
      destruct HH as [(k' & c & Hk' & Hc & Hxc)|HH]; [|eapply IH; [exact Ho | exact Hx | right; exact HH]].
      apply in_app_or in Hk' as [Hk'|[<-|[]]]; [eapply IH; [exact Ho | exact Hx | left; exists k', c; auto]|].
      assert (Hlt : (k < length (data st))%nat) by (apply nth_error_Some; congruence).
      destruct (nth_error Fs k) as [F|] eqn:HF; [|apply nth_error_None in HF; rewrite (proj1 HSz) in HF; lia].
      destruct (nth_error rl k) as [rh|] eqn:Hrh; [|apply nth_error_None in Hrh; lia].
      destruct (HV c (nth_error_In _ _ Hc)) as [V1 V2].
      apply In_indices, In_nth_error in Hxc as [p Hp].
      assert (Hpl : (p < length (indices (c_outv c)))%nat) by (apply nth_error_Some; congruence).
      rewrite (HChain k c F p x Hc HF Hp).
      pose proof (HDiff k c F rh Hc HF Hrh (fun t => map (r t) (indices (c_in c))) (map D (indices (c_in c)))) as HD.
      rewrite !map_length in HD.
      specialize (HD ltac:(intros t; rewrite map_length; reflexivity) eq_refl eq_refl).
      match type of HD with ?A -> _ => assert (HPrem : A) end.
      { intros y Hy.
      assert (Hny : exists z, nth_error (indices (c_in c)) y = Some z).
      { destruct (nth_error (indices (c_in c)) y) as [z|] eqn:Ez; [exists z; reflexivity | apply nth_error_None in Ez; lia]. }
      destruct Hny as [z Hz].
      rewrite (nth_map_Z D _ _ _ Hz).
      eapply derive_eq; [intros t; apply (nth_map_Z (r t) _ _ _ Hz) | reflexivity|].
      assert (Hzc : covers (c_inv c) z) by (apply In_indices; rewrite <- V1; eapply nth_error_In; exact Hz).
      pose proof FAM as (_ & _ & HW & _). destruct (HW c (i_P _ _ _ _ _ I c (nth_error_In _ _ Hc))) as (_ & _ & _ & _ & W1 & _).
      eapply IH; [exact Ho | |].
      + destruct Hzc as (s & Hs & Hi2). specialize (W1 s Hs). unfold in_seg in Hi2; lia.
      + destruct (outputv_dec (data st) z) as [(d & Hd & Hdy)|Hno]; [left | right; exact Hno].
        apply In_nth_error in Hd as [k' Hk']. exists k', d; split; [|auto].
        eapply (velo_order iadd P m m FAM st l1 k l2 c d k' z); eauto. }
      eapply derive_eq; [| | apply (HD HPrem p); rewrite V2; exact Hpl].
      + intros t. rewrite <- (nth_map_Z (r t) _ _ _ Hp). rewrite <- V2.
        assert (Hin : In (c, rh) (combine (data st) rl)) by (apply in_combine_nth; exists k; auto).
        pose proof (proj1 (HSolves t) c rh Hin) as HSat. unfold satisfies in HSat. rewrite HSat. reflexivity.
      + rewrite V1; reflexivity. }
  intros i Hi. apply (G (order st) [] (eq_sym (app_nil_r _)) i Hi).
  destruct (outputv_dec (data st) i) as [(d & Hd & Hdi)|Hn]; [left | right; exact Hn].
  apply In_nth_error in Hd as [k Hk]. exists k, d; split; [|auto].
  apply (order_index iadd P m m st k I), nth_error_Some; congruence.
Qed.
End Deriv.
