From Coq Require Import Reals Lra Lia List Bool Arith ZArith.
From Verif Require Import Geo GeoLemmas Rigid RigidExamples SegModel ViewModel RotProofs LogModel LogSpec LogMain LogDeriv DistModel DistProofs GTModel GTSpec GTProofs GTJac.
Import ListNotations.
Local Open Scope R_scope.

(** * Columns of the Jacobian, mathematically *)
Definition dflt (c : option twist) : twist := match c with Some c => c | None => t0 end.
Definition jt (g : gt) (k : kins) (a b : twist) : v3 := rate_pos (joint_place (g_j1 g) k) (joint_place (g_j2 g) k) (F1 g) (F2 g) a b.
Definition jo (o : opts) (g : gt) (k : kins) (a b : twist) : v3 := mulv (Jlog_from1 o g k) (rate_ang (joint_place (g_j1 g) k) (joint_place (g_j2 g) k) a b).
(** one of the joints exists and the columns are those of the joints *)
Definition fits (g : gt) (c1 c2 : option twist) : Prop :=
  (g_j1 g <> None \/ g_j2 g <> None) /\ (g_j1 g = None <-> c1 = None) /\ (g_j2 g = None <-> c2 = None).

Section P.
Variables (o : opts) (mask : list bool) (g : gt) (k : kins).
Hypothesis I : inv o mask g.
Lemma R1E x : (if R1isID g then x else mulv (mtr (rot (F1 g))) x) = mulv (mtr (rot (F1 g))) x.
Proof. destruct (R1isID g) eqn:E; [|reflexivity]. now rewrite (i_R1 _ _ _ I E), mtr1, mul1v. Qed.
Lemma cross2E : cross2 g k = mulv (rot (joint_place (g_j2 g) k)) (tra (F2 g)).
Proof. unfold cross2. destruct (t2isZero g) eqn:E; [|reflexivity]. now rewrite (i_t2 _ _ _ I E), mulv_0. Qed.
Lemma JtE c1 c2 : fits g c1 c2 -> Jtranslation g k c1 c2 = Some (jt g k (dflt c1) (dflt c2)).
Proof.
  intros (N & H1 & H2). unfold Jtranslation, jt, rate_pos. rewrite cross2E.
  set (B := joint_place (g_j2 g) k). assert (EB : M2 g k = B) by reflexivity. rewrite EB. clear EB.
  set (x := mulv (rot B) (tra (F2 g))).
  assert (X : t2isZero g = true -> x = v0) by (intros E; unfold x; now rewrite (i_t2 _ _ _ I E), mulv_0).
  destruct (g_j1 g) as [j|] eqn:J1.
  - destruct c1 as [c1|]; [|destruct H1 as [_ H1]; discriminate (H1 eq_refl)]. cbn [dflt joint_place].
    unfold M1. set (A := place k j). rewrite R1E. f_equal. f_equal.
    assert (Y : forall c, (if t2isZero g then vsub (vadd (mulv (mul (mopp (mtr (rot A))) (colcross (rot A) (vsub (vadd x (tra B)) (tra A)))) (ang c1)) (mulv (mul (mtr (rot A)) (rot B)) (lin c))) (lin c1) else vadd (vsub (vadd (mulv (mul (mopp (mtr (rot A))) (colcross (rot A) (vsub (vadd x (tra B)) (tra A)))) (ang c1)) (mulv (mul (mtr (rot A)) (rot B)) (lin c))) (lin c1)) (mulv (mul (mtr (rot A)) (colcross (rot B) x)) (ang c))) = vadd (vsub (vadd (mulv (mul (mopp (mtr (rot A))) (colcross (rot A) (vsub (vadd x (tra B)) (tra A)))) (ang c1)) (mulv (mul (mtr (rot A)) (rot B)) (lin c))) (lin c1)) (mulv (mul (mtr (rot A)) (colcross (rot B) x)) (ang c))).
    { intros c. destruct (t2isZero g) eqn:E; [|reflexivity]. rewrite (X eq_refl), !mulvA, (colcross_v (rot B)).
      generalize (mulv (rot B) (ang c)) (mtr (rot A)). generalize (vsub (vadd (mulv (mopp (mtr (rot A))) (mulv (colcross (rot A) (vsub (vadd v0 (tra B)) (tra A))) (ang c1))) (mulv (mtr (rot A)) (mulv (rot B) (lin c)))) (lin c1)). geo. }
    destruct c2 as [c2|]; cbn [dflt].
    + rewrite Y, !mulvA, mopp_v, !colcross_v, !mulv_add.
      generalize (mulv (mtr (rot A)) (vcross (mulv (rot A) (ang c1)) (vsub (vadd x (tra B)) (tra A)))) (mulv (mtr (rot A)) (mulv (rot B) (lin c2))) (mulv (mtr (rot A)) (vcross (mulv (rot B) (ang c2)) x)) (lin c1). geo.
    + cbn [t0 lin ang]. rewrite !mulvA, mopp_v, colcross_v, !mulv_0.
      generalize (mulv (mtr (rot A)) (vcross (mulv (rot A) (ang c1)) (vsub (vadd x (tra B)) (tra A)))) (mtr (rot A)) (lin c1) x. geo.
  - destruct c2 as [c2|]; [|destruct H2 as [_ H2]; destruct N as [N|N]; [now elim N|now elim (N (H2 eq_refl))]].
    assert (C1 : c1 = None) by now apply H1. subst c1. cbn [dflt joint_place t0 lin ang sid rot tra].
    rewrite mtr1, !mul1v.
    assert (Z : (if t2isZero g then Some (if R1isID g then mulv (rot B) (lin c2) else mulv (mul (mtr (rot (F1 g))) (rot B)) (lin c2)) else Some (if R1isID g then vadd (mulv (colcross (rot B) x) (ang c2)) (mulv (rot B) (lin c2)) else mulv (mtr (rot (F1 g))) (vadd (mulv (colcross (rot B) x) (ang c2)) (mulv (rot B) (lin c2))))) = Some (mulv (mtr (rot (F1 g))) (vadd (mulv (rot B) (lin c2)) (vcross (mulv (rot B) (ang c2)) x)))).
    { rewrite mulvA, !R1E, colcross_v. destruct (t2isZero g) eqn:E.
      - rewrite (X eq_refl). f_equal. f_equal. generalize (mulv (rot B) (lin c2)) (mulv (rot B) (ang c2)). geo.
      - f_equal. f_equal. generalize (mulv (rot B) (lin c2)) (vcross (mulv (rot B) (ang c2)) x). geo. }
    rewrite Z. f_equal. f_equal. generalize (vadd (mulv (rot B) (lin c2)) (vcross (mulv (rot B) (ang c2)) x)) (vsub (vadd x (tra B)) v0). geo.
Qed.
Lemma JoE c1 c2 : fits g c1 c2 -> Jorientation o g k c1 c2 = Some (jo o g k (dflt c1) (dflt c2)).
Proof.
  intros (N & H1 & H2). unfold Jorientation, jo, rate_ang.
  set (B := joint_place (g_j2 g) k). assert (EB : M2 g k = B) by reflexivity. rewrite EB. clear EB.
  destruct (g_j1 g) as [j|] eqn:J1.
  - destruct c1 as [c1|]; [|destruct H1 as [_ H1]; discriminate (H1 eq_refl)]. cbn [dflt joint_place]. unfold M1. f_equal. f_equal.
    destruct c2 as [c2|]; cbn [dflt t0 ang]; rewrite ?mulv_0; [generalize (mulv (mul (mtr (rot (place k j))) (rot B)) (ang c2)) (ang c1)|generalize (ang c1)]; geo.
  - destruct c2 as [c2|]; [|destruct H2 as [_ H2]; destruct N as [N|N]; [now elim N|now elim (N (H2 eq_refl))]].
    assert (C1 : c1 = None) by now apply H1. subst c1. cbn [dflt joint_place t0 ang sid rot].
    now rewrite mtr1, mul1m, mulvA, vsub_0.
Qed.

(** * Rows of one column: what is written with the mask, and no access out of bounds *)
Definition dfull (p w : v3) : list R := (if position o then v3l p else []) ++ (if orientation o then v3l w else []).
Lemma col_E c1 c2 junk out : good_mask o mask -> fits g c1 c2 -> (6 <= length junk)%nat -> length out = count mask ->
  jac_col o g k c1 c2 junk out = Some (select mask (dfull (jt g k (dflt c1) (dflt c2)) (jo o g k (dflt c1) (dflt c2)))).
Proof.
  intros (L & E & S) Ft J O. unfold jac_col. rewrite (JtE c1 c2 Ft), (JoE c1 c2 Ft).
  rewrite (i_mask _ _ _ I), (i_pos _ _ _ I), (i_ori _ _ _ I), (i_row _ _ _ I).
  unfold dfull. generalize (jt g k (dflt c1) (dflt c2)) (jo o g k (dflt c1) (dflt c2)). intros [p1 p2 p3] [w1 w2 w3].
  clear I Ft. revert L E S J O. generalize mask as m. clear mask. intros m L E S J O.
  do 6 (destruct junk as [|? junk]; [cbn in J; lia|]). clear J. unfold create. cbn [fullPos fullOri rowOri].
  destruct (position o) eqn:EP, (orientation o) eqn:EO; try discriminate E; clear E; cbn [Nat.add] in L;
    repeat (destruct m as [|? m]; [try discriminate L|]; try discriminate L); clear L;
    destruct (so3 o) eqn:ES;
    [destruct (S eq_refl) as [_ S']; cbn in S'; injection S' as -> -> ->; clear S| |destruct (S eq_refl); discriminate|
     |destruct (S eq_refl) as [_ S']; cbn in S'; injection S' as -> -> ->; clear S| ];
    repeat match goal with b : bool |- _ => destruct b end;
    repeat (destruct out as [|? out]; [try discriminate O|]; try discriminate O); reflexivity.
Qed.
End P.
