(** Concrete functions used by the examples of FunProps. *)
From Coq Require Import ZArith List Bool Reals Lra Lia.
From Verif Require Import ViewModel FunModel FunSpec FdModel EqModel.
Import ListNotations.
Local Open Scope Z_scope.

(** f (x, y) = (x + y, 2 y), over the integers *)
Definition fsum : fn Z :=
  mkfn 2 2 2 2 [true; true] [true; true]
    (fun x => [nth 0 x 0 + nth 1 x 0; 2 * nth 1 x 0])
    (fun _ m => Some (mkmat (nr m) (nc m) (fun i j => if i =? 0 then 1 else if j =? 0 then 0 else 2))).
(** g (x, y) = 7 y *)
Definition fsev : fn Z :=
  mkfn 2 2 1 1 [false; true] [false; true]
    (fun x => [7 * nth 1 x 0])
    (fun _ m => Some (mkmat (nr m) (nc m) (fun _ j => if j =? 0 then 0 else 7))).

Lemma fsum_wf : wf_fn fsum.
Proof.
  unfold wf_fn. cbn. repeat split; try lia; try congruence.
  - intros. eexists. repeat split.
  - injection H3 as <-. injection H4 as <-. cbn. apply H2.
  - injection H3 as <-. injection H4 as <-. cbn. apply H2.
  - intros. injection H3 as <-. injection H4 as <-. reflexivity.
Qed.
Lemma fsev_wf : wf_fn fsev.
Proof.
  unfold wf_fn. cbn. repeat split; try lia; try congruence.
  - intros. eexists. repeat split.
  - injection H3 as <-. injection H4 as <-. cbn. apply H2.
  - injection H3 as <-. injection H4 as <-. cbn. apply H2.
  - intros. injection H3 as <-. injection H4 as <-. reflexivity.
Qed.

(** g (y) = 3 y, of one variable *)
Definition f3 : fn Z :=
  mkfn 1 1 1 1 [true] [true] (fun x => [3 * nth 0 x 0]) (fun _ m => Some (mkmat (nr m) (nc m) (fun _ _ => 3))).
Lemma f3_wf : wf_fn f3.
Proof.
  unfold wf_fn. cbn. repeat split; try lia; try congruence.
  - intros. eexists. repeat split.
  - injection H3 as <-. injection H4 as <-. cbn. apply H2.
  - injection H3 as <-. injection H4 as <-. cbn. apply H2.
  - intros. injection H3 as <-. injection H4 as <-. reflexivity.
Qed.

Definition dump (m : mat Z) : list (list Z) :=
  map (fun i => map (fun j => at_ m (Z.of_nat i) (Z.of_nat j)) (seq 0 (Z.to_nat (nc m)))) (seq 0 (Z.to_nat (nr m))).

Local Open Scope R_scope.
Definition square : rfun := mkr (fun t _ => t * t) (fun t _ => 2 * t).
Lemma square_derivable i u : derivable_pt_lim (fun v => r_val square v i) u (r_jac square u i).
Proof.
  intros e He. exists (mkposreal e He). intros h N L. cbn in *. replace (_ / h - 2 * u) with h by (field; auto). exact L.
Qed.

Definition tf (j1 j2 : nat) : fun_ Z :=
  mkfun (mkbase 1 12 12 3) (KTransform 6 0 j1 j2 [0; 0; 0]%Z [1; 0; 0]%Z [true; true; true]).

(** componentwise subtraction *)
Fixpoint vsub (a b : list Z) : list Z := match a, b with x :: a', y :: b' => (x - y)%Z :: vsub a' b' | _, _ => [] end.

(** g (y0, y1) = y1, flagged accordingly *)
Definition g2 : fn Z :=
  mkfn 2 2 1 1 [false; true] [false; true] (fun x => [nth 1 x 0%Z]) (fun _ m => Some (mkmat (nr m) (nc m) (fun _ j => if (j =? 1)%Z then 1 else 0)%Z)).
Lemma g2_wf : wf_fn g2.
Proof.
  unfold wf_fn. cbn. split; [lia|]. split; [lia|]. split; [lia|]. split; [lia|]. split; [reflexivity|]. split; [reflexivity|].
  split; [reflexivity|]. split; [intros; eexists; split; [reflexivity|]; split; reflexivity|].
  intros x m1 m2 m1' m2' _ _ _ (H1 & H2 & _) E1 E2. injection E1 as <-. injection E2 as <-. split; [exact H1|]. split; [exact H2|]. reflexivity.
Qed.
