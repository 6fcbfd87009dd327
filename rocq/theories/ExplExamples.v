(** Concrete cases for ExplProps. *)
From Coq Require Import ZArith List Bool.
From Verif Require Import SegModel ViewModel EcsModel FunModel ImplFunModel LockModel.
Import ListNotations.
Open Scope Z_scope.

(** a free-flyer, a revolute joint and an unbounded rotation, two extra variables;
    the sum in configuration spaces is replaced by the addition of coefficients *)
Definition robot : layout := [(7, 6); (1, 1); (2, 1)].
Definition zinteg (k : nat) (v r : list Z) : list Z := vsum Z.add v (r ++ repeat 0 (length v - length r)).

(** q_3, q_4 = f (q_0, q_1) = (q_0 + q_1, 2 q_1), six variables *)
Definition zminus (a b : list Z) : list Z := map (fun p => fst p - snd p) (combine a b).
Definition exif (sp : list (factor Z Z)) : ifun Z Z :=
  mkif 6 6 (fun x => [nth 0 x 0 + nth 1 x 0; 2 * nth 1 x 0])
    (fun _ => mkmat 2 2 (fun i j => if i =? 0 then 1 else if j =? 0 then 0 else 2)) zminus sp [(0, 2)] [(3, 2)] [(0, 2)] [(3, 2)].
Definition zdump (m : mat Z) : list (list Z) :=
  map (fun i => map (fun j => at_ m (Z.of_nat i) (Z.of_nat j)) (seq 0 (Z.to_nat (nc m)))) (seq 0 (Z.to_nat (nr m))).
