(** Property C84: one step of the resolution. *)
From Coq Require Import ZArith Reals List Bool.
From Verif Require Import SolveModel LineModel SatModel OneModel OneProofs.
Import ListNotations.
Open Scope R_scope.

(** The result of oneStep: the configuration is one that explicit_.solve returned, the boolean and the stored
    norm are those of isSatisfied at this configuration, explicit constraints included. *)
Theorem C84_result : forall (Q D Dat LS V : Type) (ltb : V -> V -> bool) (thr : V) (E : Q -> V) (dat : Q -> Dat) (dir : Dat -> D)
    (esolve : Q -> option Q) (esat : Q -> bool) (lsearch : LS -> V -> Dat -> Q -> D -> option (Q * D * LS)) s arg r q s',
  (forall a x, esolve a = Some x -> esat x = true) ->
  one_step ltb thr E dat dir esolve lsearch s arg = Some (r, q, s') ->
  (exists a, esolve a = Some q) /\ (r = true <-> ltb (E q) thr = true) /\ o_norm s' = E q /\ (r, s') = b_satisfied ltb thr E esat s' q.
Proof. exact @one_step_all. Qed.
Print Assumptions C84_result.

(** Calls of oneStep in a row, after isSatisfied: the configurations are those of solve as long as computeSaturation
    changes nothing, whatever the line search. *)
Theorem C84_iterates : forall (Q D Dat LS V : Type) (ltb : V -> V -> bool) (thr : V) (E : Q -> V) (dat : Q -> Dat) (sat : Q -> Dat -> Dat) (dir : Dat -> D)
    (esolve : Q -> option Q) (lsearch : LS -> V -> Dat -> Q -> D -> option (Q * D * LS))
    (dnorm : D -> V) (dmin : V) (maxit rdim : Z) (C : Q -> V) (quarter half dbl : V -> V) (bh : V -> bool) (vone zero : V) (dmul ddiv : D -> V -> D)
    fuel s0 n0 arg st q b,
  bsolve ltb E (descent_of dat sat dir) dnorm dmin thr maxit rdim C (lsearch_of E dat sat lsearch) esolve quarter half dbl bh vone zero dmul ddiv
    fuel s0 false arg = Done st q b ->
  (forall x, In x (b_past b) -> sat x (dat x) = dat x) ->
  exists q1 s', esolve arg = Some q1 /\
    steps ltb thr E dat dir esolve lsearch (length (b_past b)) (snd (h_satisfied ltb thr E (mkos n0 s0) q1)) q1 = Some (b_arg b, s').
Proof. exact @bsolve_steps. Qed.
Print Assumptions C84_iterates.

(** x + y = 2 from (0, 0): one step *)
Example C84_iterates_case : exists b,
  let E := two_E 1 1 2 in let dat := two_dat 1 1 2 in let sat := two_sat (-10) 10 (-10) 10 in
  let ls := two_constant (-10) 10 (-10) 10 in
  bsolve ltbR E (descent_of dat sat two_dir) (fun d => fst d * fst d + snd d * snd d) (1/100000) (1/100) 40 2 E (lsearch_of E dat sat ls) Some
     (fun x => x / 4) (fun x => x / 2) (fun x => x * 2) (fun x => ltbR x (1/2)) 1 0 (fun d x => (x * fst d, x * snd d)) (fun d x => (fst d / x, snd d / x))
     2 tt false (0, 0) = Done SUCCESS (1, 1) b /\ b_past b = [(0, 0)] /\ (forall x, In x (b_past b) -> sat x (dat x) = dat x).
Proof. exact free_run. Qed.

(** Without isSatisfied beforehand: the same for the line searches that do not read the norm. *)
Theorem C84_norm_free : forall (Q D Dat LS V : Type) (ltb : V -> V -> bool) (thr : V) (E : Q -> V) (dat : Q -> Dat) (dir : Dat -> D)
    (esolve : Q -> option Q) (lsearch : LS -> V -> Dat -> Q -> D -> option (Q * D * LS)) ls n1 n2 arg,
  (forall l x y d q dq, lsearch l x d q dq = lsearch l y d q dq) ->
  one_step ltb thr E dat dir esolve lsearch (mkos n1 ls) arg = one_step ltb thr E dat dir esolve lsearch (mkos n2 ls) arg.
Proof. exact @one_step_norm_free. Qed.
Print Assumptions C84_norm_free.

(** At a bound: x + y = 2 with x <= 0, from (0, 0).  solve is done after one step, oneStep wastes half of its step on
    the variable that cannot move. *)
Theorem C84_saturation_refuted :
  let E := two_E 1 1 2 in let dat := two_dat 1 1 2 in let sat := two_sat (-10) 0 (-10) 10 in
  let ls := two_constant (-10) 0 (-10) 10 in
  (exists s', one_step ltbR (1/100) E dat two_dir Some ls (mkos (E (0, 0)) tt) (0, 0) = Some (false, (0, 1), s')) /\
  (exists b, bsolve ltbR E (descent_of dat sat two_dir) (fun d => fst d * fst d + snd d * snd d) (1/100000) (1/100) 1 2 E (lsearch_of E dat sat ls) Some
     (fun x => x / 4) (fun x => x / 2) (fun x => x * 2) (fun x => ltbR x (1/2)) 1 0 (fun d x => (x * fst d, x * snd d)) (fun d x => (fst d / x, snd d / x))
     2 tt false (0, 0) = Done SUCCESS (0, 2) b) /\ E (0, 2) = 0.
Proof. exact stuck_at_bound. Qed.
Print Assumptions C84_saturation_refuted.

(** x = 0 from 1 with backtracking: when the norm in memory is not the one of the argument (0 in a new solver) the full
    step, which solves the equation, is rejected. *)
Theorem C84_backtracking_refuted : forall n, n < 1 / 1000 ->
  (exists s', one_step ltbR (1/100) sg_E sg_dat sg_dir Some sg_backtracking (mkos n tt) 1 = Some (false, 8 / 10, s')) /\
  (exists s', one_step ltbR (1/100) sg_E sg_dat sg_dir Some sg_backtracking (mkos (sg_E 1) tt) 1 = Some (true, 0, s')).
Proof. exact backtracking_norm. Qed.
Print Assumptions C84_backtracking_refuted.
(** a new solver *)
Example C84_backtracking_case : 0 < 1 / 1000. Proof. apply Rdiv_lt_0_compat; apply IZR_lt; reflexivity. Qed.

(** The same equation with ErrorNormBased: another norm in memory, another configuration. *)
Theorem C84_error_norm_refuted : forall p thr2 n1 n2 x r1 r2 q1 q2 s1 s2, en_K p * en_a p <> 0 -> thr2 <> 0 -> n1 <> n2 -> x <> 0 ->
  one_step ltbR (1/100) sg_E sg_dat sg_dir Some (sg_error_norm p thr2) (mkos n1 tt) x = Some (r1, q1, s1) ->
  one_step ltbR (1/100) sg_E sg_dat sg_dir Some (sg_error_norm p thr2) (mkos n2 tt) x = Some (r2, q2, s2) -> q1 <> q2.
Proof. exact error_norm_norm. Qed.
Print Assumptions C84_error_norm_refuted.

(** The searches on the norm of the argument are those of C35. *)
Theorem C84_searches : forall (Q D : Type) (integrate : Q -> D -> Q) scale f fuel s e slope thr2 arg u,
  bt_with integrate scale f fuel s slope (f arg) arg u = bt_step integrate scale f fuel s slope arg u /\
  enb_with integrate scale e thr2 (f arg) arg u = enb_step integrate scale f e thr2 arg u.
Proof. exact (fun Q D integrate scale f fuel s e slope thr2 arg u => conj (bt_with_arg integrate scale f fuel s slope arg u) (enb_with_arg integrate scale f e thr2 arg u)). Qed.
Print Assumptions C84_searches.
