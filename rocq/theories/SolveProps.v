(** Properties C34, C42, C43: resolution loops of the iterative solvers.

    The numerical steps (descent direction, line search, residual, cost, resolution of
    the explicit constraints) are arbitrary functions; [ltb] is the comparison of
    doubles. *)
From Coq Require Import ZArith List Bool Floats.SpecFloat.
From Verif Require Import EcsModel EcsSpec EcsOrderProofs EcsRhsExamples NanModel HierModel HierSpec HierExamples
  SolveModel SolveSpec SolveProofs SolveBySubProofs SolveLinkProofs.
Import ListNotations.
Open Scope Z_scope.

(** C34: the solver returns the first iterate at which a stop condition holds, never
    an uninitialised status *)
Theorem C34_result : forall (Q D St V : Type) (ltb : V -> V -> bool) (E : Q -> V) (descent : St -> Q -> D * St)
    (dnorm : D -> V) (dmin thr : V) (maxit rdim : Z) (lsearch : St -> Q -> D -> Q * D * St) (inf : V) (p : St * Q) fuel,
  (Z.to_nat maxit <= fuel)%nat ->
  exists n st, hsolve ltb E descent dnorm dmin thr maxit rdim lsearch inf fuel (fst p) (snd p) =
      Some (Some st, snd (iterate descent lsearch n p), map (fun k => snd (iterate descent lsearch k p)) (rev (seq 0 n)), Z.of_nat n) /\
    (0 <= Z.of_nat n <= Z.max 0 maxit) /\
    (st = SUCCESS <-> ~ above ltb E descent lsearch thr p n) /\
    ((n = 0%nat /\ rdim = 0 /\ above ltb E descent lsearch thr p 0 /\ st = INFEASIBLE) \/
     (~ (rdim = 0 /\ above ltb E descent lsearch thr p 0) /\
      stops ltb E descent lsearch dnorm dmin thr inf maxit p n /\
      (forall k, (k < n)%nat -> ~ stops ltb E descent lsearch dnorm dmin thr inf maxit p k) /\
      (st = MAX_ITERATION_REACHED <-> above ltb E descent lsearch thr p n /\ maxit <= Z.of_nat n) /\
      (st = ERROR_INCREASED <-> above ltb E descent lsearch thr p n /\ Z.of_nat n < maxit /\ three_increases ltb E descent lsearch inf p n) /\
      (st = INFEASIBLE <-> above ltb E descent lsearch thr p n /\ Z.of_nat n < maxit /\ ~ three_increases ltb E descent lsearch inf p n))).
Proof. exact @hsolve_spec. Qed.
Print Assumptions C34_result.

(** a SUCCESS configuration is reported satisfied, unless its residual equals the
    threshold *)
Theorem C34_success_satisfied : forall (F V : Type) zero add sub neg ltb sqn (s : hs F V) ineq_thr sqthr q m,
  residual zero add sub neg ltb sqn s ineq_thr q = Some m -> isnan sqthr = false -> flt sqthr m = false ->
  hsat zero add sub neg ltb sqn s ineq_thr sqthr q = Some (negb (SFeqb m sqthr)).
Proof. exact success_hsat. Qed.
Print Assumptions C34_success_satisfied.

(** with a zero threshold no configuration is satisfied, though SUCCESS is returned *)
Theorem C34_zero_threshold_refuted : exists (s : hs nat spec_float) adds q m,
  hreach Nat.eqb fzero fmem fok s adds /\ adds <> [] /\
  residual fzero fadd fsub SFopp flt fsqn s fzero q = Some m /\ flt fzero m = false /\
  hsat fzero fadd fsub SFopp flt fsqn s fzero fzero q = Some false.
Proof.
  exists (fl_build [(fic 1 0 Equality true, 0%nat)]), [(fic 1 0 Equality true, 0%nat)], (fun _ => fzero), fzero.
  split; [apply fl_reach; [eexists; reflexivity | intros c p [H|[]]; injection H as <- <-; eauto]|].
  split; [discriminate|]. repeat split; vm_compute; reflexivity.
Qed.
Print Assumptions C34_zero_threshold_refuted.

(** halving: 8, 4, 2, 1, 0; too few iterations; a constant error; no step *)
Example C34_case :
  hx_solve (fun q => - (q - q / 2)) 40 1 8 = Some (Some SUCCESS, 0, [1; 2; 4; 8], 4) /\
  hx_solve (fun q => - (q - q / 2)) 3 1 8 = Some (Some MAX_ITERATION_REACHED, 1, [2; 4; 8], 3) /\
  hx_solve (fun q => -2 * q) 40 1 8 = Some (Some ERROR_INCREASED, 8, [-8; 8; -8; 8], 4) /\
  hx_solve (fun q => if q <? 3 then 0 else - (q - q / 2)) 40 1 8 = Some (Some INFEASIBLE, 2, [4; 8], 2) /\
  hx_solve (fun q => -1) 40 0 8 = Some (Some INFEASIBLE, 8, [], 0) /\
  hx_solve (fun q => -1) 0 0 0 = Some (Some SUCCESS, 0, [], 0).
Proof. vm_compute. repeat split. Qed.

(** C42: outcome of BySubstitution::solve without optimisation.  [esolve] resolves the
    explicit constraints (None: a function is not defined there).  The hypothesis on
    [ltb] holds for doubles when no residual is NaN, see C42_hypothesis. *)
Theorem C42_outcome : forall (Q D St V : Type) (ltb : V -> V -> bool) (E : Q -> V) (descent : St -> Q -> D * St)
    (dnorm : D -> V) (dmin thr : V) (maxit rdim : Z) (C : Q -> V) (lsearch : St -> Q -> D -> option (Q * D * St))
    (esolve : Q -> option Q) (quarter half dbl : V -> V) (below_half : V -> bool) (one zero : V) (dmul ddiv : D -> V -> D),
  (forall q a c, ltb a c = true -> ltb a (E q) = true \/ ltb (E q) c = true) ->
  forall fuel s arg, (Z.to_nat maxit <= fuel)%nat ->
  let result := bsolve ltb E descent dnorm dmin thr maxit rdim C lsearch esolve quarter half dbl below_half one zero dmul ddiv fuel s false arg in
  match esolve arg with
  | None => result = Thrown
  | Some q1 =>
      if ltb (quarter thr) (E q1) && (rdim =? 0) then result = Early q1
      else result = Thrown \/
        exists st a b, result = Done st a b /\ solved esolve a /\
          (if ltb (E q1) thr
           then st = SUCCESS /\ (a = q1 \/ ltb (E q1) (E a) = false) /\ (length (b_past b) <= 2)%nat
           else (st = SUCCESS <-> ltb (quarter thr) (E a) = false) /\
                (st = MAX_ITERATION_REACHED -> maxit <= Z.of_nat (length (b_past b))) /\
                (st = INFEASIBLE -> exists s', ltb (dnorm (fst (descent s' a))) dmin = true) /\
                (st = ERROR_INCREASED -> no_decrease ltb 3 (map E (a :: b_past b))) /\
                Z.of_nat (length (b_past b)) <= Z.max 0 maxit)
  end.
Proof. exact @plain_solve. Qed.
Print Assumptions C42_outcome.

(** [solved] configurations satisfy every explicit constraint *)
Theorem C42_explicit_satisfied : forall (V Rh : Type) iadd (P : con V Rh -> Prop) n m (st : ecs V Rh) rl
    (esolve : (Z -> V) -> option (Z -> V)) a,
  family n m P -> reach iadd P n m st -> length rl = length (data st) -> (forall c, In c (data st) -> sized c) ->
  (forall q q', esolve q = Some q' -> solve (with_rhs st rl) q = Some q') ->
  solved esolve a -> satisfies_all a (combine (data st) rl).
Proof. exact solved_satisfies. Qed.
Print Assumptions C42_explicit_satisfied.

(** the residuals of the code are never NaN and meet the hypothesis of C42_outcome *)
Theorem C42_hypothesis : forall (F V : Type) (sqn : list V -> spec_float) (s : hs F V) es r a c,
  compute_error sqn s es = Some r -> flt a c = true -> flt a r = true \/ flt r c = true.
Proof. exact residual_cotrans. Qed.
Print Assumptions C42_hypothesis.

(** a configuration below the threshold is declared INFEASIBLE when nothing can be
    reduced *)
Theorem C42_satisfied_start_refuted : exists E q,
  bx_esolve q = Some q /\ E q <? 20 = true /\ bx_solve E (fun _ => -1) false 40 0 q = Early q.
Proof. exists (fun q => Z.abs (fst q - 10)), (18, 36). repeat split. Qed.
Print Assumptions C42_satisfied_start_refuted.

(** residual |x - 10|, threshold 20: start above; start below but above a quarter, with
    a decreasing and an increasing step *)
Example C42_case :
  (forall q a c, Z.ltb a c = true -> Z.ltb a (Z.abs (fst q - 10)) = true \/ Z.ltb (Z.abs (fst (q : Z * Z) - 10)) c = true) /\
  bx_res (bx_solve (fun q => Z.abs (fst q - 10)) (fun _ => -7) false 40 1 (40, 0)) = Some (SUCCESS, (12, 24)) /\
  bx_res (bx_solve (fun q => Z.abs (fst q - 10)) (fun _ => -1) false 40 1 (18, 36)) = Some (SUCCESS, (16, 32)) /\
  bx_res (bx_solve (fun q => Z.abs (fst q - 10)) (fun _ => 3) false 40 1 (18, 0)) = Some (SUCCESS, (18, 36)) /\
  bx_res (bx_solve (fun q => Z.abs (fst q - 10)) (fun _ => 3) false 40 1 (40, 0)) = Some (ERROR_INCREASED, (49, 98)) /\
  bx_res (bx_solve (fun q => Z.abs (fst q - 10)) (fun _ => 0) false 40 1 (40, 0)) = Some (INFEASIBLE, (40, 80)) /\
  bx_res (bx_solve (fun q => Z.abs (fst q - 10)) (fun _ => -1) false 2 1 (40, 0)) = Some (MAX_ITERATION_REACHED, (38, 76)).
Proof. split; [exact (zlt_cot (fun q => Z.abs (fst q - 10)))|]. vm_compute. repeat split. Qed.

(** C43: outcome of the optimisation; q1 is the start after resolution of the explicit
    constraints, [b_arg b :: b_past b] the visited configurations *)
Theorem C43_outcome : forall (Q D St V : Type) (ltb : V -> V -> bool) (E : Q -> V) (descent : St -> Q -> D * St)
    (dnorm : D -> V) (dmin thr : V) (maxit rdim : Z) (C : Q -> V) (lsearch : St -> Q -> D -> option (Q * D * St))
    (esolve : Q -> option Q) (quarter half dbl : V -> V) (below_half : V -> bool) (one zero : V) (dmul ddiv : D -> V -> D),
  (forall a, ltb a a = false) -> (forall a b c, ltb a b = true -> ltb b c = true -> ltb a c = true) ->
  forall fuel s arg, (Z.to_nat maxit <= fuel)%nat ->
  let result := bsolve ltb E descent dnorm dmin thr maxit rdim C lsearch esolve quarter half dbl below_half one zero dmul ddiv fuel s true arg in
  match esolve arg with
  | None => result = Thrown
  | Some q1 =>
      if ltb (quarter thr) (E q1) && (rdim =? 0) then result = Early q1
      else result = Thrown \/
        exists st a b, result = Done st a b /\ solved esolve a /\
          (st = MAX_ITERATION_REACHED /\ maxit <= b_iter b \/ st = INFEASIBLE) /\
          0 <= b_iter b <= Z.max 0 maxit /\
          In a (b_arg b :: b_past b) /\ In q1 (b_arg b :: b_past b) /\
          (forall v, In v (b_arg b :: b_past b) -> ltb (quarter thr) (E v) = false ->
             (ltb (quarter thr) (E q1) = false \/ ltb (C v) (C q1) = true) ->
             ltb (quarter thr) (E a) = false /\ ltb (C v) (C a) = false /\ ltb (C q1) (C a) = false) /\
          ((forall v, In v (b_arg b :: b_past b) -> ltb (quarter thr) (E v) = true) -> b_nd b <= 1)
  end.
Proof. exact @opt_solve. Qed.
Print Assumptions C43_outcome.

(** a visited configuration satisfies the constraints but the returned one does not:
    its cost is compared with that of the unsatisfying start *)
Theorem C43_best_lost_refuted : exists E step q a b v,
  bx_solve E step true 2 1 q = Done MAX_ITERATION_REACHED a b /\ In v (b_arg b :: b_past b) /\
  E v <=? 5 = true /\ E a <=? 20 = false.
Proof.
  exists (fun q => Z.abs (fst q - 10)), (fun s => match s with O => -40 | _ => 40 end), (50, 100), (50, 100).
  eexists. exists (10, 20). split; [vm_compute; reflexivity|]. split; [vm_compute; tauto|]. vm_compute. repeat split.
Qed.
Print Assumptions C43_best_lost_refuted.

(** an undefined explicit function during the optimisation of a satisfying
    configuration makes the call fail *)
Theorem C43_exception_refuted : exists E step q,
  bx_esolve q = Some q /\ E q = 0 /\ bx_solve E step true 40 1 q = Thrown.
Proof. exists (fun q => Z.abs (fst q - 10)), (fun _ => 989), (10, 20). repeat split. Qed.
Print Assumptions C43_exception_refuted.

(** from 8 the cost |2x - 100| decreases with x until the residual exceeds 5 *)
Example C43_case :
  (forall a, Z.ltb a a = false) /\ (forall a b c, Z.ltb a b = true -> Z.ltb b c = true -> Z.ltb a c = true) /\
  bx_res (bx_solve (fun q => Z.abs (fst q - 10)) (fun _ => 3) true 40 1 (8, 0)) = Some (MAX_ITERATION_REACHED, (14, 28)).
Proof. split; [exact zlt_irr|]. split; [exact zlt_tr|]. vm_compute. reflexivity. Qed.
