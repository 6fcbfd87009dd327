From Coq Require Import ZArith Reals List Bool Lia Lra.
From Verif Require Import SolveModel LineModel LineProofs SatModel ViewModel OneModel.
Import ListNotations.
Local Open Scope nat_scope.

Section Gen.
Context {Q D Dat LS V : Type}.
Variables (ltb : V -> V -> bool) (thr : V) (E : Q -> V) (dat : Q -> Dat) (sat : Q -> Dat -> Dat) (dir : Dat -> D).
Variables (esolve : Q -> option Q) (esat : Q -> bool) (lsearch : LS -> V -> Dat -> Q -> D -> option (Q * D * LS)).
Notation one := (one_step ltb thr E dat dir esolve lsearch).
Notation steps_ := (steps ltb thr E dat dir esolve lsearch).

Lemma one_step_result s arg r q s' : one s arg = Some (r, q, s') ->
  (exists a dq l, lsearch (o_ls s) (o_norm s) (dat arg) arg (dir (dat arg)) = Some (a, dq, l) /\ esolve a = Some q /\ o_ls s' = l) /\
  r = ltb (E q) thr /\ o_norm s' = E q.
Proof.
  unfold one_step, h_satisfied.
  destruct (lsearch _ _ _ _ _) as [[[a dq] l]|] eqn:L; [|discriminate].
  destruct (esolve a) as [a2|] eqn:S; [|discriminate].
  intros H; inversion H; subst; cbn. repeat split; auto. exists a, dq, l; auto.
Qed.

Lemma one_step_satisfied s arg r q s' : (forall a x, esolve a = Some x -> esat x = true) -> one s arg = Some (r, q, s') ->
  (r, s') = b_satisfied ltb thr E esat s' q.
Proof.
  intros X H. apply one_step_result in H as ((a & dq & l & L & S & Hl) & Hr & Hn).
  unfold b_satisfied, h_satisfied. rewrite (X _ _ S), andb_true_r, Hr.
  destruct s' as [n' l']; cbn in *; subst; reflexivity.
Qed.

Lemma one_step_all s arg r q s' : (forall a x, esolve a = Some x -> esat x = true) -> one s arg = Some (r, q, s') ->
  (exists a, esolve a = Some q) /\ (r = true <-> ltb (E q) thr = true) /\ o_norm s' = E q /\ (r, s') = b_satisfied ltb thr E esat s' q.
Proof.
  intros X H. pose proof (one_step_satisfied _ _ _ _ _ X H). apply one_step_result in H as ((a & dq & l & L & S & Hl) & Hr & Hn).
  split; [exists a; exact S|]. split; [rewrite Hr; apply iff_refl|]. split; assumption.
Qed.

Lemma steps_app k m s a : steps_ (k + m) s a = match steps_ k s a with None => None | Some (a', s') => steps_ m s' a' end.
Proof.
  revert s a; induction k as [|k IH]; intros s a; cbn [Nat.add steps]; [reflexivity|].
  destruct (one s a) as [[[b a'] s']|]; [apply IH|reflexivity].
Qed.

Section Loop.
Variables (dnorm : D -> V) (dmin : V) (maxit rdim : Z) (C : Q -> V) (quarter half dbl : V -> V) (bh : V -> bool) (vone zero : V)
  (dmul ddiv : D -> V -> D).
Notation bl := (bloop ltb E (descent_of dat sat dir) dnorm dmin thr maxit C (lsearch_of E dat sat lsearch) esolve quarter half dbl bh dmul ddiv).
Notation bs := (bsolve ltb E (descent_of dat sat dir) dnorm dmin thr maxit rdim C (lsearch_of E dat sat lsearch) esolve quarter half dbl bh vone zero dmul ddiv).

Lemma past_suffix fuel st b st' b' : bl false fuel st b = Bend st' b' -> exists l, b_past b' = l ++ b_past b.
Proof.
  revert st b; induction fuel as [|f IH]; intros st b; cbn [bloop orb].
  all: destruct (b_above b && negb (b_ed b =? 0)%Z); [|intros H; inversion H; subst; exists []; reflexivity].
  all: destruct (maxit <=? b_iter b)%Z; [intros H; inversion H; subst; exists []; reflexivity|].
  - discriminate.
  - destruct (b_only b); cbn [descent_of].
    + destruct (b_prev b) as [pv|]; [|discriminate]; destruct (b_dq b) as [dq|]; [|discriminate].
      destruct (ltb _ dmin); [intros H; inversion H; subst; exists []; reflexivity|].
      destruct (lsearch_of _ _ _ _ _ _ _) as [[[a1 dq1] s2]|]; [|discriminate].
      destruct (esolve a1) as [a2|]; [|discriminate].
      intros H; apply IH in H as (l & ->); cbn. exists (l ++ [b_arg b]). rewrite <- app_assoc; reflexivity.
    + destruct (ltb _ dmin); [intros H; inversion H; subst; exists []; reflexivity|].
      destruct (lsearch_of _ _ _ _ _ _ _) as [[[a1 dq1] s2]|]; [|discriminate].
      destruct (esolve a1) as [a2|]; [|discriminate].
      intros H; apply IH in H as (l & ->); cbn. exists (l ++ [b_arg b]). rewrite <- app_assoc; reflexivity.
Qed.

Lemma bloop_steps fuel st b st' b' : bl false fuel st b = Bend st' b' -> b_only b = false -> b_sn b = E (b_arg b) ->
  (forall x, In x (b_past b') -> sat x (dat x) = dat x) ->
  exists k s', length (b_past b') = k + length (b_past b) /\ steps_ k (mkos (E (b_arg b)) (b_s b)) (b_arg b) = Some (b_arg b', s').
Proof.
  revert st b; induction fuel as [|f IH]; intros st b; cbn [bloop orb].
  all: destruct (b_above b && negb (b_ed b =? 0)%Z); [|intros H; inversion H; subst; exists 0, (mkos (E (b_arg b')) (b_s b')); split; reflexivity].
  all: destruct (maxit <=? b_iter b)%Z; [intros H; inversion H; subst; exists 0, (mkos (E (b_arg b')) (b_s b')); split; reflexivity|].
  - discriminate.
  - intros H Ho Hs HX. rewrite Ho in H. cbn [descent_of] in H.
    destruct (ltb _ dmin).
    { inversion H; subst; cbn. exists 0, (mkos (E (b_arg b)) (b_s b)); split; reflexivity. }
    destruct (lsearch_of _ _ _ _ _ _ _) as [[[a1 dq1] s2]|] eqn:L; [|discriminate].
    destruct (esolve a1) as [a2|] eqn:SS; [|discriminate].
    destruct (past_suffix _ _ _ _ _ H) as (l & Hl). cbn in Hl.
    assert (Hx : sat (b_arg b) (dat (b_arg b)) = dat (b_arg b)).
    { apply HX. rewrite Hl. apply in_or_app; right; left; reflexivity. }
    apply IH in H as (k & s' & Hk & HS); cbn in *; auto.
    exists (S k), s'. split; [rewrite Hk; cbn; lia|].
    cbn [steps]. unfold one_step. cbn [o_ls o_norm]. unfold lsearch_of in L. rewrite Hx in L. rewrite L, SS. cbn. exact HS.
Qed.

Lemma bsolve_steps fuel s0 n0 arg st q b : bs fuel s0 false arg = Done st q b ->
  (forall x, In x (b_past b) -> sat x (dat x) = dat x) ->
  exists q1 s', esolve arg = Some q1 /\ steps_ (length (b_past b)) (snd (h_satisfied ltb thr E (mkos n0 s0) q1)) q1 = Some (b_arg b, s').
Proof.
  unfold bsolve. destruct (esolve arg) as [q1|]; [|discriminate].
  destruct (ltb (quarter thr) (E q1) && (rdim =? 0)%Z); [discriminate|].
  destruct (bl false fuel SUCCESS _) as [st1 b1| | |] eqn:L; try discriminate.
  intros H HX.
  assert (b1 = b) as -> by (destruct (negb false && _); inversion H; reflexivity).
  apply bloop_steps in L as (k & s' & Hk & HS); auto.
  cbn in Hk. rewrite Nat.add_0_r in Hk. exists q1, s'. split; [reflexivity|].
  rewrite Hk. cbn. exact HS.
Qed.
End Loop.

(** searches that do not read squaredNorm_ *)
Lemma one_step_norm_free ls n1 n2 arg : (forall l x y d q dq, lsearch l x d q dq = lsearch l y d q dq) ->
  one (mkos n1 ls) arg = one (mkos n2 ls) arg.
Proof. intros H; unfold one_step; cbn. rewrite (H ls n1 n2). destruct (lsearch _ _ _ _ _) as [[[a d] l]|]; [|reflexivity]. destruct (esolve a); reflexivity. Qed.
End Gen.

Lemma bt_with_arg {Q D} (integrate : Q -> D -> Q) scale f fuel s slope arg u :
  bt_with integrate scale f fuel s slope (f arg) arg u = bt_step integrate scale f fuel s slope arg u.
Proof. reflexivity. Qed.
Lemma enb_with_arg {Q D} (integrate : Q -> D -> Q) scale f s thr2 arg u :
  enb_with integrate scale s thr2 (f arg) arg u = enb_step integrate scale f s thr2 arg u.
Proof. reflexivity. Qed.

Open Scope R_scope.
Ltac dec := repeat match goal with
  | |- context [Rle_dec ?x ?y] => destruct (Rle_dec x y); try (exfalso; lra)
  | |- context [Rlt_dec ?x ?y] => destruct (Rlt_dec x y); try (exfalso; lra)
  end.


Lemma leT x y : x <= y -> lebR x y = true.
Proof. intros H; unfold lebR; destruct (Rle_dec x y); [reflexivity|contradiction]. Qed.
Lemma leF x y : y < x -> lebR x y = false.
Proof. intros H; unfold lebR; destruct (Rle_dec x y); [lra|reflexivity]. Qed.
Lemma ltT x y : x < y -> ltbR x y = true.
Proof. intros H; unfold ltbR; destruct (Rlt_dec x y); [reflexivity|contradiction]. Qed.
Lemma ltF x y : y <= x -> ltbR x y = false.
Proof. intros H; unfold ltbR; destruct (Rlt_dec x y); [lra|reflexivity]. Qed.
Lemma clamp_in l u x : l < x < u -> clamp lebR l u x = (x, 0%Z, false).
Proof. intros H; unfold clamp. rewrite leF, leF by lra. reflexivity. Qed.
Lemma clamp_up l u x : l < x -> u <= x -> clamp lebR l u x = (u, 1%Z, true).
Proof. intros H H'; unfold clamp. rewrite leF, leT by lra. reflexivity. Qed.

Lemma dir_eq j1 j2 e x y : 0 < j1 * j1 + j2 * j2 -> x * (j1 * j1 + j2 * j2) = - e * j1 -> y * (j1 * j1 + j2 * j2) = - e * j2 ->
  two_dir (j1, j2, e) = (x, y).
Proof.
  intros H Hx Hy. cbn. destruct (Rlt_dec _ _) as [_|n]; [|contradiction].
  f_equal; field_simplify_eq; lra.
Qed.

(** x + y = 2, x <= 0, from (0, 0) *)
Lemma stuck_at_bound :
  let E := two_E 1 1 2 in let dat := two_dat 1 1 2 in let sat := two_sat (-10) 0 (-10) 10 in
  let ls := two_constant (-10) 0 (-10) 10 in
  (exists s', one_step ltbR (1/100) E dat two_dir Some ls (mkos (E (0, 0)) tt) (0, 0) = Some (false, (0, 1), s')) /\
  (exists b, bsolve ltbR E (descent_of dat sat two_dir) (fun d => fst d * fst d + snd d * snd d) (1/100000) (1/100) 1 2 E (lsearch_of E dat sat ls) Some
     (fun x => x / 4) (fun x => x / 2) (fun x => x * 2) (fun x => ltbR x (1/2)) 1 0 (fun d x => (x * fst d, x * snd d)) (fun d x => (fst d / x, snd d / x))
     2 tt false (0, 0) = Done SUCCESS (0, 2) b) /\ E (0, 2) = 0.
Proof.
  cbv zeta. repeat split.
  - assert (D : two_dir (two_dat 1 1 2 (0, 0)) = (1, 1)) by (unfold two_dat; apply dir_eq; unfold two_err; cbn; lra).
    unfold one_step, two_constant, constant. rewrite D.
    unfold two_integrate, two_clamp; cbn [fst snd]. rewrite clamp_up, clamp_in by lra.
    unfold h_satisfied. cbn [o_ls]. rewrite ltF by (unfold two_E, two_err; cbn; lra).
    eexists. repeat f_equal. lra.
  - assert (S : two_sat (-10) 0 (-10) 10 (0, 0) (two_dat 1 1 2 (0, 0)) = (0, 1, two_err 1 1 2 (0, 0))).
    { unfold two_sat, two_dat, two_flag; cbn [fst snd]. rewrite clamp_up, clamp_in by lra.
      rewrite ltT by (unfold two_err; cbn; lra). rewrite ltF by (unfold two_err; cbn; lra). reflexivity. }
    assert (D : two_dir (0, 1, two_err 1 1 2 (0, 0)) = (0, 2)) by (apply dir_eq; unfold two_err; cbn; lra).
    assert (I : two_integrate (-10) 0 (-10) 10 (0, 0) (0, 2) = (0, 2)).
    { unfold two_integrate, two_clamp; cbn [fst snd]. rewrite clamp_up, clamp_in by lra. f_equal; lra. }
    assert (E0 : two_E 1 1 2 (0, 0) = 4) by (unfold two_E, two_err; cbn; lra).
    assert (E2 : two_E 1 1 2 (0, 2) = 0) by (unfold two_E, two_err; cbn; lra).
    unfold bsolve, binit. rewrite E0. rewrite (ltT (1 / 100 / 4) 4), (ltF 4 (1/100)) by lra.
    cbn [andb Z.eqb negb]. cbn [bloop orb b_above b_ed b_iter Z.leb Z.compare Z.eqb negb andb b_only descent_of b_s b_arg b_sn fst snd].
    rewrite S, D. cbn [fst snd]. rewrite (ltF (0 * 0 + 2 * 2)) by lra.
    unfold lsearch_of, two_constant, constant. rewrite I, E2. rewrite (ltT 0 4), (ltF (1/100/4) 0) by lra.
    cbn. eexists. reflexivity.
  - unfold two_E, two_err; cbn; lra.
Qed.

(** the same from (0, 0) without a bound nearby *)
Lemma free_run : exists b,
  let E := two_E 1 1 2 in let dat := two_dat 1 1 2 in let sat := two_sat (-10) 10 (-10) 10 in
  let ls := two_constant (-10) 10 (-10) 10 in
  bsolve ltbR E (descent_of dat sat two_dir) (fun d => fst d * fst d + snd d * snd d) (1/100000) (1/100) 40 2 E (lsearch_of E dat sat ls) Some
     (fun x => x / 4) (fun x => x / 2) (fun x => x * 2) (fun x => ltbR x (1/2)) 1 0 (fun d x => (x * fst d, x * snd d)) (fun d x => (fst d / x, snd d / x))
     2 tt false (0, 0) = Done SUCCESS (1, 1) b /\ b_past b = [(0, 0)] /\ (forall x, In x (b_past b) -> sat x (dat x) = dat x).
Proof.
  assert (S : two_sat (-10) 10 (-10) 10 (0, 0) (two_dat 1 1 2 (0, 0)) = two_dat 1 1 2 (0, 0)).
  { unfold two_sat, two_dat, two_flag; cbn [fst snd]. rewrite clamp_in by lra.
    rewrite ltF by (unfold two_err; cbn; lra). reflexivity. }
  assert (D : two_dir (two_dat 1 1 2 (0, 0)) = (1, 1)) by (unfold two_dat; apply dir_eq; unfold two_err; cbn; lra).
  assert (I : two_integrate (-10) 10 (-10) 10 (0, 0) (1, 1) = (1, 1)).
  { unfold two_integrate, two_clamp; cbn [fst snd]. rewrite clamp_in by lra. f_equal; lra. }
  assert (E0 : two_E 1 1 2 (0, 0) = 4) by (unfold two_E, two_err; cbn; lra).
  assert (E2 : two_E 1 1 2 (1, 1) = 0) by (unfold two_E, two_err; cbn; lra).
  eexists. cbv zeta. split.
  - unfold bsolve, binit. rewrite E0. rewrite (ltT (1 / 100 / 4) 4), (ltF 4 (1/100)) by lra.
    cbn [andb Z.eqb negb]. cbn [bloop orb b_above b_ed b_iter Z.leb Z.compare Z.eqb negb andb b_only descent_of b_s b_arg b_sn fst snd].
    rewrite S, D. cbn [fst snd]. rewrite (ltF (1 * 1 + 1 * 1)) by lra.
    unfold lsearch_of, two_constant, constant. rewrite I, E2. rewrite (ltT 0 4), (ltF (1/100/4) 0) by lra.
    cbn. reflexivity.
  - cbn. split; [reflexivity|]. intros x [<-|[]]. exact S.
Qed.

Lemma res_eq (b : bool) (x y x' y' : R) : x = x' -> y = y' -> Some (b, x, y) = Some (b, x', y').
Proof. intros -> ->; reflexivity. Qed.
(** x = 0 from 1: the norm known beforehand decides *)
Lemma backtracking_norm n : n < 1 / 1000 ->
  (exists s', one_step ltbR (1/100) sg_E sg_dat sg_dir Some sg_backtracking (mkos n tt) 1 = Some (false, 8 / 10, s')) /\
  (exists s', one_step ltbR (1/100) sg_E sg_dat sg_dir Some sg_backtracking (mkos (sg_E 1) tt) 1 = Some (true, 0, s')).
Proof.
  intros H.
  assert (F : bt_with Rplus Rmult sg_E 6 bt_new (sg_dir (sg_dat 1) * sg_dat 1) n 1 (sg_dir (sg_dat 1)) = Some (false, 8 / 10, - (2 / 10))).
  { unfold bt_with, sg_dir, sg_dat, bt_new. cbn [bt_c bt_small].
    destruct (Rlt_dec _ _) as [C|C]; [exfalso; lra|].
    cbn [bt_loop bt_small bt_tau].
    repeat (destruct (Rlt_dec _ _) as [?|?]; [destruct (Rle_dec _ _) as [?|?]; [exfalso; unfold sg_E in *; nra|]|]); try (exfalso; lra).
    all: apply res_eq; lra. }
  assert (G : bt_with Rplus Rmult sg_E 6 bt_new (sg_dir (sg_dat 1) * sg_dat 1) (sg_E 1) 1 (sg_dir (sg_dat 1)) = Some (true, 0, - 1)).
  { unfold bt_with, sg_dir, sg_dat, bt_new. cbn [bt_c bt_small].
    destruct (Rlt_dec _ _) as [C|C]; [exfalso; lra|].
    cbn [bt_loop bt_small bt_tau].
    destruct (Rlt_dec _ _) as [?|?]; [|exfalso; lra].
    destruct (Rle_dec _ _) as [?|k]; [|exfalso; apply k; unfold sg_E; lra].
    apply res_eq; lra. }
  unfold one_step, sg_backtracking; cbn [o_ls o_norm]. rewrite F, G. cbn.
  rewrite ltF by (unfold sg_E; lra). rewrite ltT by (unfold sg_E; lra). split; eexists; reflexivity.
Qed.

Lemma error_norm_norm p thr2 n1 n2 x r1 r2 q1 q2 s1 s2 : en_K p * en_a p <> 0 -> thr2 <> 0 -> n1 <> n2 -> x <> 0 ->
  one_step ltbR (1/100) sg_E sg_dat sg_dir Some (sg_error_norm p thr2) (mkos n1 tt) x = Some (r1, q1, s1) ->
  one_step ltbR (1/100) sg_E sg_dat sg_dir Some (sg_error_norm p thr2) (mkos n2 tt) x = Some (r2, q2, s2) -> q1 <> q2.
Proof.
  intros K T N X. cbn. intros H1 H2; inversion H1; inversion H2; subst. unfold sg_dir, sg_dat.
  assert (K1 : en_K p <> 0) by (intros e; apply K; rewrite e; ring).
  assert (K2 : en_a p <> 0) by (intros e; apply K; rewrite e; ring).
  assert (G : enb_alpha p (n1 / thr2) <> enb_alpha p (n2 / thr2)).
  { unfold enb_alpha. intros e.
    assert (e1 : en_K p * (tanh (en_a p * (n1 / thr2) + en_b p) - tanh (en_a p * (n2 / thr2) + en_b p)) = 0) by lra.
    apply Rmult_integral in e1 as [e1|e1]; [contradiction|].
    assert (e2 : en_a p * (n1 / thr2) + en_b p = en_a p * (n2 / thr2) + en_b p).
    { destruct (Rtotal_order (en_a p * (n1 / thr2) + en_b p) (en_a p * (n2 / thr2) + en_b p)) as [L|[L|L]]; [|exact L|]; apply tanh_inc in L; lra. }
    assert (e3 : en_a p * (n1 / thr2 - n2 / thr2) = 0) by lra.
    apply Rmult_integral in e3 as [e3|e3]; [contradiction|].
    apply N. replace n1 with (n1 / thr2 * thr2) by (field; exact T). replace n2 with (n2 / thr2 * thr2) by (field; exact T).
    f_equal. lra. }
  intros e. apply G. apply (Rmult_eq_reg_r (- x)); [lra|lra].
Qed.
