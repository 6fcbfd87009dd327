(** The resolution loops and the satisfaction tests; examples. *)
From Coq Require Import ZArith List Bool Lia Floats.SpecFloat.
From Verif Require Import SegModel SegSpec EcsModel EcsSpec EcsOrderProofs EcsFinalProofs EcsRhsModel NanModel NanProofs ImplModel HierModel HierErrProofs HierExamples SolveModel SolveSpec SolveProofs SolveBySubProofs.
Import ListNotations.
Open Scope Z_scope.

(** residual squaredNorm_ of a hierarchical solver, compared by the loop with
    squaredErrorThreshold_ *)
Definition residual {F V} (zero : V) add sub neg ltb sqn (s : hs F V) (ineq_thr : V) (q : Z -> V) : option spec_float :=
  match errors_of zero add sub neg ltb ineq_thr (lvls s) q with
  | Some es => compute_error sqn s es
  | None => None
  end.

Section Nan.
Context {F V : Type}.
Variable (sqn : list V -> spec_float).
Lemma level_max_num (cs : list (ic F V)) : forall iv e m r, isnan m = false -> level_max sqn cs iv e m = Some r -> isnan r = false.
Proof.
  induction cs as [|c cs IH]; intros iv e m r Hm; cbn [level_max]; [congruence|].
  destruct (segment e iv (s_nv (ic_s c))); [|discriminate]. apply IH. apply fmax_not_nan, Hm.
Qed.
Lemma levels_max_num (ls : list (lvl F V)) : forall es m r, isnan m = false -> levels_max sqn ls es m = Some r -> isnan r = false.
Proof.
  induction ls as [|l ls IH]; intros [|e es] m r Hm; cbn [levels_max]; try congruence.
  destruct (level_max sqn (l_cons l) 0 e m) eqn:El; [|discriminate].
  apply IH. exact (level_max_num _ _ _ _ _ Hm El).
Qed.
Lemma compute_error_num (s : hs F V) es r : compute_error sqn s es = Some r -> isnan r = false.
Proof.
  unfold compute_error. destruct (last_optional s).
  - destruct (lvls s) eqn:El; [discriminate|]. rewrite <- El. apply levels_max_num. reflexivity.
  - apply levels_max_num. reflexivity.
Qed.
End Nan.

Lemma SFeqb_key a b : isnan a = false -> isnan b = false -> flt a b = false -> flt b a = false -> SFeqb a b = true.
Proof.
  rewrite !flt_key. intros Ha Hb. rewrite Ha, Hb. cbn [negb andb].
  destruct a as [sa|sa| |sa ma ea], b as [sb|sb| |sb mb eb]; try discriminate; try destruct sa; try destruct sb;
    cbn; try discriminate; try reflexivity; intros H1 H2; unfold SFeqb; cbn [SFcompare];
    rewrite ?Pos.compare_cont_spec; assert (ea = eb) by lia; subst; assert (ma = mb) by lia; subst;
    rewrite Z.compare_refl; change (Pos.compare_cont Eq mb mb) with (mb ?= mb)%positive; rewrite Pos.compare_refl; reflexivity.
Qed.

(** the loop ends with SUCCESS at a configuration: isSatisfied says so too, unless the
    residual equals the threshold *)
Lemma success_hsat F V zero add sub neg ltb sqn (s : hs F V) ineq_thr sqthr q m :
  residual zero add sub neg ltb sqn s ineq_thr q = Some m -> isnan sqthr = false -> flt sqthr m = false ->
  hsat zero add sub neg ltb sqn s ineq_thr sqthr q = Some (negb (SFeqb m sqthr)).
Proof.
  unfold residual, hsat. destruct (errors_of zero add sub neg ltb ineq_thr (lvls s) q) as [es|]; [|discriminate].
  intros H Ht Hf. rewrite H. f_equal. assert (Hm := compute_error_num _ _ _ _ H).
  destruct (flt m sqthr) eqn:E.
  - destruct (SFeqb m sqthr) eqn:E2; [exfalso|reflexivity].
    unfold flt, SFltb, SFeqb in *. destruct (SFcompare m sqthr) as [[]|]; discriminate.
  - rewrite (SFeqb_key m sqthr Hm Ht E Hf). reflexivity.
Qed.

(** a configuration returned by explicit_.solve satisfies the explicit constraints *)
Lemma solved_satisfies (V Rh : Type) iadd (P : con V Rh -> Prop) n m (st : ecs V Rh) rl (esolve : (Z -> V) -> option (Z -> V)) a :
  family n m P -> reach iadd P n m st -> length rl = length (data st) -> (forall c, In c (data st) -> sized c) ->
  (forall q q', esolve q = Some q' -> solve (with_rhs st rl) q = Some q') ->
  solved esolve a -> satisfies_all a (combine (data st) rl).
Proof.
  intros Hf Hr Hl Hs He [a0 Ha]. apply He in Ha.
  destruct (@solve_spec V Rh iadd P n m Hf st rl a0 Hr Hl Hs) as [q' [H1 [[H2 _] _]]].
  rewrite Ha in H1. injection H1 as <-. exact H2.
Qed.

(** * Examples: configurations and errors are integers *)
(** hierarchical solver: E q = |q|, threshold 0 *)
Definition hx_solve (step : Z -> Z) (maxit rdim : Z) (q : Z) : option (option status * Z * list Z * Z) :=
  hsolve Z.ltb Z.abs (fun (_ : unit) q => (step q, tt)) Z.abs 1 0 maxit rdim (fun _ q d => (q + d, d, tt)) 1000000 100 tt q.

(** solver by substitution: configuration (x, y), explicit constraint y = 2 x,
    residual |x - 10|, threshold 20 (quarter 5), cost |y - 100|. *)
Definition bx_esolve (q : Z * Z) : option (Z * Z) := if fst q =? 999 then None else Some (fst q, 2 * fst q).
Definition bx_solve (E : Z * Z -> Z) (step : nat -> Z) (opt : bool) (maxit rdim : Z) (q : Z * Z) : @sres (Z * Z) Z nat Z :=
  bsolve Z.ltb E (fun (s : nat) q => (step s, S s)) Z.abs 1 20 maxit rdim (fun q => Z.abs (snd q - 100))
    (fun s q d => Some ((fst q + d, snd q), d, s)) bx_esolve (fun x => x / 4) (fun x => x) (fun x => x) (fun _ => false) 1 0
    (fun d _ => d) (fun d _ => d) 100 0%nat opt q.
Definition bx_res (r : @sres (Z * Z) Z nat Z) : option (status * (Z * Z)) :=
  match r with Done st a _ => Some (st, a) | _ => None end.

Lemma zlt_cot (E : Z * Z -> Z) : forall q a c, Z.ltb a c = true -> Z.ltb a (E q) = true \/ Z.ltb (E q) c = true.
Proof. intros q a c. rewrite !Z.ltb_lt. lia. Qed.
Lemma zlt_irr a : Z.ltb a a = false.
Proof. apply Z.ltb_irrefl. Qed.
Lemma zlt_tr a b c : Z.ltb a b = true -> Z.ltb b c = true -> Z.ltb a c = true.
Proof. rewrite !Z.ltb_lt. lia. Qed.

Lemma residual_cotrans (F V : Type) (sqn : list V -> spec_float) (s : hs F V) es r a c :
  compute_error sqn s es = Some r -> flt a c = true -> flt a r = true \/ flt r c = true.
Proof. intros H. apply flt_cotrans. exact (compute_error_num _ _ _ _ H). Qed.
