From Coq Require Import List Bool Arith Lia FinFun.
From Verif Require Import HeapModel HeapSpec HeapProofs.
Import ListNotations.
Local Open Scope nat_scope.

Section M.
Context {F K R I : Type}.
Variables (feq : F -> F -> bool) (extract_ : R -> I -> R).
Notation world := (world F K R).
Notation slv := (slv F).
Notation cell := (cell F K R).
Notation step := (@step F K R I feq extract_).
Implicit Types (w : world) (s : slv).

Lemma owns_lt w s a : good w s -> In a (owns s) -> a < length (spaces w).
Proof. intros (_ & _ & G) H. apply in_map_iff in H as (l & <- & Hl). destruct (G l Hl) as [_ E]. apply nth_error_Some. congruence. Qed.

Lemma nodup_app {A} (a b : list A) : NoDup a -> NoDup b -> (forall x, In x a -> ~ In x b) -> NoDup (a ++ b).
Proof.
  induction a as [|x a IH]; intros Na Nb D; cbn; auto. inversion Na; subst. constructor.
  - intros H. apply in_app_iff in H as [H|H]; [auto|]. apply (D x); [now left|exact H].
  - apply IH; auto. intros y Hy. apply D. now right.
Qed.
Lemma new_owns n k : NoDup (map lv_own (new_levels n k)) /\ forall a, In a (map lv_own (new_levels n k)) -> n <= a < n + 2 * k.
Proof.
  unfold new_levels. rewrite map_map. cbn. split.
  - apply Injective_map_NoDup; [intros a b H; lia|apply seq_NoDup].
  - intros a H. apply in_map_iff in H as (i & <- & Hi). apply in_seq in Hi. lia.
Qed.
Lemma nodup_nth {A B} (f : A -> B) l i j x y : NoDup (map f l) -> nth_error l i = Some x -> nth_error l j = Some y -> f x = f y -> i = j.
Proof.
  intros N Hi Hj E. apply (map_nth_error f) in Hi, Hj. rewrite E in Hi. eapply NoDup_nth_error; [exact N| |congruence].
  apply nth_error_Some. congruence.
Qed.
Lemma total_app w a b : total w (a ++ b) = (fst (total w a) + fst (total w b), snd (total w a) + snd (total w b)).
Proof. unfold total. cbn [fst snd]. now rewrite !map_app, !list_sum_app. Qed.
Lemma total_one w c x : nth_error (cells w) c = Some x -> total w [c] = (cl_nq x, cl_nv x).
Proof. intros E. unfold total. cbn [map]. unfold size. rewrite E. cbn. f_equal; lia. Qed.
Lemma map_upd {A B} (f : A -> B) l n x : f x = f x -> nth_error l n <> None -> (forall y, nth_error l n = Some y -> f y = f x) -> map f (upd l n x) = map f l.
Proof.
  intros _. revert n. induction l as [|a l IH]; intros [|n] H E; cbn in *; try congruence.
  - rewrite (E a eq_refl). reflexivity.
  - f_equal. apply (IH n H E).
Qed.

(** offset recorded by an addition *)
Definition offset w s p : nat * nat :=
  match nth_error (sv_levels s) p with
  | Some l => match nth_error (spaces w) (lv_out l) with Some d => d | None => (0, 0) end
  | None => (0, 0)
  end.

Lemma hadd_spec w s c p w' s' : good w s -> NoDup (owns s) -> hadd feq w s c p = Some (w', s') ->
  cells w' = cells w /\ length (spaces w) <= length (spaces w') /\
  (forall a, a < length (spaces w) -> (forall lv, nth_error (sv_levels s) p = Some lv -> a <> lv_own lv) -> nth_error (spaces w') a = nth_error (spaces w) a) /\
  good w' s' /\ settled s' /\ sound w' s' /\
  (exists fr, owns s' = owns s ++ fr /\ NoDup fr /\ forall a, In a fr -> length (spaces w) <= a) /\
  c < length (cells w) /\ sv_cons s' = sv_cons s ++ [c] /\ sv_ex s' = sv_ex s /\
  (exists x, nth_error (cells w) c = Some x /\ sv_iq s' = sv_iq s ++ [(cl_f x, offset w s p)]) /\
  (forall k, k <> p -> option_map lv_cons (nth_error (sv_levels s') k) = match nth_error (sv_levels s) k with Some l => Some (lv_cons l) | None => if k <? p then Some [] else None end) /\
  option_map lv_cons (nth_error (sv_levels s') p) = Some (match nth_error (sv_levels s) p with Some l => lv_cons l | None => [] end ++ [c]).
Proof.
  intros G N. unfold hadd. destruct (nth_error (cells w) c) as [x|] eqn:Ec; [|discriminate]. destruct (existsb _ _); [discriminate|]. cbv zeta.
  set (n := length (sv_levels s)). set (k := S p - n). set (ls := sv_levels s ++ new_levels (length (spaces w)) k). set (sp := spaces w ++ repeat (0, 0) (2 * k)).
  destruct (nth_error ls p) as [l|] eqn:El; [|discriminate]. destruct (nth_error sp (lv_out l)) as [o|] eqn:Eo; [|discriminate].
  destruct (nth_error sp (lv_own l)) as [d|] eqn:Ed; [|discriminate].
  set (sp' := upd sp (lv_own l) (fst d + cl_nq x, snd d + cl_nv x)). set (l1 := mklevel (lv_cons l ++ [c]) (lv_own l) (lv_out l) (lv_len l)).
  destruct (update_levels sp' (upd ls p l1)) as [ls'|] eqn:Eu; [|discriminate]. intros X. injection X as <- <-. cbn [cells spaces sv_levels sv_cons sv_ex sv_iq owns].
  assert (Hc : c < length (cells w)) by (apply nth_error_Some; congruence).
  assert (Lsp : length sp' = length (spaces w) + 2 * k) by (unfold sp', sp; rewrite upd_length, app_length, repeat_length; reflexivity).
  destruct (new_owns (length (spaces w)) k) as [NN NR].
  assert (Ow : map lv_own ls = owns s ++ map lv_own (new_levels (length (spaces w)) k)) by (unfold ls; now rewrite map_app).
  assert (ND : NoDup (map lv_own ls)).
  { rewrite Ow. apply nodup_app; auto. intros a Ha Hb. apply (owns_lt w) in Ha; [|exact G]. apply NR in Hb. lia. }
  assert (Own : forall m, In m ls -> nth_error sp (lv_own m) = Some (total w (lv_cons m)) /\ Forall (fun q => q < length (cells w)) (lv_cons m)).
  { intros m Hm. apply in_app_iff in Hm as [Hm|Hm].
    - destruct G as (_ & _ & G). destruct (G m Hm) as [G1 G2]. split; [|exact G1]. unfold sp. rewrite nth_error_app1; [exact G2|]. apply nth_error_Some. congruence.
    - unfold new_levels in Hm. apply in_map_iff in Hm as (i & <- & Hi). apply in_seq in Hi. cbn. split; [|constructor].
      unfold sp. rewrite nth_error_app2 by lia. rewrite nth_error_repeat by lia. reflexivity. }
  assert (Lp : p < length ls) by (apply nth_error_Some; congruence).
  assert (Ow' : map lv_own (upd ls p l1) = map lv_own ls).
  { apply map_upd; auto; [congruence|]. intros y Hy. rewrite El in Hy. now injection Hy as <-. }
  pose proof (update_levels_spec sp' _ _ Eu) as (U1 & U2 & U3).
  assert (Tot : forall cs, total (mkworld (cells w) sp' : world) cs = total w cs) by reflexivity.
  assert (Lev : forall m, In m ls' -> Forall (fun q => q < length (cells w)) (lv_cons m) /\ nth_error sp' (lv_own m) = Some (total w (lv_cons m)) /\
            lv_out m = lv_own m /\ lv_len m = total w (lv_cons m)).
  { intros m Hm. destruct (update_levels_in _ _ _ _ Eu Hm) as (b & e & Hb & Eb & ->). cbn [lv_cons lv_own lv_out lv_len].
    assert (V : nth_error sp' (lv_own b) = Some (total w (lv_cons b)) /\ Forall (fun q => q < length (cells w)) (lv_cons b)).
    { apply In_nth_error in Hb as [j Hj]. apply nth_upd in Hj as [[-> ->]|[Nj Hj]].
      - destruct (Own l (nth_error_In _ _ El)) as [O1 O2]. unfold l1. cbn [lv_own lv_cons]. split.
        + unfold sp'. rewrite nth_upd_same by (apply nth_error_Some; congruence). rewrite Ed in O1. injection O1 as ->.
          rewrite total_app, (total_one w c x Ec). reflexivity.
        + apply Forall_app. split; auto.
      - destruct (Own b (nth_error_In _ _ Hj)) as [O1 O2]. split; [|exact O2]. unfold sp'. rewrite nth_upd_other; [exact O1|].
        intros E. apply Nj. eapply (nodup_nth lv_own); eauto. }
    destruct V as [V1 V2]. repeat split; auto. congruence. }
  assert (Ol : offset w s p = o).
  { unfold offset. unfold ls in El. destruct (nth_error (sv_levels s) p) as [m|] eqn:Em.
    - rewrite nth_error_app1 in El by (apply nth_error_Some; congruence). assert (m = l) by congruence. subst m.
      destruct (lt_dec (lv_out l) (length (spaces w))) as [H|H].
      + unfold sp in Eo. rewrite nth_error_app1 in Eo by exact H. now rewrite Eo.
      + unfold sp in Eo. rewrite nth_error_app2 in Eo by lia. apply nth_error_In in Eo. apply repeat_spec in Eo.
        destruct (nth_error (spaces w) (lv_out l)) eqn:Q; [|now subst]. exfalso. apply H, nth_error_Some. congruence.
    - apply nth_error_None in Em. rewrite nth_error_app2 in El by exact Em. apply nth_error_In in El. unfold new_levels in El.
      apply in_map_iff in El as (i & <- & Hi). cbn [lv_out] in Eo. unfold sp in Eo. rewrite nth_error_app2 in Eo by lia. apply nth_error_In, repeat_spec in Eo. now subst. }
  split; [reflexivity|]. split; [rewrite Lsp; lia|].
  split.
  { intros a Ha Na. unfold sp'. rewrite nth_upd_other; [unfold sp; now rewrite nth_error_app1|].
    intros ->. unfold ls in El. destruct (nth_error (sv_levels s) p) as [m|] eqn:Em.
    - rewrite nth_error_app1 in El by (apply nth_error_Some; congruence). apply (Na m eq_refl). congruence.
    - apply nth_error_None in Em. rewrite nth_error_app2 in El by exact Em. apply nth_error_In in El.
      apply (in_map lv_own), NR in El. lia. }
  split.
  { destruct G as (G1 & G2 & _). split; cbn [sv_cons sv_ex sv_levels]; [apply Forall_app; auto|]. split; [exact G2|]. intros m Hm. destruct (Lev m Hm) as (L1 & L2 & _). split; [exact L1|exact L2]. }
  split; [intros m Hm; apply (Lev m Hm)|].
  split; [intros m Hm; destruct (Lev m Hm) as (L1 & L2 & L3 & L4); rewrite L3; split; [exact L2|exact L4]|].
  split.
  { exists (map lv_own (new_levels (length (spaces w)) k)). unfold owns at 1. cbn [sv_levels]. rewrite U2, Ow', Ow. split; [reflexivity|]. split; [exact NN|]. intros a Ha. apply NR in Ha. lia. }
  split; [exact Hc|]. split; [reflexivity|]. split; [reflexivity|].
  split; [exists x; split; [reflexivity|]; now rewrite Ol|].
  assert (Lls : length ls = Nat.max n (S p)).
  { unfold ls. rewrite app_length. unfold new_levels. rewrite map_length, seq_length. fold n. lia. }
  split.
  { intros j Hj. destruct (nth_error (upd ls p l1) j) as [b|] eqn:Eb.
    - destruct (U3 j b Eb) as (e & _ & ->). cbn [option_map lv_cons]. rewrite nth_upd_other in Eb by auto. unfold ls in Eb.
      destruct (nth_error (sv_levels s) j) as [m|] eqn:Em.
      + rewrite nth_error_app1 in Eb by (apply nth_error_Some; congruence). congruence.
      + apply nth_error_None in Em. rewrite nth_error_app2 in Eb by exact Em.
        assert (j < length ls) by (rewrite <- (upd_length ls p l1); rewrite <- U1; destruct (U3 j b) as (e' & _ & Q); [rewrite nth_upd_other by auto; unfold ls; rewrite nth_error_app2 by exact Em; exact Eb|]; apply nth_error_Some; congruence).
        destruct (j <? p) eqn:Jp; [|apply Nat.ltb_ge in Jp; fold n in Em; lia].
        apply nth_error_In in Eb. unfold new_levels in Eb. apply in_map_iff in Eb as (i & <- & _). reflexivity.
    - assert (J : length ls <= j) by (rewrite <- (upd_length ls p l1); apply nth_error_None; exact Eb).
      replace (nth_error ls' j) with (@None level) by (symmetry; apply nth_error_None; rewrite U1, upd_length; exact J). cbn [option_map].
      replace (nth_error (sv_levels s) j) with (@None level) by (symmetry; apply nth_error_None; fold n; lia).
      replace (j <? p) with false; [reflexivity|]. symmetry. apply Nat.ltb_ge. lia. }
  destruct (U3 p l1) as (e & _ & ->); [apply nth_upd_same, Lp|]. cbn. f_equal. f_equal. unfold ls in El.
  destruct (nth_error (sv_levels s) p) as [m|] eqn:Em.
  - rewrite nth_error_app1 in El by (apply nth_error_Some; congruence). congruence.
  - apply nth_error_None in Em. rewrite nth_error_app2 in El by exact Em. apply nth_error_In in El. unfold new_levels in El.
    apply in_map_iff in El as (i & <- & _). reflexivity.
Qed.

Lemma xadd_spec w s c s' : good w s -> xadd w s c = Some s' ->
  c < length (cells w) /\ good w s' /\ settled s' /\ sound w s' /\ owns s' = owns s /\
  sv_cons s' = sv_cons s ++ [c] /\ sv_ex s' = sv_ex s ++ [c] /\ sv_iq s' = sv_iq s /\ map lv_cons (sv_levels s') = map lv_cons (sv_levels s).
Proof.
  intros G. unfold xadd. destruct (nth_error (cells w) c) as [x|] eqn:Ec; [|discriminate]. destruct (update_levels _ _) as [ls|] eqn:Eu; [|discriminate].
  intros X. injection X as <-. assert (Hc : c < length (cells w)) by (apply nth_error_Some; congruence).
  pose proof (update_levels_spec _ _ _ Eu) as (U1 & U2 & U3).
  assert (Lev : forall m, In m ls -> Forall (fun q => q < length (cells w)) (lv_cons m) /\ nth_error (spaces w) (lv_own m) = Some (total w (lv_cons m)) /\
            lv_out m = lv_own m /\ lv_len m = total w (lv_cons m)).
  { intros m Hm. destruct (update_levels_in _ _ _ _ Eu Hm) as (b & e & Hb & Eb & ->). cbn. destruct G as (_ & _ & G). destruct (G b Hb) as [G1 G2]. repeat split; auto. congruence. }
  cbn [sv_cons sv_levels sv_ex sv_iq]. split; [exact Hc|]. split.
  { destruct G as (G1 & G2 & _). split; cbn; [apply Forall_app; auto|]. split; [apply Forall_app; auto|]. intros m Hm. destruct (Lev m Hm) as (L1 & L2 & _). auto. }
  split; [intros m Hm; apply (Lev m Hm)|].
  split; [intros m Hm; destruct (Lev m Hm) as (L1 & L2 & L3 & L4); rewrite L3; auto|].
  split; [exact U2|]. repeat split.
  clear -U1 U3. revert ls U1 U3. induction (sv_levels s) as [|l t IH]; intros [|a ls] U1 U3; try discriminate; [reflexivity|].
  destruct (U3 0 l eq_refl) as (d & _ & E). cbn in E. injection E as ->. cbn. f_equal. apply IH; [now injection U1|]. intros k b Hb. apply (U3 (S k) b Hb).
Qed.
End M.
