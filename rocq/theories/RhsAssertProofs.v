(** Assertions on the values of right hand sides. *)
From Coq Require Import ZArith List Bool Lia.
From Verif Require Import EcsModel EcsRhsModel EcsRhsSpec EcsRhsProofs EcsRhsExamples RhsAssertModel.
Import ListNotations.

Local Open Scope nat_scope.
Section P.
Context {V : Type}.
Variable zero : V.
Variable mem : imp V -> list V -> Prop.
Variable okq : (Z -> V) -> Prop.

Lemma rows_ok_spec (ok : V -> bool) ct : forall v, rows_ok ok ct v = true <->
  forall k t x, nth_error ct k = Some t -> nth_error v k = Some x -> t <> Equality -> ok x = true.
Proof.
  unfold rows_ok. induction ct as [|a ct IH]; intros [|x v]; cbn; try (split; [intros _ [|k] ? ? H H'; try discriminate H; discriminate H'|reflexivity]).
  rewrite andb_true_iff, IH. split.
  - intros [H1 H2] [|k] t y Ht Hy N; cbn in *; [|apply (H2 k t y); assumption]. injection Ht as <-. injection Hy as <-. destruct a; try exact H1. congruence.
  - intros H. split; [|intros k t y; apply (H (S k))]. specialize (H 0 a x eq_refl eq_refl). destruct a; try reflexivity; apply H; discriminate.
Qed.
Lemma keep_rows_ok (ok : V -> bool) ct v : ok zero = true -> rows_ok ok ct (keep_eq zero ct v) = true.
Proof.
  intros Z. unfold rows_ok, keep_eq. revert v. induction ct as [|a ct IH]; intros [|x v]; cbn; try reflexivity.
  rewrite IH. destruct a; rewrite ?Z; reflexivity.
Qed.
Lemma set_chk_spec (small : V -> bool) (cs : list (imp V)) rl i c x : length rl = length cs -> nth_error cs i = Some c -> wf_imp zero mem okq c -> mem c x ->
  ((forall k t y, nth_error (s_cmp c) k = Some t -> nth_error (s_log c x) k = Some y -> t <> Equality -> small y = true) ->
   set_rhs_chk zero small cs rl i x = set_rhs zero cs rl i x) /\
  ((exists k t y, nth_error (s_cmp c) k = Some t /\ nth_error (s_log c x) k = Some y /\ t <> Equality /\ small y = false) ->
   set_rhs_chk zero small cs rl i x = None).
Proof.
  intros L Hc W M. destruct (set_rhs_spec zero mem okq cs rl i c x L Hc W M) as (r & E & _). unfold set_rhs_chk. rewrite Hc, E. split.
  - intros H. now rewrite (proj2 (rows_ok_spec small (s_cmp c) (s_log c x)) H).
  - intros (k & t & y & A & B & N & S). destruct (rows_ok small (s_cmp c) (s_log c x)) eqn:R; [|reflexivity].
    pose proof (proj1 (rows_ok_spec _ _ _) R k t y A B N). congruence.
Qed.
Lemma all_chk_spec (is0 : V -> bool) : is0 zero = true -> forall cs, (forall c, In c cs -> wf_imp zero mem okq c) -> forall v, rhs_vector mem cs v ->
  set_all_chk zero is0 cs v = set_all zero cs v.
Proof.
  intros Z. induction cs as [|c cs IH]; intros W v [L F]; [reflexivity|]. cbn [set_all set_all_chk pieces] in *.
  inversion F as [|? ? ? ? M F']; subst.
  assert (Ws := W c (or_introl eq_refl)). destruct Ws as (W1 & W0 & W2 & W3).
  assert (Lc : s_nq c <= length v) by (unfold total_size in L; cbn in L; lia).
  rewrite (proj2 (Nat.leb_le _ _) Lc).
  assert (Em := mask_spec zero c (s_log c (firstn (s_nq c) v)) W1 (W2 _ M)).
  unfold project. rewrite (W0 _ M), Nat.eqb_refl, Em. rewrite keep_rows_ok by exact Z. rewrite IH; [|intros; apply W; right; assumption|].
  - destruct (set_all zero cs (skipn (s_nq c) v)); reflexivity.
  - split; [|exact F']. rewrite skipn_length. change (total_size (c :: cs)) with (s_nq c + total_size cs) in L. lia.
Qed.
Lemma back_chk (small is0 : V -> bool) (cs : list (imp V)) rl : small zero = true -> is0 zero = true -> (forall c, In c cs -> wf_imp zero mem okq c) -> rhs_reach zero mem okq cs rl ->
  set_all_chk zero is0 cs (get_all rl) = Some rl /\
  forall i c r, nth_error cs i = Some c -> nth_error rl i = Some r -> set_rhs_chk zero small cs rl i r = Some rl.
Proof.
  intros Z Z0 W R. destruct (write_back zero mem okq cs rl W R) as [B1 B2]. destruct (reach_projected zero mem okq cs rl W R) as [L H]. split.
  - rewrite all_chk_spec; [exact B1|exact Z0|exact W|]. clear B1 B2 R Z. revert rl L H. induction cs as [|c cs IH]; intros [|r rl] L H; try discriminate L; [split; [reflexivity|constructor]|].
    destruct (H 0 c r eq_refl eq_refl) as [M _]. assert (Lr : length r = s_nq c) by (apply (W c (or_introl eq_refl)); exact M).
    destruct (IH (fun c H => W c (or_intror H)) rl) as [I1 I2]; [cbn in L; lia|intros i; apply (H (S i))|].
    unfold get_all in *. cbn [concat pieces]. split; [rewrite app_length, Lr, I1; reflexivity|].
    cbn [pieces]. rewrite firstn_exact, skipn_exact by exact Lr. constructor; assumption.
  - intros i c r Hc Hr. destruct (H i c r Hc Hr) as [M E]. pose proof (W c (nth_error_In _ _ Hc)) as Wc.
    destruct (set_chk_spec small cs rl i c r L Hc Wc M) as [S _]. rewrite S; [now apply (B2 i c r)|].
    destruct Wc as (_ & _ & _ & _ & _ & W5 & _). rewrite <- E, W5 by exact M. apply rows_ok_spec, keep_rows_ok, Z.
Qed.
End P.

Local Open Scope Z_scope.
Lemma chk_differ : exists (cs : list (imp Z)) rl x, (forall c, In c cs -> wf_imp 0 clk_mem clk_ok c) /\ rhs_reach 0 clk_mem clk_ok cs rl /\ rhs_vector clk_mem cs x /\ length cs = 1%nat /\
  set_all_chk 0 (Z.eqb 0) cs x = Some [[3; 0]] /\ set_rhs_chk 0 (fun y => y * y <? 1) cs rl 0 x = None.
Proof.
  exists [clk 4 2 Equality EqualToZero], [[0; 0]], [3; 8]. split; [intros c [<-|[]]; apply clk_wf, clk_ok0|].
  split; [apply (rr_init 0 clk_mem clk_ok [clk 4 2 Equality EqualToZero])|]. split; [|split; [reflexivity|split; vm_compute; reflexivity]].
  split; [reflexivity|]. repeat constructor. exists 3, 8. split; [reflexivity|lia].
Qed.
