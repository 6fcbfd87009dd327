(** Concrete instances and counter-examples for C18-C21. *)
From Coq Require Import ZArith List Bool Lia Floats.SpecFloat.
From Verif Require Import SegModel SegSpec ViewModel EcsModel EcsSpec EcsSolveProofs EcsFinalProofs
  EcsRhsModel EcsRhsSpec EcsRhsProofs NanModel NanProofs.
Import ListNotations.
Open Scope Z_scope.
Ltac Zify.zify_post_hook ::= Z.to_euclidean_division_equations.

(** vector spaces *)
Lemma vector_residual {V} (zero : V) sub (c : imp V) (h : list V) :
  (forall x, sub x x = zero) -> (forall x, sub x zero = x) ->
  (forall x, s_log c x = x) -> (forall x, s_exp c x = x) ->
  (forall x y, s_minus c x y = map (fun p => sub (fst p) (snd p)) (combine x y)) ->
  length h = length (s_cmp c) ->
  s_minus c h (proj zero c h) = map (fun p => match fst p with Equality => zero | _ => snd p end) (combine (s_cmp c) h).
Proof.
  intros H1 H2 L E M Lh. rewrite M. unfold proj. rewrite E, L. clear - H1 H2 Lh.
  revert Lh. generalize (s_cmp c) as t. intros t; revert h.
  induction t as [|a t IH]; intros [|b h] Lh; try discriminate Lh; [reflexivity|].
  cbn. f_equal; [destruct a; cbn; rewrite ?H1, ?H2; reflexivity|]. apply IH. cbn in Lh. lia.
Qed.

(** The group Z x Z/10 (a position and the hour of a ten hour clock): elements are
    [a; b] with 0 <= b < 10, logarithms [a; b] with -5 <= b < 5. *)
Definition centre (b : Z) : Z := (b + 5) mod 10 - 5.
Definition clk_log (x : list Z) : list Z := match x with [a; b] => [a; centre b] | _ => [] end.
Definition clk_exp (x : list Z) : list Z := match x with [a; b] => [a; b mod 10] | _ => [] end.
Definition clk_minus (x y : list Z) : list Z := match x, y with [a; b], [c; d] => [a - c; centre (b - d)] | _, _ => [] end.
Definition clk_mem (c : imp Z) (x : list Z) : Prop := exists a b, x = [a; b] /\ 0 <= b < 10.
(** output at i, i+1 relative to input at j, j+1 *)
Definition clk (i j : Z) (t1 t2 : cmp) : imp Z :=
  mkimp 2 2 [0; 0] clk_log clk_exp clk_minus (fun q => [q i - q j; (q (i + 1) - q (j + 1)) mod 10]) [t1; t2].
Definition clk_con (i j : Z) (t1 t2 : cmp) : con Z (list Z) :=
  mkcon [(j, 2)] [(i, 2)] [(j, 2)] [(i, 2)] [t1; t2]
    (fun r x => match r, x with [a; b], [c; d] => [a + c; (b + d) mod 10] | _, _ => [0; 0] end) [0; 0].
Definition clk_ok (q : Z -> Z) : Prop := 0 <= q 1 < 10 /\ 0 <= q 3 < 10 /\ 0 <= q 5 < 10.

Lemma clk_wf i j t1 t2 : clk_ok (fun _ => 0) -> wf_imp 0 clk_mem clk_ok (clk i j t1 t2).
Proof.
  intros _. unfold wf_imp. split; [reflexivity|].
  split; [intros x (a & b & -> & H); reflexivity|].
  split; [intros x (a & b & -> & H); reflexivity|].
  split; [intros [|a [|b [|? ?]]] H; try discriminate H; exists a, (b mod 10); split; [reflexivity|lia]|].
  split; [intros q H; do 2 eexists; split; [reflexivity|]; apply Z.mod_pos_bound; lia|].
  split; [|split].
  - intros x (a & b & -> & H). unfold proj, keep_eq, clk; cbn. unfold centre.
    f_equal. f_equal. destruct t2; lia.
  - exists 0, 0. split; [reflexivity|lia].
  - unfold proj, keep_eq, clk; cbn. destruct t1, t2; reflexivity.
Qed.
Lemma clk_ok0 : clk_ok (fun _ => 0). Proof. unfold clk_ok; lia. Qed.
Lemma clk_minus_refl i j t1 t2 : minus_refl 0 clk_mem (clk i j t1 t2).
Proof. intros x (a & b & -> & H). cbn. unfold centre. f_equal; [lia|]. f_equal. lia. Qed.

Definition clk_exs : list (con Z (list Z)) := [clk_con 4 2 Equality Equality; clk_con 2 0 Equality Equality].
Definition clk_imps : list (imp Z) := [clk 4 2 Equality Equality; clk 2 0 Equality Equality].
Definition clk_st : ecs Z (list Z) := fst (run Z.add 20 (init 6 6) clk_exs).

Lemma clk_family : family 6 6 (fun c => In c clk_exs).
Proof.
  split; [lia|]. split; [lia|]. split.
  - intros c [<-|[<-|[]]]; unfold wf_con, clk_con; cbn [c_in c_out c_inv c_outv];
      (split; [eexists; reflexivity|]; split; [eexists; reflexivity|];
       repeat split; try (intros u []); try (destruct H as [<-|[]]; cbn; lia)).
  - intros c d [<-|[<-|[]]] [<-|[<-|[]]]; unfold consistent, clk_con; cbn [c_in c_out c_inv c_outv]; tauto.
Qed.
Lemma clk_reach : reach Z.add (fun c => In c clk_exs) 6 6 clk_st.
Proof.
  unfold clk_st. unfold run. eapply run_reach; [constructor | intros c H; exact H].
Qed.
Lemma clk_data : data clk_st = clk_exs. Proof. vm_compute. reflexivity. Qed.
Lemma clk_sized : forall c, In c (data clk_st) -> sized c.
Proof.
  intros c H. rewrite clk_data in H. destruct H as [<-|[<-|[]]]; intros r x Hx; cbn in Hx |- *;
  destruct r as [|? [|? [|? ?]]], x as [|? [|? [|? ?]]]; cbn in Hx; try discriminate Hx; reflexivity.
Qed.
Lemma clk_agree_one i j t1 t2 : (forall q, clk_ok q -> 0 <= q (i + 1) < 10 /\ 0 <= q (j + 1) < 10) ->
  formulations_agree clk_mem clk_ok (clk_con i j t1 t2) (clk i j t1 t2).
Proof.
  intros H q r OK (a & b & -> & Hb). destruct (H q OK) as [H1 H2].
  unfold satisfies, clk_con, clk; cbn [c_out c_in c_val s_fun].
  change (indices [(i, 2)]) with [i; i + 1]. change (indices [(j, 2)]) with [j; j + 1]. cbn [map].
  split; intros E; injection E; intros E1 E2; f_equal; try lia; f_equal; lia.
Qed.
Lemma clk_agree : Forall2 (formulations_agree clk_mem clk_ok) (data clk_st) clk_imps.
Proof.
  rewrite clk_data. constructor; [|constructor; [|constructor]]; apply clk_agree_one;
  intros q (O1 & O2 & O3); auto.
Qed.
Lemma clk_props : (forall c, In c clk_imps -> wf_imp 0 clk_mem clk_ok c) /\ (forall c, In c clk_imps -> minus_refl 0 clk_mem c) /\
  (forall c t, In c clk_imps -> In t (s_cmp c) -> t = Equality) /\
  (forall c q, In c clk_imps -> s_exp c (s_log c (s_fun c q)) = s_fun c q).
Proof.
  split; [|split; [|split]].
  - intros c [<-|[<-|[]]]; apply clk_wf, clk_ok0.
  - intros c [<-|[<-|[]]]; apply clk_minus_refl.
  - intros c t [<-|[<-|[]]] [<-|[<-|[]]]; reflexivity.
  - intros c q [<-|[<-|[]]]; cbn; unfold centre; f_equal; f_equal; lia.
Qed.

(** Floating point scalars: one real constraint q0 = r. *)
Definition fsub (a b : spec_float) : spec_float := SFsub 53 1024 a b.
Definition fl_imp : imp spec_float :=
  mkimp 1 1 [fzero] (fun x => x) (fun x => x)
    (fun x y => map (fun p => fsub (fst p) (snd p)) (combine x y)) (fun q => [q 0]) [Equality].
Definition fsqn (l : list spec_float) : spec_float := fold_left (fun s x => SFadd 53 1024 s (fmul x x)) l fzero.
Definition fone : spec_float := binary_normalize 53 1024 1 0 false.
(** 2^-600 *)
Definition ftiny : spec_float := binary_normalize 53 1024 1 (-600) false.

Lemma nan_satisfied :
  exists q, fst (is_satisfied fsqn [fl_imp] [[fzero]] q fone fone) = true /\ isnan (q 0) = true.
Proof. exists (fun _ => S754_nan). vm_compute. auto. Qed.
Lemma tiny_threshold :
  flt fzero ftiny = true /\
  fst (is_satisfied fsqn [fl_imp] [[fone]] (fun _ => fone) fone ftiny) = false /\
  s_minus fl_imp (s_fun fl_imp (fun _ => fone)) [fone] = [fzero].
Proof. vm_compute. auto. Qed.
