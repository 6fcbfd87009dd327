(** Consequence of the comparison of transformations for the solver by substitution. *)
From Coq Require Import ZArith List Bool Lia.
From Verif Require Import ImplModel HierModel BySubModel EqModel EqProofs.
Import ListNotations.

Lemma lost_constraint (V : Type) (veq : V -> V -> bool) :
  forall (feq : fun_ V -> fun_ V -> bool), (forall f g, feq f g = true <-> fun_eq veq f g = B true) ->
  forall iadd fuel (s : bs (fun_ V) V) (d c : bc (fun_ V) V) p b cl r m j1 j2 F1 F2 j1' j2' F1' F2',
  In d (bs_cons s) -> bc_con d = None -> bc_con c = None ->
  bc_f d = mkfun b (KTransform cl r j1 j2 F1 F2 m) -> bc_f c = mkfun b (KTransform cl r j1' j2' F1' F2' m) ->
  m_cmp (ic_i (bc_c d)) = m_cmp (ic_i (bc_c c)) -> m_rhs (ic_i (bc_c d)) = m_rhs (ic_i (bc_c c)) ->
  badd feq iadd fuel s c p = (s, BNo).
Proof.
  intros feq Hf iadd fuel s d c p b cl r m j1 j2 F1 F2 j1' j2' F1' F2' Hd Ed Ec Fd Fc Hc Hr.
  assert (E1 : feq (bc_f d) (bc_f c) = true) by (apply Hf; rewrite Fd, Fc; apply transform_eq; auto).
  assert (E2 : feq (bc_f c) (bc_f d) = true) by (apply Hf; rewrite Fd, Fc; apply transform_eq; auto).
  unfold badd. replace (bcontains feq s c) with true; [reflexivity|]. symmetry. apply existsb_exists. exists d. split; [exact Hd|].
  assert (C : forall l, cmps_eqb l l = true) by (induction l as [|[] t IH]; cbn; auto).
  unfold bc_con in Ed, Ec. unfold beq, eq_con, eq_noswap. cbn [kc_i kc_k].
  destruct (bc_k d) as [|?|?]; [|discriminate|discriminate]. destruct (bc_k c) as [|?|?]; [|discriminate|discriminate].
  unfold bc_f, ic_f in E1, E2. unfold is_equal1. now rewrite Hc, Hr, E1, E2, !C, !Nat.eqb_refl.
Qed.
