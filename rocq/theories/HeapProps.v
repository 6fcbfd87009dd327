(** C40 (extract) and C68 (copies of solvers).  See properties.jsonl. *)
From Coq Require Import List Bool Arith.
From Verif Require Import HeapModel HeapSpec HeapFinal HeapExamples HeapCases.
Import ListNotations.

Section P.
Context {F K R I : Type}.
Variables (feq : F -> F -> bool) (extract_ : R -> I -> R).
Notation step := (@step F K R I feq extract_).
Notation run := (@run F K R I feq extract_).
Notation reach := (@reach F K R I feq extract_).

Theorem C40_hierarchical : forall w l i r0 w' l' s, reach (w, l) -> step (w, l) (HExtract i r0) = Some (w', l') -> nth_error l i = Some s ->
  exists r g, l' = l ++ [r] /\ copies w w' s r g /\
    (forall p, In p (sv_cons s) -> nth_error (cells w') (g p) = option_map (extracted extract_ r0) (nth_error (cells w) p)) /\
    (sound w s -> sound w' r).
Proof. exact (hextract_spec feq extract_). Qed.
Theorem C40_by_substitution : forall w l i r0 w' l' s, reach (w, l) -> step (w, l) (BExtract i r0) = Some (w', l') -> nth_error l i = Some s ->
  exists r g s', l' = upd l i s' ++ [r] /\ copies w w' s r g /\ sv_ex r = map g (sv_ex s) /\
    (forall p, In p (sv_cons s) -> nth_error (cells w') (g p) = option_map (extracted extract_ r0) (nth_error (cells w) p)) /\
    (sound w s -> sound w' r) /\
    sv_cons s' = sv_cons s /\ sv_levels s' = sv_levels s /\ sv_iq s' = sv_iq s /\ sv_ex s' = sv_ex r /\
    ex_data w' s' = ex_data w s.
Proof. exact (bextract_spec feq extract_). Qed.

Theorem C68_copy : forall w l i w' l' s, reach (w, l) -> step (w, l) (Copy i) = Some (w', l') -> nth_error l i = Some s ->
  exists r g, l' = l ++ [r] /\ copies w w' s r g /\ sv_ex r = map g (sv_ex s) /\
    (forall p, p < length (cells w) -> nth_error (cells w') (g p) = nth_error (cells w) p) /\ (sound w s -> sound w' r).
Proof. exact (copy_spec feq extract_). Qed.
Theorem C68_add : forall w l i c p w' l' s, reach (w, l) -> step (w, l) (Add i c p) = Some (w', l') -> nth_error l i = Some s ->
  exists s' x, nth_error l' i = Some s' /\ nth_error (cells w) c = Some x /\ cells w' = cells w /\
    (forall j, j <> i -> nth_error l' j = nth_error l j) /\
    sound w' s' /\ settled s' /\ sv_cons s' = sv_cons s ++ [c] /\ sv_ex s' = sv_ex s /\
    (forall k, k <> p -> option_map lv_cons (nth_error (sv_levels s') k) =
       match nth_error (sv_levels s) k with Some lv => Some (lv_cons lv) | None => if k <? p then Some [] else None end) /\
    option_map lv_cons (nth_error (sv_levels s') p) = Some (match nth_error (sv_levels s) p with Some lv => lv_cons lv | None => [] end ++ [c]) /\
    (sound w s -> sv_iq s' = sv_iq s ++ [(cl_f x, match nth_error (sv_levels s) p with Some lv => total w (lv_cons lv) | None => (0, 0) end)]).
Proof. exact (add_own feq extract_). Qed.
Theorem C68_add_explicit : forall w l i c w' l' s, reach (w, l) -> step (w, l) (AddExplicit i c) = Some (w', l') -> nth_error l i = Some s ->
  exists s', nth_error l' i = Some s' /\ w' = w /\ (forall j, j <> i -> nth_error l' j = nth_error l j) /\
    sound w' s' /\ settled s' /\ sv_cons s' = sv_cons s ++ [c] /\ sv_ex s' = sv_ex s ++ [c] /\ sv_iq s' = sv_iq s /\
    map lv_cons (sv_levels s') = map lv_cons (sv_levels s).
Proof. exact (addx_own feq extract_). Qed.
Theorem C68_settled : forall w l o w' l' i s, reach (w, l) -> step (w, l) o = Some (w', l') -> nth_error l i = Some s -> ~ touches o i ->
  settled s -> sound w s ->
  exists s', nth_error l' i = Some s' /\ sv_levels s' = sv_levels s /\ sv_cons s' = sv_cons s /\ sv_iq s' = sv_iq s /\ settled s' /\ sound w' s'.
Proof. exact (settled_keeps feq extract_). Qed.
Theorem C68_run : forall w l ops w' l' i s, reach (w, l) -> run (w, l) ops = Some (w', l') -> nth_error l i = Some s ->
  (forall k c p, In (Add k c p) ops -> i <= k) -> sound w s ->
  exists s', nth_error l' i = Some s' /\ sound w' s' /\ readable w' s' = true.
Proof. exact (run_keeps feq extract_). Qed.
End P.

(** After extract of a solver by substitution, the comparison types of the original's
    explicit constraints are those of the constraints of the result, not of its own. *)
Theorem C40_aliased_refuted : exists p w l w' l' w1 w2 s x c0 c1,
  hrun p = Some (w, l) /\ step Nat.eqb hx_ext (w, l) (BExtract 0 7) = Some (w', l') /\
  nth_error l' 0 = Some s /\ nth_error l' 1 = Some x /\ In c0 (sv_cons s) /\ In c1 (sv_cons x) /\ c0 < length (cells w) <= c1 /\
  step Nat.eqb hx_ext (w', l') (SetComparison c1 1) = Some (w1, l') /\ ex_cmp w1 s <> ex_cmp w' s /\
  step Nat.eqb hx_ext (w', l') (SetComparison c0 1) = Some (w2, l') /\ ex_cmp w2 s = ex_cmp w' s.
Proof. exact aliased_refuted. Qed.
(** A second extract gives a solver whose explicit constraints are those of the first result. *)
Theorem C40_second_refuted : exists p w l s x y, hrun p = Some (w, l) /\ nth_error l 0 = Some s /\ nth_error l 1 = Some x /\ nth_error l 2 = Some y /\
  p = hx_p3 ++ [BExtract 0 7; BExtract 0 8] /\ sv_ex y = sv_ex x /\ sv_ex y <> [] /\ (forall c, In c (sv_ex y) -> In c (sv_cons x) /\ ~ In c (sv_cons y)) /\
  map (fun c => option_map cl_rhs (nth_error (cells w) c)) (sv_ex y) <> map (fun c => option_map cl_rhs (nth_error (cells w) c)) (sv_cons y).
Proof. exact second_refuted. Qed.
(** Adding to the original spoils the copy, and the next constraint added to the copy is
    recorded at a wrong index. *)
Theorem C68_copy_spoiled_refuted : exists w l w' l' s s', hrun hx_p0 = Some (w, l) /\ hrun hx_p1 = Some (w', l') /\
  nth_error l 1 = Some s /\ nth_error l' 1 = Some s' /\ s' = s /\ readable w s = true /\ readable w' s' = false /\ ~ sound w' s'.
Proof. exact spoiled_refuted. Qed.
Theorem C68_offset_refuted : exists w l w' l' s s' lv x, hrun (hx_p1 ++ [NewConstraint (mkcell 4 1 1 0 None)]) = Some (w, l) /\
  step Nat.eqb hx_ext (w, l) (Add 1 5 0) = Some (w', l') /\ nth_error l 1 = Some s /\ nth_error l' 1 = Some s' /\ nth_error (sv_levels s) 0 = Some lv /\
  nth_error (cells w) 5 = Some x /\ sv_iq s' = sv_iq s ++ [(cl_f x, (6, 5))] /\ total w (lv_cons lv) = (2, 2).
Proof. exact offset_refuted. Qed.
Example C40_case : exists w l s, hrun hx_p3 = Some (w, l) /\ nth_error l 0 = Some s /\ sound w s /\ length (sv_levels s) = 2 /\ sv_ex s = [2] /\
  exists w' l', step Nat.eqb hx_ext (w, l) (HExtract 0 7) = Some (w', l') /\ map cl_rhs (cells w') = [Some 5; None; Some 6; Some 57; None; Some 67].
Proof. exact case_40. Qed.
Example C68_case : exists w l s r, hrun hx_p0 = Some (w, l) /\ l = [s; r] /\ settled s /\ sound w s /\ sound w r /\ ~ settled r /\ readable w r = true.
Proof. exact case_68. Qed.
Print Assumptions C40_hierarchical.
Print Assumptions C40_by_substitution.
Print Assumptions C68_copy.
Print Assumptions C68_add.
Print Assumptions C68_add_explicit.
Print Assumptions C68_settled.
Print Assumptions C68_run.
Print Assumptions C40_aliased_refuted.
Print Assumptions C40_second_refuted.
Print Assumptions C68_copy_spoiled_refuted.
Print Assumptions C68_offset_refuted.
