From Coq Require Import List Bool Arith Lia.
From Verif Require Import HeapModel HeapSpec HeapFinal HeapExamples.
Import ListNotations.

Ltac lv_cases := let lv := fresh "lv" in let H := fresh "H" in intros lv H; vm_compute in H; repeat (destruct H as [<-|H]); [..|destruct H]; try (split; vm_compute; reflexivity); try (vm_compute; reflexivity).

Lemma aliased_refuted : exists p w l w' l' w1 w2 s x c0 c1,
  hrun p = Some (w, l) /\ step Nat.eqb hx_ext (w, l) (BExtract 0 7) = Some (w', l') /\
  nth_error l' 0 = Some s /\ nth_error l' 1 = Some x /\ In c0 (sv_cons s) /\ In c1 (sv_cons x) /\ c0 < length (cells w) <= c1 /\
  step Nat.eqb hx_ext (w', l') (SetComparison c1 1) = Some (w1, l') /\ ex_cmp w1 s <> ex_cmp w' s /\
  step Nat.eqb hx_ext (w', l') (SetComparison c0 1) = Some (w2, l') /\ ex_cmp w2 s = ex_cmp w' s.
Proof.
  exists hx_p3. do 10 eexists. split; [(vm_compute; reflexivity)|]. split; [(vm_compute; reflexivity)|]. split; [(vm_compute; reflexivity)|]. split; [(vm_compute; reflexivity)|].
  split; [right; right; left; reflexivity|]. split; [right; right; left; reflexivity|]. split; [cbn; lia|].
  split; [(vm_compute; reflexivity)|]. split; [vm_compute; discriminate|]. split; (vm_compute; reflexivity).
Qed.
Lemma second_refuted : exists p w l s x y, hrun p = Some (w, l) /\ nth_error l 0 = Some s /\ nth_error l 1 = Some x /\ nth_error l 2 = Some y /\
  p = hx_p3 ++ [BExtract 0 7; BExtract 0 8] /\ sv_ex y = sv_ex x /\ sv_ex y <> [] /\ (forall c, In c (sv_ex y) -> In c (sv_cons x) /\ ~ In c (sv_cons y)) /\
  map (fun c => option_map cl_rhs (nth_error (cells w) c)) (sv_ex y) <> map (fun c => option_map cl_rhs (nth_error (cells w) c)) (sv_cons y).
Proof.
  exists (hx_p3 ++ [BExtract 0 7; BExtract 0 8]). do 5 eexists. do 4 (split; [(vm_compute; reflexivity)|]). split; [(vm_compute; reflexivity)|]. split; [(vm_compute; reflexivity)|]. split; [vm_compute; discriminate|].
  split; [|vm_compute; discriminate]. intros c H. vm_compute in H. destruct H as [<-|[]]. split; [right; right; left; reflexivity|]. vm_compute. intuition discriminate.
Qed.
Lemma spoiled_refuted : exists w l w' l' s s', hrun hx_p0 = Some (w, l) /\ hrun hx_p1 = Some (w', l') /\
  nth_error l 1 = Some s /\ nth_error l' 1 = Some s' /\ s' = s /\ readable w s = true /\ readable w' s' = false /\ ~ sound w' s'.
Proof.
  do 6 eexists. do 4 (split; [(vm_compute; reflexivity)|]). do 3 (split; [(vm_compute; reflexivity)|]). intros S. specialize (S _ (or_introl eq_refl)). destruct S as [S _]. discriminate S.
Qed.
Lemma offset_refuted : exists w l w' l' s s' lv x, hrun (hx_p1 ++ [NewConstraint (mkcell 4 1 1 0 None)]) = Some (w, l) /\
  step Nat.eqb hx_ext (w, l) (Add 1 5 0) = Some (w', l') /\ nth_error l 1 = Some s /\ nth_error l' 1 = Some s' /\ nth_error (sv_levels s) 0 = Some lv /\
  nth_error (cells w) 5 = Some x /\ sv_iq s' = sv_iq s ++ [(cl_f x, (6, 5))] /\ total w (lv_cons lv) = (2, 2).
Proof. do 8 eexists. repeat (split; [(vm_compute; reflexivity)|]). (vm_compute; reflexivity). Qed.
Lemma case_40 : exists w l s, hrun hx_p3 = Some (w, l) /\ nth_error l 0 = Some s /\ sound w s /\ length (sv_levels s) = 2 /\ sv_ex s = [2] /\
  exists w' l', step Nat.eqb hx_ext (w, l) (HExtract 0 7) = Some (w', l') /\ map cl_rhs (cells w') = [Some 5; None; Some 6; Some 57; None; Some 67].
Proof.
  do 3 eexists. split; [(vm_compute; reflexivity)|]. split; [(vm_compute; reflexivity)|]. split; [lv_cases|]. split; [(vm_compute; reflexivity)|]. split; [(vm_compute; reflexivity)|].
  do 2 eexists. split; (vm_compute; reflexivity).
Qed.
Lemma case_68 : exists w l s r, hrun hx_p0 = Some (w, l) /\ l = [s; r] /\ settled s /\ sound w s /\ sound w r /\ ~ settled r /\ readable w r = true.
Proof.
  do 4 eexists. split; [(vm_compute; reflexivity)|]. split; [(vm_compute; reflexivity)|]. split; [lv_cases|]. split; [lv_cases|]. split; [lv_cases|]. split; [|(vm_compute; reflexivity)].
  intros S. specialize (S _ (or_introl eq_refl)). discriminate S.
Qed.
