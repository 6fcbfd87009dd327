(** Lemmas about ViewModel. *)
From Coq Require Import ZArith List Bool Lia ZifyBool.
From Verif Require Import SegModel SegSpec SegProofs ViewModel.
Import ListNotations.
Open Scope Z_scope.

(** every interval lies in [0, n) *)
Definition inside (n : Z) (l : list (Z * Z)) : Prop :=
  forall s, In s l -> 0 <= fst s /\ 0 <= snd s /\ fst s + snd s <= n.

Lemma inside_nonneg n l : inside n l -> nonneg l.
Proof. intros H s Hs; apply H; exact Hs. Qed.

Definition rect_d (b : blk) (i j : Z) : Prop :=
  b_ro b <= i < b_ro b + b_rs b /\ b_co b <= j < b_co b + b_cs b.
Definition rect_s (b : blk) (i j : Z) : Prop :=
  b_ri b <= i < b_ri b + b_rs b /\ b_ci b <= j < b_ci b + b_cs b.

Lemma in_range_spec {A} (m : mat A) r c rs cs :
  in_range m r c rs cs = true <->
  0 <= r /\ 0 <= c /\ 0 <= rs /\ 0 <= cs /\ r + rs <= nr m /\ c + cs <= nc m.
Proof. unfold in_range; lia. Qed.

(** A loop of block writes that all agree with one function F. *)
Lemma loop_put_spec {A} (dr dc : blk -> Z) (ok : blk -> bool) (v : blk -> Z -> Z -> A) (F : Z -> Z -> A) l :
  forall dst : mat A,
  (forall b, In b l -> ok b = true /\ in_range dst (dr b) (dc b) (b_rs b) (b_cs b) = true /\
     (forall k m, 0 <= k < b_rs b -> 0 <= m < b_cs b -> v b k m = F (dr b + k) (dc b + m))) ->
  exists d, loop (fun dst b => put dst (dr b) (dc b) (b_rs b) (b_cs b) (ok b) (v b)) dst l = Some d /\
    nr d = nr dst /\ nc d = nc dst /\
    (forall i j, (exists b, In b l /\ dr b <= i < dr b + b_rs b /\ dc b <= j < dc b + b_cs b) ->
       at_ d i j = F i j) /\
    (forall i j, ~ (exists b, In b l /\ dr b <= i < dr b + b_rs b /\ dc b <= j < dc b + b_cs b) ->
       at_ d i j = at_ dst i j).
Proof.
  induction l as [|b l IH]; intros dst H; cbn [loop].
  - exists dst; repeat split; auto. intros i j [b [[] _]].
  - destruct (H b (or_introl eq_refl)) as (H1 & H2 & H3).
    unfold put at 1; rewrite H1, H2; cbn [andb].
    set (d1 := mkmat _ _ _).
    destruct (IH d1) as (d & Hd & D1 & D2 & D3 & D4).
    { intros b' Hb'; destruct (H b' (or_intror Hb')) as (E1 & E2 & E3).
      repeat split; auto. }
    exists d; repeat split; auto.
    + intros i j [b' [[<-|Hb'] Hr]]; [|apply D3; exists b'; auto].
      destruct (existsb (fun b' => (dr b' <=? i) && (i <? dr b' + b_rs b') && (dc b' <=? j) && (j <? dc b' + b_cs b')) l) eqn:E.
      * apply existsb_exists in E as [b' [Hb' Hb'']]; apply D3; exists b'; split; [exact Hb' | lia].
      * rewrite D4.
        -- subst d1; cbn [at_].
           replace ((dr b <=? i) && (i <? dr b + b_rs b) && (dc b <=? j) && (j <? dc b + b_cs b)) with true by lia.
           rewrite H3 by lia. f_equal; lia.
        -- intros [b' [Hb' Hr']].
           assert (X : existsb (fun b' => (dr b' <=? i) && (i <? dr b' + b_rs b') && (dc b' <=? j) && (j <? dc b' + b_cs b')) l = true)
             by (apply existsb_exists; exists b'; split; [exact Hb' | lia]).
           congruence.
    + intros i j Hn; rewrite D4.
      * subst d1; cbn [at_].
        replace ((dr b <=? i) && (i <? dr b + b_rs b) && (dc b <=? j) && (j <? dc b + b_cs b)) with false; [reflexivity|].
        symmetry; apply Bool.not_true_iff_false; intros E; apply Hn; exists b; split; [left; auto | lia].
      * intros [b' [Hb' Hr]]; apply Hn; exists b'; split; [right; auto | exact Hr].
Qed.

(** positions: the k-th index of block (first, length, offset) is position offset+k *)
Lemma nth_error_zseq n : forall a k, (k < n)%nat -> nth_error (zseq a n) k = Some (a + Z.of_nat k).
Proof.
  induction n as [|n IH]; intros a k Hk; [lia|]. destruct k as [|k]; cbn [zseq nth_error].
  - f_equal; lia.
  - rewrite IH by lia; f_equal; lia.
Qed.

Lemma axis_blocks_bounds l : forall o b, nonneg l ->
  In b (axis_blocks o l) ->
  let '(f, n, p) := b in In (f, n) l /\ 0 <= n /\ o <= p /\ p + n <= o + cardinal l.
Proof.
  induction l as [|s l IH]; intros o [[f n] p] HN; cbn [axis_blocks]; [intros []|].
  apply nonneg_cons in HN as [N1 HN]; rewrite cardinal_cons.
  pose proof (cardinal_nonneg l HN) as C.
  intros [H|H].
  - injection H as <- <- <-. repeat split; try lia. left; destruct s; reflexivity.
  - apply (IH _ (f, n, p)) in H; auto. destruct H as (H1 & H2 & H3 & H4).
    repeat split; try lia. right; exact H1.
Qed.

Lemma axis_blocks_pos l : forall o f n p k, nonneg l ->
  In (f, n, p) (axis_blocks o l) -> 0 <= k < n ->
  nth_error (indices l) (Z.to_nat (p - o + k)) = Some (f + k).
Proof.
  induction l as [|s l IH]; intros o f n p k HN; cbn [axis_blocks]; [intros []|].
  apply nonneg_cons in HN as [N1 HN].
  change (indices (s :: l)) with (seg_indices s ++ indices l).
  assert (L : length (seg_indices s) = Z.to_nat (snd s)) by (unfold seg_indices; apply zseq_length).
  intros [H|H] Hk.
  - injection H as <- <- <-. rewrite nth_error_app1 by lia.
    unfold seg_indices; rewrite nth_error_zseq by lia; f_equal; lia.
  - pose proof (axis_blocks_bounds l (o + snd s) (f, n, p) HN H) as (B1 & B2 & B3 & B4).
    rewrite nth_error_app2 by lia.
    rewrite <- (IH (o + snd s) f n p k HN H Hk). f_equal; lia.
Qed.

Lemma axis_blocks_complete l : forall o i, nonneg l -> o <= i < o + cardinal l ->
  exists f n p, In (f, n, p) (axis_blocks o l) /\ p <= i < p + n.
Proof.
  induction l as [|s l IH]; intros o i HN Hi; [rewrite cardinal_nil in Hi; lia|].
  apply nonneg_cons in HN as [N1 HN]; rewrite cardinal_cons in Hi; cbn [axis_blocks].
  destruct (Z.lt_ge_cases i (o + snd s)).
  - exists (fst s), (snd s), o; split; [left; reflexivity | lia].
  - destruct (IH (o + snd s) i HN ltac:(lia)) as (f & n & p & H1 & H2).
    exists f, n, p; split; [right; exact H1 | exact H2].
Qed.

Lemma axis_blocks_cover l : forall o i, In i (indices l) <->
  exists f n p, In (f, n, p) (axis_blocks o l) /\ f <= i < f + n.
Proof.
  induction l as [|s l IH]; intros o i; cbn [axis_blocks].
  - cbn; split; [intros [] | intros (f & n & p & [] & _)].
  - change (indices (s :: l)) with (seg_indices s ++ indices l).
    rewrite in_app_iff, In_seg_indices, (IH (o + snd s)); unfold in_seg; split.
    + intros [H|(f & n & p & H1 & H2)].
      * exists (fst s), (snd s), o; split; [left; reflexivity | lia].
      * exists f, n, p; split; [right; exact H1 | exact H2].
    + intros (f & n & p & [H|H] & H2).
      * injection H as <- <- <-; left; lia.
      * right; exists f, n, p; auto.
Qed.

Lemma In_blocks rows cols b :
  In b (blocks rows cols) <->
  In (b_ri b, b_rs b, b_ro b) (axis_blocks 0 rows) /\ In (b_ci b, b_cs b, b_co b) (axis_blocks 0 cols).
Proof.
  unfold blocks; rewrite in_flat_map; split.
  - intros [[[ci cs] co] [Hc Hb]]; apply in_map_iff in Hb as [[[ri rs] ro] [<- Hr]]; cbn; auto.
  - intros [Hr Hc]. exists (b_ci b, b_cs b, b_co b); split; [exact Hc|].
    apply in_map_iff. exists (b_ri b, b_rs b, b_ro b); split; [destruct b; reflexivity | exact Hr].
Qed.

Lemma nth_error_nth_Z (l : list Z) n x : nth_error l n = Some x -> nth n l 0 = x.
Proof. apply nth_error_nth. Qed.

Lemma read_view_spec {A} (src dst : mat A) rows cols :
  inside (nr src) rows -> inside (nc src) cols ->
  nr dst = cardinal rows -> nc dst = cardinal cols ->
  exists d, read_view src rows cols dst = Some d /\
    nr d = cardinal rows /\ nc d = cardinal cols /\
    forall i j r c, 0 <= i -> 0 <= j ->
      nth_error (indices rows) (Z.to_nat i) = Some r ->
      nth_error (indices cols) (Z.to_nat j) = Some c ->
      at_ d i j = at_ src r c.
Proof.
  intros HR HC Hnr Hnc.
  pose proof (inside_nonneg _ _ HR) as NR; pose proof (inside_nonneg _ _ HC) as NC.
  set (F := fun i j => at_ src (nth (Z.to_nat i) (indices rows) 0) (nth (Z.to_nat j) (indices cols) 0)).
  destruct (loop_put_spec b_ro b_co
      (fun b => in_range src (b_ri b) (b_ci b) (b_rs b) (b_cs b))
      (fun b k l => at_ src (b_ri b + k) (b_ci b + l)) F (blocks rows cols) dst)
    as (d & Hd & D1 & D2 & D3 & D4).
  { intros b Hb; apply In_blocks in Hb as [Hr Hc].
    pose proof (axis_blocks_bounds rows 0 _ NR Hr) as (R1 & R2 & R3 & R4).
    pose proof (axis_blocks_bounds cols 0 _ NC Hc) as (C1 & C2 & C3 & C4).
    specialize (HR _ R1); specialize (HC _ C1); cbn [fst snd] in *.
    rewrite !in_range_spec; repeat split; try lia.
    intros k m Hk Hm; subst F; cbn beta.
    rewrite (nth_error_nth_Z _ _ (b_ri b + k)), (nth_error_nth_Z _ _ (b_ci b + m)); [reflexivity| |].
    - rewrite <- (axis_blocks_pos cols 0 _ _ _ m NC Hc Hm); f_equal; lia.
    - rewrite <- (axis_blocks_pos rows 0 _ _ _ k NR Hr Hk); f_equal; lia. }
  exists d; split; [exact Hd|]. rewrite D1, D2. split; [exact Hnr|]; split; [exact Hnc|].
  intros i j r c Hi Hj Hr Hc.
  assert (Li : (Z.to_nat i < length (indices rows))%nat) by (apply nth_error_Some; congruence).
  assert (Lj : (Z.to_nat j < length (indices cols))%nat) by (apply nth_error_Some; congruence).
  rewrite D3.
  - subst F; cbn beta. rewrite (nth_error_nth_Z _ _ r Hr), (nth_error_nth_Z _ _ c Hc); reflexivity.
  - destruct (axis_blocks_complete rows 0 i NR) as (rf & rn & rp & R1 & R2).
    { rewrite cardinal_indices by exact NR; lia. }
    destruct (axis_blocks_complete cols 0 j NC) as (cf & cn & cp & C1 & C2).
    { rewrite cardinal_indices by exact NC; lia. }
    exists (mkblk rf cf rn cn rp cp); split; [apply In_blocks; cbn; auto | cbn; lia].
Qed.

Fixpoint index_of (x : Z) (l : list Z) : Z :=
  match l with
  | [] => 0
  | y :: t => if x =? y then 0 else 1 + index_of x t
  end.
Lemma index_of_nth l : forall n x, NoDup l -> nth_error l n = Some x -> index_of x l = Z.of_nat n.
Proof.
  induction l as [|y l IH]; intros n x HD H; [destruct n; discriminate|].
  inversion HD as [|? ? Hy HD']; subst.
  destruct n as [|n]; cbn [nth_error index_of] in *.
  - injection H as ->; rewrite Z.eqb_refl; reflexivity.
  - destruct (Z.eqb_spec x y) as [->|Hne].
    + exfalso; apply Hy; eapply nth_error_In; exact H.
    + rewrite (IH n x HD' H); lia.
Qed.

Lemma write_view_frame {A} (src dst d : mat A) rows cols :
  write_view dst rows cols src = Some d ->
  nr d = nr dst /\ nc d = nc dst /\
  forall r c, ~ (covers rows r /\ covers cols c) -> at_ d r c = at_ dst r c.
Proof.
  unfold write_view.
  assert (H : forall l, (forall b, In b l -> In b (blocks rows cols)) -> forall dst,
    loop (write_step src) dst l = Some d ->
    nr d = nr dst /\ nc d = nc dst /\ forall r c, ~ (covers rows r /\ covers cols c) -> at_ d r c = at_ dst r c).
  { induction l as [|b l IH]; intros Hl dst0 H; cbn [loop] in H.
    - injection H as <-; auto.
    - unfold write_step at 1 in H; unfold put in H.
      destruct (in_range src (b_ro b) (b_co b) (b_rs b) (b_cs b) && in_range dst0 (b_ri b) (b_ci b) (b_rs b) (b_cs b)) eqn:E; [|discriminate].
      apply IH in H; [|intros b' Hb'; apply Hl; right; exact Hb'].
      destruct H as (H1 & H2 & H3); cbn [nr nc at_] in *. repeat split; auto.
      intros r c Hn; rewrite H3 by exact Hn.
      replace ((b_ri b <=? r) && (r <? b_ri b + b_rs b) && (b_ci b <=? c) && (c <? b_ci b + b_cs b)) with false; [reflexivity|].
      symmetry; apply Bool.not_true_iff_false; intros X; apply Hn.
      specialize (Hl b (or_introl eq_refl)); apply In_blocks in Hl as [Hr Hc].
      split; apply In_indices; apply (axis_blocks_cover _ 0).
      + exists (b_ri b), (b_rs b), (b_ro b); split; [exact Hr | lia].
      + exists (b_ci b), (b_cs b), (b_co b); split; [exact Hc | lia]. }
  intros H0; eapply H; [|exact H0]; auto.
Qed.

Lemma write_view_spec {A} (src dst : mat A) rows cols :
  inside (nr dst) rows -> inside (nc dst) cols ->
  nr src = cardinal rows -> nc src = cardinal cols ->
  NoDup (indices rows) -> NoDup (indices cols) ->
  exists d, write_view dst rows cols src = Some d /\ nr d = nr dst /\ nc d = nc dst /\
    (forall i j r c, 0 <= i -> 0 <= j ->
      nth_error (indices rows) (Z.to_nat i) = Some r ->
      nth_error (indices cols) (Z.to_nat j) = Some c ->
      at_ d r c = at_ src i j) /\
    (forall r c, ~ (covers rows r /\ covers cols c) -> at_ d r c = at_ dst r c).
Proof.
  intros HR HC Hnr Hnc DR DC.
  pose proof (inside_nonneg _ _ HR) as NR; pose proof (inside_nonneg _ _ HC) as NC.
  set (F := fun r c => at_ src (index_of r (indices rows)) (index_of c (indices cols))).
  destruct (loop_put_spec b_ri b_ci
      (fun b => in_range src (b_ro b) (b_co b) (b_rs b) (b_cs b))
      (fun b k l => at_ src (b_ro b + k) (b_co b + l)) F (blocks rows cols) dst)
    as (d & Hd & D1 & D2 & D3 & D4).
  { intros b Hb; apply In_blocks in Hb as [Hr Hc].
    pose proof (axis_blocks_bounds rows 0 _ NR Hr) as (R1 & R2 & R3 & R4).
    pose proof (axis_blocks_bounds cols 0 _ NC Hc) as (C1 & C2 & C3 & C4).
    specialize (HR _ R1); specialize (HC _ C1); cbn [fst snd] in *.
    rewrite !in_range_spec; repeat split; try lia.
    intros k m Hk Hm; subst F; cbn beta.
    rewrite (index_of_nth _ _ _ DR (axis_blocks_pos rows 0 _ _ _ k NR Hr Hk)).
    rewrite (index_of_nth _ _ _ DC (axis_blocks_pos cols 0 _ _ _ m NC Hc Hm)).
    f_equal; lia. }
  pose proof (write_view_frame src dst d rows cols Hd) as (_ & _ & HF).
  exists d; repeat split; auto.
  intros i j r c Hi Hj Hr Hc. rewrite D3.
  - subst F; cbn beta. rewrite (index_of_nth _ _ _ DR Hr), (index_of_nth _ _ _ DC Hc). f_equal; lia.
  - assert (Ir : In r (indices rows)) by (eapply nth_error_In; exact Hr).
    assert (Ic : In c (indices cols)) by (eapply nth_error_In; exact Hc).
    apply (axis_blocks_cover _ 0) in Ir as (rf & rn & rp & R1 & R2).
    apply (axis_blocks_cover _ 0) in Ic as (cf & cn & cp & C1 & C2).
    exists (mkblk rf cf rn cn rp cp); split; [apply In_blocks; cbn; auto | cbn; lia].
Qed.

(** reading back what was written *)
Lemma read_write_view {A} (src dst tmp : mat A) rows cols d :
  inside (nr dst) rows -> inside (nc dst) cols ->
  nr src = cardinal rows -> nc src = cardinal cols ->
  NoDup (indices rows) -> NoDup (indices cols) ->
  nr tmp = cardinal rows -> nc tmp = cardinal cols ->
  write_view dst rows cols src = Some d ->
  exists e, read_view d rows cols tmp = Some e /\ nr e = nr src /\ nc e = nc src /\
    forall i j, 0 <= i < nr src -> 0 <= j < nc src -> at_ e i j = at_ src i j.
Proof.
  intros HR HC Hnr Hnc DR DC T1 T2 Hw.
  pose proof (inside_nonneg _ _ HR) as NR; pose proof (inside_nonneg _ _ HC) as NC.
  destruct (write_view_spec src dst rows cols HR HC Hnr Hnc DR DC) as (d' & Hd' & E1 & E2 & E3 & _).
  rewrite Hw in Hd'; injection Hd' as <-.
  destruct (read_view_spec d tmp rows cols) as (e & He & F1 & F2 & F3); auto.
  { rewrite E1; exact HR. } { rewrite E2; exact HC. }
  exists e; split; [exact He|]. rewrite F1, F2, Hnr, Hnc; repeat split; auto.
  intros i j Hi Hj.
  assert (Li : (Z.to_nat i < length (indices rows))%nat)
    by (rewrite cardinal_indices in Hi by exact NR; lia).
  assert (Lj : (Z.to_nat j < length (indices cols))%nat)
    by (rewrite cardinal_indices in Hj by exact NC; lia).
  destruct (nth_error (indices rows) (Z.to_nat i)) as [r|] eqn:Hr; [|apply nth_error_None in Hr; lia].
  destruct (nth_error (indices cols) (Z.to_nat j)) as [c|] eqn:Hc; [|apply nth_error_None in Hc; lia].
  rewrite (F3 i j r c), (E3 i j r c); auto; lia.
Qed.

(** an index outside the viewed matrix is an undefined access *)
Lemma read_view_undefined {A} (src dst : mat A) rows cols s :
  In s rows -> cols <> [] -> nonneg cols -> 0 <= snd s ->
  fst s < 0 \/ nr src < fst s + snd s -> read_view src rows cols dst = None.
Proof.
  intros Hs Hc HNc Hss Hb. unfold read_view.
  assert (HB : exists b, In b (blocks rows cols) /\ b_ri b = fst s /\ b_rs b = snd s).
  { destruct cols as [|c cols]; [congruence|].
    assert (Hax : forall l o, In s l -> exists p, In (fst s, snd s, p) (axis_blocks o l)).
    { induction l as [|x l IH]; intros o Hin; [destruct Hin|]; cbn [axis_blocks].
      destruct Hin as [->|Hin].
      - exists o; left; reflexivity.
      - destruct (IH (o + snd x) Hin) as [p Hp]; exists p; right; exact Hp. }
    destruct (Hax rows 0 Hs) as [p Hp].
    exists (mkblk (fst s) (fst c) (snd s) (snd c) p 0); split; [|auto].
    apply In_blocks; cbn; split; [exact Hp | left; reflexivity]. }
  destruct HB as (b & Hb1 & Hb2 & Hb3).
  revert dst Hb1; generalize (blocks rows cols); induction l as [|x l IH]; intros dst Hin; [destruct Hin|].
  cbn [loop]; unfold read_step at 1, put.
  destruct Hin as [->|Hin].
  - replace (in_range src (b_ri b) (b_ci b) (b_rs b) (b_cs b)) with false; [reflexivity|].
    symmetry; apply Bool.not_true_iff_false; rewrite in_range_spec, Hb2, Hb3; lia.
  - destruct (_ && _); [apply IH; exact Hin | reflexivity].
Qed.

(** view op matrix *)
Lemma view_op_matrix_spec {A} (op : A -> A -> A) (lhs rhs dst : mat A) rows cols :
  inside (nr lhs) rows -> inside (nc lhs) cols ->
  nr rhs = cardinal rows -> nc rhs = cardinal cols ->
  nr dst = cardinal rows -> nc dst = cardinal cols ->
  exists d, view_op_matrix op lhs rows cols rhs dst = Some d /\
    nr d = cardinal rows /\ nc d = cardinal cols /\
    forall i j r c, 0 <= i -> 0 <= j ->
      nth_error (indices rows) (Z.to_nat i) = Some r ->
      nth_error (indices cols) (Z.to_nat j) = Some c ->
      at_ d i j = op (at_ lhs r c) (at_ rhs i j).
Proof.
  intros HR HC Hr1 Hc1 Hnr Hnc.
  pose proof (inside_nonneg _ _ HR) as NR; pose proof (inside_nonneg _ _ HC) as NC.
  set (F := fun i j => op (at_ lhs (nth (Z.to_nat i) (indices rows) 0) (nth (Z.to_nat j) (indices cols) 0)) (at_ rhs i j)).
  destruct (loop_put_spec b_ro b_co
      (fun b => in_range lhs (b_ri b) (b_ci b) (b_rs b) (b_cs b) && in_range rhs (b_ro b) (b_co b) (b_rs b) (b_cs b))
      (fun b k l => op (at_ lhs (b_ri b + k) (b_ci b + l)) (at_ rhs (b_ro b + k) (b_co b + l))) F (blocks rows cols) dst)
    as (d & Hd & D1 & D2 & D3 & D4).
  { intros b Hb; apply In_blocks in Hb as [Hr Hc].
    pose proof (axis_blocks_bounds rows 0 _ NR Hr) as (R1 & R2 & R3 & R4).
    pose proof (axis_blocks_bounds cols 0 _ NC Hc) as (C1 & C2 & C3 & C4).
    specialize (HR _ R1); specialize (HC _ C1); cbn [fst snd] in *.
    rewrite andb_true_iff, !in_range_spec; repeat split; try lia.
    intros k m Hk Hm; subst F; cbn beta.
    rewrite (nth_error_nth_Z _ _ (b_ri b + k)), (nth_error_nth_Z _ _ (b_ci b + m)); [reflexivity| |].
    - rewrite <- (axis_blocks_pos cols 0 _ _ _ m NC Hc Hm); f_equal; lia.
    - rewrite <- (axis_blocks_pos rows 0 _ _ _ k NR Hr Hk); f_equal; lia. }
  exists d; split; [exact Hd|]. rewrite D1, D2. split; [exact Hnr|]; split; [exact Hnc|].
  intros i j r c Hi Hj Hr Hc.
  assert (Li : (Z.to_nat i < length (indices rows))%nat) by (apply nth_error_Some; congruence).
  assert (Lj : (Z.to_nat j < length (indices cols))%nat) by (apply nth_error_Some; congruence).
  rewrite D3.
  - subst F; cbn beta. rewrite (nth_error_nth_Z _ _ r Hr), (nth_error_nth_Z _ _ c Hc); reflexivity.
  - destruct (axis_blocks_complete rows 0 i NR) as (rf & rn & rp & R1 & R2).
    { rewrite cardinal_indices by exact NR; lia. }
    destruct (axis_blocks_complete cols 0 j NC) as (cf & cn & cp & C1 & C2).
    { rewrite cardinal_indices by exact NC; lia. }
    exists (mkblk rf cf rn cn rp cp); split; [apply In_blocks; cbn; auto | cbn; lia].
Qed.

(** matrix op view is view op matrix with the operator's arguments exchanged *)
Lemma matrix_op_view_flip {A} (op : A -> A -> A) (lhs rhs dst : mat A) rows cols :
  matrix_op_view op lhs rhs rows cols dst = view_op_matrix (fun x y => op y x) rhs rows cols lhs dst.
Proof. reflexivity. Qed.

(** view op view with the same block structure *)
Lemma view_op_view_same_loop {A} (op : A -> A -> A) (lhs rhs : mat A) l : forall dst,
  view_op_view_loop op lhs rhs dst l l =
  loop (fun dst b => put dst (b_ro b) (b_co b) (b_rs b) (b_cs b)
     (in_range lhs (b_ri b) (b_ci b) (b_rs b) (b_cs b) && in_range rhs (b_ri b) (b_ci b) (b_rs b) (b_cs b))
     (fun k m => op (at_ lhs (b_ri b + k) (b_ci b + m)) (at_ rhs (b_ri b + k) (b_ci b + m)))) dst l.
Proof.
  induction l as [|b l IH]; intros dst; cbn [view_op_view_loop loop]; [reflexivity|].
  rewrite !Z.eqb_refl; cbn [andb].
  destruct (put _ _ _ _ _ _ _); [apply IH | reflexivity].
Qed.

Lemma view_op_view_same {A} (op : A -> A -> A) (lhs rhs dst : mat A) rows cols :
  inside (nr lhs) rows -> inside (nc lhs) cols ->
  inside (nr rhs) rows -> inside (nc rhs) cols ->
  nr dst = cardinal rows -> nc dst = cardinal cols ->
  exists d, view_op_view op lhs rows cols rhs rows cols dst = Some d /\
    nr d = cardinal rows /\ nc d = cardinal cols /\
    forall i j r c, 0 <= i -> 0 <= j ->
      nth_error (indices rows) (Z.to_nat i) = Some r ->
      nth_error (indices cols) (Z.to_nat j) = Some c ->
      at_ d i j = op (at_ lhs r c) (at_ rhs r c).
Proof.
  intros HR HC HR2 HC2 Hnr Hnc.
  pose proof (inside_nonneg _ _ HR) as NR; pose proof (inside_nonneg _ _ HC) as NC.
  unfold view_op_view; rewrite view_op_view_same_loop.
  set (F := fun i j => op (at_ lhs (nth (Z.to_nat i) (indices rows) 0) (nth (Z.to_nat j) (indices cols) 0))
                          (at_ rhs (nth (Z.to_nat i) (indices rows) 0) (nth (Z.to_nat j) (indices cols) 0))).
  destruct (loop_put_spec b_ro b_co
      (fun b => in_range lhs (b_ri b) (b_ci b) (b_rs b) (b_cs b) && in_range rhs (b_ri b) (b_ci b) (b_rs b) (b_cs b))
      (fun b k m => op (at_ lhs (b_ri b + k) (b_ci b + m)) (at_ rhs (b_ri b + k) (b_ci b + m))) F (blocks rows cols) dst)
    as (d & Hd & D1 & D2 & D3 & D4).
  { intros b Hb; apply In_blocks in Hb as [Hr Hc].
    pose proof (axis_blocks_bounds rows 0 _ NR Hr) as (R1 & R2 & R3 & R4).
    pose proof (axis_blocks_bounds cols 0 _ NC Hc) as (C1 & C2 & C3 & C4).
    specialize (HR _ R1); specialize (HC _ C1); specialize (HR2 _ R1); specialize (HC2 _ C1); cbn [fst snd] in *.
    rewrite andb_true_iff, !in_range_spec; repeat split; try lia.
    intros k m Hk Hm; subst F; cbn beta.
    rewrite (nth_error_nth_Z _ _ (b_ri b + k)), (nth_error_nth_Z _ _ (b_ci b + m)); [reflexivity| |].
    - rewrite <- (axis_blocks_pos cols 0 _ _ _ m NC Hc Hm); f_equal; lia.
    - rewrite <- (axis_blocks_pos rows 0 _ _ _ k NR Hr Hk); f_equal; lia. }
  exists d; split; [exact Hd|]. rewrite D1, D2. split; [exact Hnr|]; split; [exact Hnc|].
  intros i j r c Hi Hj Hr Hc.
  assert (Li : (Z.to_nat i < length (indices rows))%nat) by (apply nth_error_Some; congruence).
  assert (Lj : (Z.to_nat j < length (indices cols))%nat) by (apply nth_error_Some; congruence).
  rewrite D3.
  - subst F; cbn beta. rewrite (nth_error_nth_Z _ _ r Hr), (nth_error_nth_Z _ _ c Hc); reflexivity.
  - destruct (axis_blocks_complete rows 0 i NR) as (rf & rn & rp & R1 & R2).
    { rewrite cardinal_indices by exact NR; lia. }
    destruct (axis_blocks_complete cols 0 j NC) as (cf & cn & cp & C1 & C2).
    { rewrite cardinal_indices by exact NC; lia. }
    exists (mkblk rf cf rn cn rp cp); split; [apply In_blocks; cbn; auto | cbn; lia].
Qed.

(** with different structures passing every assertion the result is wrong *)
Lemma view_op_view_wrong :
  exists (lhs rhs dst d : mat Z) lrows rrows cols i j lr rr,
    inside (nr lhs) lrows /\ inside (nr rhs) rrows /\
    inside (nc lhs) cols /\ inside (nc rhs) cols /\
    cardinal lrows = cardinal rrows /\ nr dst = cardinal lrows /\ nc dst = cardinal cols /\
    view_op_view Z.add lhs lrows cols rhs rrows cols dst = Some d /\
    nth_error (indices lrows) (Z.to_nat i) = Some lr /\
    nth_error (indices rrows) (Z.to_nat i) = Some rr /\
    0 <= i < nr d /\ 0 <= j < nc d /\ at_ d i j <> at_ lhs lr j + at_ rhs rr j.
Proof.
  exists (mkmat 3 1 (fun i j => i)), (mkmat 3 1 (fun i j => 10 * i)), (mkmat 1 1 (fun i j => 0)).
  eexists. exists [(0, 1)], [(2, 1)], [(0, 1)], 0, 0, 0, 2.
  split; [intros s [<-|[]]; cbn; lia|]. split; [intros s [<-|[]]; cbn; lia|].
  split; [intros s [<-|[]]; cbn; lia|]. split; [intros s [<-|[]]; cbn; lia|].
  split; [reflexivity|]. split; [reflexivity|]. split; [reflexivity|].
  split; [reflexivity|]. split; [reflexivity|]. split; [reflexivity|].
  vm_compute; repeat split; try discriminate; reflexivity.
Qed.

(** * Vectors *)

Lemma zseq_seq n : forall a, zseq a n = map (fun k => a + Z.of_nat k) (seq 0 n).
Proof.
  induction n as [|n IH]; intros a; cbn [zseq seq map]; [reflexivity|].
  f_equal; [lia|]. rewrite IH, <- seq_shift, map_map. apply map_ext; intros k; lia.
Qed.

Lemma vread_indices {V} (v : Z -> V) rows : vread v rows = map v (indices rows).
Proof.
  unfold vread, indices; induction rows as [|s t IH]; cbn [flat_map]; [reflexivity|].
  rewrite map_app, IH; f_equal. unfold seg_indices; rewrite zseq_seq, map_map; reflexivity.
Qed.

Lemma vput_out {V} (v : Z -> V) f vals i :
  ~ (f <= i < f + Z.of_nat (length vals)) -> vput v f vals i = v i.
Proof.
  intros H; unfold vput; destruct (Z.leb_spec f i); [|reflexivity].
  destruct (nth_error vals (Z.to_nat (i - f))) eqn:E; [|reflexivity].
  assert ((Z.to_nat (i - f) < length vals)%nat) by (apply nth_error_Some; congruence). lia.
Qed.
Lemma vput_in {V} (v : Z -> V) f vals k x :
  nth_error vals k = Some x -> vput v f vals (f + Z.of_nat k) = x.
Proof.
  intros H; unfold vput; destruct (Z.leb_spec f (f + Z.of_nat k)); [|lia].
  replace (Z.to_nat (f + Z.of_nat k - f)) with k by lia; rewrite H; reflexivity.
Qed.

Lemma vwrite_frame {V} rows : forall (v : Z -> V) vals w,
  nonneg rows -> vwrite v rows vals = Some w -> forall i, ~ covers rows i -> w i = v i.
Proof.
  induction rows as [|s t IH]; intros v vals w HN H i Hi; cbn [vwrite] in H.
  - destruct vals; [injection H as <-; reflexivity | discriminate].
  - apply nonneg_cons in HN as [N1 HN].
    destruct (Nat.leb_spec (Z.to_nat (snd s)) (length vals)); [|discriminate].
    rewrite (IH _ _ _ HN H i); [|intros X; apply Hi; apply covers_cons; auto].
    apply vput_out. rewrite firstn_length. intros X; apply Hi; apply covers_cons; left.
    unfold in_seg; lia.
Qed.

Lemma vwrite_spec {V} rows : forall (v : Z -> V) vals,
  nonneg rows -> NoDup (indices rows) -> Z.of_nat (length vals) = cardinal rows ->
  exists w, vwrite v rows vals = Some w /\ vread w rows = vals /\
    (forall i, ~ covers rows i -> w i = v i).
Proof.
  induction rows as [|s t IH]; intros v vals HN HD HL; cbn [vwrite].
  - rewrite cardinal_nil in HL; destruct vals; [|cbn in HL; lia].
    exists v; repeat split; auto.
  - apply nonneg_cons in HN as [N1 HN]; rewrite cardinal_cons in HL.
    pose proof (cardinal_nonneg t HN) as C.
    destruct (Nat.leb_spec (Z.to_nat (snd s)) (length vals)); [|lia].
    set (n := Z.to_nat (snd s)) in *.
    change (indices (s :: t)) with (seg_indices s ++ indices t) in HD.
    destruct (IH (vput v (fst s) (firstn n vals)) (skipn n vals)) as (w & Hw & W1 & W2); auto.
    { clear -HD; induction (seg_indices s) as [|x l IHl]; [exact HD|].
      apply IHl; inversion HD; assumption. }
    { rewrite skipn_length; lia. }
    exists w; split; [exact Hw|]. split.
    + rewrite vread_indices in *. change (indices (s :: t)) with (seg_indices s ++ indices t).
      rewrite map_app, W1. rewrite <- (firstn_skipn n vals) at 2. f_equal.
      unfold seg_indices; fold n. rewrite zseq_seq, map_map.
      assert (Hdis : forall i, In i (seg_indices s) -> ~ covers t i).
      { intros i Hi Hc; apply In_indices in Hc.
        clear -HD Hi Hc. induction (seg_indices s) as [|x l IHl]; [destruct Hi|].
        cbn in HD; inversion HD as [|? ? Hx HD']; subst. destruct Hi as [<-|Hi]; [|auto].
        apply Hx; apply in_or_app; auto. }
      assert (E : forall k, nth_error (map (fun k => w (fst s + Z.of_nat k)) (seq 0 n)) k = nth_error (firstn n vals) k).
      { intros k. destruct (Nat.lt_ge_cases k n) as [Hk|Hk].
        - destruct (nth_error (firstn n vals) k) as [x|] eqn:Ex.
          + rewrite (map_nth_error _ k (seq 0 n) (d := k)).
            * f_equal. rewrite W2.
              -- apply vput_in; exact Ex.
              -- apply Hdis. apply In_seg_indices; unfold in_seg; lia.
            * rewrite nth_error_nth' with (d := O) by (rewrite seq_length; lia).
              rewrite seq_nth by lia; reflexivity.
          + apply nth_error_None in Ex; rewrite firstn_length in Ex; lia.
        - rewrite (proj2 (nth_error_None _ _)), (proj2 (nth_error_None _ _)); [reflexivity| |].
          + rewrite firstn_length; lia.
          + rewrite map_length, seq_length; lia. }
      clear -E. revert E. generalize (map (fun k => w (fst s + Z.of_nat k)) (seq 0 n)) (firstn n vals).
      induction l as [|x l IHl]; intros l2 E; destruct l2 as [|y l2]; auto.
      * specialize (E O); discriminate.
      * specialize (E O); discriminate.
      * f_equal; [specialize (E O); cbn in E; congruence | apply IHl; intros k; exact (E (S k))].
    + intros i Hi. rewrite W2; [|intros X; apply Hi; apply covers_cons; auto].
      apply vput_out. rewrite firstn_length. intros X; apply Hi; apply covers_cons; left.
      unfold in_seg; lia.
Qed.

Lemma vwrite_length {V} rows : forall (v : Z -> V) vals w,
  nonneg rows -> vwrite v rows vals = Some w -> Z.of_nat (length vals) = cardinal rows.
Proof.
  induction rows as [|s t IH]; intros v vals w HN H; cbn [vwrite] in H.
  - destruct vals; [reflexivity | discriminate].
  - apply nonneg_cons in HN as [N1 HN]; rewrite cardinal_cons.
    destruct (Nat.leb_spec (Z.to_nat (snd s)) (length vals)); [|discriminate].
    apply IH in H; auto. rewrite skipn_length in H; lia.
Qed.

(** writing what was just read changes nothing *)
Lemma vwrite_vread_id {V} (v : Z -> V) rows w :
  nonneg rows -> NoDup (indices rows) -> vwrite v rows (vread v rows) = Some w ->
  forall i, w i = v i.
Proof.
  intros HN HD Hw i.
  destruct (vwrite_spec rows v (vread v rows) HN HD) as (w' & Hw' & W1 & W2).
  { rewrite vread_indices, map_length, cardinal_indices by exact HN; reflexivity. }
  rewrite Hw in Hw'; injection Hw' as <-.
  rewrite !vread_indices in W1.
  destruct (in_dec Z.eq_dec i (indices rows)) as [Hi|Hi].
  - clear -W1 Hi. induction (indices rows) as [|x l IH]; [destruct Hi|].
    cbn in W1; injection W1 as E1 E2. destruct Hi as [<-|Hi]; auto.
  - apply W2; intros X; apply Hi, In_indices, X.
Qed.

Lemma matrix_op_view_spec {A} (op : A -> A -> A) (lhs rhs dst : mat A) rows cols :
  inside (nr rhs) rows -> inside (nc rhs) cols ->
  nr lhs = cardinal rows -> nc lhs = cardinal cols ->
  nr dst = cardinal rows -> nc dst = cardinal cols ->
  exists d, matrix_op_view op lhs rhs rows cols dst = Some d /\
    nr d = cardinal rows /\ nc d = cardinal cols /\
    forall i j r c, 0 <= i -> 0 <= j ->
      nth_error (indices rows) (Z.to_nat i) = Some r ->
      nth_error (indices cols) (Z.to_nat j) = Some c ->
      at_ d i j = op (at_ lhs i j) (at_ rhs r c).
Proof.
  intros; rewrite matrix_op_view_flip.
  apply (view_op_matrix_spec (fun x y => op y x)); assumption.
Qed.
