From Coq Require Import List Bool Arith Lia.
From Verif Require Import HeapModel HeapSpec.
Import ListNotations.

Lemma list_sum_cons a l : list_sum (a :: l) = a + list_sum l.
Proof. reflexivity. Qed.

Lemma upd_length {A} (l : list A) n x : length (upd l n x) = length l.
Proof.
  unfold upd. rewrite app_length, firstn_length. destruct (skipn n l) as [|a t] eqn:E.
  - cbn. assert (length (skipn n l) = 0) by now rewrite E. rewrite skipn_length in H. lia.
  - cbn. assert (length (skipn n l) = S (length t)) by now rewrite E. rewrite skipn_length in H. lia.
Qed.
Lemma nth_upd_same {A} (l : list A) n x : n < length l -> nth_error (upd l n x) n = Some x.
Proof.
  intros H. unfold upd. rewrite nth_error_app2; rewrite firstn_length; [|lia]. replace (n - Nat.min n (length l)) with 0 by lia.
  destruct (skipn n l) as [|a t] eqn:E; [|reflexivity]. assert (length (skipn n l) = 0) by now rewrite E. rewrite skipn_length in H0. lia.
Qed.
Lemma nth_upd_other {A} (l : list A) n x k : k <> n -> nth_error (upd l n x) k = nth_error l k.
Proof.
  revert n k. induction l as [|a l IH]; intros [|n] [|k] H; try reflexivity; try lia.
  change (nth_error (upd l n x) k = nth_error l k). apply IH. lia.
Qed.
Lemma nth_upd {A} (l : list A) n x k y : nth_error (upd l n x) k = Some y -> (k = n /\ y = x) \/ (k <> n /\ nth_error l k = Some y).
Proof.
  intros H. destruct (Nat.eq_dec k n) as [->|N].
  - left. split; [reflexivity|]. rewrite nth_upd_same in H; [now injection H|]. rewrite <- (upd_length l n x). apply nth_error_Some. congruence.
  - right. rewrite nth_upd_other in H by auto. auto.
Qed.
Lemma In_upd {A} (l : list A) n x y : In y (upd l n x) -> y = x \/ In y l.
Proof. intros H. apply In_nth_error in H as [k H]. apply nth_upd in H as [[_ ->]|[_ H]]; [auto|]. right. eapply nth_error_In, H. Qed.

Local Open Scope nat_scope.
Section P.
Context {F K R I : Type}.
Variables (feq : F -> F -> bool) (extract_ : R -> I -> R).
Notation world := (world F K R).
Notation slv := (slv F).
Notation cell := (cell F K R).
Notation reach := (@reach F K R I feq extract_).
Implicit Types (w : world) (s : slv).

(** constraints keep their sizes *)
Definition grows (w w' : world) : Prop :=
  length (cells w) <= length (cells w') /\ (forall p, p < length (cells w) -> size w' p = size w p).
Lemma grows_refl w : grows w w. Proof. split; auto. Qed.
Lemma total_grows w w' l : grows w w' -> Forall (fun p => p < length (cells w)) l -> total w' l = total w l.
Proof.
  intros [_ G] H. unfold total. f_equal; f_equal; apply map_ext_in; intros p Hp; rewrite Forall_forall in H; rewrite G; auto.
Qed.
Lemma valid_grows w w' l : grows w w' -> Forall (fun p => p < length (cells w)) l -> Forall (fun p => p < length (cells w')) l.
Proof. intros [G _] H. eapply Forall_impl; [|exact H]. cbn. intros. lia. Qed.

Lemma dims_acc (cs : list cell) : forall a b, fold_left (fun a c => (fst a + cl_nq c, snd a + cl_nv c)) cs (a, b) =
  (a + list_sum (map cl_nq cs), b + list_sum (map cl_nv cs)).
Proof. induction cs as [|c cs IH]; intros a b; cbn [fold_left map fst snd]; [cbn; f_equal; lia|]. rewrite IH, !list_sum_cons. f_equal; lia. Qed.
Lemma get_cells_some w l : forall cs, get_cells w l = Some cs ->
  Forall (fun p => p < length (cells w)) l /\ dims cs = total w l /\ length cs = length l /\
  forall k p, nth_error l k = Some p -> nth_error cs k = nth_error (cells w) p.
Proof.
  unfold dims, total. induction l as [|p l IH]; intros cs E; cbn in E.
  - injection E as <-. repeat split; auto. intros [|k] p; discriminate.
  - destruct (nth_error (cells w) p) as [c|] eqn:Ec; [|discriminate]. destruct (get_cells w l) as [r|]; [|discriminate]. injection E as <-.
    destruct (IH r eq_refl) as (V & D & L & N). assert (p < length (cells w)) by (apply nth_error_Some; congruence).
    rewrite dims_acc in *. cbn [plus] in D. injection D as D1 D2. cbn [map]. rewrite !list_sum_cons. unfold size at 1 3. rewrite Ec. cbn [fst snd plus].
    split; [constructor; auto|]. split; [f_equal; lia|]. split; [cbn; lia|].
    intros [|k] q; cbn; [intros X; injection X as <-; now rewrite Ec|apply N].
Qed.
Lemma get_cells_ok w l : Forall (fun p => p < length (cells w)) l -> exists cs, get_cells w l = Some cs.
Proof.
  induction 1 as [|p l H _ (cs & E)]; [exists []; reflexivity|]. cbn. rewrite E. destruct (nth_error (cells w) p) eqn:Ep; [eauto|].
  apply nth_error_None in Ep. lia.
Qed.

(** invariant of one solver *)
Definition good (w : world) (s : slv) : Prop :=
  Forall (fun p => p < length (cells w)) (sv_cons s) /\ Forall (fun p => p < length (cells w)) (sv_ex s) /\
  forall l, In l (sv_levels s) -> Forall (fun p => p < length (cells w)) (lv_cons l) /\ nth_error (spaces w) (lv_own l) = Some (total w (lv_cons l)).
Definition owns (s : slv) : list nat := map lv_own (sv_levels s).
Definition inv (st : state F K R) : Prop :=
  let '(w, l) := st in
  (forall s, In s l -> good w s) /\ NoDup (flat_map owns l) /\
  forall i s lv, nth_error l i = Some s -> In lv (sv_levels s) ->
    exists j s', j <= i /\ nth_error l j = Some s' /\ In (lv_out lv) (owns s').

Lemma good_ext w w' s : grows w w' -> (forall a, In a (owns s) -> nth_error (spaces w') a = nth_error (spaces w) a) -> good w s -> good w' s.
Proof.
  intros G E (A & B & C). split; [eapply valid_grows; eauto|]. split; [eapply valid_grows; eauto|].
  intros l Hl. destruct (C l Hl) as [C1 C2]. split; [eapply valid_grows; eauto|].
  rewrite E by (apply in_map; auto). rewrite C2. f_equal. symmetry. now apply total_grows.
Qed.
Lemma sound_ext w w' s : good w s -> grows w w' -> (forall lv, In lv (sv_levels s) -> nth_error (spaces w') (lv_out lv) = nth_error (spaces w) (lv_out lv)) ->
  sound w s -> sound w' s.
Proof.
  intros (_ & _ & C) G E S l Hl. destruct (S l Hl) as [S1 S2]. destruct (C l Hl) as [C1 _].
  rewrite (E l Hl), S1, S2, (total_grows w w') by auto. auto.
Qed.

(** copies *)
Lemma copy_levels_spec w m ls : forall n ls' sp, copy_levels w m n ls = Some (ls', sp) ->
  length sp = length ls /\ map lv_own ls' = seq n (length ls) /\
  (forall k l, nth_error ls k = Some l -> Forall (fun p => p < length (cells w)) (lv_cons l) /\
     nth_error ls' k = Some (mklevel (map (repl m) (lv_cons l)) (n + k) (lv_out l) (lv_len l)) /\ nth_error sp k = Some (total w (lv_cons l))).
Proof.
  induction ls as [|l ls IH]; intros n ls' sp E; cbn in E.
  - injection E as <- <-. repeat split; try (destruct k; discriminate).
  - destruct (get_cells w (lv_cons l)) as [cs|] eqn:Ec; [|discriminate]. destruct (copy_levels w m (S n) ls) as [[t' s']|] eqn:Et; [|discriminate].
    injection E as <- <-. destruct (IH _ _ _ Et) as (A & B & C). apply get_cells_some in Ec as (V & D & _ & _). cbn. rewrite A, B.
    split; [reflexivity|]. split; [reflexivity|]. intros [|k] l0 Hk; cbn in *.
    + injection Hk as <-. rewrite Nat.add_0_r, D. auto.
    + destruct (C k l0 Hk) as (C1 & C2 & C3). rewrite C2, C3. repeat split; auto. do 3 f_equal. lia.
Qed.
Lemma copy_levels_ok w m ls : (forall l, In l ls -> Forall (fun p => p < length (cells w)) (lv_cons l)) -> forall n, exists r, copy_levels w m n ls = Some r.
Proof.
  induction ls as [|l ls IH]; intros V n; cbn; [eauto|]. destruct (get_cells_ok w (lv_cons l)) as (cs & ->); [apply V; left; auto|].
  destruct (IH (fun l H => V l (or_intror H)) (S n)) as ([t s] & ->). eauto.
Qed.

Lemma lookup_in m p q : lookup m p = Some q -> In (p, q) m.
Proof.
  unfold lookup. destruct (find _ (rev m)) as [[a b]|] eqn:E; [|discriminate]. cbn. intros H. injection H as <-.
  apply find_some in E as [E1 E2]. cbn in E2. apply Nat.eqb_eq in E2 as ->. now apply in_rev in E1.
Qed.
Lemma lookup_none m p : lookup m p = None -> ~ In p (map fst m).
Proof.
  unfold lookup. destruct (find _ (rev m)) as [[a b]|] eqn:E; [discriminate|]. intros _ H. apply in_map_iff in H as ((a & b) & E1 & H). cbn in E1. subst a.
  apply in_rev in H. eapply find_none in E; [|exact H]. cbn in E. rewrite Nat.eqb_refl in E. discriminate.
Qed.
(** the copy of a constraint has its contents *)
Lemma repl_copy w cs l p : get_cells w l = Some cs -> p < length (cells w) ->
  nth_error (cells w ++ cs) (repl (combine l (seq (length (cells w)) (length cs))) p) = nth_error (cells w) p.
Proof.
  intros E H. apply get_cells_some in E as (V & _ & L & N). unfold repl.
  destruct (lookup _ p) as [q|] eqn:El; [|now rewrite nth_error_app1].
  apply lookup_in in El. apply In_nth_error in El as [k Hk].
  assert (Hk1 : nth_error l k = Some p /\ nth_error (seq (length (cells w)) (length cs)) k = Some q).
  { clear -Hk. revert Hk. generalize (seq (length (cells w)) (length cs)). revert k. induction l as [|a l IH]; intros [|k] [|b t]; cbn; try discriminate.
    - intros H. injection H as <- <-. auto.
    - apply IH. }
  destruct Hk1 as [H1 H2]. assert (k < length cs) by (rewrite L; apply nth_error_Some; congruence).
  assert (q = length (cells w) + k). { pose proof (seq_nth (length (cells w)) 0 H0) as Q. apply (nth_error_nth _ _ 0) in H2. congruence. }
  subst q. rewrite nth_error_app2 by lia. replace (length (cells w) + k - length (cells w)) with k by lia. apply (N k p H1).
Qed.
Lemma repl_size w cs l p : get_cells w l = Some cs -> p < length (cells w) ->
  size (mkworld (cells w ++ cs) (spaces w)) (repl (combine l (seq (length (cells w)) (length cs))) p) = size w p.
Proof. intros E H. unfold size. cbn. now rewrite (repl_copy _ _ _ _ E H). Qed.
Lemma repl_range w cs l p : get_cells w l = Some cs -> p < length (cells w) ->
  repl (combine l (seq (length (cells w)) (length cs))) p < length (cells w ++ cs).
Proof.
  intros E H. unfold repl. destruct (lookup _ p) as [q|] eqn:El; [|rewrite app_length; lia].
  apply lookup_in in El. apply in_combine_r, in_seq in El. rewrite app_length. lia.
Qed.
Lemma app_grows w cs sp : grows w (mkworld (cells w ++ cs) sp).
Proof. split; cbn; [rewrite app_length; lia|]. intros p H. unfold size. cbn. now rewrite nth_error_app1. Qed.

Lemma hcopy_spec w s w' r m : hcopy w s = Some (w', r, m) -> exists cs sp,
  get_cells w (sv_cons s) = Some cs /\ w' = mkworld (cells w ++ cs) (spaces w ++ sp) /\ length sp = length (sv_levels s) /\
  sv_cons r = seq (length (cells w)) (length cs) /\ m = combine (sv_cons s) (sv_cons r) /\ sv_iq r = sv_iq s /\ sv_ex r = sv_ex s /\
  owns r = seq (length (spaces w)) (length (sv_levels s)) /\ length (sv_levels r) = length (sv_levels s) /\
  forall k l, nth_error (sv_levels s) k = Some l -> Forall (fun p => p < length (cells w)) (lv_cons l) /\
    nth_error (sv_levels r) k = Some (mklevel (map (repl m) (lv_cons l)) (length (spaces w) + k) (lv_out l) (lv_len l)) /\
    nth_error sp k = Some (total w (lv_cons l)).
Proof.
  unfold hcopy. destruct (get_cells w (sv_cons s)) as [cs|] eqn:E; [|discriminate].
  destruct (copy_levels _ _ _ _) as [[ls sp]|] eqn:El; [|discriminate]. intros X. injection X as <- <- <-.
  apply copy_levels_spec in El as (A & B & C). exists cs, sp. unfold owns. cbn [sv_cons sv_levels sv_iq sv_ex].
  do 8 (split; [auto; fail|]). split; [|exact C]. rewrite <- (map_length lv_own), B, seq_length. reflexivity.
Qed.

Lemma total_map w w' g l : (forall p, In p l -> size w' (g p) = size w p) -> total w' (map g l) = total w l.
Proof.
  intros H. unfold total. rewrite !map_map. f_equal; f_equal; apply map_ext_in; intros p Hp; now rewrite H.
Qed.
Lemma hcopy_good w s w' r m : good w s -> hcopy w s = Some (w', r, m) ->
  grows w w' /\ (forall a, a < length (spaces w) -> nth_error (spaces w') a = nth_error (spaces w) a) /\
  Forall (fun p => p < length (cells w')) (sv_cons r) /\ Forall (fun p => p < length (cells w')) (map (repl m) (sv_ex s)) /\
  Forall (fun p => p < length (cells w')) (sv_ex r) /\
  (forall lv, In lv (sv_levels r) -> Forall (fun p => p < length (cells w')) (lv_cons lv) /\ nth_error (spaces w') (lv_own lv) = Some (total w' (lv_cons lv)) /\
     exists l, In l (sv_levels s) /\ lv_out lv = lv_out l /\ lv_len lv = lv_len l /\ total w' (lv_cons lv) = total w (lv_cons l) /\ lv_cons lv = map (repl m) (lv_cons l)).
Proof.
  intros (G1 & G2 & G3) H. apply hcopy_spec in H as (cs & sp & E & -> & Ls & Er & -> & _ & Ex & _ & LR & Hl). rewrite Er in *.
  split; [apply app_grows|]. cbn [cells spaces].
  split; [intros a Ha; now rewrite nth_error_app1|].
  split; [apply Forall_forall; intros p Hp; apply in_seq in Hp; rewrite app_length; lia|].
  split; [apply Forall_forall; intros p Hp; apply in_map_iff in Hp as (q & <- & Hq); rewrite Forall_forall in G2; apply (repl_range w cs _ q E (G2 q Hq))|].
  split; [rewrite Ex; eapply (valid_grows w (mkworld (cells w ++ cs) (spaces w ++ sp))); [apply app_grows|exact G2]|].
  intros lv Hlv. apply In_nth_error in Hlv as [k Hk].
  destruct (nth_error (sv_levels s) k) as [l|] eqn:Q.
  2: { apply nth_error_None in Q. assert (k < length (sv_levels r)) by (apply nth_error_Some; congruence). lia. }
  destruct (Hl k l Q) as (H1 & H2 & H3). rewrite H2 in Hk. injection Hk as <-. cbn [lv_cons lv_own lv_out lv_len].
  assert (T : total (mkworld (cells w ++ cs) (spaces w ++ sp)) (map (repl (combine (sv_cons s) (seq (length (cells w)) (length cs)))) (lv_cons l)) = total w (lv_cons l)).
  { apply total_map. intros p Hp. rewrite Forall_forall in H1. rewrite <- (repl_size w cs _ p E (H1 p Hp)). reflexivity. }
  split; [apply Forall_forall; intros p Hp; apply in_map_iff in Hp as (q & <- & Hq); rewrite Forall_forall in H1; apply (repl_range w cs _ q E (H1 q Hq))|].
  split; [rewrite nth_error_app2 by lia; replace (length (spaces w) + k - length (spaces w)) with k by lia; now rewrite T|].
  exists l. repeat split; auto. eapply nth_error_In, Q.
Qed.

(** extraction of the right hand side functions *)
Lemma extract_all_spec i l : forall (cs cs' : list cell), NoDup l -> extract_all extract_ i cs l = Some cs' ->
  length cs' = length cs /\ (forall p, ~ In p l -> nth_error cs' p = nth_error cs p) /\
  forall p, In p l -> nth_error cs' p = option_map (extract_cell extract_ i) (nth_error cs p).
Proof.
  induction l as [|p l IH]; intros cs cs' N E; cbn in E; [injection E as <-; repeat split; auto; intros p []|].
  inversion N; subst. destruct (nth_error cs p) as [c|] eqn:Ec; [|discriminate].
  destruct (IH _ _ H2 E) as (A & B & C). rewrite upd_length in A. split; [exact A|]. split.
  - intros q Hq. rewrite B by (intros X; apply Hq; now right). apply nth_upd_other. intros ->. apply Hq. now left.
  - intros q [<-|Hq].
    + rewrite B by auto. rewrite nth_upd_same by (apply nth_error_Some; congruence). now rewrite Ec.
    + rewrite C by auto. rewrite nth_upd_other; [reflexivity|]. intros ->. auto.
Qed.
Lemma extract_size i w l cs' : NoDup l -> extract_all extract_ i (cells w) l = Some cs' -> forall p, size (mkworld cs' (spaces w)) p = size w p.
Proof.
  intros N E p. apply extract_all_spec in E as (A & B & C); auto. unfold size. cbn. destruct (in_dec Nat.eq_dec p l) as [H|H].
  - rewrite C by auto. now destruct (nth_error (cells w) p).
  - now rewrite B.
Qed.
Lemma extract_grows i w l cs' : NoDup l -> extract_all extract_ i (cells w) l = Some cs' ->
  grows w (mkworld cs' (spaces w)) /\ grows (mkworld cs' (spaces w)) w.
Proof.
  intros N E. pose proof (extract_size i w l cs' N E) as S. apply extract_all_spec in E as (A & _ & _); auto.
  split; split; cbn; try lia; intros p _; auto.
Qed.
Lemma grows_trans w1 w2 w3 : grows w1 w2 -> grows w2 w3 -> grows w1 w3.
Proof. intros [A B] [C D]. split; [lia|]. intros p H. rewrite D by lia. auto. Qed.

(** update *)
Lemma update_levels_spec sp ls : forall ls', update_levels sp ls = Some ls' ->
  length ls' = length ls /\ map lv_own ls' = map lv_own ls /\
  forall k l, nth_error ls k = Some l -> exists d, nth_error sp (lv_own l) = Some d /\ nth_error ls' k = Some (mklevel (lv_cons l) (lv_own l) (lv_own l) d).
Proof.
  induction ls as [|l ls IH]; intros ls' E; cbn in E; [injection E as <-; repeat split; intros [|k] l; discriminate|].
  destruct (nth_error sp (lv_own l)) as [d|] eqn:Ed; [|discriminate]. destruct (update_levels sp ls) as [t|]; [|discriminate]. injection E as <-.
  destruct (IH t eq_refl) as (A & B & C). cbn. rewrite A, B. repeat split; auto.
  intros [|k] l0 Hk; cbn in *; [injection Hk as <-; eauto|auto].
Qed.
Lemma update_levels_in sp ls ls' lv : update_levels sp ls = Some ls' -> In lv ls' ->
  exists l d, In l ls /\ nth_error sp (lv_own l) = Some d /\ lv = mklevel (lv_cons l) (lv_own l) (lv_own l) d.
Proof.
  intros E H. apply update_levels_spec in E as (A & _ & C). apply In_nth_error in H as [k Hk].
  destruct (nth_error ls k) as [l|] eqn:Q.
  - destruct (C k l Q) as (d & E1 & E2). exists l, d. rewrite E2 in Hk. injection Hk as <-. split; [eapply nth_error_In, Q|auto].
  - apply nth_error_None in Q. assert (k < length ls') by (apply nth_error_Some; congruence). lia.
Qed.
End P.
