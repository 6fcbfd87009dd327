(** Assignment of a view to a view. *)
From Coq Require Import ZArith List Bool Lia ZifyBool.
From Verif Require Import SegModel SegSpec SegProofs ViewModel ViewProofs.
Import ListNotations.
Open Scope Z_scope.

Lemma axis_same s : forall d o, map snd s = map snd d ->
  Forall2 (fun a b => snd (fst a) = snd (fst b) /\ snd a = snd b) (axis_blocks o s) (axis_blocks o d).
Proof.
  induction s as [|x s IH]; intros [|y d] o H; try discriminate; [constructor|].
  injection H as H1 H2; cbn [axis_blocks]. constructor; [cbn; auto|]. rewrite H1; apply IH; exact H2.
Qed.
Lemma blocks_same sr sc dr dc : map snd sr = map snd dr -> map snd sc = map snd dc ->
  Forall2 (fun a b => b_rs a = b_rs b /\ b_cs a = b_cs b /\ b_ro a = b_ro b /\ b_co a = b_co b) (blocks sr sc) (blocks dr dc).
Proof.
  intros HR HC; unfold blocks. pose proof (axis_same _ _ 0 HC) as C; pose proof (axis_same _ _ 0 HR) as R.
  induction C as [|[[ci cs] co] [[di ds] d_o] lc ld [H1 H2] C IH]; cbn; [constructor|].
  cbn in H1, H2; subst. apply Forall2_app; [|exact IH]. clear - R.
  induction R as [|[[ri rs] ro] [[ei es] eo] lr le [H1 H2] R IH]; cbn; constructor; [|exact IH]. cbn in *; auto.
Qed.
Lemma Forall2_imp {A B} (P Q : A -> B -> Prop) l m : (forall a b, P a b -> Q a b) -> Forall2 P l m -> Forall2 Q l m.
Proof. intros H; induction 1; constructor; auto. Qed.
Lemma Forall2_In_l {A B} (P : A -> B -> Prop) l m : Forall2 P l m -> Forall2 (fun a b => P a b /\ In a l /\ In b m) l m.
Proof.
  induction 1 as [|a b l m H F IH]; constructor; [cbn; auto|].
  eapply Forall2_imp; [|exact IH]. intros x y (P1 & P2 & P3); cbn; auto.
Qed.

Section Copy.
Context {A : Type} (src : mat A).
Definition eqm (a b : mat A) : Prop := nr a = nr b /\ nc a = nc b /\ forall i j, at_ a i j = at_ b i j.
Variable tmp : mat A.
Definition matched (s d : blk) : Prop := b_rs s = b_rs d /\ b_cs s = b_cs d /\
  in_range src (b_ri s) (b_ci s) (b_rs s) (b_cs s) = true /\
  forall k l, 0 <= k < b_rs d -> 0 <= l < b_cs d -> at_ src (b_ri s + k) (b_ci s + l) = at_ tmp (b_ro d + k) (b_co d + l).
Lemma copy_write sl dl : Forall2 matched sl dl -> forall dst dst' d', eqm dst dst' ->
  loop (write_step tmp) dst' dl = Some d' -> exists d, view_to_view src dst sl dl = Some d /\ eqm d d'.
Proof.
  induction 1 as [|s b sl dl (M1 & M2 & M3 & M4) F IH]; intros dst dst' d' E H; cbn [loop view_to_view] in *.
  - injection H as <-. exists dst; auto.
  - rewrite M1, M2, !Z.eqb_refl; cbn [andb].
    unfold write_step, put in H; unfold put. rewrite M1, M2 in M3; rewrite M3; cbn [andb].
    destruct (in_range tmp _ _ _ _); [cbn [andb] in H|discriminate].
    destruct E as (E1 & E2 & E3).
    assert (I : in_range dst (b_ri b) (b_ci b) (b_rs b) (b_cs b) = in_range dst' (b_ri b) (b_ci b) (b_rs b) (b_cs b)) by (unfold in_range; rewrite E1, E2; reflexivity).
    rewrite I. destruct (in_range dst' _ _ _ _); [|discriminate].
    refine (IH _ _ _ _ H). unfold eqm; cbn. repeat split; auto. intros i j.
    destruct ((b_ri b <=? i) && (i <? b_ri b + b_rs b) && (b_ci b <=? j) && (j <? b_ci b + b_cs b)) eqn:B; auto.
    apply M4; lia.
Qed.
End Copy.

Lemma view_to_view_spec {A} (src dst : mat A) sr sc dr dc :
  map snd sr = map snd dr -> map snd sc = map snd dc ->
  inside (nr src) sr -> inside (nc src) sc -> inside (nr dst) dr -> inside (nc dst) dc ->
  NoDup (indices dr) -> NoDup (indices dc) ->
  exists d, view_to_view src dst (blocks sr sc) (blocks dr dc) = Some d /\ nr d = nr dst /\ nc d = nc dst /\
    (forall i j r c r' c', nth_error (indices sr) i = Some r -> nth_error (indices sc) j = Some c ->
       nth_error (indices dr) i = Some r' -> nth_error (indices dc) j = Some c' -> at_ d r' c' = at_ src r c) /\
    (forall r c, ~ (covers dr r /\ covers dc c) -> at_ d r c = at_ dst r c).
Proof.
  intros SR SC HSR HSC HDR HDC NR NC.
  set (tmp := mkmat (cardinal dr) (cardinal dc) (fun i j => at_ src (nth (Z.to_nat i) (indices sr) 0) (nth (Z.to_nat j) (indices sc) 0))).
  destruct (write_view_spec tmp dst dr dc HDR HDC eq_refl eq_refl NR NC) as (d' & W & W1 & W2 & W3 & W4).
  assert (M : Forall2 (matched src tmp) (blocks sr sc) (blocks dr dc)).
  { pose proof (Forall2_In_l _ _ _ (blocks_same _ _ _ _ SR SC)) as F.
    eapply Forall2_imp; [|exact F]. intros s b ((E1 & E2 & E3 & E4) & I1 & I2).
    apply In_blocks in I1 as [Ir Ic].
    pose proof (inside_nonneg _ _ HSR) as NNR; pose proof (inside_nonneg _ _ HSC) as NNC.
    pose proof (axis_blocks_bounds sr 0 _ NNR Ir) as (R1 & R2 & R3 & R4).
    pose proof (axis_blocks_bounds sc 0 _ NNC Ic) as (C1 & C2 & C3 & C4).
    pose proof (HSR _ R1) as B1; pose proof (HSC _ C1) as B2; cbn [fst snd] in *.
    repeat split; auto.
    - rewrite in_range_spec; lia.
    - intros k l Hk Hl; subst tmp; cbn.
      rewrite <- E3, <- E4.
      rewrite (nth_error_nth_Z _ _ (b_ri s + k)), (nth_error_nth_Z _ _ (b_ci s + l)); [reflexivity| |].
      + rewrite <- (axis_blocks_pos sc 0 _ _ _ l NNC Ic) by lia. f_equal; lia.
      + rewrite <- (axis_blocks_pos sr 0 _ _ _ k NNR Ir) by lia. f_equal; lia. }
  destruct (copy_write src tmp _ _ M dst dst d') as (d & D & D1 & D2 & D3); [unfold eqm; auto|exact W|].
  exists d; split; [exact D|]. split; [lia|]. split; [lia|]. split.
  - intros i j r c r' c' Hr Hc Hr' Hc'. rewrite D3.
    rewrite (W3 (Z.of_nat i) (Z.of_nat j)); [|lia|lia|rewrite Nat2Z.id; exact Hr'|rewrite Nat2Z.id; exact Hc'].
    subst tmp; cbn. rewrite !Nat2Z.id, (nth_error_nth_Z _ _ _ Hr), (nth_error_nth_Z _ _ _ Hc). reflexivity.
  - intros r c H. rewrite D3. apply W4; exact H.
Qed.

(** the same rows cut differently *)
Lemma view_to_view_wrong : exists (src dst : mat Z) sr dr c,
  inside (nr src) sr /\ inside (nr dst) dr /\ inside (nc src) c /\ inside (nc dst) c /\
  NoDup (indices dr) /\ NoDup (indices c) /\ indices sr = indices dr /\
  view_to_view src dst (blocks sr c) (blocks dr c) = None.
Proof.
  exists (mkmat 2 1 (fun _ _ => 0)), (mkmat 2 1 (fun _ _ => 0)), [(0, 2)], [(0, 1); (1, 1)], [(0, 1)].
  split; [intros s [<-|[]]; cbn; lia|]. split; [intros s [<-|[<-|[]]]; cbn; lia|].
  split; [intros s [<-|[]]; cbn; lia|]. split; [intros s [<-|[]]; cbn; lia|].
  split; [change (indices [(0, 1); (1, 1)]) with [0; 1]; apply NoDup_cons; [cbn; lia|apply NoDup_cons; [cbn; lia|apply NoDup_nil]]|].
  split; [change (indices [(0, 1)]) with [0]; apply NoDup_cons; [cbn; lia|apply NoDup_nil]|].
  split; reflexivity.
Qed.
