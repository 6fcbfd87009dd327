(** The dependency matrix with 32-bit coefficients: 33 chained constraints of two
    degrees of freedom.  The matrix is evaluated with tables (the functional matrix
    of the model would be evaluated 2^32 times); the tabulated evaluation is proved
    equal to the model first. *)
From Coq Require Import ZArith List Bool Lia ZifyBool Permutation.
From Verif Require Import SegModel SegSpec SegProofs ViewModel ViewProofs EcsModel EcsSpec EcsProofs EcsOrderProofs EcsMainProofs EcsFinalProofs.
Import ListNotations.
Open Scope Z_scope.

Section Tab.
Context {V Rh : Type}.
Notation con := (con V Rh).
Notation ecs := (ecs V Rh).
Variable iadd : Z -> Z -> Z.
Variables (m : Z) (d : list con) (df df' : Z -> Z).
Hypothesis HDF : forall j, 0 <= j < m -> df j = df' j \/ (df j < 0 /\ df' j < 0).
Variable N : nat.
Hypothesis HN : (length d <= N)%nat.

Definition tabulate (f : nat -> Z -> Z) : list (list Z) :=
  map (fun i => map (fun j => f i (Z.of_nat j)) (seq 0 (Z.to_nat m))) (seq 0 N).
Definition look (T : list (list Z)) : nat -> Z -> Z :=
  fun i j => nth (Z.to_nat j) (nth i T []) 0.
Definition norm (f : nat -> Z -> Z) : nat -> Z -> Z := look (tabulate f).
Definition agree (f g : nat -> Z -> Z) : Prop := forall i j, (i < N)%nat -> 0 <= j < m -> f i j = g i j.

Lemma norm_agree f g : agree f g -> agree f (norm g).
Proof.
  intros H i j Hi Hj. unfold norm, look, tabulate.
  rewrite (nth_indep _ [] (map (fun j => g i (Z.of_nat j)) (seq 0 (Z.to_nat m)))) by (rewrite map_length, seq_length; exact Hi).
  rewrite (map_nth (fun i => map (fun j => g i (Z.of_nat j)) (seq 0 (Z.to_nat m))) (seq 0 N) i).
  rewrite seq_nth by exact Hi. cbn [Nat.add].
  rewrite (nth_indep _ 0 (g i (Z.of_nat (Z.to_nat j)))) by (rewrite map_length, seq_length; lia).
  rewrite (map_nth (fun j => g i (Z.of_nat j))), seq_nth by lia. cbn [Nat.add]. rewrite Z2Nat.id by lia. apply H; lia.
Qed.

Fixpoint order_inputs_t (rec : nat -> dfs -> res dfs) (iE : nat) (l : list Z) (s : dfs) : res dfs :=
  match l with
  | [] => Val s
  | j :: t =>
      if negb ((0 <=? j) && (j <? m)) then Und
      else if df' j <? 0
      then order_inputs_t rec iE t (mkdfs (d_order s) (d_comp s) (norm (add_entry iadd (d_deps s) iE j)))
      else let r := Z.to_nat (df' j) in
           if negb (Nat.ltb r (length d)) then Und
           else match rec r s with
                | Val s' => order_inputs_t rec iE t (mkdfs (d_order s') (d_comp s') (norm (add_row iadd (d_deps s') iE r)))
                | Und => Und
                | Fuel => Fuel
                end
  end.
Fixpoint compute_order_t (fuel : nat) (iE : nat) (s : dfs) : res dfs :=
  if d_comp s iE then Val s
  else match fuel with
       | O => Fuel
       | S f =>
           match nth_error d iE with
           | None => Und
           | Some c =>
               match order_inputs_t (compute_order_t f) iE (append (c_inv c)) s with
               | Val s' => Val (mkdfs (d_order s' ++ [iE]) (set_comp (d_comp s') iE) (d_deps s'))
               | Und => Und
               | Fuel => Fuel
               end
           end
       end.
Fixpoint order_all_t (fuel : nat) (l : list nat) (s : dfs) : res dfs :=
  match l with
  | [] => Val s
  | i :: t => match compute_order_t fuel i s with
              | Val s' => order_all_t fuel t s'
              | Und => Und
              | Fuel => Fuel
              end
  end.

Definition sim (s s' : dfs) : Prop := d_order s = d_order s' /\ d_comp s = d_comp s' /\ agree (d_deps s) (d_deps s').
Definition rsim (x y : res dfs) : Prop :=
  match x, y with Val a, Val b => sim a b | Und, Und => True | Fuel, Fuel => True | _, _ => False end.

Lemma order_inputs_sim rec rec' iE : (iE < N)%nat ->
  (forall r s s', (r < N)%nat -> sim s s' -> rsim (rec r s) (rec' r s')) ->
  forall l s s', sim s s' -> rsim (order_inputs iadd m d df rec iE l s) (order_inputs_t rec' iE l s').
Proof.
  intros HiE HR; induction l as [|j l IH]; intros s s' Hs; cbn [order_inputs order_inputs_t]; [exact Hs|].
  destruct (negb ((0 <=? j) && (j <? m))) eqn:Hj; [exact I|].
  assert (HE : (df' j <? 0) = (df j <? 0)) by (destruct (HDF j); lia). rewrite HE.
  destruct (Z.ltb_spec (df j) 0) as [Hneg|Hneg].
  - apply IH. destruct Hs as (H1 & H2 & H3). split; [exact H1|]. split; [exact H2|]. cbn [d_deps].
    apply norm_agree. intros i k Hi Hk. unfold add_entry. rewrite (H3 i k Hi Hk); reflexivity.
  - destruct (HDF j) as [He|He]; [lia | | lia]. rewrite <- He.
    destruct (negb (Nat.ltb (Z.to_nat (df j)) (length d))) eqn:Hl; [exact I|].
    apply Bool.negb_false_iff, Nat.ltb_lt in Hl.
    assert (Hr : (Z.to_nat (df j) < N)%nat) by lia.
    pose proof (HR (Z.to_nat (df j)) s s' Hr Hs) as G. unfold rsim in G.
    destruct (rec (Z.to_nat (df j)) s) as [t| |], (rec' (Z.to_nat (df j)) s') as [t'| |]; try contradiction; try exact I.
    apply IH. destruct G as (H1 & H2 & H3). split; [exact H1|]. split; [exact H2|]. cbn [d_deps].
    apply norm_agree. intros i k Hi Hk. unfold add_row. rewrite (H3 i k Hi Hk), (H3 _ k Hr Hk); reflexivity.
Qed.
Lemma compute_order_sim fuel : forall r s s', (r < N)%nat -> sim s s' ->
  rsim (compute_order iadd m d df fuel r s) (compute_order_t fuel r s').
Proof.
  induction fuel as [|f IH]; intros r s s' Hr Hs; pose proof Hs as (S1 & S2 & S3); cbn [compute_order compute_order_t]; rewrite <- S2;
    destruct (d_comp s r); try exact Hs; [exact I|].
  destruct (nth_error d r) as [c|]; [|exact I].
  pose proof (order_inputs_sim (compute_order iadd m d df f) (compute_order_t f) r Hr IH (append (c_inv c)) s s' Hs) as G.
  unfold rsim in G.
  destruct (order_inputs iadd m d df (compute_order iadd m d df f) r (append (c_inv c)) s) as [t| |],
           (order_inputs_t (compute_order_t f) r (append (c_inv c)) s') as [t'| |]; try contradiction; try exact I.
  destruct G as (H1 & H2 & H3). split; [cbn; congruence|]. split; [cbn; congruence | exact H3].
Qed.
Lemma order_all_sim fuel : forall l s s', (forall r, In r l -> (r < N)%nat) -> sim s s' ->
  rsim (order_all iadd m d df fuel l s) (order_all_t fuel l s').
Proof.
  induction l as [|r l IH]; intros s s' Hl Hs; cbn [order_all order_all_t]; [exact Hs|].
  pose proof (compute_order_sim fuel r s s' (Hl r (or_introl eq_refl)) Hs) as G. unfold rsim in G.
  destruct (compute_order iadd m d df fuel r s) as [t| |], (compute_order_t fuel r s') as [t'| |]; try contradiction; try exact I.
  apply IH; [intros x Hx; apply Hl; right; exact Hx | exact G].
Qed.
End Tab.

(** The k-th constraint reads the velocity (and configuration) variables 2k, 2k+1
    and writes 2k+2, 2k+3. *)
Definition link (k : nat) : con Z Z :=
  let a := 2 * Z.of_nat k in
  mkcon [(a, 2)] [(a + 2, 2)] [(a, 2)] [(a + 2, 2)] [EqualToZero; EqualToZero] (fun _ l => l) 0.
Definition links := map link (seq 0 33).
Definition chain_dim : Z := 68.

Definition islink (c : con Z Z) : Prop := exists k, (k < 33)%nat /\ c = link k.
Lemma link_family : family chain_dim chain_dim islink.
Proof.
  unfold chain_dim. split; [lia|]. split; [lia|]. split.
  - intros c (k & Hk & ->). unfold link. split; [eexists; reflexivity|]. split; [eexists; reflexivity|].
    cbn [c_in c_out c_inv c_outv].
    repeat split; try (intros u []); try (destruct H as [<-|[]]; cbn [fst snd]; lia).
  - intros c d (k & Hk & ->) (k' & Hk' & ->). unfold consistent, link; cbn [c_in c_out c_inv c_outv]. tauto.
Qed.

(** [add] read through its result: the dependency matrix comes from [order_all]. *)
Lemma add_deps {V Rh} iadd fuel (st st' : ecs V Rh) c k : add iadd fuel st c = (st', Added k) ->
  exists s, order_all iadd (nv st') (data st') (derF st') fuel (seq 0 (length (data st')))
     (mkdfs [] (fun _ => false) (fun _ _ => 0)) = Val s /\ deps st' = d_deps s.
Proof.
  unfold add. intros H.
  repeat match type of H with
  | (if ?b then _ else _) = _ => destruct b; try discriminate
  | match order_all ?a ?b ?cc ?dd ?f ?l ?s with _ => _ end = _ => destruct (order_all a b cc dd f l s) as [x| |] eqn:EO; try discriminate
  | match ?x with _ => _ end = _ => destruct x eqn:?; try discriminate
  end.
  injection H as <- _. exists x. cbn. auto.
Qed.

Lemma fold_snoc l c : fold_left (fun acc (x : con Z Z) => acc ++ [x]) (l ++ [c]) [] = l ++ [c].
Proof. rewrite fold_left_app; cbn. f_equal. induction l as [|x l IH] using rev_ind; [reflexivity|]. rewrite fold_left_app; cbn; congruence. Qed.

Lemma link_covers_out k i : covers (c_out (link k)) i <-> 2 * Z.of_nat k + 2 <= i < 2 * Z.of_nat k + 4.
Proof.
  unfold link; cbn [c_out]. rewrite covers_single. unfold in_seg; cbn [fst snd]. lia.
Qed.
Lemma link_covers_in k i : covers (c_in (link k)) i <-> 2 * Z.of_nat k <= i < 2 * Z.of_nat k + 2.
Proof.
  unfold link; cbn [c_in]. rewrite covers_single. unfold in_seg; cbn [fst snd]. lia.
Qed.

Lemma link_acceptable n : (n < 33)%nat -> acceptable (map link (seq 0 n)) (link n).
Proof.
  intros Hn. split; [intros t [<-|[<-|[]]]; auto|]. split.
  - intros i Hi (c & Hc & Hci). apply in_map_iff in Hc as (k & <- & Hk). apply in_seq in Hk.
    apply link_covers_out in Hi, Hci. lia.
  - intros i Hi Hneed.
    assert (G : forall x, needs (map link (seq 0 n)) (link n) x -> x < 2 * Z.of_nat n + 2).
    { intros x Hx; induction Hx as [x Hx|x y d Hy IH Hd Hdy Hdx].
      - apply link_covers_in in Hx; lia.
      - apply in_map_iff in Hd as (k & <- & Hk). apply in_seq in Hk. apply link_covers_in in Hdx; lia. }
    specialize (G i Hneed). apply link_covers_out in Hi; lia.
Qed.

Lemma links_reach n : (n <= 33)%nat -> exists st, reach iadd32 islink chain_dim chain_dim st /\ data st = map link (seq 0 n) /\
  (n = 0%nat \/ exists fuel s, (n <= fuel)%nat /\
     order_all iadd32 (nv st) (data st) (derF st) fuel (seq 0 (length (data st))) (mkdfs [] (fun _ => false) (fun _ _ => 0)) = Val s /\
     deps st = d_deps s).
Proof.
  induction n as [|n IH]; intros Hn.
  - exists (init chain_dim chain_dim). split; [constructor|]. split; [reflexivity | left; reflexivity].
  - destruct IH as (st & HR & HD & _); [lia|].
    assert (Pc : islink (link n)) by (exists n; split; [lia | reflexivity]).
    destruct (add_iff iadd32 islink chain_dim chain_dim link_family st (link n) HR Pc) as (f0 & H).
    destruct (H (Nat.max f0 (S n)) ltac:(lia)) as [H1 _]. rewrite HD in H1 at 1.
    destruct (H1 (link_acceptable n ltac:(lia))) as (st' & E & E1 & E2).
    exists st'. split; [eapply reach_add; eauto|].
    split; [rewrite E1, HD, seq_S, map_app; reflexivity|]. right.
    destruct (add_deps _ _ _ _ _ _ E) as (s & S1 & S2). exists (Nat.max f0 (S n)), s. split; [lia | auto].
Qed.

Lemma links_needs : needsv links (link 32) 0.
Proof.
  assert (G : forall k, (k <= 32)%nat -> needsv links (link 32) (2 * Z.of_nat (32 - k))).
  { induction k as [|k IH]; intros Hk.
    - apply needsv_direct. unfold link; cbn [c_inv]. apply covers_single. unfold in_seg; cbn [fst snd]; lia.
    - eapply (needsv_trans links (link 32) _ (2 * Z.of_nat (32 - k)) (link (32 - S k))).
      + apply IH; lia.
      + unfold links. apply in_map, in_seq; lia.
      + unfold link; cbn [c_outv]. apply covers_single. unfold in_seg; cbn [fst snd]; lia.
      + unfold link; cbn [c_inv]. apply covers_single. unfold in_seg; cbn [fst snd]; lia. }
  apply (G 32%nat); lia.
Qed.

Lemma overflow_loses_dependency :
  exists st : ecs Z Z, reach iadd32 islink chain_dim chain_dim st /\
    nth_error (data st) 32 = Some (link 32) /\
    needsv (data st) (link 32) 0 /\ ~ outputv (data st) 0 /\ deps st 32%nat 0 = 0 /\ deps st 31%nat 0 < 0.
Proof.
  destruct (links_reach 33) as (st & HR & HD & [H|(fuel & s & Hf & H1 & H2)]); [lia | lia |].
  fold links in HD. exists st. split; [exact HR|]. rewrite HD.
  split; [reflexivity|]. split; [exact links_needs|]. split.
  { intros (c & Hc & Hi). apply in_map_iff in Hc as (k & <- & Hk). unfold link in Hi; cbn [c_outv] in Hi.
    apply covers_single in Hi. unfold in_seg in Hi; cbn [fst snd] in Hi; lia. }
  pose proof (reach_inv iadd32 islink chain_dim chain_dim st link_family HR) as I.
  rewrite (i_nv _ _ _ _ _ I), HD in H1.
  set (df' := fun j : Z => if (2 <=? j) && (j <? 68) then j / 2 - 1 else -1).
  assert (HDF : forall j, 0 <= j < chain_dim -> derF st j = df' j \/ (derF st j < 0 /\ df' j < 0)).
  { intros j Hj. unfold df'. destruct (Z.leb_spec 2 j) as [H2j|H2j]; cbn [andb].
    - destruct (Z.ltb_spec j 68) as [_|Hlt]; [|unfold chain_dim in Hj; lia]. unfold chain_dim in Hj.
      assert (Hdiv : 2 * (j / 2) <= j < 2 * (j / 2) + 2) by (pose proof (Z.div_mod j 2); pose proof (Z.mod_pos_bound j 2); lia).
      set (k := Z.to_nat (j / 2 - 1)).
      assert (Hk : (k < 33)%nat) by (unfold k; lia).
      left. rewrite (proj1 (i_der _ _ _ _ _ I) k (link k) j).
      + unfold k; lia.
      + rewrite HD. unfold links. rewrite nth_error_map.
        assert (E : nth_error (seq 0 33) k = Some k).
        { rewrite (nth_error_nth' _ 0%nat) by (rewrite seq_length; exact Hk). rewrite seq_nth by exact Hk. reflexivity. }
        rewrite E. reflexivity.
      + unfold link; cbn [c_outv]. apply covers_single. unfold in_seg, k; cbn [fst snd]; lia.
    - destruct (Z.ltb_spec (derF st j) 0) as [Hn|Hn].
      + right; lia.
      + destruct (proj2 (i_der _ _ _ _ _ I) j Hn) as (c & Hc & Hci). rewrite HD in Hc.
        apply nth_error_In, in_map_iff in Hc as (k & <- & Hk). unfold link in Hci; cbn [c_outv] in Hci.
        apply covers_single in Hci. unfold in_seg in Hci; cbn [fst snd] in Hci; lia. }
  set (s0 := mkdfs [] (fun _ => false) (fun _ _ => 0)) in *.
  assert (HS : sim chain_dim 33 s0 s0) by (split; [reflexivity | split; [reflexivity | intros i j _ _; reflexivity]]).
  assert (HL : (length links <= 33)%nat) by (unfold links; rewrite map_length, seq_length; lia).
  pose proof (order_all_sim iadd32 chain_dim links (derF st) df' HDF 33 HL 40 (seq 0 (length links)) s0 s0) as G.
  specialize (G ltac:(intros r Hr; apply in_seq in Hr; lia) HS).
  assert (T : match order_all_t iadd32 chain_dim links df' 33 40 (seq 0 (length links)) s0 with
              | Val t => d_deps t 32%nat 0 = 0 /\ d_deps t 31%nat 0 < 0 | _ => False end) by (vm_compute; auto).
  unfold rsim in G.
  destruct (order_all iadd32 chain_dim links (derF st) 40 (seq 0 (length links)) s0) as [a| |] eqn:EA;
  destruct (order_all_t iadd32 chain_dim links df' 33 40 (seq 0 (length links)) s0) as [t| |]; try contradiction.
  assert (a = s).
  { pose proof (order_all_mono iadd32 _ _ _ 40 (Nat.max 40 fuel) ltac:(lia) _ _ _ EA ltac:(discriminate)) as M1.
    pose proof (order_all_mono iadd32 _ _ _ fuel (Nat.max 40 fuel) ltac:(lia) _ _ _ H1 ltac:(discriminate)) as M2.
    congruence. }
  subst a. destruct G as (_ & _ & G). rewrite H2.
  rewrite (G 32%nat 0), (G 31%nat 0) by (unfold chain_dim; lia). exact T.
Qed.
