(** Properties C01-C09: index intervals (class BlockIndex). *)
From Coq Require Import ZArith List Permutation.
From Verif Require Import SegModel SegSpec SegProofs.
Import ListNotations.
Open Scope Z_scope.

(** C01 *)
Theorem C01_normalise_exact : forall l,
  nonneg l ->
  (forall i, covers (normalise l) i <-> covers l i) /\
  sorted_separated (normalise l) /\ nonneg (normalise l) /\
  normalise (normalise l) = normalise l.
Proof. exact normalise_all. Qed.
Print Assumptions C01_normalise_exact.

Theorem C01_normalise_canonical : forall l1 l2,
  positive l1 -> positive l2 -> (forall i, covers l1 i <-> covers l2 i) ->
  normalise l1 = normalise l2.
Proof. exact normalise_canonical. Qed.
Print Assumptions C01_normalise_canonical.

Theorem C01_shrink_alone_any_order : forall l,
  nonneg l -> sorted_separated (shrink l) /\ (forall i, covers (shrink l) i -> covers l i).
Proof. exact shrink_only_any_order. Qed.
Print Assumptions C01_shrink_alone_any_order.

Theorem C01_shrink_without_sort_refuted :
  exists l i, positive l /\ covers l i /\ ~ covers (shrink l) i.
Proof. exact shrink_only_loses. Qed.
Print Assumptions C01_shrink_without_sort_refuted.

Example C01_case :
  normalise [(7, 2); (0, 3); (2, 2); (4, 0); (9, 1); (12, 2)] = [(0, 4); (7, 3); (12, 2)].
Proof. vm_compute. reflexivity. Qed.

(** C02 *)
Theorem C02_cardinal : forall l,
  nonneg l ->
  cardinal l = Z.of_nat (length (indices l)) /\
  cardinal (sort l) = cardinal l /\
  (forall d, NoDup d -> (forall i, In i d <-> covers l i) ->
     cardinal (normalise l) = Z.of_nat (length d)).
Proof. exact cardinal_all. Qed.
Print Assumptions C02_cardinal.

Example C02_case : cardinal (normalise [(5, 3); (0, 2); (6, 4)]) = 7 /\ cardinal [(5, 3); (0, 2); (6, 4)] = 9.
Proof. split; vm_compute; reflexivity. Qed.

(** C03 *)
Theorem C03_difference_seg_seg : forall a b,
  0 <= snd a -> 0 <= snd b ->
  (forall i, covers (diff_ss a b) i <-> in_seg a i /\ ~ in_seg b i) /\
  sorted_separated (diff_ss a b) /\ positive (diff_ss a b).
Proof. exact difference_seg_seg. Qed.
Print Assumptions C03_difference_seg_seg.

Theorem C03_difference_segs_seg : forall a b,
  sorted_disjoint a -> nonneg a -> 0 <= snd b ->
  exists r, diff_ls a b = Some r /\
    (forall i, covers r i <-> covers a i /\ ~ in_seg b i) /\
    sorted_disjoint r /\ (sorted_separated a -> sorted_separated r) /\
    (positive a -> positive r).
Proof. exact difference_segs_seg. Qed.
Print Assumptions C03_difference_segs_seg.

Theorem C03_difference_seg_segs : forall a b,
  0 <= snd a -> nonneg b ->
  exists r, diff_sl a b = Some r /\
    (forall i, covers r i <-> in_seg a i /\ ~ covers b i) /\
    sorted_separated r /\ (0 < snd a -> positive r).
Proof. exact difference_seg_segs. Qed.
Print Assumptions C03_difference_seg_segs.

Theorem C03_difference_segs_segs : forall a b,
  nonneg a -> nonneg b ->
  exists r, diff_ll a b = Some r /\
    (forall i, covers r i <-> covers a i /\ ~ covers b i) /\
    (sorted_disjoint a -> sorted_disjoint r) /\ (sorted_separated a -> sorted_separated r) /\
    (positive a -> positive r).
Proof. exact difference_segs_segs. Qed.
Print Assumptions C03_difference_segs_segs.

Example C03_case :
  diff_ll [(0, 4); (6, 5); (20, 2)] [(8, 1); (2, 3); (0, 1)] = Some [(1, 1); (6, 2); (9, 2); (20, 2)].
Proof. vm_compute. reflexivity. Qed.
Example C03_case_undefined : diff_ls [(5, 1); (0, 1)] (2, 1) = None.
Proof. vm_compute. reflexivity. Qed.

(** C04 *)
Theorem C04_add_segment : forall a b,
  lex_sorted a ->
  exists r, add_seg a b = Some r /\ lex_sorted r /\ Permutation r (b :: a).
Proof. exact add_seg_spec. Qed.
Print Assumptions C04_add_segment.

Theorem C04_add_list : forall a b,
  lex_sorted a ->
  exists r, add_segs a b = Some r /\ Permutation r (a ++ b) /\ (lex_sorted b -> lex_sorted r).
Proof. exact add_list_sorted. Qed.
Print Assumptions C04_add_list.

Theorem C04_add_unsorted_list_refuted :
  exists a b r, lex_sorted a /\ add_segs a b = Some r /\ ~ lex_sorted r.
Proof. exact add_list_unsorted_result. Qed.
Print Assumptions C04_add_unsorted_list_refuted.

Example C04_case : add_segs [(1, 2); (4, 1); (9, 3)] [(0, 1); (4, 0); (4, 5); (12, 1)]
                   = Some [(0, 1); (1, 2); (4, 0); (4, 1); (4, 5); (9, 3); (12, 1)].
Proof. vm_compute. reflexivity. Qed.

(** C05 *)
Theorem C05_sum : forall a b,
  0 <= snd a -> 0 <= snd b ->
  (forall i, covers (sum a b) i <-> in_seg a i \/ in_seg b i) /\
  sum a b = sum b a /\ sorted_separated (sum a b) /\
  (length (sum a b) = 1%nat <-> (fst a <= fst b + snd b /\ fst b <= fst a + snd a)).
Proof. exact sum_all. Qed.
Print Assumptions C05_sum.

Example C05_case : sum (4, 2) (1, 3) = [(1, 5)] /\ sum (5, 2) (1, 3) = [(1, 3); (5, 2)].
Proof. split; vm_compute; reflexivity. Qed.

(** C06 *)
Theorem C06_overlap_characterised : forall a b,
  0 <= snd a -> 0 <= snd b ->
  (overlap a b = true <->
   (exists i, in_seg a i /\ in_seg b i) /\
   ~ (fst b < fst a /\ fst a + snd a < fst b + snd b)).
Proof. exact overlap_sound_exact. Qed.
Print Assumptions C06_overlap_characterised.

Theorem C06_overlap_complete_refuted :
  exists a b, (exists i, in_seg a i /\ in_seg b i) /\ overlap a b = false /\ overlap b a = true.
Proof. exact overlap_misses. Qed.
Print Assumptions C06_overlap_complete_refuted.

Example C06_case : overlap (1, 3) (3, 4) = true /\ overlap (1, 3) (4, 4) = false /\ overlap (5, 1) (3, 4) = false.
Proof. repeat split; vm_compute; reflexivity. Qed.

(** C07 *)
Theorem C07_split : forall l n,
  nonneg l -> 0 <= n ->
  indices (fst (split l n)) = firstn (Z.to_nat n) (indices l) /\
  indices (snd (split l n)) = skipn (Z.to_nat n) (indices l) /\
  nonneg (fst (split l n)) /\ nonneg (snd (split l n)).
Proof. exact split_all. Qed.
Print Assumptions C07_split.

Theorem C07_split_within_cardinal : forall l n,
  nonneg l -> 0 <= n <= cardinal l ->
  exists r l', split_checked l n = Some (r, l') /\
    indices r = firstn (Z.to_nat n) (indices l) /\ cardinal r = n /\
    indices l' = skipn (Z.to_nat n) (indices l).
Proof. exact split_checked_all. Qed.
Print Assumptions C07_split_within_cardinal.

Example C07_case : split_checked [(4, 2); (9, 3); (20, 1)] 4 = Some ([(4, 2); (9, 2)], [(11, 1); (20, 1)]).
Proof. vm_compute. reflexivity. Qed.

(** C08 *)
Theorem C08_extract : forall l s n,
  nonneg l -> extract_pre l s n = true ->
  (s < cardinal l ->
     exists r, extract l s n = Some r /\
       indices r = firstn (Z.to_nat n) (skipn (Z.to_nat s) (indices l))) /\
  (s = cardinal l -> extract l s n = None).
Proof. exact extract_all. Qed.
Print Assumptions C08_extract.

Theorem C08_extract_empty_end_refuted :
  exists l s n, positive l /\ extract_pre l s n = true /\ extract l s n = None.
Proof. exact extract_corner. Qed.
Print Assumptions C08_extract_empty_end_refuted.

Example C08_case : extract [(4, 2); (9, 3); (20, 4)] 1 5 = Some [(5, 1); (9, 3); (20, 1)].
Proof. vm_compute. reflexivity. Qed.

(** C09 *)
Theorem C09_from_logical : forall m,
  (forall j, covers (from_logical m) j <-> (0 <= j /\ nth_error m (Z.to_nat j) = Some true)) /\
  sorted_separated (from_logical m) /\ positive (from_logical m).
Proof. exact from_logical_spec. Qed.
Print Assumptions C09_from_logical.

Example C09_case : from_logical [true; true; false; true; false] = [(0, 2); (3, 1)].
Proof. vm_compute. reflexivity. Qed.
