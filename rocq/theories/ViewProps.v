(** Properties C10-C11: block views of matrices and vectors. *)
From Coq Require Import ZArith List Lia.
From Verif Require Import SegModel SegSpec SegProofs ViewModel ViewProofs ViewCopy.
Import ListNotations.
Open Scope Z_scope.

(** C10 *)
Theorem C10_read : forall (A : Type) (src dst : mat A) rows cols,
  inside (nr src) rows -> inside (nc src) cols ->
  nr dst = cardinal rows -> nc dst = cardinal cols ->
  exists d, read_view src rows cols dst = Some d /\
    nr d = cardinal rows /\ nc d = cardinal cols /\
    forall i j r c, 0 <= i -> 0 <= j ->
      nth_error (indices rows) (Z.to_nat i) = Some r ->
      nth_error (indices cols) (Z.to_nat j) = Some c ->
      at_ d i j = at_ src r c.
Proof. exact @read_view_spec. Qed.
Print Assumptions C10_read.

Theorem C10_write : forall (A : Type) (src dst : mat A) rows cols,
  inside (nr dst) rows -> inside (nc dst) cols ->
  nr src = cardinal rows -> nc src = cardinal cols ->
  NoDup (indices rows) -> NoDup (indices cols) ->
  exists d, write_view dst rows cols src = Some d /\ nr d = nr dst /\ nc d = nc dst /\
    (forall i j r c, 0 <= i -> 0 <= j ->
      nth_error (indices rows) (Z.to_nat i) = Some r ->
      nth_error (indices cols) (Z.to_nat j) = Some c ->
      at_ d r c = at_ src i j) /\
    (forall r c, ~ (covers rows r /\ covers cols c) -> at_ d r c = at_ dst r c).
Proof. exact @write_view_spec. Qed.
Print Assumptions C10_write.

Theorem C10_write_frame : forall (A : Type) (src dst d : mat A) rows cols,
  write_view dst rows cols src = Some d ->
  nr d = nr dst /\ nc d = nc dst /\
  forall r c, ~ (covers rows r /\ covers cols c) -> at_ d r c = at_ dst r c.
Proof. exact @write_view_frame. Qed.
Print Assumptions C10_write_frame.

Theorem C10_read_back : forall (A : Type) (src dst tmp : mat A) rows cols d,
  inside (nr dst) rows -> inside (nc dst) cols ->
  nr src = cardinal rows -> nc src = cardinal cols ->
  NoDup (indices rows) -> NoDup (indices cols) ->
  nr tmp = cardinal rows -> nc tmp = cardinal cols ->
  write_view dst rows cols src = Some d ->
  exists e, read_view d rows cols tmp = Some e /\ nr e = nr src /\ nc e = nc src /\
    forall i j, 0 <= i < nr src -> 0 <= j < nc src -> at_ e i j = at_ src i j.
Proof. exact @read_write_view. Qed.
Print Assumptions C10_read_back.

Theorem C10_out_of_bounds_undefined : forall (A : Type) (src dst : mat A) rows cols s,
  In s rows -> cols <> [] -> nonneg cols -> 0 <= snd s ->
  fst s < 0 \/ nr src < fst s + snd s -> read_view src rows cols dst = None.
Proof. exact @read_view_undefined. Qed.
Print Assumptions C10_out_of_bounds_undefined.

(** a view assigned to a view cut in blocks of the same sizes *)
Theorem C10_view_to_view : forall (A : Type) (src dst : mat A) sr sc dr dc,
  map snd sr = map snd dr -> map snd sc = map snd dc ->
  inside (nr src) sr -> inside (nc src) sc -> inside (nr dst) dr -> inside (nc dst) dc ->
  NoDup (indices dr) -> NoDup (indices dc) ->
  exists d, view_to_view src dst (blocks sr sc) (blocks dr dc) = Some d /\ nr d = nr dst /\ nc d = nc dst /\
    (forall i j r c r' c', nth_error (indices sr) i = Some r -> nth_error (indices sc) j = Some c ->
       nth_error (indices dr) i = Some r' -> nth_error (indices dc) j = Some c' -> at_ d r' c' = at_ src r c) /\
    (forall r c, ~ (covers dr r /\ covers dc c) -> at_ d r c = at_ dst r c).
Proof. exact @view_to_view_spec. Qed.
Print Assumptions C10_view_to_view.

(** not so for the same rows cut in other blocks *)
Theorem C10_view_to_view_refuted : exists (src dst : mat Z) sr dr c,
  inside (nr src) sr /\ inside (nr dst) dr /\ inside (nc src) c /\ inside (nc dst) c /\
  NoDup (indices dr) /\ NoDup (indices c) /\ indices sr = indices dr /\
  view_to_view src dst (blocks sr c) (blocks dr c) = None.
Proof. exact view_to_view_wrong. Qed.
Print Assumptions C10_view_to_view_refuted.

Example C10_view_to_view_case :
  option_map (fun d => (at_ d 0 1, at_ d 1 1, at_ d 4 1, at_ d 4 0))
    (view_to_view (mkmat 5 3 (fun i j => 10 * i + j)) (mkmat 5 3 (fun _ _ => -1))
      (blocks [(3, 2); (0, 1)] [(2, 1)]) (blocks [(0, 2); (4, 1)] [(1, 1)])) = Some (32, 42, 2, -1).
Proof. vm_compute. reflexivity. Qed.

Theorem C10_vector_read : forall (V : Type) (v : Z -> V) rows, vread v rows = map v (indices rows).
Proof. exact @vread_indices. Qed.
Print Assumptions C10_vector_read.

Theorem C10_vector_write : forall (V : Type) rows (v : Z -> V) vals,
  nonneg rows -> NoDup (indices rows) -> Z.of_nat (length vals) = cardinal rows ->
  exists w, vwrite v rows vals = Some w /\ vread w rows = vals /\
    (forall i, ~ covers rows i -> w i = v i).
Proof. exact @vwrite_spec. Qed.
Print Assumptions C10_vector_write.

Example C10_case :
  inside 5 [(3, 2); (0, 1)] /\ inside 3 [(2, 1); (0, 1)] /\
  NoDup (indices [(3, 2); (0, 1)]) /\
  option_map (fun d => (at_ d 0 0, at_ d 1 1, at_ d 2 0))
    (read_view (mkmat 5 3 (fun i j => 10 * i + j)) [(3, 2); (0, 1)] [(2, 1); (0, 1)] (mkmat 3 2 (fun _ _ => -1)))
  = Some (32, 40, 2).
Proof.
  split; [intros s [<-|[<-|[]]]; cbn; lia|].
  split; [intros s [<-|[<-|[]]]; cbn; lia|].
  split; [|vm_compute; reflexivity].
  change (indices [(3, 2); (0, 1)]) with [3; 4; 0].
  repeat (apply NoDup_cons; [cbn; lia|]). apply NoDup_nil.
Qed.

(** C11 *)
Theorem C11_view_op_matrix : forall (A : Type) (op : A -> A -> A) (lhs rhs dst : mat A) rows cols,
  inside (nr lhs) rows -> inside (nc lhs) cols ->
  nr rhs = cardinal rows -> nc rhs = cardinal cols ->
  nr dst = cardinal rows -> nc dst = cardinal cols ->
  exists d, view_op_matrix op lhs rows cols rhs dst = Some d /\
    nr d = cardinal rows /\ nc d = cardinal cols /\
    forall i j r c, 0 <= i -> 0 <= j ->
      nth_error (indices rows) (Z.to_nat i) = Some r ->
      nth_error (indices cols) (Z.to_nat j) = Some c ->
      at_ d i j = op (at_ lhs r c) (at_ rhs i j).
Proof. exact @view_op_matrix_spec. Qed.
Print Assumptions C11_view_op_matrix.

Theorem C11_matrix_op_view : forall (A : Type) (op : A -> A -> A) (lhs rhs dst : mat A) rows cols,
  inside (nr rhs) rows -> inside (nc rhs) cols ->
  nr lhs = cardinal rows -> nc lhs = cardinal cols ->
  nr dst = cardinal rows -> nc dst = cardinal cols ->
  exists d, matrix_op_view op lhs rhs rows cols dst = Some d /\
    nr d = cardinal rows /\ nc d = cardinal cols /\
    forall i j r c, 0 <= i -> 0 <= j ->
      nth_error (indices rows) (Z.to_nat i) = Some r ->
      nth_error (indices cols) (Z.to_nat j) = Some c ->
      at_ d i j = op (at_ lhs i j) (at_ rhs r c).
Proof. exact @matrix_op_view_spec. Qed.
Print Assumptions C11_matrix_op_view.

Theorem C11_view_op_view_same_blocks : forall (A : Type) (op : A -> A -> A) (lhs rhs dst : mat A) rows cols,
  inside (nr lhs) rows -> inside (nc lhs) cols ->
  inside (nr rhs) rows -> inside (nc rhs) cols ->
  nr dst = cardinal rows -> nc dst = cardinal cols ->
  exists d, view_op_view op lhs rows cols rhs rows cols dst = Some d /\
    nr d = cardinal rows /\ nc d = cardinal cols /\
    forall i j r c, 0 <= i -> 0 <= j ->
      nth_error (indices rows) (Z.to_nat i) = Some r ->
      nth_error (indices cols) (Z.to_nat j) = Some c ->
      at_ d i j = op (at_ lhs r c) (at_ rhs r c).
Proof. exact @view_op_view_same. Qed.
Print Assumptions C11_view_op_view_same_blocks.

Theorem C11_view_op_view_refuted :
  exists (lhs rhs dst d : mat Z) lrows rrows cols i j lr rr,
    inside (nr lhs) lrows /\ inside (nr rhs) rrows /\
    inside (nc lhs) cols /\ inside (nc rhs) cols /\
    cardinal lrows = cardinal rrows /\ nr dst = cardinal lrows /\ nc dst = cardinal cols /\
    view_op_view Z.add lhs lrows cols rhs rrows cols dst = Some d /\
    nth_error (indices lrows) (Z.to_nat i) = Some lr /\
    nth_error (indices rrows) (Z.to_nat i) = Some rr /\
    0 <= i < nr d /\ 0 <= j < nc d /\ at_ d i j <> at_ lhs lr j + at_ rhs rr j.
Proof. exact view_op_view_wrong. Qed.
Print Assumptions C11_view_op_view_refuted.

Example C11_case :
  option_map (fun d => (at_ d 0 0, at_ d 1 0))
    (view_op_matrix Z.add (mkmat 5 1 (fun i j => 10 * i)) [(3, 1); (0, 1)] [(0, 1)]
       (mkmat 2 1 (fun i j => i + 1)) (mkmat 2 1 (fun _ _ => 0))) = Some (31, 2).
Proof. vm_compute. reflexivity. Qed.
