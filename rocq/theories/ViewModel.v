(** Model of block views of matrices (class Eigen::MatrixBlockView).

    Source: /repo/include/hpp/constraints/matrix-view.hh
      lines 225-330 (assignment loops), 838-905 (block_iterator),
      450-480 (lview / rview);
      /repo/include/hpp/constraints/impl/matrix-view-operation.hh
      lines 117-240 (view/matrix operations).

    A matrix of scalars A is its two sizes and its coefficient function.
    Coefficients outside the sizes are irrelevant; every block access is checked
    against the sizes and gives [None] (undefined behaviour / failed Eigen
    assertion) when it leaves them.  A vector is a matrix with one column; the
    template flags AllRows / AllCols are modelled by the single interval
    (0, number of rows/columns), which is what block_iterator::ri/rs/ci/cs return
    (lines 862-886). *)
From Coq Require Import ZArith List Bool.
From Verif Require Import SegModel.
Import ListNotations.
Open Scope Z_scope.

Record mat (A : Type) := mkmat { nr : Z; nc : Z; at_ : Z -> Z -> A }.
Arguments mkmat {A}. Arguments nr {A}. Arguments nc {A}. Arguments at_ {A}.

(** Eigen's Block constructor: the block must lie inside the matrix. *)
Definition in_range {A} (m : mat A) (r c rs cs : Z) : bool :=
  (0 <=? r) && (0 <=? c) && (0 <=? rs) && (0 <=? cs) && (r + rs <=? nr m) && (c + cs <=? nc m).

(** One block of a view: input row/col, sizes, output row/col
    (matrix-view.hh:844-886). *)
Record blk := mkblk { b_ri : Z; b_ci : Z; b_rs : Z; b_cs : Z; b_ro : Z; b_co : Z }.

(** matrix-view.hh:888-915, operator++: rows vary fastest; _ro accumulates the row
    sizes and restarts at 0 for each column block, _co accumulates column sizes. *)
Fixpoint axis_blocks (o : Z) (l : list (Z * Z)) : list (Z * Z * Z) :=
  match l with
  | [] => []
  | s :: t => (fst s, snd s, o) :: axis_blocks (o + snd s) t
  end.
Definition blocks (rows cols : list (Z * Z)) : list blk :=
  flat_map (fun c => let '(ci, cs, co) := c in
    map (fun r => let '(ri, rs, ro) := r in mkblk ri ci rs cs ro co) (axis_blocks 0 rows))
    (axis_blocks 0 cols).

(** Assignment of a block of [dst] at (r, c) of size rs x cs from the expression
    [v] (offsets inside the block); [ok] = the reads of the expression are in
    range. *)
Definition put {A} (dst : mat A) (r c rs cs : Z) (ok : bool) (v : Z -> Z -> A) : option (mat A) :=
  if ok && in_range dst r c rs cs
  then Some (mkmat (nr dst) (nc dst)
       (fun i j => if (r <=? i) && (i <? r + rs) && (c <=? j) && (j <? c + cs)
                   then v (i - r) (j - c) else at_ dst i j))
  else None.

Fixpoint loop {A} (step : mat A -> blk -> option (mat A)) (dst : mat A) (l : list blk) : option (mat A) :=
  match l with
  | [] => Some dst
  | b :: t => match step dst b with Some d => loop step d t | None => None end
  end.

(** matrix-view.hh:302-313, matrix <- view: dst.block(ro,co,rs,cs) = src._block(b). *)
Definition read_step {A} (src : mat A) (dst : mat A) (b : blk) : option (mat A) :=
  put dst (b_ro b) (b_co b) (b_rs b) (b_cs b)
      (in_range src (b_ri b) (b_ci b) (b_rs b) (b_cs b))
      (fun k l => at_ src (b_ri b + k) (b_ci b + l)).
(** [dst] has been resized to the view's sizes (lines 234 and 1015); its
    coefficients before the copies are arbitrary. *)
Definition read_view {A} (src : mat A) (rows cols : list (Z * Z)) (dst : mat A) : option (mat A) :=
  loop (read_step src) dst (blocks rows cols).

(** matrix-view.hh:291-301, view <- matrix: dst._block(b) = src.block(ro,co,rs,cs). *)
Definition write_step {A} (src : mat A) (dst : mat A) (b : blk) : option (mat A) :=
  put dst (b_ri b) (b_ci b) (b_rs b) (b_cs b)
      (in_range src (b_ro b) (b_co b) (b_rs b) (b_cs b))
      (fun k l => at_ src (b_ro b + k) (b_co b + l)).
Definition write_view {A} (dst : mat A) (rows cols : list (Z * Z)) (src : mat A) : option (mat A) :=
  loop (write_step src) dst (blocks rows cols).

(** matrix-view.hh:314-334, view <- view: blocks taken pairwise; Eigen requires the
    two blocks to have the same size; the asserts at 325 and 329 require the same
    number of blocks. *)
Fixpoint view_to_view {A} (src dst : mat A) (sl dl : list blk) : option (mat A) :=
  match sl, dl with
  | [], [] => Some dst
  | s :: sl', d :: dl' =>
      if (b_rs s =? b_rs d) && (b_cs s =? b_cs d)
      then match put dst (b_ri d) (b_ci d) (b_rs d) (b_cs d)
                     (in_range src (b_ri s) (b_ci s) (b_rs s) (b_cs s))
                     (fun k l => at_ src (b_ri s + k) (b_ci s + l)) with
           | Some dst' => view_to_view src dst' sl' dl'
           | None => None
           end
      else None
  | _, _ => None
  end.

(** matrix-view-operation.hh:166-190, view op matrix. *)
Definition view_op_matrix_step {A} (op : A -> A -> A) (lhs rhs : mat A) (dst : mat A) (b : blk) :=
  put dst (b_ro b) (b_co b) (b_rs b) (b_cs b)
      (in_range lhs (b_ri b) (b_ci b) (b_rs b) (b_cs b) &&
       in_range rhs (b_ro b) (b_co b) (b_rs b) (b_cs b))
      (fun k l => op (at_ lhs (b_ri b + k) (b_ci b + l)) (at_ rhs (b_ro b + k) (b_co b + l))).
Definition view_op_matrix {A} (op : A -> A -> A) (lhs : mat A) (rows cols : list (Z * Z))
  (rhs dst : mat A) : option (mat A) :=
  loop (view_op_matrix_step op lhs rhs) dst (blocks rows cols).
(** matrix-view-operation.hh:127-150, matrix op view. *)
Definition matrix_op_view {A} (op : A -> A -> A) (lhs : mat A) (rhs : mat A)
  (rows cols : list (Z * Z)) (dst : mat A) : option (mat A) :=
  loop (fun dst b => put dst (b_ro b) (b_co b) (b_rs b) (b_cs b)
      (in_range rhs (b_ri b) (b_ci b) (b_rs b) (b_cs b) &&
       in_range lhs (b_ro b) (b_co b) (b_rs b) (b_cs b))
      (fun k l => op (at_ lhs (b_ro b + k) (b_co b + l)) (at_ rhs (b_ri b + k) (b_ci b + l))))
    dst (blocks rows cols).

(** matrix-view-operation.hh:206-238, view op view: the block of the right operand
    is read with the *left* operand's iterator (line 223: d.rhs()._block(lblock)).
    The assertions at 224-225 compare the sizes and output positions of the two
    iterators. *)
Fixpoint view_op_view_loop {A} (op : A -> A -> A) (lhs rhs dst : mat A) (ll rl : list blk) : option (mat A) :=
  match ll, rl with
  | [], [] => Some dst
  | lb :: ll', rb :: rl' =>
      if (b_rs lb =? b_rs rb) && (b_cs lb =? b_cs rb) && (b_ro lb =? b_ro rb) && (b_co lb =? b_co rb)
      then match put dst (b_ro rb) (b_co rb) (b_rs rb) (b_cs rb)
                     (in_range lhs (b_ri lb) (b_ci lb) (b_rs lb) (b_cs lb) &&
                      in_range rhs (b_ri lb) (b_ci lb) (b_rs lb) (b_cs lb))
                     (fun k l => op (at_ lhs (b_ri lb + k) (b_ci lb + l)) (at_ rhs (b_ri lb + k) (b_ci lb + l))) with
           | Some dst' => view_op_view_loop op lhs rhs dst' ll' rl'
           | None => None
           end
      else None
  | _, _ => None
  end.
Definition view_op_view {A} (op : A -> A -> A) (lhs : mat A) (lrows lcols : list (Z * Z))
  (rhs : mat A) (rrows rcols : list (Z * Z)) (dst : mat A) : option (mat A) :=
  view_op_view_loop op lhs rhs dst (blocks lrows lcols) (blocks rrows rcols).

(** Vector views (RowBlockIndices on a column vector), the shape used by the
    constraint sets: a vector is its coefficient function, a value list is the
    dense vector read or written.  Blocks are visited in order.
    rview: concatenation of the blocks. *)
Definition vread {V} (v : Z -> V) (rows : list (Z * Z)) : list V :=
  flat_map (fun s => map (fun k => v (fst s + Z.of_nat k)) (seq 0 (Z.to_nat (snd s)))) rows.
(** lview = values: block after block; a value list shorter than the view is an
    out-of-range read. *)
Definition vput {V} (v : Z -> V) (first : Z) (vals : list V) : Z -> V :=
  fun i => match (if first <=? i then nth_error vals (Z.to_nat (i - first)) else None) with
           | Some x => x | None => v i end.
Fixpoint vwrite {V} (v : Z -> V) (rows : list (Z * Z)) (vals : list V) : option (Z -> V) :=
  match rows with
  | [] => match vals with [] => Some v | _ :: _ => None end
  | s :: t =>
      let n := Z.to_nat (snd s) in
      if Nat.leb n (length vals)
      then vwrite (vput v (fst s) (firstn n vals)) t (skipn n vals)
      else None
  end.
