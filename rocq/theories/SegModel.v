(** Model of the index-interval algebra of hpp-constraints
    (class Eigen::BlockIndex).

    Source: /repo/src/matrix-view.cc lines 35-256,
            /repo/include/hpp/constraints/impl/matrix-view.hh (fromLogicalExpression).

    A [segment_t] is a pair (first, length) of signed [size_type]; it is modelled
    by a pair of unbounded [Z] (simplification: no 64-bit overflow).
    A [segments_t] (std::vector<segment_t>) is modelled by a list.
    Functions modifying their argument in place return the new value. *)
From Coq Require Import ZArith List Bool.
Import ListNotations.
Open Scope Z_scope.

Notation seg := (Z * Z)%type (only parsing).
Notation segs := (list (Z * Z)) (only parsing).

(** matrix-view.cc:39-40, the quantity [first + second]. *)
Definition send (s : seg) : Z := fst s + snd s.

(** matrix-view.cc:43-48, BlockIndexCompFull: lexicographic order. *)
Definition comp_full (l r : seg) : bool :=
  (fst l <? fst r) || ((fst l =? fst r) && (snd l <? snd r)).

(** matrix-view.cc:35-42, BlockIndexComp<true,false>: l.first < r.first + r.second. *)
Definition comp_tf (l r : seg) : bool := fst l <? send r.
(** matrix-view.cc:35-42, BlockIndexComp<false,true>: l.first + l.second < r.first. *)
Definition comp_ft (l r : seg) : bool := send l <? fst r.

(** std::upper_bound(first, last, value, comp): the C++ standard defines the
    result (first position whose element e satisfies comp(value, e)) only if the
    sequence is partitioned: elements with comp(value, e) = false come before
    those with true.  [None] is the undefined outcome. *)
Fixpoint ub_index (p : seg -> bool) (l : segs) : nat :=
  match l with
  | [] => O
  | e :: t => if p e then O else S (ub_index p t)
  end.
Definition partitioned (p : seg -> bool) (l : segs) : bool :=
  forallb p (skipn (ub_index p l) l).
Definition upper_bound (comp : seg -> seg -> bool) (v : seg) (l : segs) : option nat :=
  if partitioned (comp v) l then Some (ub_index (comp v) l) else None.

(** matrix-view.cc:51-53, BlockIndex::sort = std::sort with BlockIndexCompFull.
    The order is total on pairs, so the sorted permutation is unique and any
    sorting algorithm returns it; insertion sort is used here. *)
Fixpoint insert_sorted (x : seg) (l : segs) : segs :=
  match l with
  | [] => [x]
  | y :: t => if comp_full y x then y :: insert_sorted x t else x :: y :: t
  end.
Fixpoint sort (l : segs) : segs :=
  match l with
  | [] => []
  | x :: t => insert_sorted x (sort t)
  end.

(** matrix-view.cc:55-70, BlockIndex::shrink: iterators e1 (kept element) and e2
    (next element).  [shrink_from e1 rest] is the loop with *e1 = e1 and
    [e2, end) = rest; it returns the final content of [e1, end). *)
Fixpoint shrink_from (e1 : seg) (rest : segs) : segs :=
  match rest with
  | [] => [e1]
  | e2 :: t =>
      if negb (comp_ft e1 e2)
      then shrink_from (fst e1, Z.max (snd e1) (fst e2 + snd e2 - fst e1)) t
      else e1 :: shrink_from e2 t
  end.
Definition shrink (a : segs) : segs :=
  match a with
  | [] => []          (* a.size() < 2: return *)
  | e :: t => shrink_from e t
  end.

(** matrix-view.cc:72-82, BlockIndex::overlap. *)
Definition overlap (a b : seg) : bool :=
  if snd a =? 0 then false
  else if snd b =? 0 then false
  else
    let aend := send a in
    let bend := send b in
    if (fst a <=? fst b) && (fst b <? aend) then true
    else if (fst a <? bend) && (bend <=? aend) then true
    else false.

(** matrix-view.cc:84-89, BlockIndex::cardinal. *)
Definition cardinal (a : segs) : Z := fold_left (fun c s => c + snd s) a 0.

(** matrix-view.cc:91-100, BlockIndex::sum (the recursive call exchanges the
    arguments once). *)
Definition sum (a b : seg) : segs :=
  let go a b :=
    if fst a + snd a >=? fst b
    then [(fst a, Z.max (snd a) (fst b + snd b - fst a))]
    else [a; b] in
  if fst a >? fst b then go b a else go a b.

(** matrix-view.cc:102-109, BlockIndex::add(segments_t&, const segment_t&). *)
Definition insert_at (n : nat) (x : seg) (l : segs) : segs :=
  firstn n l ++ x :: skipn n l.
Definition add_seg (a : segs) (b : seg) : option segs :=
  match upper_bound comp_full b a with
  | Some n => Some (insert_at n b a)
  | None => None
  end.

(** matrix-view.cc:111-123, BlockIndex::add(segments_t&, const segments_t&).
    [done] is the reversed content of [begin, _a), [rest] that of [_a, end). *)
Fixpoint add_loop (done rest b : segs) : option segs :=
  match b with
  | [] => Some (rev_append done rest)
  | x :: t =>
      match upper_bound comp_full x rest with
      | Some n => add_loop (x :: rev_append (firstn n rest) done) (skipn n rest) t
      | None => None
      end
  end.
Definition add_segs (a b : segs) : option segs :=
  match a with
  | [] => Some b
  | _ :: _ => add_loop [] a b
  end.

(** matrix-view.cc:125-143, BlockIndex::difference(segment, segment). *)
Definition diff_ss (a b : seg) : segs :=
  if snd a =? 0 then []
  else if snd b =? 0 then [a]
  else
    let aend := send a in
    let bend := send b in
    (if fst a <? fst b
     then let e := Z.min aend (fst b) in [(fst a, e - fst a)] else [])
    ++
    (if bend <? aend
     then let s := Z.max (fst a) bend in [(s, aend - s)] else []).

(** matrix-view.cc:145-162, BlockIndex::difference(segments, segment).
    [first > last] would make the two iterator loops run past each other:
    undefined, hence [None]. *)
Definition diff_ls (a : segs) (b : seg) : option segs :=
  match upper_bound comp_tf b a, upper_bound comp_ft b a with
  | Some first, Some last =>
      if Nat.leb first last
      then Some (firstn first a
                 ++ flat_map (fun x => diff_ss x b) (firstn (last - first) (skipn first a))
                 ++ skipn last a)
      else None
  | _, _ => None
  end.

(** matrix-view.cc:164-170, BlockIndex::difference(segment, segments). *)
Definition diff_sl (a : seg) (b : segs) : option segs :=
  fold_left (fun acc x => match acc with Some d => diff_ls d x | None => None end)
            b (Some [a]).

(** matrix-view.cc:172-181, BlockIndex::difference(segments, segments). *)
Fixpoint diff_ll (a b : segs) : option segs :=
  match a with
  | [] => Some []
  | x :: t =>
      match diff_sl x b, diff_ll t b with
      | Some d, Some r => Some (d ++ r)
      | _, _ => None
      end
  end.

(** matrix-view.cc:183-207, BlockIndex::split.  Returns (result, new content of
    [segments]).  The two assertions (185-186) are checked by [split_checked]. *)
Fixpoint split (segments : segs) (remaining : Z) : segs * segs :=
  match segments with
  | [] => ([], [])
  | it :: t =>
      if snd it >? remaining
      then ([(fst it, remaining)], (fst it + remaining, snd it - remaining) :: t)
      else if snd it =? remaining
      then ([it], t)
      else let '(r, l) := split t (remaining - snd it) in (it :: r, l)
  end.
Definition split_checked (segments : segs) (n : Z) : option (segs * segs) :=
  if (cardinal segments >=? n) && (n >=? 0) then Some (split segments n) else None.

(** matrix-view.cc:209-256, BlockIndex::extract.  [ext_start] is the loop while
    remainingToStart >= 0, [ext_end] the loop once the start has been found.
    [None] = the assertion at line 253 ("Failed to extract segments_t"). *)
Fixpoint ext_end (l : segs) (remainingToEnd : Z) : option segs :=
  match l with
  | [] => None
  | it :: t =>
      if snd it >=? remainingToEnd
      then Some [(fst it, remainingToEnd)]
      else match ext_end t (remainingToEnd - snd it) with
           | Some r => Some ((fst it, snd it) :: r)
           | None => None
           end
  end.
Fixpoint ext_start (l : segs) (remainingToStart card : Z) : option segs :=
  match l with
  | [] => None
  | it :: t =>
      if snd it >? remainingToStart
      then
        let startIndex := fst it + remainingToStart in
        if snd it - remainingToStart >=? card
        then Some [(startIndex, card)]
        else match ext_end t (card - (snd it - remainingToStart)) with
             | Some r => Some ((startIndex, snd it - remainingToStart) :: r)
             | None => None
             end
      else ext_start t (remainingToStart - snd it) card
  end.
(** Lines 212-215: the asserted preconditions; segments[0] on an empty vector is
    undefined behaviour in a build with assertions. *)
Definition extract_pre (l : segs) (start card : Z) : bool :=
  (start >=? 0) && (card >=? 0) && (start + card <=? cardinal l).
Definition extract (l : segs) (start card : Z) : option segs :=
  ext_start l start card.

(** impl/matrix-view.hh, BlockIndex::fromLogicalExpression: one segment (i,1) per
    true position, then shrink. *)
Fixpoint true_segs (i : Z) (m : list bool) : segs :=
  match m with
  | [] => []
  | b :: t => (if b then [(i, 1)] else []) ++ true_segs (i + 1) t
  end.
Definition from_logical (m : list bool) : segs := shrink (true_segs 0 m).

(** matrix-view.hh, MatrixBlocks::updateRows<Sort, Shrink, Cardinal> on the row
    segments: the template flags select which normalisations run. *)
Definition normalise (a : segs) : segs := shrink (sort a).
Definition update_rows (do_sort do_shrink : bool) (a : segs) : segs :=
  let a1 := if do_sort then sort a else a in
  if do_shrink then shrink a1 else a1.
