(** Model of differentiable functions and of the ways to combine them.

    Source: /repo/include/hpp/constraints/differentiable-function.hh lines 63-120,
    /repo/include/hpp/constraints/differentiable-function-set.hh lines 44-144,
    /repo/include/hpp/constraints/function/of-parameter-subset.hh lines 78-90,
    /repo/src/function/of-parameter-subset.cc lines 43-59,
    /repo/include/hpp/constraints/function/difference.hh lines 60-75,
    /repo/src/function/difference.cc lines 43-68,
    /repo/include/hpp/constraints/active-set-differentiable-function.hh lines 54-83.

    Matrices are those of ViewModel.  A Jacobian is computed in place: [f_jac x m] is
    the content of matrix m after the call, [None] an access out of the matrix or an
    Eigen size mismatch.  Output spaces are kept by their sizes nq, nv only. *)
From Coq Require Import ZArith List Bool.
From Verif Require Import ViewModel.
Import ListNotations.
Local Open Scope Z_scope.

(** differentiable-function.hh:232-250 (members), 264-270 (virtual functions) *)
Record fn (A : Type) := mkfn {
  f_in : Z; f_ind : Z;                  (* inputSize_, inputDerivativeSize_ *)
  f_out : Z; f_outd : Z;                (* outputSpace_->nq(), nv() *)
  f_act : list bool; f_actd : list bool;
  f_val : list A -> list A;
  f_jac : list A -> mat A -> option (mat A)
}.
Arguments mkfn {A}. Arguments f_in {A}. Arguments f_ind {A}. Arguments f_out {A}. Arguments f_outd {A}.
Arguments f_act {A}. Arguments f_actd {A}. Arguments f_val {A}. Arguments f_jac {A}.

Section Fun.
Context {A : Type}.

(** m.middleRows(r, n), m.middleCols(c, n) as matrices of their own; Eigen checks the
    bounds. *)
Definition rows_of (r n : Z) (m : mat A) : mat A := mkmat n (nc m) (fun i j => at_ m (r + i) j).
Definition cols_of (c n : Z) (m : mat A) : mat A := mkmat (nr m) n (fun i j => at_ m i (c + j)).

(** call of [g] on a block, whose coefficients are those of m *)
Definition on_rows (r n : Z) (g : mat A -> option (mat A)) (m : mat A) : option (mat A) :=
  if in_range m r 0 n (nc m) then
    match g (rows_of r n m) with
    | Some b => Some (mkmat (nr m) (nc m) (fun i j => if (r <=? i) && (i <? r + n) then at_ b (i - r) j else at_ m i j))
    | None => None
    end
  else None.
Definition on_cols (c n : Z) (g : mat A -> option (mat A)) (m : mat A) : option (mat A) :=
  if in_range m 0 c (nr m) n then
    match g (cols_of c n m) with
    | Some b => Some (mkmat (nr m) (nc m) (fun i j => if (c <=? j) && (j <? c + n) then at_ b i (j - c) else at_ m i j))
    | None => None
    end
  else None.

(** DifferentiableFunction::jacobian, differentiable-function.hh:86-91 *)
Definition jacobian (f : fn A) (x : list A) (m : mat A) : option (mat A) :=
  if (Z.of_nat (length x) =? f_in f) && (nr m =? f_outd f) && (nc m =? f_ind f) then f_jac f x m else None.

(** DifferentiableFunctionSet, differentiable-function-set.hh:44-144; the members
    inherited from DifferentiableFunction are kept as in [fn]. *)
Record fset := mkset { s_fs : list (fn A); s_in : Z; s_ind : Z; s_out : Z; s_outd : Z; s_act : list bool; s_actd : list bool }.

(** constructors, lines 98-101 *)
Definition set_new : fset := mkset [] 0 0 0 0 [] [].

(** Eigen's || of two boolean arrays *)
Fixpoint or_arrays (a b : list bool) : option (list bool) :=
  match a, b with
  | [], [] => Some []
  | x :: a', y :: b' => match or_arrays a' b' with Some l => Some ((x || y) :: l) | None => None end
  | _, _ => None
  end.

(** add, lines 64-81 *)
Definition set_add (s : fset) (f : fn A) : option fset :=
  match s_fs s with
  | [] => Some (mkset [f] (f_in f) (f_ind f) (s_out s + f_out f) (s_outd s + f_outd f) (f_act f) (f_actd f))
  | _ => match or_arrays (s_act s) (f_act f), or_arrays (s_actd s) (f_actd f) with
         | Some a, Some b => Some (mkset (s_fs s ++ [f]) (s_in s) (s_ind s) (s_out s + f_out f) (s_outd s + f_outd f) a b)
         | _, _ => None
         end
  end.

Fixpoint set_adds (s : fset) (l : list (fn A)) : option fset :=
  match l with [] => Some s | f :: t => match set_add s f with Some s' => set_adds s' t | None => None end end.

(** merge, lines 84-89 *)
Definition set_merge (s o : fset) : option fset := set_adds s (s_fs o).

(** result.vector().segment(row, n) = v *)
Definition seg_write (row n : nat) (v res : list A) : option (list A) :=
  if (Nat.eqb (length v) n) && (Nat.leb (row + n) (length res))
  then Some (firstn row res ++ v ++ skipn (row + n) res) else None.

(** impl_compute, lines 104-117 *)
Fixpoint set_values (fs : list (fn A)) (x : list A) (row : nat) (res : list A) : option (list A) :=
  match fs with
  | [] => Some res
  | f :: t => match seg_write row (Z.to_nat (f_out f)) (f_val f x) res with
              | Some r => set_values t x (row + Z.to_nat (f_out f)) r
              | None => None
              end
  end.
Definition set_compute (s : fset) (x res : list A) : option (list A) := set_values (s_fs s) x 0 res.

(** impl_jacobian, lines 118-126 (the members' impl_jacobian is called directly) *)
Fixpoint set_rows (fs : list (fn A)) (x : list A) (row : Z) (m : mat A) : option (mat A) :=
  match fs with
  | [] => Some m
  | f :: t => match on_rows row (f_outd f) (f_jac f x) m with
              | Some m' => set_rows t x (row + f_outd f) m'
              | None => None
              end
  end.
Definition set_jacobian (s : fset) (x : list A) (m : mat A) : option (mat A) := set_rows (s_fs s) x 0 m.

(** A set used as a function ([d]: initial content of the result vector). *)
Definition set_fn (d : A) (s : fset) : fn A :=
  mkfn (s_in s) (s_ind s) (s_out s) (s_outd s) (s_act s) (s_actd s)
    (fun x => match set_compute s x (repeat d (Z.to_nat (s_out s))) with Some v => v | None => [] end)
    (set_jacobian s).

(** arg.segment(first, length) *)
Definition segment (s : Z * Z) (x : list A) : list A := firstn (Z.to_nat (snd s)) (skipn (Z.to_nat (fst s)) x).

Definition bseg_write (s : Z * Z) (v l : list bool) : list bool :=
  firstn (Z.to_nat (fst s)) l ++ v ++ skipn (Z.to_nat (fst s) + length v) l.

(** OfParameterSubset, of-parameter-subset.cc:43-59 and of-parameter-subset.hh:78-86 *)
Definition subset_fn (g : fn A) (nargs nders : Z) (sa sd : Z * Z) : fn A :=
  mkfn nargs nders (f_out g) (f_outd g)
    (bseg_write sa (f_act g) (repeat false (Z.to_nat nargs)))
    (bseg_write sd (f_actd g) (repeat false (Z.to_nat nders)))
    (fun x => f_val g (segment sa x))
    (fun x m => on_cols (fst sd) (snd sd) (jacobian g (segment sa x)) m).

(** Difference, difference.cc:43-68 and difference.hh:60-74: [sub] is the difference of
    two elements of the output space, [neg] multiplication by -1. *)
Definition difference_fn (sub : list A -> list A -> list A) (neg : A -> A) (g : fn A) (nargs nders : Z) (la ld ra rd : Z * Z) : fn A :=
  mkfn nargs nders (f_outd g) (f_outd g)
    (bseg_write ra (f_act g) (bseg_write la (f_act g) (repeat false (Z.to_nat nargs))))
    (bseg_write rd (f_actd g) (bseg_write ld (f_actd g) (repeat false (Z.to_nat nders))))
    (fun x => sub (f_val g (segment la x)) (f_val g (segment ra x)))
    (fun x m => match on_cols (fst ld) (snd ld) (jacobian g (segment la x)) m with
                | Some m1 => match on_cols (fst rd) (snd rd) (jacobian g (segment ra x)) m1 with
                             | Some m2 => on_cols (fst rd) (snd rd) (fun b => Some (mkmat (nr b) (nc b) (fun i j => neg (at_ b i j)))) m2
                             | None => None
                             end
                | None => None
                end).

(** ActiveSetDifferentiableFunction, lines 54-83: all parameters active (constructor of
    DifferentiableFunction), columns of the saturated variables set to zero. *)
Fixpoint zero_cols (zero : A) (l : list (Z * Z)) (m : mat A) : option (mat A) :=
  match l with
  | [] => Some m
  | s :: t => match on_cols (fst s) (snd s) (fun b => Some (mkmat (nr b) (nc b) (fun _ _ => zero))) m with
              | Some m' => zero_cols zero t m'
              | None => None
              end
  end.
Definition active_set_fn (zero : A) (f : fn A) (l : list (Z * Z)) : fn A :=
  mkfn (f_in f) (f_ind f) (f_out f) (f_outd f)
    (repeat true (Z.to_nat (f_in f))) (repeat true (Z.to_nat (f_ind f)))
    (f_val f)
    (fun x m => match jacobian f x m with Some m' => zero_cols zero l m' | None => None end).
End Fun.
Arguments fset : clear implicits.
