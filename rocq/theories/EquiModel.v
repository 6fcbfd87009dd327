(** The matrix phi_ of StaticStability and QPStaticStability.

    Source: /repo/src/static-stability.cc lines 46-78, /repo/src/qp-static-stability.cc lines 40-49, 56-134
    (constructors), 151-156 (evaluation of phi_), /repo/include/hpp/constraints/symbolic-calculus.hh lines
    915-920 (setSize), 930-960 (MatrixOfExpressions::impl_value, impl_jacobian), 1051-1058 (invalidate),
    /repo/include/hpp/constraints/static-stability.hh lines 49-60 (Contact_t),
    /repo/include/hpp/constraints/convex-shape-contact.hh lines 117-122 (ForceData).

    The expressions are objects of SymModel.v, shared as in the constructors: one center of mass, address 0;
    one normal by contact (by element of the vector of ForceData), address 4 g + 2; three objects by column,
    addresses 4 i + 1, 4 i + 3, 4 i + 4.  None = access out of bounds. *)
From Coq Require Import Reals List Bool Arith.
From Verif Require Import Geo Rigid SymModel.
Import ListNotations.

(** Contact_t; None: the joint is NULL *)
Record contact := mkContact { c_joint : option nat; c_point : v3; c_normal : v3 }.
(** ForceData; the member supportJoint is not used *)
Record force_data := mkForce { f_joint : option nat; f_points : list v3; f_normal : v3 }.

(** Column i: phi_(0, i) = n; phi_(1, i) = (OG - OP) ^ n.  static-stability.cc:68-77 *)
Definition column (i : nat) (t : nat * contact) : expr * expr :=
  let '(g, c) := t in
  let n := Vij (4 * g + 2) (c_joint c) (c_normal c) in
  (n, Cross (4 * i + 4) (Diff (4 * i + 3) (Com 0) (Pij (4 * i + 1) (c_joint c) (c_point c))) n).
Fixpoint columns_from (i : nat) (l : list (nat * contact)) : list (expr * expr) :=
  match l with [] => [] | t :: l' => column i t :: columns_from (S i) l' end.
(** constructors from Contacts_t, static-stability.cc:46-78, qp-static-stability.cc:56-92 *)
Fixpoint tag_contacts (g : nat) (cs : list contact) : list (nat * contact) :=
  match cs with [] => [] | c :: t => (g, c) :: tag_contacts (S g) t end.
Definition contact_columns (cs : list contact) : list (expr * expr) := columns_from 0 (tag_contacts 0 cs).
(** constructor from ForceData, qp-static-stability.cc:94-134: columns numbered by col *)
Fixpoint tag_forces (g : nat) (fs : list force_data) : list (nat * contact) :=
  match fs with
  | [] => []
  | f :: t => map (fun p => (g, mkContact (f_joint f) p (f_normal f))) (f_points f) ++ tag_forces (S g) t
  end.
Definition force_columns (fs : list force_data) : list (expr * expr) := columns_from 0 (tag_forces 0 fs).
(** forceDatasToNbContacts, qp-static-stability.cc:40-49 *)
Definition nb_contacts (fs : list force_data) : nat := fold_left (fun nb f => nb + length (f_points f)) fs 0.

(** impl_value: the elements of a row of the matrix are evaluated and read one after the other *)
Fixpoint read_row (es : list expr) (s : robot * store) : list v3 * (robot * store) :=
  match es with
  | [] => ([], s)
  | e :: t => let s1 := step s (Value e) in let '(vs, s2) := read_row t s1 in (val (snd s1 (addr e)) :: vs, s2)
  end.
Fixpoint stack (r0 r1 : list v3) : list twist :=
  match r0, r1 with a :: r0', b :: r1' => Tw a b :: stack r0' r1' | _, _ => [] end.
(** currentConfiguration, invalidate and computeValue; elements_[0][0] is read first *)
Definition phi_value (cols : list (expr * expr)) (q : robot) (s : robot * store) : option (list twist * (robot * store)) :=
  match cols with
  | [] => None
  | _ =>
      let s := run (Move q :: map Invalidate (map fst cols ++ map snd cols)) s in
      let '(r0, s) := read_row (map fst cols) s in
      let '(r1, s) := read_row (map snd cols) s in
      Some (stack r0 r1, s)
  end.

(** impl_jacobian, for one degree of freedom (the Jacobian of an element is represented by one column, see
    SymModel.v): column k of the result is the derivative of column k of the value *)
Fixpoint read_jrow (es : list expr) (s : robot * store) : list v3 * (robot * store) :=
  match es with
  | [] => ([], s)
  | e :: t => let s1 := step s (Jacobian e) in let '(vs, s2) := read_jrow t s1 in (jac (snd s1 (addr e)) :: vs, s2)
  end.
Definition phi_jacobian (cols : list (expr * expr)) (q : robot) (s : robot * store) : option (list twist * (robot * store)) :=
  match cols with
  | [] => None
  | _ =>
      let s := run (Move q :: map Invalidate (map fst cols ++ map snd cols)) s in
      let '(r0, s) := read_jrow (map fst cols) s in
      let '(r1, s) := read_jrow (map snd cols) s in
      Some (stack r0 r1, s)
  end.

(** all elements of the matrix; the value of phi_, for QPModel.v *)
Definition elements (cols : list (expr * expr)) : list expr := map fst cols ++ map snd cols.
Definition phi_of (cols : list (expr * expr)) (s : robot * store) (q : robot) : list twist :=
  match phi_value cols q s with Some (P, _) => P | None => [] end.
