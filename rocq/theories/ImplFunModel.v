(** Model of class hpp::constraints::explicit_::ImplicitFunction, the implicit form
    q_out - f (q_in) of an explicit constraint.

    Source: /repo/src/explicit/implicit-function.cc.

    Scalars of configurations are an abstract type V, coefficients of Jacobians an
    abstract type K.  The output space of f is the list of its elementary factors;
    for each one the two blocks written by the visitor (lines 74-154) are functions
    of the parts of q_out and f (q_in) in the factor: [fa_out] in the columns of the
    output velocities, [fa_in], which also depends on the rows of the Jacobian of f,
    in the columns of the input velocities.  For R3xSO3 the code writes the 3x3
    diagonal blocks of fa_out and the top and bottom rows of fa_in separately; the
    rest of the block is zero because the Jacobian is set to zero first: they are
    here one block. *)
From Coq Require Import ZArith List Bool.
From Verif Require Import SegModel ViewModel FunModel.
Import ListNotations.
Open Scope Z_scope.

Section ImplFun.
Context {V K : Type}.
Variable zero : K.

Record factor := mkfac { fa_q : Z; fa_v : Z; fa_out : list V -> list V -> mat K; fa_in : list V -> list V -> mat K -> mat K }.

(** members, lines 164-181; [if_f], [if_J]: value and Jacobian of inputToOutput_;
    [if_sub]: difference of elements of the output space *)
Record ifun := mkif {
  if_nq : Z; if_nv : Z;
  if_f : list V -> list V; if_J : list V -> mat K;
  if_sub : list V -> list V -> list V;
  if_space : list factor;
  if_in : list (Z * Z); if_out : list (Z * Z); if_inv : list (Z * Z); if_outv : list (Z * Z) }.

Definition mark (segs : list (Z * Z)) (a : Z -> bool) : Z -> bool :=
  fun i => if existsb (fun s => (fst s <=? i) && (i <? send s)) segs then true else a i.
(** lines 197-205, activeParameters_, activeDerivativeParameters_ *)
Definition if_active (g : ifun) : Z -> bool := mark (if_out g) (mark (if_in g) (fun _ => false)).
Definition if_activev (g : ifun) : Z -> bool := mark (if_outv g) (mark (if_inv g) (fun _ => false)).

(** lines 208-224, impl_compute *)
Definition if_value (g : ifun) (q : Z -> V) : list V :=
  if_sub g (vread q (if_out g)) (if_f g (vread q (if_in g))).

(** the visitor on the rows [res] of one factor; [rows] is the interval stored in
    outJacobian_[rank] and inJacobian_[rank] (lines 261-266), applied to [res] *)
Definition visit (fa : factor) (qo fq : list V) (Jf : mat K) (rows cols incols : list (Z * Z)) (res : mat K) : option (mat K) :=
  match write_view res rows cols (fa_out fa qo fq) with
  | Some m => write_view m rows incols (fa_in fa qo fq Jf)
  | None => None
  end.
(** lines 226-252, impl_jacobian, and 254-272, computeJacobianBlocks: the column
    blocks are split from the output velocity intervals; [jacobian.middleRows(iv,nv)]
    is what the visitor is given *)
Fixpoint visits (fs : list factor) (qo fq : list V) (Jf : mat K) (iq iv : Z) (rem incols : list (Z * Z)) (J : mat K) : option (mat K) :=
  match fs with
  | [] => Some J
  | fa :: t =>
      let '(cols, rem') := split rem (fa_v fa) in
      match on_rows iv (fa_v fa)
              (visit fa (segment (iq, fa_q fa) qo) (segment (iq, fa_q fa) fq) (rows_of iv (fa_v fa) Jf) [(iv, fa_v fa)] cols incols) J with
      | Some J' => visits t qo fq Jf (iq + fa_q fa) (iv + fa_v fa) rem' incols J'
      | None => None
      end
  end.
Definition if_jacobian (g : ifun) (q : Z -> V) (J : mat K) : option (mat K) :=
  let qin := vread q (if_in g) in
  visits (if_space g) (vread q (if_out g)) (if_f g qin) (if_J g qin) 0 0 (if_outv g) (if_inv g)
    (mkmat (nr J) (nc J) (fun _ _ => zero)).

(** the generic visitor, lines 150-154 *)
Definition plain (one : K) (opp : K -> K) (n : Z) : factor :=
  mkfac n n (fun _ _ => mkmat n n (fun i j => if i =? j then one else zero))
    (fun _ _ F => mkmat (nr F) (nc F) (fun i j => opp (at_ F i j))).
End ImplFun.
Arguments factor : clear implicits.
Arguments ifun : clear implicits.
