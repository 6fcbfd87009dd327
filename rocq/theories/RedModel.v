(** Reduced Jacobian of a level of the solver by substitution.

    Source: /repo/src/solver/by-substitution.cc:168-204 (updateJacobian),
            /repo/src/solver/hierarchical-iterative.cc:644 (computeValue).

    [rows] is d.activeRowsOfJ.m_rows and the free variables are the variables that are
    not outputs (by-substitution.cc:142-146); [Jf] is the Jacobian of the level, after the
    changes made by computeValue (difference with the right hand side, inequalities);
    [Fs] are the Jacobians of the explicit constraints. *)
From Coq Require Import ZArith List Bool.
From Verif Require Import SegModel ViewModel EcsModel EcsJacModel.
Import ListNotations.
Open Scope Z_scope.

Section Red.
Context {V Rh K : Type}.
Variables (zero one : K) (kadd kmul : K -> K -> K).

(** m1 += m2 *)
Definition madd (A B : mat K) : option (mat K) :=
  if (nr A =? nr B) && (nc A =? nc B) then Some (mkmat (nr A) (nc A) (fun i j => kadd (at_ A i j) (at_ B i j))) else None.
Definition blank (r c : list (Z * Z)) : mat K := mkmat (cardinal r) (cardinal c) (fun _ _ => zero).
Definition update_jacobian (st : ecs V Rh) (Fs : list (mat K)) (rows : list (Z * Z)) (Jf red : mat K) : option (mat K) :=
  if cardinal (inDers st) =? 0 then Some red
  else match jacobian zero one kadd kmul st Fs with
       | None => None
       | Some Jexp =>
           match read_view Jexp (outDers st) (notOutDers st) (blank (outDers st) (notOutDers st)),
                 read_view Jf rows (outDers st) (blank rows (outDers st)) with
           | Some Je, Some Jo => match mprod zero kadd kmul Jo Je with Some M => madd red M | None => None end
           | _, _ => None
           end
       end.
Definition reduced (st : ecs V Rh) (Fs : list (mat K)) (rows : list (Z * Z)) (Jf : mat K) : option (mat K) :=
  match read_view Jf rows (notOutDers st) (blank rows (notOutDers st)) with
  | Some red => update_jacobian st Fs rows Jf red
  | None => None
  end.
End Red.
