(** Saving and loading functions, constraints and box constraints.
    Modelled from src/differentiable-function.cc:257-271, src/affine-function.cc:38-62,
    src/relative-com.cc:175-187, src/generic-transformation.cc:279-292, 329-356,
    src/explicit/relative-transformation.cc:245-264, src/explicit/implicit-function.cc:272-297,
    src/implicit.cc:246-261, src/solver/hierarchical-iterative.cc:945-953,
    src/serialization.hh:7-14, include/hpp/constraints/serialization.hh:38-59.

    An archive is a list of tokens.  Saving writes tokens; loading starts from an object built by
    the default constructor, reads tokens and assigns members: [None] is an archive that does not
    contain what is expected.  Devices, joints, Lie group spaces, names and functions referred to
    by shared pointers are written by other libraries: here they are identified by a number and
    come back as the object of this number.  Weak pointers to self are left out.  Reals instead of
    floating point numbers. *)
From Coq Require Import Reals List Bool Arith ZArith.
From Verif Require Import Geo Rigid SegModel ViewModel EcsModel EcsRhsModel ImplModel DistModel GTModel RelComModel RTModel SatModel.
Import ListNotations.
Local Open Scope R_scope.

Inductive tok := TN (n : nat) | TZ (z : Z) | TB (b : bool) | TR (x : R).
Definition reader (A : Type) := list tok -> option (A * list tok).
Definition ret_ {A} (a : A) : reader A := fun ts => Some (a, ts).
Definition get {A B} (r : reader A) (k : A -> reader B) : reader B :=
  fun ts => match r ts with Some (a, ts') => k a ts' | None => None end.
Notation "'let*' x := r 'in' k" := (get r (fun x => k)) (at level 200, x name, r at level 100, k at level 200).
Definition rN : reader nat := fun ts => match ts with TN n :: t => Some (n, t) | _ => None end.
Definition rZ : reader Z := fun ts => match ts with TZ z :: t => Some (z, t) | _ => None end.
Definition rB : reader bool := fun ts => match ts with TB b :: t => Some (b, t) | _ => None end.
Definition rR : reader R := fun ts => match ts with TR x :: t => Some (x, t) | _ => None end.
(** vectors: size, then elements *)
Definition wL {A} (w : A -> list tok) (l : list A) : list tok := TN (length l) :: flat_map w l.
Fixpoint rep {A} (r : reader A) (n : nat) : reader (list A) :=
  match n with O => ret_ [] | S m => let* x := r in let* l := rep r m in ret_ (x :: l) end.
Definition rL {A} (r : reader A) : reader (list A) := let* n := rN in rep r n.
(** shared pointers, src/serialization.hh:7-14: may be null *)
Definition wO (j : option nat) : list tok := match j with None => [TB false] | Some n => [TB true; TN n] end.
Definition rO : reader (option nat) := let* b := rB in if b then let* n := rN in ret_ (Some n) else ret_ None.
(** 3-vectors, rotations, placements *)
Definition w3 (v : v3) : list tok := map TR (v3l v).
Definition r3 : reader v3 := let* x := rR in let* y := rR in let* z := rR in ret_ (V3 x y z).
Definition wM (m : m3) : list tok := w3 (ra m) ++ w3 (rb m) ++ w3 (rc m).
Definition rM : reader m3 := let* a := r3 in let* b := r3 in let* c := r3 in ret_ (M3 a b c).
Definition wP (M : se3) : list tok := wM (rot M) ++ w3 (tra M).
Definition rP : reader se3 := let* m := rM in let* v := r3 in ret_ (SE3 m v).
(** include/hpp/constraints/serialization.hh:47-58, MatrixBlocks with all columns or all rows: the
    segments of the other direction *)
Record blk := Blk { nbRows : Z; nbCols : Z; segs : list (Z * Z) }.
Definition wS (s : Z * Z) : list tok := [TZ (fst s); TZ (snd s)].
Definition rS : reader (Z * Z) := let* a := rZ in let* l := rZ in ret_ (a, l).
Definition wK (b : blk) : list tok := TZ (nbRows b) :: TZ (nbCols b) :: wL wS (segs b).
Definition rK : reader blk := let* r := rZ in let* c := rZ in let* s := rL rS in ret_ (Blk r c s).

(** MatrixBlocks with rows and columns *)
Record fblk := FBlk { fRows : Z; fCols : Z; frows : list (Z * Z); fcols : list (Z * Z) }.
Definition wF (b : fblk) : list tok := TZ (fRows b) :: TZ (fCols b) :: wL wS (frows b) ++ wL wS (fcols b).
Definition rF : reader fblk := let* r := rZ in let* c := rZ in let* s := rL rS in let* t := rL rS in ret_ (FBlk r c s t).

(** *** DifferentiableFunction, differentiable-function.cc:257-271.  The default constructor gives
    empty active parameters. *)
Record dfun := DF { d_in : nat; d_inv : nat; d_space : nat; d_act : list bool; d_actv : list bool; d_name : nat; d_ctx : nat }.
Definition wD (f : dfun) : list tok :=
  [TN (d_in f); TN (d_inv f); TN (d_space f)] ++
  (if (0 <? d_in f)%nat then wL (fun b => [TB b]) (d_act f) else []) ++
  (if (0 <? d_inv f)%nat then wL (fun b => [TB b]) (d_actv f) else []) ++ [TN (d_name f); TN (d_ctx f)].
Definition rD : reader dfun :=
  let* i := rN in let* v := rN in let* s := rN in
  let* a := (if (0 <? i)%nat then rL rB else ret_ []) in
  let* av := (if (0 <? v)%nat then rL rB else ret_ []) in
  let* n := rN in let* c := rN in ret_ (DF i v s a av n c).

(** *** AffineFunction, affine-function.cc:46-53, affine-function.hh:81-139.  J_ by rows; a matrix
    without rows keeps its number of columns. *)
Record affine := Aff { a_d : dfun; a_cols : nat; a_J : list (list R); a_b : list R }.
Definition wAff (f : affine) : list tok :=
  wD (a_d f) ++ [TN (a_cols f)] ++ wL (wL (fun x => [TR x])) (a_J f) ++ wL (fun x => [TR x]) (a_b f).
Definition rAff : reader affine :=
  let* d := rD in let* n := rN in let* J := rL (rL rR) in let* b := rL rR in ret_ (Aff d n J b).
Definition dotl (u v : list R) : R := fold_right Rplus 0 (map (fun p => fst p * snd p) (combine u v)).
(** impl_compute, impl_jacobian *)
Definition aff_value (f : affine) (x : list R) : list R := map (fun p => dotl (fst p) x + snd p) (combine (a_J f) (a_b f)).
Definition aff_jacobian (f : affine) : list (list R) := a_J f.

(** *** ConstantFunction, affine-function.cc:56-61, affine-function.hh:145-196: c_ is a vector and a space *)
Record constant := Cst { c_d : dfun; c_vec : list R; c_space : nat }.
Definition wCst (f : constant) : list tok := wD (c_d f) ++ wL (fun x => [TR x]) (c_vec f) ++ [TN (c_space f)].
Definition rCst : reader constant := let* d := rD in let* v := rL rR in let* s := rN in ret_ (Cst d v s).
Definition cst_value (f : constant) (x : list R) : list R := c_vec f.

(** *** RelativeCom, relative-com.cc:175-187 *)
Record rcf := RCF { rf_d : dfun; rf_robot : nat; rf_comc : nat; rf_f : rcom }.
Definition wRC (f : rcf) : list tok :=
  wD (rf_d f) ++ [TN (rf_robot f); TN (rf_comc f)] ++ wO (rc_joint (rf_f f)) ++ w3 (rc_ref (rf_f f)) ++
  wL (fun b => [TB b]) (rc_mask (rf_f f)).
(** the last lines compute nominalCase_ as the constructor does *)
Definition rRC : reader rcf :=
  let* d := rD in let* r := rN in let* c := rN in let* j := rO in let* v := r3 in let* m := rL rB in
  fun ts => match rc_create j v m with Some f => Some (RCF d r c f, ts) | None => None end.

(** *** GenericTransformation, generic-transformation.cc:279-292 and 329-356.  [gt_V]: rows of
    Vindices_; the member R2isID is never read. *)
Record gtf := GTF { gt_d : dfun; gt_robot : nat; gt_cols : nat; gt_R2 : bool; gt_m : gt; gt_V : list (Z * Z) }.
Section GT.
Variables (isId : m3 -> bool) (isZero : v3 -> bool) (quat : m3 -> list R).
Variable o : opts.
(** constructor and setters *)
Definition gt_new (d : dfun) (robot cols : nat) (r2 : bool) (mask : list bool) (l : list setter) : gtf :=
  GTF d robot cols r2 (setup isId isZero o mask l) (from_logical (mask ++ if so3 o then [true] else [])).
Definition wGT (f : gtf) : list tok :=
  let g := gt_m f in
  wD (gt_d f) ++ [TN (gt_robot f)] ++
  (wO (g_j2 g) ++ [TB (R1isID g); TB (gt_R2 f); TB (t1isZero g); TB (t2isZero g)] ++ wP (F1 g) ++ wP (F2 g) ++
   [TB (fullPos g); TB (fullOri g); TN (rowOri g); TN (gt_cols f)] ++ (if relative o then wO (g_j1 g) else [])) ++
  wL (fun b => [TB b]) (g_mask g).
(** Vindices_ is the one of the default constructor, .hh:367 *)
Definition rGT : reader gtf :=
  let* d := rD in let* r := rN in
  let* j2 := rO in let* r1 := rB in let* r2 := rB in let* t1 := rB in let* t2 := rB in
  let* f1 := rP in let* f2 := rP in let* fp := rB in let* fo := rB in let* ro := rN in let* cols := rN in
  let* j1 := (if relative o then rO else ret_ None) in
  let* m := rL rB in
  ret_ (GTF d r cols r2 (GT j1 j2 r1 t1 t2 f1 f2 fp fo ro m) []).
(** impl_compute, .cc:217-231: the view of Vindices_ is assigned to a vector of [n] elements.
    [None]: different sizes (assertion of Eigen; nothing is written without assertions) *)
Definition gtf_value (f : gtf) (k : kins) (n : nat) : option (list R) :=
  let v := vread (fun i => nth (Z.to_nat i) (raw quat o (gt_m f) k) 0) (gt_V f) in
  if (length v =? n)%nat then Some v else None.
(** impl_jacobian, .cc:233-254 *)
Definition gtf_jacobian (f : gtf) (k : kins) (junk : list R) (old : list (list R)) : option (list (list R)) :=
  jacobian o (gt_m f) k (gt_cols f) junk old.
End GT.

(** *** explicit_::RelativeTransformation, relative-transformation.cc:245-264.  [pos]: position of
    a joint in its parent, of the device *)
Record rto := RTO { ro_d : dfun; ro_robot : nat; ro_parent : option nat; ro_j1 : option nat; ro_j2 : nat;
  ro_F1 : se3; ro_F2 : se3; ro_inConf : blk; ro_inVel : blk; ro_outConf : blk; ro_outVel : blk; ro_C : se3 }.
Definition wRT (f : rto) : list tok :=
  wD (ro_d f) ++ [TN (ro_robot f)] ++ wO (ro_parent f) ++ wO (ro_j1 f) ++ wO (Some (ro_j2 f)) ++
  wP (ro_F1 f) ++ wP (ro_F2 f) ++ wK (ro_inConf f) ++ wK (ro_inVel f) ++ wK (ro_outConf f) ++ wK (ro_outVel f) ++ wP (ro_C f).
Definition rRT : reader rto :=
  let* d := rD in let* r := rN in let* p := rO in let* j1 := rO in let* j2 := rO in
  let* f1 := rP in let* f2 := rP in let* a := rK in let* b := rK in let* c := rK in let* e := rK in let* C := rP in
  match j2 with Some j2 => ret_ (RTO d r p j1 j2 f1 f2 a b c e C) | None => fun _ => None end.
Definition ro_f (pos : nat -> se3) (f : rto) : rtf :=
  RTF (ro_parent f) (ro_j1 f) (pos (ro_j2 f)) (ro_F1 f) (ro_F2 f) (ro_C f) (segs (ro_inVel f)).

(** *** explicit_::ImplicitFunction, implicit-function.cc:272-297.  [insz], [insv], [outq], [outv]:
    sizes of the function inputToOutput_; the sizes of the temporaries f_qIn_, qOut_, result_,
    qIn_ and Jf_ *)
Record ifo := IFO { if_d : dfun; if_f : nat; if_inC : blk; if_outC : blk; if_inV : blk; if_outV : blk;
  if_outJ : list fblk; if_inJ : list fblk; if_tmp : list nat }.
Section IF.
Variables (insz insv outq outv : nat -> nat).
Definition tmp_sizes (f rows : nat) : list nat := [outq f; outq f; rows; insz f; outv f; insv f].
Definition wIF (f : ifo) : list tok :=
  wD (if_d f) ++ [TN (if_f f)] ++ wK (if_inC f) ++ wK (if_outC f) ++ wK (if_inV f) ++ wK (if_outV f) ++
  wL wF (if_outJ f) ++ wL wF (if_inJ f).
(** [spn]: size of the space of a function *)
Variable spn : nat -> nat.
Definition rIF : reader ifo :=
  let* d := rD in let* f := rN in let* a := rK in let* b := rK in let* c := rK in let* e := rK in
  let* oj := rL rF in let* ij := rL rF in
  ret_ (IFO d f a b c e oj ij (tmp_sizes f (spn (d_space d)))).
(** constructor, lines 164-215: [oj], [ij] are the blocks of computeJacobianBlocks *)
Definition if_new (d : dfun) (f : nat) (a b c e : blk) (oj ij : list fblk) : ifo :=
  IFO d f a b c e oj ij (tmp_sizes f (spn (d_space d))).
End IF.

(** *** Implicit, implicit.cc:246-261.  [i_rhsf]: rhsFunction_ *)
Record imo := IMO { i_i : impl nat; i_rhs : list R; i_rhsf : option nat; i_out : list R; i_logn : nat }.
Definition wCmp (c : cmp) : list tok := [TN (match c with Equality => 0 | EqualToZero => 1 | Superior => 2 | Inferior => 3 end)].
Definition rCmp : reader cmp :=
  let* n := rN in match n with 0%nat => ret_ Equality | 1%nat => ret_ EqualToZero | 2%nat => ret_ Superior | 3%nat => ret_ Inferior | _ => fun _ => None end.
Definition wI (c : imo) : list tok :=
  wL wCmp (m_cmp (i_i c)) ++ wL (fun x => [TR x]) (i_rhs c) ++ [TN (m_fun (i_i c))] ++ wO (i_rhsf c) ++
  wL (fun b => [TB b]) (m_mask (i_i c)).
(** output_ and logOutput_ are those of the default constructor: empty *)
Definition rI : reader imo :=
  let* cm := rL rCmp in let* rhs := rL rR in let* f := rN in let* g := rO in let* m := rL rB in
  ret_ (IMO (impl_load (cm, length rhs, f, m)) rhs g [] 0).
Section I.
(** [nq], [nv]: sizes of the output space of a function; [val f q]: its value, of size nq f;
    [logq], [expq]: logarithm and exponential of the space *)
Variables (nq nv : nat -> nat) (val : nat -> list R -> list R).
Variables (logq expq : nat -> list R -> list R).
(** implicit.cc:114-136, constructor; [neutral]: neutral element of the output space *)
Definition im_new (f : nat) (comp : list cmp) (mask : list bool) (neutral : list R) : imo :=
  IMO (impl_new f (nq f) comp mask) (repeat 0 (nq f)) None neutral (nv f).
(** lines 212-220, rightHandSideFromConfig.  [None]: the value is written in an element of
    another size, or rows out of the bounds of logOutput_ are written *)
Definition im_keep (segs : list (Z * Z)) (v : list R) : list R :=
  map (fun p => if existsb (fun s => (fst s <=? Z.of_nat (fst p))%Z && (Z.of_nat (fst p) <? fst s + snd s)%Z) segs then snd p else 0)
    (combine (seq 0 (length v)) v).
Definition im_from_config (c : imo) (q : list R) : option (list R) :=
  let f := m_fun (i_i c) in
  if (length (i_out c) =? nq f)%nat && (i_logn c =? nv f)%nat
  then Some (expq f (im_keep (m_eq (i_i c)) (logq f (val f q)))) else None.
(** lines 86-93, rightHandSideAt *)
Definition im_at (c : imo) (t : R) : option (list R) :=
  match i_rhsf c with
  | None => Some (i_out c)
  | Some g => if (length (i_out c) =? nq g)%nat then Some (val g [t]) else None
  end.
End I.

(** *** saturation::Bounds, hierarchical-iterative.hh:132-145, .cc:945-953 *)
Record bnd := Bnd { b_lb : list R; b_ub : list R; b_iv : list Z }.
Definition wBnd (b : bnd) : list tok := wL (fun x => [TR x]) (b_lb b) ++ wL (fun x => [TR x]) (b_ub b).
Definition rBnd : reader bnd := let* l := rL rR in let* u := rL rR in ret_ (Bnd l u []).
(** constructor of lines 135-140 *)
Definition bnd_new (lb ub : list R) : bnd := Bnd lb ub (zrange (Z.of_nat (length ub))).
(** .cc:138-144: [None] if a vector is read out of its bounds *)
Definition bnd_sat (leb : R -> R -> bool) (b : bnd) (q : list R) : option (sst R) :=
  let n := length q in
  if (n <=? length (b_lb b))%nat && (n <=? length (b_ub b))%nat && (n <=? length (b_iv b))%nat
  then let at_ l i := nth (Z.to_nat i) l 0 in
       Some (sat_list leb (at_ (b_lb b)) (at_ (b_ub b)) (at_ q) (bounds_pairs (Z.of_nat n) (fun i => nth (Z.to_nat i) (b_iv b) 0%Z))
               (mksst (at_ q) (fun _ => 0%Z) false))
  else None.
