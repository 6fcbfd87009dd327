(** Theorems about the right hand side of contacts. *)
From Coq Require Import Reals List Bool Arith ZArith.
From Verif Require Import ContactModel ContactProofs ContactMain.
Import ListNotations.
Open Scope R_scope.

(** The pair selected has the smallest distance and is the first one; there is one if there
    are floors and objects (otherwise the indices are not initialised). *)
Theorem C57_selection : forall dp dn nf no,
  let dist j i := if Rlt_dec (dp j i) 0 then dn j i ^ 2 else dp j i ^ 2 + dn j i ^ 2 in
  match select dp dn nf no with
  | None => nf = 0%nat \/ no = 0%nat
  | Some (j, i, inside) =>
      (j < nf)%nat /\ (i < no)%nat /\ (inside = true <-> dp j i < 0) /\
      forall j' i', (j' < nf)%nat -> (i' < no)%nat ->
        dist j i <= dist j' i' /\ ((j' < j \/ j' = j /\ i' < i)%nat -> dist j i < dist j' i')
  end.
Proof. exact selection. Qed.
Print Assumptions C57_selection.

(** Decoding a value gives the surfaces and the relative pose (moved by the margin) ... *)
Theorem C57_round_trip : forall M margin inside v f o,
  0 < M -> (inside = true -> - M <= py v < M /\ - M <= pz v < M) ->
  decode M (hold_value M margin false inside v f o) = Some (f, o, mkpose (px v + margin) (py v) (pz v) (rx v) (ry v) (rz v)).
Proof. exact round_trip. Qed.
Print Assumptions C57_round_trip.

(** ... only in the cell of size M ... *)
Theorem C57_cell : forall M margin v f o w, 0 < M ->
  decode M (hold_value M margin false true v f o) = Some (f, o, w) -> - M <= py v < M /\ - M <= pz v < M.
Proof. exact round_trip_only. Qed.
Print Assumptions C57_cell.
Theorem C57_beyond_refuted :
  decode 1 (hold_value 1 0 false true (mkpose 0 (3 / 2) 0 0 0 0) 0 0) = Some (1%nat, 0%nat, mkpose 0 (- (1 / 2)) 0 0 0 0).
Proof. exact beyond. Qed.
Print Assumptions C57_beyond_refuted.

(** ... which contains the convex hull of every floor. *)
Theorem C57_radius : forall L l ws x r1 r2 r3,
  In l L -> length ws = length l -> (forall w, In w ws -> 0 <= w) -> total ws = 1 ->
  let v := mkpose x (fst (comb ws l)) (snd (comb ws l)) r1 r2 r3 in
  0 < radius L /\ (- radius L <= py v < radius L) /\ (- radius L <= pz v < radius L).
Proof. exact enough. Qed.
Print Assumptions C57_radius.

(** A point contact loses two angles; a negative row is not decoded. *)
Theorem C57_point : forall M margin v f o, 0 < M -> - M <= py v < M -> - M <= pz v < M ->
  decode M (hold_value M margin true true v f o) = Some (f, o, mkpose (px v + margin) (py v) (pz v) (rx v) 0 0).
Proof. exact point. Qed.
Print Assumptions C57_point.
Theorem C57_negative_refuted : decode 1 (mkhold 0 0 0 0 0 (- 2) 0 0) = None.
Proof. exact negative. Qed.
Print Assumptions C57_negative_refuted.

(** Access to the explicit relative pose of a pair. *)
Theorem C57_pose : forall (A : Type) (mk : nat -> nat -> A) nf no j i, (i < no)%nat ->
  pose_at (poses mk nf no) no j i = if (j <? nf)%nat then Some (mk j i) else None.
Proof. exact @pose_at_spec. Qed.
Print Assumptions C57_pose.

(** The pose computed by the explicit constraint satisfies the right hand side if the same
    pair is selected, inside the floor when rows 1 and 2 are zero ... *)
Theorem C57_explicit : forall M margin h f o w, 0 < M -> decode M h = Some (f, o, w) ->
  let inside := req (h1 h) 0 && req (h2 h) 0 in
  (inside = false -> h5 h = INR (2 * f) * M /\ h6 h = INR (2 * o) * M) ->
  hold_value M margin false inside (mkpose (px w - margin) (py w) (pz w) (rx w) (ry w) (rz w)) f o = h.
Proof. exact explicit_ok. Qed.
Print Assumptions C57_explicit.

(** ... but not with another pair, for instance when two floors overlap. *)
Theorem C57_pairs_differ : forall M margin pt v f o pt' v' f' o', 0 < M ->
  (- M <= py v < M /\ - M <= pz v < M) -> (- M <= py v' < M /\ - M <= pz v' < M) ->
  hold_value M margin pt true v f o = hold_value M margin pt' true v' f' o' -> f = f' /\ o = o'.
Proof. exact cells. Qed.
Print Assumptions C57_pairs_differ.
Theorem C57_overlap_refuted : exists h w,
  decode 2 h = Some (1%nat, 0%nat, w) /\ h0 h = 0 /\ h1 h = 0 /\ h2 h = 0 /\ h3 h = 0 /\ h4 h = 0 /\
  select dp2 dn2 2 1 = Some (0%nat, 0%nat, true) /\
  forall v, - 2 <= py v < 2 -> - 2 <= pz v < 2 -> hold_value 2 0 false true v 0 0 <> h.
Proof. exact overlap. Qed.
Print Assumptions C57_overlap_refuted.

Theorem C57_case :
  select (fun j _ => if Nat.eqb j 0 then 3 else -1) (fun _ i => if Nat.eqb i 0 then 2 else 1) 2 2 = Some (1%nat, 1%nat, true) /\
  radius [[(3, 4); (-3, 4)]; [(1, 0)]] = 6 /\
  decode 6 (hold_value 6 0 false true (mkpose 1 (-2) 5 7 8 9) 1 1) = Some (1%nat, 1%nat, mkpose 1 (-2) 5 7 8 9).
Proof. exact case. Qed.
Print Assumptions C57_case.
