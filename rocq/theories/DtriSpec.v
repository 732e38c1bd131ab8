(** Independent vocabulary for dynamic triangle meshes: consistency as checked by AssertDTri / AssertMeshDTri. *)
From Coq Require Import List Arith.
Import ListNotations.
From Verif Require Import Imp DtriModel.

(** Corner i and link i of a triangle record / of triangle t of a mesh. *)
Definition vtx (t : dtri) (i : nat) : nat := match i with 0 => tv0 t | 1 => tv1 t | _ => tv2 t end.
Definition lnk (t : dtri) (i : nat) : option nat := match i with 0 => ts0 t | 1 => ts1 t | _ => ts2 t end.
Definition V (m : list dtri) (t i : nat) : nat := vtx (nth t m dtri0) i.
Definition L (m : list dtri) (t i : nat) : option nat := lnk (nth t m dtri0) i.
Definition nx (i : nat) := (i + 1) mod 3.
Definition pv (i : nat) := (i + 2) mod 3.

(** Edge i of triangle t (the edge from corner i+1 to corner i+2) and edge k of triangle j are linked to each other and
    are the same edge traversed in opposite directions. *)
Definition twin (m : list dtri) (t i j k : nat) : Prop :=
  i < 3 /\ k < 3 /\ L m t i = Some j /\ L m j k = Some t /\
  V m t (nx i) = V m j (pv k) /\ V m t (pv i) = V m j (nx k).

(** What AssertDTri checks: three different corners, three different neighbours, every link has a twin. *)
Definition tri_ok (m : list dtri) : Prop :=
  forall t, t < length m ->
    (forall i j, i < 3 -> j < 3 -> V m t i = V m t j -> i = j) /\
    (forall i j, i < 3 -> j < 3 -> L m t i = L m t j -> L m t i <> None -> i = j) /\
    (forall i j, i < 3 -> L m t i = Some j -> j < length m /\ exists k, twin m t i j k).

(** What AssertMeshDTri checks: corners are points; a point's link names a triangle corner at that point. *)
Definition pnt_ok (po : list dpnt) (m : list dtri) : Prop :=
  (forall t i, t < length m -> i < 3 -> V m t i < length po) /\
  (forall p t, p < length po -> pe (nth p po (mkP None 0)) = Some t ->
     t < length m /\ pd (nth p po (mkP None 0)) < 3 /\ V m t (pd (nth p po (mkP None 0))) = p).

Definition consistent (po : list dpnt) (m : list dtri) : Prop := tri_ok m /\ pnt_ok po m.

(** Edits of a dynamic mesh (points, triangles), and when the caller may issue them. *)
Inductive edit :=
| AddPoint                                     (* append a point that no triangle uses yet *)
| Insert (p t : nat)                           (* InsertPoint_Elem *)
| InsertOnEdge (p t e : nat)                   (* InsertPoint_ElemEdge *)
| Flip (t e : nat)                             (* FlipEdge *)
| Delete (t : nat).                            (* DeleteTri *)

Definition corner_of (m : list dtri) (t p : nat) : Prop := exists i, i < 3 /\ V m t i = p.

(** The edge between t and its neighbour j can be flipped: the two far corners differ, and no third triangle is glued
    to both sides of the quad at either end of the edge (i.e. no end of the edge has exactly three triangles). *)
Definition flippable (m : list dtri) (t e : nat) : Prop :=
  forall j k, twin m t e j k ->
    V m t e <> V m j k /\
    (L m t (pv e) = L m j (nx k) -> L m t (pv e) = None) /\
    (L m j (pv k) = L m t (nx e) -> L m j (pv k) = None).

Definition allowed (po : list dpnt) (m : list dtri) (ed : edit) : Prop :=
  match ed with
  | AddPoint => True
  | Insert p t => p < length po /\ t < length m /\ ~ corner_of m t p
  | InsertOnEdge p t e => p < length po /\ t < length m /\ e < 3 /\ ~ corner_of m t p /\
      exists j, L m t e = Some j /\ ~ corner_of m j p
  | Flip t e => t < length m /\ e < 3 /\ flippable m t e
  | Delete t => t < length m /\ (forall i, i < 3 -> L m t i = None) /\
      (forall p, p < length po -> pe (nth p po (mkP None 0)) <> Some t)
  end.

(** Change in the number of triangles. *)
Definition grow (ed : edit) (n : nat) : nat :=
  match ed with Insert _ _ | InsertOnEdge _ _ _ => n + 2 | Delete _ => n - 1 | _ => n end.

(** One edit executed by the model (AddPoint: the caller appends a fresh CDynPntSur). *)
Definition run1 (ed : edit) (st : list dpnt * list dtri) : option (list dpnt * list dtri) :=
  let '(po, m) := st in
  match ed with
  | AddPoint => Some (po ++ [mkP None 0], m)
  | Insert p t => InsertPoint_Elem p t po m
  | InsertOnEdge p t e => InsertPoint_ElemEdge p t e po m
  | Flip t e => '(_, s) <- FlipEdge t e po m ;; Some s
  | Delete t => DeleteTri t po m
  end.

(** Every edit of the list is allowed in the state in which it is issued. *)
Fixpoint allowed_all (eds : list edit) (st : list dpnt * list dtri) : Prop :=
  match eds with
  | [] => True
  | ed :: r => allowed (fst st) (snd st) ed /\ forall st', run1 ed st = Some st' -> allowed_all r st'
  end.

(** No two triangles of the list have the same three corners. *)
Definition no_same_corners (tri : list nat) (nt : nat) : Prop :=
  forall t t', t < nt -> t' < nt -> t <> t' ->
    exists i, i < 3 /\ forall j, j < 3 -> nth (t * 3 + i) tri 0 <> nth (t' * 3 + j) tri 0.

(** The link of point p, and the state of a point not used by any triangle. *)
Definition has_link (po : list dpnt) (p : nat) : Prop := pe (nth p po (mkP None 0)) <> None.
