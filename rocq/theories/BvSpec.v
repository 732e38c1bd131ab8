(** Specification vocabulary for bounding volumes: point sets, distances, sub-trees. *)
From Coq Require Import List Arith Reals.
Import ListNotations.
From Verif Require Import MortModel MortSpec BvModel.
Open Scope R_scope.

Definition dist (p q : v3) : R := sqrt ((vx p - vx q) ^ 2 + (vy p - vy q) ^ 2 + (vz p - vz q) ^ 2).

(** The set of points of a volume. *)
Definition inbox (b : aabb) (q : v3) : Prop :=
  vx (bmin b) <= vx q <= vx (bmax b) /\ vy (bmin b) <= vy q <= vy (bmax b) /\ vz (bmin b) <= vz q <= vz (bmax b).
Definition insphere (s : sphere) (q : v3) : Prop := dist q (sc s) <= sr s.
(** A box all of whose sides are ordered; or one marked inactive on its first axis. *)
Definition proper (b : aabb) : Prop := vx (bmin b) <= vx (bmax b) /\ vy (bmin b) <= vy (bmax b) /\ vz (bmin b) <= vz (bmax b).
Definition inactive (b : aabb) : Prop := vx (bmax b) < vx (bmin b).

(** The cube and the ball of half-width / radius [e] around a point. *)
Definition near_box (p : v3) (e : R) (q : v3) : Prop := Rabs (vx q - vx p) <= e /\ Rabs (vy q - vy p) <= e /\ Rabs (vz q - vz p) <= e.
Definition near_ball (p : v3) (e : R) (q : v3) : Prop := dist q p <= e.

(** Points of a line and of a half-line. *)
Definition on_line (src dir q : v3) : Prop := exists t, q = V3 (vx src + t * vx dir) (vy src + t * vy dir) (vz src + t * vz dir).
Definition on_ray (src dir q : v3) : Prop := exists t, 0 <= t /\ q = V3 (vx src + t * vx dir) (vy src + t * vy dir) (vz src + t * vz dir).
Definition nonzero (d : v3) : Prop := ~ (vx d = 0 /\ vy d = 0 /\ vz d = 0).

Inductive subtree : btree -> btree -> Prop :=
  | sub_refl : forall t, subtree t t
  | sub_l : forall s k l r, subtree s l -> subtree s (BNode k l r)
  | sub_r : forall s k l r, subtree s r -> subtree s (BNode k l r).
(** Leaves of a tree, from left to right: (node, object). *)
Fixpoint leaves (t : btree) : list (nat * nat) := match t with BLeaf k o => [(k, o)] | BNode _ l r => leaves l ++ leaves r end.

Definition point (xyz : list R) (i : nat) : v3 := V3 (nth (i * 3) xyz 0) (nth (i * 3 + 1) xyz 0) (nth (i * 3 + 2) xyz 0).

(** Vertices of the elements exist, elements have at least one vertex. *)
Definition mesh_ok (xyz : list R) (elem : list nat) (nElem nnoel : nat) : Prop :=
  (0 < nnoel)%nat /\ length elem = (nElem * nnoel)%nat /\ forall v, In v elem -> (v * 3 + 2 < length xyz)%nat.
(** Position of corner [i] of element [o]. *)
Definition corner (xyz : list R) (elem : list nat) (nnoel o i : nat) : v3 := point xyz (nth (o * nnoel + i) elem 0%nat).

(** A hierarchy of active spheres in which every volume contains the volumes below it. *)
Definition nested_spheres (aBB : list sphere) (t : btree) : Prop :=
  (forall s, subtree s t -> 0 <= sr (nth (root s) aBB sphere0)) /\
  (forall s s' q, subtree s t -> subtree s' s -> insphere (nth (root s') aBB sphere0) q -> insphere (nth (root s) aBB sphere0) q).
Definition nested_boxes (aBB : list aabb) (t : btree) : Prop :=
  forall s s' q, subtree s t -> subtree s' s -> inbox (nth (root s') aBB aabb0) q -> inbox (nth (root s) aBB aabb0) q.
