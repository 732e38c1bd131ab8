(** What is expected of meshes whose triangles do not share their data. *)
From Coq Require Import List Arith Reals.
Import ListNotations.
From Verif Require Import QuatModel.
Open Scope nat_scope.

(** all vertices that the triangles name exist *)
Definition mesh_in (vtx_xyz : list R) (tri_vtx : list nat) : Prop := forall v, In v tri_vtx -> v * 3 + 3 <= length vtx_xyz.
(** vertex of corner c of triangle t *)
Definition corner (tri_vtx : list nat) (t c : nat) : nat := nth (t * 3 + c) tri_vtx 0.
(** coordinate d of vertex v *)
Definition coord (vtx_xyz : list R) (v d : nat) : R := nth (v * 3 + d) vtx_xyz 0%R.
(** number d of corner c of triangle t, in data that are not shared *)
Definition entry (o : list R) (t c d : nat) : R := nth (t * 9 + c * 3 + d) o 0%R.
(** number d of end s of side e of triangle t, in a list of sides *)
Definition side_entry (o : list R) (t e s d : nat) : R := nth (t * 18 + e * 6 + s * 3 + d) o 0%R.
(** twice the area vector of a triangle, number d *)
Definition edge_vec (vtx_xyz : list R) (v w d : nat) : R := (coord vtx_xyz w d - coord vtx_xyz v d)%R.
Definition area_vec (vtx_xyz : list R) (u v w d : nat) : R :=
  (edge_vec vtx_xyz u v ((d + 1) mod 3)%nat * edge_vec vtx_xyz u w ((d + 2) mod 3)%nat - edge_vec vtx_xyz u v ((d + 2) mod 3)%nat * edge_vec vtx_xyz u w ((d + 1) mod 3)%nat)%R.
(** scalar product of two vectors given number by number *)
Definition dotd (f g : nat -> R) : R := (f 0%nat * g 0%nat + f 1%nat * g 1%nat + f 2%nat * g 2%nat)%R.
