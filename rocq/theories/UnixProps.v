(** Meshes whose triangles do not share their data (msh_unindexed.h): the properties. *)
From Coq Require Import List Arith Bool Lia Reals Lra.
Import ListNotations.
From Verif Require Import Imp QuatModel ProxModel UnixModel UnixSpec UnixProofs1 UnixProofs2.
Open Scope nat_scope.

(** Every corner of every triangle has the coordinates of its vertex, and there is nothing else, whatever the array held before. *)
Theorem C86_vertices : forall before vtx_xyz tri_vtx, mesh_in vtx_xyz tri_vtx -> exists o,
  UnidexedVertexDataTriMesh before vtx_xyz tri_vtx = Some o /\ length o = length tri_vtx / 3 * 9 /\
  forall t c d, t < length tri_vtx / 3 -> c < 3 -> d < 3 -> entry o t c d = coord vtx_xyz (corner tri_vtx t c) d.
Proof. exact vertex_ok. Qed.

(** The three corners of a triangle have its normal: length 1, along the area vector, at right angles to the sides. *)
Theorem C86_normals : forall before vtx_xyz tri_vtx, mesh_in vtx_xyz tri_vtx -> exists o,
  UnindexedNormalTriMesh3 before vtx_xyz tri_vtx = Some o /\ length o = length tri_vtx / 3 * 9 /\
  forall t c, t < length tri_vtx / 3 -> c < 3 ->
    let A := area_vec vtx_xyz (corner tri_vtx t 0) (corner tri_vtx t 1) (corner tri_vtx t 2) in
    (0 < dotd A A)%R ->
    dotd (entry o t c) (entry o t c) = 1%R /\ (exists k, (0 < k)%R /\ forall d, d < 3 -> entry o t c d = (k * A d)%R) /\
    (forall i j, i < 3 -> j < 3 -> dotd (entry o t c) (edge_vec vtx_xyz (corner tri_vtx t i) (corner tri_vtx t j)) = 0%R).
Proof.
  intros before vtx tri M. destruct (normal_ok before vtx tri M) as (o & E & L & N). exists o. split; [exact E|]. split; [exact L|].
  intros t c Ht Hc A HA. destruct (N t c Ht Hc HA) as (U & k & K & D). split; [exact U|]. split; [exists k; split; [exact K|exact D]|].
  intros i j Hi Hj. unfold dotd. rewrite !D by lia. fold A. unfold A, area_vec, edge_vec. cbn -[Rmult Rplus Rminus coord corner].
  assert (Ci : i = 0 \/ i = 1 \/ i = 2) by lia. assert (Cj : j = 0 \/ j = 1 \/ j = 2) by lia.
  destruct Ci as [-> | [-> | ->]], Cj as [-> | [-> | ->]]; ring.
Qed.

(** The three corners of a triangle have the colour of its group. *)
Theorem C86_colours : forall before flg_rgb tri_flg tri_vtx, length tri_vtx / 3 <= length tri_flg -> (forall f, In f tri_flg -> f < length flg_rgb) -> exists o,
  UnindexedColorTriMesh3 before flg_rgb tri_flg tri_vtx = Some o /\ length o = length tri_vtx / 3 * 9 /\
  forall t c, t < length tri_vtx / 3 -> c < 3 -> (entry o t c 0, entry o t c 1, entry o t c 2) = nth (nth t tri_flg 0) flg_rgb (0%R, 0%R, 0%R).
Proof. exact color_ok. Qed.

(** Side e of a triangle goes from corner e to the next corner, for every array. *)
Theorem C86_sides : forall before tri_xyz, exists o,
  UnindexedEdgeMesh3_UnindexedTrimesh3 before tri_xyz = Some o /\ length o = length tri_xyz / 9 * 18 /\
  forall t e s d, t < length tri_xyz / 9 -> e < 3 -> s < 2 -> d < 3 -> side_entry o t e s d = entry tri_xyz t ((e + s) mod 3) d.
Proof. exact edges_ok. Qed.

(** The sides of a mesh: both ends are vertices of the triangle. *)
Theorem C86_sides_of_mesh : forall b1 b2 vtx_xyz tri_vtx, mesh_in vtx_xyz tri_vtx -> exists o s,
  UnidexedVertexDataTriMesh b1 vtx_xyz tri_vtx = Some o /\ UnindexedEdgeMesh3_UnindexedTrimesh3 b2 o = Some s /\
  length s = length tri_vtx / 3 * 18 /\
  forall t e w d, t < length tri_vtx / 3 -> e < 3 -> w < 2 -> d < 3 -> side_entry s t e w d = coord vtx_xyz (corner tri_vtx t ((e + w) mod 3)) d.
Proof.
  intros b1 b2 vtx tri M. destruct (vertex_ok b1 vtx tri M) as (o & E & L & N). destruct (edges_ok b2 o) as (s & Es & Ls & Ns).
  rewrite L, Nat.div_mul in Ls, Ns by lia. exists o, s. split; [exact E|]. split; [exact Es|]. split; [exact Ls|].
  intros t e w d Ht He Hw Hd. rewrite Ns, N by (auto; apply Nat.mod_upper_bound; lia). reflexivity.
Qed.

(** A vertex that does not exist is not read silently. *)
Theorem C86_vertices_outside : forall before vtx_xyz v, length vtx_xyz <= v * 3 -> UnidexedVertexDataTriMesh before vtx_xyz [v; v; v] = None.
Proof.
  intros before vtx v H. unfold UnidexedVertexDataTriMesh. cbn [length Nat.div Nat.divmod fst]. cbv zeta. unfold forn. cbn [Nat.sub forn_ Nat.mul Nat.add vget nth_error bind].
  assert (E : nth_error vtx (v * 3 + 0) = None) by (apply nth_error_None; lia). unfold vget. rewrite E. reflexivity.
Qed.

(** Two triangles in space that share a side. *)
Definition ex_vtx : list R := [0; 0; 0; 1; 0; 0; 0; 1; 0; 1; 1; 1]%R.
Definition ex_tri : list nat := [0; 1; 2; 2; 1; 3].
Example ex_mesh : mesh_in ex_vtx ex_tri.
Proof. intros v H. simpl in H. simpl. lia. Qed.
Example ex_not_flat : forall t, t < 2 -> let A := area_vec ex_vtx (corner ex_tri t 0) (corner ex_tri t 1) (corner ex_tri t 2) in (0 < dotd A A)%R.
Proof. intros t H. assert (C : t = 0 \/ t = 1) by lia. destruct C as [-> | ->]; unfold dotd, area_vec, edge_vec, coord, corner, ex_vtx, ex_tri; cbn; lra. Qed.
Example ex_vertices : UnidexedVertexDataTriMesh [7]%R ex_vtx ex_tri = Some [0; 0; 0; 1; 0; 0; 0; 1; 0; 0; 1; 0; 1; 0; 0; 1; 1; 1]%R.
Proof. reflexivity. Qed.
Example ex_colours : UnindexedColorTriMesh3 [] [(1, 0, 0); (0, 1, 0)]%R [1; 0] ex_tri = Some [0; 1; 0; 0; 1; 0; 0; 1; 0; 1; 0; 0; 1; 0; 0; 1; 0; 0]%R.
Proof. reflexivity. Qed.

Print Assumptions C86_vertices.
Print Assumptions C86_normals.
Print Assumptions C86_colours.
Print Assumptions C86_sides.
Print Assumptions C86_sides_of_mesh.
Print Assumptions C86_vertices_outside.
