(** C73: editing and building meshes. *)
From Coq Require Import List Arith Bool ZArith Reals Lra Lia Permutation.
Import ListNotations.
From Verif Require Import Imp PrModel PolyModel QuatModel QuatSpec ProxModel IsecModel GjkProofs1 ProxSpec ProxProofs1 MeasModel MeasSpec MeasProofs1 MeasProofs2 MeasProofs3 EditModel EditSpec EditProofs1 EditProofs2 EditProofs3.
Open Scope R_scope.

(** Removing unused points keeps the mesh: same elements, same corner positions, the used points in the same order and no others; the map gives
    the new number of every used point and -2 for the others.  The old contents of the outputs have no influence. *)
Theorem C73_remove_unused : forall old1 oldE m a e, (0 < m)%nat -> (forall i, In i e -> (i < length a / m)%nat) ->
  exists a1 e1 mp, RemoveUnreferencedPoints_MeshElem old1 oldE m a e = Some (a1, e1, mp) /\ same_mesh_without_unused m a e a1 e1 /\
    length mp = (length a / m)%nat /\ (forall j, (j < length e)%nat -> nth (nth j e 0%nat) mp 0%Z = Z.of_nat (nth j e1 0%nat)) /\
    (forall i, (i < length a / m)%nat -> ~ In i e -> nth i mp 0%Z = (-2)%Z).
Proof. apply remove_proof. Qed.
Print Assumptions C73_remove_unused.
Example ex_remove : RemoveUnreferencedPoints_MeshElem [9] [] 2 [0; 0; 1; 1; 2; 2; 3; 3] [3; 0; 3; 2]%nat = Some ([0; 0; 2; 2; 3; 3], [2; 0; 2; 1]%nat, [0; -2; 1; 2]%Z).
Proof. reflexivity. Qed.

(** Quality of a triangulation in the plane: the largest aspect and the smallest area, both attained. *)
Theorem C73_quality : forall a tri n, (3 * n <= length tri)%nat -> (forall i, In i tri -> (2 * i + 1 < length a)%nat) -> (0 < n)%nat -> (forall t, (t < n)%nat -> tri_area2 a tri t <> 0) ->
  let asp := fun t => aspect (pnt2 a (cor 3 tri t 0)) (pnt2 a (cor 3 tri t 1)) (pnt2 a (cor 3 tri t 2)) (tri_area2 a tri t) in
  exists mx mn, Quality_MeshTri2D a tri n = Some (mx, mn) /\
    (forall t, (t < n)%nat -> asp t <= mx) /\ (exists t, (t < n)%nat /\ asp t = mx) /\
    (forall t, (t < n)%nat -> mn <= tri_area2 a tri t) /\ (exists t, (t < n)%nat /\ tri_area2 a tri t = mn).
Proof. apply quality_proof. Qed.
Print Assumptions C73_quality.
Example ex_quality : let a := [0; 0; 4; 0; 0; 4; 4; 2] in let tri := [0; 1; 2; 1; 3; 2]%nat in
  (3 * 2 <= length tri)%nat /\ (forall i, In i tri -> (2 * i + 1 < length a)%nat) /\ tri_area2 a tri 0 = 8 /\ tri_area2 a tri 1 = 4.
Proof.
  cbv zeta. split; [cbn; lia|]. split; [intros i Hi; cbn in Hi; cbn; lia|]. split; unfold tri_area2, cor; cbn; field.
Qed.

(** Extruding triangles to layers of tetrahedra, for triangles with three different corners: the points are the points of the plane, layer by layer;
    each prism is three tetrahedra of a third of its volume; and the faces of all tetrahedra are, apart from pairs that cancel, exactly the triangles
    of the bottom (reversed), the triangles of the top and the walls over the border: the tetrahedra fit together. *)
Theorem C73_extrude : forall nl h old oldT xy tri, (forall i, In i tri -> (i < length xy / 2)%nat) ->
  (forall t, (t < length tri / 3)%nat -> cor 3 tri t 0 <> cor 3 tri t 1 /\ cor 3 tri t 1 <> cor 3 tri t 2 /\ cor 3 tri t 2 <> cor 3 tri t 0) ->
  let n := (length xy / 2)%nat in let m := (length tri / 3)%nat in
  exists a tet, ExtrudeTri2Tet nl h old oldT xy tri = Some (a, tet) /\ length a = (n * (nl + 1) * 3)%nat /\ length tet = (12 * m * nl)%nat /\ valid tet a /\
    (forall l i, (l <= nl)%nat -> (i < n)%nat -> pnt a (l * n + i) = V3 (nth (2 * i) xy 0) (nth (2 * i + 1) xy 0) (INR l * h)) /\
    (forall l t k, (l < nl)%nat -> (t < m)%nat -> (k < 3)%nat -> tet_vol a tet (3 * (l * m + t) + k) = h * tri_area2 xy tri t / 3) /\
    (forall B, border (tris tri) B -> same_chain (faces tet) (map reversed (map (in_layer n 0) (tris tri)) ++ map (in_layer n nl) (tris tri) ++ flat_map (fun l => flat_map (wall n l) B) (seq 0 nl))).
Proof. apply extrude_proof. Qed.
Print Assumptions C73_extrude.
Example ex_extrude_border : border (tris [0; 1; 2; 2; 3; 0]%nat) [(0, 1); (1, 2); (2, 3); (3, 0)]%nat.
Proof.
  intros a b. destruct a as [|[|[|[|a]]]], b as [|[|[|[|b]]]]; reflexivity.
Qed.
Example ex_extrude : exists a, ExtrudeTri2Tet 1 2 [] [] [0; 0; 1; 0; 1; 1; 0; 1] [0; 1; 2; 2; 3; 0]%nat
  = Some (a, [2; 0; 1; 6; 6; 0; 5; 4; 6; 0; 1; 5; 3; 0; 2; 7; 7; 0; 6; 4; 7; 0; 2; 6]%nat) /\ tet_vol a [2; 0; 1; 6]%nat 0 = 1 / 3.
Proof. eexists. split; [reflexivity|]. unfold tet_vol, at_corner, pnt, cor, volume, volume6. cbn. field. Qed.
(** A triangle whose first and third corners are equal passes the check, and is extruded from point 0, which it does not have. *)
Theorem C73_extrude_check_refuted : exists a, ExtrudeTri2Tet 1 1 [] [] [0; 0; 1; 0; 0; 1] [2; 1; 2]%nat = Some (a, [0; 0; 0; 3; 3; 0; 3; 3; 3; 0; 0; 3]%nat).
Proof. eexists. reflexivity. Qed.
Print Assumptions C73_extrude_check_refuted.

(** Smoothing: the result is the array in which every point is the centre of the triangles around it, weighted by area, when the points before it have
    been moved; there is no other result, and no result when a point has no triangles or only triangles without area.  No point leaves a box around
    the points. *)
Theorem C73_smoothing : forall tri ind lst a, lists_ok (length a / 3) tri ind lst -> (forall i, In i tri -> (i < length a / 3)%nat) ->
  (forall b, LaplacianSmoothing a tri ind lst = Some b <-> (length b = length a /\ smoothed tri ind lst a b (length a / 3) /\ forall k, (3 * (length a / 3) <= k)%nat -> nth k b 0 = nth k a 0)) /\
  (forall b lo hi, LaplacianSmoothing a tri ind lst = Some b -> (forall i, (i < length a / 3)%nat -> inside lo hi (pnt a i)) -> forall i, (i < length a / 3)%nat -> inside lo hi (pnt b i)) /\
  (forall i, (i < length a / 3)%nat -> (nth (i + 1) ind 0 <= nth i ind 0)%nat -> LaplacianSmoothing a tri ind lst = None).
Proof.
  intros tri ind lst a HL Hv. assert (V : valid tri a) by (intros i Hi; apply div3_lt, Hv, Hi). split; [|split].
  - intros b. apply lap_proof; assumption.
  - intros b lo hi E Hin. apply (lap_box tri ind lst a b lo hi); assumption.
  - intros i Hi Hz. destruct (LaplacianSmoothing a tri ind lst) as [b|] eqn:E; [|reflexivity]. apply lap_proof in E; [|assumption..]. destruct E as (_ & S & _). destruct (S i Hi) as (N & _). exfalso. apply N.
    replace (nth (i + 1) ind 0 - nth i ind 0)%nat with 0%nat by lia. reflexivity.
Qed.
Print Assumptions C73_smoothing.
Lemma nz_area : forall p q r, 0 < (let u := V3 (vx q - vx p) (vy q - vy p) (vz q - vz p) in let v := V3 (vx r - vx p) (vy r - vy p) (vz r - vz p) in (vy u * vz v - vz u * vy v) ^ 2 + (vz u * vx v - vx u * vz v) ^ 2 + (vx u * vy v - vy u * vx v) ^ 2) -> area2 p q r / 2 <> 0.
Proof. intros p q r H. pose proof (sqrt_lt_R0 _ H) as G. unfold area2. cbv zeta in *. lra. Qed.
Example ex_smoothing : lists_ok 3 [0; 1; 2]%nat [0; 1; 2; 3]%nat [0; 0; 0]%nat /\ LaplacianSmoothing [0; 0; 0; 3; 0; 0; 0; 3; 0] [0; 1; 2]%nat [0; 1; 2; 3]%nat [0; 0; 0]%nat = Some [1; 1; 0; 4/3; 4/3; 0; 7/9; 16/9; 0].
Proof.
  assert (L : lists_ok 3 [0; 1; 2]%nat [0; 1; 2; 3]%nat [0; 0; 0]%nat) by (split; [cbn; lia|]; split; intros i Hi; cbn in Hi |- *; lia). split; [exact L|].
  apply (proj1 (C73_smoothing [0; 1; 2]%nat [0; 1; 2; 3]%nat [0; 0; 0]%nat [0; 0; 0; 3; 0; 0; 0; 3; 0] L ltac:(intros i Hi; cbn in Hi |- *; lia))). split; [reflexivity|]. split.
  - intros i Hi. change (i < 3)%nat in Hi. assert (K : forall w p c, w 0%nat <> 0 -> c = p 0%nat -> centre_of 1 w p c) by (intros w p c Hw ->; split; [cbn; lra|]; unfold comb, wsum, origin3; apply v3_eq; cbn; ring).
    destruct i as [|[|[|i]]]; [..|lia]; apply K; try (unfold tri_area, at_corner, pnt, cor; apply nz_area; cbn; lra); unfold tri_mid, mid3, comb, at_corner, pnt, cor; apply v3_eq; cbn; field.
  - intros k Hk. change (9 <= k)%nat in Hk. rewrite !nth_overflow by (cbn; lia). reflexivity.
Qed.

(** Joining two meshes keeps both. *)
Theorem C73_add_mesh : forall a tri a0 tri0, length a = (3 * (length a / 3))%nat -> length tri = (3 * (length tri / 3))%nat -> valid tri a -> valid tri0 a0 ->
  let '(a', tri') := AddMesh a tri a0 tri0 in
    valid tri' a' /\ length tri' = (length tri + length tri0)%nat /\
    (forall t k, (t < length tri / 3)%nat -> (k < 3)%nat -> at_corner a' 3 tri' t k = at_corner a 3 tri t k) /\
    (forall t k, (t < length tri0 / 3)%nat -> (k < 3)%nat -> at_corner a' 3 tri' (length tri / 3 + t) k = at_corner a0 3 tri0 t k).
Proof. apply addmesh_proof. Qed.
Print Assumptions C73_add_mesh.
Example ex_add : AddMesh [0; 0; 0; 1; 0; 0; 0; 1; 0] [0; 1; 2]%nat [0; 0; 5; 1; 0; 5; 0; 1; 5] [2; 1; 0]%nat = ([0; 0; 0; 1; 0; 0; 0; 1; 0; 0; 0; 5; 1; 0; 5; 0; 1; 5], [0; 1; 2; 5; 4; 3]%nat).
Proof. reflexivity. Qed.

(** Scaling, translation (of points with any number of coordinates) and rotation: every point is moved as asked; the rotation is the one about the
    x axis, then y, then z, and keeps all distances. *)
Theorem C73_scale : forall a s, exists a', Scale_PointsX a s = Some a' /\ length a' = length a /\ forall k, (k < length a)%nat -> nth k a' 0 = nth k a 0 * s.
Proof. apply scale_proof. Qed.
Print Assumptions C73_scale.
Theorem C73_translate : forall a n m t, (0 < m)%nat -> (n * m <= length a)%nat -> (m <= length t)%nat ->
  exists a', Translate_Points a n m t = Some a' /\ length a' = length a /\ (forall i k, (i < n)%nat -> (k < m)%nat -> coord m a' i k = coord m a i k + nth k t 0) /\ (forall k, (n * m <= k)%nat -> nth k a' 0 = nth k a 0).
Proof. apply translate_proof. Qed.
Print Assumptions C73_translate.
Theorem C73_translate3 : forall a x y z, exists a', Translate_Points3 a x y z = Some a' /\ length a' = length a /\ forall i, (i < length a / 3)%nat -> pnt a' i = vadd (pnt a i) (V3 x y z).
Proof. apply translate3_proof. Qed.
Print Assumptions C73_translate3.
Example ex_translate : exists a', Translate_Points [1; 2; 3; 4; 5] 2 2 [10; 20] = Some a' /\ nth 2 a' 0 = 13 /\ nth 3 a' 0 = 24 /\ nth 4 a' 0 = 5.
Proof. eexists. split; [reflexivity|]. cbn. lra. Qed.
Lemma spin_dist : forall x y z p q, dist3 (Mat3_Bryant x y z p) (Mat3_Bryant x y z q) = dist3 p q.
Proof.
  intros x y z p q. unfold dist3. f_equal. pose proof (sin2_cos2 x) as X. pose proof (sin2_cos2 y) as Y. pose proof (sin2_cos2 z) as Z. unfold Rsqr in *. unfold Mat3_Bryant. cbn [vx vy vz].
  set (dx := vx p - vx q). set (dy := vy p - vy q). set (dz := vz p - vz q).
  set (sx := sin x) in *. set (cx := cos x) in *. set (sy := sin y) in *. set (cy := cos y) in *. set (sz := sin z) in *. set (cz := cos z) in *.
  set (b := dy * cx - dz * sx). set (c := dy * sx + dz * cx). set (a2 := dx * cy + c * sy). set (c2 := c * cy - dx * sy).
  transitivity ((a2 * cz - b * sz) ^ 2 + (a2 * sz + b * cz) ^ 2 + c2 ^ 2); [unfold c2, a2, c, b, dx, dy, dz; ring|].
  transitivity ((sz * sz + cz * cz) * (a2 ^ 2 + b ^ 2) + c2 ^ 2); [ring|]. rewrite Z.
  transitivity ((sy * sy + cy * cy) * (dx ^ 2 + c ^ 2) + b ^ 2); [unfold a2, c2; ring|]. rewrite Y.
  transitivity (dx ^ 2 + (sx * sx + cx * cx) * (dy ^ 2 + dz ^ 2)); [unfold b, c; ring|]. rewrite X. unfold dx, dy, dz. ring.
Qed.
Theorem C73_rotate : forall a x y z, exists a', Rotate_Points3 a x y z = Some a' /\ length a' = length a /\
  (forall i, (i < length a / 3)%nat -> pnt a' i = rodrigues (V3 0 0 1) z (rodrigues (V3 0 1 0) y (rodrigues (V3 1 0 0) x (pnt a i)))) /\
  (forall i j, (i < length a / 3)%nat -> (j < length a / 3)%nat -> dist3 (pnt a' i) (pnt a' j) = dist3 (pnt a i) (pnt a j)).
Proof.
  intros a x y z. destruct (rotate_proof a x y z) as (a' & E & L & P). exists a'. split; [exact E|]. split; [exact L|]. split; [exact P|]. intros i j Hi Hj. rewrite !P by assumption. rewrite <- !Bryant_rot. apply spin_dist.
Qed.
Print Assumptions C73_rotate.
Example ex_rotate : exists a', Rotate_Points3 [1; 0; 0] 0 0 (PI / 2) = Some a' /\ pnt a' 0 = V3 0 1 0.
Proof. eexists. split; [reflexivity|]. unfold pnt, Mat3_Bryant. cbn [nth upd vx vy vz Nat.mul Nat.add]. cbn. rewrite cos_PI2, sin_PI2, cos_0, sin_0. apply v3_eq; cbn [vx vy vz]; ring. Qed.

(** Normalising the points: moved and scaled so that the middle of the bounding box is the origin and its longest side is as asked. *)
Theorem C73_normalize : forall a L, (3 <= length a)%nat -> 0 < L -> (exists p q, points a p /\ points a q /\ p <> q) ->
  exists a' c s, Normalize_Points3 a L = Some a' /\ length a' = length a /\ 0 < s /\
    (forall i, (i < length a / 3)%nat -> pnt a' i = vscale s (vadd (pnt a i) (vscale (-1) c))) /\
    exists h, box_of (points a') (vscale (-1) h) h /\ (2 * vx h <= L /\ 2 * vy h <= L /\ 2 * vz h <= L) /\ (2 * vx h = L \/ 2 * vy h = L \/ 2 * vz h = L).
Proof. apply normalize_proof. Qed.
Print Assumptions C73_normalize.
Example ex_normalize : exists p q, points [0; 0; 0; 1; 2; 3] p /\ points [0; 0; 0; 1; 2; 3] q /\ p <> q.
Proof. exists (V3 0 0 0), (V3 1 2 3). split; [exists 0%nat; split; [cbn; lia|reflexivity]|]. split; [exists 1%nat; split; [cbn; lia|reflexivity]|]. intros E. apply (f_equal vx) in E. cbn in E. lra. Qed.
(** Normalising vectors gives their directions, and has no result if one of them is zero. *)
Theorem C73_normalize_vectors : forall a n, (3 * n <= length a)%nat ->
  ((forall i, (i < n)%nat -> pnt a i <> V3 0 0 0) -> exists a', NormalizeVector_Points a n = Some a' /\ length a' = length a /\ forall i, (i < n)%nat -> direction (pnt a i) (pnt a' i)) /\
  (forall i, (i < n)%nat -> pnt a i = V3 0 0 0 -> NormalizeVector_Points a n = None).
Proof. apply normalize_vec_proof. Qed.
Print Assumptions C73_normalize_vectors.
(** The tangent of every vector is its part orthogonal to the normal, if that is a unit vector, times the length of this part. *)
Theorem C73_tangent : forall o n, length o = length n ->
  exists o', TangentVector_Points3 o n = Some o' /\ length o' = (length n / 3 * 3)%nat /\
    forall i, (i < length n / 3)%nat -> vdot (pnt n i) (pnt n i) = 1 ->
      exists t, vdot t (pnt n i) = 0 /\ (exists k, pnt o i = vadd t (vscale k (pnt n i))) /\ pnt o' i = vscale (sqrt (vdot t t)) t.
Proof.
  intros o n Hl. destruct (tangent_proof o n Hl) as (o' & E & L & P). exists o'. split; [exact E|]. split; [exact L|]. intros i Hi Hu. exists (projected (pnt o i) (pnt n i)). split; [|split; [|apply P; exact Hi]].
  - unfold projected. transitivity (vdot (pnt o i) (pnt n i) * (1 - vdot (pnt n i) (pnt n i))); [unfold vdot, vadd, vscale; cbn [vx vy vz]; ring|rewrite Hu; ring].
  - exists (vdot (pnt o i) (pnt n i)). unfold projected, vadd, vscale. apply v3_eq; cbn [vx vy vz]; ring.
Qed.
Print Assumptions C73_tangent.
(** It is not a unit vector: the code multiplies with the length where it should divide. *)
Theorem C73_tangent_unit_refuted : exists o', TangentVector_Points3 [2; 0; 0] [0; 0; 1] = Some o' /\ vdot (pnt o' 0) (pnt o' 0) = 16.
Proof.
  destruct (C73_tangent [2; 0; 0] [0; 0; 1] eq_refl) as (o' & E & _ & P). exists o'. split; [exact E|]. destruct (P 0%nat ltac:(cbn; lia) ltac:(unfold vdot, pnt; cbn; ring)) as (t & T1 & (k & T2) & T3). rewrite T3. unfold pnt in T1, T2. cbn in T1, T2. unfold vdot in T1. cbn [vx vy vz] in T1.
  assert (Tx := f_equal vx T2). assert (Ty := f_equal vy T2). assert (Tz := f_equal vz T2). unfold vadd, vscale in Tx, Ty, Tz. cbn [vx vy vz] in Tx, Ty, Tz. assert (Et : t = V3 2 0 0) by (apply v3_eq; cbn [vx vy vz]; lra). rewrite Et.
  assert (S : sqrt (vdot (V3 2 0 0) (V3 2 0 0)) = 2) by (unfold vdot; cbn [vx vy vz]; replace (2 * 2 + 0 * 0 + 0 * 0) with (2 * 2) by ring; apply sqrt_square; lra). rewrite S. unfold vdot, vscale. cbn [vx vy vz]. ring.
Qed.
Print Assumptions C73_tangent_unit_refuted.

(** Vertex normals of triangles: the direction of the sum of the unit normals of the triangles at the vertex; no result for a triangle without area or a
    vertex at which the sum is zero, in particular a vertex of no triangle. *)
Theorem C73_normal_tri : forall l np tri n, (3 * np <= length l)%nat -> (3 * n <= length tri)%nat -> (forall i, In i tri -> (i < np)%nat) ->
  (forall u, (forall t, (t < n)%nat -> unit_normal (at_corner l 3 tri t 0) (at_corner l 3 tri t 1) (at_corner l 3 tri t 2) (u t)) ->
    ((forall i, (i < np)%nat -> gathered 3 tri n (fun t _ => u t) i <> V3 0 0 0) -> exists a, Normal_MeshTri3D l np tri n = Some a /\ length a = (3 * np)%nat /\ forall i, (i < np)%nat -> direction (gathered 3 tri n (fun t _ => u t) i) (pnt a i)) /\
    (forall i, (i < np)%nat -> gathered 3 tri n (fun t _ => u t) i = V3 0 0 0 -> Normal_MeshTri3D l np tri n = None)) /\
  (forall t, (t < n)%nat -> (forall u, ~ unit_normal (at_corner l 3 tri t 0) (at_corner l 3 tri t 1) (at_corner l 3 tri t 2) u) -> Normal_MeshTri3D l np tri n = None).
Proof. apply normal_tri_proof. Qed.
Print Assumptions C73_normal_tri.
Theorem C73_unit_normal : forall p q r,
  ((exists u, unit_normal p q r u) <-> vcross (vadd q (vscale (-1) p)) (vadd r (vscale (-1) p)) <> V3 0 0 0) /\ (forall u v, unit_normal p q r u -> unit_normal p q r v -> u = v).
Proof.
  intros p q r. set (c := vcross (vadd q (vscale (-1) p)) (vadd r (vscale (-1) p))). split; [split|].
  - intros (u & _ & _ & _ & H) Z. fold c in H. rewrite Z in H. unfold vdot in H. cbn [vx vy vz] in H. lra.
  - intros N. destruct (unit_normal_tri p q r) as [u|] eqn:E; [exists u; apply un_iff; exact E|]. exfalso. apply N. unfold unit_normal_tri in E.
    set (n := V3 ((vy q - vy p) * (vz r - vz p) - (vy r - vy p) * (vz q - vz p)) ((vz q - vz p) * (vx r - vx p) - (vz r - vz p) * (vx q - vx p)) ((vx q - vx p) * (vy r - vy p) - (vx r - vx p) * (vy q - vy p))) in E.
    assert (En : c = n) by (unfold c, n, vcross, vadd, vscale; cbn [vx vy vz]; apply v3_eq; cbn [vx vy vz]; ring). rewrite En. apply norm3_zero. unfold ndiv in E. unfold norm3, dot3. pose proof (eqRs (sqrt (vx n * vx n + vy n * vy n + vz n * vz n) / 2 * 2) 0) as Q. destruct (eqR (sqrt (vx n * vx n + vy n * vy n + vz n * vz n) / 2 * 2) 0); [lra|discriminate].
  - intros u v U V. apply un_iff in U. apply un_iff in V. congruence.
Qed.
Print Assumptions C73_unit_normal.
Theorem C73_normal_isolated : forall l np tri n i, (3 * np <= length l)%nat -> (3 * n <= length tri)%nat -> (forall j, In j tri -> (j < np)%nat) -> (i < np)%nat -> ~ In i tri -> Normal_MeshTri3D l np tri n = None.
Proof.
  intros l np tri n i Hl Ht Hv Hi Hn. pose proof (C73_normal_tri l np tri n Hl Ht Hv) as (A & B).
  assert (Z : forall u, gathered 3 tri n (fun t _ => u t) i = V3 0 0 0).
  { intros u. unfold gathered. assert (S0 : forall f : vec3 -> R, sum n (fun t => sum 3 (fun k => if (cor 3 tri t k =? i)%nat then f (u t) else 0)) = 0).
    { intros f. rewrite (sum_ext n _ (fun _ => 0)); [rewrite sum_const; ring|]. intros t Htn. cbn [sum]. assert (C : forall k, (k < 3)%nat -> (cor 3 tri t k =? i)%nat = false) by (intros k Hk; apply Nat.eqb_neq; intros E; apply Hn; rewrite <- E; apply nth_In; lia). rewrite !C by lia. ring. }
    rewrite !S0. reflexivity. }
  assert (D : forall m, (m <= n)%nat -> (exists t, (t < m)%nat /\ unit_normal_tri (at_corner l 3 tri t 0) (at_corner l 3 tri t 1) (at_corner l 3 tri t 2) = None) \/ exists u, forall t, (t < m)%nat -> unit_normal (at_corner l 3 tri t 0) (at_corner l 3 tri t 1) (at_corner l 3 tri t 2) (u t)).
  { induction m; intros Hm; [right; exists (fun _ => V3 0 0 0); intros; lia|]. destruct (IHm ltac:(lia)) as [(t & H1 & H2)|(u & Hu)]; [left; exists t; split; [lia|exact H2]|].
    destruct (unit_normal_tri (at_corner l 3 tri m 0) (at_corner l 3 tri m 1) (at_corner l 3 tri m 2)) as [v|] eqn:E; [|left; exists m; split; [lia|exact E]]. right. exists (fun t => if (t =? m)%nat then v else u t). intros t Htm. destruct (Nat.eqb_spec t m) as [->|N]; [apply un_iff; exact E|apply Hu; lia]. }
  destruct (D n (le_n n)) as [(t & H1 & H2)|(u & Hu)].
  - apply (B t H1). intros u Hu. apply un_iff in Hu. congruence.
  - apply (proj2 (A u Hu) i Hi). apply Z.
Qed.
Print Assumptions C73_normal_isolated.
Example ex_normal : unit_normal (V3 0 0 0) (V3 2 0 0) (V3 0 3 0) (V3 0 0 1) /\ gathered 3 [0; 1; 2]%nat 1 (fun _ _ => V3 0 0 1) 1 = V3 0 0 1.
Proof. split; [unfold unit_normal, vdot, vcross, vadd, vscale; cbn; repeat split; lra|]. unfold gathered, cor. cbn. apply v3_eq; cbn [vx vy vz]; ring. Qed.
(** Vertex normals of quads: each corner has the normal of the triangle of the corner and its two neighbours. *)
Theorem C73_normal_quad : forall l quad u, (forall i, In i quad -> (i < length l / 3)%nat) -> let np := (length l / 3)%nat in let n := (length quad / 4)%nat in
  (forall t, (t < n)%nat -> unit_normal (at_corner l 4 quad t 3) (at_corner l 4 quad t 0) (at_corner l 4 quad t 1) (u t 0%nat) /\ unit_normal (at_corner l 4 quad t 0) (at_corner l 4 quad t 1) (at_corner l 4 quad t 2) (u t 1%nat) /\
    unit_normal (at_corner l 4 quad t 1) (at_corner l 4 quad t 2) (at_corner l 4 quad t 3) (u t 2%nat) /\ unit_normal (at_corner l 4 quad t 2) (at_corner l 4 quad t 3) (at_corner l 4 quad t 0) (u t 3%nat)) ->
  (forall i, (i < np)%nat -> gathered 4 quad n u i <> V3 0 0 0) ->
  exists a, Normal_MeshQuad3 l quad = Some a /\ length a = (3 * np)%nat /\ forall i, (i < np)%nat -> direction (gathered 4 quad n u i) (pnt a i).
Proof. apply normal_quad_proof. Qed.
Print Assumptions C73_normal_quad.
Example ex_normal_quad : let l := [0; 0; 0; 1; 0; 0; 1; 1; 0; 0; 1; 0] in let quad := [0; 1; 2; 3]%nat in let u := fun _ _ : nat => V3 0 0 1 in
  unit_normal (at_corner l 4 quad 0 3) (at_corner l 4 quad 0 0) (at_corner l 4 quad 0 1) (V3 0 0 1) /\ unit_normal (at_corner l 4 quad 0 0) (at_corner l 4 quad 0 1) (at_corner l 4 quad 0 2) (V3 0 0 1) /\
  unit_normal (at_corner l 4 quad 0 1) (at_corner l 4 quad 0 2) (at_corner l 4 quad 0 3) (V3 0 0 1) /\ unit_normal (at_corner l 4 quad 0 2) (at_corner l 4 quad 0 3) (at_corner l 4 quad 0 0) (V3 0 0 1) /\ gathered 4 quad 1 u 2 = V3 0 0 1.
Proof. cbv zeta. unfold unit_normal, at_corner, pnt, cor, vdot, vcross, vadd, vscale. cbn. repeat split; try lra. unfold gathered, cor. cbn. apply v3_eq; cbn [vx vy vz]; ring. Qed.

(** Distortion of a mapping from the plane: a triangle is accepted exactly if it has not been turned over and the mean of the ratio and the inverse ratio
    is within the limits for its area and its sides; this mean is at least 1, and 1 only for equal sizes. *)
Theorem C73_distortion : forall tA tE t tri a tex,
  let p := fun k => at_corner a 3 tri t k in let s := fun k => pnt2 tex (cor 3 tri t k) in
  (3 * t + 2 < length tri)%nat -> valid tri a -> (forall i, In i tri -> (2 * i + 1 < length tex)%nat) ->
  tri_area2 tex tri t <> 0 -> tri_area a tri t <> 0 -> (forall k l, (k < 3)%nat -> (l < 3)%nat -> k <> l -> dist2 (s k) (s l) <> 0 /\ dist3 (p k) (p l) <> 0) ->
  exists bad, Distortion_MappingTriangleFrom2To3Dim tA tE t tri a tex = Some bad /\
    (bad = false <-> (0 < tri_area2 tex tri t /\ mean_ratio (tri_area2 tex tri t) (tri_area a tri t) <= tA /\
      mean_ratio (dist2 (s 1%nat) (s 2%nat)) (dist3 (p 1%nat) (p 2%nat)) <= tE /\ mean_ratio (dist2 (s 2%nat) (s 0%nat)) (dist3 (p 2%nat) (p 0%nat)) <= tE /\ mean_ratio (dist2 (s 0%nat) (s 1%nat)) (dist3 (p 0%nat) (p 1%nat)) <= tE)).
Proof. apply distortion_proof. Qed.
Print Assumptions C73_distortion.
Theorem C73_mean_ratio : forall a b, 0 < a -> 0 < b -> 1 <= mean_ratio a b /\ (mean_ratio a b = 1 <-> a = b).
Proof. apply mean_ratio_ge. Qed.
Print Assumptions C73_mean_ratio.
Example ex_distortion : let a := [0; 0; 0; 3; 0; 0; 0; 4; 0] in let tex := [0; 0; 3; 0; 0; 4] in let tri := [0; 1; 2]%nat in
  valid tri a /\ (forall i, In i tri -> (2 * i + 1 < length tex)%nat) /\ tri_area2 tex tri 0 = 6 /\ tri_area a tri 0 = 6 /\ mean_ratio 6 6 = 1.
Proof.
  cbv zeta. split; [intros i Hi; cbn in Hi |- *; lia|]. split; [intros i Hi; cbn in Hi |- *; lia|]. split; [unfold tri_area2, cor; cbn; field|]. split; [|unfold mean_ratio; field].
  unfold tri_area, area2, at_corner, pnt, cor. cbn. match goal with |- sqrt ?x / 2 = _ => replace x with (12 * 12) by ring end. rewrite sqrt_square by lra. field.
Qed.
