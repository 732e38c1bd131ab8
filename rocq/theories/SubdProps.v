(** C49: subdivision of quadrangle and hexahedron meshes. *)
From Coq Require Import Reals Lra Lia List Arith Bool Permutation.
Import ListNotations.
From Verif Require Import Imp JagModel JagSpec JagProofs TopoModel TopoSpec TopoProps SubdModel SubdSpec SubdProofs SubdProofs2 SubdProofs3 SubdProofs4 SubdProofs5.
Open Scope nat_scope.

(** A quadrangle mesh of any size in which no quadrangle repeats a vertex and at most two quadrangles contain the two ends of an edge: every edge gets one new vertex, every quadrangle one centre, the four children use them, and the edge table names the two ends and the quadrangles of each edge. *)
Theorem C49_quad_topology : forall ind0 elem nq nv, mesh_ok elem nq 4 nv -> (forall e, e < nq -> NoDup (elem_verts elem 4 e)) ->
  (forall a b, mesh_edge elem nq 4 quad_edge a b -> length (elems_with elem nq 4 a b) <= 2) ->
  exists ind E M, SubdivTopo_MeshQuad ind0 [] elem nq nv =
      Some (flat_map (fun k => quad_children M (nv + length E + k) (elem_verts elem 4 k)) (seq 0 nq), ind, map snd E,
            flat_map (fun ab => let w := elems_with elem nq 4 (fst ab) (snd ab) in [Some (fst ab); Some (snd ab); nth_error w 0; nth_error w 1]) E) /\
    lists_edges E (mesh_edge elem nq 4 quad_edge) /\ numbers_edges E nv M /\
    exists rows, jagged ind (map snd E) rows /\ length rows = nv /\ forall p, p < nv -> nth p rows [] = map snd (filter (fun ab => fst ab =? p) E).
Proof.
  intros ind0 elem nq nv MO ND TW. destruct (quad_topo ind0 elem nq nv MO ND TW) as (ind & E & M & ET & LE & NM & rows & J & EE & RL).
  exists ind, E, M. split; [exact ET|]. split; auto. split; auto. exists rows. split; auto. split; auto. intros p P. rewrite EE. unfold elist, pairs.
  assert (G : forall l, NoDup l -> filter (fun ab => fst ab =? p) (concat (map (fun q => map (pair q) (nth q rows [])) l)) = if existsb (Nat.eqb p) l then map (pair p) (nth p rows []) else []).
  { assert (FM : forall q r, filter (fun ab : nat * nat => fst ab =? p) (map (pair q) r) = if p =? q then map (pair q) r else []).
    { intros q r. induction r as [|x r IH]; cbn [map filter fst]; [destruct (p =? q); auto|]. rewrite (Nat.eqb_sym q p), IH. destruct (p =? q); auto. }
    induction l as [|q l IH]; intros N; cbn [map concat existsb]; auto. inversion N as [|? ? N1 N2]; subst. rewrite filter_app, IH, FM by auto. destruct (Nat.eqb_spec p q) as [<-|K]; cbn [orb]; auto. destruct (existsb (Nat.eqb p) l) eqn:X; [|apply app_nil_r]. apply inb_iff in X. contradiction. }
  rewrite G by apply seq_NoDup. assert (X : existsb (Nat.eqb p) (seq 0 (length rows)) = true) by (apply inb_iff; apply in_seq; lia). rewrite X, map_map. cbn [snd]. rewrite map_id. reflexivity.
Qed.
Print Assumptions C49_quad_topology.
(** With the new coordinates of SubdivPoints3_MeshQuad, the old vertices stay and every child is exactly its quarter of the parent's bilinear patch. *)
Theorem C49_quad_geometry : forall ind0 xyz1 elem nq nv xyz0, mesh_ok elem nq 4 nv -> (forall e, e < nq -> NoDup (elem_verts elem 4 e)) ->
  (forall a b, mesh_edge elem nq 4 quad_edge a b -> length (elems_with elem nq 4 a b) <= 2) -> length xyz0 = nv * 3 ->
  exists quad1 ind psup ef xyz, SubdivTopo_MeshQuad ind0 [] elem nq nv = Some (quad1, ind, psup, ef) /\
    SubdivPoints3_MeshQuad xyz1 ef elem xyz0 = Some xyz /\ mesh_ok quad1 (nq * 4) 4 (length xyz / 3) /\
    (forall d v, d < 3 -> v < nv -> coord xyz v d = coord xyz0 v d) /\
    forall d q c s t, d < 3 -> q < nq -> c < 4 ->
      bilinear (fun v => coord xyz v d) (elem_verts quad1 4 (q * 4 + c)) s t =
      bilinear (fun v => coord xyz0 v d) (elem_verts elem 4 q) (fst (quad_place c s t)) (snd (quad_place c s t)).
Proof. exact quad_end. Qed.
Print Assumptions C49_quad_geometry.
(** Hexahedra without repeated vertices, at most two on each face: one new vertex per edge, per face and per cell. *)
Theorem C49_hex_topology : forall ind0 elem nh nv, mesh_ok elem nh 8 nv -> (forall e, e < nh -> NoDup (elem_verts elem 8 e)) -> two_sided elem nh 8 noelElemFace_Hex ->
  exists ind E M Q Fn, SubdivTopo_MeshHex ind0 [] elem nh nv =
      Some (flat_map (fun k => hex_children (elem_verts elem 8 k) M (fun f => nv + length E + Fn k f) (nv + length E + length Q + k)) (seq 0 nh), ind, map snd E, concat Q) /\
    lists_edges E (mesh_edge elem nh 8 hex_edge) /\ numbers_edges E nv M /\
    (forall q, In q Q -> exists e f, e < nh /\ f < 6 /\ q = face_verts elem 8 noelElemFace_Hex e f) /\
    (forall i j, i < length Q -> j < length Q -> (forall v, In v (nth i Q []) <-> In v (nth j Q [])) -> i = j) /\
    (forall e f, e < nh -> f < 6 -> Fn e f < length Q /\ forall v, In v (nth (Fn e f) Q []) <-> In v (face_verts elem 8 noelElemFace_Hex e f)).
Proof.
  intros ind0 elem nh nv MO ND TS. destruct (hex_topo ind0 elem nh nv MO ND TS) as (ind & E & M & Q & Fn & ET & LE & NM & QF & QD & FO & _). exists ind, E, M, Q, Fn. repeat (split; [assumption|]). assumption.
Qed.
Print Assumptions C49_hex_topology.
Theorem C49_hex_geometry : forall ind0 xyz1 elem nh nv xyz0, mesh_ok elem nh 8 nv -> (forall e, e < nh -> NoDup (elem_verts elem 8 e)) -> two_sided elem nh 8 noelElemFace_Hex -> length xyz0 = nv * 3 ->
  exists hex1 ind psup quad xyz, SubdivTopo_MeshHex ind0 [] elem nh nv = Some (hex1, ind, psup, quad) /\
    SubdivisionPoints_Hex xyz1 ind psup quad elem nh xyz0 nv = Some xyz /\ mesh_ok hex1 (nh * 8) 8 (length xyz / 3) /\
    (forall d v, d < 3 -> v < nv -> coord xyz v d = coord xyz0 v d) /\
    forall d h c u v w, d < 3 -> h < nh -> c < 8 ->
      let '(x, y, z) := hex_corner c in
      trilinear (fun p => coord xyz p d) (elem_verts hex1 8 (h * 8 + c)) u v w =
      trilinear (fun p => coord xyz0 p d) (elem_verts elem 8 h) ((INR x + u) / 2) ((INR y + v) / 2) ((INR z + w) / 2).
Proof. exact hex_end. Qed.
Print Assumptions C49_hex_geometry.

(** Catmull-Clark points: centres of faces; edges with two faces get the mean of their ends and the two face points, border edges their middle; border vertices stay; an inner vertex with n faces and n edges goes to (F + 2R + (n-3)P)/n. *)
Theorem C49_catmull_clark : forall ind0 xyz1 elem nq nv xyz0, mesh_ok elem nq 4 nv -> (forall e, e < nq -> NoDup (elem_verts elem 4 e)) ->
  (forall a b, mesh_edge elem nq 4 quad_edge a b -> length (elems_with elem nq 4 a b) <= 2) -> length xyz0 = nv * 3 ->
  exists quad1 ind E ef xyz, SubdivTopo_MeshQuad ind0 [] elem nq nv = Some (quad1, ind, map snd E, ef) /\
    SubdivisionPoints_QuadCatmullClark xyz1 ef (map snd E) elem nq xyz0 nv = Some xyz /\
    lists_edges E (mesh_edge elem nq 4 quad_edge) /\ length xyz = (nv + length E + nq) * 3 /\
    forall d, d < 3 -> let x := fun v => coord xyz0 v d in
      (forall q, q < nq -> coord xyz (nv + length E + q) d = face_point x elem q) /\
      (forall i a b, nth_error E i = Some (a, b) ->
        (forall f g, elems_with elem nq 4 a b = [f; g] -> coord xyz (nv + i) d = mean [x a; x b; face_point x elem f; face_point x elem g]) /\
        (forall f, elems_with elem nq 4 a b = [f] -> coord xyz (nv + i) d = mean [x a; x b])) /\
      (forall v, v < nv -> border_vertex elem nq E v -> coord xyz v d = x v) /\
      (forall v n, v < nv -> ~ border_vertex elem nq E v -> 0 < n -> length (faces_at elem nq v) = n -> length (edges_at E v) = n ->
        coord xyz v d = ((mean (map (face_point x elem) (faces_at elem nq v)) + 2 * mean (map (edge_middle x) (edges_at E v)) + (INR n - 3) * x v) / INR n)%R).
Proof.
  intros ind0 xyz1 elem nq nv xyz0 MO ND TW LX. destruct (quad_topo ind0 elem nq nv MO ND TW) as (ind & E & M & ET & LE & NM & _).
  assert (EB : forall a b, In (a, b) E -> a < b /\ a < nv /\ b < nv).
  { intros a b I. apply (proj2 LE) in I. destruct I as (L & I). split; auto. split; [|apply mesh_edge_sym in I; [|apply quad_edge_sym]]; eapply edge_bound in I; eauto; intros x y (X & _); auto. }
  assert (EW : forall a b, In (a, b) E -> 1 <= length (elems_with elem nq 4 a b) <= 2).
  { intros a b I. apply (proj2 LE) in I. destruct I as (L & I). split; [|apply TW; auto]. destruct I as (e & p & q & EL & (P & Q & _) & X & Y). assert (IN : In e (elems_with elem nq 4 a b)).
    { unfold elems_with. apply filter_In. split; [apply in_seq; lia|]. fold (has elem 4 a e). fold (has elem 4 b e). rewrite !(proj2 (has_iff _ _ _ _)); auto; rewrite (verts4 _ _ _ _ MO EL); [rewrite <- Y; clear - Q; do 4 (destruct q as [|q]; [cbn; auto 6|]); lia|rewrite <- X; clear - P; do 4 (destruct p as [|p]; [cbn; auto 6|]); lia]. }
    destruct (elems_with elem nq 4 a b); [destruct IN|cbn [length]; lia]. }
  destruct (cc_points elem nq nv xyz0 E MO ND LX EB EW xyz1 (map snd E) (map_length _ _)) as (xyz & EX & XL & XC).
  exists (flat_map (fun k => quad_children M (nv + length E + k) (elem_verts elem 4 k)) (seq 0 nq)), ind, E, (flat_map (edge_faces elem nq) E), xyz.
  split; [exact ET|]. split; [exact EX|]. split; [exact LE|]. split; [exact XL|]. intros d D x. destruct (XC d D) as (X1 & X2 & X3).
  assert (BI : forall v, borderb elem nq E v = true <-> border_vertex elem nq E v).
  { intros v. unfold borderb, border_vertex. rewrite existsb_exists. split.
    - intros (ab & I & B). apply andb_true_iff in B. destruct B as (B1 & B2). exists ab. split; [apply filter_In; auto|apply Nat.eqb_eq; auto].
    - intros (ab & I & B). apply filter_In in I. destruct I as (I1 & I2). exists ab. split; auto. rewrite I2. apply Nat.eqb_eq. auto. }
  split; [exact X1|]. split; [|split].
  - intros i a b N. specialize (X2 i (a, b) N). unfold edge_pt in X2. cbn [fst snd] in X2. split; [intros f g WE|intros f WE]; rewrite WE in X2; rewrite X2; unfold mean, total, x; cbn [fold_right length INR]; field.
  - intros v V B. rewrite X3 by auto. apply BI in B. rewrite B. reflexivity.
  - intros v n V B NP NF NE. rewrite X3 by auto. destruct (borderb elem nq E v) eqn:BB; [apply BI in BB; contradiction|]. unfold vert_pt. rewrite NF. rewrite (proj2 (Nat.eqb_neq n 0)) by lia. unfold vert_sum, mean. rewrite !map_length, NF, NE. fold x. change (fun v0 : nat => x v0) with x.
    assert (IN : INR n <> 0%R) by (apply not_0_INR; lia). rewrite mult_INR.
    assert (ES : forall l, total (map (fun ab => (coord xyz0 (fst ab) d + coord xyz0 (snd ab) d)%R) l) = (2 * total (map (edge_middle x) l))%R).
    { induction l as [|ab l IH]; [unfold total; cbn; ring|]. unfold total in *. cbn [map fold_right]. rewrite IH. unfold edge_middle, mean, total, x. cbn [fold_right length INR]. field. }
    rewrite ES. set (A := total (map (edge_middle x) (edges_at E v))). match goal with |- (((?t + _) * _ + _ * ?p) = _)%R => change t with (total (map (face_point x elem) (faces_at elem nq v))); change p with (x v) end. set (B2 := total (map (face_point x elem) (faces_at elem nq v))). field. auto.
Qed.
Print Assumptions C49_catmull_clark.

(** ** What fails *)
(** The vector [psup] must be empty on entry (it is not cleared): on the caller's second use the call aborts. *)
Theorem C49_reuse_refuted : exists elem nq nv quad1 ind psup ef, mesh_ok elem nq 4 nv /\
  SubdivTopo_MeshQuad [] [] elem nq nv = Some (quad1, ind, psup, ef) /\ SubdivTopo_MeshQuad ind psup elem nq nv <> Some (quad1, ind, psup, ef).
Proof.
  exists [0; 1; 2; 3], 1, 4. do 4 eexists. split; [split; [reflexivity|repeat constructor]|]. split; [reflexivity|]. intros H. vm_compute in H. discriminate H.
Qed.
Print Assumptions C49_reuse_refuted.
(** Tetrahedra: the edge table misses the edge 2-3, so the subdivision of a single tetrahedron aborts. *)
Theorem C49_tet_refuted : exists elem nt nv, mesh_ok elem nt 4 nv /\ (forall e, e < nt -> NoDup (elem_verts elem 4 e)) /\ SubdivTopo_MeshTet [] [] elem nt nv = None.
Proof.
  exists [0; 1; 2; 3], 1, 4. split; [split; [reflexivity|repeat constructor]|]. split; [|reflexivity]. intros e E. destruct e; [|lia]. cbn. repeat (constructor; [cbn [In]; lia|]). constructor.
Qed.
Print Assumptions C49_tet_refuted.
Lemma one_quad : mesh_ok [0; 1; 2; 3] 1 4 5 /\ (forall e, e < 1 -> NoDup (elem_verts [0; 1; 2; 3] 4 e)) /\ (forall a b, mesh_edge [0; 1; 2; 3] 1 4 quad_edge a b -> length (elems_with [0; 1; 2; 3] 1 4 a b) <= 2).
Proof.
  split; [split; [reflexivity|repeat constructor]|]. split; [intros e E; destruct e; [|lia]; cbn; repeat (constructor; [cbn [In]; lia|]); constructor|].
  intros a b _. unfold elems_with. cbn [seq filter]. destruct (_ && _); cbn; lia.
Qed.
(** A vertex of no quadrangle is moved to the origin by the Catmull-Clark points. *)
Theorem C49_isolated_refuted : exists elem nq nv xyz0 quad1 ind psup ef xyz v, mesh_ok elem nq 4 nv /\ length xyz0 = nv * 3 /\ v < nv /\
  SubdivTopo_MeshQuad [] [] elem nq nv = Some (quad1, ind, psup, ef) /\ SubdivisionPoints_QuadCatmullClark [] ef psup elem nq xyz0 nv = Some xyz /\
  coord xyz v 0 = 0%R /\ coord xyz0 v 0 <> 0%R.
Proof.
  destruct one_quad as (MO & ND & TW). set (xyz0 := repeat 1%R 15). destruct (quad_topo [] [0; 1; 2; 3] 1 5 MO ND TW) as (ind & E & M & ET & LE & NM & _).
  assert (EF : E = [(0, 1); (0, 3); (1, 2); (2, 3)]).
  { assert (T := f_equal (fun o => match o with Some (_, _, p, ef) => (p, map (fun i => nth (i * 4) ef None) (seq 0 4)) | None => ([], []) end) ET). cbv beta iota in T. apply pair_equal_spec in T. destruct T as (T1 & T2). vm_compute in T1. destruct E as [|[a b] [|[c d] [|[e f] [|[g h] [|? ?]]]]]; try discriminate T1. vm_compute in T2. cbn [map snd] in T1. congruence. }
  assert (EB : forall a b, In (a, b) E -> a < b /\ a < 5 /\ b < 5). { rewrite EF. intros a b I. cbn [In] in I. repeat (destruct I as [I|I]; [injection I as <- <-; lia|]). destruct I. }
  assert (EW : forall a b, In (a, b) E -> 1 <= length (elems_with [0; 1; 2; 3] 1 4 a b) <= 2). { rewrite EF. intros a b I. cbn [In] in I. repeat (destruct I as [I|I]; [injection I as <- <-; cbn; lia|]). destruct I. }
  destruct (cc_points [0; 1; 2; 3] 1 5 xyz0 E MO ND eq_refl EB EW [] (map snd E) (map_length _ _)) as (xyz & EX & XL & XC).
  exists [0; 1; 2; 3], 1, 5, xyz0. do 4 eexists. exists xyz, 4. split; [exact MO|]. split; [reflexivity|]. split; [lia|]. split; [exact ET|]. split; [exact EX|]. split.
  - destruct (XC 0 ltac:(lia)) as (_ & _ & X3). rewrite (X3 4) by lia. rewrite EF. unfold vert_pt, vert_sum, total. cbn. ring.
  - cbn. lra.
Qed.
Print Assumptions C49_isolated_refuted.

(** ** Examples *)
Example C49_quad_hyp : mesh_ok [0;1;4;3; 1;2;5;4] 2 4 6 /\ (forall e, e < 2 -> NoDup (elem_verts [0;1;4;3; 1;2;5;4] 4 e)) /\
  (forall a b, mesh_edge [0;1;4;3; 1;2;5;4] 2 4 quad_edge a b -> length (elems_with [0;1;4;3; 1;2;5;4] 2 4 a b) <= 2).
Proof.
  split; [split; [reflexivity|repeat constructor]|]. split; [intros e E; destruct e as [|[|e]]; [| |lia]; cbn; repeat (constructor; [cbn [In]; lia|]); constructor|].
  intros a b _. unfold elems_with. cbn [seq filter]. destruct (_ && _); destruct (_ && _); cbn; lia.
Qed.
Example C49_quad_run : option_map (fun r => fst (fst (fst r))) (SubdivTopo_MeshQuad [] [] [0;1;4;3; 1;2;5;4] 2 6) =
  Some [0;6;13;7; 1;9;13;6; 4;11;13;9; 3;7;13;11;  1;8;14;9; 2;10;14;8; 5;12;14;10; 4;9;14;12].
Proof. reflexivity. Qed.
Lemma hex2_sided : two_sided [0;1;2;3;4;5;6;7; 1;8;9;2;5;10;11;6] 2 8 noelElemFace_Hex.
Proof. intros e f j g k h E J K F G H JE KE _ _. lia. Qed.
Example C49_hex_hyp : mesh_ok [0;1;2;3;4;5;6;7; 1;8;9;2;5;10;11;6] 2 8 12 /\ (forall e, e < 2 -> NoDup (elem_verts [0;1;2;3;4;5;6;7; 1;8;9;2;5;10;11;6] 8 e)) /\ two_sided [0;1;2;3;4;5;6;7; 1;8;9;2;5;10;11;6] 2 8 noelElemFace_Hex.
Proof.
  split; [split; [reflexivity|repeat constructor]|]. split; [|apply hex2_sided]. intros e E. destruct e as [|[|e]]; [| |lia]; cbn; repeat (constructor; [cbn [In]; lia|]); constructor.
Qed.
