(** Properties C07-C12: element adjacency, edges, groups, conversions. *)
From Coq Require Import List Arith Lia Bool Permutation Sorted.
Import ListNotations.
From Verif Require Import Imp JagModel JagSpec TopoModel TopoSpec TopoProofs2 TopoProofs3 TopoProofs4 TopoLemmas.

(** C07: each entry of the adjacency table is another element with a face on the same vertices, or the sentinel when
    there is none; symmetric when a face is shared by at most two elements. *)
Theorem C07_ElSuEl : forall elem nel nno nv face,
  mesh_ok elem nel nno nv -> face_table_ok nno face -> faces_nodup elem nel nno face ->
  exists adj, ElSuEl_MeshElem elem nel nno face nv = Some adj /\ length adj = nel * length face /\
    (forall e f, e < nel -> f < length face ->
       match nth (e * length face + f) adj None with
       | Some j => j < nel /\ j <> e /\ exists g, g < length face /\ same_face elem nno face e f j g
       | None => forall j g, j < nel -> g < length face -> j <> e -> ~ same_face elem nno face e f j g
       end) /\
    (two_sided elem nel nno face ->
     forall e f j, e < nel -> f < length face -> nth (e * length face + f) adj None = Some j ->
       exists g, g < length face /\ same_face elem nno face e f j g /\ nth (j * length face + g) adj None = Some e).
Proof. exact C07_l. Qed.
Print Assumptions C07_ElSuEl.

(** The face tables the library passes list the geometric faces of each element type. *)
Theorem C07_face_tables :
  table_lists noelElemFace_Line 2 2 (fun a f => a = f) /\
  table_lists noelElemFace_Tri 3 3 (fun a f => a <> f) /\
  table_lists noelElemFace_Tet 4 4 (fun a f => a <> f) /\
  table_lists noelElemFace_Quad 4 4 (fun a f => a = f \/ a = (f + 1) mod 4) /\
  table_lists noelElemFace_Vox 8 6 (fun a f => on_plane (vox_corner a) f) /\
  table_lists noelElemFace_Hex 8 6 (fun a f => on_plane (hex_corner a) f).
Proof. exact C07_tables_l. Qed.
Print Assumptions C07_face_tables.

Example C07_hyp : mesh_ok [0;1;2; 2;1;3] 2 3 5 /\ face_table_ok 3 noelElemFace_Tri /\ faces_nodup [0;1;2; 2;1;3] 2 3 noelElemFace_Tri.
Proof.
  split; [split; [reflexivity|repeat constructor]|]. split; [apply tri_table_ok|].
  intros e f He Hf. destruct e as [|[|e]]; try lia; destruct f as [|[|[|f]]]; simpl in Hf; try lia; simpl;
    repeat (constructor; [simpl; intuition discriminate|]); constructor.
Qed.
Example C07_run : ElSuEl_MeshElem [0;1;2; 2;1;3] 2 3 noelElemFace_Tri 5 = Some [Some 1; None; None; None; None; Some 0].
Proof. reflexivity. Qed.

(** C08: MeshLine_MeshElem appends each undirected element edge exactly once; the jagged form lists, for each p, its
    edge partners in ascending order (all of them, or the larger ones only). *)
Theorem C08_MeshLine : forall line0 elem nel nno nv etab le,
  mesh_ok elem nel nno nv -> edge_table_lists etab nno le ->
  exists L, MeshLine_MeshElem line0 elem nel nno etab nv = Some (line0 ++ flat_map (fun pq => [fst pq; snd pq]) L) /\
    NoDup L /\ forall p q, In (p, q) L <-> p < q /\ mesh_edge elem nel nno le p q.
Proof. exact C08_l. Qed.
Print Assumptions C08_MeshLine.

Theorem C08_JArrayEdge : forall ind0 elem nel nno nv etab le bi,
  mesh_ok elem nel nno nv -> edge_table_lists etab nno le ->
  exists elsup_ind elsup ind arr rows,
    JArray_ElSuP_MeshElem [] elem nel nno nv = Some (elsup_ind, elsup) /\
    JArrayEdge_MeshElem ind0 [] elem nno etab elsup_ind elsup bi = Some (ind, arr) /\
    jagged ind arr rows /\ length rows = nv /\
    forall p, p < nv -> StronglySorted lt (nth p rows []) /\
      forall q, In q (nth p rows []) <-> (bi = true \/ p < q) /\ mesh_edge elem nel nno le p q.
Proof. exact C08_jagged_l. Qed.
Print Assumptions C08_JArrayEdge.

(** The triangle, quad and hexahedron tables list exactly the geometric edges. *)
Theorem C08_edge_tables :
  edge_table_lists noelElemEdge_Tri 3 (simplex_edge 3) /\
  edge_table_lists noelElemEdge_Quad 4 quad_edge /\
  edge_table_lists noelElemEdge_Hex 8 hex_edge.
Proof. exact C08_tables_l. Qed.
Print Assumptions C08_edge_tables.

(** The tetrahedron table does not: the edge between corners 2 and 3 is never listed. *)
Theorem C08_tet_refuted : exists elem nel nv L p q, mesh_ok elem nel 4 nv /\
  MeshLine_MeshElem [] elem nel 4 noelElemEdge_Tet nv = Some (flat_map (fun pq => [fst pq; snd pq]) L) /\
  p < q /\ mesh_edge elem nel 4 (simplex_edge 4) p q /\ ~ In (p, q) L.
Proof.
  exists [0;1;2;3], 1, 4, [(0,1);(0,2);(0,3);(1,2);(1,3)], 2, 3.
  split; [split; [reflexivity|repeat constructor]|]. split; [reflexivity|]. split; [lia|]. split.
  - exists 0, 2, 3. unfold simplex_edge. simpl. repeat (split; [lia|]). auto.
  - simpl. intuition discriminate.
Qed.
Print Assumptions C08_tet_refuted.

Example C08_hyp : mesh_ok [0;1;2; 2;1;3] 2 3 5 /\ edge_table_lists noelElemEdge_Tri 3 (simplex_edge 3).
Proof. split; [split; [reflexivity|repeat constructor]|]. apply C08_edge_tables. Qed.
Example C08_run : MeshLine_MeshElem [9;9] [0;1;2; 2;1;3] 2 3 noelElemEdge_Tri 5 = Some [9;9; 0;1; 0;2; 1;2; 1;3; 2;3].
Proof. reflexivity. Qed.

(** C09: flags are set exactly on the reachable elements; group equality is connectivity; groups are 0..ng-1. *)
Theorem C09_Mark : forall fl0 ker flag adj nel nf,
  length fl0 = nel -> ker < nel -> adj_ok adj nel nf ->
  exists fl, MarkConnectedElements fl0 ker flag adj = Some fl /\ length fl = nel /\
    forall j, j < nel ->
      (reach (mark_step adj nf fl0 flag) ker j -> nth j fl None = Some flag) /\
      (~ reach (mark_step adj nf fl0 flag) ker j -> nth j fl None = nth j fl0 None) /\
      (nth j fl None = nth j fl0 None \/ reach (mark_step adj nf fl0 flag) ker j).
Proof. exact Mark_correct. Qed.
Print Assumptions C09_Mark.

Theorem C09_MakeGroup : forall nel nf adj,
  adj_ok adj nel nf -> (forall a b, a < nel -> adj_step adj nf a b -> adj_step adj nf b a) ->
  exists ng fl, MakeGroupElem nel adj = Some (ng, fl) /\ length fl = nel /\
    (forall e, e < nel -> exists g, g < ng /\ nth e fl None = Some g) /\
    (forall g, g < ng -> exists e, e < nel /\ nth e fl None = Some g) /\
    (forall a b, a < nel -> b < nel -> (nth a fl None = nth b fl None <-> reach (adj_step adj nf) a b)).
Proof. exact MakeGroup_correct. Qed.
Print Assumptions C09_MakeGroup.

Definition C09_adj := [Some 1; None; Some 0; None; None; None].
Example C09_hyp : adj_ok C09_adj 3 2 /\ (forall a b, a < 3 -> adj_step C09_adj 2 a b -> adj_step C09_adj 2 b a).
Proof.
  split.
  - split; [reflexivity|]. intros i b H. do 6 (destruct i as [|i]; [simpl in H; inversion H; lia|]). destruct i; discriminate.
  - intros a b Ha (i & Hi & E).
    destruct i as [|[|i]]; try lia; destruct a as [|[|[|a]]]; try lia; simpl in E; inversion E; subst; exists 0; split; auto.
Qed.
Example C09_run : MakeGroupElem 3 C09_adj = Some (2, [Some 0; Some 0; Some 1]).
Proof. reflexivity. Qed.
Example C09_mark_run : MarkConnectedElements [None; Some 7; None] 0 5 C09_adj = Some [Some 5; Some 5; None].
Proof. reflexivity. Qed.

(** C10: flipping reverses each triangle and is an involution; splitting a quad gives two triangles whose directed edges
    are the quad's plus the diagonal both ways. *)
Theorem C10_Flip : forall ts, FlipElement_Tri (flat3 ts) = Some (flat3 (map flip_tri ts)).
Proof. exact Flip_correct. Qed.
Print Assumptions C10_Flip.

Theorem C10_Flip_involution : forall ts, exists m, FlipElement_Tri (flat3 ts) = Some m /\ FlipElement_Tri m = Some (flat3 ts).
Proof.
  intros ts. exists (flat3 (map flip_tri ts)). split. apply Flip_correct. rewrite Flip_correct, map_map.
  do 2 f_equal. rewrite <- (map_id ts) at 2. apply map_ext. intros [[a b] c]. reflexivity.
Qed.
Print Assumptions C10_Flip_involution.

Theorem C10_QuadSplit : forall tri0 qs,
  exists ts, convert2Tri_Quad tri0 (flat4 qs) = Some (flat3 ts) /\ ts = flat_map split_quad qs /\
    Permutation (flat_map tri_dedges ts)
                (flat_map (fun q => quad_dedges q ++ let '(a, _, c, _) := q in [(a, c); (c, a)]) qs).
Proof.
  intros. exists (flat_map split_quad qs). split. apply Quad2Tri_correct. split; auto.
  induction qs as [|[[[a b] c] d] qs]; [constructor|].
  change (flat_map split_quad ((a, b, c, d) :: qs)) with (split_quad (a, b, c, d) ++ flat_map split_quad qs).
  rewrite flat_map_app.
  change (flat_map _ ((a, b, c, d) :: qs)) with
    ((quad_dedges (a, b, c, d) ++ [(a, c); (c, a)]) ++ flat_map (fun q => quad_dedges q ++ let '(a, _, c, _) := q in [(a, c); (c, a)]) qs).
  apply Permutation_app; auto. apply split_quad_edges.
Qed.
Print Assumptions C10_QuadSplit.

Example C10_run : convert2Tri_Quad [5] (flat4 [(0,1,2,3);(3,2,4,5)]) = Some [0;1;2; 2;3;0; 3;2;4; 4;5;3].
Proof. reflexivity. Qed.

(** C11: each corner's unified index leads back to its position and texture index; no pair is stored twice and none is
    unused.  The last hypothesis excludes a triangle that mentions a paired-up position and texture index at different
    corners; without it the function aborts. *)
Theorem C11_Unify : forall exyz etex n nxyz ntex,
  mesh_ok exyz n 3 nxyz -> mesh_ok etex n 3 ntex ->
  (forall t i j, t < n -> i < 3 -> j < 3 -> tv exyz t i = tv exyz t j -> i = j) ->
  (forall t i t' j k, t < n -> t' < n -> i < 3 -> j < 3 -> k < 3 ->
     tv exyz t' j = tv exyz t i -> tv etex t' k = tv etex t i -> tv etex t' j = tv etex t i) ->
  exists tri_uni uni_xyz uni_tex,
    UnifySeparateIndexing nxyz ntex exyz etex = Some (tri_uni, uni_xyz, uni_tex) /\
    length tri_uni = n * 3 /\ length uni_xyz = length uni_tex /\ NoDup (combine uni_xyz uni_tex) /\
    (forall c, c < n * 3 -> exists k, nth c tri_uni None = Some k /\ k < length uni_xyz /\
       nth k uni_xyz 0 = nth c exyz 0 /\ nth k uni_tex 0 = nth c etex 0) /\
    (forall k, k < length uni_xyz -> exists c, c < n * 3 /\ nth c tri_uni None = Some k).
Proof. exact C11_l. Qed.
Print Assumptions C11_Unify.

Theorem C11_Unify_refuted : exists exyz etex n nxyz ntex,
  mesh_ok exyz n 3 nxyz /\ mesh_ok etex n 3 ntex /\
  (forall t i j, t < n -> i < 3 -> j < 3 -> tv exyz t i = tv exyz t j -> i = j) /\
  (forall t i j, t < n -> i < 3 -> j < 3 -> tv etex t i = tv etex t j -> i = j) /\
  UnifySeparateIndexing nxyz ntex exyz etex = None.
Proof.
  exists [0;1;2; 0;3;4], [0;1;2; 3;0;4], 2, 5, 5.
  split; [split; [reflexivity|repeat constructor]|]. split; [split; [reflexivity|repeat constructor]|].
  assert (H : forall el, (el = [0;1;2; 0;3;4] \/ el = [0;1;2; 3;0;4]) ->
    forall t i j, t < 2 -> i < 3 -> j < 3 -> tv el t i = tv el t j -> i = j).
  { intros el Hel t i j Ht Hi Hj. unfold tv.
    destruct Hel; subst el; destruct t as [|[|t]]; try lia; destruct i as [|[|[|i]]]; try lia;
      destruct j as [|[|[|j]]]; try lia; simpl; intros; lia. }
  split; [apply H; auto|]. split; [apply H; auto|]. reflexivity.
Qed.
Print Assumptions C11_Unify_refuted.

(** A seam: position vertex 1 carries two texture vertices. *)
Example C11_run : UnifySeparateIndexing 4 5 [0;1;2; 2;1;3] [0;1;2; 2;4;3]
  = Some ([Some 0; Some 1; Some 2; Some 2; Some 3; Some 4], [0;1;2;1;3], [0;1;2;4;3]).
Proof. reflexivity. Qed.
Example C11_hyp : let exyz := [0;1;2; 2;1;3] in let etex := [0;1;2; 2;4;3] in
  mesh_ok exyz 2 3 4 /\ mesh_ok etex 2 3 5 /\
  (forall t i j, t < 2 -> i < 3 -> j < 3 -> tv exyz t i = tv exyz t j -> i = j) /\
  (forall t i t' j k, t < 2 -> t' < 2 -> i < 3 -> j < 3 -> k < 3 ->
     tv exyz t' j = tv exyz t i -> tv etex t' k = tv etex t i -> tv etex t' j = tv etex t i).
Proof.
  split; [split; [reflexivity|repeat constructor]|]. split; [split; [reflexivity|repeat constructor]|]. split.
  - intros t i j Ht Hi Hj. unfold tv. destruct t as [|[|t]]; try lia; destruct i as [|[|[|i]]]; try lia;
      destruct j as [|[|[|j]]]; try lia; simpl; intros; lia.
  - intros t i t' j k Ht Ht' Hi Hj Hk. unfold tv. destruct t as [|[|t]]; try lia; destruct t' as [|[|t']]; try lia;
      destruct i as [|[|[|i]]]; try lia; destruct j as [|[|[|j]]]; try lia; destruct k as [|[|[|k]]]; try lia; simpl; intros; lia.
Qed.

(** C12: one quad per interior edge, in the order (corner of the first triangle, corner of the second, edge as the
    first triangle traverses it). *)
Theorem C12_Dihedral : forall quad0 tri ntri nv, mesh_ok tri ntri 3 nv -> oriented_manifold tri ntri ->
  exists Q, ElemQuad_DihedralTri quad0 tri ntri nv = Some (quad0 ++ flat4 Q) /\ NoDup (map quad_mid Q) /\
    forall o1 o2 a b, In (o1, o2, a, b) Q <->
      exists t i j k, t < j /\ j < ntri /\ i < 3 /\ k < 3 /\
        dedge tri t i = (a, b) /\ dedge tri j k = (b, a) /\ tv tri t i = o1 /\ tv tri j k = o2.
Proof. intros quad0 tri ntri nv HM HO. exact (Dihedral_ok tri ntri nv HM HO quad0). Qed.
Print Assumptions C12_Dihedral.

Example C12_hyp : mesh_ok [0;1;2; 2;1;3] 2 3 4 /\ oriented_manifold [0;1;2; 2;1;3] 2.
Proof.
  split; [split; [reflexivity|repeat constructor]|]. split.
  - intros t i j Ht Hi Hj. unfold tv. destruct t as [|[|t]]; try lia; destruct i as [|[|[|i]]]; try lia;
      destruct j as [|[|[|j]]]; try lia; simpl; intros; lia.
  - intros t i t' i' Ht Ht' Hi Hi'. unfold dedge, tv. destruct t as [|[|t]]; try lia; destruct t' as [|[|t']]; try lia;
      destruct i as [|[|[|i]]]; try lia; destruct i' as [|[|[|i']]]; try lia; simpl; intros E; inversion E; auto.
Qed.
Example C12_run : ElemQuad_DihedralTri [] [0;1;2; 2;1;3] 2 4 = Some [0;3;1;2].
Proof. reflexivity. Qed.
