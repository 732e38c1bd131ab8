(** Properties C31-C34: bounding volumes and bounding-volume hierarchies. *)
From Coq Require Import List Arith Bool Reals Lra Lia Permutation.
Import ListNotations.
From Verif Require Import Imp MortModel MortSpec MortProps BvModel BvSpec BvProofs1 BvProofs2 BvProofs3.
Open Scope nat_scope.

(** ---------------- C34 boxes ---------------- *)
(** Merging contains both operands and, for proper boxes, is the least such box. *)
Theorem C34_box_merge : forall a b,
  (forall q, inbox a q \/ inbox b q -> inbox (aabb_add a b) q) /\
  (proper a -> proper b -> proper (aabb_add a b) /\
     forall c, (forall q, inbox a q \/ inbox b q -> inbox c q) -> forall q, inbox (aabb_add a b) q -> inbox c q).
Proof.
  intros a b. split.
  - intros q [H|H]; [apply aabb_add_l|apply aabb_add_r]; auto.
  - intros Pa Pb. split; [apply aabb_add_proper; auto|]. intros c Hc. apply aabb_add_least; auto.
Qed.
(** Adding a point with margin contains the old box and the cube around the point; the other way of adding a point is margin 0. *)
Theorem C34_box_addpoint : forall a p e, (0 <= e)%R ->
  (forall q, inbox a q -> inbox (aabb_AddPoint a p e) q) /\ (forall q, near_box p e q -> inbox (aabb_AddPoint a p e) q) /\
  (proper a \/ inactive a -> proper (aabb_AddPoint a p e)) /\ aabb_addv a p = aabb_AddPoint a p 0.
Proof.
  intros a p e He. split; [|split; [|split]]; intros.
  - apply aabb_AddPoint_old; auto.
  - apply aabb_AddPoint_new; auto.
  - apply aabb_AddPoint_proper; auto.
  - apply aabb_addv_AddPoint.
Qed.
(** The intersection test is exact, the point and box inclusion tests are exact, the distance is the least distance and is attained. *)
Theorem C34_box_tests : forall a b, proper a \/ inactive a -> proper b \/ inactive b ->
  (aabb_IsIntersect a b = true <-> exists q, inbox a q /\ inbox b q) /\
  (forall q, aabb_isInclude_Point a q = true <-> inbox a q) /\
  (proper a -> proper b -> (aabb_IsInclude_AABB3 a b = true <-> forall q, inbox b q -> inbox a q)) /\
  (proper a -> forall q, (exists c, inbox a c /\ dist c q = aabb_MinimumDistance a q) /\ (forall c, inbox a c -> (aabb_MinimumDistance a q <= dist c q)%R)).
Proof.
  intros a b Pa Pb. split; [apply aabb_intersect_iff; auto|split; [apply aabb_isInclude_iff|split]].
  - intros. apply aabb_isInclude3_iff; auto.
  - intros. apply aabb_mindist; auto.
Qed.

(** ---------------- C34 spheres ---------------- *)
Theorem C34_sphere_addpoint : forall s p e, (0 <= e)%R -> exists s', sphere_AddPoint s p e = Some s' /\ sphere_IsActive s' = true /\
  (forall q, near_ball p e q -> insphere s' q) /\ (forall q, insphere s q -> insphere s' q).
Proof.
  intros s p e He. destruct (sphere_AddPoint_ok s p e He) as (s' & E & A & B & C). exists s'. split; [auto|]. split; [apply Rleb_true; auto|]. split.
  - intros q Hq. apply (sle_in _ _ q B). exact Hq.
  - intros q Hq. assert (0 <= sr s)%R by (unfold insphere in Hq; pose proof (dist_pos q (sc s)); lra). apply (sle_in _ _ q (C H)). auto.
Qed.
Theorem C34_sphere_merge : forall s b, exists s', sphere_add s b = Some s' /\ forall q, insphere s q \/ insphere b q -> insphere s' q.
Proof.
  intros s b. destruct (Rlt_dec (sr b) 0) as [H|H].
  - exists s. split; [apply sphere_AddPoint_neg; auto|]. intros q [Q|Q]; auto. exfalso. unfold insphere in Q. pose proof (dist_pos q (sc b)). lra.
  - destruct (sphere_add_ok s b ltac:(lra)) as (s' & E & A & B & C). exists s'. split; auto. intros q [Q|Q]; [|apply (sle_in _ _ q B); auto].
    assert (0 <= sr s)%R by (unfold insphere in Q; pose proof (dist_pos q (sc s)); lra). apply (sle_in _ _ q (C H0)). auto.
Qed.
(** For active spheres the intersection and inclusion tests are exact; the point test leaves out the surface. *)
Theorem C34_sphere_tests : forall s b, (0 <= sr s)%R -> (0 <= sr b)%R ->
  (sphere_IsIntersect s b = true <-> exists q, insphere s q /\ insphere b q) /\
  (sphere_IsInclude s b 0 = true <-> forall q, insphere b q -> insphere s q) /\
  (forall q, sphere_isInclude_Point s q = true <-> (dist q (sc s) < sr s)%R).
Proof.
  intros s b Hs Hb. split; [apply sphere_intersect_iff; auto|split].
  - rewrite IsInclude_sphere_iff by auto. replace (Sph (sr s + 0) (sc s)) with s; [tauto|]. destruct s; cbn. f_equal. lra.
  - intros. apply isInclude_sphere_iff; auto.
Qed.
(** The distance range is exact: it bounds the distance to every point of the sphere and both ends are attained. *)
Theorem C34_sphere_range : forall s mm q mn mx, (0 <= sr s)%R -> sphere_Range s mm q = (mn, mx) ->
  (0 <= mn <= mx)%R /\ (forall c, insphere s c -> (mn <= dist c q <= mx)%R) /\
  (exists c, insphere s c /\ dist c q = mn) /\ (exists c, insphere s c /\ dist c q = mx).
Proof. intros s mm q mn mx Hs E. pose proof (sphere_range_ok s mm q Hs) as H. rewrite E in H. exact H. Qed.
(** Line and ray tests are exact. *)
Theorem C34_sphere_line_ray : forall s src dir, nonzero dir ->
  (exists b, sphere_IsIntersectLine s src dir = Some b /\ (b = true <-> exists q, on_line src dir q /\ insphere s q)) /\
  (exists b, sphere_IsIntersectRay s src dir = Some b /\ (b = true <-> exists q, on_ray src dir q /\ insphere s q)).
Proof. intros. split; [apply line_iff|apply ray_iff]; auto. Qed.
Theorem C34_sphere_setpoints : forall p0 p1 p2 p3 cc, (0 <= cc)%R -> exists s, sphere_SetPoints4 p0 p1 p2 p3 cc = Some s /\
  forall p q, In p [p0; p1; p2; p3] -> near_ball p cc q -> insphere s q.
Proof. exact setpoints4_ok. Qed.
(** The sphere tests do not look at the activity flag: an inactive (empty) sphere claims to intersect a sphere it shares no point
    with, and claims to include a point. *)
Theorem C34_sphere_inactive_refuted :
  let e := sphere0 in let s := Sph 5 (V3 3 0 0) in
  sphere_IsActive e = false /\ (forall q, ~ insphere e q) /\ sphere_IsIntersect e s = true /\ sphere_isInclude_Point e (V3 0 0 0) = true.
Proof.
  cbv zeta. split; [apply Rleb_false; cbn; lra|split; [|split]].
  - intros q H. unfold insphere in H. pose proof (dist_pos q (sc sphere0)). cbn [sr sphere0] in H. lra.
  - unfold sphere_IsIntersect. cbv zeta. rewrite Distance3_dist. cbn [sr sc sphere0].
    assert (E : dist (V3 3 0 0) (V3 0 0 0) = 3%R).
    { pose proof (dist_move (V3 0 0 0) 3) as D. cbn [vx vy vz] in D. rewrite Rabs_right in D by lra. etransitivity; [|exact D]. repeat (f_equal; try lra). }
    rewrite E. rewrite (proj2 (Rltb_false _ _)); auto. lra.
  - unfold sphere_isInclude_Point. cbv zeta. apply Rltb_true. unfold dot3, sub3. cbn. lra.
Qed.

(** ---------------- C31 ---------------- *)
(** Boxes over a mesh: every corner of every element below a node, with its margin, is in the node's box, and every box contains the
    boxes below it -- whatever volumes the array held before. *)
Theorem C31_mesh_boxes : forall xyz elem nElem nnoel margin nodes t par aBB,
  mesh_ok xyz elem nElem nnoel -> (0 <= margin)%R ->
  represents nodes par t -> NoDup (node_ids t) -> (forall o, In o (objects t) -> o < nElem) ->
  exists aBB', BuildGeometry aabb0 box_add (SetVolume_Mesh aabb_Set_Inactive box_addp margin xyz elem nElem nnoel) (length nodes) aBB (root t) nodes = Some aBB' /\
    length aBB' = length nodes /\ nested_boxes aBB' t /\
    forall s o i q, subtree s t -> In o (objects s) -> i < nnoel -> near_box (corner xyz elem nnoel o i) margin q ->
      inbox (nth (root s) aBB' aabb0) q.
Proof.
  intros xyz elem nElem nnoel margin nodes t par aBB M Hm Hr ND Ho.
  destruct (build_top aabb0 box_add (SetVolume_Mesh aabb_Set_Inactive box_addp margin xyz elem nElem nnoel) bcont proper (fun _ => True)
     (fun o b => forall i q, i < nnoel -> near_box (corner xyz elem nnoel o i) margin q -> inbox b q) (fun o => o < nElem)) with (nodes := nodes) (t := t) (par := par) (aBB := aBB)
    as (u & E & L & G); auto.
  - intros bb o _ Hob. apply mesh_set with (ok := fun b => proper b \/ inactive b); auto using box_addp_ok.
    intros b. right. unfold inactive, aabb_Set_Inactive. cbn. lra.
  - apply box_add_ok.
  - exists u. split; [auto|split; [auto|]].
    assert (Rf : forall a, bcont a a) by (intros a q; auto). assert (Tr : forall a b c, bcont a b -> bcont b c -> bcont a c) by (intros a b c H1 H2 q; auto).
    split.
    + intros s s' q S1 S2. destruct (good_sub aabb0 bcont proper _ Rf Tr s t u S1 G) as (G1 & _).
      destruct (good_sub aabb0 bcont proper _ Rf Tr s' s u S2 G1) as (_ & C). apply C.
    + intros s o i q S1 Hob Hi Hq. destruct (good_leaf _ _ _ _ _ _ _ Rf Tr G s S1) as (_ & _ & K).
      apply leaf_obj in Hob. destruct Hob as (k & Hk). destruct (K k o Hk) as (K1 & K2). apply K2. eapply K1; eauto.
Qed.
(** The same for spheres. *)
Theorem C31_mesh_spheres : forall xyz elem nElem nnoel margin nodes t par aBB,
  mesh_ok xyz elem nElem nnoel -> (0 <= margin)%R ->
  represents nodes par t -> NoDup (node_ids t) -> (forall o, In o (objects t) -> o < nElem) ->
  exists aBB', BuildGeometry sphere0 sphere_add (SetVolume_Mesh sphere_Set_Inactive sphere_AddPoint margin xyz elem nElem nnoel) (length nodes) aBB (root t) nodes = Some aBB' /\
    length aBB' = length nodes /\ nested_spheres aBB' t /\
    forall s o i q, subtree s t -> In o (objects s) -> i < nnoel -> near_ball (corner xyz elem nnoel o i) margin q ->
      insphere (nth (root s) aBB' sphere0) q.
Proof.
  intros xyz elem nElem nnoel margin nodes t par aBB M Hm Hr ND Ho.
  destruct (build_top sphere0 sphere_add (SetVolume_Mesh sphere_Set_Inactive sphere_AddPoint margin xyz elem nElem nnoel) sle (fun s => (0 <= sr s)%R) (fun _ => True)
     (fun o b => forall i q, i < nnoel -> near_ball (corner xyz elem nnoel o i) margin q -> insphere b q) (fun o => o < nElem)) with (nodes := nodes) (t := t) (par := par) (aBB := aBB)
    as (u & E & L & G); auto.
  - intros bb o _ Hob. apply mesh_set with (ok := fun _ => True); auto using sph_addp_ok.
  - apply sph_add_ok.
  - exists u. split; [auto|split; [auto|]]. split; [split|].
    + intros s S1. destruct (good_leaf _ _ _ _ _ _ _ sle_refl sle_trans G s S1) as (K & _). auto.
    + intros s s' q S1 S2. destruct (good_sub sphere0 sle _ _ sle_refl sle_trans s t u S1 G) as (G1 & _).
      destruct (good_sub sphere0 sle _ _ sle_refl sle_trans s' s u S2 G1) as (_ & C). intros Q. apply (sle_in _ _ q C). auto.
    + intros s o i q S1 Hob Hi Hq. destruct (good_leaf _ _ _ _ _ _ _ sle_refl sle_trans G s S1) as (_ & _ & K).
      apply leaf_obj in Hob. destruct Hob as (k & Hk). destruct (K k o Hk) as (K1 & K2). apply (sle_in _ _ q K2). eapply K1; eauto.
Qed.
(** Spheres over points, built into an empty array: leaf volumes are exactly the points, and volumes are nested. *)
Theorem C31_point_spheres : forall xyz nv nodes t par,
  nv * 3 <= length xyz -> represents nodes par t -> NoDup (node_ids t) -> (forall o, In o (objects t) -> o < nv) ->
  exists aBB', BuildGeometry sphere0 sphere_add (SetVolume_Point sphere_AddPoint xyz nv) (length nodes) [] (root t) nodes = Some aBB' /\
    length aBB' = length nodes /\ nested_spheres aBB' t /\
    (forall k o, In (k, o) (leaves t) -> nth k aBB' sphere0 = Sph 0 (point xyz o)) /\
    (forall s o, subtree s t -> In o (objects s) -> insphere (nth (root s) aBB' sphere0) (point xyz o)).
Proof.
  intros xyz nv nodes t par Hx Hr ND Ho.
  destruct (build_top sphere0 sphere_add (SetVolume_Point sphere_AddPoint xyz nv) sle (fun s => (0 <= sr s)%R) (fun s => (sr s < 0)%R)
     (fun o b => b = Sph 0 (point xyz o)) (fun o => o < nv)) with (nodes := nodes) (t := t) (par := par) (aBB := @nil sphere)
    as (u & E & L & G); auto.
  - intros bb o Hb Hob. unfold SetVolume_Point. rewrite (proj2 (Nat.ltb_lt _ _) Hob). cbn [assertb bind]. rewrite getp_ok by lia. cbn [bind].
    unfold sphere_AddPoint. rewrite (proj2 (Rltb_false 0 0)) by lra. rewrite (proj2 (Rltb_true _ _)) by auto.
    eexists. split; [reflexivity|]. cbn [sr]. split; [auto|lra].
  - apply sph_add_ok.
  - intros k Hk. rewrite vresize_nil, nth_repeat. cbn. lra.
  - exists u. split; [auto|split; [auto|]]. split; [split|split].
    + intros s S1. destruct (good_leaf _ _ _ _ _ _ _ sle_refl sle_trans G s S1) as (K & _). auto.
    + intros s s' q S1 S2. destruct (good_sub sphere0 sle _ _ sle_refl sle_trans s t u S1 G) as (G1 & _).
      destruct (good_sub sphere0 sle _ _ sle_refl sle_trans s' s u S2 G1) as (_ & C). intros Q. apply (sle_in _ _ q C). auto.
    + intros k o H. destruct (good_leaf _ _ _ _ _ _ _ sle_refl sle_trans G t (sub_refl t)) as (_ & _ & K). apply (K k o H).
    + intros s o S1 Hob. destruct (good_leaf _ _ _ _ _ _ _ sle_refl sle_trans G s S1) as (_ & _ & K).
      apply leaf_obj in Hob. destruct Hob as (k & Hk). destruct (K k o Hk) as (K1 & K2). apply (sle_in _ _ _ K2). rewrite K1. apply near_ball_refl.
Qed.

(** With the point leaf-maker a second build into the same array keeps the first points: after moving a point from (0,0,0) to
    (2,0,0) the leaf is the sphere of radius 1 around (1,0,0), not the point; a fresh build gives the point; and the nearest-point search on the
    rebuilt hierarchy fails its assertion. *)
Theorem C31_rebuild_refuted :
  let nodes := [mkB None (Some 0) None] in
  let build := fun aBB xyz => BuildGeometry sphere0 sphere_add (SetVolume_Point sphere_AddPoint xyz 1) 1 aBB 0 nodes in
  represents nodes None (BLeaf 0 0) /\
  build [] [0;0;0]%R = Some [Sph 0 (V3 0 0 0)] /\
  build [] [2;0;0]%R = Some [Sph 0 (V3 2 0 0)] /\
  build [Sph 0 (V3 0 0 0)] [2;0;0]%R = Some [Sph 1 (V3 1 0 0)] /\
  IndPoint_NearestPoint sphere_Range 1 (0, (-1)%R) (V3 5 0 0) 0 nodes [Sph 1 (V3 1 0 0)] = None.
Proof.
  assert (F0 : forall p xyz, getp xyz 0 = Some p -> BuildGeometry sphere0 sphere_add (SetVolume_Point sphere_AddPoint xyz 1) 1 [] 0 [mkB None (Some 0) None] = Some [Sph 0 p]).
  { intros p xyz E. cbn [BuildGeometry]. cbn. unfold SetVolume_Point. cbn [Nat.ltb Nat.leb assertb bind]. rewrite E. cbn [bind].
    unfold sphere_AddPoint. rewrite (proj2 (Rltb_false 0 0)) by lra. cbn [sr sphere0]. rewrite (proj2 (Rltb_true (-1) 0)) by lra. auto. }
  cbv zeta. split; [reflexivity|split; [apply F0; reflexivity|split; [apply F0; reflexivity|split]]].
  - cbn [BuildGeometry]. cbn [length vresize firstn repeat Nat.sub app Nat.ltb Nat.leb assertb bind vget nth_error ichild0 ichild1].
    unfold SetVolume_Point. cbn [Nat.ltb Nat.leb assertb bind]. replace (getp [2; 0; 0]%R 0) with (Some (V3 2 0 0)) by reflexivity. cbn [bind].
    unfold sphere_AddPoint. rewrite (proj2 (Rltb_false 0 0)) by lra. cbn [sr sc]. rewrite (proj2 (Rltb_false 0 0)) by lra. cbv zeta.
    rewrite Distance3_dist.
    assert (D : dist (V3 2 0 0) (V3 0 0 0) = 2%R).
    { pose proof (dist_move (V3 0 0 0) 2) as D. cbn [vx vy vz] in D. rewrite Rabs_right in D by lra. etransitivity; [|exact D]. repeat (f_equal; try lra). }
    rewrite D. rewrite !(proj2 (Rltb_false _ _)) by lra. rewrite Rplus_0_r, Rabs_R0, Rabs_right by lra. rewrite (proj2 (Rleb_false 2 _)) by lra.
    assert (H1 : (1 / 2 * (2 + 0 - 0) / 2 = 1 / 2)%R) by lra.
    rewrite H1. rewrite (proj2 (Rleb_true 0 (1 / 2))) by lra. cbn [andb assertb bind]. cbn [vx vy vz].
    unfold vset. cbn. do 3 f_equal; [lra|]. f_equal; lra.
  - cbn [IndPoint_NearestPoint length Nat.eqb assertb bind vget nth_error]. unfold sphere_Range. cbn [sr sc].
    rewrite (proj2 (Rltb_false 1 0)) by lra. cbv zeta. rewrite Distance3_dist.
    assert (D : dist (V3 5 0 0) (V3 1 0 0) = 4%R).
    { pose proof (dist_move (V3 1 0 0) 4) as D. cbn [vx vy vz] in D. rewrite Rabs_right in D by lra. etransitivity; [|exact D]. repeat (f_equal; try lra). }
    rewrite D. rewrite (proj2 (Rltb_false 4 1)) by lra. rewrite (proj2 (Rltb_false (4 + 1) (4 - 1))) by lra. rewrite (proj2 (Rltb_false 0 (-1))) by lra.
    cbn [andb ichild0 ichild1 bind]. destruct (Req_EM_T (4 - 1) (4 + 1)) as [X|X]; [lra|]. auto.
Qed.

(** ---------------- C32 ---------------- *)
(** For a predicate that holds at a node whenever it holds at a node below, the query returns the objects of exactly those leaves where
    it holds, each once, from left to right. *)
Theorem C32_query : forall BB (nodes : list bnode) (aBB : list BB) (pred : nat -> list BB -> option bool) (P : nat -> bool) t par,
  represents nodes par t -> NoDup (node_ids t) -> (forall o, In o (objects t) -> o < length aBB) ->
  (forall k, In k (node_ids t) -> pred k aBB = Some (P k)) ->
  (forall s s', subtree s t -> subtree s' s -> P (root s') = true -> P (root s) = true) ->
  forall acc, GetIndElem pred (length nodes) acc (root t) nodes aBB = Some (acc ++ map snd (filter (fun ko => P (fst ko)) (leaves t))).
Proof.
  intros BB nodes aBB pred P t par Hr ND Ho HP Hm acc. rewrite <- (hits_mono P t Hm).
  apply query_lemma with (par := par); auto. apply (ids_len _ _ _ Hr ND).
Qed.

Lemma filter_leaf : forall (P : nat -> bool) t o, In o (map snd (filter (fun ko => P (fst ko)) (leaves t))) <-> exists k, In (k, o) (leaves t) /\ P k = true.
Proof.
  intros P t o. rewrite in_map_iff. split.
  - intros ((k & o') & E & H). cbn in E. subst o'. apply filter_In in H. cbn in H. exists k. auto.
  - intros (k & H & E). exists (k, o). split; auto. apply filter_In. auto.
Qed.

(** Point query in nested boxes: exactly the elements whose own box contains the point. *)
Theorem C32_box_point : forall nodes aBB t par pos, represents nodes par t -> NoDup (node_ids t) -> length aBB = length nodes ->
  (forall o, In o (objects t) -> o < length aBB) -> nested_boxes aBB t ->
  exists out, GetIndElem (pred_of (fun b => Some (aabb_isInclude_Point b pos))) (length nodes) [] (root t) nodes aBB = Some out /\
    forall o, In o out <-> exists k, In (k, o) (leaves t) /\ inbox (nth k aBB aabb0) pos.
Proof.
  intros nodes aBB t par pos Hr ND Hl Ho Hn. set (P := fun k => aabb_isInclude_Point (nth k aBB aabb0) pos).
  eexists. split.
  - apply (C32_query _ nodes aBB _ P t par); auto.
    + intros k Hk. unfold pred_of. rewrite (vget_nth _ aabb0) by (rewrite Hl; eapply rep_ids; eauto). auto.
    + intros s s' S1 S2. unfold P. rewrite !aabb_isInclude_iff. apply Hn; auto.
  - intros o. cbn [app]. rewrite filter_leaf. unfold P. split; intros (k & A & B); exists k; (split; [auto|]); apply aabb_isInclude_iff; auto.
Qed.

(** In nested spheres: point (open ball), line, ray and distance-range queries return exactly the elements whose own sphere qualifies. *)
Theorem C32_sphere_queries : forall nodes aBB t par, represents nodes par t -> NoDup (node_ids t) -> length aBB = length nodes ->
  (forall o, In o (objects t) -> o < length aBB) -> nested_spheres aBB t ->
  let leafs := fun o (Q : sphere -> Prop) => exists k, In (k, o) (leaves t) /\ Q (nth k aBB sphere0) in
  let query := fun f => GetIndElem (pred_of f) (length nodes) [] (root t) nodes aBB in
  (forall pos, exists out, query (fun s => Some (sphere_isInclude_Point s pos)) = Some out /\
     forall o, In o out <-> leafs o (fun s => (dist pos (sc s) < sr s)%R)) /\
  (forall src dir, nonzero dir -> exists out, query (fun s => sphere_IsIntersectLine s src dir) = Some out /\
     forall o, In o out <-> leafs o (fun s => exists q, on_line src dir q /\ insphere s q)) /\
  (forall src dir, nonzero dir -> exists out, query (fun s => sphere_IsIntersectRay s src dir) = Some out /\
     forall o, In o out <-> leafs o (fun s => exists q, on_ray src dir q /\ insphere s q)) /\
  (forall pos mn mx, (mn <= mx)%R -> exists out, query (sphere_InsideRange pos mn mx) = Some out /\
     forall o, In o out <-> leafs o (fun s => exists lo hi, (lo <= mx)%R /\ (mn <= hi)%R /\
        (exists c, insphere s c /\ dist c pos = lo) /\ (exists c, insphere s c /\ dist c pos = hi))).
Proof.
  intros nodes aBB t par Hr ND Hl Ho (Ha & Hn). cbv zeta.
  assert (Gen : forall (f : sphere -> option bool) (Q : sphere -> Prop),
     (forall s, (0 <= sr s)%R -> exists b, f s = Some b /\ (b = true <-> Q s)) ->
     (forall s S, (0 <= sr s)%R -> (0 <= sr S)%R -> (forall q, insphere s q -> insphere S q) -> Q s -> Q S) ->
     exists out, GetIndElem (pred_of f) (length nodes) [] (root t) nodes aBB = Some out /\
       forall o, In o out <-> exists k, In (k, o) (leaves t) /\ Q (nth k aBB sphere0)).
  { intros f Q HF HM. set (P := fun k => match f (nth k aBB sphere0) with Some b => b | None => false end).
    assert (HS : forall s, subtree s t -> f (nth (root s) aBB sphere0) = Some (P (root s)) /\ (P (root s) = true <-> Q (nth (root s) aBB sphere0))).
    { intros s Hs. destruct (HF (nth (root s) aBB sphere0) (Ha s Hs)) as (b & E & I). unfold P. rewrite E. auto. }
    assert (IS : forall t0 k, In k (node_ids t0) -> exists s, subtree s t0 /\ root s = k).
    { induction t0; cbn [node_ids]; intros k Hk.
      - destruct Hk as [<-|[]]. eexists. split; [constructor|auto].
      - destruct Hk as [<-|Hk]; [eexists; split; [constructor|auto]|]. apply in_app_or in Hk. destruct Hk as [Hk|Hk].
        + destruct (IHt0_1 k Hk) as (s & A & B). exists s. split; auto. apply sub_l; auto.
        + destruct (IHt0_2 k Hk) as (s & A & B). exists s. split; auto. apply sub_r; auto. }
    eexists. split.
    - apply (C32_query _ nodes aBB _ P t par); auto.
      + intros k Hk. destruct (IS t k Hk) as (s & S1 & <-). unfold pred_of. rewrite (vget_nth _ sphere0) by (rewrite Hl; eapply rep_ids; eauto). cbn [bind]. apply HS; auto.
      + intros s s' S1 S2. pose proof (sub_trans _ _ _ S2 S1) as S3. rewrite (proj2 (HS s S1)), (proj2 (HS s' S3)).
        apply HM; auto. intros q. apply Hn; auto.
    - intros o. cbn [app]. rewrite filter_leaf. split; intros (k & A & B); exists k; (split; [auto|]); apply leaf_sub in A; apply (proj2 (HS _ A)); auto. }
  split; [|split; [|split]].
  - intros pos. apply (Gen _ (fun s => (dist pos (sc s) < sr s)%R)).
    + intros s Hs. eexists. split; [reflexivity|]. apply isInclude_sphere_iff; auto.
    + intros s S0 Hs HS0 HI H. apply sle_iff in HI; auto. unfold sle in HI. pose proof (dist_tri pos (sc s) (sc S0)). lra.
  - intros src dir Hd. apply (Gen _ (fun s => exists q, on_line src dir q /\ insphere s q)).
    + intros s Hs. apply line_iff; auto.
    + intros s S0 _ _ HI (q & A & B). eauto.
  - intros src dir Hd. apply (Gen _ (fun s => exists q, on_ray src dir q /\ insphere s q)).
    + intros s Hs. apply ray_iff; auto.
    + intros s S0 _ _ HI (q & A & B). eauto.
  - intros pos mn mx Hmm. apply (Gen _ (fun s => exists lo hi, (lo <= mx)%R /\ (mn <= hi)%R /\
        (exists c, insphere s c /\ dist c pos = lo) /\ (exists c, insphere s c /\ dist c pos = hi))).
    + intros s Hs. pose proof (sphere_range_ok s (0, 0)%R pos Hs) as W. unfold sphere_InsideRange.
      rewrite (proj2 (Rltb_false _ _)) by auto. destruct (sphere_Range s (0%R, 0%R) pos) as [m0 x0].
      destruct W as (W1 & W2 & W3 & W4). eexists. split; [reflexivity|]. rewrite negb_true_iff, orb_false_iff, !Rltb_false. split.
      * intros (A & B). exists m0, x0. auto.
      * intros (a & b & A & B & (c & C1 & C2) & (d & D1 & D2)). pose proof (W2 c C1). pose proof (W2 d D1). lra.
    + intros s S0 _ _ HI (a & b & A & B & (c & C1 & C2) & (d & D1 & D2)). exists a, b. repeat split; eauto.
Qed.

(** ---------------- C33 ---------------- *)
(** In a nested sphere hierarchy over points the search returns a point of the tree at minimal distance, and that distance. *)
Theorem C33_nearest : forall nodes aBB t par xyz p ip0 d0, represents nodes par t -> NoDup (node_ids t) -> length aBB = length nodes ->
  nested_spheres aBB t -> (forall k o, In (k, o) (leaves t) -> nth k aBB sphere0 = Sph 0 (point xyz o)) -> (d0 < 0)%R ->
  exists ip d, IndPoint_NearestPoint sphere_Range (length nodes) (ip0, d0) p (root t) nodes aBB = Some (ip, d) /\
    In ip (objects t) /\ d = dist (point xyz ip) p /\ forall o, In o (objects t) -> (d <= dist (point xyz o) p)%R.
Proof.
  intros nodes aBB t par xyz p ip0 d0 Hr ND Hl (Ha & Hn) Hleaf Hd.
  destruct (near_lemma nodes aBB p (point xyz) t par (length nodes) (ip0, d0) Hr (ids_len _ _ _ Hr ND) Hl) as (st & E & I1 & I2 & I3); auto.
  { intros s Hs. split; [auto|]. intros o Ho. apply leaf_obj in Ho. destruct Ho as (k & Hk).
    assert (Hk' := Hk). apply leaf_sub in Hk. apply (Hn s (BLeaf k o)); auto. cbn [root].
    rewrite (Hleaf k o); [apply near_ball_refl|]. apply leaf_sub. apply sub_trans with s; auto. }
  destruct st as [ip d]. exists ip, d. split; auto. cbn [fst snd] in *.
  assert (NE : exists o, In o (objects t)). { clear. induction t; cbn; eauto. destruct IHt1 as (o & H). exists o. apply in_or_app. auto. }
  destruct NE as (o0 & Ho0). destruct I1 as [X|(A & B)].
  - injection X as -> ->. specialize (I2 o0 Ho0). lra.
  - split; [auto|split; [exact B|]]. intros o Ho. apply (I2 o Ho).
Qed.
(** The range search returns, over all leaves, the least near distance and the least far distance. *)
Theorem C33_range : forall nodes aBB t par p mn0 mx0, represents nodes par t -> NoDup (node_ids t) -> length aBB = length nodes ->
  nested_spheres aBB t -> (mx0 < mn0)%R ->
  let near := fun k => fst (sphere_Range (nth k aBB sphere0) (1, -1)%R p) in
  let far := fun k => snd (sphere_Range (nth k aBB sphere0) (1, -1)%R p) in
  exists mn mx, Range_DistToNearestPoint sphere_Range (length nodes) (mn0, mx0) p (root t) nodes aBB = Some (mn, mx) /\
    (exists k o, In (k, o) (leaves t) /\ near k = mn) /\ (exists k o, In (k, o) (leaves t) /\ far k = mx) /\
    forall k o, In (k, o) (leaves t) -> (mn <= near k /\ mx <= far k)%R.
Proof.
  intros nodes aBB t par p mn0 mx0 Hr ND Hl (Ha & Hn) Hd. cbv zeta.
  destruct (range_lemma nodes aBB p t par (length nodes) (mn0, mx0) Hr (ids_len _ _ _ Hr ND) Hl) as ((mn & mx) & E & V & (L1 & L2 & L3) & (H1 & H2 & H3)); auto.
  { intros s s' S1 S2. unfold lo. pose proof (sphere_range_ok _ (1, -1)%R p (Ha s S1)) as A.
    pose proof (sphere_range_ok _ (1, -1)%R p (Ha s' (sub_trans _ _ _ S2 S1))) as B.
    destruct (sphere_Range (nth (root s) aBB sphere0) (1, -1)%R p). destruct (sphere_Range (nth (root s') aBB sphere0) (1, -1)%R p). cbn [fst].
    destruct A as (_ & A & _), B as (_ & _ & (c & C1 & C2) & _). rewrite <- C2. apply A. apply (Hn s s'); auto. }
  assert (ST : forall x, start (mn0, mx0) x = None) by (intros; unfold start, valid; cbn [fst snd]; rewrite (proj2 (Rleb_false _ _)); auto).
  rewrite ST in *. cbn [fst snd] in *. exists mn, mx. split; auto.
  assert (W : forall k, In k (map fst (leaves t)) <-> exists o, In (k, o) (leaves t)).
  { intros k. rewrite in_map_iff. split; [intros ((k' & o) & <- & X); eauto|intros (o & X); exists (k, o); auto]. }
  split; [|split].
  - destruct L1 as [L1|(k & K & L1)]; [discriminate|]. apply W in K. destruct K as (o & K). exists k, o. auto.
  - destruct H1 as [L|(k & K & L)]; [discriminate|]. apply W in K. destruct K as (o & K). exists k, o. auto.
  - intros k o K. assert (K' : In k (map fst (leaves t))) by (apply W; eauto). split; [apply (L2 k K')|apply (H2 k K')].
Qed.

(** End to end: tree from sorted Morton codes, spheres over the points, nearest-point search: the answer is a nearest one among all points. *)
Theorem C33_end_to_end : forall mc objs xyz nv p ip0, sorted_codes mc -> words32 mc -> 2 <= length mc -> length objs = length mc ->
  nv * 3 <= length xyz -> (forall o, In o objs -> o < nv) ->
  exists nodes aBB ip d, BVHTopology_Morton [] objs mc = Some nodes /\
    BuildGeometry sphere0 sphere_add (SetVolume_Point sphere_AddPoint xyz nv) (length nodes) [] 0 nodes = Some aBB /\
    IndPoint_NearestPoint sphere_Range (length nodes) (ip0, (-1)%R) p 0 nodes aBB = Some (ip, d) /\
    In ip objs /\ d = dist (point xyz ip) p /\ forall o, In o objs -> (d <= dist (point xyz o) p)%R.
Proof.
  intros mc objs xyz nv p ip0 Hs Hw Hn Hl Hx Ho.
  destruct (C30_tree mc objs [] Hs Hw Hn Hl) as (nodes & EN & LN & t & T1 & T2 & T3 & T4).
  assert (ND : NoDup (node_ids t)) by (eapply Permutation_NoDup; [symmetry; apply T4|apply seq_NoDup]).
  destruct (C31_point_spheres xyz nv nodes t None Hx T1 ND ltac:(rewrite T3; auto)) as (aBB & EB & LB & NB & LF & _).
  destruct (C33_nearest nodes aBB t None xyz p ip0 (-1)%R T1 ND LB NB LF ltac:(lra)) as (ip & d & E & A & B & C).
  rewrite T2 in *. rewrite T3 in *. exists nodes, aBB, ip, d. repeat (split; [assumption|]). assumption.
Qed.

Print Assumptions C31_mesh_boxes.
Print Assumptions C32_sphere_queries.
Print Assumptions C33_end_to_end.
Print Assumptions C34_sphere_line_ray.

(** The hypotheses are met: three triangles' worth of points and a non-trivial tree of three leaves. *)
Definition ex_nodes : list bnode :=
  [mkB None (Some 2) (Some 1); mkB (Some 0) (Some 3) (Some 4); mkB (Some 0) (Some 2) None; mkB (Some 1) (Some 0) None; mkB (Some 1) (Some 1) None].
Definition ex_tree : btree := BNode 0 (BLeaf 2 2) (BNode 1 (BLeaf 3 0) (BLeaf 4 1)).
Example C31_example : represents ex_nodes None ex_tree /\ NoDup (node_ids ex_tree) /\ mesh_ok [0;0;0; 1;0;0; 0;1;0; 3;3;3]%R [0;1;2; 1;2;3; 0;2;3] 3 3 /\
  (forall o, In o (objects ex_tree) -> o < 3).
Proof.
  split; [repeat split|split; [|split]].
  - cbn. repeat constructor; cbn; intuition discriminate.
  - split; [lia|split; [reflexivity|]]. intros v Hv. cbn in Hv. cbn [length]. intuition lia.
  - intros o Ho. cbn in Ho. intuition lia.
Qed.
