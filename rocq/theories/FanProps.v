(** C65: looking around the points of a dynamic triangle mesh, its assertions and its holes. *)
From Coq Require Import List Arith Lia Bool Relations.
Import ListNotations.
From Verif Require Import Imp DtriModel DtriSpec DtriProps CollModel CollSpec FanModel FanSpec.
From Verif Require Import DtriProofs1 CollProofs1 CollProofs7 CollProps FanProofs1 FanProofs2 FanProofs3 FanProofs4.

(** The assertions of the library: AssertDTri passes exactly on the meshes whose corners are distinct and whose links are mutual;
    AssertMeshDTri passes on every consistent mesh. *)
Theorem C65_asserts : forall po m, (AssertDTri m = Some tt <-> tri_ok m) /\
  (consistent po m -> AssertDTri m = Some tt /\ AssertMeshDTri po m = Some tt) /\
  (AssertDTri m = Some tt -> AssertMeshDTri po m = Some tt ->
   (forall t i, t < length m -> i < 3 -> V m t i < length po) -> consistent po m).
Proof.
  intros po m. split; [apply AssertDTri_iff|]. split.
  - intros (H1 & H2 & H3). split; [apply AssertDTri_iff; auto|]. apply AssertMesh_iff. split; auto.
  - intros H1 H2 H3. apply AssertDTri_iff in H1. apply AssertMesh_iff in H2. split; auto. split; [auto|apply H2].
Qed.

(** The corners around a point: all corners met turning counter-clockwise from the stored one, each once, in order. *)
Theorem C65_corners : forall po m p t i, consistent po m -> stored po p t i ->
  exists l, GetTriArrayAroundPoint p po m = Some l /\ fan_list m (t, i) l /\
    (forall s j, In (s, j) l -> s < length m /\ j < 3 /\ V m s j = p) /\
    (whole_fan m t i -> closed_fan m t i \/ L m t (pv i) = None ->
     forall s j, s < length m -> j < 3 -> V m s j = p -> In (s, j) l).
Proof.
  intros po m p t i HC Hst. destruct (GetTri_ok po m HC p t i Hst) as (l & E & HF). exists l. split; auto. split; auto.
  destruct (stored_vc po m HC p t i Hst) as (Vc & Ev). destruct HF as (_ & _ & _ & HA). pose proof (proj1 HC) as Hm. split.
  - intros s j H. apply HA in H. destruct (around_vc m Hm _ _ Vc H) as ((H1 & H2) & H3). cbn in *. split; auto. split; auto. unfold P in H3. cbn in H3. congruence.
  - intros HW HB s j Hs Hj HV. apply HA. assert (Q : in_fan m (t, i) (s, j)) by (apply HW; auto; congruence).
    assert (Vs : vc m (s, j)) by (split; auto). destruct HB as [HB|HB].
    + apply (closed_around m Hm); auto.
    + destruct Q as [Q|Q]; auto. apply clos_rt_rtn1 in Q. inversion Q as [|y z T Q']; subst; [apply rt_refl|]. exfalso.
      destruct T as (k & T & E'). cbn in E'. subst i. rewrite pv_nx in HB by apply T. destruct T as (_ & _ & _ & T & _). cbn in T. congruence.
Qed.

(** The neighbours of an inner point: every point joined to it, each once. *)
Theorem C65_neighbours : forall po m p t i, consistent po m -> simple_edges m -> stored po p t i -> whole_fan m t i -> closed_fan m t i ->
  exists l, FindPointAroundPoint p po m = Some l /\ NoDup l /\ forall q, In q l <-> joined m q p.
Proof.
  intros po m p t i HC Hs Hst HW HB. pose proof (proj1 HC) as Hm. destruct (stored_vc po m HC p t i Hst) as (Vc & Ev).
  destruct (proj1 (FindPoint_ok po m HC p t i Hst) HB) as (l & (_ & Nd & _ & HA) & E). exists (map (far m) l). split; auto.
  assert (HV : forall c, In c l -> vc m c /\ P m c = p).
  { intros c Hc. apply HA in Hc. destruct (around_vc m Hm _ _ Vc Hc) as (H1 & H2). split; auto. rewrite H2. exact Ev. }
  split.
  - apply NoDup_map_inj; auto. intros x y Hx Hy Exy. destruct (HV x Hx) as (X1 & X2), (HV y Hy) as (Y1 & Y2). apply (far_inj m Hs); auto. congruence.
  - intros q. rewrite in_map_iff. split.
    + intros ((s, j) & <- & Hc). destruct (HV _ Hc) as (Vs & Ps). pose proof (far_ne m Hm _ Vs) as Q. rewrite Ps in Q. split; auto.
      destruct Vs as (H1 & H2). exists s. split; auto. split; [exists (pv j); split; auto; apply pv_lt|exists j; split; auto].
    + intros (Nq & s & Hsl & (a & Ha & Ea) & (b & Hb & Eb)).
      assert (In (s, b) l). { apply HA. apply (closed_around m Hm); auto; [split; auto|]. apply HW; auto. congruence. }
      assert (a <> b) by (intros ->; congruence). destruct (ix3 b a Hb Ha) as [-> | [-> | ->]]; [congruence| |].
      * (* q is the next corner: it is the far corner of the previous triangle *)
        destruct (closed_prev m Hm (t, i) (s, b) Vc HB) as ((s', j') & T & A & V'); [apply HA; auto|].
        exists (s', j'). split; [|apply HA; auto]. destruct T as (k & T & E'). cbn in E'. subst b. destruct T as (_ & Hk & _ & _ & T1 & T2). unfold far. cbn [fst snd].
        rewrite nx_nx in Ea by auto. rewrite nx_nx in T1 by apply V'. cbn in T1. congruence.
      * exists (s, b). split; auto.
Qed.
(** At a point where a boundary edge is met the function stops at its assert(0). *)
Theorem C65_neighbours_boundary : forall po m p t i, consistent po m -> stored po p t i -> ~ closed_fan m t i ->
  FindPointAroundPoint p po m = None.
Proof. intros po m p t i HC Hst HB. apply (FindPoint_ok po m HC p t i Hst); auto. Qed.

(** Searching an edge around a point. *)
Theorem C65_find_edge : forall po m p0 p1 t i, consistent po m -> stored po p0 t i -> whole_fan m t i ->
  exists r, FindEdge_LookAroundPoint p0 p1 po m = Some r /\
    match r with
    | Some (s, i0, i1) => s < length m /\ i0 < 3 /\ i1 = nx i0 /\ V m s i0 = p0 /\ V m s i1 = p1
    | None => forall s j, s < length m -> j < 3 -> V m s j = p0 -> V m s (nx j) <> p1
    end.
Proof.
  intros po m p0 p1 t i HC Hst HW. pose proof (FindEdge_ok po m HC p0 t i p1 Hst) as W. destruct (stored_vc po m HC p0 t i Hst) as (Vc & Ev).
  destruct (FindEdge_LookAroundPoint p0 p1 po m) as [r|]; [|destruct W]. exists r. split; auto. cbn [wp] in W. destruct r as [((s, i0), i1)|].
  - destruct W as (A & B & C & D & E & _). auto 6.
  - intros s j Hs Hj HV. apply (W s j); auto. apply HW; auto. congruence.
Qed.
(** The exhaustive search: the first triangle and corner with the edge; the arguments are left alone when there is none. *)
Theorem C65_find_edge_all : forall m p0 p1 r0, exists r, FindEdge_LookAllTriangles p0 p1 m r0 = Some r /\
  ((exists t i, r = (t, i) /\ t < length m /\ i < 3 /\ V m t i = p0 /\ V m t (nx i) = p1 /\
     forall s j, s < length m -> j < 3 -> V m s j = p0 -> V m s (nx j) = p1 -> t < s \/ (t = s /\ i <= j)) \/
   (r = r0 /\ forall s j, s < length m -> j < 3 -> V m s j = p0 -> V m s (nx j) <> p1)).
Proof.
  intros m p0 p1 r0. pose proof (LookAll_wp m p0 p1 r0) as W. destruct (FindEdge_LookAllTriangles p0 p1 m r0) as [r|]; [|destruct W]. exists r. auto.
Qed.

(** The holes: closed loops of boundary edges that visit every boundary edge once. *)
Theorem C65_holes : forall po m, consistent po m -> manifold m ->
  exists hs, extractHoles (length po) m = Some hs /\ loops (bedge m) hs.
Proof. intros po m HC HM. apply extractHoles_ok; auto. Qed.

Print Assumptions C65_asserts.
Print Assumptions C65_corners.
Print Assumptions C65_neighbours.
Print Assumptions C65_neighbours_boundary.
Print Assumptions C65_find_edge.
Print Assumptions C65_find_edge_all.
Print Assumptions C65_holes.

(** The hypotheses are met: inner and boundary points of a disk. *)
Lemma ex_disk_manifold : manifold (snd ex_disk_mesh).
Proof. split; [apply ex_simple_ok; vm_compute; reflexivity|]. apply ex_whole_ok; [apply ex_disk_ok|vm_compute; reflexivity]. Qed.
Example C65_disk_inst : consistent (fst ex_disk_mesh) (snd ex_disk_mesh) /\ manifold (snd ex_disk_mesh) /\
  stored (fst ex_disk_mesh) 0 4 0 /\ closed_fan (snd ex_disk_mesh) 4 0 /\
  GetTriArrayAroundPoint 0 (fst ex_disk_mesh) (snd ex_disk_mesh) = Some [(4, 0); (0, 0); (1, 0); (2, 0); (3, 0)] /\
  FindPointAroundPoint 0 (fst ex_disk_mesh) (snd ex_disk_mesh) = Some [2; 3; 4; 5; 1] /\
  FindEdge_LookAroundPoint 0 5 (fst ex_disk_mesh) (snd ex_disk_mesh) = Some (Some (3, 0, 1)) /\
  FindEdge_LookAroundPoint 0 6 (fst ex_disk_mesh) (snd ex_disk_mesh) = Some None /\
  extractHoles 8 (snd ex_disk_mesh) = Some [[2; 3; 4; 5; 6; 7]].
Proof.
  split; [apply ex_disk_ok|]. split; [apply ex_disk_manifold|]. split; [split; [vm_compute; lia|vm_compute; reflexivity]|]. split.
  { intros s j H. assert (In (s, j) [(4, 0); (0, 0); (1, 0); (2, 0); (3, 0)]).
    { destruct (C65_corners (fst ex_disk_mesh) (snd ex_disk_mesh) 0 4 0) as (l & E & (_ & _ & _ & HA) & _); [apply ex_disk_ok|split; [vm_compute; lia|vm_compute; reflexivity]|].
      apply HA in H. vm_compute in E. injection E as <-. auto. }
    cbn in H0. destruct H0 as [Q|[Q|[Q|[Q|[Q|[]]]]]]; injection Q as <- <-; vm_compute; discriminate. }
  repeat split; vm_compute; reflexivity.
Qed.

(** AssertMeshDTri checks the first corner of a triangle three times: together with AssertDTri it accepts a triangle whose other
    corners are not points. *)
Theorem C65_asserts_corner_refuted : exists po m, AssertDTri m = Some tt /\ AssertMeshDTri po m = Some tt /\ ~ consistent po m.
Proof.
  exists [mkP (Some 0) 0], [mkT 0 7 8 None None None]. split; [vm_compute; reflexivity|]. split; [vm_compute; reflexivity|].
  intros (_ & H & _). specialize (H 0 1 ltac:(cbn; lia) ltac:(lia)). vm_compute in H. lia.
Qed.
(** At a boundary point the list of corners starts at the stored corner and can miss triangles. *)
Theorem C65_corners_boundary_refuted : exists po m p t i s j l, consistent po m /\ manifold m /\ stored po p t i /\
  s < length m /\ j < 3 /\ V m s j = p /\ GetTriArrayAroundPoint p po m = Some l /\ ~ In (s, j) l.
Proof.
  exists (fst ex_disk_mesh), (snd ex_disk_mesh), 2, 7, 2, 4, 2, [(7, 2)].
  split; [apply ex_disk_ok|]. split; [apply ex_disk_manifold|]. split; [split; [vm_compute; lia|vm_compute; reflexivity]|].
  split; [vm_compute; lia|]. split; [lia|]. split; [vm_compute; reflexivity|]. split; [vm_compute; reflexivity|].
  intros [Q|[]]. discriminate.
Qed.
(** Without [manifold] the loops can be mixed up: two triangles that share one point only give one list of five points, in which
    the point 4 is followed by 1. *)
Theorem C65_holes_bowtie_refuted : exists po m hs, consistent po m /\ simple_edges m /\
  extractHoles (length po) m = Some hs /\ ~ loops (bedge m) hs.
Proof.
  exists [mkP (Some 0) 0; mkP (Some 0) 1; mkP (Some 0) 2; mkP (Some 1) 1; mkP (Some 1) 2],
    [mkT 0 1 2 None None None; mkT 0 3 4 None None None], [[0; 3; 4; 1; 2]].
  assert (Two : forall t, t < 2 -> t = 0 \/ t = 1) by (intros; lia).
  split; [|split; [|split; [vm_compute; reflexivity|]]].
  - split; [|split].
    + intros t Ht. destruct (Two t Ht) as [->| ->]; repeat split; intros.
      all: try (c3 i; c3 j; vm_compute in *; congruence). all: c3 i; vm_compute in H0; discriminate.
    + intros t i Ht Hi. destruct (Two t Ht) as [->| ->]; c3 i; vm_compute; lia.
    + intros p t Hp. destruct p as [|[|[|[|[|p]]]]]; [| | | | |cbn in Hp; lia]; vm_compute; intros Eq; inversion Eq; subst; lia.
  - apply ex_simple_ok. vm_compute. reflexivity.
  - intros (_ & _ & H). destruct (proj2 (H 4 1)) as (t & i & Ht & Hi & _ & E1 & E2).
    { exists [0; 3; 4; 1; 2], 2. split; [left; auto|]. split; [cbn; lia|]. split; vm_compute; reflexivity. }
    destruct (Two t Ht) as [->| ->]; c3 i; vm_compute in E1, E2; discriminate.
Qed.
