(** C62: the generated meshes are the surfaces they are named after. *)
From Coq Require Import List Arith Bool Lia Reals Lra.
Import ListNotations.
From Verif Require Import Imp PrimModel PrimSpec SgProofs2 PrimProofs1 PrimProofs2 PrimProofs3 PrimProofs4 PrimProofs5 PrimPi PrimProofs6 PrimProofs7 PrimProofs8.
Local Open Scope R_scope.

Lemma m21 : forall q, (q + 2 - 1 = q + 1)%nat. Proof. intros. lia. Qed.

(** The sphere is a closed surface of the sphere's type, with all points at the distance [radius]; for every 32 bit number of rings its triangles face outwards. *)
Theorem C62_sphere : forall radius n_longitude n_latitude, (2 <= n_longitude)%nat -> (3 <= n_latitude)%nat ->
  exists xyz tri, MeshTri3D_Sphere radius n_longitude n_latitude = Some (xyz, tri) /\
  let np := (n_latitude * (n_longitude - 1) + 2)%nat in
  length xyz = (3 * np)%nat /\ closed_surface np tri /\ euler np tri 2 /\
  (forall i, (i < np)%nat -> norm2 (P3 xyz i) = radius * radius) /\
  P3 xyz 0 = (0, radius, 0) /\
  (forall ila ilo, (1 <= ila < n_longitude)%nat -> (ilo < n_latitude)%nat ->
    let t := INR ila * (pi10 / INR n_longitude) in let f := INR ilo * (2 * pi10 / INR n_latitude) in
    P3 xyz (1 + (ila - 1) * n_latitude + ilo) = (radius * sin t * sin f, radius * cos t, radius * sin t * cos f)) /\
  P3 xyz (np - 1) = (0, radius * cos pi10, radius * sin pi10) /\
  (0 < radius -> INR n_longitude <= 4294967296 -> faces_outwards xyz tri).
Proof.
  intros rad k n Hk Hn. eexists. eexists. split. apply sphere_eq; auto. cbv zeta.
  assert (K2 : 2 <= INR k) by (replace 2 with (INR 2) by (simpl; ring); apply INR_ge; auto).
  split. rewrite pts3_len, revolved_len; auto. split. apply tube_closed; lia. split. apply tube_euler; lia.
  split. { intros i Hi. rewrite P3_pts3. apply (revolved_all (fun p => norm2 p = rad * rad)); auto using sph_norm. }
  split. { rewrite P3_pts3, revolved_s. unfold sph. simpl (INR 0). rewrite !Rmult_0_r, sin_0, cos_0. f_equal; [f_equal|]; ring. }
  split. { intros ila ilo H1 H2. rewrite P3_pts3. replace (1 + (ila - 1) * n + ilo)%nat with ((ila - 1) * n + 1 + ilo)%nat by lia. rewrite revolved_g by lia. replace (ila - 1 + 1)%nat with ila by lia. unfold sph. rewrite (Rmult_comm _ (INR ila)), (Rmult_comm _ (INR ilo)). f_equal; [f_equal|]; ring. }
  split. { rewrite P3_pts3. rewrite m21. rewrite revolved_e. unfold sph. simpl (INR 0). replace (pi10 / INR k * INR k) with pi10 by (field; lra). rewrite !Rmult_0_r, sin_0, cos_0. f_equal; [f_equal|]; ring. }
  intros H1 H2. apply sph_out; auto.
Qed.

(** The closed cylinder of height [l] and radius [r] about the y axis. *)
Theorem C62_cylinder_closed : forall r l nr nl, (3 <= nr)%nat -> (1 <= nl)%nat ->
  exists xyz tri, MeshTri3D_CylinderClosed r l nr nl = Some (xyz, tri) /\
  let np := (nr * (nl + 1) + 2)%nat in
  length xyz = (3 * np)%nat /\ closed_surface np tri /\ euler np tri 2 /\
  P3 xyz 0 = (0, - l / 2, 0) /\ P3 xyz (np - 1) = (0, l / 2, 0) /\
  (forall il ir, (il <= nl)%nat -> (ir < nr)%nat ->
    let f := INR ir * (2 * pi10 / INR nr) in P3 xyz (1 + il * nr + ir) = (r * cos f, - l / 2 + INR il * (l / INR nl), r * sin f)) /\
  (0 < r -> 0 < l -> faces_outwards xyz tri).
Proof.
  intros r l n m Hn Hm. eexists. eexists. split. apply cylinder_eq; auto. cbv zeta.
  split. rewrite pts3_len, revolved_len; auto. split. apply tube_closed; lia. split. apply tube_euler; lia.
  split. rewrite P3_pts3. apply revolved_s. split. rewrite P3_pts3. rewrite m21. apply revolved_e.
  split. { intros il ir H1 H2. rewrite P3_pts3. replace (1 + il * n + ir)%nat with (il * n + 1 + ir)%nat by lia. rewrite revolved_g by lia. unfold cyl. rewrite !(Rmult_comm _ (INR ir)), (Rmult_comm _ (INR il)). auto. }
  intros H1 H2. apply cylinder_out; auto.
Qed.

(** The open cylinder: its border is the lower and the upper ring. *)
Theorem C62_cylinder_open : forall r l nr nl, (3 <= nr)%nat -> (1 <= nl)%nat ->
  exists xyz tri, MeshTri3D_CylinderOpen r l nr nl = Some (xyz, tri) /\
  let np := ((nl + 1) * nr)%nat in
  length xyz = (3 * np)%nat /\ length tri = (3 * (2 * nr * nl))%nat /\
  oriented_surface np tri (fun a b => exists c, (c < nr)%nat /\ ((a = (c + 1) mod nr /\ b = c) \/ (a = nl * nr + c /\ b = nl * nr + (c + 1) mod nr)))%nat /\
  (forall il ir, (il <= nl)%nat -> (ir < nr)%nat ->
    let f := INR ir * (2 * pi10 / INR nr) in P3 xyz (il * nr + ir) = (r * cos f, - l / 2 + INR il * (l / INR nl), r * sin f)) /\
  (0 < r -> 0 < l -> faces_outwards xyz tri).
Proof.
  intros r l n m Hn Hm. eexists. eexists. split. apply cylinder_open_eq; auto. cbv zeta.
  split. rewrite pts3_len, gridP_len; auto. split. rewrite (proj2 (otube_dedges n m)). lia. split.
  { eapply surface_mono. apply otube_surface; auto. intros i j Hi Hj. unfold ook, obd, oenc. split.
    - intros ((u1, u2) & (v1, v2) & U & V & [(E1 & E2 & E3)|(E1 & E2 & E3)] & -> & ->); simpl in *; subst.
      + exists v2. split; [lia|]. left. rewrite sc_mod by lia. lia.
      + exists u2. split; [lia|]. right. rewrite sc_mod by lia. lia.
    - intros (c & Hc & [(-> & ->)|(-> & ->)]); rewrite sc_mod by auto; assert (Hs := sc_lt _ _ Hc).
      + exists (0, sc n c)%nat, (0, c)%nat. simpl. lia.
      + exists (m, c)%nat, (m, sc n c)%nat. simpl. lia. }
  split. { intros il ir H1 H2. rewrite P3_pts3. rewrite gridP_nth by lia. unfold cylo. rewrite !(Rmult_comm _ (INR ir)). f_equal. f_equal. field. assert (1 <= INR m) by (change 1 with (INR 1); apply INR_ge; auto). lra. }
  intros H1 H2. apply open_out; auto.
Qed.

(** The disk of radius [r] in the plane y = 0: its border is the outer ring. *)
Theorem C62_disk : forall r nr nth, (1 <= nr)%nat -> (3 <= nth)%nat ->
  exists xyz tri, MeshTri3D_Disk r nr nth = Some (xyz, tri) /\
  let np := (nr * nth + 1)%nat in
  length xyz = (3 * np)%nat /\ length tri = (3 * (nth + 2 * nth * (nr - 1)))%nat /\
  oriented_surface np tri (fun a b => exists c, c < nth /\ a = (nr - 1) * nth + 1 + (c + 1) mod nth /\ b = (nr - 1) * nth + 1 + c)%nat /\
  P3 xyz 0 = (0, 0, 0) /\
  (forall ir ith, (1 <= ir <= nr)%nat -> (ith < nth)%nat ->
    let d := r * INR ir / INR nr in let f := INR ith * (2 * pi10 / INR nth) in P3 xyz (1 + (ir - 1) * nth + ith) = (d * cos f, 0, d * sin f)) /\
  (0 < r -> faces_up xyz tri).
Proof.
  intros r m n Hm Hn. eexists. eexists. split. apply disk_eq; auto. cbv zeta.
  split. rewrite pts3_len. cbn [length]. rewrite gridP_len. lia. split. rewrite (proj2 (disk_dedges n m Hn Hm)). lia. split.
  { eapply surface_mono. apply disk_surface; auto. intros i j Hi Hj. unfold dok, dbd, denc. split.
    - intros (u & v & U & V & (c & -> & ->) & -> & ->). exists c. rewrite sc_mod by lia. lia.
    - intros (c & Hc & -> & ->). rewrite sc_mod by auto. assert (Hs := sc_lt _ _ Hc). exists (G (m - 1) (sc n c)), (G (m - 1) c). split; [lia|]. split; [lia|]. split; [exists c|]; auto. }
  split. rewrite P3_pts3. auto.
  split. { intros ir ith H1 H2. rewrite P3_pts3. replace (1 + (ir - 1) * n + ith)%nat with (S ((ir - 1) * n + ith)) by lia. cbn [List.nth]. rewrite gridP_nth by lia. unfold dsk. replace (1 + (ir - 1))%nat with ir by lia. f_equal; [f_equal|]; field; (split; [|]; apply not_0_INR; lia) || (apply not_0_INR; lia). }
  intros H1. apply disk_up; auto.
Qed.

(** The capsule: two half spheres of radius [r] and a cylinder of height [l] between them. *)
Theorem C62_capsule : forall r l nc nr nl, (3 <= nc)%nat -> (1 <= nr)%nat -> (1 <= nl)%nat ->
  exists xyz tri, MeshTri3_Capsule r l nc nr nl = Some (xyz, tri) /\
  let np := (nc * (2 * nr + nl - 1) + 2)%nat in
  length xyz = (3 * np)%nat /\ closed_surface np tri /\ euler np tri 2 /\
  P3 xyz 0 = (0, - l / 2 - r, 0) /\ P3 xyz (np - 1) = (0, l / 2 + r, 0) /\
  (0 < r -> 0 < l ->
    faces_outwards xyz tri /\
    forall i, (i < np)%nat -> let p := P3 xyz i in
      norm2 (X p, Y p + l / 2, Z p) = r * r /\ Y p <= - l / 2 \/ X p * X p + Z p * Z p = r * r /\ - l / 2 <= Y p <= l / 2 \/ norm2 (X p, Y p - l / 2, Z p) = r * r /\ l / 2 <= Y p) /\
  (** ring [ir] of the lower half sphere, ring [il] of the cylinder, ring [ir] of the upper half sphere *)
  (forall ic, (ic < nc)%nat -> let f := 2 * PI * INR ic / INR nc in
    (forall ir, (ir < nr)%nat -> let t := PI / 2 * (INR (nr - 1 - ir) / INR nr) in P3 xyz (1 + ir * nc + ic) = (r * cos t * cos f, - l / 2 - r * sin t, r * cos t * sin f)) /\
    (forall il, (1 <= il < nl)%nat -> P3 xyz (1 + (nr + il - 1) * nc + ic) = (r * cos f, - l / 2 + l * (INR il / INR nl), r * sin f)) /\
    (forall ir, (ir < nr)%nat -> let t := PI / 2 * (INR ir / INR nr) in P3 xyz (1 + (nr + nl - 1 + ir) * nc + ic) = (r * cos t * cos f, l / 2 + r * sin t, r * cos t * sin f))).
Proof.
  intros r l nc nr nl Hc Hr Hl. eexists. eexists. split. apply capsule_eq; auto. cbv zeta.
  assert (N1 : 1 <= INR nr) by (change 1 with (INR 1); apply INR_ge; auto). assert (L1 : 1 <= INR nl) by (change 1 with (INR 1); apply INR_ge; auto).
  split. rewrite pts3_len, revolved_len; auto. split. apply tube_closed; lia. split. apply tube_euler; lia.
  split. rewrite P3_pts3, revolved_s. reflexivity. split. rewrite P3_pts3, m21, revolved_e. reflexivity.
  assert (CS : forall x, cos x * cos x + sin x * sin x = 1) by (intros x; generalize (sin2_cos2 x); unfold Rsqr; lra).
  split.
  { intros H1 H2. split. apply capsule_out; auto. intros i Hi. rewrite P3_pts3.
    apply (revolved_all (fun p => norm2 (X p, Y p + l / 2, Z p) = r * r /\ Y p <= - l / 2 \/ X p * X p + Z p * Z p = r * r /\ - l / 2 <= Y p <= l / 2 \/ norm2 (X p, Y p - l / 2, Z p) = r * r /\ l / 2 <= Y p)); auto.
    - left. unfold norm2, X, Y, Z. cbn [fst snd]. split. field. lra.
    - right. right. unfold norm2, X, Y, Z. cbn [fst snd]. split. field. lra.
    - intros j c Hj Hcc. rewrite capf_eq. unfold cap_rho, cap_y. destruct (Nat.ltb_spec j nr) as [A|A]; [|destruct (Nat.ltb_spec j (nr + (nl - 1))) as [B|B]].
      + left. destruct (qt_rng nr (nr - 1 - j)) as (Q & _); try lia. fold (qt nr (nr - 1 - j)). unfold norm2, X, Y, Z. cbn [fst snd]. set (t := qt nr (nr - 1 - j)) in *. set (f := turn nc c). assert (0 <= sin t) by (apply sin_ge_0; lra). split; [|nra].
        match goal with |- ?e = _ => replace e with (r * r * (cos t * cos t * (cos f * cos f + sin f * sin f) + sin t * sin t)) by field end. rewrite CS, Rmult_1_r, CS. ring.
      + right. left. unfold X, Y, Z. cbn [fst snd]. set (f := turn nc c). split. match goal with |- ?e = _ => replace e with (r * r * (cos f * cos f + sin f * sin f)) by ring end. rewrite CS. ring.
        assert (K : INR (j - nr + 1) <= INR nl) by (apply INR_ge; lia). assert (K0 := pos_INR (j - nr + 1)). assert (W : 0 <= INR (j - nr + 1) * l / INR nl <= l). { split. apply Rmult_le_pos. nra. left. apply Rinv_0_lt_compat. lra. apply (Rmult_le_reg_r (INR nl)). lra. replace (INR (j - nr + 1) * l / INR nl * INR nl) with (INR (j - nr + 1) * l) by (field; lra). nra. } lra.
      + right. right. destruct (qt_rng nr (j - (nr + (nl - 1)))) as (Q & _); try lia. fold (qt nr (j - (nr + (nl - 1)))). unfold norm2, X, Y, Z. cbn [fst snd]. set (t := qt nr (j - (nr + (nl - 1)))) in *. set (f := turn nc c). assert (0 <= sin t) by (apply sin_ge_0; lra). split; [|nra].
        match goal with |- ?e = _ => replace e with (r * r * (cos t * cos t * (cos f * cos f + sin f * sin f) + sin t * sin t)) by field end. rewrite CS, Rmult_1_r, CS. ring. }
  assert (G : forall i c, (i < 2 * nr + nl - 1)%nat -> (c < nc)%nat -> P3 (pts3 (revolved (0, - l * / 2 - r, 0) (0, l * / 2 + r, 0) (capf r l nc nr nl) (2 * nr + nl - 1) nc)) (1 + i * nc + c) = capf r l nc nr nl i c).
  { intros i c Hi Hcc. rewrite P3_pts3. replace (1 + i * nc + c)%nat with (i * nc + 1 + c)%nat by lia. apply revolved_g; auto. }
  intros ic Hic. split; [|split]; intros i Hi; rewrite G by lia; unfold capf, cap_bot, cap_mid, cap_top, turn.
  - destruct (Nat.ltb_spec i nr); [|lia]. replace (PI / 2 * (INR (nr - 1 - i) / INR nr)) with (PI * / 2 * INR (nr - 1 - i) / INR nr) by (field; lra). reflexivity.
  - destruct (Nat.ltb_spec (nr + i - 1) nr); [lia|]. destruct (Nat.ltb_spec (nr + i - 1) (nr + (nl - 1))); [|lia]. replace (nr + i - 1 - nr + 1)%nat with i by lia. f_equal. f_equal. field. lra.
  - destruct (Nat.ltb_spec (nr + nl - 1 + i) nr); [lia|]. destruct (Nat.ltb_spec (nr + nl - 1 + i) (nr + (nl - 1))); [lia|]. replace (nr + nl - 1 + i - (nr + (nl - 1)))%nat with i by lia. replace (PI / 2 * (INR i / INR nr)) with (PI * / 2 * INR i / INR nr) by (field; lra). f_equal.
Qed.
(** Without a ring for the cylinder, [nl] = 0, the count nl - 1 of rings wraps around and the loop runs out of the arrays. *)
Theorem C62_capsule_no_cylinder_refuted : forall r l nc nr, MeshTri3_Capsule r l nc nr 0 = None.
Proof.
  intros r l nc nr. unfold MeshTri3_Capsule. destruct (assertb (2 <=? 2 * nr + 0)); auto. cbn [bind]. destruct (MeshTri3D_CylinderClosed 1 1 nc (2 * nr + 0 - 2)) as [(a, b)|]; auto. cbn [bind]. destruct (assertb (length a / 3 =? (2 * nr + 0 - 1) * nc + 2)); auto. cbn [bind]. destruct (set3 a 0 0 (- l * / 2 - r) 0); auto. cbn [bind]. destruct (forn 0 nr _ l0); auto.
Qed.

(** The torus about the z axis. *)
Theorem C62_torus : forall aXYZ aTri radius radius_tube nlg nlt,
  exists xyz tri, MeshTri3_Torus aXYZ aTri radius radius_tube nlg nlt = Some (xyz, tri) /\
  let np := (nlg * nlt)%nat in
  length xyz = (3 * np)%nat /\ length tri = (3 * (2 * np))%nat /\
  ((3 <= nlg)%nat -> (3 <= nlt)%nat -> closed_surface np tri /\ euler np tri 0) /\
  (forall ilg ilt, (ilg < nlg)%nat -> (ilt < nlt)%nat ->
    let f := 2 * PI * INR ilg / INR nlg in let t := 2 * PI * INR ilt / INR nlt in
    P3 xyz (ilg * nlt + ilt) = ((radius + radius_tube * cos t) * sin f, (radius + radius_tube * cos t) * cos f, radius_tube * sin t)) /\
  (forall i, (i < np)%nat -> let p := P3 xyz i in exists rho, X p * X p + Y p * Y p = rho * rho /\ (rho - radius) * (rho - radius) + Z p * Z p = radius_tube * radius_tube) /\
  (** every triangle faces away from the core circle *)
  (0 < radius_tube < radius -> (3 <= nlg)%nat -> (3 <= nlt)%nat -> forall ilg ilt b c, (ilg < nlg)%nat -> (ilt < nlt)%nat -> In ((ilg * nlt + ilt)%nat, b, c) (tris tri) ->
    let f := 2 * PI * INR ilg / INR nlg in let p := P3 xyz (ilg * nlt + ilt) in faces p (P3 xyz b) (P3 xyz c) (X p - radius * sin f, Y p - radius * cos f, Z p)).
Proof.
  intros aXYZ aTri rad r m n. eexists. eexists. split. apply torus_eq. cbv zeta.
  split. rewrite pts3_len, gridP_len; auto. split. rewrite (proj2 (torus_dedges n m)). lia. split. intros H1 H2. split. apply torus_closed; auto. apply torus_euler; auto.
  assert (G : forall ilg ilt, (ilg < m)%nat -> (ilt < n)%nat -> P3 (pts3 (gridP (tor rad r m n) m n)) (ilg * n + ilt) = ((rad + r * cos (2 * PI * INR ilt / INR n)) * sin (2 * PI * INR ilg / INR m), (rad + r * cos (2 * PI * INR ilt / INR n)) * cos (2 * PI * INR ilg / INR m), r * sin (2 * PI * INR ilt / INR n))).
  { intros ilg ilt H1 H2. rewrite P3_pts3, gridP_nth by auto. unfold tor. replace (INR ilt * (PI * 2 / INR n)) with (2 * PI * INR ilt / INR n). replace (INR ilg * (PI * 2 / INR m)) with (2 * PI * INR ilg / INR m). auto. field. apply not_0_INR. lia. field. apply not_0_INR. lia. }
  split. auto. split. 2: { intros H1 H2 H3 a k b c Ha Hk H. rewrite !P3_pts3. apply torus_out; auto. }
  intros i Hi. assert (Hn : n <> 0%nat) by lia. rewrite (Nat.div_mod i n Hn). rewrite (Nat.mul_comm n). rewrite G. 2: apply Nat.div_lt_upper_bound; lia. 2: apply Nat.mod_upper_bound; auto.
  assert (CS : forall x, cos x * cos x + sin x * sin x = 1) by (intros x; generalize (sin2_cos2 x); unfold Rsqr; lra).
  set (t := 2 * PI * INR (i mod n) / INR n). set (f := 2 * PI * INR (i / n) / INR m). exists (rad + r * cos t). unfold X, Y, Z. cbn [fst snd]. split.
  - match goal with |- ?e = _ => replace e with ((rad + r * cos t) * (rad + r * cos t) * (cos f * cos f + sin f * sin f)) by ring end. rewrite CS. ring.
  - match goal with |- ?e = _ => replace e with (r * r * (cos t * cos t + sin t * sin t)) by ring end. rewrite CS. ring.
Qed.
Definition pdec : forall x y : nat * nat, {x = y} + {x <> y}. Proof. decide equality; apply Nat.eq_dec. Defined.
(** With two segments around the tube, two triangles share an edge in the same direction. *)
Theorem C62_torus_two_segments_refuted : forall aXYZ aTri radius radius_tube, exists xyz tri, MeshTri3_Torus aXYZ aTri radius radius_tube 3 2 = Some (xyz, tri) /\ ~ closed_surface 6 tri.
Proof.
  intros. eexists. eexists. split. apply torus_eq. intros (_ & _ & H & _).
  apply (nodup_fixed_point pdec) in H. vm_compute in H. discriminate.
Qed.

(** The cube of edge 1 about the origin: its vertices are the points of the grid with the step 1 / n on its surface, each one once, and the tetrahedra from the origin to the 12 n n triangles all have the same positive volume, 1 / (12 n n), together 1. *)
Theorem C62_cube : forall n, (1 <= n)%nat ->
  exists xyz tri, MeshTri3D_Cube n = Some (xyz, tri) /\
  let np := (6 * n * n + 2)%nat in
  let grid a b c := (- / 2 + INR a / INR n, - / 2 + INR b / INR n, - / 2 + INR c / INR n) in
  let surface a b c := (a <= n /\ b <= n /\ c <= n /\ (a = 0 \/ a = n \/ b = 0 \/ b = n \/ c = 0 \/ c = n))%nat in
  length xyz = (3 * np)%nat /\ length tri = (3 * (12 * n * n))%nat /\ closed_surface np tri /\ euler np tri 2 /\
  (forall i, (i < np)%nat -> exists a b c, surface a b c /\ P3 xyz i = grid a b c) /\
  (forall a b c, surface a b c -> exists i, (i < np)%nat /\ P3 xyz i = grid a b c) /\
  (forall i j, (i < np)%nat -> (j < np)%nat -> P3 xyz i = P3 xyz j -> i = j) /\
  (forall a b c, In (a, b, c) (tris tri) -> det3 (P3 xyz a) (P3 xyz b) (P3 xyz c) = 6 * / (12 * INR n * INR n)).
Proof.
  intros n Hn. eexists. eexists. split. apply cube_eq; auto. cbv zeta. assert (N := Npos n Hn).
  assert (E : (6 * n * n + 2 = cnp n)%nat). { unfold cnp. assert (Ep : exists p, n = (p + 1)%nat) by (exists (n - 1)%nat; lia). destruct Ep as (p & ->). rewrite Nat.add_sub. ring. } rewrite E.
  split. rewrite pts3_len, cubeP_len. auto. split. apply cube_dedges; auto. split. apply cube_closed; auto. split. apply cube_euler; auto.
  assert (G : forall v, cok n v -> P3 (pts3 (cubeP n)) (cenc n v) = lpos n (lat n v)) by (intros v Hv; rewrite P3_pts3; apply pos_eq; auto).
  split; [|split; [|split]].
  - intros i Hi. destruct (enc_all n Hn i Hi) as (v & Hv & <-). rewrite G by auto. assert (S := lat_surf n Hn v Hv). destruct (lat n v) as ((a, b), c). exists a, b, c. split; [tauto|auto].
  - intros a b c (H1 & H2 & H3 & H4). destruct (lat_onto n Hn a b c) as (v & Hv & Ev); auto. exists (cenc n v). split. 2: { rewrite G, Ev by auto. auto. }
    unfold cnp, cenc. destruct v as [z k|t x y]; simpl in Hv. nia. assert (A : ((y - 1) * (n - 1) + (x - 1) < (n - 1) * (n - 1))%nat) by nia. destruct t as [|[|t]]; nia.
  - intros i j Hi Hj Eq. destruct (enc_all n Hn i Hi) as (v & Hv & <-). destruct (enc_all n Hn j Hj) as (w & Hw & <-). rewrite !G in Eq by auto. apply lpos_inj in Eq; auto. apply lat_inj in Eq; auto. subst. auto.
  - intros a b c H. rewrite !P3_pts3, cube_det by auto. field. lra.
Qed.

(** The icosahedron. *)
Theorem C62_icosahedron : let '(xyz, tri) := MeshTri3D_Icosahedron in
  length xyz = 36%nat /\ length tri = 60%nat /\ closed_surface 12 tri /\ euler 12 tri 2 /\ faces_outwards xyz tri /\
  forall i, (i < 12)%nat -> norm2 (P3 xyz i) = (5 + sqrt 5) / 2.
Proof.
  destruct MeshTri3D_Icosahedron as (xyz, tri) eqn:E. assert (E1 : xyz = fst MeshTri3D_Icosahedron) by (rewrite E; auto). assert (E2 : tri = snd MeshTri3D_Icosahedron) by (rewrite E; auto). rewrite E1, E2. clear.
  split. auto. split. auto. split. apply ico_closed. split. apply ico_closed. split. apply ico_out. intros i Hi. rewrite ico_norm by auto. assert (sqrt 5 * sqrt 5 = 5) by (apply sqrt_sqrt; lra). nra.
Qed.

(** Parameters that give no surface give no mesh. *)
Theorem C62_degenerate : forall a b k n,
  ((k <= 1 \/ n <= 2)%nat -> MeshTri3D_Sphere a k n = Some ([], [])) /\
  ((k <= 2 \/ n < 1)%nat -> MeshTri3D_CylinderClosed a b k n = Some ([], [])) /\ MeshTri3D_Cube 0 = Some ([], []).
Proof.
  intros a b k n. split; [|split; [|auto]]; intros H.
  - unfold MeshTri3D_Sphere. destruct (Nat.leb_spec k 1); auto. destruct (Nat.leb_spec n 2); auto. lia.
  - unfold MeshTri3D_CylinderClosed. destruct (Nat.ltb_spec n 1); auto. destruct (Nat.leb_spec k 2); auto. lia.
Qed.

(** The grid of squares: vertex (ix, iy) has the coordinates (ix, iy) and the number iy (nx + 1) + ix; the squares run counterclockwise. *)
Theorem C62_quad_grid : forall aXYZ aQuad nx ny,
  exists xy quad, MeshQuad2D_Grid aXYZ aQuad nx ny = Some (xy, quad) /\
  let v ix iy := (iy * (nx + 1) + ix)%nat in
  length xy = (2 * ((nx + 1) * (ny + 1)))%nat /\ length quad = (4 * (nx * ny))%nat /\
  (forall ix iy, (ix <= nx)%nat -> (iy <= ny)%nat -> nth (v ix iy * 2) xy 0 = INR ix /\ nth (v ix iy * 2 + 1) xy 0 = INR iy) /\
  (forall ix iy, (ix < nx)%nat -> (iy < ny)%nat -> let q := ((iy * nx + ix) * 4)%nat in
    nth q quad 0%nat = v ix iy /\ nth (q + 1) quad 0%nat = v (ix + 1)%nat iy /\ nth (q + 2) quad 0%nat = v (ix + 1)%nat (iy + 1)%nat /\ nth (q + 3) quad 0%nat = v ix (iy + 1)%nat).
Proof.
  intros aXYZ aQuad nx ny. eexists. eexists. split. apply quad_eq. cbv zeta.
  split. { rewrite (fm_len _ ((nx + 1) * 2)). ring. intros. apply fm_len. auto. } split. { rewrite (fm_len _ (nx * 4)). ring. intros. apply fm_len. auto. }
  assert (A : forall {T} k (f : nat -> nat -> list T) m n r c j d, (forall r c, length (f r c) = k) -> (r < m)%nat -> (c < n)%nat -> (j < k)%nat -> nth ((r * n + c) * k + j) (flat_map (fun r => flat_map (f r) (seq 0 n)) (seq 0 m)) d = nth j (f r c) d).
  { intros T k f m n r c j d Hf Hr Hc Hj. replace ((r * n + c) * k + j)%nat with (r * (n * k) + (c * k + j))%nat by ring. rewrite (nth_blk (n * k)); auto. apply nth_blk; auto. intros. apply fm_len. auto. nia. }
  split.
  - intros ix iy Hx Hy. rewrite <- (Nat.add_0_r ((iy * (nx + 1) + ix) * 2)) at 1. rewrite !(A _ 2%nat (fun iy ix => [INR ix; INR iy]) (ny + 1)%nat (nx + 1)%nat) by (auto; lia). auto.
  - intros ix iy Hx Hy. rewrite <- (Nat.add_0_r ((iy * nx + ix) * 4)) at 1. rewrite !(A _ 4%nat (quad nx) ny nx) by (auto; lia). simpl. repeat split; lia.
Qed.

(** The grid of cubes of edge [elen]: vertex (ix, iy, iz) has the number ((iz (ny + 1)) + iy) (nx + 1) + ix. *)
Theorem C62_hex_grid : forall aXYZ aHex nx ny nz elen,
  exists xyz hex, MeshHex3_Grid aXYZ aHex nx ny nz elen = Some (xyz, hex) /\
  let v ix iy iz := ((iz * (ny + 1) + iy) * (nx + 1) + ix)%nat in
  length xyz = (3 * ((nx + 1) * (ny + 1) * (nz + 1)))%nat /\ length hex = (8 * (nx * ny * nz))%nat /\
  (forall ix iy iz, (ix <= nx)%nat -> (iy <= ny)%nat -> (iz <= nz)%nat -> P3 xyz (v ix iy iz) = (INR ix * elen, INR iy * elen, INR iz * elen)) /\
  (forall ix iy iz, (ix < nx)%nat -> (iy < ny)%nat -> (iz < nz)%nat -> let h := (((iz * ny + iy) * nx + ix) * 8)%nat in
    map (fun j => nth (h + j) hex 0%nat) [0; 1; 2; 3; 4; 5; 6; 7]%nat =
    [v ix iy iz; v (ix + 1) iy iz; v (ix + 1) (iy + 1) iz; v ix (iy + 1) iz; v ix iy (iz + 1); v (ix + 1) iy (iz + 1); v (ix + 1) (iy + 1) (iz + 1); v ix (iy + 1) (iz + 1)])%nat.
Proof.
  intros aXYZ aHex nx ny nz elen. eexists. eexists. split. apply hex_eq. cbv zeta.
  assert (LL : forall {T} k (f : nat -> nat -> nat -> list T) l m n, (forall q r c, length (f q r c) = k) -> length (flat_map (fun q => flat_map (fun r => flat_map (f q r) (seq 0 n)) (seq 0 m)) (seq 0 l)) = (l * (m * (n * k)))%nat).
  { intros T k f l m n Hf. apply fm_len. intros. apply fm_len. intros. apply fm_len. auto. }
  split. { rewrite (LL _ 3%nat (fun iz iy ix => [INR ix * elen; INR iy * elen; INR iz * elen])) by auto. ring. } split. { rewrite (LL _ 8%nat (hex nx ny)) by auto. ring. }
  assert (A : forall {T} k (f : nat -> nat -> nat -> list T) l m n q r c j d, (forall q r c, length (f q r c) = k) -> (q < l)%nat -> (r < m)%nat -> (c < n)%nat -> (j < k)%nat -> nth (((q * m + r) * n + c) * k + j) (flat_map (fun q => flat_map (fun r => flat_map (f q r) (seq 0 n)) (seq 0 m)) (seq 0 l)) d = nth j (f q r c) d).
  { intros T k f l m n q r c j d Hf Hq Hr Hc Hj. assert (B1 : (c * k + j < n * k)%nat) by nia. assert (B2 : (r * (n * k) + (c * k + j) < m * (n * k))%nat) by nia.
    replace (((q * m + r) * n + c) * k + j)%nat with (q * (m * (n * k)) + (r * (n * k) + (c * k + j)))%nat by ring. rewrite (nth_blk (m * (n * k))); auto. rewrite (nth_blk (n * k)); auto. apply nth_blk; auto. intros. apply fm_len. auto. intros. apply fm_len. intros. apply fm_len. auto. }
  split.
  - intros ix iy iz Hx Hy Hz. unfold P3. rewrite <- (Nat.add_0_r (((iz * (ny + 1) + iy) * (nx + 1) + ix) * 3)) at 1. rewrite !(A _ 3%nat (fun iz iy ix => [INR ix * elen; INR iy * elen; INR iz * elen]) (nz + 1)%nat (ny + 1)%nat (nx + 1)%nat) by (auto; lia). auto.
  - intros ix iy iz Hx Hy Hz. cbn [map]. rewrite !(A _ 8%nat (hex nx ny) nz ny nx) by (auto; lia). unfold hex, hexn. cbn [nth]. repeat (apply (f_equal2 cons); [ring|]). reflexivity.
Qed.

(** Concrete cases. *)
Example sphere_case : exists xyz tri, MeshTri3D_Sphere 2 4 5 = Some (xyz, tri) /\ length xyz = 51%nat /\ length tri = 90%nat /\ faces_outwards xyz tri.
Proof.
  destruct (C62_sphere 2 4 5) as (xyz & tri & E & H1 & H2 & (nt & H3 & H4) & _ & _ & _ & _ & H5); try lia. exists xyz, tri. split; auto. split. rewrite H1. auto. split. simpl in H4. rewrite H3. lia. apply H5. lra. simpl. lra.
Qed.
Example cube_case : exists xyz tri, MeshTri3D_Cube 1 = Some (xyz, tri) /\ tri = [0; 1; 5; 5; 4; 0; 1; 2; 6; 6; 5; 1; 2; 3; 7; 7; 6; 2; 3; 0; 4; 4; 7; 3; 1; 0; 2; 3; 2; 0; 4; 5; 6; 6; 7; 4]%nat.
Proof. eexists. eexists. split. apply cube_eq. auto. vm_compute. reflexivity. Qed.
Example capsule_case : exists xyz tri, MeshTri3_Capsule 1 3 8 2 1 = Some (xyz, tri) /\ closed_surface 34 tri /\ faces_outwards xyz tri.
Proof. destruct (C62_capsule 1 3 8 2 1) as (xyz & tri & E & _ & H1 & _ & _ & _ & H2 & _); try lia. exists xyz, tri. split; auto. split. exact H1. apply H2; lra. Qed.

Print Assumptions C62_sphere.
Print Assumptions C62_cylinder_closed.
Print Assumptions C62_cylinder_open.
Print Assumptions C62_disk.
Print Assumptions C62_capsule.
Print Assumptions C62_capsule_no_cylinder_refuted.
Print Assumptions C62_torus.
Print Assumptions C62_torus_two_segments_refuted.
Print Assumptions C62_cube.
Print Assumptions C62_icosahedron.
Print Assumptions C62_degenerate.
Print Assumptions C62_quad_grid.
Print Assumptions C62_hex_grid.
