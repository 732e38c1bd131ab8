(** Points on meshes, nearest points and signed distances. *)
From Coq Require Import List Arith Bool Reals Lra Lia.
Import ListNotations.
From Verif Require Import Imp PrModel GjkProofs1 QuatModel ProxModel ProxSpec ProxProofs1 ProxProofs3 ProxProps IsecModel IsecSpec MeasModel MeasSpec MeasProofs1 MeasProofs2 EditModel BruteModel BruteSpec.
Open Scope R_scope.

Lemma pos_ok : forall l tri t r0 r1, valid tri l -> (t < count 3 tri)%nat -> PositionOnMeshTri3 (t, r0, r1) l tri = Some (tri_point l tri (t, r0, r1)).
Proof.
  intros l tri t r0 r1 V H. unfold PositionOnMeshTri3. unfold count in H. rewrite (proj2 (Nat.ltb_lt _ _) H). cbn [assertb bind]. rewrite tri3_ok by auto. cbn [bind]. reflexivity.
Qed.
(** moving everything *)
Lemma tri_shift : forall p0 p1 p2 p x, triangle (sub3 p0 p) (sub3 p1 p) (sub3 p2 p) x <-> triangle p0 p1 p2 (add3 x p).
Proof.
  intros. split; intros (a & b & c & A & B & C & S & E); exists a, b, c; repeat (split; [auto; fail|]).
  - rewrite E. replace c with (1 - a - b) by lra. veq.
  - assert (K : x = sub3 (comb a b c p0 p1 p2) p) by (rewrite <- E; veq). rewrite K. replace c with (1 - a - b) by lra. veq.
Qed.
Lemma dist_sym : forall a b, dist3 a b = dist3 b a.
Proof. intros. unfold dist3. f_equal. ring. Qed.
Lemma near_tri : forall p0 p1 p2 p, large3 p0 p1 p2 ->
  exists x r0 r1, Nearest_Origin3_Tri3 (sub3 p0 p) (sub3 p1 p) (sub3 p2 p) = Some (x, r0, r1) /\ weights r0 r1 /\ x = sub3 (comb r0 r1 (1 - r0 - r1) p0 p1 p2) p /\
  closest (triangle p0 p1 p2) p (comb r0 r1 (1 - r0 - r1) p0 p1 p2).
Proof.
  intros p0 p1 p2 p (A & B & C & D).
  assert (T : forall a b, dist3 (sub3 a p) (sub3 b p) = dist3 a b) by (intros; unfold dist3; f_equal; u3; ring).
  destruct (C70_nearest_point_of_a_triangle_to_the_origin (sub3 p0 p) (sub3 p1 p) (sub3 p2 p)) as (x & r0 & r1 & E & R0 & R1 & RS & X & _ & M); rewrite ?T; auto.
  - rewrite dist_sym. auto.
  - replace (area2 (sub3 p0 p) (sub3 p1 p) (sub3 p2 p)) with (area2 p0 p1 p2) by (unfold area2; cbn [vx vy vz sub3]; f_equal; ring). auto.
  - exists x, r0, r1. assert (X' : x = sub3 (comb r0 r1 (1 - r0 - r1) p0 p1 p2) p) by (rewrite X; veq). repeat (split; [auto; fail|]). split; [repeat split; auto|]. split; [auto|]. split.
    + exists r0, r1, (1 - r0 - r1). repeat split; auto; lra.
    + intros y Hy. assert (Q : forall z, dist3 z p = dist3 (sub3 z p) origin3) by (intros; unfold dist3; f_equal; u3; ring). rewrite !Q, <- X'. apply M. apply tri_shift. replace (add3 (sub3 y p) p) with y by veq. auto.
Qed.
Lemma sq_dist : forall x p, dot3 (sub3 x p) (sub3 x p) = dist3 x p * dist3 x p.
Proof. intros. unfold dist3. rewrite sqrt_sqrt; [u3; ring|]. pose proof (pow2_ge_0 (vx x - vx p)). pose proof (pow2_ge_0 (vy x - vy p)). pose proof (pow2_ge_0 (vz x - vz p)). lra. Qed.
Lemma dist_nn : forall x p, 0 <= dist3 x p. Proof. intros. apply sqrt_pos. Qed.

(** the best so far among the triangles of ts *)
Definition best_ok (l : list R) (tri : list nat) (p : vec3) (ts : nat -> Prop) (b : option (R * pes)) : Prop :=
  match b with
  | None => forall t, ~ ts t
  | Some (d, (t, r0, r1)) => ts t /\ weights r0 r1 /\ d = dist3 (tri_point l tri (t, r0, r1)) p * dist3 (tri_point l tri (t, r0, r1)) p /\
      forall u y, ts u -> tri_points l tri u y -> dist3 (tri_point l tri (t, r0, r1)) p <= dist3 y p
  end.
Lemma nearer_ok : forall l tri p ts b it x r0 r1, best_ok l tri p ts b -> weights r0 r1 -> x = sub3 (tri_point l tri (it, r0, r1)) p -> closest (tri_points l tri it) p (tri_point l tri (it, r0, r1)) ->
  best_ok l tri p (fun t => ts t \/ t = it) (nearer b it (x, r0, r1)).
Proof.
  intros l tri p ts b it x r0 r1 B W X (CI & C). unfold nearer. rewrite X, sq_dist.
  assert (New : (forall u y, ts u -> tri_points l tri u y -> dist3 (tri_point l tri (it, r0, r1)) p <= dist3 y p) -> best_ok l tri p (fun t => ts t \/ t = it) (Some (dist3 (tri_point l tri (it, r0, r1)) p * dist3 (tri_point l tri (it, r0, r1)) p, (it, r0, r1)))).
  { intros H. cbn [best_ok]. split; [auto|split; [auto|split; [auto|]]]. intros u y [U|U] Y; [eauto|subst u; auto]. }
  destruct b as [[d [[t s0] s1]]|].
  - destruct B as (Tt & W' & D & M). pose proof (ltRs (dist3 (tri_point l tri (it, r0, r1)) p * dist3 (tri_point l tri (it, r0, r1)) p) d) as L.
    pose proof (dist_nn (tri_point l tri (it, r0, r1)) p) as N1. pose proof (dist_nn (tri_point l tri (t, s0, s1)) p) as N2.
    destruct (ltR _ d); rewrite D in *.
    + apply New. intros u y U Y. specialize (M u y U Y). nra.
    + cbn [best_ok]. split; [auto|split; [auto|split; [auto|]]]. intros u y [U|U] Y; [eauto|]. subst u. specialize (C y Y). enough (dist3 (tri_point l tri (t, s0, s1)) p <= dist3 (tri_point l tri (it, r0, r1)) p) by lra. apply Rsqr_incr_0_var; auto.
  - apply New. intros u y U. destruct (B u U).
Qed.
Lemma best_ext : forall l tri p ts ts' b, (forall t, ts t <-> ts' t) -> best_ok l tri p ts b -> best_ok l tri p ts' b.
Proof.
  intros l tri p ts ts' b E. destruct b as [[d [[t r0] r1]]|]; cbn [best_ok].
  - intros (A & B & C & D). split; [apply E; auto|split; [auto|split; [auto|]]]. intros u y U. apply D. apply E. auto.
  - intros H t. rewrite <- E. auto.
Qed.

Lemma Nearest_ok : forall p l tri, valid tri l -> (0 < count 3 tri)%nat -> (forall t, (t < count 3 tri)%nat -> large l tri t) ->
  wp (Nearest_Point_MeshTri3D p l tri) (fun '(t, r0, r1) => (t < count 3 tri)%nat /\ weights r0 r1 /\ closest (surface l tri) p (tri_point l tri (t, r0, r1))).
Proof.
  intros p l tri V N L. unfold Nearest_Point_MeshTri3D. apply wp_bind.
  apply (wp_forn _ (fun i b => best_ok l tri p (fun t => (t < i)%nat) b)); [lia|intros t H; lia| |].
  - intros i b Hi B. rewrite tri3_ok by (auto; lia). cbn [bind].
    destruct (near_tri (at_corner l 3 tri i 0) (at_corner l 3 tri i 1) (at_corner l 3 tri i 2) p) as (x & r0 & r1 & E & W & X & C); [apply L; unfold count; lia|]. rewrite E. cbn [bind wp].
    apply (best_ext _ _ _ (fun t => (t < i)%nat \/ t = i)); [intros; lia|]. apply nearer_ok; auto.
  - intros [[d [[t r0] r1]]|] B; cbn [best_ok] in B.
    + destruct B as (T & W & _ & M). cbn [wp]. split; [auto|split; [auto|]]. split.
      * exists t. split; [auto|]. destruct W as (W0 & W1 & W2). exists r0, r1, (1 - r0 - r1). repeat split; auto; lra.
      * intros y (u & U & Y). eauto.
    + destruct (B 0%nat). auto.
Qed.
Lemma cw_ok : forall r0 r1, weights r0 r1 -> check_weights r0 r1 = true.
Proof.
  intros r0 r1 (A & B & C). unfold check_weights. pose proof e10_pos. pose proof (ltRs (- e10) r0) as L0. pose proof (ltRs (- e10) r1) as L1. pose proof (ltRs (- e10) (1 - r0 - r1)) as L2.
  destruct (ltR (- e10) r0); [|lra]. destruct (ltR (- e10) r1); [|lra]. destruct (ltR (- e10) (1 - r0 - r1)); [auto|lra].
Qed.
Lemma NearestPart_ok : forall p l tri ts, valid tri l -> (forall t, In t ts -> (t < count 3 tri)%nat /\ large l tri t) ->
  wp (Nearest_Point_MeshTri3DPart p l tri ts) (fun r => match r with Some (t, r0, r1) => In t ts /\ weights r0 r1 /\ closest (part l tri ts) p (tri_point l tri (t, r0, r1)) | None => ts = [] end).
Proof.
  intros p l tri ts V L. unfold Nearest_Point_MeshTri3DPart. apply wp_bind.
  apply (wp_foldM _ _ (fun l1 b => best_ok l tri p (fun t => In t l1) b)); [intros t H; destruct H| |].
  - intros l1 i l2 b Hi B. destruct (L i) as (Li & Ll); [rewrite Hi; apply in_or_app; right; left; auto|]. rewrite tri3_ok by (auto; lia). cbn [bind].
    destruct (near_tri (at_corner l 3 tri i 0) (at_corner l 3 tri i 1) (at_corner l 3 tri i 2) p) as (x & r0 & r1 & E & W & X & C); [apply Ll|]. rewrite E. cbn [bind]. rewrite cw_ok by auto. cbn [assertb bind wp].
    apply (best_ext _ _ _ (fun t => In t l1 \/ t = i)); [intros; rewrite in_app_iff; cbn; intuition|]. apply nearer_ok; auto.
  - intros [[d [[t r0] r1]]|] B; cbn [best_ok] in B; cbn [wp].
    + destruct B as (T & W & _ & M). split; [auto|split; [auto|]]. split.
      * exists t. split; [auto|]. destruct W as (W0 & W1 & W2). exists r0, r1, (1 - r0 - r1). repeat split; auto; lra.
      * intros y (u & U & Y). eauto.
    + destruct ts as [|t ts]; auto. destruct (B t). left. auto.
Qed.
Lemma DistanceToTri_ok : forall p t l tri, valid tri l -> (t < count 3 tri)%nat -> large l tri t ->
  wp (DistanceToTri p t l tri) (fun '(d, (t', r0, r1)) => t' = t /\ weights r0 r1 /\ d = dist3 (tri_point l tri (t, r0, r1)) p /\ closest (tri_points l tri t) p (tri_point l tri (t, r0, r1))).
Proof.
  intros p t l tri V T L. unfold DistanceToTri. rewrite tri3_ok by auto. cbn [bind].
  destruct (near_tri (at_corner l 3 tri t 0) (at_corner l 3 tri t 1) (at_corner l 3 tri t 2) p) as (x & r0 & r1 & E & W & X & C); [apply L|]. rewrite E. cbn [bind]. rewrite cw_ok by auto. cbn [assertb bind wp].
  split; [auto|split; [auto|split; [rewrite X, <- dist_norm; auto|auto]]].
Qed.

(** signed distance *)
Lemma normalized_ok : forall v, norm3 v <> 0 -> exists n, normalized v = Some n /\ norm3 n = 1 /\ v = mul3 (norm3 v) n.
Proof.
  intros v N. unfold normalized, ndiv. unfold eqR. destruct (Req_EM_T (norm3 v) 0); [contradiction|]. cbn [bind]. eexists. split; [reflexivity|].
  assert (P : 0 < norm3 v) by (pose proof (sqrt_pos (dot3 v v)); unfold norm3 in *; lra). split.
  - assert (Q : forall k, dot3 (V3 (vx v * k) (vy v * k) (vz v * k)) (V3 (vx v * k) (vy v * k) (vz v * k)) = dot3 v v * k * k) by (intros; u3; ring). match goal with |- norm3 ?w = _ => change (norm3 w) with (sqrt (dot3 w w)) end. rewrite Q. transitivity (sqrt 1); [f_equal|apply sqrt_1]. assert (S : norm3 v * norm3 v = dot3 v v) by (unfold norm3; apply sqrt_sqrt; apply dot_pos). rewrite <- S. field. auto.
  - apply v3_eq; unfold mul3; cbn [vx vy vz]; field; auto.
Qed.
Lemma norm_zero_div : forall v, norm3 v = 0 -> normalized v = None.
Proof. intros v E. unfold normalized, ndiv, eqR. destruct (Req_EM_T (norm3 v) 0); [auto|contradiction]. Qed.
Lemma SDF_ok : forall p0 t r0 r1 l tri nv n, valid tri l -> valid tri nv -> (t < count 3 tri)%nat -> n = tri_point nv tri (t, r0, r1) -> norm3 n <> 0 ->
  wp (SDFNormal_NearestPoint p0 (t, r0, r1) l tri nv) (fun '(d, n0) => norm3 n0 = 1 /\ Rabs d = dist3 (tri_point l tri (t, r0, r1)) p0 /\
    (0 < dot3 (sub3 (tri_point l tri (t, r0, r1)) p0) n -> 0 <= d) /\ (dot3 (sub3 (tri_point l tri (t, r0, r1)) p0) n <= 0 -> d <= 0) /\
    (/ 10 ^ 6 <= Rabs d -> tri_point l tri (t, r0, r1) = along p0 n0 d) /\ (Rabs d < / 10 ^ 6 -> n = mul3 (norm3 n) n0)).
Proof.
  intros p0 t r0 r1 l tri nv n V Vn T En N. unfold SDFNormal_NearestPoint. rewrite pos_ok by auto. cbn [bind]. unfold UnitNormalOnMeshTri3. rewrite (proj2 (Nat.ltb_lt t (length tri / 3)) T). cbn [assertb bind]. rewrite tri3_ok by auto. cbn [bind].
  replace (add3 (add3 (mul3 r0 (at_corner nv 3 tri t 0)) (mul3 r1 (at_corner nv 3 tri t 1))) (mul3 (1 - r0 - r1) (at_corner nv 3 tri t 2))) with n by (rewrite En; unfold tri_point; veq).
  destruct (normalized_ok n N) as (n1 & -> & N1 & En1). cbn [bind]. set (q := tri_point l tri (t, r0, r1)) in *. clearbody q. clear En.
  assert (P : 0 < norm3 n) by (pose proof (sqrt_pos (dot3 n n)); unfold norm3 in *; lra).
  assert (DD : dot3 (sub3 q p0) n = norm3 n * dot3 (sub3 q p0) n1) by (rewrite En1 at 1; u3; ring).
  rewrite <- dist_norm. pose proof (dist_nn q p0) as DN. pose proof (ltRs 0 (dot3 (sub3 q p0) n1)) as L. pose proof (ltRs (dist3 q p0) (/ 10 ^ 6)) as L2. assert (E6 : 0 < / 10 ^ 6) by (apply Rinv_0_lt_compat; apply pow_lt; lra).
  destruct (ltR 0 _).
  - destruct (ltR (dist3 q p0) _); cbn [bind wp].
    + rewrite Rabs_right by lra. split; [auto|]. split; [auto|]. split; [intros; lra|]. split; [intros H; exfalso; nra|]. split; [intros; lra|auto].
    + destruct (normalized_ok (sub3 q p0)) as (n0 & -> & N0 & E0); [rewrite <- dist_norm; intro; lra|]. cbn [bind wp]. rewrite Rabs_right by lra. split; [auto|]. split; [auto|]. split; [intros; lra|]. split; [intros H; exfalso; nra|]. split; [|intros; lra].
      intros _. rewrite dist_norm. unfold along. transitivity (add3 p0 (sub3 q p0)); [veq|]. rewrite E0 at 1. veq.
  - destruct (ltR (dist3 q p0) _); cbn [bind wp].
    + rewrite Rabs_Ropp, Rabs_right by lra. split; [auto|]. split; [auto|]. split; [intros H; exfalso; nra|]. split; [intros; lra|]. split; [intros; lra|auto].
    + destruct (normalized_ok (sub3 p0 q)) as (n0 & -> & N0 & E0); [rewrite norm_neg, <- dist_norm; intro; lra|]. cbn [bind wp]. rewrite Rabs_Ropp, Rabs_right by lra. split; [auto|]. split; [auto|]. split; [intros H; exfalso; nra|]. split; [intros; lra|]. split; [|intros; lra].
      intros _. rewrite dist_norm, norm_neg. unfold along. transitivity (sub3 p0 (sub3 p0 q)); [veq|]. rewrite E0 at 1. veq.
Qed.
Lemma Check_ok : forall t r0 r1 tri eps, Check (t, r0, r1) tri eps = true <-> (t < count 3 tri)%nat /\ - eps <= r0 <= 1 + eps /\ - eps <= r1 <= 1 + eps /\ - eps <= 1 - r0 - r1 <= 1 + eps.
Proof.
  intros. unfold Check, count. destruct (Nat.ltb_spec t (length tri / 3)); cbn [negb]; [|split; [discriminate|intros (? & _); lia]].
  pose proof (ltRs r0 (- eps)). pose proof (ltRs (1 + eps) r0). destruct (ltR r0 (- eps)), (ltR (1 + eps) r0); cbn [orb]; try (split; [discriminate|intros; lra]).
  pose proof (ltRs r1 (- eps)). pose proof (ltRs (1 + eps) r1). destruct (ltR r1 (- eps)), (ltR (1 + eps) r1); cbn [orb]; try (split; [discriminate|intros; lra]).
  pose proof (ltRs (1 - r0 - r1) (- eps)). pose proof (ltRs (1 + eps) (1 - r0 - r1)). destruct (ltR (1 - r0 - r1) (- eps)), (ltR (1 + eps) (1 - r0 - r1)); cbn [orb]; try (split; [discriminate|intros; lra]).
  split; [intros _; repeat split; auto; lra|auto].
Qed.
