(** C74: energies and constraints of springs, rods, shells and membranes.  Each value is what its name says, and the derivatives returned with it are the
    derivatives: along every motion of the vertices the rate of the value is the power of the returned gradient.  The exceptions are stated as _refuted. *)
From Coq Require Import List Arith Bool Reals Lra Lia.
Import ListNotations.
From Verif Require Import PrModel MeasSpec GjkProofs1 EnerModel EnerSpec EnerProofs1 EnerProofs2 EnerProofs3 EnerProofs3b EnerProofs4 EnerProofs5 EnerProofs6.
Open Scope R_scope.

Definition at3 (l : list (list R)) : conf := fun i d => nth d (nth i l []) 0.
Lemma ltR_t : forall a b, a < b -> ltR a b = true.
Proof. intros a b H. pose proof (ltRs a b) as L. destruct (ltR a b); auto. lra. Qed.
Lemma ltR_f : forall a b, b <= a -> ltR a b = false.
Proof. intros a b H. pose proof (ltRs a b) as L. destruct (ltR a b); auto. lra. Qed.
Lemma sqrt_is : forall x y, x = y * y -> 0 <= y -> sqrt x = y.
Proof. intros. subst. apply sqrt_square; auto. Qed.

(** A spring. *)
Theorem C74_spring : forall k L p, 0 < dist (p 0%nat) (p 1%nat) ->
  fst (fst (WdWddW_SquareLengthLineseg3D k p L)) = k / 2 * (dist (p 0%nat) (p 1%nat) - L) ^ 2 /\
  is_gradient 2 3 (fun q => fst (fst (WdWddW_SquareLengthLineseg3D k q L))) p (snd (fst (WdWddW_SquareLengthLineseg3D k p L))) /\
  is_jacobian 2 3 (fun q => snd (fst (WdWddW_SquareLengthLineseg3D k q L))) p (snd (WdWddW_SquareLengthLineseg3D k p L)) /\
  fst (CdC_SquareLengthLineseg3D p L) = dist (p 0%nat) (p 1%nat) - L /\
  is_gradient 2 3 (fun q => fst (CdC_SquareLengthLineseg3D q L)) p (snd (CdC_SquareLengthLineseg3D p L)).
Proof. intros k L p P. split; [apply line_W|]. split; [apply line_g; auto|]. split; [apply line_h; auto|]. split; [apply cline_v|apply cline_g; auto]. Qed.
Print Assumptions C74_spring.
(** The lengths of the edges of a triangle against a triangle in the plane, and of a tetrahedron against a tetrahedron. *)
Theorem C74_edges : forall P p k,
  ((k < 3)%nat -> let '(i, j) := tri_ends k in fst (CdC_LengthTriEdges23 P p) k = dist (p i) (p j) - dist_plane (P i) (P j) /\
    (tiny < dist (p i) (p j) -> is_gradient 3 3 (fun q => fst (CdC_LengthTriEdges23 P q) k) p (snd (CdC_LengthTriEdges23 P p) k))) /\
  ((k < 6)%nat -> let '(i, j) := tet_ends k in fst (CdC_LengthTetEdges P p) k = dist (p i) (p j) - dist (P i) (P j) /\
    (tiny < dist (p i) (p j) -> is_gradient 4 3 (fun q => fst (CdC_LengthTetEdges P q) k) p (snd (CdC_LengthTetEdges P p) k))).
Proof.
  intros P p k. split; intros K.
  - pose proof (tri_v P p k K) as V. pose proof (tri_g P p k K) as G. destruct (tri_ends k) as [i j]. split; auto.
  - pose proof (tet_v P p k K) as V. pose proof (tet_g P p k K) as G. destruct (tet_ends k) as [i j]. split; auto.
Qed.
Print Assumptions C74_edges.
Example ex_edges : let p := at3 [[0; 0; 0]; [2; 0; 0]; [0; 1; 0]; [0; 0; 3]] in dist (p 0%nat) (p 1%nat) = 2 /\ dist (p 0%nat) (p 3%nat) = 3 /\ tiny < 2.
Proof.
  cbv zeta. unfold dist, norm, dot, diff, at3, tiny. rewrite !sum_3. cbn [nth]. split; [apply sqrt_is; lra|]. split; [apply sqrt_is; lra|lra].
Qed.

(** The rod in the plane: two segments of the lengths a and b in the directions al and be. *)
Theorem C74_rod_plane : forall p aL k01 k12 kb a b al be, 0 < a -> 0 < b -> cos ((be - al) / 2) <> 0 ->
  p 1%nat 0%nat - p 0%nat 0%nat = a * cos al -> p 1%nat 1%nat - p 0%nat 1%nat = a * sin al -> p 2%nat 0%nat - p 1%nat 0%nat = b * cos be -> p 2%nat 1%nat - p 1%nat 1%nat = b * sin be ->
  fst (fst (WdWddW_Rod2 p aL k01 k12 kb)) = k01 / 2 * (a - aL 0%nat) ^ 2 + k12 / 2 * (b - aL 1%nat) ^ 2 + kb / 2 * tan ((be - al) / 2) ^ 2 /\
  is_gradient 3 2 (fun q => fst (fst (WdWddW_Rod2 q aL k01 k12 kb))) p (snd (fst (WdWddW_Rod2 p aL k01 k12 kb))) /\
  (a = aL 0%nat -> b = aL 1%nat -> sin ((be - al) / 2) = 0 -> is_jacobian 3 2 (fun q => snd (fst (WdWddW_Rod2 q aL k01 k12 kb))) p (snd (WdWddW_Rod2 p aL k01 k12 kb))).
Proof.
  intros p aL k01 k12 kb a b al be A B C X0 Y0 X1 Y1.
  assert (L0 : Distance2 (p 0%nat) (p 1%nat) = a).
  { unfold Distance2. replace (p 0%nat 0%nat - p 1%nat 0%nat) with (- (a * cos al)) by lra. replace (p 0%nat 1%nat - p 1%nat 1%nat) with (- (a * sin al)) by lra.
    apply sqrt_is; [|lra]. pose proof (sin2_cos2 al) as S. unfold Rsqr in S. transitivity (a * a * (sin al * sin al + cos al * cos al)); [ring|rewrite S; ring]. }
  assert (L1 : Distance2 (p 1%nat) (p 2%nat) = b).
  { unfold Distance2. replace (p 1%nat 0%nat - p 2%nat 0%nat) with (- (b * cos be)) by lra. replace (p 1%nat 1%nat - p 2%nat 1%nat) with (- (b * sin be)) by lra.
    apply sqrt_is; [|lra]. pose proof (sin2_cos2 be) as S. unfold Rsqr in S. transitivity (b * b * (sin be * sin be + cos be * cos be)); [ring|rewrite S; ring]. }
  set (h := (be - al) / 2) in *. assert (EH : be - al = 2 * h) by (unfold h; field).
  assert (CC : cos al * cos be + sin al * sin be = 2 * cos h * cos h - 1) by (rewrite <- cos_2a_cos, <- EH, cos_minus; ring).
  assert (SS : cos al * sin be - sin al * cos be = 2 * sin h * cos h) by (rewrite <- sin_2a, <- EH, sin_minus; ring).
  assert (F0 : a * cos al * (1 / a) = cos al) by (field; lra). assert (F1 : a * sin al * (1 / a) = sin al) by (field; lra).
  assert (G0 : b * cos be * (1 / b) = cos be) by (field; lra). assert (G1 : b * sin be * (1 / b) = sin be) by (field; lra).
  assert (OK : rod2_ok p).
  { unfold rod2_ok. rewrite L0, L1, X0, Y0, X1, Y1, F0, F1, G0, G1, CC. split; [auto|]. split; [auto|]. nra. }
  assert (T2 : fst (rod2_lets p aL) 2%nat = tan h).
  { unfold rod2_lets, rod2_T. cbv zeta. cbn [fst nth]. rewrite L0, L1, X0, Y0, X1, Y1, F0, F1, G0, G1, CC, SS. unfold tan. field. split; [auto|]. nra. }
  assert (T0 : fst (rod2_lets p aL) 0%nat = a - aL 0%nat) by (unfold rod2_lets, rod2_T; cbv zeta; cbn [fst nth]; rewrite L0; auto).
  assert (T1 : fst (rod2_lets p aL) 1%nat = b - aL 1%nat) by (unfold rod2_lets, rod2_T; cbv zeta; cbn [fst nth]; rewrite L1; auto).
  split; [|split].
  - transitivity (0 + 1 / 2 * k01 * fst (rod2_lets p aL) 0%nat * fst (rod2_lets p aL) 0%nat + 1 / 2 * k12 * fst (rod2_lets p aL) 1%nat * fst (rod2_lets p aL) 1%nat +
      1 / 2 * kb * fst (rod2_lets p aL) 2%nat * fst (rod2_lets p aL) 2%nat); [reflexivity|]. rewrite T0, T1, T2. field.
  - apply rod2_g; auto.
  - intros E0 E1 S. apply rod2_h; auto. intros k K. cases3 k K; [rewrite T0; lra|rewrite T1; lra|rewrite T2; unfold tan; rewrite S; field; auto].
Qed.
Print Assumptions C74_rod_plane.
Theorem C74_rod_plane_stable : forall p aL k01 k12 kb, 0 <= k01 -> 0 <= k12 -> 0 <= kb ->
  semidefinite 3 2 (snd (WdWddW_Rod2 p aL k01 k12 kb)) /\ symmetric 3 2 (snd (WdWddW_Rod2 p aL k01 k12 kb)).
Proof. intros. apply rod2_psd; auto. Qed.
Print Assumptions C74_rod_plane_stable.
Example ex_rod_plane : let p := at3 [[0; 0]; [2; 0]; [2; 3]] in
  p 1%nat 0%nat - p 0%nat 0%nat = 2 * cos 0 /\ p 1%nat 1%nat - p 0%nat 1%nat = 2 * sin 0 /\ p 2%nat 0%nat - p 1%nat 0%nat = 3 * cos (PI / 2) /\ p 2%nat 1%nat - p 1%nat 1%nat = 3 * sin (PI / 2) /\
  cos ((PI / 2 - 0) / 2) <> 0 /\ tan ((PI / 2 - 0) / 2) = 1.
Proof.
  cbv zeta. unfold at3. cbn [nth]. rewrite cos_0, sin_0, cos_PI2, sin_PI2. replace ((PI / 2 - 0) / 2) with (PI / 4) by field. repeat split; try ring.
  - intro Z. rewrite cos_PI4 in Z. pose proof (Rlt_sqrt2_0). apply Rinv_neq_0_compat with (r := sqrt 2); [lra|]. lra.
  - apply tan_PI4.
Qed.

(** The straight rod in space: the size of the constraint is the tangent of half the angle between the segments. *)
Theorem C74_rod_space : forall p, tiny < dist (p 0%nat) (p 1%nat) -> tiny < dist (p 1%nat) (p 2%nat) -> tiny < 1 + cosine p ->
  (forall h, cosine p = cos h -> dot (fst (CdC_Rod3BendStraight p)) (fst (CdC_Rod3BendStraight p)) = tan (h / 2) ^ 2 /\ fst (fst (WdWddW_Rod3BendStraight p)) = tan (h / 2) ^ 2 / 2) /\
  (forall k, (k < 3)%nat -> is_gradient 3 3 (fun q => fst (CdC_Rod3BendStraight q) k) p (snd (CdC_Rod3BendStraight p) k)) /\
  is_gradient 3 3 (fun q => fst (fst (WdWddW_Rod3BendStraight q))) p (snd (fst (WdWddW_Rod3BendStraight p))) /\
  is_jacobian 3 3 (fun q => snd (fst (WdWddW_Rod3BendStraight q))) p (snd (WdWddW_Rod3BendStraight p)) /\ symmetric 3 3 (snd (WdWddW_Rod3BendStraight p)).
Proof.
  intros p P0 P1 PC. pose proof (rod3_ok_of p P0 P1 PC) as OK. split; [intros h E; apply rod3_value; auto|]. split; [intros; apply rod3_cg; auto|].
  split; [apply rod3_Wg; auto|]. split; [apply rod3_H; auto|apply rod3_sym; auto].
Qed.
Print Assumptions C74_rod_space.
Example ex_rod_space : let p := at3 [[0; 0; 0]; [2; 0; 0]; [2; 3; 0]] in dist (p 0%nat) (p 1%nat) = 2 /\ dist (p 1%nat) (p 2%nat) = 3 /\ cosine p = 0 /\ tiny < 2 /\ tiny < 3 /\ tiny < 1 + 0.
Proof.
  cbv zeta. set (p := at3 _). assert (D0 : dist (p 0%nat) (p 1%nat) = 2) by (unfold dist, norm, dot, diff, p, at3; rewrite !sum_3; cbn [nth]; apply sqrt_is; lra).
  assert (D1 : dist (p 1%nat) (p 2%nat) = 3) by (unfold dist, norm, dot, diff, p, at3; rewrite !sum_3; cbn [nth]; apply sqrt_is; lra).
  split; [auto|]. split; [auto|]. split; [unfold cosine; rewrite D0, D1; unfold dot, diff, p, at3; rewrite !sum_3; cbn [nth]; field|]. unfold tiny. lra.
Qed.

(** The discrete shell: the constraint is the cosine of the angle of the two triangles, less one. *)
Theorem C74_shell : forall p, let n0 := crossp (diff (p 2%nat) (p 0%nat)) (diff (p 3%nat) (p 0%nat)) in let n1 := crossp (diff (p 3%nat) (p 1%nat)) (diff (p 2%nat) (p 1%nat)) in
  tiny < norm n0 -> tiny < norm n1 -> fst (CdC_DiscreteShell p) = dot n0 n1 / (norm n0 * norm n1) - 1 /\ is_gradient 4 3 (fun q => fst (CdC_DiscreteShell q)) p (snd (CdC_DiscreteShell p)).
Proof.
  intros p n0 n1 P0 P1. unfold n0, n1 in P0, P1. rewrite !len_cross in P0, P1. split; [apply shell_v; auto|apply shell_g; auto].
Qed.
Print Assumptions C74_shell.
Example ex_shell : let p := at3 [[0; -1; 0]; [0; 0; 1]; [0; 0; 0]; [1; 0; 0]] in let n0 := crossp (diff (p 2%nat) (p 0%nat)) (diff (p 3%nat) (p 0%nat)) in
  let n1 := crossp (diff (p 3%nat) (p 1%nat)) (diff (p 2%nat) (p 1%nat)) in norm n0 = 1 /\ norm n1 = 1 /\ dot n0 n1 = 0 /\ tiny < 1.
Proof.
  cbv zeta. unfold norm, dot, crossp, diff, at3, tiny. rewrite !sum_3. cbn [nth]. split; [apply sqrt_is; lra|]. split; [apply sqrt_is; lra|]. split; lra.
Qed.

(** Quadratic bending.  The forces are half of the gradient of the energy, and the matrix is the derivative of these forces. *)
Theorem C74_bending : forall P, 0 < area (P 0%nat) (P 2%nat) (P 3%nat) -> 0 < area (P 1%nat) (P 3%nat) (P 2%nat) ->
  let A := area (P 0%nat) (P 2%nat) (P 3%nat) + area (P 1%nat) (P 3%nat) (P 2%nat) in
  (forall p k, fst (CdC_QuadBend P p) k = sqrt (3 / A) * sum 4 (fun i => bweight P i * p i k)) /\
  (forall p k, (k < 3)%nat -> is_gradient 4 3 (fun q => fst (CdC_QuadBend P q) k) p (snd (CdC_QuadBend P p) k)) /\
  (forall p stiff, fst (fst (WdWddW_Bend P p stiff)) = stiff / A * sum 3 (fun d => sum 4 (fun i => bweight P i * p i d) ^ 2)) /\
  (forall p stiff, is_gradient 4 3 (fun q => fst (fst (WdWddW_Bend P q stiff))) p (fun i d => 2 * snd (fst (WdWddW_Bend P p stiff)) i d)) /\
  (forall p stiff, is_jacobian 4 3 (fun q => snd (fst (WdWddW_Bend P q stiff))) p (snd (WdWddW_Bend P p stiff)) /\ symmetric 4 3 (snd (WdWddW_Bend P p stiff))).
Proof.
  intros P B0 B1 A. assert (B : bok P) by (split; auto). split; [intros; apply quad_v; auto|]. split; [intros; apply quad_g; auto|]. split; [intros; apply bend_v; auto|].
  split; [intros; apply bend_g|]. intros; split; [apply bend_h|apply bend_sym].
Qed.
Print Assumptions C74_bending.
(** A rest shape that is flat, with the triangles on the two sides of their edge: its images under affine maps are free of bending and of forces. *)
Theorem C74_bending_flat : forall P a b (x y : nat -> R) o p q fa fb, dot a a = 1 -> dot b b = 1 -> dot a b = 0 ->
  (forall i d, (i < 4)%nat -> (d < 3)%nat -> P i d = o d + x i * a d + y i * b d) -> (forall i d, (i < 4)%nat -> (d < 3)%nat -> p i d = q d + x i * fa d + y i * fb d) ->
  let turn i j k := (x j - x i) * (y k - y i) - (x k - x i) * (y j - y i) in turn 0%nat 2%nat 3%nat * turn 1%nat 2%nat 3%nat < 0 ->
  0 < area (P 0%nat) (P 2%nat) (P 3%nat) -> 0 < area (P 1%nat) (P 3%nat) (P 2%nat) ->
  (forall k, (k < 3)%nat -> fst (CdC_QuadBend P p) k = 0) /\ forall stiff, fst (fst (WdWddW_Bend P p stiff)) = 0.
Proof.
  intros P a b x y o p q fa fb AA BB AB E F turn T B0 B1. assert (B : bok P) by (split; auto). destruct (bend_flat P a b x y o B AA BB AB E T) as (W0 & WX & WY).
  assert (Z : forall d, (d < 3)%nat -> sum 4 (fun i => bweight P i * p i d) = 0).
  { intros d D. rewrite sum_4 in *. rewrite !F by lia. transitivity ((bweight P 0 + bweight P 1 + bweight P 2 + bweight P 3) * q d + (bweight P 0 * x 0%nat + bweight P 1 * x 1%nat + bweight P 2 * x 2%nat + bweight P 3 * x 3%nat) * fa d
      + (bweight P 0 * y 0%nat + bweight P 1 * y 1%nat + bweight P 2 * y 2%nat + bweight P 3 * y 3%nat) * fb d); [ring|]. rewrite W0, WX, WY. ring. }
  split.
  - intros k K. rewrite quad_v by auto. rewrite Z by auto. ring.
  - intros stiff. rewrite bend_v by auto. rewrite sum_3, !Z by lia. ring.
Qed.
Print Assumptions C74_bending_flat.
Definition Pex : conf := at3 [[0; -1; 0]; [0; 1; 0]; [0; 0; 0]; [1; 0; 0]].
Example ex_bending : area (Pex 0%nat) (Pex 2%nat) (Pex 3%nat) = 1 / 2 /\ area (Pex 1%nat) (Pex 3%nat) (Pex 2%nat) = 1 / 2 /\ bweight Pex 0 = -1 /\ bweight Pex 1 = -1 /\ bweight Pex 2 = 2 /\ bweight Pex 3 = 0.
Proof.
  assert (A0 : area (Pex 0%nat) (Pex 2%nat) (Pex 3%nat) = 1 / 2) by (unfold area, norm, dot, crossp, diff, Pex, at3; rewrite !sum_3; cbn [nth]; rewrite (sqrt_is _ 1) by lra; lra).
  assert (A1 : area (Pex 1%nat) (Pex 2%nat) (Pex 3%nat) = 1 / 2) by (unfold area, norm, dot, crossp, diff, Pex, at3; rewrite !sum_3; cbn [nth]; rewrite (sqrt_is _ 1) by lra; lra).
  split; [auto|]. split; [rewrite area_flip; auto|]. unfold bweight. cbn [nth]. rewrite (cot_2 (Pex 0%nat)), (cot_3 (Pex 0%nat)), (cot_2 (Pex 1%nat)), (cot_3 (Pex 1%nat)), A0, A1.
  unfold dot, diff, Pex, at3. rewrite !sum_3. cbn [nth]. repeat split; field.
Qed.
(** The forces of the quadratic bending energy are not its gradient: the energy lacks the factor one half. *)
Theorem C74_bending_force_refuted : exists P p, 0 < area (P 0%nat) (P 2%nat) (P 3%nat) /\ 0 < area (P 1%nat) (P 3%nat) (P 2%nat) /\
  ~ is_gradient 4 3 (fun q => fst (fst (WdWddW_Bend P q 1))) p (snd (fst (WdWddW_Bend P p 1))).
Proof.
  destruct ex_bending as (A0 & A1 & W0 & W1 & W2 & W3). set (p := at3 [[0; -1; 1]; [0; 1; 0]; [0; 0; 0]; [1; 0; 0]]).
  assert (B : bok Pex) by (split; lra).
  exists Pex, p. split; [lra|]. split; [lra|]. intros G.
  assert (M : moves 4 3 (fun s i d => s * p i d) 1 p) by (intros i d _ _; eapply rate_eq; [apply (rate_mult (fun s => s) (fun _ => p i d)); [apply derivable_pt_lim_id|apply rate_const]|ring]).
  assert (E : (fun i d => 1 * p i d) = p) by (apply FunctionalExtensionality.functional_extensionality; intro i; apply FunctionalExtensionality.functional_extensionality; intro d; ring).
  pose proof (G (fun s i d => s * p i d) 1 p E M) as R1. pose proof (bend_g Pex p 1 (fun s i d => s * p i d) 1 p E M) as R2.
  pose proof (uniqueness_limite _ _ _ _ R1 R2) as U. clear R1 R2 G.
  assert (V : fst (fst (WdWddW_Bend Pex p 1)) = 1).
  { rewrite bend_v by auto. rewrite A0, A1, sum_3, !sum_4, W0, W1, W2, W3. unfold p, at3. cbn [nth]. field. }
  assert (V2 : power 4 3 (snd (fst (WdWddW_Bend Pex p 1))) p = fst (fst (WdWddW_Bend Pex p 1))).
  { rewrite power_4_3. unfold WdWddW_Bend. destruct (bend_K Pex) as [[[K0 K1] K2] K3]. cbn [fst snd]. ring. }
  assert (V3 : power 4 3 (fun i d => 2 * snd (fst (WdWddW_Bend Pex p 1)) i d) p = 2 * power 4 3 (snd (fst (WdWddW_Bend Pex p 1))) p) by (rewrite !power_4_3; ring).
  rewrite V3, V2, V in U. lra.
Qed.
Print Assumptions C74_bending_force_refuted.

(** The membrane over a triangle in the plane: strains and energy. *)
Theorem C74_membrane_flat : forall P p fa fb lambda myu,
  let x1 := P 1%nat 0%nat - P 0%nat 0%nat in let y1 := P 1%nat 1%nat - P 0%nat 1%nat in let x2 := P 2%nat 0%nat - P 0%nat 0%nat in let y2 := P 2%nat 1%nat - P 0%nat 1%nat in
  let D := Rabs (x1 * y2 - x2 * y1) in tiny < D -> deforms p fa fb x1 y1 x2 y2 ->
  (fst (CdC_StVK P p) 0%nat = strain_aa fa fb /\ fst (CdC_StVK P p) 1%nat = strain_bb fa fb /\ fst (CdC_StVK P p) 2%nat = 2 * strain_ab fa fb) /\
  (forall k, (k < 3)%nat -> is_gradient 3 3 (fun q => fst (CdC_StVK P q) k) p (snd (CdC_StVK P p) k)) /\
  fst (CdC_EnergyStVK P p lambda myu) = stvk_energy (D / 2) lambda myu fa fb /\
  is_gradient 3 3 (fun q => fst (CdC_EnergyStVK P q lambda myu)) p (snd (CdC_EnergyStVK P p lambda myu)).
Proof.
  intros P p fa fb lambda myu x1 y1 x2 y2 D T F. split; [apply stvk_v; auto|]. split; [intros; apply stvk_cg; auto|]. split; [apply energy_v; auto|apply energy_g].
Qed.
Print Assumptions C74_membrane_flat.
(** The membrane over a triangle in space. *)
Theorem C74_membrane : forall C c lambda myu a b x1 y1 x2 y2 fa fb, in_frame C a b x1 y1 x2 y2 -> x1 * y2 - x2 * y1 <> 0 -> deforms c fa fb x1 y1 x2 y2 ->
  fst (fst (WdWddW_CST C c lambda myu)) = stvk_energy (Rabs (x1 * y2 - x2 * y1) / 2) lambda myu fa fb /\
  is_gradient 3 3 (fun q => fst (fst (WdWddW_CST C q lambda myu))) c (snd (fst (WdWddW_CST C c lambda myu))) /\
  (0 <= lambda -> 0 <= myu -> semidefinite 3 3 (snd (WdWddW_CST C c lambda myu)) /\ symmetric 3 3 (snd (WdWddW_CST C c lambda myu))).
Proof. intros C c lambda myu a b x1 y1 x2 y2 fa fb F N E. split; [eapply cst_v; eauto|]. split; [apply cst_g|intros; apply cst_h; auto]. Qed.
Print Assumptions C74_membrane.
(** If the stress, in the basis of the two edges, is positive definite by the margin used, the matrix is the exact second derivative. *)
Theorem C74_membrane_hessian : forall C c lambda myu a b x1 y1 x2 y2 fa fb, in_frame C a b x1 y1 x2 y2 -> x1 * y2 - x2 * y1 <> 0 -> deforms c fa fb x1 y1 x2 y2 ->
  let D := x1 * y2 - x2 * y1 in let m := / 100000000000000000000 in
  let s00 := stress lambda myu fa fb (y2 / D) (- x2 / D) (y2 / D) (- x2 / D) in let s11 := stress lambda myu fa fb (- y1 / D) (x1 / D) (- y1 / D) (x1 / D) in
  let s01 := stress lambda myu fa fb (y2 / D) (- x2 / D) (- y1 / D) (x1 / D) in
  0 < s00 - m -> s01 * s01 < (s00 - m) * (s11 - m) -> is_jacobian 3 3 (fun q => snd (fst (WdWddW_CST C q lambda myu))) c (snd (WdWddW_CST C c lambda myu)).
Proof. intros C c lambda myu a b x1 y1 x2 y2 fa fb F N E D m s00 s11 s01 P Q. eapply cst_exact; eauto. Qed.
Print Assumptions C74_membrane_hessian.
Example ex_membrane : let C := at3 [[0; 0; 0]; [1; 0; 0]; [0; 1; 0]] in let c := at3 [[0; 0; 0]; [2; 0; 0]; [0; 2; 0]] in
  let a := fun d => nth d [1; 0; 0] 0 in let b := fun d => nth d [0; 1; 0] 0 in let fa := fun d => nth d [2; 0; 0] 0 in let fb := fun d => nth d [0; 2; 0] 0 in
  in_frame C a b 1 0 0 1 /\ deforms c fa fb 1 0 0 1 /\ stress 1 1 fa fb 1 0 1 0 = 6 /\ stress 1 1 fa fb 0 1 0 1 = 6 /\ stress 1 1 fa fb 1 0 0 1 = 0.
Proof.
  cbv zeta. unfold in_frame, deforms, stress, strain_aa, strain_bb, strain_ab, dot, at3. rewrite !sum_3. cbn [nth].
  repeat split; try (intros d D; cases3 d D; cbn [nth]; ring); field.
Qed.
(** The positive part of a stress is not what is kept: the direction of the positive eigenvalue is exchanged for the other one. *)
Theorem C74_positive_part_refuted : ~ forall s x y l, 0 < l -> s 0%nat * x + s 2%nat * y = l * x -> s 2%nat * x + s 1%nat * y = l * y ->
  let q := MakePositiveDefinite_Sim22 s in q 0%nat * x + q 2%nat * y = l * x /\ q 2%nat * x + q 1%nat * y = l * y.
Proof.
  intros H. specialize (H (fun k => nth k [1; -1; 0] 0) 1 0 1 ltac:(lra)). cbn [nth] in H. specialize (H ltac:(lra) ltac:(lra)). destruct H as [H _].
  revert H. unfold MakePositiveDefinite_Sim22. cbn [nth fst snd].
  replace ((1 - -1) * (1 - -1) * (1 / 4) + 0 * 0) with 1 by field. rewrite sqrt_1. rewrite (ltR_f (/ _)) by lra. rewrite (ltR_f ((1 + -1) * (1 / 2) + 1)) by lra.
  rewrite (ltR_f (_ + _)) by lra. rewrite (ltR_f (_ + _)) by lra. cbn [nth]. intros H. rewrite !Rmult_0_l, !Rmult_0_r in H. lra.
Qed.
Print Assumptions C74_positive_part_refuted.

(** The most isometric parameterization: J is the ratio of the areas. *)
Theorem C74_mips : forall C c a b x1 y1 x2 y2 fa fb, in_frame C a b x1 y1 x2 y2 -> x1 * y2 - x2 * y1 <> 0 -> deforms c fa fb x1 y1 x2 y2 -> 0 < area (c 0%nat) (c 1%nat) (c 2%nat) ->
  let A := Rabs (x1 * y2 - x2 * y1) / 2 in let J := area (c 0%nat) (c 1%nat) (c 2%nat) / A in
  fst (fst (WdWddW_MIPS c C)) = A * (dot fa fa + dot fb fb) * (J + / J) /\
  is_gradient 3 3 (fun q => fst (fst (WdWddW_MIPS q C))) c (snd (fst (WdWddW_MIPS c C))).
Proof.
  intros C c a b x1 y1 x2 y2 fa fb F N E P A J. split; [eapply mips_EC; eauto|]. apply mips_g; auto.
  destruct (gram C a b x1 y1 x2 y2 F) as (_ & _ & _ & L). unfold area. rewrite len_cross. change (diff ?u ?w) with (vsub u w). rewrite L. pose proof (Rabs_pos_lt _ N). lra.
Qed.
Print Assumptions C74_mips.
Definition Cex : conf := at3 [[0; 0; 0]; [1; 0; 0]; [0; 1; 0]].
Definition cex : conf := at3 [[0; 0; 0]; [2; 0; 0]; [0; 1; 0]].
Example ex_mips : in_frame Cex (fun d => nth d [1; 0; 0] 0) (fun d => nth d [0; 1; 0] 0) 1 0 0 1 /\ deforms cex (fun d => nth d [2; 0; 0] 0) (fun d => nth d [0; 1; 0] 0) 1 0 0 1 /\ area (cex 0%nat) (cex 1%nat) (cex 2%nat) = 1.
Proof.
  unfold in_frame, deforms, dot, Cex, cex, at3. rewrite !sum_3. cbn [nth]. repeat split; try (intros d D; cases3 d D; cbn [nth]; ring); try ring.
  unfold area, norm, dot, crossp, diff. rewrite !sum_3. cbn [nth]. rewrite (sqrt_is _ 2) by lra. lra.
Qed.
(** Its matrix is not a second derivative: it is not even symmetric. *)
Theorem C74_mips_hessian_refuted : exists C c, 0 < area (C 0%nat) (C 1%nat) (C 2%nat) /\ 0 < area (c 0%nat) (c 1%nat) (c 2%nat) /\ ~ symmetric 3 3 (snd (WdWddW_MIPS c C)).
Proof.
  exists Cex, cex. split; [unfold area, norm, dot, crossp, diff, Cex, at3; rewrite !sum_3; cbn [nth]; rewrite (sqrt_is _ 1) by lra; lra|].
  split; [destruct ex_mips as (_ & _ & ->); lra|]. intros S. specialize (S 0%nat 0%nat 0%nat 1%nat ltac:(lia) ltac:(lia) ltac:(lia) ltac:(lia)). revert S.
  unfold WdWddW_MIPS, mips_rest. cbv zeta.
  replace (Length3 (Cross (vsub (Cex 1%nat) (Cex 0%nat)) (vsub (Cex 2%nat) (Cex 0%nat)))) with 1 by (symmetry; unfold Length3, Cross, vsub, Cex, at3; cbn [nth]; apply sqrt_is; lra).
  replace (Length3 (Cross (vsub (cex 1%nat) (cex 0%nat)) (vsub (cex 0%nat) (cex 2%nat)))) with 2 by (symmetry; unfold Length3, Cross, vsub, cex, at3; cbn [nth]; apply sqrt_is; lra).
  unfold mips_E. cbv zeta. cbn [fst snd Nat.eqb nth]. unfold madd, mscale, msub, op, ident, Dot3, vsub, Cex, cex, at3. cbn [nth Nat.eqb]. lra.
Qed.
Print Assumptions C74_mips_hessian_refuted.
