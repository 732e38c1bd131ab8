(** C79: steps of fluids on grids. *)
From Coq Require Import List Arith Bool ZArith Reals Lra Lia.
Import ListNotations.
From Verif Require Import Imp PrModel ProxModel GjkProofs1 MeasSpec MeasProofs2 MeasProofs3 BspProofs1 BspProofs2 FluModel FluSpec FluProofs1 FluProofs2.
Open Scope R_scope.

(** *** The Poisson equation *)
(** Every number of iterations is a chain of sweeps of Gauss and Seidel. *)
Theorem C79_sweeps : forall nx ny d s p n, sized d nx ny -> sized p nx ny -> exists f, SolvePoissionEquationOnGrid2ByGaussSeidelMethod p d s nx ny n = Some (f n) /\ f 0%nat = p /\ (forall k, sized (f k) nx ny) /\
  forall k, (k < n)%nat -> sweep nx ny (val d) s (val (f k)) (val (f (S k))).
Proof. intros nx ny d s p n D P. destruct (solver_chain nx ny d s p n D P) as (f & q & E & F0 & Fn & Fs & Fc). exists f. subst q. auto. Qed.
Print Assumptions C79_sweeps.
(** The distance to any solution never grows. *)
Theorem C79_error_never_grows : forall nx ny d s p n r B, sized d nx ny -> sized p nx ny -> solves nx ny (val d) s r -> (forall i j, (i < nx)%nat -> (j < ny)%nat -> Rabs (val p i j - r i j) <= B) ->
  exists q, SolvePoissionEquationOnGrid2ByGaussSeidelMethod p d s nx ny n = Some q /\ sized q nx ny /\ forall i j, (i < nx)%nat -> (j < ny)%nat -> Rabs (val q i j - r i j) <= B.
Proof.
  intros nx ny d s p n r B D P Sr H. destruct (C79_sweeps nx ny d s p n D P) as (f & E & F0 & Fs & Fc). exists (f n). split; [auto|]. split; [auto|]. assert (G : forall k, (k <= n)%nat -> forall i j, (i < nx)%nat -> (j < ny)%nat -> Rabs (val (f k) i j - r i j) <= B); [|apply G; auto].
  induction k; intros K; [rewrite F0; auto|]. eapply sweep_error; [apply Fc; lia|eauto|apply IHk; lia].
Qed.
Print Assumptions C79_error_never_grows.
(** Arrays that solve the equation are the ones that iterations leave unchanged. *)
Theorem C79_unchanged : forall nx ny d s p n, sized d nx ny -> sized p nx ny -> (solves nx ny (val d) s (val p) -> SolvePoissionEquationOnGrid2ByGaussSeidelMethod p d s nx ny n = Some p) /\
  (SolvePoissionEquationOnGrid2ByGaussSeidelMethod p d s nx ny 1 = Some p -> solves nx ny (val d) s (val p)).
Proof.
  intros nx ny d s p n D P. split.
  - intros Sp. destruct (C79_sweeps nx ny d s p n D P) as (f & -> & F0 & Fs & Fc). f_equal. assert (G : forall k, (k <= n)%nat -> f k = p); [|apply G; auto]. induction k; intros K; [auto|]. specialize (Fc k ltac:(lia)). rewrite IHk in Fc by lia. apply (array_ext R 0 _ _ nx ny); auto. apply (sweep_fixed nx ny (val d) s (val p) (val (f (S k)))); auto.
  - intros E. destruct (C79_sweeps nx ny d s p 1 D P) as (f & E' & F0 & Fs & Fc). rewrite E in E'. injection E' as E'. specialize (Fc 0%nat ltac:(lia)). rewrite F0, <- E' in Fc. apply sweep_same; auto.
Qed.
Print Assumptions C79_unchanged.
(** Without sources the values stay between the least and the largest. *)
Theorem C79_no_new_extremes : forall nx ny d s p n lo hi, sized d nx ny -> sized p nx ny -> (forall i j, (i < nx)%nat -> (j < ny)%nat -> val d i j = 0) -> (forall i j, (i < nx)%nat -> (j < ny)%nat -> lo <= val p i j <= hi) ->
  exists q, SolvePoissionEquationOnGrid2ByGaussSeidelMethod p d s nx ny n = Some q /\ forall i j, (i < nx)%nat -> (j < ny)%nat -> lo <= val q i j <= hi.
Proof.
  intros nx ny d s p n lo hi D P D0 H. destruct (C79_error_never_grows nx ny d s p n (fun _ _ => (lo + hi) / 2) ((hi - lo) / 2) D P) as (q & E & _ & Q).
  - intros i j I J. rewrite D0 by auto. unfold lap. destruct (i + 1 <? nx)%nat, (0 <? i)%nat, (j + 1 <? ny)%nat, (0 <? j)%nat; ring.
  - intros i j I J. specialize (H i j I J). apply Rabs_le. lra.
  - exists q. split; [auto|]. intros i j I J. specialize (Q i j I J). apply abs_inv in Q. lra.
Qed.
Print Assumptions C79_no_new_extremes.
(** There are no solutions if the sources do not balance; then every iteration changes the array. *)
Theorem C79_balance : forall nx ny d s p, sized d nx ny -> sized p nx ny -> (solves nx ny (val d) s (val p) -> s * total nx ny (val d) = 0) /\
  (s * total nx ny (val d) <> 0 -> SolvePoissionEquationOnGrid2ByGaussSeidelMethod p d s nx ny 1 <> Some p).
Proof.
  intros nx ny d s p D P. assert (A : solves nx ny (val d) s (val p) -> s * total nx ny (val d) = 0).
  { intros H. rewrite <- total_scale. rewrite (total_ext nx ny _ (lap nx ny (val p))); [apply lap_total|]. intros i j I J. rewrite (H i j I J). ring. }
  split; [auto|]. intros N E. apply N, A. apply (C79_unchanged nx ny d s p 1); auto.
Qed.
Print Assumptions C79_balance.

(** *** Velocities at the faces of cells *)
(** Each cell gets its outflow divided by h; together they are the flow out of the grid. *)
Theorem C79_divergence : forall dv ni nj u v h, sized dv ni nj -> sized u (ni + 1) nj -> sized v ni (nj + 1) -> h <> 0 -> exists d, Divergence_StaggerdGrid2 dv ni nj u v h = Some d /\ sized d ni nj /\
  (forall i j, (i < ni)%nat -> (j < nj)%nat -> val d i j = outflow (val u) (val v) i j / h) /\
  h * total ni nj (val d) = sum nj (fun j => val u ni j - val u 0 j) + sum ni (fun i => val v i nj - val v i 0).
Proof.
  intros dv ni nj u v h D U V H. destruct (wp_ex _ _ _ (divergence_ok dv ni nj u v h D U V H)) as (d & E & S & A). exists d. split; [auto|]. split; [auto|]. split; [auto|].
  rewrite <- outflow_total, <- total_scale. apply total_ext. intros i j I J. rewrite A by auto. field. auto.
Qed.
Print Assumptions C79_divergence.
(** The velocities at the border stay, the other ones lose the difference of the pressures at both sides. *)
Theorem C79_gradient : forall u v ni nj s p, sized u (ni + 1) nj -> sized v ni (nj + 1) -> sized p ni nj -> exists u' v', SubstructPressureGradient_StaggeredGrid2 u v ni nj s p = Some (u', v') /\ sized u' (ni + 1) nj /\ sized v' ni (nj + 1) /\
  (forall j, (j < nj)%nat -> val u' 0 j = val u 0 j /\ val u' ni j = val u ni j) /\ (forall i, (i < ni)%nat -> val v' i 0 = val v i 0%nat /\ val v' i nj = val v i nj) /\
  (forall i j, (i + 1 < ni)%nat -> (j < nj)%nat -> val u' (i + 1) j = val u (i + 1) j - s * (val p (i + 1) j - val p i j)) /\
  (forall i j, (i < ni)%nat -> (j + 1 < nj)%nat -> val v' i (j + 1) = val v i (j + 1) - s * (val p i (j + 1) - val p i j)).
Proof.
  intros u v ni nj s p U V P. destruct (wp_ex _ _ _ (gradient_ok u v ni nj s p U V P)) as ((u' & v') & E & Su & Sv & A & B). cbn [fst snd] in *. exists u', v'. split; [auto|]. split; [auto|]. split; [auto|]. split; [|split; [|split]].
  - intros j J. split; rewrite A by lia; [reflexivity|]. rewrite Nat.ltb_irrefl, andb_false_r. reflexivity.
  - intros i I. split; rewrite B by lia; [reflexivity|]. rewrite Nat.ltb_irrefl, andb_false_r. reflexivity.
  - intros i j I J. rewrite A by lia. rewrite (proj2 (Nat.ltb_lt 0 (i + 1))), (proj2 (Nat.ltb_lt (i + 1) ni)), Nat.add_sub by lia. reflexivity.
  - intros i j I J. rewrite B by lia. rewrite (proj2 (Nat.ltb_lt 0 (j + 1))), (proj2 (Nat.ltb_lt (j + 1) nj)), Nat.add_sub by lia. reflexivity.
Qed.
Print Assumptions C79_gradient.
(** Divergence, subtraction of the gradient of any pressure, and divergence again. *)
Theorem C79_projection : forall dv u v ni nj h s p, sized dv ni nj -> sized u (ni + 1) nj -> sized v ni (nj + 1) -> sized p ni nj -> h <> 0 ->
  exists d u' v' d', Divergence_StaggerdGrid2 dv ni nj u v h = Some d /\ SubstructPressureGradient_StaggeredGrid2 u v ni nj s p = Some (u', v') /\ Divergence_StaggerdGrid2 d ni nj u' v' h = Some d' /\
  (forall i j, (i < ni)%nat -> (j < nj)%nat -> val d' i j = val d i j - s / h * lap ni nj (val p) i j) /\
  (forall s1, solves ni nj (val d) s1 (val p) -> s * s1 = h -> forall i j, (i < ni)%nat -> (j < nj)%nat -> val d' i j = 0).
Proof.
  intros dv u v ni nj h s p D U V P H. destruct (wp_ex _ _ _ (divergence_ok dv ni nj u v h D U V H)) as (d & E & S & A). destruct (wp_ex _ _ _ (gradient_ok u v ni nj s p U V P)) as ((u' & v') & E1 & Su & Sv & Au & Av). cbn [fst snd] in *. destruct (wp_ex _ _ _ (divergence_ok d ni nj u' v' h S Su Sv H)) as (d' & E2 & S2 & A2).
  exists d, u', v', d'. split; [auto|]. split; [auto|]. split; [auto|].
  assert (G : forall i j, (i < ni)%nat -> (j < nj)%nat -> val d' i j = val d i j - s / h * lap ni nj (val p) i j). { intros i j I J. rewrite A2, A by auto. rewrite (outflow_gradient ni nj (val u) (val v) (val u') (val v') (val p) s Au Av i j I J). field. auto. }
  split; [auto|]. intros s1 Sp Es i j I J. rewrite G, (Sp i j I J) by auto. replace (s / h * (val d i j * s1)) with (s * s1 * val d i j / h) by (field; auto). rewrite Es. field. auto.
Qed.
Print Assumptions C79_projection.

(** *** Velocities at the cells *)
(** Inner cells get twice the flow into them by central differences, divided by h; the border keeps its values. *)
Theorem C79_cell_divergence : forall dv ni nj a h, sized dv ni nj -> sized a ni nj -> h <> 0 -> exists d, Divergence_CellCenteredGrid2 dv ni nj a h = Some d /\ sized d ni nj /\
  (forall i j, (i + 2 < ni)%nat -> (j + 2 < nj)%nat -> val d (i + 1) (j + 1) = - ((fst (val2 a (i + 2) (j + 1)) - fst (val2 a i (j + 1))) + (snd (val2 a (i + 1) (j + 2)) - snd (val2 a (i + 1) j))) / h) /\
  (forall i j, (i < ni)%nat -> (j < nj)%nat -> i = 0%nat \/ j = 0%nat \/ (i + 1)%nat = ni \/ (j + 1)%nat = nj -> val d i j = val dv i j).
Proof.
  intros dv ni nj a h D S H. destruct (wp_ex _ _ _ (cell_divergence_ok dv ni nj a h D S H)) as (d & E & Sd & A). exists d. split; [auto|]. split; [auto|]. split.
  - intros i j I J. rewrite A by lia. rewrite (proj2 (Nat.ltb_lt 0 (i + 1))), (proj2 (Nat.ltb_lt 0 (j + 1))), (proj2 (Nat.ltb_lt (i + 1 + 1) ni)), (proj2 (Nat.ltb_lt (j + 1 + 1) nj)) by lia. cbn [andb]. rewrite !Nat.add_sub. replace (i + 1 + 1)%nat with (i + 2)%nat by lia. replace (j + 1 + 1)%nat with (j + 2)%nat by lia. field. auto.
  - intros i j I J B. rewrite A by lia. replace (_ && _ && _ && _)%nat with false; auto. symmetry. destruct (Nat.ltb_spec 0 i); [destruct (Nat.ltb_spec (i + 1) ni); [destruct (Nat.ltb_spec 0 j); [destruct (Nat.ltb_spec (j + 1) nj)|]|]|]; auto. lia.
Qed.
Print Assumptions C79_cell_divergence.
(** The subtraction keeps the velocities at the border; far from the border it changes the divergence by the differences of the pressure to the cells two steps away. *)
Theorem C79_cell_projection : forall dv a ni nj h s p, sized dv ni nj -> sized a ni nj -> sized p ni nj -> h <> 0 ->
  exists d b d', Divergence_CellCenteredGrid2 dv ni nj a h = Some d /\ SubstructPressureGradient_CellCenteredGrid2 a ni nj s p = Some b /\ sized b ni nj /\ Divergence_CellCenteredGrid2 d ni nj b h = Some d' /\
  (forall i j, (i + 2 < ni)%nat -> (j + 2 < nj)%nat -> val2 b (i + 1) (j + 1) = (fst (val2 a (i + 1) (j + 1)) + s * (val p (i + 2) (j + 1) - val p i (j + 1)) / 2, snd (val2 a (i + 1) (j + 1)) + s * (val p (i + 1) (j + 2) - val p (i + 1) j) / 2)) /\
  (forall i j, (i < ni)%nat -> (j < nj)%nat -> i = 0%nat \/ j = 0%nat \/ (i + 1)%nat = ni \/ (j + 1)%nat = nj -> val2 b i j = val2 a i j) /\
  (forall i j, (2 <= i)%nat -> (i + 2 < ni)%nat -> (2 <= j)%nat -> (j + 2 < nj)%nat -> val d' i j = val d i j - s / (2 * h) * (val p (i + 2) j + val p (i - 2) j + val p i (j + 2) + val p i (j - 2) - 4 * val p i j)).
Proof.
  intros dv a ni nj h s p D A P H. destruct (wp_ex _ _ _ (cell_divergence_ok dv ni nj a h D A H)) as (d & E & Sd & Vd). destruct (wp_ex _ _ _ (cell_gradient_ok a ni nj s p A P)) as (b & E1 & Sb & Vb). destruct (wp_ex _ _ _ (cell_divergence_ok d ni nj b h Sd Sb H)) as (d' & E2 & Sd' & Vd').
  exists d, b, d'. split; [auto|]. split; [auto|]. split; [auto|]. split; [auto|].
  assert (Vi : forall i j, (0 < i)%nat -> (i + 1 < ni)%nat -> (0 < j)%nat -> (j + 1 < nj)%nat -> ((0 <? i) && (i + 1 <? ni) && (0 <? j) && (j + 1 <? nj))%nat = true). { intros i j I0 I1 J0 J1. rewrite (proj2 (Nat.ltb_lt 0 i)), (proj2 (Nat.ltb_lt 0 j)), (proj2 (Nat.ltb_lt (i + 1) ni)), (proj2 (Nat.ltb_lt (j + 1) nj)) by lia. reflexivity. }
  split; [|split].
  - intros i j I J. rewrite Vb, Vi by lia. rewrite !Nat.add_sub. replace (i + 1 + 1)%nat with (i + 2)%nat by lia. replace (j + 1 + 1)%nat with (j + 2)%nat by lia. f_equal; field.
  - intros i j I J B. rewrite Vb by lia. replace (_ && _ && _ && _)%nat with false; auto. symmetry. destruct (Nat.ltb_spec 0 i); [destruct (Nat.ltb_spec (i + 1) ni); [destruct (Nat.ltb_spec 0 j); [destruct (Nat.ltb_spec (j + 1) nj)|]|]|]; auto. lia.
  - intros i j I0 I1 J0 J1. rewrite Vd', Vd, !Vi by lia. rewrite !Vb, !Vi by lia. cbn [fst snd]. replace (i + 1 + 1)%nat with (i + 2)%nat by lia. replace (j + 1 + 1)%nat with (j + 2)%nat by lia. replace (i + 1 - 1)%nat with i by lia. replace (j + 1 - 1)%nat with j by lia. replace (i - 1 - 1)%nat with (i - 2)%nat by lia. replace (j - 1 - 1)%nat with (j - 2)%nat by lia. replace (i - 1 + 1)%nat with i by lia. replace (j - 1 + 1)%nat with j by lia. field. auto.
Qed.
Print Assumptions C79_cell_projection.

(** *** Interpolation *)
Theorem C79_interpolation : forall a ni nj k x y, sized a ni nj -> (2 <= ni)%nat -> (2 <= nj)%nat -> (k < 2)%nat -> exists z, LinearInterpolationOnGrid2 a k x y = Some z /\ interpolated ni nj (comp k (val2 a)) x y z /\
  (forall i j, (i < ni)%nat -> (j < nj)%nat -> x = INR i -> y = INR j -> z = comp k (val2 a) i j) /\
  (forall lo hi, inside ni nj x y -> (forall i j, (i < ni)%nat -> (j < nj)%nat -> lo <= comp k (val2 a) i j <= hi) -> lo <= z <= hi) /\
  (forall c0 c1 c2 c3, (forall i j, (i < ni)%nat -> (j < nj)%nat -> comp k (val2 a) i j = c0 + c1 * INR i + c2 * INR j + c3 * INR i * INR j) -> z = c0 + c1 * x + c2 * y + c3 * x * y).
Proof.
  intros a ni nj k x y S I J K. destruct (interp_ok a ni nj k x y S I J K) as (z & E & H). exists z. split; [auto|]. split; [auto|]. split; [|split].
  - intros i j Hi Hj -> ->. eapply interp_node; eauto.
  - intros lo hi Hin B. eapply interp_mean; eauto.
  - intros. eapply interp_bilinear; eauto.
Qed.
Print Assumptions C79_interpolation.
Theorem C79_thin_grids_fail : forall a ni nj k x y, sized a ni nj -> (ni < 2)%nat \/ (nj < 2)%nat -> LinearInterpolationOnGrid2 a k x y = None.
Proof. apply interp_thin. Qed.
Print Assumptions C79_thin_grids_fail.

(** *** Advection *)
(** Each velocity becomes the one interpolated at the place that is dt against the flow; velocities at faces of the other direction are means of the four nearest. *)
Theorem C79_advection : forall u v ut vt ni nj dt h, sized u (ni + 1) nj -> sized v ni (nj + 1) -> sized ut (ni + 1) nj -> sized vt ni (nj + 1) -> (2 <= ni)%nat -> (2 <= nj)%nat -> h <> 0 ->
  exists u' v' ut' vt', AdvectionSemiLagrangian_StaggeredGrid2 u v ut vt ni nj dt h = Some (u', v', ut', vt') /\ sized u' (ni + 1) nj /\ sized v' ni (nj + 1) /\
    (forall i j, (i < ni + 1)%nat -> (j < nj)%nat -> interpolated (ni + 1) nj (val u) (INR i - val u i j * dt / h) (INR j - v_at_u ni (val v) i j * dt / h) (val u' i j)) /\
    (forall i j, (i < ni)%nat -> (j < nj + 1)%nat -> interpolated ni (nj + 1) (val v) (INR i - u_at_v nj (val u) i j * dt / h) (INR j - val v i j * dt / h) (val v' i j)).
Proof. apply advection_ok. Qed.
Print Assumptions C79_advection.
(** Velocities that are the same everywhere stay, for every time step; a time step of 0 changes nothing; and velocities stay between their least and their largest value as long as the places are in the grid. *)
Theorem C79_advection_keeps : forall u v ut vt ni nj dt h, sized u (ni + 1) nj -> sized v ni (nj + 1) -> sized ut (ni + 1) nj -> sized vt ni (nj + 1) -> (2 <= ni)%nat -> (2 <= nj)%nat -> h <> 0 ->
  exists u' v' ut' vt', AdvectionSemiLagrangian_StaggeredGrid2 u v ut vt ni nj dt h = Some (u', v', ut', vt') /\
  (forall c, (forall i j, (i < ni + 1)%nat -> (j < nj)%nat -> val u i j = c) -> u' = u) /\ (forall c, (forall i j, (i < ni)%nat -> (j < nj + 1)%nat -> val v i j = c) -> v' = v) /\
  (dt = 0 -> u' = u /\ v' = v) /\
  (forall lo hi, (forall i j, (i < ni + 1)%nat -> (j < nj)%nat -> lo <= val u i j <= hi /\ inside (ni + 1) nj (INR i - val u i j * dt / h) (INR j - v_at_u ni (val v) i j * dt / h)) -> forall i j, (i < ni + 1)%nat -> (j < nj)%nat -> lo <= val u' i j <= hi) /\
  (forall lo hi, (forall i j, (i < ni)%nat -> (j < nj + 1)%nat -> lo <= val v i j <= hi /\ inside ni (nj + 1) (INR i - u_at_v nj (val u) i j * dt / h) (INR j - val v i j * dt / h)) -> forall i j, (i < ni)%nat -> (j < nj + 1)%nat -> lo <= val v' i j <= hi).
Proof.
  intros u v ut vt ni nj dt h U V UT VT I J H. destruct (advection_ok u v ut vt ni nj dt h U V UT VT I J H) as (u' & v' & ut' & vt' & E & Su & Sv & A & B). exists u', v', ut', vt'. split; [auto|]. split; [|split; [|split; [|split]]].
  - intros c C. apply (array_ext R 0 _ _ (ni + 1) nj); auto. intros i j Hi Hj. change (val u' i j = val u i j). rewrite C by auto. rewrite (interp_bilinear _ _ _ _ _ _ c 0 0 0 (A i j Hi Hj)) by (intros a b Ha Hb; rewrite C by auto; ring). ring.
  - intros c C. apply (array_ext R 0 _ _ ni (nj + 1)); auto. intros i j Hi Hj. change (val v' i j = val v i j). rewrite C by auto. rewrite (interp_bilinear _ _ _ _ _ _ c 0 0 0 (B i j Hi Hj)) by (intros a b Ha Hb; rewrite C by auto; ring). ring.
  - intros ->. split.
    + apply (array_ext R 0 _ _ (ni + 1) nj); auto. intros i j Hi Hj. specialize (A i j Hi Hj). replace (INR i - val u i j * 0 / h) with (INR i) in A by (field; auto). replace (INR j - v_at_u ni (val v) i j * 0 / h) with (INR j) in A by (field; auto). apply (interp_node _ _ _ _ _ _ A); auto.
    + apply (array_ext R 0 _ _ ni (nj + 1)); auto. intros i j Hi Hj. specialize (B i j Hi Hj). replace (INR j - val v i j * 0 / h) with (INR j) in B by (field; auto). replace (INR i - u_at_v nj (val u) i j * 0 / h) with (INR i) in B by (field; auto). apply (interp_node _ _ _ _ _ _ B); auto.
  - intros lo hi L i j Hi Hj. eapply interp_mean; [apply A; auto|apply L; auto|intros; apply L; auto].
  - intros lo hi L i j Hi Hj. eapply interp_mean; [apply B; auto|apply L; auto|intros; apply L; auto].
Qed.
Print Assumptions C79_advection_keeps.
(** Grids with one row or column of cells fail. *)
Theorem C79_advection_fails : forall u v ut vt ni nj dt h, sized u (ni + 1) nj -> sized v ni (nj + 1) -> sized ut (ni + 1) nj -> sized vt ni (nj + 1) -> (ni < 2)%nat \/ (nj < 2)%nat -> AdvectionSemiLagrangian_StaggeredGrid2 u v ut vt ni nj dt h = None.
Proof.
  intros u v ut vt ni nj dt h U V UT VT H. unfold AdvectionSemiLagrangian_StaggeredGrid2. rewrite !has_size_ok by auto. cbn [assertb bind]. destruct (Nat.ltb_spec 0 ni) as [I|I]; [|reflexivity]. destruct (Nat.ltb_spec 0 nj) as [J|J]; [|reflexivity]. cbn [assertb bind andb].
  destruct (wp_ex _ _ _ (faces_u_ok u v ni nj ut U V ltac:(lia) UT)) as (ut' & -> & Sut & _). cbn [bind]. destruct (wp_ex _ _ _ (faces_v_ok u v ni nj vt U V ltac:(lia) VT)) as (vt' & -> & Svt & _). cbn [bind]. rewrite !Nat.add_0_r.
  destruct (carry ut' 0 (ni + 1) nj dt h u) eqn:E; [|reflexivity]. cbn [bind]. destruct H as [H|H].
  - rewrite carry_thin; auto. lia.
  - rewrite carry_thin in E; auto; [discriminate|lia].
Qed.
Print Assumptions C79_advection_fails.
Theorem C79_cell_advection : forall a t ni nj dt h, sized a ni nj -> sized t ni nj -> (2 <= ni)%nat -> (2 <= nj)%nat -> h <> 0 -> exists b, AdvectionSemiLagrangian_CellCenteredGrid2 a t ni nj dt h = Some b /\ sized b ni nj /\
  (forall i j k, (i < ni)%nat -> (j < nj)%nat -> (k < 2)%nat -> interpolated ni nj (comp k (val2 a)) (INR i - fst (val2 a i j) * dt / h) (INR j - snd (val2 a i j) * dt / h) (comp k (val2 b) i j)) /\
  (dt = 0 -> b = a) /\ (forall c, (forall i j, (i < ni)%nat -> (j < nj)%nat -> val2 a i j = c) -> b = a).
Proof.
  intros a t ni nj dt h A T I J H. destruct (wp_ex _ _ _ (cell_advection_ok a t ni nj dt h A T I J H)) as (b & E & Sb & B). exists b. split; [auto|]. split; [auto|]. split; [auto|]. split.
  - intros ->. apply (array_ext (R * R) (0, 0) _ _ ni nj); auto. intros i j Hi Hj. change (val2 b i j = val2 a i j). pose proof (B i j 0%nat Hi Hj ltac:(lia)) as B0. pose proof (B i j 1%nat Hi Hj ltac:(lia)) as B1. replace (INR i - fst (val2 a i j) * 0 / h) with (INR i) in B0, B1 by (field; auto). replace (INR j - snd (val2 a i j) * 0 / h) with (INR j) in B0, B1 by (field; auto).
    apply interp_node in B0; auto. apply interp_node in B1; auto. cbn [comp] in B0, B1. destruct (val2 b i j), (val2 a i j). cbn [fst snd] in *. congruence.
  - intros (c & e) C. apply (array_ext (R * R) (0, 0) _ _ ni nj); auto. intros i j Hi Hj. change (val2 b i j = val2 a i j). pose proof (B i j 0%nat Hi Hj ltac:(lia)) as B0. pose proof (B i j 1%nat Hi Hj ltac:(lia)) as B1.
    apply (interp_bilinear _ _ _ _ _ _ c 0 0 0) in B0; [|intros x y X Y; cbn [comp]; rewrite C by auto; cbn; ring]. apply (interp_bilinear _ _ _ _ _ _ e 0 0 0) in B1; [|intros x y X Y; cbn [comp]; rewrite C by auto; cbn; ring]. cbn [comp] in B0, B1. rewrite C by auto. destruct (val2 b i j). cbn [fst snd] in *. f_equal; lra.
Qed.
Print Assumptions C79_cell_advection.

(** *** What does not hold *)
Definition grid32 : array2 R := mkarray2 3 2 [1; 0; 0; 0; 0; 0].
Definition still : array2 R := new_array2 2 3 0.
Lemma grid32_sized : sized grid32 (2 + 1) 2. Proof. repeat split. Qed.
(** Velocities do not stay between their least and their largest value if the flow comes from outside of the grid: here they are from 0 to 1, and one becomes 2. *)
Theorem C79_advection_bounded_refuted : exists ni nj u v ut vt dt h u' v' ut' vt', sized u (ni + 1) nj /\ sized v ni (nj + 1) /\ sized ut (ni + 1) nj /\ sized vt ni (nj + 1) /\ 0 < dt /\ 0 < h /\
  (forall i j, (i < ni + 1)%nat -> (j < nj)%nat -> 0 <= val u i j <= 1) /\ (forall i j, (i < ni)%nat -> (j < nj + 1)%nat -> val v i j = 0) /\
  AdvectionSemiLagrangian_StaggeredGrid2 u v ut vt ni nj dt h = Some (u', v', ut', vt') /\ val u' 0 0 = 2.
Proof.
  pose proof (new_sized _ (0, 0) 3 2) as T1. pose proof (new_sized _ (0, 0) 2 3) as T2. pose proof (new_sized R 0 2 3) as T3.
  destruct (advection_ok grid32 still (new_array2 3 2 (0, 0)) (new_array2 2 3 (0, 0)) 2 2 1 1 grid32_sized T3 T1 T2 ltac:(lia) ltac:(lia) ltac:(lra)) as (u' & v' & ut' & vt' & E & _ & _ & A & _).
  exists 2%nat, 2%nat, grid32, still, (new_array2 3 2 (0, 0)), (new_array2 2 3 (0, 0)), 1, 1, u', v', ut', vt'. split; [apply grid32_sized|]. split; [auto|]. split; [auto|]. split; [auto|]. split; [lra|]. split; [lra|]. split; [|split; [|split; [auto|]]].
  - intros i j I J. destruct i as [|[|[|i]]]; [..|lia]; destruct j as [|[|j]]; try lia; unfold val, cell; cbn; lra.
  - intros i j I J. apply new_cell; lia.
  - specialize (A 0%nat 0%nat ltac:(lia) ltac:(lia)). assert (Z : v_at_u 2 (val still) 0 0 = 0). { unfold v_at_u, still, val. cbn [Nat.min Nat.sub Nat.add]. rewrite !new_cell by lia. field. }
    rewrite Z in A. destruct A as (i & j & Bi & Bj & ->). assert (G : val grid32 0 0 = 1) by reflexivity. rewrite G in *. destruct Bi as (I1 & I2 & _). destruct Bj as (J1 & _ & _). assert (i = 0)%nat. { destruct I2 as [I2|]; auto. pose proof (pos_INR i). cbn [INR] in I2. lra. } assert (j = 0)%nat by lia. subst. unfold blend, val, cell. cbn. field.
Qed.
Print Assumptions C79_advection_bounded_refuted.
(** On cells, the sign is the other one than that of the divergence: a flow away from the middle has a negative one. *)
Theorem C79_cell_divergence_sign_refuted : exists ni nj a dv d, sized a ni nj /\ sized dv ni nj /\ (forall i j, (i < ni)%nat -> (j < nj)%nat -> val2 a i j = (INR i, INR j)) /\ Divergence_CellCenteredGrid2 dv ni nj a 1 = Some d /\ val d 1 1 = -4.
Proof.
  set (a := mkarray2 3 3 [(0, 0); (1, 0); (2, 0); (0, 1); (1, 1); (2, 1); (0, 2); (1, 2); (2, 2)]). assert (S : sized a 3 3) by (repeat split). pose proof (new_sized R 0 3 3) as T. destruct (C79_cell_divergence (new_array2 3 3 0) 3 3 a 1 T S ltac:(lra)) as (d & E & _ & A & _).
  exists 3%nat, 3%nat, a, (new_array2 3 3 0), d. split; [auto|]. split; [auto|]. split; [|split; [auto|]].
  - intros i j I J. destruct i as [|[|[|i]]]; [..|lia]; destruct j as [|[|[|j]]]; try lia; unfold val2, cell; cbn; f_equal; lra.
  - specialize (A 0%nat 0%nat ltac:(lia) ltac:(lia)). cbn [Nat.add] in A. rewrite A. unfold val2, cell. cbn. field.
Qed.
Print Assumptions C79_cell_divergence_sign_refuted.

(** *** Examples *)
(** a pressure that solves the equation for the divergence of a flow in two cells *)
Example ex_projection : let u := mkarray2 3 1 [0; 1; 0] in let v := new_array2 2 2 0 in let p := mkarray2 2 1 [0; 1] in
  exists d u' v' d', Divergence_StaggerdGrid2 (new_array2 2 1 0) 2 1 u v 1 = Some d /\ SubstructPressureGradient_StaggeredGrid2 u v 2 1 1 p = Some (u', v') /\ solves 2 1 (val d) 1 (val p) /\ Divergence_StaggerdGrid2 d 2 1 u' v' 1 = Some d' /\ val d 0 0 = 1 /\ forall i j, (i < 2)%nat -> (j < 1)%nat -> val d' i j = 0.
Proof.
  cbv zeta. set (u := mkarray2 3 1 [0; 1; 0]). set (p := mkarray2 2 1 [0; 1]). assert (U : sized u (2 + 1) 1) by (repeat split). assert (V : sized (new_array2 2 2 0) 2 (1 + 1)) by (repeat split). assert (P : sized p 2 1) by (repeat split). assert (D : sized (new_array2 2 1 0) 2 1) by (repeat split).
  destruct (C79_projection (new_array2 2 1 0) u (new_array2 2 2 0) 2 1 1 1 p D U V P ltac:(lra)) as (d & u' & v' & d' & E & E1 & E2 & _ & F). destruct (C79_divergence (new_array2 2 1 0) 2 1 u (new_array2 2 2 0) 1 D U V ltac:(lra)) as (d0 & E0 & _ & A & _). rewrite E in E0. injection E0 as <-.
  assert (A0 : val d 0 0 = 1) by (rewrite A by lia; unfold outflow, val, cell; cbn; field). assert (A1 : val d 1 0 = -1) by (rewrite A by lia; unfold outflow, val, cell; cbn; field).
  assert (S : solves 2 1 (val d) 1 (val p)). { intros i j I J. assert (j = 0)%nat by lia. subst j. destruct i as [|[|i]]; [rewrite A0|rewrite A1|lia]; unfold lap, val, cell; cbn; lra. }
  exists d, u', v', d'. split; [auto|]. split; [auto|]. split; [auto|]. split; [auto|]. split; [auto|]. apply (F 1 S). lra.
Qed.
(** a flow that stays between 0 and 1/2 *)
Example ex_advection : let u := mkarray2 3 2 [0; 1 / 2; 0; 0; 1 / 2; 0] in exists u' v' ut' vt', AdvectionSemiLagrangian_StaggeredGrid2 u still (new_array2 3 2 (0, 0)) (new_array2 2 3 (0, 0)) 2 2 1 1 = Some (u', v', ut', vt') /\ forall i j, (i < 3)%nat -> (j < 2)%nat -> 0 <= val u' i j <= 1 / 2.
Proof.
  cbv zeta. set (u := mkarray2 3 2 [0; 1 / 2; 0; 0; 1 / 2; 0]). assert (U : sized u (2 + 1) 2) by (repeat split). pose proof (new_sized _ (0, 0) 3 2) as T1. pose proof (new_sized _ (0, 0) 2 3) as T2. pose proof (new_sized R 0 2 3) as T3.
  destruct (C79_advection_keeps u still (new_array2 3 2 (0, 0)) (new_array2 2 3 (0, 0)) 2 2 1 1 U T3 T1 T2 ltac:(lia) ltac:(lia) ltac:(lra)) as (u' & v' & ut' & vt' & E & _ & _ & _ & B & _). exists u', v', ut', vt'. split; [auto|]. apply B. intros i j I J.
  assert (Z : v_at_u 2 (val still) i j = 0). { unfold v_at_u, still, val. rewrite !new_cell by lia. field. } rewrite Z. unfold inside. destruct i as [|[|[|i]]]; [..|lia]; destruct j as [|[|j]]; try lia; unfold val, cell; cbn; lra.
Qed.
