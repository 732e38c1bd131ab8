(** C50: polygons - area, centroid, polar and second moments, length. *)
From Coquelicot Require Import Coquelicot.
From Coq Require Import Reals Lra Lia List Arith Bool.
Import ListNotations.
From Verif Require TopoProofs1.
From Verif Require Import Imp PrModel BezSpec BezProofs PolyModel PolySpec PolyProofs.
Open Scope R_scope.

Definition cr (a b : pt) : R := fst a * snd b - fst b * snd a.
Lemma vget_in : forall (l : list pt) i, (i < length l)%nat -> vget l i = Some (nth i l (0, 0)).
Proof. intros. unfold vget. apply nth_error_nth'. auto. Qed.
Lemma mod_in : forall i n, (i < n)%nat -> ((i + 1) mod n < n)%nat /\ ((i + 0) mod n = i)%nat.
Proof. intros. split; [apply Nat.mod_upper_bound; lia|]. rewrite Nat.add_0_r. apply Nat.mod_small. auto. Qed.
Lemma cg_loop : forall l : list pt, forn 0 (length l) (fun iseg '(area, cx, cy) =>
    let ip0 := ((iseg + 0) mod length l)%nat in
    let ip1 := ((iseg + 1) mod length l)%nat in
    p0 <- vget l ip0 ;;
    p1 <- vget l ip1 ;;
    let '(x0, y0) := p0 in
    let '(x1, y1) := p1 in
    let ai := x0 * y1 - x1 * y0 in
    Some (area + ai, cx + ai * (x0 + x1) / 3, cy + ai * (y0 + y1) / 3)) (0, 0, 0) =
  Some (total cr l, total (fun a b => cr a b * (fst a + fst b) / 3) l, total (fun a b => cr a b * (snd a + snd b) / 3) l).
Proof.
  intros l. rewrite (edge_loop _ l _ (fun a b s => let '(x, y, z) := s in (x + cr a b, y + cr a b * (fst a + fst b) / 3, z + cr a b * (snd a + snd b) / 3))).
  - f_equal. rewrite (fold_sum3 _ (fun e => cr (fst e) (snd e)) (fun e => cr (fst e) (snd e) * (fst (fst e) + fst (snd e)) / 3) (fun e => cr (fst e) (snd e) * (snd (fst e) + snd (snd e)) / 3)). rewrite !Rplus_0_l. reflexivity.
  - intros i ((x, y), z) I. cbv zeta. destruct (mod_in i _ I) as (M & ->). rewrite !vget_in by auto. cbn [bind]. destruct (nth i l (0, 0)) as (x0, y0). destruct (nth _ l (0, 0)) as (x1, y1). reflexivity.
Qed.
Lemma area_region : forall l o, region_integral (fun _ _ => 1) o l (total cr l * / 2).
Proof.
  intros l o. apply region_ext with (f := quad 1 0 0 0 0 0); [intros; unfold quad; ring|]. apply region_any with (o' := (0, 0)). transitivity (total (fun a b => / 2 * cr a b + 0 * cr a b) l); [rewrite total_lin; ring|]. apply total_ext. intros (ax, ay) (bx, by_). unfold tri, cr, quad. cbn [fst snd]. field.
Qed.
Lemma mx_region : forall l o, region_integral (fun x _ => x) o l (total (fun a b => cr a b * (fst a + fst b) / 3) l * / 2).
Proof.
  intros l o. apply region_ext with (f := quad 0 1 0 0 0 0); [intros; unfold quad; ring|]. apply region_any with (o' := (0, 0)). set (f := fun a b : pt => cr a b * (fst a + fst b) / 3). transitivity (total (fun a b => / 2 * f a b + 0 * f a b) l); [rewrite total_lin; ring|]. apply total_ext. intros (ax, ay) (bx, by_). unfold f, tri, cr, quad. cbn [fst snd]. field.
Qed.
Lemma my_region : forall l o, region_integral (fun _ y => y) o l (total (fun a b => cr a b * (snd a + snd b) / 3) l * / 2).
Proof.
  intros l o. apply region_ext with (f := quad 0 0 1 0 0 0); [intros; unfold quad; ring|]. apply region_any with (o' := (0, 0)). set (f := fun a b : pt => cr a b * (snd a + snd b) / 3). transitivity (total (fun a b => / 2 * f a b + 0 * f a b) l); [rewrite total_lin; ring|]. apply total_ext. intros (ax, ay) (bx, by_). unfold f, tri, cr, quad. cbn [fst snd]. field.
Qed.
Lemma div_some : forall a b, b <> 0 -> div a b = Some (a / b).
Proof. intros a b B. unfold div, eqR. destruct (Req_EM_T b 0); [contradiction|auto]. Qed.
Lemma div_none : forall a b, b = 0 -> div a b = None.
Proof. intros a b B. unfold div, eqR. destruct (Req_EM_T b 0); [auto|contradiction]. Qed.

(** The area is the signed area of the region and the centroid times the area is the first moment, whatever the point o from which the region is swept. There is no result exactly if the signed area is zero. *)
Theorem C50_CgArea : forall l,
  (forall cg area, CgArea_Polygon l = Some (cg, area) -> area <> 0 /\ forall o, region_integral (fun _ _ => 1) o l area /\ region_integral (fun x _ => x) o l (area * fst cg) /\ region_integral (fun _ y => y) o l (area * snd cg)) /\
  (CgArea_Polygon l = None <-> region_integral (fun _ _ => 1) (0, 0) l 0).
Proof.
  intros l. unfold CgArea_Polygon. rewrite cg_loop. cbn [bind]. destruct (Req_EM_T (total cr l) 0) as [Z0|Z0].
  - rewrite !div_none by auto. cbn [bind]. split; [discriminate|]. split; auto. intros _. replace 0 with (total cr l * / 2) by (rewrite Z0; ring). apply area_region.
  - rewrite !div_some by auto. cbn [bind]. split.
    + intros cg area E. injection E as <- <-. cbn [fst snd]. split; [intros H; apply Z0; lra|]. intros o. split; [apply area_region|]. split; [replace (_ * _) with (total (fun a b => cr a b * (fst a + fst b) / 3) l * / 2) by (field; auto); apply mx_region|replace (_ * _) with (total (fun a b => cr a b * (snd a + snd b) / 3) l * / 2) by (field; auto); apply my_region].
    + split; [discriminate|]. intros H. exfalso. apply Z0. assert (E := region_unique _ _ _ _ _ H (area_region l (0, 0))). lra.
Qed.

(** Translation, scaling, start vertex and reversal. *)
Theorem C50_CgArea_symmetries : forall l cx cy area, CgArea_Polygon l = Some ((cx, cy), area) ->
  (forall dx dy, CgArea_Polygon (map (fun p => (fst p + dx, snd p + dy)) l) = Some ((cx + dx, cy + dy), area)) /\
  (forall k, k <> 0 -> CgArea_Polygon (map (fun p => (k * fst p, k * snd p)) l) = Some ((k * cx, k * cy), k * k * area)) /\
  (forall c s, c * c + s * s = 1 -> CgArea_Polygon (map (fun p => (c * fst p - s * snd p, s * fst p + c * snd p)) l) = Some ((c * cx - s * cy, s * cx + c * cy), area)) /\
  (forall l1 l2, l = l1 ++ l2 -> CgArea_Polygon (l2 ++ l1) = Some ((cx, cy), area)) /\
  CgArea_Polygon (rev l) = Some ((cx, cy), - area).
Proof.
  intros l cx cy area E. unfold CgArea_Polygon in E. rewrite cg_loop in E. cbn [bind] in E. destruct (Req_EM_T (total cr l) 0) as [Z0|Z0]; [rewrite !div_none in E by auto; discriminate|]. rewrite !div_some in E by auto. cbn [bind] in E. injection E as <- <- <-.
  set (A := total cr l) in *. set (X := total (fun a b => cr a b * (fst a + fst b) / 3) l). set (Y := total (fun a b => cr a b * (snd a + snd b) / 3) l).
  assert (K : forall m A' X' Y' p q a, total cr m = A' -> total (fun a b => cr a b * (fst a + fst b) / 3) m = X' -> total (fun a b => cr a b * (snd a + snd b) / 3) m = Y' -> A' <> 0 -> X' / A' = p -> Y' / A' = q -> A' * / 2 = a -> CgArea_Polygon m = Some ((p, q), a)).
  { intros m A' X' Y' p q a <- <- <- N <- <- <-. unfold CgArea_Polygon. rewrite cg_loop. cbn [bind]. rewrite !div_some by auto. reflexivity. }
  assert (L3 : forall (f g h k : pt -> pt -> R) x y z (w : pt -> R), (forall a b, f a b = x * g a b + (y * h a b + z * k a b) + (w a - w b)) -> total f l = x * total g l + (y * total h l + z * total k l)).
  { intros f g h k x y z w H. rewrite (total_telescope _ _ (fun a b => x * g a b + 1 * (y * h a b + z * k a b)) w) by (intros; rewrite H; ring). rewrite (total_lin _ g (fun a b => y * h a b + z * k a b)), (total_lin _ h k). ring. }
  assert (LX := fun f x y z w => L3 f cr (fun a b => cr a b * (fst a + fst b) / 3) (fun a b => cr a b * (snd a + snd b) / 3) x y z w). clear L3. fold A X Y in LX.
  split; [|split; [|split; [|split]]].
  - intros dx dy. apply (K _ A (X + dx * A) (Y + dy * A)); auto; try (field; auto).
    + rewrite total_map. rewrite (LX _ 1 0 0 (fun a => - (dx * snd a - dy * fst a))); [ring|]. intros (ax, ay) (bx, by_). unfold cr, tri, quad. cbn [fst snd]. field.
    + rewrite total_map. rewrite (LX _ (dx) 1 0 (fun a => 2 * tri (quad dx 1 0 0 0 0) (- dx, - dy) a (0, 0))); [ring|]. intros (ax, ay) (bx, by_). unfold cr, tri, quad. cbn [fst snd]. field.
    + rewrite total_map. rewrite (LX _ (dy) 0 1 (fun a => 2 * tri (quad dy 0 1 0 0 0) (- dx, - dy) a (0, 0))); [ring|]. intros (ax, ay) (bx, by_). unfold cr, tri, quad. cbn [fst snd]. field.
  - intros k KZ. apply (K _ (k * k * A) (k * k * k * X) (k * k * k * Y)); try (field; auto); try (apply Rmult_integral_contrapositive_currified; auto).
    + rewrite total_map. rewrite (LX _ (k * k) 0 0 (fun a => 0)); [ring|]. intros (ax, ay) (bx, by_). unfold cr. cbn [fst snd]. field.
    + rewrite total_map. rewrite (LX _ 0 (k * k * k) 0 (fun a => 0)); [ring|]. intros (ax, ay) (bx, by_). unfold cr. cbn [fst snd]. field.
    + rewrite total_map. rewrite (LX _ 0 0 (k * k * k) (fun a => 0)); [ring|]. intros (ax, ay) (bx, by_). unfold cr. cbn [fst snd]. field.
  - intros c s CS. assert (CR : forall a b : pt, cr (c * fst a - s * snd a, s * fst a + c * snd a) (c * fst b - s * snd b, s * fst b + c * snd b) = cr a b). { intros (ax, ay) (bx, by_). unfold cr. cbn [fst snd]. replace (_ - _) with ((c * c + s * s) * (ax * by_ - bx * ay)) by ring. rewrite CS. ring. }
    apply (K _ A (c * X - s * Y) (s * X + c * Y)); auto; try (field; auto); rewrite total_map.
    + apply total_ext. auto.
    + rewrite (LX _ 0 c (- s) (fun a => 0)); [ring|]. intros a b. rewrite CR. cbn [fst snd]. field.
    + rewrite (LX _ 0 s c (fun a => 0)); [ring|]. intros a b. rewrite CR. cbn [fst snd]. field.
  - intros l1 l2 EL. apply (K _ A X Y); auto; rewrite total_rot, <- EL; auto.
  - apply (K _ (- A) (- X) (- Y)); try (field; auto); try lra; rewrite total_rev.
    + rewrite (LX _ (-1) 0 0 (fun a => 0)); [ring|]. intros (ax, ay) (bx, by_). unfold cr. cbn [fst snd]. field.
    + rewrite (LX _ 0 (-1) 0 (fun a => 0)); [ring|]. intros (ax, ay) (bx, by_). unfold cr. cbn [fst snd]. field.
    + rewrite (LX _ 0 0 (-1) (fun a => 0)); [ring|]. intros (ax, ay) (bx, by_). unfold cr. cbn [fst snd]. field.
Qed.

(** The polar moment is the integral of the squared distance from the pivot, and obeys the parallel axis theorem. *)
Lemma polar_loop : forall l pivot, RotationalMomentPolar_Polygon2 l pivot = Some (total (tri (quad (dotp pivot pivot) (- 2 * fst pivot) (- 2 * snd pivot) 1 0 1) pivot) l).
Proof.
  intros l pv. unfold RotationalMomentPolar_Polygon2. set (g := fun a b => crossp (subp a pv) (subp b pv) * / 2 * (dotp (subp a pv) (subp a pv) + dotp (subp a pv) (subp b pv) + dotp (subp b pv) (subp b pv))).
  rewrite (edge_loop _ l _ (fun a b s => s + g a b)).
  - cbn [bind]. f_equal. rewrite (fold_sum _ (fun e => g (fst e) (snd e))). rewrite Rplus_0_l. fold (total g l). transitivity (total (fun a b => 1 / 6 * g a b + 0 * g a b) l); [rewrite total_lin; ring|]. apply total_ext. destruct pv as (px, py). intros (ax, ay) (bx, by_). unfold g, tri, quad, crossp, dotp, subp. cbn [fst snd]. field.
  - intros i s I. cbv zeta. destruct (mod_in i _ I) as (M & _). rewrite !vget_in by auto. reflexivity.
Qed.
Theorem C50_Polar : forall l pivot, exists J, RotationalMomentPolar_Polygon2 l pivot = Some J /\
  (forall o, region_integral (fun x y => (x - fst pivot) * (x - fst pivot) + (y - snd pivot) * (y - snd pivot)) o l J) /\
  (forall cg area, CgArea_Polygon l = Some (cg, area) -> exists J0, RotationalMomentPolar_Polygon2 l cg = Some J0 /\ J = J0 + area * (dist pivot cg * dist pivot cg)).
Proof.
  intros l pv. rewrite polar_loop. eexists. split; [reflexivity|]. split.
  - intros o. eapply region_ext; [|apply region_any with (o' := pv); reflexivity]. intros x y. unfold quad, dotp. cbv beta. ring.
  - intros (cx, cy) area E. rewrite polar_loop. eexists. split; [reflexivity|]. unfold dist. rewrite sqrt_sqrt by (apply Rplus_le_le_0_compat; apply Rle_0_sqr). cbn [fst snd].
    apply (region_unique (quad (dotp pv pv) (- 2 * fst pv) (- 2 * snd pv) 1 0 1) pv l); [apply region_any with (o' := pv); reflexivity|].
    destruct (C50_CgArea l) as (H & _). destruct (H _ _ E) as (_ & H2). destruct (H2 pv) as (RA & RX & RY). cbn [fst snd] in *.
    assert (RJ : region_integral (quad (cx * cx + cy * cy) (-2 * cx) (-2 * cy) 1 0 1) pv l (total (tri (quad (cx * cx + cy * cy) (-2 * cx) (-2 * cy) 1 0 1) (cx, cy)) l)) by (apply region_any with (o' := (cx, cy)); reflexivity).
    apply (region_ext _ (quad 1 0 0 0 0 0)) in RA; [|intros; unfold quad; ring]. apply (region_ext _ (quad 0 1 0 0 0 0)) in RX; [|intros; unfold quad; ring]. apply (region_ext _ (quad 0 0 1 0 0 0)) in RY; [|intros; unfold quad; ring].
    apply region_of in RA; [|intros; apply tri_quad]. apply region_of in RX; [|intros; apply tri_quad]. apply region_of in RY; [|intros; apply tri_quad]. apply region_of in RJ; [|intros; apply tri_quad]. apply region_of; [intros; apply tri_quad|]. change (dotp (cx, cy) (cx, cy)) with (cx * cx + cy * cy). rewrite RJ.
    assert (LIN : forall x y z, total (tri (quad (dotp pv pv) (- 2 * fst pv) (- 2 * snd pv) 1 0 1) pv) l = 1 * total (tri (quad (cx * cx + cy * cy) (-2 * cx) (-2 * cy) 1 0 1) pv) l + 1 * (1 * ((dotp pv pv - (cx * cx + cy * cy)) * total (tri (quad 1 0 0 0 0 0) pv) l + (2 * cx - 2 * fst pv) * total (tri (quad 0 1 0 0 0 0) pv) l) + (2 * cy - 2 * snd pv) * total (tri (quad 0 0 1 0 0 0) pv) l) + (x - x) * y * z).
    { intros x y z. rewrite <- !total_lin. rewrite Rminus_eq_0, Rmult_0_l, Rmult_0_l, Rplus_0_r. apply total_ext. intros a b. unfold tri, quad. field. }
    rewrite (LIN 0 0 0), <- RA, <- RX, <- RY. unfold dotp. ring.
Qed.

(** * Second moments *)
Lemma atan2_polar : forall x y, 0 < x * x + y * y -> cos (atan2 y x) = x / sqrt (x * x + y * y) /\ sin (atan2 y x) = y / sqrt (x * x + y * y).
Proof.
  intros x y P. unfold atan2. assert (S : forall z, z <> 0 -> sqrt (1 + (y / z)²) = sqrt (z * z + y * y) / Rabs z).
  { intros z N. rewrite <- (sqrt_Rsqr_abs z), <- sqrt_div. - f_equal. unfold Rsqr. field. auto. - nra. - apply Rsqr_pos_lt. auto. }
  assert (SP : 0 < sqrt (x * x + y * y)) by (apply sqrt_lt_R0; auto). assert (T := ltR_spec 0 x). destruct (ltR 0 x).
  - rewrite cos_atan, sin_atan, S by lra. rewrite Rabs_pos_eq by lra. split; field; lra.
  - assert (T2 := ltR_spec x 0). destruct (ltR x 0).
    + assert (C : cos (atan (y / x)) = - (x / sqrt (x * x + y * y))) by (rewrite cos_atan, S, Rabs_left by lra; field; lra). assert (SN : sin (atan (y / x)) = - (y / sqrt (x * x + y * y))) by (rewrite sin_atan, S, Rabs_left by lra; field; lra).
      destruct (ltR y 0).
      * rewrite cos_minus, sin_minus, C, SN, cos_PI, sin_PI. split; ring.
      * rewrite cos_plus, sin_plus, C, SN, cos_PI, sin_PI. split; ring.
    + assert (X0 : x = 0) by lra. subst x. replace (0 * 0 + y * y) with (y * y) in * by ring. assert (T3 := ltR_spec 0 y). destruct (ltR 0 y).
      * rewrite cos_PI2, sin_PI2, sqrt_square by lra. split; field; lra.
      * assert (T4 := ltR_spec y 0). destruct (ltR y 0); [|exfalso; nra]. rewrite cos_neg, sin_neg, cos_PI2, sin_PI2. replace (y * y) with (- y * - y) by ring. rewrite sqrt_square by lra. split; field; lra.
Qed.
Definition qx (cx cy u v w : R) : R -> R -> R := fun x y => u * ((y - cy) * (y - cy)) + v * ((x - cx) * (x - cx)) + w * ((x - cx) * (y - cy)).
Lemma second_loop : forall (l : list pt) cx cy, exists Ix Iy Ixy, forn 0 (length l) (fun iseg '(Ix, Iy, Ixy) =>
    let ip0 := ((iseg + 0) mod length l)%nat in
    let ip1 := ((iseg + 1) mod length l)%nat in
    p0 <- vget l ip0 ;;
    p1 <- vget l ip1 ;;
    let x0 := fst p0 - cx in
    let y0 := snd p0 - cy in
    let x1 := fst p1 - cx in
    let y1 := snd p1 - cy in
    let ai := x0 * y1 - x1 * y0 in
    Some (Ix + ai * (y0 * y0 + y0 * y1 + y1 * y1) / 12,
          Iy + ai * (x0 * x0 + x0 * x1 + x1 * x1) / 12,
          Ixy + ai * (x0 * y0 + / 2 * x0 * y1 + / 2 * x1 * y0 + x1 * y1) / 12)) (0, 0, 0) = Some (Ix, Iy, Ixy) /\
  forall u v w o, region_integral (qx cx cy u v w) o l (u * Ix + v * Iy + w * Ixy).
Proof.
  intros l cx cy. set (ai := fun a b : pt => (fst a - cx) * (snd b - cy) - (fst b - cx) * (snd a - cy)).
  set (f := fun a b : pt => ai a b * ((snd a - cy) * (snd a - cy) + (snd a - cy) * (snd b - cy) + (snd b - cy) * (snd b - cy)) / 12). set (g := fun a b : pt => ai a b * ((fst a - cx) * (fst a - cx) + (fst a - cx) * (fst b - cx) + (fst b - cx) * (fst b - cx)) / 12). set (h := fun a b : pt => ai a b * ((fst a - cx) * (snd a - cy) + / 2 * (fst a - cx) * (snd b - cy) + / 2 * (fst b - cx) * (snd a - cy) + (fst b - cx) * (snd b - cy)) / 12).
  exists (total f l), (total g l), (total h l). split.
  - rewrite (edge_loop _ l _ (fun a b s => let '(x, y, z) := s in (x + f a b, y + g a b, z + h a b))).
    + f_equal. rewrite (fold_sum3 _ (fun e => f (fst e) (snd e)) (fun e => g (fst e) (snd e)) (fun e => h (fst e) (snd e))). rewrite !Rplus_0_l. reflexivity.
    + intros i ((x, y), z) I. cbv zeta. destruct (mod_in i _ I) as (M & ->). rewrite !vget_in by auto. reflexivity.
  - intros u v w o. apply region_ext with (f := quad (u * (cy * cy) + v * (cx * cx) + w * (cx * cy)) (-2 * v * cx - w * cy) (-2 * u * cy - w * cx) v w u); [intros; unfold quad, qx; ring|]. apply region_any with (o' := (cx, cy)).
    replace (u * total f l + v * total g l + w * total h l) with (1 * (u * total f l + v * total g l) + w * total h l) by ring. rewrite <- !total_lin. apply total_ext. intros (ax, ay) (bx, by_). unfold f, g, h, ai, tri, quad. cbn [fst snd]. field.
Qed.
(** pa1 and pa2 are orthonormal; I1 and I2 are the second moments about the axes through the centroid along pa1 and pa2; the product moment vanishes and I1, I2 are the extreme moments over all directions. When the moments are (nearly) equal, pa1 and pa2 are the coordinate axes and I1 and I2 are not written. *)
Theorem C50_SecondMoment : forall i1 i2 l cg area pa1 I1 pa2 I2, SecondMomentOfArea_Polygon i1 i2 l = Some (cg, area, pa1, I1, pa2, I2) ->
  CgArea_Polygon l = Some (cg, area) /\
  dotp pa1 pa1 = 1 /\ dotp pa2 pa2 = 1 /\ dotp pa1 pa2 = 0 /\
  ((forall o,
     region_integral (fun x y => ((x - fst cg) * snd pa1 - (y - snd cg) * fst pa1) ^ 2) o l I1 /\
     region_integral (fun x y => ((x - fst cg) * snd pa2 - (y - snd cg) * fst pa2) ^ 2) o l I2 /\
     region_integral (fun x y => ((x - fst cg) * fst pa1 + (y - snd cg) * snd pa1) * ((x - fst cg) * fst pa2 + (y - snd cg) * snd pa2)) o l 0 /\
     forall d J, dotp d d = 1 -> region_integral (fun x y => ((x - fst cg) * snd d - (y - snd cg) * fst d) ^ 2) o l J -> I2 <= J <= I1) \/
   (I1 = i1 /\ I2 = i2 /\ exists Ix Iy Ixy, (forall o, region_integral (fun x y => (y - snd cg) ^ 2) o l Ix /\ region_integral (fun x y => (x - fst cg) ^ 2) o l Iy /\ region_integral (fun x y => (x - fst cg) * (y - snd cg)) o l Ixy) /\ Rabs (Ix - Iy) + Rabs Ixy < 1 / 10 ^ 20)).
Proof.
  intros i1 i2 l cg area pa1 I1 pa2 I2 E. unfold SecondMomentOfArea_Polygon in E. rewrite cg_loop in E. unfold CgArea_Polygon. rewrite cg_loop. cbn [bind] in *.
  destruct (div (total (fun a b => cr a b * (fst a + fst b) / 3) l) (total cr l)) as [cx|] eqn:E1; [|discriminate]. cbn [bind] in *. destruct (div (total (fun a b => cr a b * (snd a + snd b) / 3) l) (total cr l)) as [cy|] eqn:E2; [|discriminate]. cbn [bind] in *.
  destruct (second_loop l cx cy) as (Ix & Iy & Ixy & E3 & RG). cbv zeta in E3, E. rewrite E3 in E. cbn [bind] in E. clear E3.
  assert (T := ltR_spec (Rabs (Ix - Iy) + Rabs Ixy) (1 / 10 ^ 20)). destruct (ltR _ _).
  - injection E as <- <- <- <- <- <-. split; auto. unfold dotp. cbn [fst snd]. split; [ring|]. split; [ring|]. split; [ring|]. right. split; auto. split; auto. exists Ix, Iy, Ixy. split; auto. intros o. split; [|split].
    + replace Ix with (1 * Ix + 0 * Iy + 0 * Ixy) by ring. eapply region_ext; [|apply RG]. intros. unfold qx. ring.
    + replace Iy with (0 * Ix + 1 * Iy + 0 * Ixy) by ring. eapply region_ext; [|apply RG]. intros. unfold qx. ring.
    + replace Ixy with (0 * Ix + 0 * Iy + 1 * Ixy) by ring. eapply region_ext; [|apply RG]. intros. unfold qx. ring.
  - set (phi := / 2 * atan2 (-2 * Ixy) (Ix - Iy)) in *. set (r := sqrt ((Ix - Iy) * (Ix - Iy) + 4 * Ixy * Ixy)) in *. injection E as <- <- <- <- <- <-. split; auto. cbn [fst snd].
    assert (P : 0 < (Ix - Iy) * (Ix - Iy) + -2 * Ixy * (-2 * Ixy)).
    { destruct (Req_dec (Ix - Iy) 0) as [Z1|Z1]; [|nra]. destruct (Req_dec Ixy 0) as [Z2|Z2]; [|nra]. exfalso. rewrite Z1, Z2, Rabs_R0 in T. assert (0 < 1 / 10 ^ 20) by (apply Rdiv_lt_0_compat; [lra|apply pow_lt; lra]). lra. }
    destruct (atan2_polar _ _ P) as (C2 & S2). replace ((Ix - Iy) * (Ix - Iy) + -2 * Ixy * (-2 * Ixy)) with ((Ix - Iy) * (Ix - Iy) + 4 * Ixy * Ixy) in C2, S2, P by ring. fold r in C2, S2. assert (RP : 0 < r) by (apply sqrt_lt_R0; auto). assert (RR : r * r = (Ix - Iy) * (Ix - Iy) + 4 * Ixy * Ixy) by (apply sqrt_sqrt; lra).
    replace (atan2 (-2 * Ixy) (Ix - Iy)) with (2 * phi) in C2, S2 by (unfold phi; field). rewrite cos_2a in C2. rewrite sin_2a in S2. assert (CS := sin2_cos2 phi). unfold Rsqr in CS. set (c := cos phi) in *. set (s := sin phi) in *. clearbody c s r.
    assert (C3 : (c * c - s * s) * r = Ix - Iy) by (rewrite C2; field; lra). assert (S3 : (2 * s * c) * r = -2 * Ixy) by (rewrite S2; field; lra).
    unfold dotp. cbn [fst snd]. split; [lra|]. split; [lra|]. split; [ring|]. left. intros o.
    assert (MV : s * s * Iy - 2 * s * c * Ixy + c * c * Ix = / 2 * (Ix + Iy) + / 2 * r).
    { assert (A1 : c * c = (1 + (c * c - s * s)) / 2) by lra. assert (A2 : s * s = (1 - (c * c - s * s)) / 2) by lra. apply Rmult_eq_reg_r with r; [|lra]. replace ((s * s * Iy - 2 * s * c * Ixy + c * c * Ix) * r) with ((s * s * r) * Iy + - (2 * s * c * r) * Ixy + (c * c * r) * Ix) by ring. rewrite S3. replace (s * s * r) with ((r - (Ix - Iy)) / 2) by (rewrite <- C3; nra). replace (c * c * r) with ((r + (Ix - Iy)) / 2) by (rewrite <- C3; nra). nra. }
    split; [|split; [|split]].
    + rewrite <- MV. replace (s * s * Iy - 2 * s * c * Ixy + c * c * Ix) with (c * c * Ix + s * s * Iy + (- 2 * s * c) * Ixy) by ring. eapply region_ext; [|apply RG]. intros. unfold qx. cbv beta. ring.
    + replace (/ 2 * (Ix + Iy) - / 2 * r) with (s * s * Ix + c * c * Iy + (2 * s * c) * Ixy).
      * eapply region_ext; [|apply RG]. intros. unfold qx. cbv beta. ring.
      * assert (M2 : c * c * Iy + s * s * Ix = (Ix + Iy) - (s * s * Iy + c * c * Ix)) by (replace Ix with ((s * s + c * c) * Ix) at 2 by (rewrite CS; ring); replace Iy with ((s * s + c * c) * Iy) at 2 by (rewrite CS; ring); ring). lra.
    + assert (RI := RG (c * s) (- s * c) (c * c - s * s) o). assert (EZ : c * s * Ix + - s * c * Iy + (c * c - s * s) * Ixy = 0).
      { apply Rmult_eq_reg_r with r; [|lra]. replace ((c * s * Ix + - s * c * Iy + (c * c - s * s) * Ixy) * r) with ((2 * s * c * r) * (Ix - Iy) / 2 + ((c * c - s * s) * r) * Ixy) by field. rewrite S3, C3. field. }
      rewrite EZ in RI. eapply region_ext; [|exact RI]. intros. unfold qx. cbv beta. ring.
    + intros (dx, dy) J D RJ. cbn [fst snd] in *. assert (J = dx * dx * Ix + dy * dy * Iy + (-2 * dx * dy) * Ixy) as ->. { eapply region_unique; [exact RJ|]. eapply region_ext; [|apply RG]. intros. unfold qx. cbv beta. ring. }
      set (p := dx * dx - dy * dy). set (q := 2 * dx * dy). assert (PQ : p * p + q * q = 1) by (unfold p, q; replace ((dx * dx - dy * dy) * (dx * dx - dy * dy) + 2 * dx * dy * (2 * dx * dy)) with ((dx * dx + dy * dy) * (dx * dx + dy * dy)) by ring; rewrite D; ring).
      replace (dx * dx * Ix + dy * dy * Iy + -2 * dx * dy * Ixy) with (/ 2 * (Ix + Iy) + / 2 * (p * (Ix - Iy) - q * (2 * Ixy))).
      2:{ unfold p, q. replace (Ix + Iy) with ((dx * dx + dy * dy) * (Ix + Iy)) by (rewrite D; ring). field. }
      set (k := p * (Ix - Iy) - q * (2 * Ixy)). assert (KR : k * k <= r * r). { rewrite RR. assert (K0 := Rle_0_sqr (p * (2 * Ixy) + q * (Ix - Iy))). unfold Rsqr in K0. assert (K1 : k * k + (p * (2 * Ixy) + q * (Ix - Iy)) * (p * (2 * Ixy) + q * (Ix - Iy)) = (p * p + q * q) * ((Ix - Iy) * (Ix - Iy) + 4 * Ixy * Ixy)) by (unfold k; ring). rewrite PQ in K1. lra. }
      assert (- r <= k <= r) by (split; nra). lra.
Qed.
(** On the unit square I1 and I2 keep whatever values they had. *)
Theorem C50_SecondMoment_square_refuted : forall i1 i2, SecondMomentOfArea_Polygon i1 i2 [(0, 0); (1, 0); (1, 1); (0, 1)] = Some ((/ 2, / 2), 1, (1, 0), i1, (0, 1), i2).
Proof.
  intros i1 i2. unfold SecondMomentOfArea_Polygon. cbn [length forn Nat.sub forn_ vget nth_error Nat.modulo Nat.divmod Nat.add fst snd bind]. cbn. 
  match goal with |- context [div ?a ?b] => replace b with 2 by ring end. rewrite !div_some by lra. cbn [bind].
  match goal with |- context [Rabs ?a + Rabs ?b] => replace a with 0 by field; replace b with 0 by field end. rewrite Rabs_R0. assert (T := ltR_spec (0 + 0) (1 / (10 * (10 * (10 * (10 * (10 * (10 * (10 * (10 * (10 * (10 * (10 * (10 * (10 * (10 * (10 * (10 * (10 * (10 * (10 * (10 * 1)))))))))))))))))))))). destruct (ltR _ _); [|lra].
  f_equal. repeat f_equal; field.
Qed.

(** The length of a polygon with at least two vertices is the sum of its edges; it is at least twice the distance of any two vertices and does not depend on the start vertex and the direction; Polygon_Invert reverses. *)
Lemma length_total : forall l, Length_Polygon l = Some (total dist l).
Proof.
  intros l. unfold Length_Polygon. destruct (length l <? 2)%nat eqn:L.
  - apply Nat.ltb_lt in L. destruct l as [|a [|b l]]; cbn in L; try lia; [reflexivity|]. unfold total, edges, sum, dist. cbn. f_equal. rewrite !Rminus_eq_0, Rmult_0_l, Rplus_0_l, sqrt_0. ring.
  - rewrite (edge_loop _ l _ (fun a b s => s + dist a b)); [rewrite (fold_sum _ (fun e => dist (fst e) (snd e))); rewrite Rplus_0_l; reflexivity|]. intros i s I. cbv zeta. destruct (mod_in i _ I) as (M & _). rewrite !vget_in by auto. reflexivity.
Qed.
Lemma dist_tri : forall a b c, dist a c <= dist a b + dist b c.
Proof. intros (ax, ay) (bx, by_) (cx, cy). unfold dist. cbn [fst snd]. apply (triangle ax ay cx cy bx by_). Qed.
Lemma dist_sym : forall a b, dist a b = dist b a.
Proof. intros. unfold dist. f_equal. ring. Qed.
Lemma dist_pos : forall a b, 0 <= dist a b.
Proof. intros. apply sqrt_pos. Qed.
Lemma path_length : forall l a b, dist a b <= sum (map (fun e => dist (fst e) (snd e)) (combine (a :: l) (l ++ [b]))).
Proof. unfold sum. induction l as [|c l IH]; intros a b; cbn [app combine map fold_right fst snd]; [lra|]. specialize (IH c b). assert (T := dist_tri a c b). cbn [app combine map fold_right fst snd] in IH. lra. Qed.
Theorem C50_Length : forall l, exists L, Length_Polygon l = Some L /\ L = total dist l /\
  (forall a b, In a l -> In b l -> 2 * dist a b <= L) /\ (forall l1 l2, l = l1 ++ l2 -> Length_Polygon (l2 ++ l1) = Some L) /\
  Polygon_Invert l = Some (rev l) /\ Length_Polygon (rev l) = Some L.
Proof.
  intros l. exists (total dist l). split; [apply length_total|]. split; auto. split; [|split; [|split]].
  - assert (K : forall l1 l2 a b, 2 * dist a b <= total dist (l1 ++ a :: l2) \/ ~ In b l2).
    { intros l1 l2 a b. destruct (in_dec (fun x y : pt => ltac:(decide equality; apply Req_EM_T)) b l2) as [I|]; [left|auto]. apply in_split in I. destruct I as (m1 & m2 & ->). rewrite total_rot. replace ((a :: m1 ++ b :: m2) ++ l1) with (a :: m1 ++ b :: (m2 ++ l1)) by (cbn [app]; rewrite <- app_assoc; reflexivity). generalize (m2 ++ l1). intros n.
      assert (EE : edges (a :: m1 ++ b :: n) = combine (a :: m1) (m1 ++ [b]) ++ combine (b :: n) (n ++ [a])). { rewrite <- combine_app by (rewrite app_length; cbn [length]; lia). unfold edges. cbn [tl firstn]. f_equal. rewrite <- !app_assoc. reflexivity. }
      unfold total. rewrite EE. rewrite map_app, sum_app. assert (P1 := path_length m1 a b). assert (P2 := path_length n b a). rewrite (dist_sym b a) in P2. lra. }
    intros a b A B. destruct (in_split _ _ A) as (l1 & l2 & E). rewrite E in B. apply in_app_iff in B. destruct B as [B|[->|B]].
    + destruct (in_split _ _ B) as (m1 & m2 & E2). subst l1. destruct (K m1 (m2 ++ a :: l2) b a) as [H|H]; [|exfalso; apply H; apply in_app_iff; right; left; auto]. rewrite E. rewrite dist_sym. rewrite <- app_assoc. exact H.
    + unfold dist at 1. rewrite !Rminus_eq_0, Rmult_0_l, Rplus_0_l, sqrt_0. rewrite Rmult_0_r. unfold total, sum. induction (edges l) as [|e es IH]; cbn [map fold_right]; [lra|]. assert (P := dist_pos (fst e) (snd e)). lra.
    + destruct (K l1 l2 a b) as [H|H]; [|contradiction]. rewrite E. exact H.
  - intros l1 l2 ->. rewrite length_total, total_rot. auto.
  - unfold Polygon_Invert. assert (W : wp (ford (length l) 0 (fun ip1 res => let ip := (ip1 - 1)%nat in p <- vget l ip ;; Some (res ++ [p])) []) (fun r => r = rev l)).
    { apply wp_ford with (I := fun i r => r = rev (skipn i l)).
      - lia.
      - rewrite skipn_all. auto.
      - intros i r I ->. cbv zeta. rewrite vget_in by lia. cbn [bind]. apply wp_some. rewrite (TopoProofs1.skipn_cons _ (0, 0) l (i - 1)) by lia. replace (S (i - 1)) with i by lia. reflexivity.
      - intros r ->. auto. }
    apply wp_iff in W. destruct W as (x & E & ->). exact E.
  - rewrite length_total, total_rev. f_equal. apply total_ext. intros. apply dist_sym.
Qed.
Example C50_example : exists cg area, CgArea_Polygon [(0, 0); (4, 0); (4, 2); (0, 2)] = Some (cg, area) /\ area = 8.
Proof.
  unfold CgArea_Polygon. rewrite cg_loop. cbn [bind]. assert (E : total cr [(0, 0); (4, 0); (4, 2); (0, 2)] = 16) by (unfold total, sum, edges, cr; cbn [tl firstn app combine map fold_right fst snd]; ring). rewrite E, !div_some by lra. cbn [bind]. do 2 eexists. split; [reflexivity|]. field.
Qed.
(** A rectangle that is not a square takes the branch that writes I1 and I2. *)
Example C50_second_example : forall i1 i2, exists cg area pa1 pa2, SecondMomentOfArea_Polygon i1 i2 [(0, 0); (4, 0); (4, 2); (0, 2)] = Some (cg, area, pa1, 32 / 3, pa2, 8 / 3).
Proof.
  intros i1 i2. unfold SecondMomentOfArea_Polygon. rewrite cg_loop. cbn [bind]. assert (E : total cr [(0, 0); (4, 0); (4, 2); (0, 2)] = 16) by (unfold total, sum, edges, cr; cbn [tl firstn app combine map fold_right fst snd]; ring).
  assert (EX : total (fun a b => cr a b * (fst a + fst b) / 3) [(0, 0); (4, 0); (4, 2); (0, 2)] = 32) by (unfold total, sum, edges, cr; cbn [tl firstn app combine map fold_right fst snd]; field). assert (EY : total (fun a b => cr a b * (snd a + snd b) / 3) [(0, 0); (4, 0); (4, 2); (0, 2)] = 16) by (unfold total, sum, edges, cr; cbn [tl firstn app combine map fold_right fst snd]; field).
  rewrite E, EX, EY, !div_some by lra. cbn [bind]. replace (32 / 16) with 2 by field. replace (16 / 16) with 1 by field.
  unfold forn. cbn [length Nat.sub forn_ vget nth_error Nat.modulo Nat.divmod Nat.add fst snd bind].
  match goal with |- context [Rabs (?a - ?b) + Rabs ?c] => replace a with (8 / 3) by field; replace b with (32 / 3) by field; replace c with 0 by field end.
  replace (8 / 3 - 32 / 3) with (- 8) by field. rewrite Rabs_R0. rewrite (Rabs_left (-8)) by lra. assert (T := ltR_spec (- - 8 + 0) (1 / 10 ^ 20)). destruct (ltR _ _).
  - exfalso. assert (1 / 10 ^ 20 <= 1); [|lra]. apply Rmult_le_reg_r with (10 ^ 20); [apply pow_lt; lra|]. unfold Rdiv. rewrite Rmult_assoc, Rinv_l by (apply pow_nonzero; lra). assert (1 <= 10 ^ 20) by (apply pow_R1_Rle; lra). lra.
  - do 4 eexists. replace (sqrt (- 8 * - 8 + 4 * 0 * 0)) with 8 by (replace (- 8 * - 8 + 4 * 0 * 0) with (8 * 8) by ring; rewrite sqrt_square; lra). replace (/ 2 * (8 / 3 + 32 / 3) + / 2 * 8) with (32 / 3) by field. replace (/ 2 * (8 / 3 + 32 / 3) - / 2 * 8) with (8 / 3) by field. reflexivity.
Qed.
Print Assumptions C50_CgArea.
Print Assumptions C50_CgArea_symmetries.
Print Assumptions C50_Polar.
Print Assumptions C50_SecondMoment.
Print Assumptions C50_SecondMoment_square_refuted.
Print Assumptions C50_Length.
