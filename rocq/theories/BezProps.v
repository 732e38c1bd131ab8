(** C48: Bezier curves of degree 2 and 3. *)
From Coquelicot Require Import Coquelicot.
From Coq Require Import Reals Lra Lia List Arith Bool.
Import ListNotations.
From Verif Require Import Imp PrModel BezModel BezSpec BezProofs BezProofs2.
Open Scope R_scope.

(** An affine map of vectors, given by a matrix with d columns and a translation. *)
Definition affine (d : nat) (M : nat -> nat -> R) (b : vec) (x : vec) : vec := fun j => sumR d (fun i => M j i * x i) + b j.

Theorem C48_Cubic : forall p1 p2 p3 p4 : vec,
  (forall t i, PointOnCubicBezierCurve t p1 p2 p3 p4 i = casteljau3 t (p1 i) (p2 i) (p3 i) (p4 i)) /\
  (forall i, PointOnCubicBezierCurve 0 p1 p2 p3 p4 i = p1 i /\ PointOnCubicBezierCurve 1 p1 p2 p3 p4 i = p4 i) /\
  (forall t, 0 <= t <= 1 -> exists w, convex w /\ length w = 4%nat /\ forall i, PointOnCubicBezierCurve t p1 p2 p3 p4 i = combination w [p1 i; p2 i; p3 i; p4 i]) /\
  (forall d M b t j, PointOnCubicBezierCurve t (affine d M b p1) (affine d M b p2) (affine d M b p3) (affine d M b p4) j = affine d M b (PointOnCubicBezierCurve t p1 p2 p3 p4) j) /\
  (forall i, derivative (fun t => PointOnCubicBezierCurve t p1 p2 p3 p4 i) (fun t => Tangent_CubicBezierCurve t p1 p2 p3 p4 i)).
Proof.
  intros p1 p2 p3 p4. split; [|split; [|split; [|split]]].
  - intros t i. unfold PointOnCubicBezierCurve, casteljau3, casteljau2, lerp. ring.
  - intros i. unfold PointOnCubicBezierCurve. split; ring.
  - intros t T. exists [(1 - t) * (1 - t) * (1 - t); 3 * t * (1 - t) * (1 - t); 3 * t * t * (1 - t); t * t * t]. split; [|split; [reflexivity|]].
    + split; [|cbn [fold_right]; ring]. repeat (apply Forall_cons; [repeat apply Rmult_le_pos; lra|]). apply Forall_nil.
    + intros i. unfold PointOnCubicBezierCurve, combination. cbn [combine map fold_right]. ring.
  - intros d M b t j. unfold PointOnCubicBezierCurve, affine. cbv zeta.
    transitivity (t * t * t * sumR d (fun i => M j i * p4 i) + 3 * t * t * (1 - t) * sumR d (fun i => M j i * p3 i) + 3 * t * (1 - t) * (1 - t) * sumR d (fun i => M j i * p2 i) + (1 - t) * (1 - t) * (1 - t) * sumR d (fun i => M j i * p1 i) + b j); [ring|]. f_equal. induction d as [|d IH]; cbn [sumR]; [ring|]. rewrite <- IH. ring.
  - intros i t. apply is_derive_Reals. unfold PointOnCubicBezierCurve, Tangent_CubicBezierCurve. auto_derive; [auto|ring].
Qed.
Theorem C48_Quadratic : forall p1 p2 p3 : vec,
  (forall t i, PointOnQuadraticBezierCurve t p1 p2 p3 i = casteljau2 t (p1 i) (p2 i) (p3 i)) /\
  (forall i, PointOnQuadraticBezierCurve 0 p1 p2 p3 i = p1 i /\ PointOnQuadraticBezierCurve 1 p1 p2 p3 i = p3 i) /\
  (forall t, 0 <= t <= 1 -> exists w, convex w /\ length w = 3%nat /\ forall i, PointOnQuadraticBezierCurve t p1 p2 p3 i = combination w [p1 i; p2 i; p3 i]) /\
  (forall d M b t j, PointOnQuadraticBezierCurve t (affine d M b p1) (affine d M b p2) (affine d M b p3) j = affine d M b (PointOnQuadraticBezierCurve t p1 p2 p3) j).
Proof.
  intros p1 p2 p3. split; [|split; [|split]].
  - intros t i. unfold PointOnQuadraticBezierCurve, casteljau2, lerp. ring.
  - intros i. unfold PointOnQuadraticBezierCurve. split; ring.
  - intros t T. exists [(1 - t) * (1 - t); 2 * t * (1 - t); t * t]. split; [|split; [reflexivity|]].
    + split; [|cbn [fold_right]; ring]. repeat (apply Forall_cons; [repeat apply Rmult_le_pos; lra|]). apply Forall_nil.
    + intros i. unfold PointOnQuadraticBezierCurve, combination. cbn [combine map fold_right]. ring.
  - intros d M b t j. unfold PointOnQuadraticBezierCurve, affine. cbv zeta.
    transitivity (t * t * sumR d (fun i => M j i * p3 i) + 2 * t * (1 - t) * sumR d (fun i => M j i * p2 i) + (1 - t) * (1 - t) * sumR d (fun i => M j i * p1 i) + b j); [ring|]. f_equal. induction d as [|d IH]; cbn [sumR]; [ring|]. rewrite <- IH. ring.
Qed.

(** Splitting at t gives the control points of the curve over [0, t] and over [t, 1]. *)
Theorem C48_Split :
  (forall p0 p1 p2 p3 t, exists a0 a1 a2 a3 b0 b1 b2 b3, Split_CubicBezierCurve p0 p1 p2 p3 t = [a0; a1; a2; a3; b0; b1; b2; b3] /\
     forall s i, PointOnCubicBezierCurve s a0 a1 a2 a3 i = PointOnCubicBezierCurve (s * t) p0 p1 p2 p3 i /\ PointOnCubicBezierCurve s b0 b1 b2 b3 i = PointOnCubicBezierCurve (t + s * (1 - t)) p0 p1 p2 p3 i) /\
  (forall p0 p1 p2 t, exists a0 a1 a2 b0 b1 b2, Split_QuadraticBezierCurve p0 p1 p2 t = [a0; a1; a2; b0; b1; b2] /\
     forall s i, PointOnQuadraticBezierCurve s a0 a1 a2 i = PointOnQuadraticBezierCurve (s * t) p0 p1 p2 i /\ PointOnQuadraticBezierCurve s b0 b1 b2 i = PointOnQuadraticBezierCurve (t + s * (1 - t)) p0 p1 p2 i).
Proof.
  split; intros; unfold Split_CubicBezierCurve, Split_QuadraticBezierCurve; repeat eexists; unfold PointOnCubicBezierCurve, PointOnQuadraticBezierCurve; ring.
Qed.

(** Polylines with n >= 2 vertices: sampled at equal parameters, from end point to end point; n = 1 divides 0 by 0. *)
Lemma forn_div : forall (P : R -> vec) n m, m <> 0 -> exists aP, forn 0 n (fun i aP => t <- div (INR i) m ;; vset aP i (P t)) (repeat (fun _ => 0) n) = Some aP /\ length aP = n /\ forall i, (i < n)%nat -> nth i aP (fun _ => 0) = P (INR i / m).
Proof.
  intros P n m M. apply wp_ex. apply wp_forn with (I := fun k aP => length aP = n /\ forall i, (i < k)%nat -> nth i aP (fun _ => 0) = P (INR i / m)).
  - lia.
  - split; [apply repeat_length|]. intros. lia.
  - intros k aP K (L & H). unfold div. assert (E := eqR_spec m 0). destruct (eqR m 0); [contradiction|]. cbn [bind]. unfold vec in *. apply wp_vset; [lia|]. split; [rewrite upd_length; auto|]. intros i I. destruct (Nat.eq_dec i k) as [->|N]; [rewrite nth_upd_same; auto; lia|rewrite nth_upd_other by auto; apply H; lia].
  - auto.
Qed.
Theorem C48_Polyline : forall n, (2 <= n)%nat ->
  (forall p1 p2 p3 p4, exists aP, Polyline_BezierCubic n p1 p2 p3 p4 = Some aP /\ length aP = n /\ (forall i, (i < n)%nat -> nth i aP (fun _ => 0) = PointOnCubicBezierCurve (INR i / INR (n - 1)) p1 p2 p3 p4) /\
     forall j, nth 0 aP (fun _ => 0) j = p1 j /\ nth (n - 1) aP (fun _ => 0) j = p4 j) /\
  (forall p1 p2 p3, exists aP, Polyline_BezierQuadratic n p1 p2 p3 = Some aP /\ length aP = n /\ (forall i, (i < n)%nat -> nth i aP (fun _ => 0) = PointOnQuadraticBezierCurve (INR i / INR (n - 1)) p1 p2 p3) /\
     forall j, nth 0 aP (fun _ => 0) j = p1 j /\ nth (n - 1) aP (fun _ => 0) j = p3 j).
Proof.
  intros n N. assert (NZ : INR (n - 1) <> 0) by (apply not_0_INR; lia). assert (E1 : INR n - 1 = INR (n - 1)) by (rewrite minus_INR by lia; cbn; ring).
  split; intros.
  - unfold Polyline_BezierCubic. destruct (forn_div (fun t => PointOnCubicBezierCurve t p1 p2 p3 p4) n (INR (n - 1)) NZ) as (aP & E & L & H). exists aP. split; auto. split; auto. split; auto. intros j. rewrite (H 0%nat), (H (n - 1)%nat) by lia. replace (INR (n - 1) / INR (n - 1)) with 1 by (field; auto). replace (INR 0 / INR (n - 1)) with 0 by (cbn [INR]; field; auto). destruct (C48_Cubic p1 p2 p3 p4) as (_ & K & _). apply K.
  - unfold Polyline_BezierQuadratic. rewrite E1. destruct (forn_div (fun t => PointOnQuadraticBezierCurve t p1 p2 p3) n (INR (n - 1)) NZ) as (aP & E & L & H). exists aP. split; auto. split; auto. split; auto. intros j. rewrite (H 0%nat), (H (n - 1)%nat) by lia. replace (INR (n - 1) / INR (n - 1)) with 1 by (field; auto). replace (INR 0 / INR (n - 1)) with 0 by (cbn [INR]; field; auto). destruct (C48_Quadratic p1 p2 p3) as (_ & K & _). apply K.
Qed.
Theorem C48_Polyline_single_refuted : forall p1 p2 p3 p4, Polyline_BezierCubic 1 p1 p2 p3 p4 = None /\ Polyline_BezierQuadratic 1 p1 p2 p3 = None.
Proof.
  intros. unfold Polyline_BezierCubic, Polyline_BezierQuadratic, forn. cbn [Nat.sub forn_ INR]. unfold div. split; [assert (E := eqR_spec 0 0); destruct (eqR 0 0); [reflexivity|lra]|assert (E := eqR_spec (1 - 1) 0); destruct (eqR (1 - 1) 0); [reflexivity|lra]].
Qed.

(** The area functions return the integral of (x y' - y x') / 2 along the curve, i.e. the signed area swept from the origin. *)
Theorem C48_Area :
  (forall p0 p1 p2 p3 x' y', derivative (fun t => PointOnCubicBezierCurve t p0 p1 p2 p3 0%nat) x' -> derivative (fun t => PointOnCubicBezierCurve t p0 p1 p2 p3 1%nat) y' ->
     integral01 (fun t => (PointOnCubicBezierCurve t p0 p1 p2 p3 0%nat * y' t - PointOnCubicBezierCurve t p0 p1 p2 p3 1%nat * x' t) / 2) (Area_CubicBezierCurve2 p0 p1 p2 p3)) /\
  (forall p0 p1 p2 x' y', derivative (fun t => PointOnQuadraticBezierCurve t p0 p1 p2 0%nat) x' -> derivative (fun t => PointOnQuadraticBezierCurve t p0 p1 p2 1%nat) y' ->
     integral01 (fun t => (PointOnQuadraticBezierCurve t p0 p1 p2 0%nat * y' t - PointOnQuadraticBezierCurve t p0 p1 p2 1%nat * x' t) / 2) (Area_QuadraticBezierCurve2 p0 p1 p2)).
Proof.
  assert (POLY : forall e0 e1 e2 e3 e4, integral01 (fun t => e0 + t * (e1 + t * (e2 + t * (e3 + t * e4)))) (e0 + e1 / 2 + e2 / 3 + e3 / 4 + e4 / 5)).
  { intros. set (F := fun t : R => t * (e0 + t * (e1 / 2 + t * (e2 / 3 + t * (e3 / 4 + t * (e4 / 5)))))). replace (e0 + e1 / 2 + e2 / 3 + e3 / 4 + e4 / 5) with (F 1 - F 0) by (unfold F; field). apply integral_of. intros t. apply is_derive_Reals. unfold F. auto_derive; [auto|field]. }
  split.
  - intros p0 p1 p2 p3 x' y' DX DY. assert (DC : forall i, derivative (fun t => PointOnCubicBezierCurve t p0 p1 p2 p3 i) (fun t => Tangent_CubicBezierCurve t p0 p1 p2 p3 i)) by apply C48_Cubic. assert (EX := der_unique _ _ _ DX (DC 0%nat)). assert (EY := der_unique _ _ _ DY (DC 1%nat)).
    set (X := fun k : nat => match k with 0%nat => p0 0%nat | 1%nat => -3 * p0 0%nat + 3 * p1 0%nat | 2%nat => 3 * p0 0%nat - 6 * p1 0%nat + 3 * p2 0%nat | _ => - p0 0%nat + 3 * p1 0%nat - 3 * p2 0%nat + p3 0%nat end).
    set (Y := fun k : nat => match k with 0%nat => p0 1%nat | 1%nat => -3 * p0 1%nat + 3 * p1 1%nat | 2%nat => 3 * p0 1%nat - 6 * p1 1%nat + 3 * p2 1%nat | _ => - p0 1%nat + 3 * p1 1%nat - 3 * p2 1%nat + p3 1%nat end).
    set (m := fun i j : nat => X i * Y j - X j * Y i).
    apply integral_ext with (f := fun t => m 0%nat 1%nat / 2 + t * (m 0%nat 2%nat + t * ((3 * m 0%nat 3%nat + m 1%nat 2%nat) / 2 + t * (m 1%nat 3%nat + t * (m 2%nat 3%nat / 2))))).
    + intros t. rewrite EX, EY. unfold m, X, Y, Tangent_CubicBezierCurve, PointOnCubicBezierCurve. field.
    + replace (Area_CubicBezierCurve2 p0 p1 p2 p3) with (m 0%nat 1%nat / 2 + m 0%nat 2%nat / 2 + (3 * m 0%nat 3%nat + m 1%nat 2%nat) / 2 / 3 + m 1%nat 3%nat / 4 + m 2%nat 3%nat / 2 / 5) by (unfold m, X, Y, Area_CubicBezierCurve2; field). apply POLY.
  - intros p0 p1 p2 x' y' DX DY.
    assert (DC : forall i, derivative (fun t => PointOnQuadraticBezierCurve t p0 p1 p2 i) (fun t => (-2 * p0 i + 2 * p1 i) + t * (2 * (p0 i - 2 * p1 i + p2 i)))) by (intros i t; apply is_derive_Reals; unfold PointOnQuadraticBezierCurve; auto_derive; [auto|ring]).
    assert (EX := der_unique _ _ _ DX (DC 0%nat)). assert (EY := der_unique _ _ _ DY (DC 1%nat)).
    set (X := fun k : nat => match k with 0%nat => p0 0%nat | 1%nat => -2 * p0 0%nat + 2 * p1 0%nat | _ => p0 0%nat - 2 * p1 0%nat + p2 0%nat end).
    set (Y := fun k : nat => match k with 0%nat => p0 1%nat | 1%nat => -2 * p0 1%nat + 2 * p1 1%nat | _ => p0 1%nat - 2 * p1 1%nat + p2 1%nat end).
    set (m := fun i j : nat => X i * Y j - X j * Y i).
    apply integral_ext with (f := fun t => m 0%nat 1%nat / 2 + t * (m 0%nat 2%nat + t * (m 1%nat 2%nat / 2 + t * (0 + t * 0)))).
    + intros t. rewrite EX, EY. unfold m, X, Y, PointOnQuadraticBezierCurve. field.
    + replace (Area_QuadraticBezierCurve2 p0 p1 p2) with (m 0%nat 1%nat / 2 + m 0%nat 2%nat / 2 + m 1%nat 2%nat / 2 / 3 + 0 / 4 + 0 / 5) by (unfold m, X, Y, Area_QuadraticBezierCurve2; field). apply POLY.
Qed.

(** Boxes are exact in each coordinate, also where the code divides by zero or takes the root of a negative number. *)
Theorem C48_AABB :
  (forall sz p0 p1 p2 i, exists lo hi, AABB_QuadraticBezierCurve sz p0 p1 p2 i = (Fin lo, Fin hi) /\ range01 (fun t => PointOnQuadraticBezierCurve t p0 p1 p2 i) lo hi) /\
  (forall sz c b a i, exists lo hi, AABB_QuadraticCurve sz c b a i = (Fin lo, Fin hi) /\ range01 (fun t => c i + t * (b i + t * a i)) lo hi) /\
  (forall sz p0 p1 p2 p3 i, (let a := - p0 i + 3 * p1 i - 3 * p2 i + p3 i in a = 0 \/ 1 / 10 ^ 10 <= Rabs a) ->
     exists lo hi, AABB_CubicBezierCurve sz p0 p1 p2 p3 i = (Fin lo, Fin hi) /\ range01 (fun t => PointOnCubicBezierCurve t p0 p1 p2 p3 i) lo hi).
Proof.
  split; [|split; [exact aabb2_ok|exact aabb3_ok]]. intros sz p0 p1 p2 i. unfold AABB_QuadraticBezierCurve. destruct (aabb2_ok sz p0 (fun i => -2 * p0 i + 2 * p1 i) (fun i => p0 i - 2 * p1 i + p2 i) i) as (lo & hi & E & RG). exists lo, hi. split; [exact E|]. eapply range_ext; [|exact RG]. intros t. cbv beta. unfold PointOnQuadraticBezierCurve. ring.
Qed.
(** A curve with a small cubic coefficient can leave its box: e t (t - 1/2) (t - 1) with e = 1e-11 gets a box without negative numbers. *)
Theorem C48_AABB_tiny_refuted : let e := 1 / 10 ^ 11 in forall sz,
  exists p0 p1 p2 p3 : vec, (forall t i, PointOnCubicBezierCurve t p0 p1 p2 p3 i = e * t * (t - 1 / 2) * (t - 1)) /\
  exists lo hi, AABB_CubicBezierCurve sz p0 p1 p2 p3 0 = (Fin lo, Fin hi) /\ lo = 0 /\ PointOnCubicBezierCurve (3 / 4) p0 p1 p2 p3 0%nat < lo.
Proof.
  intros e sz. exists (fun _ => 0), (fun _ => e / 6), (fun _ => - e / 6), (fun _ => 0). assert (P : forall t (i : nat), PointOnCubicBezierCurve t (fun _ => 0) (fun _ => e / 6) (fun _ => - e / 6) (fun _ => 0) i = e * t * (t - 1 / 2) * (t - 1)) by (intros; unfold PointOnCubicBezierCurve; field). split; auto.
  assert (EP : 0 < e) by (apply Rdiv_lt_0_compat; [lra|apply pow_lt; lra]). rewrite P. exists 0, (e * 5 / 108). split; [|split; [auto|nra]].
  unfold AABB_CubicBezierCurve. set (a := - 0 + 3 * (e / 6) - 3 * (- e / 6) + 0). set (b := 3 * 0 - 6 * (e / 6) + 3 * (- e / 6)). set (c := -3 * 0 + 3 * (e / 6)). assert (A : a = e) by (unfold a; field). assert (B : b = - 3 / 2 * e) by (unfold b; field). assert (C : c = e / 2) by (unfold c; field). clearbody a b c.
  assert (T := ltR_spec (Rabs a) (1 / 10 ^ 10)). destruct (ltR (Rabs a) (1 / 10 ^ 10)).
  2:{ exfalso. rewrite A, Rabs_pos_eq in T by lra. unfold e in T. lra. }
  cbv zeta. assert (R0 : clamp (fdiv sz c (-2 * b)) (Fin 0) (Fin 1) = Fin (1 / 6)).
  { unfold fdiv. assert (T1 := eqR_spec (-2 * b) 0). destruct (eqR _ 0); [exfalso; lra|]. replace (c / (-2 * b)) with (1 / 6) by (rewrite B, C; field; lra). unfold clamp. cbn [flt]. assert (T2 := ltR_spec (1 / 6) 0). destruct (ltR (1 / 6) 0); [lra|]. assert (T3 := ltR_spec 1 (1 / 6)). destruct (ltR 1 (1 / 6)); [lra|auto]. }
  rewrite R0. cbn [fmul fadd]. replace (0 + 1 / 6 * (c + 1 / 6 * (b + 1 / 6 * a))) with (e * 5 / 108) by (rewrite A, B, C; field). unfold fmin, fmax. cbn [fold_left flt]. assert (T4 := ltR_spec 0 0). destruct (ltR 0 0); [lra|]. cbn [flt]. assert (T5 := ltR_spec (e * 5 / 108) 0). destruct (ltR (e * 5 / 108) 0); [lra|]. assert (T6 := ltR_spec 0 (e * 5 / 108)). destruct (ltR 0 (e * 5 / 108)); [auto|lra].
Qed.

(** The nearest point functions return a parameter in [0, 1] that is at least as good as 0 and all samples, or NaN; NaN only if the squared distance has somewhere in [0, 1] both derivatives zero. *)
Definition dist2 (d : nat) (P : R -> vec) (q : vec) (t : R) : R := squaredNorm d (fun i => P t i - q i).
Lemma sqn_poly : forall d (v : R -> vec) f f' f'', (forall t i, v t i = f i t) -> (forall i, derivative (f i) (f' i)) -> (forall i, derivative (f' i) (f'' i)) ->
  derivative (fun t => squaredNorm d (v t)) (fun t => 2 * sumR d (fun i => f i t * f' i t)) /\ derivative (fun t => 2 * sumR d (fun i => f i t * f' i t)) (fun t => 2 * sumR d (fun i => f' i t * f' i t + f i t * f'' i t)).
Proof.
  intros d v f f' f'' E D1 D2. split.
  - apply (der_ext (fun t => sumR d (fun i => f i t * f i t)) _ (fun t => 2 * sumR d (fun i => f i t * f' i t))); [intros t; unfold squaredNorm, dot; apply sumR_ext; intros; rewrite !E; auto|auto|].
    intros t. induction d as [|d IH]; cbn [sumR]; [replace (2 * 0) with 0 by ring; apply derivable_pt_lim_const|]. replace (2 * (sumR d (fun i => f i t * f' i t) + f d t * f' d t)) with (2 * sumR d (fun i => f i t * f' i t) + (f' d t * f d t + f d t * f' d t)) by ring. apply (derivable_pt_lim_plus (fun t => sumR d (fun i => f i t * f i t)) (fun t => f d t * f d t)); auto. apply (derivable_pt_lim_mult (f d) (f d)); apply D1.
  - intros t. apply derivable_pt_lim_scal. induction d as [|d IH]; cbn [sumR]; [apply derivable_pt_lim_const|]. apply (derivable_pt_lim_plus (fun t => sumR d (fun i => f i t * f' i t)) (fun t => f d t * f' d t)); auto. apply (derivable_pt_lim_mult (f d) (f' d)); auto. apply D1. apply D2.
Qed.
Definition flat (f : R -> R) : Prop := exists f' f'' t, derivative f f' /\ derivative f' f'' /\ 0 <= t <= 1 /\ f' t = 0 /\ f'' t = 0.
Theorem C48_Nearest :
  (forall sz d q p0 p1 p2 ns ni, exists r, Nearest_QuadraticBezierCurve sz d q p0 p1 p2 ns ni = Some r /\
     match r with
     | Fin t => 0 <= t <= 1 /\ forall k, (k <= ns)%nat -> dist2 d (fun t => PointOnQuadraticBezierCurve t p0 p1 p2) q t <= dist2 d (fun t => PointOnQuadraticBezierCurve t p0 p1 p2) q (INR k / INR ns)
     | Inf _ => False
     | NaN => flat (dist2 d (fun t => PointOnQuadraticBezierCurve t p0 p1 p2) q)
     end) /\
  (forall sz d q p0 p1 p2 p3 ns ni, exists r, Nearest_CubicBezierCurve sz d q p0 p1 p2 p3 ns ni = Some r /\
     match r with
     | Fin t => 0 <= t <= 1 /\ forall k, (k <= ns)%nat -> dist2 d (fun t => PointOnCubicBezierCurve t p0 p1 p2 p3) q t <= dist2 d (fun t => PointOnCubicBezierCurve t p0 p1 p2 p3) q (INR k / INR ns)
     | Inf _ => False
     | NaN => flat (dist2 d (fun t => PointOnCubicBezierCurve t p0 p1 p2 p3) q)
     end).
Proof.
  assert (SQ : forall d u v, sqrt (squaredNorm d u) <= sqrt (squaredNorm d v) -> squaredNorm d u <= squaredNorm d v) by (intros d u v H; apply sqrt_le_0; auto; apply sumR_nonneg; intros; apply Rle_0_sqr).
  assert (K0 : forall (f : R -> R) t ns, f t <= f 0 -> (forall k, (1 <= k <= ns)%nat -> f t <= f (INR k / INR ns)) -> forall k, (k <= ns)%nat -> f t <= f (INR k / INR ns)).
  { intros f t ns A B k K. destruct k as [|k]; [|apply B; lia]. replace (INR 0 / INR ns) with 0; auto. cbn [INR]. unfold Rdiv. ring. }
  split.
  - intros sz d q p0 p1 p2 ns ni. unfold Nearest_QuadraticBezierCurve. cbv zeta. set (a := fun i : nat => p0 i - 2 * p1 i + p2 i). set (b := fun i : nat => -2 * p0 i + 2 * p1 i). set (c := fun i : nat => p0 i - q i).
    match goal with |- exists r, nearest ?sz ?ds ?dw ?ddw ?n1 ?n2 = _ /\ _ => destruct (nearest_ok sz ds dw ddw n1 n2) as (r & E & H) end.
    exists r. split; auto. set (f := dist2 d (fun t => PointOnQuadraticBezierCurve t p0 p1 p2) q).
    assert (FE : forall t, squaredNorm d (fun i => a i * (t * t) + b i * t + c i) = f t) by (intros t; unfold f, dist2, squaredNorm, dot; apply sumR_ext; intros i _; unfold a, b, c, PointOnQuadraticBezierCurve; ring).
    destruct r as [t| |]; [|exact H|].
    + destruct H as (H1 & H2 & H3). split; auto. apply K0; [rewrite <- !FE; apply SQ; exact H2|intros k K; rewrite <- !FE; apply SQ; apply (H3 k K)].
    + destruct H as (t & T & W1 & W2).
      destruct (sqn_poly d (fun t i => PointOnQuadraticBezierCurve t p0 p1 p2 i - q i) (fun i t => c i + t * (b i + t * (a i + t * 0))) (fun i t => b i + t * (2 * a i + t * (3 * 0))) (fun i t => 2 * a i + t * (2 * 0 + t * (3 * 0)))) as (D1 & D2).
      * intros s i. unfold a, b, c, PointOnQuadraticBezierCurve. ring.
      * intros i. apply der_cubic.
      * intros i. eapply der_ext; [| |apply (der_cubic (b i) (2 * a i) 0 0)]; intros s; cbv beta; ring.
      * do 2 eexists. exists t. split; [exact D1|]. split; [exact D2|]. split; auto. split.
        -- etransitivity; [|exact W1]. unfold squaredNorm, dot. clear. induction d as [|d IH]; cbn [sumR]; [ring|]. rewrite Rmult_plus_distr_l. rewrite IH. ring.
        -- etransitivity; [|exact W2]. unfold squaredNorm, dot. clear. induction d as [|d IH]; cbn [sumR]; [ring|]. rewrite Rmult_plus_distr_l. rewrite IH. ring.
  - intros sz d q p0 p1 p2 p3 ns ni. unfold Nearest_CubicBezierCurve. cbv zeta. set (a := fun i : nat => - p0 i + 3 * p1 i - 3 * p2 i + p3 i). set (b := fun i : nat => 3 * p0 i - 6 * p1 i + 3 * p2 i). set (c := fun i : nat => -3 * p0 i + 3 * p1 i). set (e := fun i : nat => p0 i - q i).
    match goal with |- exists r, nearest ?sz ?ds ?dw ?ddw ?n1 ?n2 = _ /\ _ => destruct (nearest_ok sz ds dw ddw n1 n2) as (r & E & H) end.
    exists r. split; auto. set (f := dist2 d (fun t => PointOnCubicBezierCurve t p0 p1 p2 p3) q).
    assert (FE : forall t, squaredNorm d (fun i => a i * (t * t * t) + b i * (t * t) + c i * t + e i) = f t) by (intros t; unfold f, dist2, squaredNorm, dot; apply sumR_ext; intros i _; unfold a, b, c, e, PointOnCubicBezierCurve; ring).
    destruct r as [t| |]; [|exact H|].
    + destruct H as (H1 & H2 & H3). split; auto. apply K0; [rewrite <- !FE; apply SQ; exact H2|intros k K; rewrite <- !FE; apply SQ; apply (H3 k K)].
    + destruct H as (t & T & W1 & W2).
      destruct (sqn_poly d (fun t i => PointOnCubicBezierCurve t p0 p1 p2 p3 i - q i) (fun i t => e i + t * (c i + t * (b i + t * a i))) (fun i t => c i + t * (2 * b i + t * (3 * a i))) (fun i t => 2 * b i + t * (2 * (3 * a i) + t * (3 * 0)))) as (D1 & D2).
      * intros s i. unfold a, b, c, e, PointOnCubicBezierCurve. ring.
      * intros i. apply der_cubic.
      * intros i. eapply der_ext; [| |apply (der_cubic (c i) (2 * b i) (3 * a i) 0)]; intros s; cbv beta; ring.
      * do 2 eexists. exists t. split; [exact D1|]. split; [exact D2|]. split; auto. split.
        -- etransitivity; [|exact W1]. unfold squaredNorm, dot. clear. induction d as [|d IH]; cbn [sumR]; [ring|]. rewrite Rmult_plus_distr_l. rewrite IH. ring.
        -- etransitivity; [|exact W2]. unfold squaredNorm, dot. clear. induction d as [|d IH]; cbn [sumR]; [ring|]. rewrite Rmult_plus_distr_l. rewrite IH. ring.
Qed.
(** NaN is returned for a curve that is a single point. *)
Theorem C48_Nearest_point_refuted : forall sz d q p ns ni, Nearest_QuadraticBezierCurve sz d q p p p ns (S ni) = Some NaN /\ Nearest_CubicBezierCurve sz d q p p p p ns (S ni) = Some NaN.
Proof.
  intros sz d q p ns ni. unfold Nearest_QuadraticBezierCurve, Nearest_CubicBezierCurve, squaredNorm, dot.
  assert (Z1 : forall f g : vec, (forall i, f i = 0) -> sumR d (fun i => f i * g i) = 0) by (intros f g H; rewrite (sumR_ext d _ (fun _ => 0)); [apply sumR_0|]; intros; rewrite H; ring).
  split; apply nearest_nan; intros t.
  - rewrite !(Z1 (fun i => p i - 2 * p i + p i)), !(Z1 (fun i => -2 * p i + 2 * p i)) by (intros; ring). ring.
  - rewrite !(Z1 (fun i => p i - 2 * p i + p i)), !(Z1 (fun i => -2 * p i + 2 * p i)) by (intros; ring). ring.
  - rewrite !(Z1 (fun i => - p i + 3 * p i - 3 * p i + p i)), !(Z1 (fun i => 3 * p i - 6 * p i + 3 * p i)), !(Z1 (fun i => -3 * p i + 3 * p i)) by (intros; ring). ring.
  - rewrite !(Z1 (fun i => - p i + 3 * p i - 3 * p i + p i)), !(Z1 (fun i => 3 * p i - 6 * p i + 3 * p i)), !(Z1 (fun i => -3 * p i + 3 * p i)) by (intros; ring). ring.
Qed.

(** The closed form of the length is the integral of the speed if the two coefficient vectors are linearly independent. *)
Theorem C48_Length : forall d q1 q2, (forall x y, (forall i, (i < d)%nat -> x * q1 i + y * q2 i = 0) -> x = 0 /\ y = 0) -> 1 / 10 ^ 5 <= squaredNorm d q2 ->
  exists l, Length_QuadraticCurve d q1 q2 = Some (Fin l) /\ integral01 (fun t => norm d (fun i => q1 i + 2 * t * q2 i)) l.
Proof.
  intros d q1 q2 LI P. unfold Length_QuadraticCurve. assert (T := ltR_spec (squaredNorm d q2) (1 / 10 ^ 5)). destruct (ltR _ _); [lra|]. assert (P0 : 0 < squaredNorm d q2) by (assert (0 < 1 / 10 ^ 5) by (apply Rdiv_lt_0_compat; [lra|apply pow_lt; lra]); lra).
  assert (CS := strict_cs d q1 q2 LI P0). assert (SP : forall t, norm d (fun i => q1 i + 2 * t * q2 i) = sqrt (squaredNorm d q1 + t * (4 * dot d q1 q2 + 4 * squaredNorm d q2 * t))). { intros t. unfold norm. f_equal. assert (E := dot_expand d q1 q2 1 (2 * t)). transitivity (squaredNorm d (fun i => 1 * q1 i + 2 * t * q2 i)); [unfold squaredNorm, dot; apply sumR_ext; intros; ring|]. rewrite E. ring. }
  set (c0 := squaredNorm d q1) in *. set (c1 := 4 * dot d q1 q2) in *. set (c2 := 4 * squaredNorm d q2) in *.
  assert (DC : c1 * c1 - 4 * c0 * c2 < 0) by (unfold c1, c2; nra). assert (C2 : 0 < c2) by (unfold c2; lra). clearbody c0 c1 c2. destruct (antiderivative c0 c1 c2 C2 DC) as (QP & LP & AD). cbv zeta.
  assert (FL : forall t, flog (c1 + 2 * c2 * t + 2 * sqrt c2 * sqrt (c0 + t * (c1 + c2 * t))) = Fin (ln (c1 + 2 * c2 * t + 2 * sqrt c2 * sqrt (c0 + t * (c1 + c2 * t))))). { intros t. specialize (LP t). set (z := c1 + 2 * c2 * t + 2 * sqrt c2 * sqrt (c0 + t * (c1 + c2 * t))) in *. unfold flog. assert (T1 := ltR_spec z 0). destruct (ltR z 0); [lra|]. assert (T2 := eqR_spec z 0). destruct (eqR z 0); [lra|auto]. }
  rewrite !FL. cbn [fmul fneg fadd]. eexists. split; [reflexivity|]. apply (integral_ext (fun t => sqrt (c0 + t * (c1 + c2 * t)))); [intros; rewrite SP; auto|]. apply (integral_of _ _ AD).
Qed.
(** It is NaN on the straight curve 3 t - t^2 (control points 0, 3/2, 2), whose length is 2. *)
Theorem C48_Length_line_refuted : let x0 := fun _ : nat => 0 in let x1 := fun i : nat => match i with 0%nat => 3 / 2 | _ => 0 end in let x2 := fun i : nat => match i with 0%nat => 2 | _ => 0 end in
  Length_QuadraticBezierCurve_Analytic 2 x0 x1 x2 = Some NaN /\ integral01 (fun t => 3 - 2 * t) 2 /\ (forall t, 0 <= t <= 1 -> norm 2 (fun i => (-2 * x0 i + 2 * x1 i) + 2 * t * (x0 i - 2 * x1 i + x2 i)) = 3 - 2 * t).
Proof.
  cbv zeta. split; [|split].
  - unfold Length_QuadraticBezierCurve_Analytic, Length_QuadraticCurve, squaredNorm, dot. cbn [sumR].
    replace (0 + (0 - 2 * (3 / 2) + 2) * (0 - 2 * (3 / 2) + 2) + (0 - 2 * 0 + 0) * (0 - 2 * 0 + 0)) with 1 by field. replace (0 + (-2 * 0 + 2 * (3 / 2)) * (-2 * 0 + 2 * (3 / 2)) + (-2 * 0 + 2 * 0) * (-2 * 0 + 2 * 0)) with 9 by field. replace (0 + (-2 * 0 + 2 * (3 / 2)) * (0 - 2 * (3 / 2) + 2) + (-2 * 0 + 2 * 0) * (0 - 2 * 0 + 0)) with (-3) by field.
    assert (T := ltR_spec 1 (1 / 10 ^ 5)). destruct (ltR 1 (1 / 10 ^ 5)); [lra|]. clear T. cbv zeta. replace (4 * 1) with 4 by ring. replace (4 * -3) with (-12) by ring. replace (9 + 0 * (-12 + 4 * 0)) with (3 * 3) by ring. replace (9 + 1 * (-12 + 4 * 1)) with (1 * 1) by ring. replace 4 with (2 * 2) at 3 8 by ring.
    replace (sqrt 4) with 2 by (replace 4 with (2 * 2) by ring; rewrite sqrt_square; lra). rewrite !sqrt_square by lra.
    replace (-12 + 2 * 4 * 0 + 2 * 2 * 3) with 0 by ring. replace (-12 + 2 * 4 * 1 + 2 * 2 * 1) with 0 by ring. replace (-12 * -12 - 4 * 9 * 4) with 0 by ring. unfold flog. assert (T := ltR_spec 0 0). destruct (ltR 0 0); [lra|]. clear T. assert (T := eqR_spec 0 0). destruct (eqR 0 0); [|lra]. cbn [fmul]. assert (T2 := eqR_spec 0 0). destruct (eqR 0 0); [|lra]. reflexivity.
  - assert (V : (fun t => 3 * t - t * t) 1 - (fun t => 3 * t - t * t) 0 = 2) by (cbv beta; ring). assert (D : derivative (fun t => 3 * t - t * t) (fun t => 3 - 2 * t)); [|apply integral_of in D; rewrite V in D; exact D]. intros t. apply is_derive_Reals. auto_derive; [auto|ring].
  - intros t T. unfold norm, squaredNorm, dot. cbn [sumR]. match goal with |- sqrt ?x = _ => replace x with ((3 - 2 * t) * (3 - 2 * t)) by field end. apply sqrt_square. lra.
Qed.

Example C48_length_example : let q1 := fun i : nat => match i with 0%nat => 1 | _ => 0 end in let q2 := fun i : nat => match i with 1%nat => 1 | _ => 0 end in (forall x y, (forall i, (i < 2)%nat -> x * q1 i + y * q2 i = 0) -> x = 0 /\ y = 0) /\ 1 / 10 ^ 5 <= squaredNorm 2 q2.
Proof. cbv zeta. split; [|unfold squaredNorm, dot; cbn [sumR]; lra]. intros x y H. assert (A := H 0%nat ltac:(lia)). assert (B := H 1%nat ltac:(lia)). cbv beta iota in *. split; lra. Qed.
Example C48_aabb_example : let p := fun a : R => fun _ : nat => a in forall sz, exists lo hi, AABB_CubicBezierCurve sz (p 0) (p 1) (p (-1)) (p 0) 0 = (Fin lo, Fin hi) /\ lo < 0 < hi.
Proof.
  intros p sz. destruct (proj2 (proj2 C48_AABB) sz (p 0) (p 1) (p (-1)) (p 0) 0%nat) as (lo & hi & E & RG & _). { right. unfold p. cbv beta zeta. replace (- 0 + 3 * 1 - 3 * -1 + 0) with 6 by ring. rewrite Rabs_pos_eq; lra. }
  exists lo, hi. split; auto. assert (A := RG (1 / 4) ltac:(lra)). assert (B := RG (3 / 4) ltac:(lra)). unfold PointOnCubicBezierCurve, p in *. lra.
Qed.

Print Assumptions C48_Cubic.
Print Assumptions C48_Quadratic.
Print Assumptions C48_Split.
Print Assumptions C48_Polyline.
Print Assumptions C48_Polyline_single_refuted.
Print Assumptions C48_Area.
Print Assumptions C48_AABB.
Print Assumptions C48_AABB_tiny_refuted.
Print Assumptions C48_Nearest.
Print Assumptions C48_Nearest_point_refuted.
Print Assumptions C48_Length.
Print Assumptions C48_Length_line_refuted.
