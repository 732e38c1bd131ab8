(** Delaunay flips: the geometry. *)
From Coq Require Import List Arith Lia Bool Reals Lra Psatz.
From Verif Require Import Imp PrModel PolyModel DtriModel DelaModel DelaSpec.
Open Scope R_scope.

Lemma ltRs : forall a b, if ltR a b then a < b else b <= a. Proof. intros. unfold ltR. destruct (Rlt_dec a b); lra. Qed.
Lemma pten_pos : forall n, 0 < pten n. Proof. intros. apply Rinv_0_lt_compat, pow_lt. lra. Qed.
Lemma pten_lt1 : forall n, (0 < n)%nat -> pten n < 1.
Proof.
  intros n Hn. unfold pten. rewrite <- Rinv_1. apply Rinv_lt_contravar. { rewrite Rmult_1_l. apply pow_lt. lra. }
  apply Rlt_pow_R1; auto. lra.
Qed.

Definition center (p0 p1 p2 : pt) : pt :=
  let area := Area_Tri2 p0 p1 p2 in
  let tmp_val := 1 / (area * area * 16) in
  let dtmp0 := SquareDistance p1 p2 in
  let dtmp1 := SquareDistance p0 p2 in
  let dtmp2 := SquareDistance p0 p1 in
  let etmp0 := tmp_val * dtmp0 * (dtmp1 + dtmp2 - dtmp0) in
  let etmp1 := tmp_val * dtmp1 * (dtmp0 + dtmp2 - dtmp1) in
  let etmp2 := tmp_val * dtmp2 * (dtmp0 + dtmp1 - dtmp2) in
  (etmp0 * fst p0 + etmp1 * fst p1 + etmp2 * fst p2, etmp0 * snd p0 + etmp1 * snd p1 + etmp2 * snd p2).

Lemma center_eq : forall p0 p1 p2, Area_Tri2 p0 p1 p2 <> 0 ->
  SquareDistance (center p0 p1 p2) p1 = SquareDistance (center p0 p1 p2) p0 /\
  SquareDistance (center p0 p1 p2) p2 = SquareDistance (center p0 p1 p2) p0.
Proof.
  intros (x0, y0) (x1, y1) (x2, y2) H. unfold center, SquareDistance in *. unfold Area_Tri2 in *. cbn [fst snd] in *.
  set (a := x1 - x0) in *. set (b := y1 - y0) in *. set (c := x2 - x0) in *. set (d := y2 - y0) in *.
  replace x1 with (x0 + a) by (unfold a; ring). replace y1 with (y0 + b) by (unfold b; ring).
  replace x2 with (x0 + c) by (unfold c; ring). replace y2 with (y0 + d) by (unfold d; ring).
  clearbody a b c d. assert (K : a * d - c * b <> 0) by (intros K; apply H; rewrite K; lra).
  split; field; auto.
Qed.

Lemma DetDelaunay_eq : forall p0 p1 p2 p3, DetDelaunay p0 p1 p2 p3 =
  if ltR (Rabs (Area_Tri2 p0 p1 p2)) (pten 10) then 3%nat else
  if ltR (SquareDistance (center p0 p1 p2) p0 * (1 + pten 20)) (SquareDistance (center p0 p1 p2) p3) then 2%nat
  else if ltR (SquareDistance (center p0 p1 p2) p3) (SquareDistance (center p0 p1 p2) p0 * (1 - pten 20)) then 0%nat else 1%nat.
Proof. reflexivity. Qed.

Notation incircle := in_circle.
Lemma sd_pos : forall a b, 0 <= SquareDistance a b. Proof. intros. unfold SquareDistance. apply Rplus_le_le_0_compat; apply Rle_0_sqr. Qed.
Lemma det0_in : forall p0 p1 p2 p3, DetDelaunay p0 p1 p2 p3 = 0%nat -> incircle p0 p1 p2 p3.
Proof.
  intros p0 p1 p2 p3. rewrite DetDelaunay_eq. pose proof (ltRs (Rabs (Area_Tri2 p0 p1 p2)) (pten 10)) as H1. destruct (ltR (Rabs _) _); [discriminate|].
  assert (A : Area_Tri2 p0 p1 p2 <> 0). { intros E. rewrite E, Rabs_R0 in H1. pose proof (pten_pos 10). lra. }
  destruct (ltR _ (SquareDistance (center p0 p1 p2) p3)); [discriminate|].
  pose proof (ltRs (SquareDistance (center p0 p1 p2) p3) (SquareDistance (center p0 p1 p2) p0 * (1 - pten 20))) as H2.
  destruct (ltR (SquareDistance (center p0 p1 p2) p3) _); [|discriminate]. intros _. exists (center p0 p1 p2). destruct (center_eq p0 p1 p2 A). split; auto. split; auto.
  pose proof (sd_pos (center p0 p1 p2) p0) as S0. pose proof (pten_pos 20) as S1.
  pose proof (Rmult_le_pos _ _ S0 (Rlt_le _ _ S1)). lra.
Qed.
Lemma incircle_rot : forall a b c d, incircle a b c d -> incircle b c a d.
Proof. intros a b c d (o & H1 & H2 & H3). exists o. split; [congruence|]. split; [congruence|]. lra. Qed.
Lemma incircle_ne : forall a b c d, incircle a b c d -> d <> a /\ d <> b /\ d <> c.
Proof. intros a b c d (o & H1 & H2 & H3). repeat split; intros ->; lra. Qed.

Lemma area_rot : forall a b c, Area_Tri2 b c a = Area_Tri2 a b c. Proof. intros. unfold Area_Tri2. lra. Qed.
Lemma area_swap : forall a b c, Area_Tri2 b a c = - Area_Tri2 a b c. Proof. intros. unfold Area_Tri2. lra. Qed.
Lemma area_dup : forall a b, Area_Tri2 a a b = 0. Proof. intros. unfold Area_Tri2. lra. Qed.
Lemma area_split : forall a b c d, Area_Tri2 d a b + Area_Tri2 d b c + Area_Tri2 d c a = Area_Tri2 a b c.
Proof. intros. unfold Area_Tri2. lra. Qed.

Lemma sq2 : forall x y, 0 <= x * x + y * y. Proof. intros. apply Rplus_le_le_0_compat; apply Rle_0_sqr. Qed.
(** a convex combination of points of a disc is in the disc *)
Lemma jensen : forall al ga de r (ax ay cx cy dx dy bx by' : R), 0 < al -> 0 <= ga -> 0 < de ->
  ax * ax + ay * ay = r -> cx * cx + cy * cy = r -> dx * dx + dy * dy < r ->
  (al + ga + de) * bx = al * ax + ga * cx + de * dx -> (al + ga + de) * by' = al * ay + ga * cy + de * dy ->
  bx * bx + by' * by' < r.
Proof.
  intros al ga de r ax ay cx cy dx dy bx by' H1 H2 H3 HA HC HD EX EY.
  set (s := al + ga + de) in *. assert (Hs : 0 < s) by (unfold s; lra).
  assert (K : s * s * (bx * bx + by' * by') < s * s * r).
  { replace (s * s * (bx * bx + by' * by')) with ((s * bx) * (s * bx) + (s * by') * (s * by')) by ring. rewrite EX, EY.
    assert (Q1 : 0 <= al * ga * ((ax - cx) * (ax - cx) + (ay - cy) * (ay - cy))) by (apply Rmult_le_pos; [apply Rmult_le_pos; lra|apply sq2]).
    assert (Q2 : 0 <= al * de * ((ax - dx) * (ax - dx) + (ay - dy) * (ay - dy))) by (apply Rmult_le_pos; [apply Rmult_le_pos; lra|apply sq2]).
    assert (Q3 : 0 <= ga * de * ((cx - dx) * (cx - dx) + (cy - dy) * (cy - dy))) by (apply Rmult_le_pos; [apply Rmult_le_pos; lra|apply sq2]).
    assert (Id : (al * ax + ga * cx + de * dx) * (al * ax + ga * cx + de * dx) + (al * ay + ga * cy + de * dy) * (al * ay + ga * cy + de * dy) =
      s * (al * (ax * ax + ay * ay) + ga * (cx * cx + cy * cy) + de * (dx * dx + dy * dy)) -
      (al * ga * ((ax - cx) * (ax - cx) + (ay - cy) * (ay - cy)) + al * de * ((ax - dx) * (ax - dx) + (ay - dy) * (ay - dy)) +
       ga * de * ((cx - dx) * (cx - dx) + (cy - dy) * (cy - dy)))) by (unfold s; ring).
    rewrite Id, HA, HC.
    assert (Q4 : s * (al * r + ga * r + de * (dx * dx + dy * dy)) < s * (s * r)).
    { apply Rmult_lt_compat_l; auto. unfold s. pose proof (Rmult_lt_compat_l de _ _ H3 HD). lra. }
    lra. }
  apply Rmult_lt_reg_l with (s * s); auto. apply Rmult_lt_0_compat; auto.
Qed.
Lemma flip_pos1 : forall a b c d, 0 < Area_Tri2 a b c -> 0 < Area_Tri2 c b d -> incircle a b c d -> 0 < Area_Tri2 a b d.
Proof.
  intros (ax, ay) (bx, by') (cx, cy) (dx, dy) H1 H2 ((ox, oy) & E1 & E2 & E3). apply Rnot_le_lt. intros H3.
  unfold Area_Tri2, SquareDistance in *. cbn [fst snd] in *.
  assert ((ox - bx) * (ox - bx) + (oy - by') * (oy - by') < (ox - ax) * (ox - ax) + (oy - ay) * (oy - ay)); [|lra].
  apply (jensen ((bx - cx) * (dy - cy) - (dx - cx) * (by' - cy)) (- ((bx - ax) * (dy - ay) - (dx - ax) * (by' - ay)))
    ((bx - ax) * (cy - ay) - (cx - ax) * (by' - ay)) _ (ox - ax) (oy - ay) (ox - cx) (oy - cy) (ox - dx) (oy - dy)); try lra; ring.
Qed.
Lemma flip_pos2 : forall a b c d, 0 < Area_Tri2 a b c -> 0 < Area_Tri2 c b d -> incircle a b c d -> 0 < Area_Tri2 a d c.
Proof.
  intros a b c d H1 H2 H3.
  (* the mirror image *)
  set (mi := fun p : pt => (- fst p, snd p)).
  assert (MA : forall p q r, Area_Tri2 (mi p) (mi q) (mi r) = - Area_Tri2 p q r) by (intros; unfold Area_Tri2, mi; cbn [fst snd]; lra).
  assert (K : 0 < Area_Tri2 (mi a) (mi c) (mi d)).
  { apply (flip_pos1 (mi a) (mi c) (mi b) (mi d)).
    - rewrite MA. unfold Area_Tri2 in *. lra.
    - rewrite MA. unfold Area_Tri2 in *. lra.
    - destruct H3 as (o & E1 & E2 & E3). exists (mi o). unfold SquareDistance, mi in *. cbn [fst snd] in *. lra. }
  rewrite MA in K. unfold Area_Tri2 in *. lra.
Qed.
Lemma flip_area : forall a b c d, Area_Tri2 b d a + Area_Tri2 c a d = Area_Tri2 a b c + Area_Tri2 c b d.
Proof. intros. unfold Area_Tri2. lra. Qed.
