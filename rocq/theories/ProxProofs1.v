(** Nearest points of segments and lines. *)
From Coq Require Import List Arith Bool Reals Lra Lia.
Import ListNotations.
From Verif Require Import Imp PrModel QuatModel ProxModel ProxSpec GjkProofs1.
Open Scope R_scope.

Ltac u3 := unfold Volume_OrgTet, Volume_Tet3, comb, origin3, add3, sub3, mul3, dot3, cross3 in *; cbn [vx vy vz] in *.
Lemma v3_eq : forall u v, vx u = vx v -> vy u = vy v -> vz u = vz v -> u = v.
Proof. intros [] []; cbn; intros; subst; auto. Qed.
Ltac veq := apply v3_eq; u3; try ring.

Lemma dot_pos : forall v, 0 <= dot3 v v.
Proof. intros v. unfold dot3. pose proof (Rle_0_sqr (vx v)). pose proof (Rle_0_sqr (vy v)). pose proof (Rle_0_sqr (vz v)). unfold Rsqr in *. lra. Qed.
Lemma dot_zero : forall v, dot3 v v = 0 -> v = origin3.
Proof.
  intros v E. unfold dot3 in E. pose proof (Rle_0_sqr (vx v)). pose proof (Rle_0_sqr (vy v)). pose proof (Rle_0_sqr (vz v)). unfold Rsqr in *.
  apply v3_eq; cbn; apply Rsqr_0_uniq; unfold Rsqr; lra.
Qed.
Lemma dot_comm : forall u v, dot3 u v = dot3 v u. Proof. intros. u3. ring. Qed.
Lemma norm_pos : forall v, 0 <= norm3 v. Proof. intros. apply sqrt_pos. Qed.
Lemma norm_sq : forall v, norm3 v * norm3 v = dot3 v v. Proof. intros. apply sqrt_sqrt. apply dot_pos. Qed.
Lemma norm_le : forall u v, norm3 u <= norm3 v <-> dot3 u u <= dot3 v v.
Proof. intros. unfold norm3. split; [apply sqrt_le_0; apply dot_pos|apply sqrt_le_1; apply dot_pos]. Qed.
Lemma norm_lt : forall u v, norm3 u < norm3 v <-> dot3 u u < dot3 v v.
Proof. intros. unfold norm3. split; [apply sqrt_lt_0_alt|intros; apply sqrt_lt_1; auto; apply dot_pos]. Qed.
Lemma norm_scale : forall k v, norm3 (mul3 k v) = Rabs k * norm3 v.
Proof. intros. unfold norm3. replace (dot3 (mul3 k v) (mul3 k v)) with (Rsqr k * dot3 v v) by (unfold Rsqr; u3; ring). rewrite sqrt_mult; [rewrite sqrt_Rsqr_abs; auto|apply Rle_0_sqr|apply dot_pos]. Qed.
Lemma dist_norm : forall a b, dist3 a b = norm3 (sub3 a b).
Proof. intros. unfold dist3, norm3. f_equal. u3. ring. Qed.
Lemma norm_neg : forall a b, norm3 (sub3 a b) = norm3 (sub3 b a).
Proof. intros. unfold norm3. f_equal. u3. ring. Qed.
Definition d2 (a b : vec3) : R := dot3 (sub3 a b) (sub3 a b).
Lemma dist_le : forall a b c d, dist3 a b <= dist3 c d <-> d2 a b <= d2 c d.
Proof. intros. rewrite !dist_norm. apply norm_le. Qed.
Lemma cauchy3 : forall u v, dot3 u v <= norm3 u * norm3 v.
Proof.
  intros u v. apply Rsqr_incr_0_var; [|apply Rmult_le_pos; apply norm_pos]. unfold Rsqr. replace (norm3 u * norm3 v * (norm3 u * norm3 v)) with (dot3 u u * dot3 v v) by (rewrite <- !norm_sq; ring).
  assert (E : dot3 u u * dot3 v v = dot3 u v * dot3 u v + dot3 (cross3 u v) (cross3 u v)) by (u3; ring). rewrite E. pose proof (dot_pos (cross3 u v)). lra.
Qed.
Lemma norm_tri : forall u v, norm3 (add3 u v) <= norm3 u + norm3 v.
Proof.
  intros u v. apply Rsqr_incr_0_var; [|apply Rplus_le_le_0_compat; apply norm_pos]. unfold Rsqr. rewrite norm_sq. replace (dot3 (add3 u v) (add3 u v)) with (dot3 u u + 2 * dot3 u v + dot3 v v) by (u3; ring).
  rewrite <- !(norm_sq u), <- !(norm_sq v). pose proof (cauchy3 u v). lra.
Qed.
Lemma e10_pos : 0 < e10. Proof. apply Rinv_0_lt_compat. apply pow_lt. lra. Qed.
Lemma e20_pos : 0 < e20. Proof. apply Rinv_0_lt_compat. apply pow_lt. lra. Qed.
Lemma e20_sq : e20 = e10 * e10. Proof. unfold e20, e10. field. Qed.

(** The clamped parameter. *)
Definition clamp (t : R) : R := let t := if ltR t 0 then 0 else t in if ltR 1 t then 1 else t.
Lemma clamp_ok : forall t, 0 <= clamp t <= 1 /\ forall s, 0 <= s <= 1 -> 0 <= (s - clamp t) * (clamp t - t).
Proof.
  intros t. unfold clamp. cbv zeta. pose proof (ltRs t 0) as Q. destruct (ltR t 0).
  - pose proof (ltRs 1 0) as Q'. destruct (ltR 1 0); [lra|]. split; [lra|]. intros. apply Rmult_le_pos; lra.
  - pose proof (ltRs 1 t) as Q'. destruct (ltR 1 t).
    + split; [lra|]. intros. replace ((s - 1) * (1 - t)) with ((1 - s) * (t - 1)) by ring. apply Rmult_le_pos; lra.
    + split; [lra|]. intros. lra.
Qed.
Lemma quad : forall p d t s, 0 < dot3 d d -> 0 <= (s - t) * (t - - dot3 d p / dot3 d d) -> dot3 (add3 p (mul3 t d)) (add3 p (mul3 t d)) <= dot3 (add3 p (mul3 s d)) (add3 p (mul3 s d)).
Proof.
  intros p d t s P H. assert (E : dot3 (add3 p (mul3 s d)) (add3 p (mul3 s d)) - dot3 (add3 p (mul3 t d)) (add3 p (mul3 t d)) = dot3 d d * ((s - t) * (s - t)) + 2 * dot3 d d * ((s - t) * (t - - dot3 d p / dot3 d d))).
  { replace (2 * dot3 d d * ((s - t) * (t - - dot3 d p / dot3 d d))) with (2 * ((s - t) * (dot3 d d * t + dot3 d p))) by (field; lra). u3. ring. }
  assert (0 <= dot3 d d * ((s - t) * (s - t))) by (apply Rmult_le_pos; [lra|apply Rle_0_sqr]). assert (0 <= 2 * dot3 d d * ((s - t) * (t - - dot3 d p / dot3 d d))) by (apply Rmult_le_pos; lra). lra.
Qed.
Lemma Nearest_Origin_Edge_ok : forall p0 p1, exists t, Nearest_Origin_Edge p0 p1 = (comb (1 - t) t 0 p0 p1 origin3, t) /\ 0 <= t <= 1 /\
  (e20 <= d2 p1 p0 -> forall s, 0 <= s <= 1 -> dot3 (comb (1 - t) t 0 p0 p1 origin3) (comb (1 - t) t 0 p0 p1 origin3) <= dot3 (comb (1 - s) s 0 p0 p1 origin3) (comb (1 - s) s 0 p0 p1 origin3)) /\
  (d2 p1 p0 < e20 -> t = 1/2).
Proof.
  intros p0 p1. unfold Nearest_Origin_Edge. cbv zeta. fold (d2 p1 p0). pose proof (ltRs (d2 p1 p0) e20) as Q. destruct (ltR (d2 p1 p0) e20).
  - exists (1/2). split; [f_equal; veq; field|]. split; [lra|]. split; [lra|auto].
  - fold (clamp (- dot3 (sub3 p1 p0) p0 / d2 p1 p0)). set (t := clamp _). destruct (clamp_ok (- dot3 (sub3 p1 p0) p0 / d2 p1 p0)) as (T & C). fold t in T, C. exists t. split; [f_equal; veq|]. split; auto. split; [|lra].
    intros _ s Hs. pose proof e20_pos. pose proof (quad p0 (sub3 p1 p0) t s) as G. replace (comb (1 - t) t 0 p0 p1 origin3) with (add3 p0 (mul3 t (sub3 p1 p0))) by veq. replace (comb (1 - s) s 0 p0 p1 origin3) with (add3 p0 (mul3 s (sub3 p1 p0))) by veq.
    apply G; [fold (d2 p1 p0); lra|]. fold (d2 p1 p0). auto.
Qed.
(** Within half the threshold in all cases. *)
Lemma midpoint_near : forall p0 p1 s, d2 p1 p0 < e20 -> 0 <= s <= 1 -> norm3 (comb (1 - 1/2) (1/2) 0 p0 p1 origin3) <= norm3 (comb (1 - s) s 0 p0 p1 origin3) + e10 / 2.
Proof.
  intros p0 p1 s D Hs. replace (comb (1 - 1/2) (1/2) 0 p0 p1 origin3) with (add3 (comb (1 - s) s 0 p0 p1 origin3) (mul3 (1/2 - s) (sub3 p1 p0))) by veq.
  eapply Rle_trans; [apply norm_tri|]. apply Rplus_le_compat_l. rewrite norm_scale.
  assert (N : norm3 (sub3 p1 p0) < e10). { apply Rsqr_incrst_0; [|apply norm_pos|left; apply e10_pos]. unfold Rsqr. rewrite norm_sq, <- e20_sq. exact D. }
  assert (A : Rabs (1/2 - s) <= 1/2) by (apply Rabs_le; lra). pose proof (norm_pos (sub3 p1 p0)). pose proof (Rabs_pos (1/2 - s)).
  assert (Rabs (1/2 - s) * norm3 (sub3 p1 p0) <= 1/2 * e10) by (apply Rmult_le_compat; lra). lra.
Qed.
Lemma Nearest_Origin_Edge_near : forall p0 p1 s, 0 <= s <= 1 -> norm3 (fst (Nearest_Origin_Edge p0 p1)) <= norm3 (comb (1 - s) s 0 p0 p1 origin3) + e10 / 2.
Proof.
  intros p0 p1 s Hs. destruct (Nearest_Origin_Edge_ok p0 p1) as (t & -> & T & G & H). cbn [fst]. destruct (Rle_lt_dec e20 (d2 p1 p0)) as [L|L].
  - specialize (G L s Hs). apply norm_le in G. pose proof e10_pos. lra.
  - rewrite (H L). apply midpoint_near; auto.
Qed.
Lemma comb_sub : forall t s e p, sub3 (comb (1 - t) t 0 s e origin3) p = comb (1 - t) t 0 (sub3 s p) (sub3 e p) origin3. Proof. intros. veq. Qed.
Lemma Nearest_Edge_Point_ok : forall p s e, exists x t, Nearest_Edge_Point p s e = (x, t) /\ 0 <= t <= 1 /\ x = comb (1 - t) t 0 s e origin3 /\
  (e20 <= d2 s e -> closest (segment s e) p x) /\ (forall y, segment s e y -> dist3 x p <= dist3 y p + e10 / 2) /\ Distance_Edge_Point p s e = dist3 x p.
Proof.
  intros p s e. unfold Nearest_Edge_Point, Distance_Edge_Point. pose proof (Nearest_Origin_Edge_near (sub3 s p) (sub3 e p)) as NR. destruct (Nearest_Origin_Edge_ok (sub3 s p) (sub3 e p)) as (t & E & T & G & _). rewrite E in *. cbn [fst] in *.
  eexists _, t. split; [reflexivity|]. split; auto. assert (X : add3 (comb (1 - t) t 0 (sub3 s p) (sub3 e p) origin3) p = comb (1 - t) t 0 s e origin3) by veq. rewrite X. split; auto.
  assert (D : d2 (sub3 e p) (sub3 s p) = d2 s e) by (unfold d2; u3; ring). rewrite D in G.
  split; [|split].
  - intros L. split; [exists t; auto|]. intros y (s' & Hs & ->). apply dist_le. unfold d2. rewrite !comb_sub. auto.
  - intros y (s' & Hs & ->). rewrite !dist_norm, !comb_sub. auto.
  - rewrite dist_norm, comb_sub. auto.
Qed.
Lemma Nearest_Edge3_Point3_ok : forall p s e, exists t, Nearest_Edge3_Point3 p s e = comb (1 - t) t 0 s e origin3 /\ 0 <= t <= 1 /\
  (e20 < d2 s e -> closest (segment s e) p (comb (1 - t) t 0 s e origin3)) /\ (forall y, segment s e y -> dist3 (comb (1 - t) t 0 s e origin3) p <= dist3 y p + e10 / 2).
Proof.
  intros p s e. unfold Nearest_Edge3_Point3. cbv zeta. fold (d2 e s). assert (D : d2 e s = d2 s e) by (unfold d2; u3; ring). pose proof (ltRs e20 (d2 e s)) as Q. pose proof e10_pos as E0. pose proof e20_pos as E1. destruct (ltR e20 (d2 e s)).
  - fold (clamp (- dot3 (sub3 e s) (sub3 s p) / d2 e s)). set (t := clamp _). destruct (clamp_ok (- dot3 (sub3 e s) (sub3 s p) / d2 e s)) as (T & C). fold t in T, C. exists t. split; [veq|]. split; auto.
    assert (G : forall y, segment s e y -> dist3 (comb (1 - t) t 0 s e origin3) p <= dist3 y p).
    { intros y (s' & Hs & ->). apply dist_le. unfold d2. pose proof (quad (sub3 s p) (sub3 e s) t s') as G. replace (sub3 (comb (1 - t) t 0 s e origin3) p) with (add3 (sub3 s p) (mul3 t (sub3 e s))) by veq.
      replace (sub3 (comb (1 - s') s' 0 s e origin3) p) with (add3 (sub3 s p) (mul3 s' (sub3 e s))) by veq. apply G; [fold (d2 e s); lra|]. fold (d2 e s). auto. }
    split; [intros _; split; [exists t; auto|auto]|]. intros y Hy. specialize (G y Hy). lra.
  - exists (1/2). split; [veq|]. split; [lra|]. split; [lra|]. intros y (s' & Hs & ->). rewrite !dist_norm, !comb_sub. destruct (Rle_lt_dec e20 (d2 e s)) as [L|L].
    + assert (EQ : d2 e s = e20) by lra. (* exactly at the threshold *)
      replace (comb (1 - 1/2) (1/2) 0 (sub3 s p) (sub3 e p) origin3) with (add3 (comb (1 - s') s' 0 (sub3 s p) (sub3 e p) origin3) (mul3 (1/2 - s') (sub3 e s))) by veq.
      eapply Rle_trans; [apply norm_tri|]. apply Rplus_le_compat_l. rewrite norm_scale. assert (N : norm3 (sub3 e s) = e10) by (unfold norm3; fold (d2 e s); rewrite EQ, e20_sq; apply sqrt_square; lra). rewrite N.
      assert (A : Rabs (1/2 - s') <= 1/2) by (apply Rabs_le; lra). assert (Rabs (1/2 - s') * e10 <= 1/2 * e10) by (apply Rmult_le_compat_r; lra). lra.
    + apply midpoint_near; auto. replace (d2 (sub3 e p) (sub3 s p)) with (d2 e s) by (unfold d2; u3; ring). auto.
Qed.

(** Lines. *)
Lemma Nearest_Line3_Point3_ok : forall p s d, e20 < dot3 d d -> exists x, Nearest_Line3_Point3 p s d = Some x /\ closest (line s d) p x.
Proof.
  intros p s d H. pose proof e20_pos. unfold Nearest_Line3_Point3. pose proof (ltRs e20 (dot3 d d)) as Q. destruct (ltR e20 (dot3 d d)); [|lra]. cbn [assertb bind]. cbv zeta. set (t := - dot3 d (sub3 s p) / dot3 d d).
  eexists. split; [reflexivity|]. split; [exists t; veq|]. intros y (s' & ->). apply dist_le. unfold d2. replace (sub3 (add3 s (mul3 t d)) p) with (add3 (sub3 s p) (mul3 t d)) by veq. replace (sub3 (comb 1 s' 0 s d origin3) p) with (add3 (sub3 s p) (mul3 s' d)) by veq.
  apply quad; [lra|]. fold t. rewrite Rminus_diag_eq with (r1 := t) (r2 := t) by auto. lra.
Qed.
Lemma Nearest_Line3_Point3_t_ok : forall p s d, e20 <= dot3 d d -> exists x t, Nearest_Line3_Point3_t p s d = (x, t) /\ x = comb 1 t 0 s d origin3 /\ closest (line s d) p x.
Proof.
  intros p s d H. pose proof e20_pos. unfold Nearest_Line3_Point3_t. pose proof (ltRs (dot3 d d) e20) as Q. destruct (ltR (dot3 d d) e20); [lra|]. cbv zeta. set (t := - dot3 d (sub3 s p) / dot3 d d).
  eexists _, t. split; [reflexivity|]. split; [veq|]. split; [exists t; veq|]. intros y (s' & ->). apply dist_le. unfold d2. replace (sub3 (add3 s (mul3 t d)) p) with (add3 (sub3 s p) (mul3 t d)) by veq. replace (sub3 (comb 1 s' 0 s d origin3) p) with (add3 (sub3 s p) (mul3 s' d)) by veq.
  apply quad; [lra|]. fold t. rewrite Rminus_diag_eq with (r1 := t) (r2 := t) by auto. lra.
Qed.
(** The difference of the nearest points of two lines is normal to both. *)
Definition linesD (va vb : vec3) : R := dot3 va va * dot3 vb vb - dot3 vb va * dot3 vb va.
Lemma linesD_cross : forall va vb, linesD va vb = dot3 (cross3 va vb) (cross3 va vb). Proof. intros. unfold linesD. u3. ring. Qed.
Lemma lines_normal : forall pa va pb vb, linesD va vb <> 0 ->
  let ta := (dot3 vb vb * dot3 va (sub3 pb pa) - dot3 vb va * dot3 vb (sub3 pb pa)) / linesD va vb in
  let tb := (dot3 vb va * dot3 va (sub3 pb pa) - dot3 va va * dot3 vb (sub3 pb pa)) / linesD va vb in
  let w := sub3 (add3 pa (mul3 ta va)) (add3 pb (mul3 tb vb)) in dot3 w va = 0 /\ dot3 w vb = 0.
Proof.
  intros pa va pb vb N ta tb w.
  assert (EA : dot3 w va = - dot3 va (sub3 pb pa) + ta * dot3 va va - tb * dot3 vb va) by (unfold w; u3; ring).
  assert (EB : dot3 w vb = - dot3 vb (sub3 pb pa) + ta * dot3 vb va - tb * dot3 vb vb) by (unfold w; u3; ring).
  rewrite EA, EB. unfold ta, tb. unfold linesD in *. set (aa := dot3 va va) in *. set (bb := dot3 vb vb) in *. set (ab := dot3 vb va) in *. set (x := dot3 va _). set (y := dot3 vb _). clearbody aa bb ab x y. split; field; auto.
Qed.
Lemma pythagoras : forall w u, dot3 w u = 0 -> dot3 w w <= dot3 (add3 w u) (add3 w u).
Proof. intros w u H. replace (dot3 (add3 w u) (add3 w u)) with (dot3 w w + 2 * dot3 w u + dot3 u u) by (u3; ring). rewrite H. pose proof (dot_pos u). lra. Qed.
Lemma Nearest_Line3_Line3_ok : forall pa va pb vb, dot3 (cross3 va vb) (cross3 va vb) <> 0 -> exists D Da Db Dta Dtb, Nearest_Line3_Line3 pa va pb vb = (D, Da, Db, Dta, Dtb) /\ D = dot3 (cross3 va vb) (cross3 va vb) /\
  mul3 (/ D) Da = comb 1 (Dta / D) 0 pa va origin3 /\ mul3 (/ D) Db = comb 1 (Dtb / D) 0 pb vb origin3 /\ closest_pair (line pa va) (line pb vb) (mul3 (/ D) Da) (mul3 (/ D) Db).
Proof.
  intros pa va pb vb N. rewrite <- linesD_cross in *. unfold Nearest_Line3_Line3. cbv zeta. fold (linesD va vb). set (D := linesD va vb) in *. eexists _, _, _, _, _. split; [reflexivity|]. split; auto.
  set (ta := (dot3 vb vb * dot3 va (sub3 pb pa) - dot3 vb va * dot3 vb (sub3 pb pa))). set (tb := (dot3 vb va * dot3 va (sub3 pb pa) - dot3 va va * dot3 vb (sub3 pb pa))).
  assert (EA : mul3 (/ D) (add3 (mul3 D pa) (mul3 ta va)) = comb 1 (ta / D) 0 pa va origin3) by (clearbody D ta tb; veq; field; auto).
  assert (EB : mul3 (/ D) (add3 (mul3 D pb) (mul3 tb vb)) = comb 1 (tb / D) 0 pb vb origin3) by (clearbody D ta tb; veq; field; auto).
  split; auto. split; auto. rewrite EA, EB. split; [eexists; eauto|]. split; [eexists; eauto|]. intros x y (s & ->) (s' & ->). apply dist_le. unfold d2.
  destruct (lines_normal pa va pb vb N) as (N1 & N2). fold D in N1, N2. fold ta in N1, N2. fold tb in N1, N2. clearbody ta tb D.
  replace (sub3 (comb 1 s 0 pa va origin3) (comb 1 s' 0 pb vb origin3)) with (add3 (sub3 (comb 1 (ta / D) 0 pa va origin3) (comb 1 (tb / D) 0 pb vb origin3)) (sub3 (mul3 (s - ta / D) va) (mul3 (s' - tb / D) vb))) by veq.
  apply pythagoras. replace (sub3 (comb 1 (ta / D) 0 pa va origin3) (comb 1 (tb / D) 0 pb vb origin3)) with (sub3 (add3 pa (mul3 (ta / D) va)) (add3 pb (mul3 (tb / D) vb))) by veq. set (w := sub3 (add3 pa _) _) in *. clearbody w.
  replace (dot3 w (sub3 (mul3 (s - ta / D) va) (mul3 (s' - tb / D) vb))) with ((s - ta / D) * dot3 w va - (s' - tb / D) * dot3 w vb) by (u3; ring). rewrite N1, N2. ring.
Qed.
