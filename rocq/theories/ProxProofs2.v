(** Nearest points of a segment and a line; contact of edges. *)
From Coq Require Import List Arith Bool Reals Lra Lia.
Import ListNotations.
From Verif Require Import Imp PrModel QuatModel ProxModel ProxSpec GjkProofs1 ProxProofs1.
Open Scope R_scope.

Lemma cross_zero_parallel : forall d v, 0 < dot3 v v -> dot3 (cross3 d v) (cross3 d v) = 0 -> d = mul3 (dot3 d v / dot3 v v) v.
Proof.
  intros d v P E. apply dot_zero in E. assert (E1 : vy d * vz v - vz d * vy v = 0 /\ vz d * vx v - vx d * vz v = 0 /\ vx d * vy v - vy d * vx v = 0).
  { unfold cross3, origin3 in E. injection E. intros. repeat split; lra. }
  destruct E1 as (A & B & C).
  assert (X : dot3 v v * vx d = dot3 d v * vx v). { u3. replace ((vx v * vx v + vy v * vy v + vz v * vz v) * vx d) with ((vx d * vx v + vy d * vy v + vz d * vz v) * vx v + (vx d * vy v - vy d * vx v) * vy v - (vz d * vx v - vx d * vz v) * vz v) by ring. rewrite B, C. ring. }
  assert (Y : dot3 v v * vy d = dot3 d v * vy v). { u3. replace ((vx v * vx v + vy v * vy v + vz v * vz v) * vy d) with ((vx d * vx v + vy d * vy v + vz d * vz v) * vy v + (vy d * vz v - vz d * vy v) * vz v - (vx d * vy v - vy d * vx v) * vx v) by ring. rewrite A, C. ring. }
  assert (Z : dot3 v v * vz d = dot3 d v * vz v). { u3. replace ((vx v * vx v + vy v * vy v + vz v * vz v) * vz d) with ((vx d * vx v + vy d * vy v + vz d * vz v) * vz v + (vz d * vx v - vx d * vz v) * vx v - (vy d * vz v - vz d * vy v) * vy v) by ring. rewrite A, B. ring. }
  set (k := dot3 v v) in *. set (m := dot3 d v) in *. clearbody k m.
  apply v3_eq; cbn [mul3 vx vy vz]; apply Rmult_eq_reg_l with k; try lra; [rewrite X|rewrite Y|rewrite Z]; field; lra.
Qed.

Lemma Nearest_Edge3_Line3_ok : forall s e o v, e20 < dot3 v v -> (let D := dot3 (cross3 (sub3 e s) v) (cross3 (sub3 e s) v) in D = 0 \/ e10 <= D) ->
  exists x y, Nearest_Edge3_Line3 s e o v = Some (x, y) /\ closest_pair (segment s e) (line o v) x y.
Proof.
  intros s e o v HV HD. cbv zeta in HD. pose proof e10_pos as P0. pose proof e20_pos as P1. unfold Nearest_Edge3_Line3. set (d := sub3 e s) in *. pose proof (dot_pos (cross3 d v)) as DP.
  assert (SEG : forall y, segment s e y -> exists a, 0 <= a <= 1 /\ y = add3 s (mul3 a d)) by (intros y (a & Ha & ->); exists a; split; auto; unfold d; veq).
  assert (SEG' : forall a, 0 <= a <= 1 -> segment s e (add3 s (mul3 a d))) by (intros a Ha; exists a; split; auto; unfold d; veq).
  destruct HD as [HD|HD].
  - destruct (Nearest_Line3_Line3 s d o v) as ((((D0, Da0), Db0), Dta0), Dtb0) eqn:E.
    assert (D0 = 0). { unfold Nearest_Line3_Line3 in E. cbv zeta in E. fold (linesD d v) in E. injection E. intros _ _ _ _ <-. rewrite linesD_cross. auto. } subst D0.
    rewrite Rabs_R0. pose proof (ltRs 0 e10) as Q. destruct (ltR 0 e10); [|lra]. set (m := mul3 (1/2) (add3 s e)).
    destruct (Nearest_Line3_Point3_ok m o v HV) as (x & EX & (t & HX) & CL). rewrite EX. cbn [bind]. eexists _, _. split; [reflexivity|].
    split; [exists (1/2); split; [lra|unfold m; veq; field]|]. split; [exists t; auto|]. intros x' y' HX' (t' & ->). apply SEG in HX'. destruct HX' as (a & Ha & ->).
    pose proof (cross_zero_parallel d v ltac:(lra) HD) as DV. set (mu := dot3 d v / dot3 v v) in DV.
    specialize (CL (comb 1 (t' - (a - 1/2) * mu) 0 o v origin3)). replace (dist3 m x) with (dist3 x m) by (rewrite !dist_norm; apply norm_neg).
    eapply Rle_trans; [apply CL; eexists; eauto|]. rewrite dist_norm, dist_norm, norm_neg. apply Req_le. f_equal.
    replace m with (add3 s (mul3 (1/2) d)) by (unfold m, d; veq; field). rewrite DV. clearbody mu. clear. veq.
  - assert (DN : dot3 (cross3 d v) (cross3 d v) <> 0) by lra.
    destruct (Nearest_Line3_Line3_ok s d o v DN) as (D0 & Da0 & Db0 & Dta0 & Dtb0 & E & HD0 & A & B & CL0 & CL1 & CL2). rewrite E.
    pose proof (Rabs_pos_eq D0) as RA. pose proof (ltRs (Rabs D0) e10) as Q. destruct (ltR (Rabs D0) e10); [rewrite RA in Q by lra; lra|]. clear Q.
    set (ta := Dta0 / D0) in *. set (tb := Dtb0 / D0) in *. pose proof (ltRs 0 ta) as Q0. pose proof (ltRs ta 1) as Q1. destruct (ltR 0 ta && ltR ta 1) eqn:B2.
    + apply andb_true_iff in B2. destruct B2 as (B2 & B3). rewrite B2 in Q0. rewrite B3 in Q1. eexists _, _. split; [reflexivity|]. split; [rewrite A; replace (comb 1 ta 0 s d origin3) with (add3 s (mul3 ta d)) by veq; apply SEG'; lra|]. split; auto.
      intros x' y' HX HY. apply CL2; auto. apply SEG in HX. destruct HX as (a & _ & ->). exists a. veq.
    + destruct (Nearest_Line3_Point3_ok s o v HV) as (p1 & E1 & L1 & C1). destruct (Nearest_Line3_Point3_ok e o v HV) as (p2 & E2 & L2 & C2). rewrite E1, E2. cbn [bind]. cbv zeta.
      assert (TA : ta <= 0 \/ 1 <= ta) by (destruct (ltR 0 ta), (ltR ta 1); try discriminate; lra).
      (* the vector between the two lines *)
      assert (NW : dot3 (sub3 (add3 s (mul3 ta d)) (add3 o (mul3 tb v))) d = 0 /\ dot3 (sub3 (add3 s (mul3 ta d)) (add3 o (mul3 tb v))) v = 0).
      { unfold Nearest_Line3_Line3 in E. cbv zeta in E. fold (linesD d v) in E. injection E. intros T2 T1 _ _ T0. unfold ta, tb. rewrite <- T0, <- T1, <- T2. apply lines_normal. rewrite linesD_cross. auto. }
      set (w := sub3 _ (add3 o _)) in NW. destruct NW as (N1 & N2).
      assert (KEY : forall k a t, 0 <= k -> k <= 1 -> exists t', d2 (add3 s (mul3 (ta + k * (a - ta)) d)) (comb 1 t' 0 o v origin3) <= d2 (add3 s (mul3 a d)) (comb 1 t 0 o v origin3)).
      { intros k a t K0 K1. exists (tb + k * (t - tb)). unfold d2. set (u := sub3 (mul3 (a - ta) d) (mul3 (t - tb) v)).
        replace (sub3 (add3 s (mul3 a d)) (comb 1 t 0 o v origin3)) with (add3 w u) by (unfold w, u; clearbody ta tb; veq).
        replace (sub3 (add3 s (mul3 (ta + k * (a - ta)) d)) (comb 1 (tb + k * (t - tb)) 0 o v origin3)) with (add3 w (mul3 k u)) by (unfold w, u; clearbody ta tb; veq).
        assert (WU : dot3 w u = 0) by (replace (dot3 w u) with ((a - ta) * dot3 w d - (t - tb) * dot3 w v) by (unfold u; clearbody ta tb w; u3; ring); rewrite N1, N2; ring).
        replace (dot3 (add3 w (mul3 k u)) (add3 w (mul3 k u))) with (dot3 w w + 2 * k * dot3 w u + k * k * dot3 u u) by (clearbody u w; u3; ring).
        replace (dot3 (add3 w u) (add3 w u)) with (dot3 w w + 2 * dot3 w u + dot3 u u) by (clearbody u w; u3; ring). rewrite WU. pose proof (dot_pos u). assert (k * k * dot3 u u <= 1 * dot3 u u); [|lra]. apply Rmult_le_compat_r; auto. replace 1 with (1 * 1) by ring. apply Rmult_le_compat; auto. }
      assert (MIN : (forall x' y', segment s e x' -> line o v y' -> dist3 s p1 <= dist3 x' y') \/ (forall x' y', segment s e x' -> line o v y' -> dist3 e p2 <= dist3 x' y')).
      { destruct TA as [TA|TA].
        - left. intros x' y' HX (t & ->). apply SEG in HX. destruct HX as (a & Ha & ->). destruct (Req_dec (a - ta) 0) as [Z|Z].
          + assert (a = 0) by lra. subst a. rewrite !dist_norm, norm_neg, <- dist_norm. eapply Rle_trans; [apply C1; exists t; eauto|]. rewrite dist_norm, norm_neg. apply Req_le. f_equal. veq.
          + destruct (KEY (- ta / (a - ta)) a t) as (t' & K).
            * apply Rmult_le_pos; [lra|left; apply Rinv_0_lt_compat; lra].
            * apply Rmult_le_reg_r with (a - ta); [lra|]. unfold Rdiv. rewrite Rmult_assoc, Rinv_l by lra. lra.
            * apply dist_le in K. eapply Rle_trans; [|exact K]. replace (ta + - ta / (a - ta) * (a - ta)) with 0 by (field; lra). rewrite !dist_norm, norm_neg, <- dist_norm. eapply Rle_trans; [apply C1; exists t'; eauto|]. rewrite dist_norm, norm_neg. apply Req_le. f_equal. veq.
        - right. intros x' y' HX (t & ->). apply SEG in HX. destruct HX as (a & Ha & ->). assert (EE : e = add3 s (mul3 1 d)) by (unfold d; veq). destruct (Req_dec (a - ta) 0) as [Z|Z].
          + assert (a = 1) by lra. subst a. rewrite <- EE. rewrite !dist_norm, norm_neg, <- dist_norm. eapply Rle_trans; [apply C2; exists t; eauto|]. rewrite dist_norm, norm_neg. lra.
          + destruct (KEY ((1 - ta) / (a - ta)) a t) as (t' & K).
            * replace ((1 - ta) / (a - ta)) with ((ta - 1) / (ta - a)) by (field; lra). apply Rmult_le_pos; [lra|left; apply Rinv_0_lt_compat; lra].
            * replace ((1 - ta) / (a - ta)) with ((ta - 1) / (ta - a)) by (field; lra). apply Rmult_le_reg_r with (ta - a); [lra|]. unfold Rdiv. rewrite Rmult_assoc, Rinv_l by lra. lra.
            * apply dist_le in K. eapply Rle_trans; [|exact K]. replace (ta + (1 - ta) / (a - ta) * (a - ta)) with 1 by (field; lra). rewrite <- EE. rewrite !dist_norm, norm_neg, <- dist_norm. eapply Rle_trans; [apply C2; exists t'; eauto|]. rewrite dist_norm, norm_neg. lra. }
      rewrite <- !dist_norm. assert (SYM : dist3 p1 s = dist3 s p1 /\ dist3 p2 e = dist3 e p2) by (rewrite !dist_norm; split; apply norm_neg). destruct SYM as (S1 & S2). rewrite S1, S2.
      pose proof (ltRs (dist3 s p1) (dist3 e p2)) as Q. destruct (ltR (dist3 s p1) (dist3 e p2)); eexists _, _; (split; [reflexivity|]).
      * split; [exists 0; split; [lra|veq]|]. split; auto. intros x' y' HX HY. destruct MIN as [M|M]; specialize (M x' y' HX HY); lra.
      * split; [exists 1; split; [lra|veq]|]. split; auto. intros x' y' HX HY. destruct MIN as [M|M]; specialize (M x' y' HX HY); lra.
Qed.

(** Contact. *)
Lemma contact_sound : forall i0 i1 j0 j1 p0 p1 q0 q1 delta, IsContact_Edge3_Edge3_Proximity i0 i1 j0 j1 p0 p1 q0 q1 delta = true ->
  (i0 <> j0 /\ i0 <> j1 /\ i1 <> j0 /\ i1 <> j1) /\ exists x y, segment p0 p1 x /\ segment q0 q1 y /\ dist3 x y <= delta.
Proof.
  intros i0 i1 j0 j1 p0 p1 q0 q1 delta H. unfold IsContact_Edge3_Edge3_Proximity in H.
  destruct ((i0 =? j0) || (i0 =? j1) || (i1 =? j0) || (i1 =? j1))%nat eqn:I; [discriminate|].
  repeat (apply orb_false_iff in I; destruct I as (I & ?)). repeat match goal with X : (_ =? _)%nat = false |- _ => apply Nat.eqb_neq in X end.
  split; [repeat split; auto|]. destruct (_ || _ || _); [discriminate|]. destruct (Distance_Edge3_Edge3 p0 p1 q0 q1) as (([dist|], [rp|]), [rq|]); try discriminate; destruct (ltR delta dist); try discriminate.
  pose proof (ltRs rp 0). pose proof (ltRs 1 rp). pose proof (ltRs rq 0). pose proof (ltRs 1 rq). destruct (ltR rp 0); [discriminate|]. destruct (ltR 1 rp); [discriminate|]. destruct (ltR rq 0); [discriminate|]. destruct (ltR 1 rq); [discriminate|].
  exists (add3 (mul3 (1 - rp) p0) (mul3 rp p1)), (add3 (mul3 (1 - rq) q0) (mul3 rq q1)). split; [exists rp; split; [lra|veq]|]. split; [exists rq; split; [lra|veq]|].
  rewrite dist_norm. pose proof (ltRs delta (norm3 (sub3 (add3 (mul3 (1 - rp) p0) (mul3 rp p1)) (add3 (mul3 (1 - rq) q0) (mul3 rq q1))))) as Q. apply negb_true_iff in H. rewrite H in Q. lra.
Qed.
(** The parameters of the nearest points of two lines are unique. *)
Lemma pair_unique : forall pa va pb vb a b, linesD va vb <> 0 -> closest_pair (line pa va) (line pb vb) (add3 pa (mul3 a va)) (add3 pb (mul3 b vb)) ->
  a = (dot3 vb vb * dot3 va (sub3 pb pa) - dot3 vb va * dot3 vb (sub3 pb pa)) / linesD va vb /\
  b = (dot3 vb va * dot3 va (sub3 pb pa) - dot3 va va * dot3 vb (sub3 pb pa)) / linesD va vb.
Proof.
  intros pa va pb vb a b N (_ & _ & CL). pose proof (lines_normal pa va pb vb N) as NW. cbv zeta in NW. set (ta := (_ - _) / _) in NW |- *. set (tb := (_ - _) / linesD va vb) in NW |- *. destruct NW as (N1 & N2).
  specialize (CL (add3 pa (mul3 ta va)) (add3 pb (mul3 tb vb)) ltac:(exists ta; veq) ltac:(exists tb; veq)). apply dist_le in CL. unfold d2 in CL.
  set (w := sub3 (add3 pa (mul3 ta va)) _) in *. set (u := sub3 (mul3 (a - ta) va) (mul3 (b - tb) vb)). clearbody ta tb.
  replace (sub3 (add3 pa (mul3 a va)) (add3 pb (mul3 b vb))) with (add3 w u) in CL by (unfold w, u; veq).
  assert (WU : dot3 w u = 0) by (replace (dot3 w u) with ((a - ta) * dot3 w va - (b - tb) * dot3 w vb) by (unfold u; clearbody w; u3; ring); rewrite N1, N2; ring).
  replace (dot3 (add3 w u) (add3 w u)) with (dot3 w w + 2 * dot3 w u + dot3 u u) in CL by (clearbody u w; u3; ring). rewrite WU in CL. pose proof (dot_pos u). assert (U : dot3 u u = 0) by lra. apply dot_zero in U.
  assert (X : forall k, dot3 (cross3 (mul3 k va) vb) (cross3 (mul3 k va) vb) = k * k * linesD va vb) by (intros; rewrite linesD_cross; u3; ring).
  assert (Y : forall k, dot3 (cross3 va (mul3 k vb)) (cross3 va (mul3 k vb)) = k * k * linesD va vb) by (intros; rewrite linesD_cross; u3; ring).
  specialize (X (a - ta)). specialize (Y (b - tb)).
  replace (cross3 (mul3 (a - ta) va) vb) with (cross3 u vb) in X by (unfold u; veq). replace (cross3 va (mul3 (b - tb) vb)) with (mul3 (-1) (cross3 va u)) in Y by (unfold u; veq). rewrite U in X, Y.
  replace (dot3 (cross3 origin3 vb) (cross3 origin3 vb)) with 0 in X by (u3; ring). replace (dot3 (mul3 (-1) (cross3 va origin3)) (mul3 (-1) (cross3 va origin3))) with 0 in Y by (u3; ring).
  assert (forall k, 0 = k * k * linesD va vb -> k = 0). { intros k K. apply Rsqr_0_uniq. unfold Rsqr. apply Rmult_eq_reg_r with (linesD va vb); auto. lra. }
  split; apply Rminus_diag_uniq; auto.
Qed.
Lemma Distance_Edge3_Edge3_ok : forall p0 p1 q0 q1, e10 <= norm3 (cross3 (sub3 p1 p0) (sub3 q1 q0)) ->
  exists d rp rq, Distance_Edge3_Edge3 p0 p1 q0 q1 = (Some d, Some rp, Some rq) /\ d = dist3 (comb (1 - rp) rp 0 p0 p1 origin3) (comb (1 - rq) rq 0 q0 q1 origin3) /\
  closest_pair (line p0 (sub3 p1 p0)) (line q0 (sub3 q1 q0)) (comb (1 - rp) rp 0 p0 p1 origin3) (comb (1 - rq) rq 0 q0 q1 origin3) /\
  forall a b, closest_pair (line p0 (sub3 p1 p0)) (line q0 (sub3 q1 q0)) (comb (1 - a) a 0 p0 p1 origin3) (comb (1 - b) b 0 q0 q1 origin3) -> a = rp /\ b = rq.
Proof.
  intros p0 p1 q0 q1 H. pose proof e10_pos. unfold Distance_Edge3_Edge3. cbv zeta. set (vp := sub3 p1 p0) in *. set (vq := sub3 q1 q0) in *. pose proof (ltRs (norm3 (cross3 vp vq)) e10) as Q. destruct (ltR (norm3 (cross3 vp vq)) e10); [lra|].
  assert (N : linesD vp vq <> 0). { rewrite linesD_cross, <- norm_sq. pose proof (Rmult_lt_0_compat _ _ (Rlt_le_trans _ _ _ H0 H) (Rlt_le_trans _ _ _ H0 H)). lra. }
  assert (DE : dot3 vp vp * dot3 vq vq - dot3 vp vq * dot3 vp vq = linesD vp vq) by (unfold linesD; rewrite (dot_comm vq vp); ring). rewrite DE.
  set (rp := (_ - _) * (1 / linesD vp vq)). set (rq := (dot3 vp vq * _ - _) * (1 / linesD vp vq)).
  assert (RP : rp = (dot3 vq vq * dot3 vp (sub3 q0 p0) - dot3 vq vp * dot3 vq (sub3 q0 p0)) / linesD vp vq) by (unfold rp; rewrite (dot_comm vq vp); field; auto).
  assert (RQ : rq = (dot3 vq vp * dot3 vp (sub3 q0 p0) - dot3 vp vp * dot3 vq (sub3 q0 p0)) / linesD vp vq) by (unfold rq; rewrite (dot_comm vq vp); field; auto). clearbody rp rq.
  assert (FP : forall a, comb (1 - a) a 0 p0 p1 origin3 = add3 p0 (mul3 a vp)) by (intros; unfold vp; veq). assert (FQ : forall a, comb (1 - a) a 0 q0 q1 origin3 = add3 q0 (mul3 a vq)) by (intros; unfold vq; veq).
  eexists _, rp, rq. split; [reflexivity|]. rewrite FP, FQ. split; [rewrite dist_norm; auto|]. split.
  - rewrite linesD_cross in N. destruct (Nearest_Line3_Line3_ok p0 vp q0 vq N) as (D & Da & Db & Dta & Dtb & E & HD & A & B & CL). rewrite A, B in CL. unfold Nearest_Line3_Line3 in E. cbv zeta in E. fold (linesD vp vq) in E. injection E. intros T2 T1 _ _ T0.
    replace (comb 1 (Dta / D) 0 p0 vp origin3) with (add3 p0 (mul3 rp vp)) in CL by (rewrite RP, <- T1, <- T0; set (k := _ / _); clearbody k; veq).
    replace (comb 1 (Dtb / D) 0 q0 vq origin3) with (add3 q0 (mul3 rq vq)) in CL by (rewrite RQ, <- T2, <- T0; set (k := _ / _); clearbody k; veq). exact CL.
  - intros a b CL. rewrite FP, FQ in CL. rewrite RP, RQ. apply pair_unique; auto.
Qed.
Lemma coord_le : forall x y, Rabs (vx x - vx y) <= dist3 x y /\ Rabs (vy x - vy y) <= dist3 x y /\ Rabs (vz x - vz y) <= dist3 x y.
Proof.
  intros x y. unfold dist3. pose proof (Rle_0_sqr (vx x - vx y)). pose proof (Rle_0_sqr (vy x - vy y)). pose proof (Rle_0_sqr (vz x - vz y)). unfold Rsqr in *.
  repeat split; rewrite <- sqrt_Rsqr_abs; apply sqrt_le_1; unfold Rsqr; try lra.
Qed.
Lemma apart_no : forall (f : vec3 -> R) delta p0 p1 q0 q1 a b, (forall t u v, f (comb (1 - t) t 0 u v origin3) = (1 - t) * f u + t * f v) -> 0 <= a <= 1 -> 0 <= b <= 1 ->
  Rabs (f (comb (1 - a) a 0 p0 p1 origin3) - f (comb (1 - b) b 0 q0 q1 origin3)) <= delta -> apart_axis f delta p0 p1 q0 q1 = false.
Proof.
  intros f delta p0 p1 q0 q1 a b F A B H. rewrite !F in H. apply Rabs_le_between in H || (pose proof (Rle_abs ((1 - a) * f p0 + a * f p1 - ((1 - b) * f q0 + b * f q1))) as H1; pose proof (Rle_abs (- ((1 - a) * f p0 + a * f p1 - ((1 - b) * f q0 + b * f q1)))) as H2; rewrite Rabs_Ropp in H2).
  assert (MX : forall t u v m, 0 <= t <= 1 -> m < u -> m < v -> m < (1 - t) * u + t * v).
  { intros t u v m T U V. destruct (Rle_lt_dec t (1/2)). - assert ((1 - t) * m < (1 - t) * u) by (apply Rmult_lt_compat_l; lra). assert (t * m <= t * v) by (apply Rmult_le_compat_l; lra). lra.
    - assert ((1 - t) * m <= (1 - t) * u) by (apply Rmult_le_compat_l; lra). assert (t * m < t * v) by (apply Rmult_lt_compat_l; lra). lra. }
  destruct (apart_axis f delta p0 p1 q0 q1) eqn:E; auto. exfalso. unfold apart_axis in E. apply orb_prop in E. destruct E as [E|E]; repeat (apply andb_prop in E; destruct E as (E & ?)).
  - pose proof (ltRs (f q0 + delta) (f p0)) as Q0. pose proof (ltRs (f q0 + delta) (f p1)) as Q1. pose proof (ltRs (f q1 + delta) (f p0)) as Q2. pose proof (ltRs (f q1 + delta) (f p1)) as Q3.
    repeat match goal with X : ltR _ _ = true |- _ => rewrite X in *; clear X end.
    pose proof (MX a (f p0) (f p1) (f q0 + delta) A Q0 Q1) as M0. pose proof (MX a (f p0) (f p1) (f q1 + delta) A Q2 Q3) as M1.
    pose proof (MX b (- f q0) (- f q1) (- ((1 - a) * f p0 + a * f p1 - delta)) B ltac:(lra) ltac:(lra)) as M2. lra.
  - pose proof (ltRs (f p0) (f q0 - delta)) as Q0. pose proof (ltRs (f p1) (f q0 - delta)) as Q1. pose proof (ltRs (f p0) (f q1 - delta)) as Q2. pose proof (ltRs (f p1) (f q1 - delta)) as Q3.
    repeat match goal with X : ltR _ _ = true |- _ => rewrite X in *; clear X end.
    pose proof (MX a (- f p0) (- f p1) (- (f q0 - delta)) A ltac:(lra) ltac:(lra)) as M0. pose proof (MX a (- f p0) (- f p1) (- (f q1 - delta)) A ltac:(lra) ltac:(lra)) as M1.
    pose proof (MX b (f q0) (f q1) (((1 - a) * f p0 + a * f p1 + delta)) B ltac:(lra) ltac:(lra)) as M2. lra.
Qed.
Lemma contact_complete : forall i0 i1 j0 j1 p0 p1 q0 q1 delta x y, i0 <> j0 -> i0 <> j1 -> i1 <> j0 -> i1 <> j1 -> e10 <= norm3 (cross3 (sub3 p1 p0) (sub3 q1 q0)) ->
  segment p0 p1 x -> segment q0 q1 y -> closest_pair (line p0 (sub3 p1 p0)) (line q0 (sub3 q1 q0)) x y -> dist3 x y <= delta ->
  IsContact_Edge3_Edge3_Proximity i0 i1 j0 j1 p0 p1 q0 q1 delta = true.
Proof.
  intros i0 i1 j0 j1 p0 p1 q0 q1 delta x y I0 I1 I2 I3 HC (a & Ha & ->) (b & Hb & ->) CL D. unfold IsContact_Edge3_Edge3_Proximity.
  apply Nat.eqb_neq in I0, I1, I2, I3. rewrite I0, I1, I2, I3. cbn [orb].
  destruct (coord_le (comb (1 - a) a 0 p0 p1 origin3) (comb (1 - b) b 0 q0 q1 origin3)) as (DX & DY & DZ).
  rewrite (apart_no vx delta p0 p1 q0 q1 a b), (apart_no vy delta p0 p1 q0 q1 a b), (apart_no vz delta p0 p1 q0 q1 a b); auto; try (intros; u3; ring); try lra. cbn [orb].
  destruct (Distance_Edge3_Edge3_ok p0 p1 q0 q1 HC) as (d & rp & rq & E & DD & _ & U). destruct (U a b CL) as (-> & ->). rewrite E. rewrite <- DD in D.
  pose proof (ltRs delta d) as Q. destruct (ltR delta d); [lra|]. pose proof (ltRs rp 0) as Q1. destruct (ltR rp 0); [lra|]. pose proof (ltRs 1 rp) as Q2. destruct (ltR 1 rp); [lra|]. pose proof (ltRs rq 0) as Q3. destruct (ltR rq 0); [lra|]. pose proof (ltRs 1 rq) as Q4. destruct (ltR 1 rq); [lra|].
  apply negb_true_iff. rewrite <- dist_norm. replace (add3 (mul3 (1 - rp) p0) (mul3 rp p1)) with (comb (1 - rp) rp 0 p0 p1 origin3) by veq. replace (add3 (mul3 (1 - rq) q0) (mul3 rq q1)) with (comb (1 - rq) rq 0 q0 q1 origin3) by veq. rewrite <- DD.
  pose proof (ltRs delta d) as Q5. destruct (ltR delta d); auto. lra.
Qed.
