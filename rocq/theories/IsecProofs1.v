(** Intersections in the plane. *)
From Coq Require Import List Arith Bool Reals Lra Lia.
Import ListNotations.
From Verif Require Import Imp PrModel PolyModel QuatModel ProxModel IsecModel IsecSpec GjkProofs1.
Open Scope R_scope.

Lemma area_turn : forall a b c, Area_Tri2 a b c = turn a b c / 2. Proof. intros. unfold Area_Tri2, turn. field. Qed.
Lemma opp_sign : forall a b t, 0 <= t <= 1 -> (1 - t) * a + t * b = 0 -> a * b <= 0.
Proof.
  intros a b t T E. destruct (Rle_lt_dec (a * b) 0); auto. exfalso. assert (E2 : (1 - t) * (a * a) + t * (a * b) = 0) by (replace ((1 - t) * (a * a) + t * (a * b)) with (((1 - t) * a + t * b) * a) by ring; rewrite E; ring).
  assert (0 <= (1 - t) * (a * a)) by (apply Rmult_le_pos; [lra|apply Rle_0_sqr]). assert (0 <= t * (a * b)) by (apply Rmult_le_pos; lra). assert (Z : t * (a * b) = 0) by lra. apply Rmult_integral in Z. destruct Z; [|lra]. subst t.
  assert (a = 0) by lra. subst a. lra.
Qed.
Lemma isec_sign : forall s0 e0 s1 e1 x, seg2 s0 e0 x -> seg2 s1 e1 x -> turn s0 e0 s1 * turn s0 e0 e1 <= 0.
Proof.
  intros (a, b) (c, d) (e, f) (g, h) x (t & T & X) (u & U & Y). apply opp_sign with u; auto. cbn [fst snd] in *. rewrite X in Y. injection Y. intros Y2 Y1. unfold turn. cbn [fst snd].
  replace ((1 - u) * ((c - a) * (f - b) - (d - b) * (e - a)) + u * ((c - a) * (h - b) - (d - b) * (g - a))) with ((c - a) * (((1 - u) * f + u * h) - b) - (d - b) * (((1 - u) * e + u * g) - a)) by ring. rewrite <- Y1, <- Y2. ring.
Qed.
Lemma ratio01 : forall a b, a * b <= 0 -> a <> b -> 0 <= a / (a - b) <= 1.
Proof.
  intros a b H N. assert (A : 0 <= a * (a - b)) by (replace (a * (a - b)) with (a * a - a * b) by ring; pose proof (Rle_0_sqr a); unfold Rsqr in *; lra). assert (B : 0 <= - b * (a - b)) by (replace (- b * (a - b)) with (b * b - a * b) by ring; pose proof (Rle_0_sqr b); unfold Rsqr in *; lra).
  assert (P : 0 < / ((a - b) * (a - b))) by (apply Rinv_0_lt_compat; pose proof (Rle_0_sqr (a - b)); unfold Rsqr in *; destruct (Req_dec ((a - b) * (a - b)) 0) as [E|]; [apply Rmult_integral in E; lra|lra]).
  replace (a / (a - b)) with (a * (a - b) * / ((a - b) * (a - b))) by (field; lra). split; [apply Rmult_le_pos; lra|].
  replace (a * (a - b) * / ((a - b) * (a - b))) with (1 - (- b * (a - b)) * / ((a - b) * (a - b))) by (field; lra). assert (0 <= (- b * (a - b)) * / ((a - b) * (a - b))) by (apply Rmult_le_pos; lra). lra.
Qed.
Lemma isec_exists : forall s0 e0 s1 e1, turn s0 e0 s1 * turn s0 e0 e1 <= 0 -> turn s1 e1 s0 * turn s1 e1 e0 <= 0 -> not_on_a_line s0 e0 s1 e1 -> exists x, seg2 s0 e0 x /\ seg2 s1 e1 x.
Proof.
  intros s0 e0 s1 e1 A B N. assert (D : turn s1 e1 s0 - turn s1 e1 e0 = turn s0 e0 e1 - turn s0 e0 s1) by (unfold turn; ring).
  destruct (Req_dec (turn s0 e0 s1) (turn s0 e0 e1)) as [E|E].
  - exfalso. assert (E' : turn s1 e1 s0 = turn s1 e1 e0) by lra. rewrite E in A. rewrite E' in B.
    assert (Z : forall k, k * k <= 0 -> k = 0) by (intros k K; apply Rsqr_0_uniq; pose proof (Rle_0_sqr k); unfold Rsqr in *; lra). apply Z in A. apply Z in B. destruct N as [N|[N|[N|N]]]; lra.
  - pose proof (ratio01 _ _ A E) as RA. assert (E' : turn s1 e1 s0 <> turn s1 e1 e0) by lra. pose proof (ratio01 _ _ B E') as RB. rewrite D in RB. set (u := turn s0 e0 s1 / (turn s0 e0 s1 - turn s0 e0 e1)) in *. set (t := turn s1 e1 s0 / (turn s0 e0 e1 - turn s0 e0 s1)) in *.
    exists ((1 - t) * fst s0 + t * fst e0, (1 - t) * snd s0 + t * snd e0). split; [exists t; auto|]. exists u. split; auto. assert (NZ : turn s0 e0 s1 - turn s0 e0 e1 <> 0) by lra. unfold t, u.
    destruct s0 as (a, b), e0 as (c, d), s1 as (e, f), e1 as (g, h). unfold turn in *. cbn [fst snd] in *. f_equal; field; repeat split; intros Q; apply NZ; rewrite <- Q; ring || (rewrite <- (Ropp_involutive 0), Ropp_0, <- Q; ring) || lra.
Qed.
Lemma ltR0_neg : forall a b, (if ltR 0 (a / 2 * (b / 2)) then false else true) = true <-> a * b <= 0.
Proof. intros a b. pose proof (ltRs 0 (a / 2 * (b / 2))) as Q. replace (a / 2 * (b / 2)) with (a * b / 4) in * by field. destruct (ltR 0 (a * b / 4)); split; intros; try discriminate; auto; lra. Qed.
Lemma minmax : forall a b, let mn := if ltR a b then a else b in let mx := if ltR b a then a else b in mn <= mx /\ forall t, 0 <= t <= 1 -> mn <= (1 - t) * a + t * b <= mx.
Proof.
  intros a b. cbv zeta. pose proof (ltRs a b) as Q. pose proof (ltRs b a) as Q'.
  assert (L : forall u v t, 0 <= t <= 1 -> u <= v -> u <= (1 - t) * u + t * v <= v).
  { intros u v t T H. assert (0 <= t * (v - u)) by (apply Rmult_le_pos; lra). assert (0 <= (1 - t) * (v - u)) by (apply Rmult_le_pos; lra). lra. }
  destruct (ltR a b), (ltR b a); try lra; split; try lra; intros t T.
  - apply L; lra. - specialize (L b a (1 - t) ltac:(lra) ltac:(lra)). lra. - specialize (L b a (1 - t) ltac:(lra) ltac:(lra)). lra.
Qed.
Lemma Edge2_Edge2_sound : forall s0 e0 s1 e1, IsIntersect_Edge2_Edge2 s0 e0 s1 e1 = true -> turn s0 e0 s1 * turn s0 e0 e1 <= 0 /\ turn s1 e1 s0 * turn s1 e1 e0 <= 0.
Proof.
  intros s0 e0 s1 e1 H. unfold IsIntersect_Edge2_Edge2 in H. cbv zeta in H. destruct (ltR _ _) in H; [discriminate|]. destruct (ltR _ _) in H; [discriminate|]. destruct (ltR _ _) in H; [discriminate|]. destruct (ltR _ _) in H; [discriminate|]. rewrite !area_turn in H.
  pose proof (ltR0_neg (turn s0 e0 s1) (turn s0 e0 e1)) as (L1 & _). pose proof (ltR0_neg (turn s1 e1 s0) (turn s1 e1 e0)) as (L2 & _). destruct (ltR 0 _) in H, L1; [discriminate|]. auto.
Qed.
Lemma Edge2_Edge2_complete : forall s0 e0 s1 e1 x, seg2 s0 e0 x -> seg2 s1 e1 x -> IsIntersect_Edge2_Edge2 s0 e0 s1 e1 = true.
Proof.
  intros s0 e0 s1 e1 x X Y. pose proof (isec_sign _ _ _ _ _ X Y) as A. pose proof (isec_sign _ _ _ _ _ Y X) as B. destruct X as (t & T & EX). destruct Y as (u & U & EY). rewrite EX in EY. injection EY. intros Y2 Y1.
  unfold IsIntersect_Edge2_Edge2. cbv zeta.
  pose proof (minmax (fst s0) (fst e0)) as (M0 & M0'). pose proof (minmax (snd s0) (snd e0)) as (M1 & M1'). pose proof (minmax (fst s1) (fst e1)) as (M2 & M2'). pose proof (minmax (snd s1) (snd e1)) as (M3 & M3').
  specialize (M0' t T). specialize (M1' t T). specialize (M2' u U). specialize (M3' u U).
  set (a0 := if ltR (fst s0) (fst e0) then fst s0 else fst e0) in *. set (a1 := if ltR (fst e0) (fst s0) then fst s0 else fst e0) in *. set (b0 := if ltR (snd s0) (snd e0) then snd s0 else snd e0) in *. set (b1 := if ltR (snd e0) (snd s0) then snd s0 else snd e0) in *.
  set (c0 := if ltR (fst s1) (fst e1) then fst s1 else fst e1) in *. set (c1 := if ltR (fst e1) (fst s1) then fst s1 else fst e1) in *. set (d0 := if ltR (snd s1) (snd e1) then snd s1 else snd e1) in *. set (d1 := if ltR (snd e1) (snd s1) then snd s1 else snd e1) in *.
  set (len := _ * (1 / 10000)). assert (LP : 0 <= len) by (unfold len; lra). clearbody len a0 a1 b0 b1 c0 c1 d0 d1.
  pose proof (ltRs (c1 + len) a0) as Q. destruct (ltR (c1 + len) a0); [lra|]. clear Q. pose proof (ltRs (a1 + len) c0) as Q. destruct (ltR (a1 + len) c0); [lra|]. clear Q. pose proof (ltRs (d1 + len) b0) as Q. destruct (ltR (d1 + len) b0); [lra|]. clear Q. pose proof (ltRs (b1 + len) d0) as Q. destruct (ltR (b1 + len) d0); [lra|]. clear Q.
  rewrite !area_turn. pose proof (ltR0_neg (turn s0 e0 s1) (turn s0 e0 e1)) as (_ & L1). pose proof (ltR0_neg (turn s1 e1 s0) (turn s1 e1 e0)) as (_ & L2). specialize (L1 A). specialize (L2 B). destruct (ltR 0 (turn s0 e0 s1 / 2 * _)); [discriminate|auto].
Qed.
Lemma IsCrossLines_ok : forall s0 e0 s1 e1, IsCrossLines s0 e0 s1 e1 = true <-> turn s0 e0 s1 * turn s0 e0 e1 <= 0 /\ turn s1 e1 s0 * turn s1 e1 e0 <= 0.
Proof.
  intros s0 e0 s1 e1. unfold IsCrossLines. cbv zeta. rewrite !area_turn. pose proof (ltR0_neg (turn s0 e0 s1) (turn s0 e0 e1)) as L1. pose proof (ltR0_neg (turn s1 e1 s0) (turn s1 e1 e0)) as L2. destruct (ltR 0 (turn s0 e0 s1 / 2 * _)).
  - split; [discriminate|]. intros (A & _). apply L1. auto.
  - rewrite L2. split; [|tauto]. intros. split; auto. apply L1. auto.
Qed.

(** A box and an edge: three intervals of the parameter of the line that meet in pairs have a common point. *)
Definition cvx (P : R -> Prop) : Prop := forall u v w, P u -> P v -> u <= w <= v -> P w.
Lemma helly : forall (P Q I : R -> Prop) t1 t2 t3, cvx P -> cvx Q -> cvx I -> P t1 -> P t3 -> Q t2 -> Q t3 -> I t1 -> I t2 -> exists t, P t /\ Q t /\ I t.
Proof.
  intros P Q I a b c CP CQ CI P1 P3 Q2 Q3 I1 I2. unfold cvx in *.
  destruct (Rle_lt_dec a b), (Rle_lt_dec b c), (Rle_lt_dec a c); try lra.
  - exists b. split; [apply (CP a c); auto; lra|auto].
  - exists c. split; auto. split; auto. apply (CI a b); auto; lra.
  - exists a. split; auto. split; auto. apply (CQ c b); auto; lra.
  - exists a. split; auto. split; auto. apply (CQ b c); auto; lra.
  - exists c. split; auto. split; auto. apply (CI b a); auto; lra.
  - exists b. split; auto. apply (CP c a); auto; lra.
Qed.
Lemma line_point : forall (a b c d : R), let n := (d - b, - (c - a)) in a <> c \/ b <> d -> forall x y, fst n * (x - a) + snd n * (y - b) = 0 -> exists t, x = (1 - t) * a + t * c /\ y = (1 - t) * b + t * d.
Proof.
  intros a b c d n H x y E. unfold n in E. cbn [fst snd] in E. destruct (Req_dec a c) as [Z|Z].
  - assert (ND : d - b <> 0) by (destruct H; lra). exists ((y - b) / (d - b)). split; [|field; auto]. assert (X : (d - b) * (x - a) = 0) by (rewrite <- Z in E; lra). apply Rmult_integral in X. destruct X; [lra|]. subst c. replace ((1 - (y - b) / (d - b)) * a + (y - b) / (d - b) * a) with a by (field; auto). lra.
  - exists ((x - a) / (c - a)). split; [field; lra|]. apply Rmult_eq_reg_r with (c - a); [|lra]. replace (((1 - (x - a) / (c - a)) * b + (x - a) / (c - a) * d) * (c - a)) with (b * (c - a) + (x - a) * (d - b)) by (field; lra). lra.
Qed.
Lemma overlap : forall lo hi a b, lo <= hi -> (let '(mx, mn) := if ltR b a then (a, b) else (b, a) in ~ hi < mn /\ ~ mx < lo) -> exists t, 0 <= t <= 1 /\ lo <= (1 - t) * a + t * b <= hi.
Proof.
  intros lo hi a b L H. assert (G : forall a b, a <= b -> ~ hi < a -> ~ b < lo -> exists t, 0 <= t <= 1 /\ lo <= (1 - t) * a + t * b <= hi).
  { clear - L. intros a b AB H1 H2. apply Rnot_lt_le in H1, H2. destruct (Rle_lt_dec lo a). - exists 0. split; lra. - destruct (Rle_lt_dec b hi). + exists 1. split; lra. + exists ((lo - a) / (b - a)). assert (I : 0 < / (b - a)) by (apply Rinv_0_lt_compat; lra). split; [split; [apply Rmult_le_pos; lra|apply Rmult_le_reg_r with (b - a); [lra|unfold Rdiv; rewrite Rmult_assoc, Rinv_l by lra; lra]]|]. replace ((1 - (lo - a) / (b - a)) * a + (lo - a) / (b - a) * b) with lo by (field; lra). lra. }
  pose proof (ltRs b a) as Q. destruct (ltR b a); destruct H as (H1 & H2).
  - destruct (G b a) as (t & T & E); auto; try lra. exists (1 - t). split; [lra|]. replace ((1 - (1 - t)) * a + (1 - t) * b) with ((1 - t) * b + t * a) by ring. auto.
  - exact (G a b Q H1 H2).
Qed.
Lemma box_mix : forall (lo hi c c' : pt) s, box2 lo hi c -> box2 lo hi c' -> 0 <= s <= 1 -> box2 lo hi ((1 - s) * fst c + s * fst c', (1 - s) * snd c + s * snd c').
Proof.
  intros lo hi c c' s (A & B) (A' & B') S. assert (L : forall l h u v, l <= u <= h -> l <= v <= h -> l <= (1 - s) * u + s * v <= h).
  { intros l h u v U V. assert (0 <= (1 - s) * (u - l)) by (apply Rmult_le_pos; lra). assert (0 <= (1 - s) * (h - u)) by (apply Rmult_le_pos; lra). assert (0 <= s * (v - l)) by (apply Rmult_le_pos; lra). assert (0 <= s * (h - v)) by (apply Rmult_le_pos; lra). lra. }
  split; cbn [fst snd]; apply L; auto.
Qed.
Definition nval (p0 p1 c : pt) : R := (snd p1 - snd p0) * (fst c - fst p0) - (fst p1 - fst p0) * (snd c - snd p0).
Lemma nval_model : forall p0 p1 c, dotp (snd (subp p1 p0), - fst (subp p1 p0)) (subp c p0) = nval p0 p1 c.
Proof. intros. unfold dotp, subp, nval. cbn [fst snd]. ring. Qed.
Lemma AABB2_sound : forall pmin pmax p0 p1, IsIntersect_AABB2_Edge2 pmin pmax p0 p1 = Some true -> exists x, box2 pmin pmax x /\ seg2 p0 p1 x.
Proof.
  intros pmin pmax p0 p1 H. unfold IsIntersect_AABB2_Edge2 in H.
  pose proof (ltRs (fst pmax) (fst pmin)) as QX. destruct (ltR (fst pmax) (fst pmin)); [discriminate|]. cbn [negb assertb bind] in H. pose proof (ltRs (snd pmax) (snd pmin)) as QY. destruct (ltR (snd pmax) (snd pmin)); [discriminate|]. cbn [negb assertb bind] in H.
  pose proof (overlap (fst pmin) (fst pmax) (fst p0) (fst p1) QX) as OX. destruct (if ltR (fst p1) (fst p0) then _ else _) as (xmax, xmin). pose proof (ltRs (fst pmax) xmin) as Q1. destruct (ltR (fst pmax) xmin); [discriminate|]. pose proof (ltRs xmax (fst pmin)) as Q2. destruct (ltR xmax (fst pmin)); [discriminate|]. destruct OX as (t1 & T1 & X1); [lra|].
  pose proof (overlap (snd pmin) (snd pmax) (snd p0) (snd p1) QY) as OY. destruct (if ltR (snd p1) (snd p0) then _ else _) as (ymax, ymin). pose proof (ltRs (snd pmax) ymin) as Q3. destruct (ltR (snd pmax) ymin); [discriminate|]. pose proof (ltRs ymax (snd pmin)) as Q4. destruct (ltR ymax (snd pmin)); [discriminate|]. destruct OY as (t2 & T2 & Y2); [lra|].
  cbv zeta in H. match type of H with Some ?b = _ => assert (HB : b = true) by (clear - H; congruence) end. clear H. rename HB into H. apply andb_prop in H. destruct H as (HP & HN). apply existsb_exists in HP. destruct HP as (c & IC & PC). apply existsb_exists in HN. destruct HN as (c' & IC' & PC'). rewrite nval_model in PC, PC'. apply negb_true_iff in PC'.
  pose proof (ltRs 0 (nval p0 p1 c)) as Q5. rewrite PC in Q5. pose proof (ltRs 0 (nval p0 p1 c')) as Q6. rewrite PC' in Q6.
  assert (BX : forall c, In c [pmin; pmax; (fst pmin, snd pmax); (fst pmax, snd pmin)] -> box2 pmin pmax c). { intros k [<-|[<-|[<-|[<-|[]]]]]; split; cbn [fst snd]; lra. }
  pose proof (ratio01 (nval p0 p1 c) (nval p0 p1 c')) as R01. set (s := nval p0 p1 c / (nval p0 p1 c - nval p0 p1 c')) in *. assert (S : 0 <= s <= 1). { apply R01; [|lra]. replace (nval p0 p1 c * nval p0 p1 c') with (- (nval p0 p1 c * - nval p0 p1 c')) by ring. assert (0 <= nval p0 p1 c * - nval p0 p1 c') by (apply Rmult_le_pos; lra). lra. }
  pose proof (box_mix pmin pmax c c' s (BX c IC) (BX c' IC') S) as (BM1 & BM2). cbn [fst snd] in BM1, BM2.
  assert (NE : fst p0 <> fst p1 \/ snd p0 <> snd p1). { destruct (Req_dec (fst p0) (fst p1)) as [E1|]; auto. destruct (Req_dec (snd p0) (snd p1)) as [E2|]; auto. exfalso. unfold nval in Q5. rewrite E1, E2 in Q5. lra. }
  destruct (line_point (fst p0) (snd p0) (fst p1) (snd p1) NE ((1 - s) * fst c + s * fst c') ((1 - s) * snd c + s * snd c')) as (t3 & X3 & Y3).
  { cbn [fst snd]. transitivity ((1 - s) * nval p0 p1 c + s * nval p0 p1 c'); [unfold nval; ring|]. unfold s. field. lra. }
  rewrite X3 in BM1. rewrite Y3 in BM2.
  assert (CV : forall lo hi a b u v w, lo <= (1 - u) * a + u * b <= hi -> lo <= (1 - v) * a + v * b <= hi -> u <= w <= v -> lo <= (1 - w) * a + w * b <= hi).
  { clear. intros lo hi a b u v w U V W. destruct (Rle_lt_dec a b).
    - assert (0 <= (w - u) * (b - a)) by (apply Rmult_le_pos; lra). assert (0 <= (v - w) * (b - a)) by (apply Rmult_le_pos; lra). lra.
    - assert (0 <= (w - u) * (a - b)) by (apply Rmult_le_pos; lra). assert (0 <= (v - w) * (a - b)) by (apply Rmult_le_pos; lra). lra. }
  assert (CX : forall lo hi a b, cvx (fun t => lo <= (1 - t) * a + t * b <= hi)) by (intros lo hi a b u v w U V W; exact (CV lo hi a b u v w U V W)). assert (CI : cvx (fun t => 0 <= t <= 1)) by (intros u v w U V W; lra).
  destruct (helly _ _ _ t1 t2 t3 (CX (fst pmin) (fst pmax) (fst p0) (fst p1)) (CX (snd pmin) (snd pmax) (snd p0) (snd p1)) CI X1 BM1 Y2 BM2 T1 T2) as (t & PX & PY & PI).
  exists ((1 - t) * fst p0 + t * fst p1, (1 - t) * snd p0 + t * snd p1). split; [split; auto|exists t; auto].
Qed.
Lemma AABB2_complete : forall pmin pmax p0 p1, fst pmin <= fst pmax -> snd pmin <= snd pmax -> p0 <> p1 -> IsIntersect_AABB2_Edge2 pmin pmax p0 p1 <> Some true ->
  IsIntersect_AABB2_Edge2 pmin pmax p0 p1 = Some false /\ forall x, seg2 p0 p1 x -> ~ inner2 pmin pmax x.
Proof.
  intros pmin pmax p0 p1 LX LY NE H. unfold IsIntersect_AABB2_Edge2 in *.
  pose proof (ltRs (fst pmax) (fst pmin)) as QX. destruct (ltR (fst pmax) (fst pmin)); [lra|]. cbn [negb assertb bind] in *. pose proof (ltRs (snd pmax) (snd pmin)) as QY. destruct (ltR (snd pmax) (snd pmin)); [lra|]. cbn [negb assertb bind] in *.
  assert (RG : forall a b t, 0 <= t <= 1 -> let '(mx, mn) := if ltR b a then (a, b) else (b, a) in mn <= (1 - t) * a + t * b <= mx).
  { clear. intros a b t T. pose proof (ltRs b a) as Q. destruct (ltR b a); [assert (0 <= t * (a - b)) by (apply Rmult_le_pos; lra); assert (0 <= (1 - t) * (a - b)) by (apply Rmult_le_pos; lra)|assert (0 <= t * (b - a)) by (apply Rmult_le_pos; lra); assert (0 <= (1 - t) * (b - a)) by (apply Rmult_le_pos; lra)]; lra. }
  pose proof (RG (fst p0) (fst p1)) as RX. destruct (if ltR (fst p1) (fst p0) then _ else _) as (xmax, xmin).
  pose proof (ltRs (fst pmax) xmin) as Q1. destruct (ltR (fst pmax) xmin). { split; auto. intros x (t & T & ->) (A & _). cbn [fst snd] in A. specialize (RX t T). lra. }
  pose proof (ltRs xmax (fst pmin)) as Q2. destruct (ltR xmax (fst pmin)). { split; auto. intros x (t & T & ->) (A & _). cbn [fst snd] in A. specialize (RX t T). lra. }
  pose proof (RG (snd p0) (snd p1)) as RY. destruct (if ltR (snd p1) (snd p0) then _ else _) as (ymax, ymin).
  pose proof (ltRs (snd pmax) ymin) as Q3. destruct (ltR (snd pmax) ymin). { split; auto. intros x (t & T & ->) (_ & A). cbn [fst snd] in A. specialize (RY t T). lra. }
  pose proof (ltRs ymax (snd pmin)) as Q4. destruct (ltR ymax (snd pmin)). { split; auto. intros x (t & T & ->) (_ & A). cbn [fst snd] in A. specialize (RY t T). lra. }
  cbv zeta in *. cbn [existsb] in *. rewrite !nval_model in *.
  set (v0 := nval p0 p1 pmin) in *. set (v1 := nval p0 p1 pmax) in *. set (v2 := nval p0 p1 (fst pmin, snd pmax)) in *. set (v3 := nval p0 p1 (fst pmax, snd pmin)) in *.
  pose proof (ltRs 0 v0) as V0. pose proof (ltRs 0 v1) as V1. pose proof (ltRs 0 v2) as V2. pose proof (ltRs 0 v3) as V3.
  assert (ALL : (0 < v0 /\ 0 < v1 /\ 0 < v2 /\ 0 < v3) \/ (v0 <= 0 /\ v1 <= 0 /\ v2 <= 0 /\ v3 <= 0)) by (destruct (ltR 0 v0), (ltR 0 v1), (ltR 0 v2), (ltR 0 v3); cbn in H; try (exfalso; apply H; reflexivity); lra).
  split. { destruct ALL as [A|A]; destruct (ltR 0 v0), (ltR 0 v1), (ltR 0 v2), (ltR 0 v3); try lra; reflexivity. }
  intros x (t & T & ->) (IX & IY). cbn [fst snd] in IX, IY. set (x := (1 - t) * fst p0 + t * fst p1) in *. set (y := (1 - t) * snd p0 + t * snd p1) in *.
  assert (NV : nval p0 p1 (x, y) = 0) by (unfold nval, x, y; cbn [fst snd]; ring).
  (* the point as a positive combination of the corners *)
  set (a := (x - fst pmin) * (y - snd pmin)). set (b := (fst pmax - x) * (snd pmax - y)). set (c := (fst pmax - x) * (y - snd pmin)). set (d := (x - fst pmin) * (snd pmax - y)).
  assert (PA : 0 < a) by (apply Rmult_lt_0_compat; lra). assert (PB : 0 < b) by (apply Rmult_lt_0_compat; lra). assert (PC : 0 < c) by (apply Rmult_lt_0_compat; lra). assert (PD : 0 < d) by (apply Rmult_lt_0_compat; lra).
  assert (E : b * v0 + a * v1 + c * v2 + d * v3 = (fst pmax - fst pmin) * (snd pmax - snd pmin) * nval p0 p1 (x, y)) by (unfold a, b, c, d, v0, v1, v2, v3, nval; cbn [fst snd]; ring). rewrite NV, Rmult_0_r in E.
  clearbody a b c d. destruct ALL as [(A0 & A1 & A2 & A3)|(A0 & A1 & A2 & A3)].
  - pose proof (Rmult_lt_0_compat _ _ PB A0). pose proof (Rmult_lt_0_compat _ _ PA A1). pose proof (Rmult_lt_0_compat _ _ PC A2). pose proof (Rmult_lt_0_compat _ _ PD A3). lra.
  - assert (M : forall k v, 0 < k -> v <= 0 -> k * v <= 0) by (intros k v K V; assert (0 <= k * - v) by (apply Rmult_le_pos; lra); lra). pose proof (M _ _ PB A0). pose proof (M _ _ PA A1). pose proof (M _ _ PC A2). pose proof (M _ _ PD A3).
    assert (Z : forall k v, 0 < k -> k * v = 0 -> v = 0) by (intros k v K V; apply Rmult_integral in V; lra). assert (Z0 : v0 = 0) by (apply (Z b); lra). assert (Z2 : v2 = 0) by (apply (Z c); lra). assert (Z3 : v3 = 0) by (apply (Z d); lra).
    apply NE. assert (E2 : (fst p1 - fst p0) * (snd pmax - snd pmin) = 0) by (transitivity (v0 - v2); [unfold v0, v2, nval; cbn [fst snd]; ring|lra]). assert (E3 : (snd p1 - snd p0) * (fst pmax - fst pmin) = 0) by (transitivity (v3 - v0); [unfold v0, v3, nval; cbn [fst snd]; ring|lra]).
    apply Rmult_integral in E2. apply Rmult_integral in E3. apply injective_projections; lra.
Qed.
