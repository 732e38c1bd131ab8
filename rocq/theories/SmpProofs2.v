(** Colour maps. *)
From Coq Require Import List Arith Bool ZArith Reals Lra Lia.
Import ListNotations.
From Verif Require Import Imp PrModel GjkProofs1 MeasSpec PlnProofs1 SmpModel SmpSpec SmpProofs1.
Open Scope R_scope.

Lemma leRt : forall a b, a <= b -> leR a b = true. Proof. intros. unfold leR. rewrite ltRf by auto. auto. Qed.
Lemma leRf : forall a b, b < a -> leR a b = false. Proof. intros. unfold leR. rewrite ltRt by auto. auto. Qed.
Lemma inc_tail : forall p m, increasing (p :: m) -> increasing m.
Proof. intros (a, c) m H. destruct m as [|(b, d) m]; [exact I|]. apply H. Qed.
Lemma inc_lt : forall pre a c v d post, increasing ((a, c) :: pre ++ (v, d) :: post) -> a < v.
Proof. induction pre as [|(b, e) pre IH]; intros a c v d post H; [apply H|]. destruct H as (A & H). apply IH in H. lra. Qed.
Lemma col_eq : forall a b, cr a = cr b -> cg a = cg b -> cb a = cb b -> ca a = ca b -> a = b.
Proof. intros [] []; cbn; intros; subst; auto. Qed.
Lemma inter0 : forall c d, interpolateColor 0 c d = c. Proof. intros. apply col_eq; cbn; ring. Qed.
Lemma inter1 : forall c d, interpolateColor 1 c d = d. Proof. intros. apply col_eq; cbn; ring. Qed.
Lemma eqR_ne : forall a b, a <> b -> eqR a b = false. Proof. intros a b H. pose proof (eqRs a b). destruct (eqR a b); auto; contradiction. Qed.
Lemma loop_mid : forall pre v0 c0 v1 c1 post x, increasing (pre ++ (v0, c0) :: (v1, c1) :: post) -> v0 <= x <= v1 -> getColor_loop x (pre ++ (v0, c0) :: (v1, c1) :: post) = Some (interpolateColor ((x - v0) / (v1 - v0)) c0 c1).
Proof.
  induction pre as [|(a, c) pre IH]; intros v0 c0 v1 c1 post x H X.
  - cbn [app] in *. destruct H as (A & _). cbn [getColor_loop]. rewrite !leRt by lra. cbn [andb]. rewrite eqR_ne by lra. auto.
  - pose proof (inc_lt _ _ _ _ _ _ H) as A. pose proof (inc_tail _ _ H) as T. specialize (IH v0 c0 v1 c1 post x T X). cbn [app getColor_loop]. destruct pre as [|(b, e) pre].
    + cbn [app] in *. rewrite leRt by lra. cbn [andb]. pose proof (leRs x v0) as Q. destruct (leR x v0); [|exact IH]. replace v0 with x in * by lra. rewrite eqR_ne by lra. replace ((x - a) / (x - a)) with 1 by (field; lra). replace ((x - x) / (v1 - x)) with 0 by (field; destruct T; lra). rewrite inter0, inter1. auto.
    + cbn [app] in *. pose proof (inc_lt _ _ _ _ _ _ T) as B. rewrite leRt by lra. cbn [andb]. rewrite leRf by lra. exact IH.
Qed.
Lemma loop_last : forall pre v c x, increasing (pre ++ [(v, c)]) -> v <= x -> getColor_loop x (pre ++ [(v, c)]) = Some c.
Proof.
  induction pre as [|(a, d) pre IH]; intros v c x H X; [reflexivity|]. pose proof (inc_lt _ _ _ _ _ _ H) as A. pose proof (inc_tail _ _ H) as T. specialize (IH v c x T X). cbn [app getColor_loop]. destruct pre as [|(b, e) pre].
  - cbn [app] in *. rewrite leRt by lra. cbn [andb]. pose proof (leRs x v) as Q. destruct (leR x v); [|exact IH]. replace v with x in * by lra. rewrite eqR_ne by lra. replace ((x - a) / (x - a)) with 1 by (field; lra). rewrite inter1. auto.
  - cbn [app] in *. pose proof (inc_lt _ _ _ _ _ _ T) as B. rewrite leRt by lra. cbn [andb]. rewrite leRf by lra. exact IH.
Qed.
Lemma head_le : forall pre v c post w d rest, pre ++ (v, c) :: post = (w, d) :: rest -> increasing (pre ++ (v, c) :: post) -> w <= v.
Proof. intros pre v c post w d rest E H. destruct pre as [|(a, e) pre]; [injection E; intros; lra|]. injection E as -> -> E. apply inc_lt in H. lra. Qed.
Lemma map_mid : forall pre v0 c0 v1 c1 post x, increasing (pre ++ (v0, c0) :: (v1, c1) :: post) -> v0 <= x <= v1 -> getColor x (pre ++ (v0, c0) :: (v1, c1) :: post) = Some (interpolateColor ((x - v0) / (v1 - v0)) c0 c1).
Proof.
  intros pre v0 c0 v1 c1 post x H X. unfold getColor. destruct (pre ++ (v0, c0) :: (v1, c1) :: post) as [|(w, d) rest] eqn:E; [destruct pre; discriminate|]. rewrite <- E in H. pose proof (head_le _ _ _ _ _ _ _ E H). rewrite ltRf by lra. rewrite <- E. apply loop_mid; auto.
Qed.
Lemma map_last : forall pre v c x, increasing (pre ++ [(v, c)]) -> v <= x -> getColor x (pre ++ [(v, c)]) = Some c.
Proof.
  intros pre v c x H X. unfold getColor. destruct (pre ++ [(v, c)]) as [|(w, d) rest] eqn:E; [destruct pre; discriminate|]. rewrite <- E in H. pose proof (head_le _ _ _ _ _ _ _ E H). rewrite ltRf by lra. rewrite <- E. apply loop_last; auto.
Qed.
Lemma triple_eq : forall a b c x y z : R, a = x -> b = y -> c = z -> (a, b, c) = (x, y, z). Proof. intros; subst; auto. Qed.
Lemma heat_eq : forall t, heatmap t = (cut01 (4 * t - 2), cut01 (Rmin (4 * t) (4 - 4 * t)), cut01 (2 - 4 * t)).
Proof.
  intros t. unfold heatmap. pose proof (leRs 0 t) as Q0. destruct (leR 0 t); pose proof (leRs t (1 / 4)) as Q1; destruct (leR t (1 / 4)); pose proof (ltRs (1 / 4) t) as Q2; destruct (ltR (1 / 4) t); pose proof (leRs t (1 / 2)) as Q3; destruct (leR t (1 / 2)); pose proof (ltRs (1 / 2) t) as Q4; destruct (ltR (1 / 2) t);
  pose proof (leRs t (3 / 4)) as Q5; destruct (leR t (3 / 4)); pose proof (ltRs (3 / 4) t) as Q6; destruct (ltR (3 / 4) t); pose proof (leRs t 1) as Q7; destruct (leR t 1); pose proof (ltRs 1 t) as Q8; destruct (ltR 1 t); try (exfalso; lra); cbn [andb]; apply triple_eq; lk.
Qed.
Lemma hsv_eq : forall h s v, 0 <= h <= 1 -> 0 <= s -> GetRGB_HSV h s v = (hsv 5 h s v, hsv 3 h s v, hsv 1 h s v).
Proof.
  intros h s v H S. unfold GetRGB_HSV. cbv zeta. pose proof (ltRs 0 s) as Q. destruct (ltR 0 s). 2:{ replace s with 0 by lra. unfold hsv. apply triple_eq; ring. }
  assert (L : forall n l, lack n h = l -> hsv n h s v = v * (1 - s * l)) by (intros n l <-; unfold hsv; ring).
  destruct (Rlt_dec (h * 6) 1); [rewrite (trunc_at _ 0) by (lia || lra)|destruct (Rlt_dec (h * 6) 2); [rewrite (trunc_at _ 1) by (lia || lra)|destruct (Rlt_dec (h * 6) 3); [rewrite (trunc_at _ 2) by (lia || lra)|destruct (Rlt_dec (h * 6) 4); [rewrite (trunc_at _ 3) by (lia || lra)|destruct (Rlt_dec (h * 6) 5); [rewrite (trunc_at _ 4) by (lia || lra)|destruct (Rlt_dec (h * 6) 6); [rewrite (trunc_at _ 5) by (lia || lra)|rewrite (trunc_at _ 6) by (lia || lra)]]]]]]; cbn [Z.eqb Pos.eqb].
  - rewrite (L 5 0), (L 3 (1 - h * 6)), (L 1 1) by lk. apply triple_eq; ring.
  - rewrite (L 5 (h * 6 - 1)), (L 3 0), (L 1 1) by lk. apply triple_eq; ring.
  - rewrite (L 5 1), (L 3 0), (L 1 (3 - h * 6)) by lk. apply triple_eq; ring.
  - rewrite (L 5 1), (L 3 (h * 6 - 3)), (L 1 0) by lk. apply triple_eq; ring.
  - rewrite (L 5 (5 - h * 6)), (L 3 1), (L 1 0) by lk. apply triple_eq; ring.
  - rewrite (L 5 0), (L 3 1), (L 1 (h * 6 - 5)) by lk. apply triple_eq; ring.
  - replace h with 1 in * by lra. rewrite (L 5 0), (L 3 1), (L 1 1) by lk. apply triple_eq; ring.
Qed.
Lemma lack_range : forall n h, 0 <= lack n h <= 1. Proof. intros. lk. Qed.
Lemma some_full : forall h, 0 <= h <= 1 -> (lack 5 h = 0 \/ lack 3 h = 0 \/ lack 1 h = 0) /\ (lack 5 h = 1 \/ lack 3 h = 1 \/ lack 1 h = 1).
Proof.
  intros h H. destruct (Rlt_dec (h * 6) 1); [|destruct (Rlt_dec (h * 6) 2); [|destruct (Rlt_dec (h * 6) 3); [|destruct (Rlt_dec (h * 6) 4); [|destruct (Rlt_dec (h * 6) 5)]]]].
  - split; [left; lk|right; right; lk].
  - split; [right; left; lk|right; right; lk].
  - split; [right; left; lk|left; lk].
  - split; [right; right; lk|left; lk].
  - split; [right; right; lk|right; left; lk].
  - split; [left; lk|right; left; lk].
Qed.
Lemma heat_map : forall min max alpha x, min < max -> getColor x (ColorMap_BlueCyanGreenYellowRed [] min max alpha) = let '(r, g, b) := heatmap ((x - min) / (max - min)) in Some (Col r g b alpha).
Proof.
  intros min max alpha x H. set (t := (x - min) / (max - min)). set (D := max - min) in *. assert (P : 0 < D) by (unfold D; lra). assert (X : x = min + t * D) by (unfold t, D; field; unfold D in P; lra).
  unfold ColorMap_BlueCyanGreenYellowRed. cbv zeta. fold D. cbn [app]. set (m := [_; _; _; _; _]).
  assert (I : increasing m) by (unfold m; cbn [increasing]; repeat split; lra).
  assert (C : forall q, (t <= q /\ t * D <= q * D) \/ (q < t /\ q * D < t * D)). { intros q. destruct (Rle_dec t q); [left|right]; split; try lra; [apply Rmult_le_compat_r; lra|apply Rmult_lt_compat_r; lra]. }
  assert (C' : 0 <= t /\ 0 <= t * D \/ t < 0 /\ t * D < 0). { destruct (Rle_dec 0 t); [left|right]; split; try lra; nra. }
  assert (RR : forall k k1 c d, k1 = k + 1 -> interpolateColor ((x - (min + D * (1 / 4) * k)) / (min + D * (1 / 4) * k1 - (min + D * (1 / 4) * k))) c d = interpolateColor (4 * t - k) c d). { intros k k1 c d ->. f_equal. rewrite X. field. lra. }
  destruct C' as [(C0 & C0')|(C0 & C0')].
  2:{ unfold heatmap. rewrite leRf, !ltRf by lra. cbn [andb]. unfold m, getColor. rewrite ltRt by lra. auto. }
  destruct (C (1 / 4)) as [(C1 & C1')|(C1 & C1')].
  { unfold heatmap. rewrite !leRt by lra. cbn [andb]. etransitivity; [exact (map_mid [] (min + D * (1 / 4) * 0) _ (min + D * (1 / 4) * 1) _ _ x I ltac:(lra))|]. f_equal. rewrite RR by lra. apply col_eq; cbn; ring. }
  destruct (C (1 / 2)) as [(C2 & C2')|(C2 & C2')].
  { unfold heatmap. rewrite (leRf t (1 / 4)), !leRt, !ltRt by lra. cbn [andb]. etransitivity; [exact (map_mid [(min + D * (1 / 4) * 0, Col 0 0 1 alpha)] (min + D * (1 / 4) * 1) _ (min + D * (1 / 4) * 2) _ _ x I ltac:(lra))|]. f_equal. rewrite RR by lra. apply col_eq; cbn; ring. }
  destruct (C (3 / 4)) as [(C3 & C3')|(C3 & C3')].
  { unfold heatmap. rewrite (leRf t (1 / 4)), (leRf t (1 / 2)), !leRt, !ltRt by lra. cbn [andb]. etransitivity; [exact (map_mid [(min + D * (1 / 4) * 0, Col 0 0 1 alpha); (min + D * (1 / 4) * 1, Col 0 1 1 alpha)] (min + D * (1 / 4) * 2) _ (min + D * (1 / 4) * 3) _ _ x I ltac:(lra))|]. f_equal. rewrite RR by lra. apply col_eq; cbn; ring. }
  destruct (C 1) as [(C4 & C4')|(C4 & C4')].
  { unfold heatmap. rewrite (leRf t (1 / 4)), (leRf t (1 / 2)), (leRf t (3 / 4)), !leRt, !ltRt by lra. cbn [andb]. etransitivity; [exact (map_mid [(min + D * (1 / 4) * 0, Col 0 0 1 alpha); (min + D * (1 / 4) * 1, Col 0 1 1 alpha); (min + D * (1 / 4) * 2, Col 0 1 0 alpha)] (min + D * (1 / 4) * 3) _ (min + D * (1 / 4) * 4) _ _ x I ltac:(lra))|]. f_equal. rewrite RR by lra. apply col_eq; cbn; ring. }
  { unfold heatmap. rewrite (leRf t (1 / 4)), (leRf t (1 / 2)), (leRf t (3 / 4)), (leRf t 1), !leRt, !ltRt by lra. cbn [andb]. etransitivity; [exact (map_last [(min + D * (1 / 4) * 0, Col 0 0 1 alpha); (min + D * (1 / 4) * 1, Col 0 1 1 alpha); (min + D * (1 / 4) * 2, Col 0 1 0 alpha); (min + D * (1 / 4) * 3, Col 1 1 0 alpha)] (min + D * (1 / 4) * 4) _ x I ltac:(lra))|]. auto. }
Qed.
