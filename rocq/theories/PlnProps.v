(** C80: polylines. *)
From Coq Require Import List Arith Bool ZArith Reals Lra Lia.
Import ListNotations.
From Verif Require Import Imp PrModel QuatModel ProxModel ProxSpec GjkProofs1 ProxProofs1 MeasSpec MeasProofs2 MeasProofs3 BspProofs1 BspProofs2 PlnModel PlnSpec PlnProofs1 PlnProofs2.
Open Scope R_scope.

(** The length is the sum of the lengths of the segments, 0 for fewer than two points.  Two points of the polyline, and in particular its ends, are not further apart than along it. *)
Theorem C80_length : forall l,
  (exists n, Length_Polyline l = Some n /\ n = arc l (length l - 1) /\ ((length l < 2)%nat -> n = 0) /\ ((0 < length l)%nat -> dist3 (pt l 0) (pt l (length l - 1)) <= n)) /\
  (forall s x s' x', at_arc l s x -> at_arc l s' x' -> dist3 x x' <= Rabs (s - s')).
Proof.
  intros l. split; [|apply arc_lip]. exists (arc l (length l - 1)). split; [apply length_ok|]. split; [auto|]. split; [intros L; replace (length l - 1)%nat with 0%nat by lia; reflexivity|].
  intros P. pose proof (chord l 0 (length l - 1) ltac:(lia)) as C. replace (arc l 0) with 0 in C by reflexivity. lra.
Qed.
(** A sample is the point with the parameter; every parameter from 0 to n-1 has a point, beyond it is the first or the last one, and at integers the points themselves. *)
Theorem C80_sample : forall l s, (2 <= length l)%nat ->
  (forall x, Sample_Polyline l s = Some x <-> at_param l s x \/ (s <= 0 /\ x = pt l 0) \/ (INR (length l - 1) <= s /\ x = pt l (length l - 1))) /\
  (exists x, Sample_Polyline l s = Some x) /\ (forall i, (i < length l)%nat -> Sample_Polyline l (INR i) = Some (pt l i)).
Proof.
  intros l s L.
  assert (A : s <= 0 -> Sample_Polyline l s = Some (pt l 0)). { intros H. unfold Sample_Polyline. rewrite (proj2 (Nat.ltb_lt 0 (length l))) by lia. cbn [assertb bind]. rewrite ltRf by lra. cbn [negb]. gv. auto. }
  assert (B : INR (length l - 1) <= s -> Sample_Polyline l s = Some (pt l (length l - 1))).
  { intros H. assert (1 <= INR (length l - 1)) by (apply (le_INR 1); lia). unfold Sample_Polyline. rewrite (proj2 (Nat.ltb_lt 0 (length l))) by lia. cbn [assertb bind]. rewrite ltRt by lra. cbn [negb]. rewrite ltRf by lra. cbn [negb]. gv. auto. }
  assert (C : exists x, Sample_Polyline l s = Some x /\ (at_param l s x \/ (s <= 0 /\ x = pt l 0) \/ (INR (length l - 1) <= s /\ x = pt l (length l - 1)))).
  { destruct (Rle_dec s 0) as [H|H]; [exists (pt l 0); auto 6|]. destruct (Rle_dec (INR (length l - 1)) s) as [H'|H']; [exists (pt l (length l - 1)); auto 6|]. destruct (param_exists l s L ltac:(lra)) as (x & X). exists x. split; auto. apply sample_ok; auto. }
  split; [|split].
  - intros x. split; [intros E; destruct C as (y & Y & D); rewrite E in Y; inversion Y; subst; auto|]. intros [H|[(H & ->)|(H & ->)]]; [apply sample_ok; auto|auto|auto].
  - destruct C as (x & X & _). eauto.
  - intros i I. apply sample_ok; auto. destruct i as [|i].
    + exists 0%nat, 0. split; [split; [lia|split; [lra|symmetry; apply comb_0]]|cbn; ring].
    + exists i, 1. split; [split; [lia|split; [lra|]]|rewrite S_INR; ring]. rewrite Nat.add_1_r. symmetry. apply comb_1.
Qed.
(** The tangent is the vector along the segment of the parameter, that of the first and the last segment beyond the ends ... *)
Theorem C80_tangent : forall l s, (2 <= length l)%nat ->
  (forall i, (i + 1 < length l)%nat -> INR i <= s < INR i + 1 -> Tangent_Polyline l s = Some (sub3 (pt l (i + 1)) (pt l i))) /\
  (s <= 0 -> Tangent_Polyline l s = Some (sub3 (pt l 1) (pt l 0))) /\ (INR (length l) <= s -> Tangent_Polyline l s = Some (sub3 (pt l (length l - 1)) (pt l (length l - 2)))).
Proof.
  intros l s L. split; [intros; apply tangent_ok; auto|]. unfold Tangent_Polyline. cbv zeta. rewrite (proj2 (Nat.leb_le 2 (length l))) by lia. cbn [assertb bind]. split; intros H.
  - rewrite ltRf by lra. cbn [negb]. gv. auto.
  - assert (2 <= INR (length l)) by (apply (le_INR 2); lia). rewrite ltRt by lra. cbn [negb]. rewrite ltRf by lra. cbn [negb]. gv. auto.
Qed.
(** ... but from the last point on, for less than one more, an assertion fails: Sample_Polyline accepts these parameters. *)
Theorem C80_tangent_after_end_refuted : forall l s, (2 <= length l)%nat -> INR (length l - 1) <= s < INR (length l) -> Tangent_Polyline l s = None /\ Sample_Polyline l s = Some (pt l (length l - 1)).
Proof.
  intros l s L S0. split; [|apply (C80_sample l s L); right; right; split; [lra|auto]]. assert (1 <= INR (length l - 1)) by (apply (le_INR 1); lia). unfold Tangent_Polyline. cbv zeta. rewrite (proj2 (Nat.leb_le 2 (length l))) by lia. cbn [assertb bind].
  rewrite ltRt by lra. cbn [negb]. rewrite ltRt by lra. cbn [negb]. rewrite (floor_unique s (length l - 1)). { rewrite Nat.ltb_irrefl. reflexivity. } split; [lra|]. rewrite <- S_INR. replace (S (length l - 1)) with (length l) by lia. lra.
Qed.
(** The nearest point: if the first segment has a length, the sample at the answer is a point of the polyline and none is nearer. *)
Theorem C80_nearest : forall l q, (2 <= length l)%nat -> pt l 0 <> pt l 1 -> exists s x, Nearest_Polyline l q = Some s /\ 0 <= s <= INR (length l - 1) /\ Sample_Polyline l s = Some x /\ closest (on_polyline l) q x.
Proof.
  intros l q L N. destruct (nearest_ok l q L N) as (s & x & E & A & C). exists s, x. split; [auto|]. split; [|split; [apply sample_ok; auto|auto]]. destruct A as (i & t & (I & T & _) & ->). pose proof (pos_INR i). assert (INR i + 1 <= INR (length l - 1)) by (rewrite <- S_INR; apply le_INR; lia). lra.
Qed.
(** If the first two points are the same the answer is not a number, whatever the rest; an empty polyline gives -1 and a point 0. *)
Theorem C80_nearest_repeated_start_refuted : forall l q, ((2 <= length l)%nat -> pt l 0 = pt l 1 -> Nearest_Polyline l q = None) /\ (l = [] -> Nearest_Polyline l q = Some (-1)) /\ (length l = 1%nat -> Nearest_Polyline l q = Some 0).
Proof.
  intros l q. split; [|split; [intros ->; reflexivity|intros L; unfold Nearest_Polyline; rewrite L; reflexivity]]. intros L E. unfold Nearest_Polyline. rewrite (proj2 (Nat.eqb_neq (length l) 0)), (proj2 (Nat.eqb_neq (length l) 1)) by lia. unfold forn. destruct (length l - 1 - 0)%nat as [|n] eqn:D; [lia|]. cbn [forn_]. gv. cbv zeta. cbn [Nat.add]. rewrite <- E. pose proof (eqRs (dot3 (sub3 (pt l 0) (pt l 0)) (sub3 (pt l 0) (pt l 0))) 0) as Q. destruct (eqR _ 0); [reflexivity|exfalso; apply Q; u3; ring].
Qed.
(** The nearest of the points: no point is nearer than the one answered; none is answered exactly if there is none. *)
Theorem C80_nearest_vertex : forall l q, exists a, FindNearestPointInPoints l q = Some a /\ match a with None => l = [] | Some (i, d) => (i < length l)%nat /\ d = dist3 (pt l i) q /\ forall j, (j < length l)%nat -> d <= dist3 (pt l j) q end.
Proof. intros l q. pose proof (nearest_vertex_ok l q) as H. destruct (FindNearestPointInPoints l q) as [a|]; [exists a; split; [auto|destruct a as [[i d]|]; auto]|contradiction]. Qed.
(** The length along the polyline to the nearest point: if no segment is shorter than 1e-10, the point at the answered length is nearest. *)
Theorem C80_arc_length : forall l q, (2 <= length l)%nat -> (forall i, (i + 1 < length l)%nat -> e10 <= seglen l i) -> exists s x, ArcLengthPointInPolyline l q = Some s /\ 0 <= s <= arc l (length l - 1) /\ at_arc l s x /\ closest (on_polyline l) q x.
Proof.
  intros l q L N. destruct (arc_nearest_ok l q L N) as (s & x & E & A & C). exists s, x. split; [auto|]. split; [|auto]. destruct A as (i & t & (I & T & _) & ->). pose proof (arc_pos l i). pose proof (seglen_pos l i) as SP. pose proof (arc_mono l (S i) (length l - 1) ltac:(lia)) as M. rewrite arc_S in M.
  assert (0 <= t * seglen l i) by (apply Rmult_le_pos; lra). assert (t * seglen l i <= 1 * seglen l i) by (apply Rmult_le_compat_r; lra). lra.
Qed.
(** Resampling with a positive step ends, and point k is at the length k*step: as many points as there are such lengths before the end.  Consecutive ones are not further apart than the step. *)
Theorem C80_resample : forall l step, (2 <= length l)%nat -> 0 < step -> exists fuel0, forall fuel, (fuel0 <= fuel)%nat -> exists r, Polyline_Resample_Polyline fuel l step = Some r /\ (1 <= length r)%nat /\
  (forall k, (k < length r)%nat -> at_arc l (INR k * step) (pt r k)) /\ (length r = 1%nat \/ INR (length r - 1) * step < arc l (length l - 1)) /\ arc l (length l - 1) <= INR (length r) * step /\
  (forall k, (k + 1 < length r)%nat -> dist3 (pt r k) (pt r (k + 1)) <= step).
Proof.
  intros l step L P. destruct (resample_ok l step L P) as (f0 & H). exists f0. intros fuel F. destruct (H fuel F) as (r & E & R1 & B & N & T). exists r. repeat (split; [auto|]). intros k K. pose proof (arc_lip _ _ _ _ _ (B k ltac:(lia)) (B (k + 1)%nat ltac:(lia))) as G. rewrite plus_INR in G. cbn [INR] in G. replace (INR k * step - (INR k + 1) * step) with (- step) in G by ring. rewrite Rabs_Ropp, Rabs_pos_eq in G by lra. auto.
Qed.
(** With a step that is not positive it never ends, however long one waits, if the first segment has a length. *)
Theorem C80_resample_ends_refuted : forall l step, (2 <= length l)%nat -> pt l 0 <> pt l 1 -> step <= 0 -> forall fuel, Polyline_Resample_Polyline fuel l step = None.
Proof. exact resample_diverges. Qed.
(** Smoothing changes at most the inner points from two before to one after the given one; each of them moves towards the middle of its new predecessor and its old successor. *)
Theorem C80_smooth : forall l v d, exists r, Smooth_Polyline l v d = Some r /\ length r = length l /\ forall i,
  ((v < length l)%nat /\ (v <= i + 2)%nat /\ (i <= v + 1)%nat /\ (0 < i)%nat /\ (i + 1 < length l)%nat -> pt r i = comb d (1 - d) 0 (pt l i) (mid2 (pt r (i - 1)) (pt l (i + 1))) origin3) /\
  (~ ((v < length l)%nat /\ (v <= i + 2)%nat /\ (i <= v + 1)%nat /\ (0 < i)%nat /\ (i + 1 < length l)%nat) -> pt r i = pt l i).
Proof.
  intros l v d. destruct (Nat.lt_ge_cases v (length l)) as [V|V].
  - destruct (smooth_ok l v d V) as (r & E & L & H). exists r. split; [auto|]. split; [auto|]. intros i. destruct (H i) as (H1 & H2). split.
    + intros T. rewrite H1 by (unfold touched; lia). veq.
    + intros T. apply H2. intros (T1 & T2 & T3). apply T. lia.
  - exists l. unfold Smooth_Polyline. rewrite (proj2 (Nat.leb_le (length l) v)) by auto. split; [auto|]. split; [auto|]. intros i. split; [lia|auto].
Qed.
(** So with a factor 1 nothing changes, and with a factor from 0 to 1 no point leaves a half space that contains the polyline. *)
Theorem C80_smooth_stays : forall l v d r, Smooth_Polyline l v d = Some r ->
  (d = 1 -> r = l) /\ (0 <= d <= 1 -> forall n c, (forall i, (i < length l)%nat -> dot3 n (pt l i) <= c) -> forall i, (i < length l)%nat -> dot3 n (pt r i) <= c).
Proof.
  intros l v d r E. destruct (C80_smooth l v d) as (r' & E' & L & H). rewrite E in E'. inversion E'. subst r'. clear E'. 
  assert (D : forall i, pt r i = comb d (1 - d) 0 (pt l i) (mid2 (pt r (i - 1)) (pt l (i + 1))) origin3 /\ (0 < i)%nat /\ (i + 1 < length l)%nat \/ pt r i = pt l i).
  { intros i. destruct (H i) as (H1 & H2).
    assert (DEC : ((v < length l)%nat /\ (v <= i + 2)%nat /\ (i <= v + 1)%nat /\ (0 < i)%nat /\ (i + 1 < length l)%nat) \/ ~ ((v < length l)%nat /\ (v <= i + 2)%nat /\ (i <= v + 1)%nat /\ (0 < i)%nat /\ (i + 1 < length l)%nat)) by lia.
    destruct DEC as [T|T]; [left; split; [auto|lia]|right; auto]. }
  split.
  - intros ->. apply nth_ext with (d := origin3) (d' := origin3); auto. intros i I. fold (pt r i). fold (pt l i). destruct (D i) as [(-> & _)| ->]; auto. veq.
  - intros T n c B i. induction i as [i IH] using lt_wf_ind. intros I. destruct (D i) as [(-> & I0 & I1)| ->]; auto. pose proof (IH (i - 1)%nat ltac:(lia) ltac:(lia)) as A. pose proof (B i I) as B1. pose proof (B (i + 1)%nat I1) as B2.
    replace (dot3 n _) with (d * dot3 n (pt l i) + (1 - d) * ((dot3 n (pt r (i - 1)) + dot3 n (pt l (i + 1))) / 2)) by (unfold mid2; u3; field).
    assert (d * dot3 n (pt l i) <= d * c) by (apply Rmult_le_compat_l; lra). assert ((1 - d) * ((dot3 n (pt r (i - 1)) + dot3 n (pt l (i + 1))) / 2) <= (1 - d) * c) by (apply Rmult_le_compat_l; lra). lra.
Qed.
(** The box is the smallest one around the points. *)
Theorem C80_box : forall l, l <> [] -> exists lo hi, AABB_Polyline l = Some (lo, hi) /\ box_of (fun p => In p l) lo hi.
Proof. exact aabb_ok. Qed.
(** Moving and turning keep the distances between the points and the length; turning by two angles is turning by their sum. *)
Theorem C80_motions : forall l dx dy t u,
  (forall i, (i < length l)%nat -> pt (Translate2 l dx dy) i = comb 1 1 0 (pt l i) (V3 dx dy 0) origin3) /\
  (forall i j, (i < length l)%nat -> (j < length l)%nat -> dist3 (pt (Rotate2 l t) i) (pt (Rotate2 l t) j) = dist3 (pt l i) (pt l j)) /\
  length (Translate2 l dx dy) = length l /\ length (Rotate2 l t) = length l /\ Length_Polyline (Translate2 l dx dy) = Length_Polyline l /\ Length_Polyline (Rotate2 l t) = Length_Polyline l /\
  Rotate2 (Rotate2 l t) u = Rotate2 l (t + u) /\ Rotate2 l 0 = l /\ Rotate2 [V3 1 0 0] (PI / 2) = [V3 0 1 0].
Proof.
  intros l dx dy t u. split; [|split; [|split; [apply map_length|split; [apply map_length|split; [apply rigid_len, translate_dist|split; [apply rigid_len, rotate_dist|split; [|split]]]]]]].
  - intros i I. unfold Translate2. rewrite pt_map by auto. apply v3_eq; u3; ring.
  - intros i j I J. unfold Rotate2. rewrite !pt_map by auto. apply rotate_dist.
  - unfold Rotate2. rewrite map_map. apply map_ext. intros p. rewrite cos_plus, sin_plus. apply v3_eq; u3; ring.
  - unfold Rotate2. rewrite <- map_id. apply map_ext. intros p. rewrite cos_0, sin_0. apply v3_eq; u3; ring.
  - unfold Rotate2. cbn [map]. rewrite cos_PI2, sin_PI2. f_equal. apply v3_eq; u3; ring.
Qed.

(** *** Cases *)
Definition ex_pl : list vec3 := [V3 0 0 0; V3 3 4 0; V3 3 4 2].
Lemma ex_len : seglen ex_pl 0 = 5 /\ seglen ex_pl 1 = 2.
Proof. unfold seglen. rewrite !dist_norm. unfold norm3, ex_pl, pt. cbn [nth Nat.add]. split; [replace (dot3 _ _) with (5 * 5) by (u3; ring); apply sqrt_square; lra|replace (dot3 _ _) with (2 * 2) by (u3; ring); apply sqrt_square; lra]. Qed.
Example ex_hyps : (2 <= length ex_pl)%nat /\ pt ex_pl 0 <> pt ex_pl 1 /\ (forall i, (i + 1 < length ex_pl)%nat -> e10 <= seglen ex_pl i) /\ Length_Polyline ex_pl = Some 7.
Proof.
  destruct ex_len as (A & B). split; [cbn; lia|]. split; [intros E; apply (f_equal vx) in E; cbn in E; lra|]. split.
  - intros i I. assert (e10 <= 1). { unfold e10. rewrite <- Rinv_1. apply Rinv_le_contravar; [lra|]. rewrite <- (pow1 10). apply pow_incr. lra. } cbn in I. destruct i as [|[|i]]; [lra|lra|lia].
  - rewrite length_ok. unfold arc. cbn [length Nat.sub ex_pl sum]. fold ex_pl. rewrite A, B. f_equal. ring.
Qed.
Example ex_sample : Sample_Polyline ex_pl (3/2) = Some (V3 3 4 1).
Proof. apply sample_ok; [cbn; lia|]. exists 1%nat, (1/2). split; [split; [cbn; lia|split; [lra|unfold pt; cbn [nth Nat.add ex_pl]; apply v3_eq; u3; lra]]|cbn [INR]; lra]. Qed.
(** Steps of 3 along a length of 7 give the points at 0, 3 and 6. *)
Example ex_resample : exists r fuel, Polyline_Resample_Polyline fuel ex_pl 3 = Some r /\ length r = 3%nat.
Proof.
  destruct ex_hyps as (L & _ & _ & LN). rewrite length_ok in LN. assert (T : arc ex_pl (length ex_pl - 1) = 7) by congruence. destruct (C80_resample ex_pl 3 L ltac:(lra)) as (f & H). destruct (H f ltac:(lia)) as (r & E & R1 & _ & N & G & _). exists r, f. split; auto. rewrite T in *.
  assert (2 < length r)%nat. { apply INR_lt. cbn [INR]. lra. } destruct N as [N|N]; [lia|]. assert (length r - 1 < 3)%nat; [|lia]. apply INR_lt. cbn [INR]. lra.
Qed.
Example ex_smooth : Smooth_Polyline ex_pl 1 (1/2) = Some [V3 0 0 0; V3 (9/4) 3 (1/2); V3 3 4 2].
Proof. unfold Smooth_Polyline, ex_pl, forn. cbn [length Nat.leb Nat.sub forn_]. cbn -[add3 mul3 Rminus Rdiv]. do 2 (change (Pos.to_nat 1) with 1%nat; change (Pos.to_nat 2) with 2%nat; cbn -[add3 mul3 Rminus Rdiv]). do 3 f_equal. apply v3_eq; u3; lra. Qed.

Print Assumptions C80_length.
Print Assumptions C80_sample.
Print Assumptions C80_tangent.
Print Assumptions C80_tangent_after_end_refuted.
Print Assumptions C80_nearest.
Print Assumptions C80_nearest_repeated_start_refuted.
Print Assumptions C80_nearest_vertex.
Print Assumptions C80_arc_length.
Print Assumptions C80_resample.
Print Assumptions C80_resample_ends_refuted.
Print Assumptions C80_smooth.
Print Assumptions C80_smooth_stays.
Print Assumptions C80_box.
Print Assumptions C80_motions.
