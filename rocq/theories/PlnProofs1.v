(** Polylines: samples, nearest points and lengths. *)
From Coq Require Import List Arith Bool ZArith Reals Lra Lia.
Import ListNotations.
From Verif Require Import Imp PrModel QuatModel ProxModel ProxSpec GjkProofs1 ProxProofs1 MeasSpec MeasProofs2 MeasProofs3 BspProofs1 BspProofs2 PlnModel PlnSpec.
Open Scope R_scope.

Ltac gv := rewrite ?(vget_nth _ origin3) by (auto; lia); cbn [bind]; repeat match goal with |- context [nth ?i ?l origin3] => change (nth i l origin3) with (pt l i) end.
Lemma ltRf : forall a b, b <= a -> ltR a b = false. Proof. intros a b H. pose proof (ltRs a b) as Q. destruct (ltR a b); auto; lra. Qed.
Lemma ltRt : forall a b, a < b -> ltR a b = true. Proof. intros a b H. pose proof (ltRs a b) as Q. destruct (ltR a b); auto; lra. Qed.
Lemma dist_pos : forall a b, 0 <= dist3 a b. Proof. intros. rewrite dist_norm. apply norm_pos. Qed.
Lemma dist_sym : forall a b, dist3 a b = dist3 b a. Proof. intros. rewrite !dist_norm. apply norm_neg. Qed.
Lemma dist_tri : forall a b c, dist3 a c <= dist3 a b + dist3 b c.
Proof. intros. rewrite !dist_norm. replace (sub3 a c) with (add3 (sub3 a b) (sub3 b c)) by veq. apply norm_tri. Qed.
Lemma dist_same : forall a, dist3 a a = 0. Proof. intros. rewrite dist_norm. unfold norm3. replace (dot3 (sub3 a a) (sub3 a a)) with 0 by (u3; ring). apply sqrt_0. Qed.
Lemma seg_two : forall a b t s, dist3 (comb (1 - t) t 0 a b origin3) (comb (1 - s) s 0 a b origin3) = Rabs (t - s) * dist3 a b.
Proof. intros. rewrite !dist_norm, (norm_neg a b), <- norm_scale. f_equal. veq. Qed.
Lemma comb_0 : forall a b, comb (1 - 0) 0 0 a b origin3 = a. Proof. intros. veq. Qed.
Lemma comb_1 : forall a b, comb (1 - 1) 1 0 a b origin3 = b. Proof. intros. veq. Qed.
Lemma seglen_pos : forall l i, 0 <= seglen l i. Proof. intros. apply dist_pos. Qed.
Lemma arc_S : forall l n, arc l (S n) = arc l n + seglen l n. Proof. reflexivity. Qed.
Lemma arc_mono : forall l m n, (m <= n)%nat -> arc l m <= arc l n.
Proof. intros l m n H. induction H; [lra|]. rewrite arc_S. pose proof (seglen_pos l m0). lra. Qed.
Lemma arc_pos : forall l n, 0 <= arc l n. Proof. intros. apply (arc_mono l 0 n). lia. Qed.
Lemma chord : forall l m n, (m <= n)%nat -> dist3 (pt l m) (pt l n) <= arc l n - arc l m.
Proof. intros l m n H. induction H; [rewrite dist_same; lra|]. rewrite arc_S. pose proof (dist_tri (pt l m) (pt l m0) (pt l (S m0))). unfold seglen. rewrite Nat.add_1_r. lra. Qed.
(** Points are not further apart than along the polyline. *)
Lemma arc_lip : forall l s x s' x', at_arc l s x -> at_arc l s' x' -> dist3 x x' <= Rabs (s - s').
Proof.
  assert (G : forall l s x s' x' i t i' t', on_segment l i t x -> on_segment l i' t' x' -> s = arc l i + t * seglen l i -> s' = arc l i' + t' * seglen l i' -> (i <= i')%nat -> dist3 x x' <= Rabs (s - s')).
  { intros l s x s' x' i t i' t' (_ & T & ->) (_ & T' & ->) -> -> L. destruct (Nat.eq_dec i i') as [->|N].
    - rewrite seg_two. fold (seglen l i'). replace (arc l i' + t * seglen l i' - (arc l i' + t' * seglen l i')) with ((t - t') * seglen l i') by ring. rewrite Rabs_mult, (Rabs_pos_eq (seglen l i')) by apply seglen_pos. lra.
    - assert (L' : (S i <= i')%nat) by lia. pose proof (chord l _ _ L') as C. rewrite arc_S in C.
      set (x := comb (1 - t) t 0 (pt l i) (pt l (i + 1)) origin3). set (x' := comb (1 - t') t' 0 (pt l i') (pt l (i' + 1)) origin3).
      assert (A : dist3 x (pt l (S i)) = (1 - t) * seglen l i). { unfold x. rewrite <- (Nat.add_1_r i). rewrite <- (comb_1 (pt l i) (pt l (i + 1))) at 2. rewrite seg_two. fold (seglen l i). rewrite Rabs_left1 by lra. ring. }
      assert (B : dist3 (pt l i') x' = t' * seglen l i'). { unfold x'. rewrite <- (comb_0 (pt l i') (pt l (i' + 1))) at 1. rewrite seg_two. fold (seglen l i'). rewrite Rabs_left1 by lra. ring. }
      pose proof (dist_tri x (pt l (S i)) x'). pose proof (dist_tri (pt l (S i)) (pt l i') x'). rewrite <- Rabs_Ropp. eapply Rle_trans; [|apply Rle_abs]. lra. }
  intros l s x s' x' (i & t & A & E) (i' & t' & A' & E'). destruct (Nat.le_ge_cases i i'); [eapply G; eauto|]. rewrite dist_sym, Rabs_minus_sym. eapply G; eauto.
Qed.
Lemma sum_loop : forall l n acc, (n + 1 <= length l)%nat \/ n = 0%nat -> forn 0 n (fun ip len => p1 <- vget l (ip + 1) ;; p0 <- vget l ip ;; Some (len + norm3 (sub3 p1 p0))) acc = Some (acc + arc l n).
Proof.
  intros l n acc H. assert (W : wp (forn 0 n (fun ip len => p1 <- vget l (ip + 1) ;; p0 <- vget l ip ;; Some (len + norm3 (sub3 p1 p0))) acc) (fun r => r = acc + arc l n)).
  { apply wp_forn with (I := fun i r => r = acc + arc l i); [lia|cbn; ring| |auto]. intros i r I ->. gv. apply wp_some. rewrite arc_S. unfold seglen. rewrite dist_norm, norm_neg. ring. }
  apply wp_ex in W. destruct W as (x & -> & ->). reflexivity.
Qed.
Lemma length_ok : forall l, Length_Polyline l = Some (arc l (length l - 1)).
Proof. intros l. unfold Length_Polyline. destruct (Nat.ltb_spec (length l) 2). - replace (length l - 1)%nat with 0%nat by lia. reflexivity. - rewrite sum_loop by lia. f_equal. ring. Qed.
(** *** Samples *)
Lemma floor_ok : forall x, 0 <= x -> INR (Z.to_nat (Int_part x)) <= x < INR (Z.to_nat (Int_part x)) + 1.
Proof.
  intros x X. destruct (base_Int_part x) as (P & Q). assert (Z0 : (0 <= Int_part x)%Z). { assert ((-1 < Int_part x)%Z); [|lia]. apply lt_IZR. lra. } rewrite INR_IZR_INZ, Z2Nat.id by auto. lra.
Qed.
Lemma floor_unique : forall x i, INR i <= x < INR i + 1 -> Z.to_nat (Int_part x) = i.
Proof.
  intros x i H. pose proof (floor_ok x ltac:(pose proof (pos_INR i); lra)) as F. set (k := Z.to_nat (Int_part x)) in *. assert (k < i + 1)%nat by (apply INR_lt; rewrite plus_INR; cbn [INR]; lra). assert (i < k + 1)%nat by (apply INR_lt; rewrite plus_INR; cbn [INR]; lra). lia.
Qed.
Lemma sample_ok : forall l s x, (2 <= length l)%nat -> at_param l s x -> Sample_Polyline l s = Some x.
Proof.
  intros l s x L (i & t & (I & T & ->) & ->). unfold Sample_Polyline. rewrite (proj2 (Nat.ltb_lt 0 (length l))) by lia. cbn [assertb bind]. pose proof (pos_INR i) as Pi. assert (Hi : INR i + 1 <= INR (length l - 1)) by (rewrite <- S_INR; apply le_INR; lia).
  pose proof (ltRs 0 (INR i + t)) as Q. destruct (ltR 0 (INR i + t)); cbn [negb].
  2:{ assert (t = 0) by lra. assert (INR i = 0) by lra. assert (i = 0)%nat by (apply INR_eq; cbn; auto). subst. gv. rewrite comb_0. auto. }
  pose proof (ltRs (INR i + t) (INR (length l - 1))) as Q'. destruct (ltR (INR i + t) (INR (length l - 1))); cbn [negb].
  2:{ assert (t = 1) by lra. assert (E : INR (length l - 1) = INR (i + 1)) by (rewrite plus_INR; cbn [INR]; lra). apply INR_eq in E. subst. gv. rewrite E, comb_1. auto. }
  cbv zeta. destruct (Rlt_dec t 1) as [T1|T1].
  - rewrite (floor_unique (INR i + t) i) by lra. replace (INR i + t - INR i) with t by ring. rewrite !ltRf by lra. cbn [negb andb assertb bind]. gv. f_equal. veq.
  - assert (t = 1) by lra. subst t. rewrite (floor_unique (INR i + 1) (i + 1)%nat) by (rewrite plus_INR; cbn [INR]; lra). rewrite plus_INR. cbn [INR]. replace (INR i + 1 - (INR i + 1)) with 0 by ring. rewrite !ltRf by lra. cbn [negb andb assertb bind].
    assert ((i + 1 + 1 < length l)%nat). { assert (i + 1 < length l - 1)%nat; [|lia]. apply INR_lt. rewrite plus_INR. cbn [INR]. auto. } gv. f_equal. rewrite comb_1. veq.
Qed.
Lemma param_exists : forall l s, (2 <= length l)%nat -> 0 <= s <= INR (length l - 1) -> exists x, at_param l s x.
Proof.
  intros l s L S0. destruct (Rlt_dec s (INR (length l - 1))) as [H|H].
  - pose proof (floor_ok s ltac:(lra)) as F. set (i := Z.to_nat (Int_part s)) in *. assert (i < length l - 1)%nat by (apply INR_lt; lra). eexists. exists i, (s - INR i). split; [split; [lia|split; [lra|reflexivity]]|ring].
  - eexists. exists (length l - 2)%nat, 1. split; [split; [lia|split; [lra|reflexivity]]|]. replace (length l - 1)%nat with (S (length l - 2)) in * by lia. rewrite S_INR in *. lra.
Qed.
(** *** Nearest points *)
Lemma nearest_vertex_ok : forall l q, match FindNearestPointInPoints l q with Some (Some (i, d)) => (i < length l)%nat /\ d = dist3 (pt l i) q /\ forall j, (j < length l)%nat -> d <= dist3 (pt l j) q | Some None => l = [] | None => False end.
Proof.
  intros l q. assert (W : wp (FindNearestPointInPoints l q) (fun r => match r with None => length l = 0%nat | Some (i, d) => (i < length l)%nat /\ d = dist3 (pt l i) q /\ forall j, (j < length l)%nat -> d <= dist3 (pt l j) q end)).
  { unfold FindNearestPointInPoints. apply wp_forn with (I := fun n r => match r with None => n = 0%nat | Some (i, d) => (i < n)%nat /\ d = dist3 (pt l i) q /\ forall j, (j < n)%nat -> d <= dist3 (pt l j) q end); [lia|auto| |auto].
    intros n r N H. gv. cbv zeta. rewrite <- dist_norm, dist_sym. destruct r as [[i d]|].
    - destruct H as (I & D & B). pose proof (ltRs (dist3 (pt l n) q) d) as Q. destruct (ltR (dist3 (pt l n) q) d); apply wp_some.
      + split; [lia|]. split; [auto|]. intros j J. destruct (Nat.eq_dec j n) as [->|]; [lra|]. specialize (B j ltac:(lia)). lra.
      + split; [lia|]. split; [auto|]. intros j J. destruct (Nat.eq_dec j n) as [->|]; [lra|]. apply B. lia.
    - apply wp_some. subst n. split; [lia|]. split; [auto|]. intros j J. assert (j = 0%nat) by lia. subst. lra. }
  destruct (FindNearestPointInPoints l q) as [[[i d]|]|]; cbn [wp] in W; auto. destruct l; auto. discriminate.
Qed.
Lemma clampR_ok : forall t, 0 <= clampR t 0 1 <= 1 /\ forall s, 0 <= s <= 1 -> 0 <= (s - clampR t 0 1) * (clampR t 0 1 - t).
Proof.
  intros t. unfold clampR. pose proof (ltRs t 0) as Q. destruct (ltR t 0).
  - split; [lra|]. intros. apply Rmult_le_pos; lra.
  - pose proof (ltRs 1 t) as Q'. destruct (ltR 1 t).
    + split; [lra|]. intros. replace ((s - 1) * (1 - t)) with ((1 - s) * (t - 1)) by ring. apply Rmult_le_pos; lra.
    + split; [lra|]. intros. lra.
Qed.
Lemma seg_nearest : forall a b q t, dot3 (sub3 b a) (sub3 b a) <> 0 -> t = clampR (- dot3 (sub3 b a) (sub3 a q) / dot3 (sub3 b a) (sub3 b a)) 0 1 -> 0 <= t <= 1 /\ forall y, segment a b y -> dist3 (comb (1 - t) t 0 a b origin3) q <= dist3 y q.
Proof.
  intros a b q t N ->. destruct (clampR_ok (- dot3 (sub3 b a) (sub3 a q) / dot3 (sub3 b a) (sub3 b a))) as (T & C). set (t := clampR _ 0 1) in *. split; [auto|]. intros y (s & S0 & ->). apply dist_le. unfold d2.
  pose proof (quad (sub3 a q) (sub3 b a) t s ltac:(pose proof (dot_pos (sub3 b a)); lra) (C s S0)) as G. replace (sub3 (comb (1 - t) t 0 a b origin3) q) with (add3 (sub3 a q) (mul3 t (sub3 b a))) by veq. replace (sub3 (comb (1 - s) s 0 a b origin3) q) with (add3 (sub3 a q) (mul3 s (sub3 b a))) by veq. exact G.
Qed.
Definition best_in (l : list vec3) (q : vec3) (n i : nat) (t d : R) : Prop := (i < n)%nat /\ 0 <= t <= 1 /\ d = dist3 (comb (1 - t) t 0 (pt l i) (pt l (i + 1)) origin3) q /\ forall k y, (k < n)%nat -> segment (pt l k) (pt l (k + 1)) y -> d <= dist3 y q.
Lemma nearest_ok : forall l q, (2 <= length l)%nat -> pt l 0 <> pt l 1 -> exists s x, Nearest_Polyline l q = Some s /\ at_param l s x /\ closest (on_polyline l) q x.
Proof.
  intros l q L N. unfold Nearest_Polyline. rewrite (proj2 (Nat.eqb_neq (length l) 0)), (proj2 (Nat.eqb_neq (length l) 1)) by lia.
  match goal with |- exists s x, bind ?e _ = _ /\ _ => assert (W : wp e (fun r => exists i t d, r = Some (i, t, d) /\ best_in l q (length l - 1) i t d)) end.
  { apply wp_forn with (I := fun n r => match r with None => n = 0%nat | Some (i, t, d) => best_in l q n i t d end); [lia|auto| |].
    - intros n r Hn H. gv. cbv zeta. set (a := dot3 (sub3 (pt l (n + 1)) (pt l n)) (sub3 (pt l (n + 1)) (pt l n))) in *. pose proof (eqRs a 0) as Q. destruct (eqR a 0).
      + assert (E : pt l (n + 1) = pt l n). { apply dot_zero in Q. apply v3_eq; [apply (f_equal vx) in Q|apply (f_equal vy) in Q|apply (f_equal vz) in Q]; u3; lra. }
        destruct r as [[[i t] d]|]; [|subst n; cbn in E; congruence]. apply wp_some. destruct H as (I & T & D & B). split; [lia|]. split; [auto|]. split; [auto|]. intros k y K Y. destruct (Nat.eq_dec k n) as [->|]; [|apply B with k; auto; lia].
        apply B with (n - 1)%nat; [lia|]. exists 1. split; [lra|]. replace (n - 1 + 1)%nat with n by lia. rewrite comb_1. destruct Y as (s & _ & ->). rewrite E. veq.
      + destruct (seg_nearest (pt l n) (pt l (n + 1)) q _ Q eq_refl) as (T & G). fold a in T, G. set (t := clampR _ 0 1) in *. replace (add3 (mul3 (1 - t) (pt l n)) (mul3 t (pt l (n + 1)))) with (comb (1 - t) t 0 (pt l n) (pt l (n + 1)) origin3) by veq. rewrite <- dist_norm. set (d' := dist3 _ q) in *.
        assert (X : forall i t0 d, best_in l q n i t0 d -> d' < d -> best_in l q (S n) n t d'). { intros i t0 d (I & T0 & D & B) Hd. split; [lia|]. split; [auto|]. split; [auto|]. intros k y K Y. destruct (Nat.eq_dec k n) as [->|]; [apply G; auto|]. specialize (B k y ltac:(lia) Y). lra. }
        destruct r as [[[i t0] d]|].
        * pose proof (ltRs d' d) as Q'. destruct (ltR d' d); apply wp_some; [eapply X; eauto|]. destruct H as (I & T0 & D & B). split; [lia|]. split; [auto|]. split; [auto|]. intros k y K Y. destruct (Nat.eq_dec k n) as [->|]; [specialize (G y Y); lra|apply B with k; auto; lia].
        * apply wp_some. subst n. split; [lia|]. split; [auto|]. split; [auto|]. intros k y K Y. assert (k = 0)%nat by lia. subst k. apply G; auto.
    - intros r H. destruct r as [[[i t] d]|]; [eauto|lia]. }
  apply wp_ex in W. destruct W as (r & -> & i & t & d & -> & I & T & D & B). cbn [bind]. exists (INR i + t), (comb (1 - t) t 0 (pt l i) (pt l (i + 1)) origin3). split; [auto|]. split; [exists i, t; split; [split; [lia|auto]|auto]|]. split; [exists i; split; [lia|exists t; auto]|]. intros y (k & K & Y). rewrite <- D. apply B with k; auto. lia.
Qed.
Lemma arc_nearest_ok : forall l q, (2 <= length l)%nat -> (forall i, (i + 1 < length l)%nat -> e10 <= seglen l i) -> exists s x, ArcLengthPointInPolyline l q = Some s /\ at_arc l s x /\ closest (on_polyline l) q x.
Proof.
  intros l q L N. unfold ArcLengthPointInPolyline. rewrite (proj2 (Nat.ltb_ge (length l) 2)) by lia.
  match goal with |- exists s x, bind ?e _ = _ /\ _ => assert (W : wp e (fun r => exists i t d, r = Some (i, comb (1 - t) t 0 (pt l i) (pt l (i + 1)) origin3, d) /\ best_in l q (length l - 1) i t d)) end.
  { apply wp_forn with (I := fun n r => match r with None => n = 0%nat | Some (i, p, d) => exists t, p = comb (1 - t) t 0 (pt l i) (pt l (i + 1)) origin3 /\ best_in l q n i t d end); [lia|auto| |].
    - intros n r Hn H. gv. cbv zeta. destruct (Nearest_Edge_Point_ok q (pt l n) (pt l (n + 1))) as (x & t & E & T & X & C & _). rewrite E. cbn [fst].
      assert (D2 : e20 <= d2 (pt l n) (pt l (n + 1))). { specialize (N n ltac:(lia)). unfold seglen in N. rewrite dist_norm in N. unfold d2. rewrite <- norm_sq, e20_sq. pose proof e10_pos. apply Rmult_le_compat; lra. }
      destruct (C D2) as (_ & G). rewrite <- dist_norm.
      destruct r as [[[i p] d]|].
      + destruct H as (t0 & -> & I & T0 & D & B). pose proof (ltRs (dist3 x q) d) as Q'. destruct (ltR (dist3 x q) d); apply wp_some.
        * exists t. split; [auto|]. split; [lia|]. split; [auto|]. split; [rewrite X; auto|]. intros k y K Y. destruct (Nat.eq_dec k n) as [->|]; [apply G; auto|]. specialize (B k y ltac:(lia) Y). lra.
        * exists t0. split; [auto|]. split; [lia|]. split; [auto|]. split; [auto|]. intros k y K Y. destruct (Nat.eq_dec k n) as [->|]; [specialize (G y Y); lra|apply B with k; auto; lia].
      + apply wp_some. subst n. exists t. split; [auto|]. split; [lia|]. split; [auto|]. split; [rewrite X; auto|]. intros k y K Y. assert (k = 0)%nat by lia. subst k. apply G; auto.
    - intros r H. destruct r as [[[i p] d]|]; [|lia]. destruct H as (t & -> & H). exists i, t, d. auto. }
  apply wp_ex in W. destruct W as (r & -> & i & t & d & -> & I & T & D & B). cbn [bind]. rewrite sum_loop by lia. gv. set (x := comb (1 - t) t 0 (pt l i) (pt l (i + 1)) origin3) in *. eexists _, x. split; [reflexivity|]. split.
  - exists i, t. split; [split; [lia|split; [auto|reflexivity]]|]. rewrite <- dist_norm. unfold x. rewrite <- (comb_0 (pt l i) (pt l (i + 1))) at 2. rewrite seg_two, Rabs_pos_eq by lra. fold (seglen l i). ring.
  - split; [exists i; split; [lia|exists t; auto]|]. intros y (k & K & Y). fold x in D. rewrite <- D. apply B with k; auto. lia.
Qed.
