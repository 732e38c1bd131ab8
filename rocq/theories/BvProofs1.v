From Coq Require Import List Arith Bool Reals Lra Lia.
Import ListNotations.
From Verif Require Import Imp MortModel MortSpec BvModel BvSpec.
Open Scope R_scope.

Lemma Rltb_spec : forall a b, if Rltb a b then a < b else b <= a.
Proof. intros. unfold Rltb. destruct (Rlt_dec a b); lra. Qed.
Lemma Rleb_spec : forall a b, if Rleb a b then a <= b else b < a.
Proof. intros. unfold Rleb. destruct (Rle_dec a b); lra. Qed.
Lemma Rltb_true : forall a b, Rltb a b = true <-> a < b.
Proof. intros. pose proof (Rltb_spec a b). destruct (Rltb a b); split; intros; try lra; try discriminate; auto. Qed.
Lemma Rleb_true : forall a b, Rleb a b = true <-> a <= b.
Proof. intros. pose proof (Rleb_spec a b). destruct (Rleb a b); split; intros; try lra; try discriminate; auto. Qed.
Lemma Rltb_false : forall a b, Rltb a b = false <-> b <= a.
Proof. intros. pose proof (Rltb_spec a b). destruct (Rltb a b); split; intros; try lra; try discriminate; auto. Qed.
Lemma Rleb_false : forall a b, Rleb a b = false <-> b < a.
Proof. intros. pose proof (Rleb_spec a b). destruct (Rleb a b); split; intros; try lra; try discriminate; auto. Qed.

Ltac rdec := repeat match goal with
  | |- context [Rltb ?a ?b] => let H := fresh "L" in pose proof (Rltb_spec a b) as H; destruct (Rltb a b); cbn [negb andb orb] in *
  | |- context [Rleb ?a ?b] => let H := fresh "L" in pose proof (Rleb_spec a b) as H; destruct (Rleb a b); cbn [negb andb orb] in *
  | H0 : context [Rltb ?a ?b] |- _ => let H := fresh "L" in pose proof (Rltb_spec a b) as H; destruct (Rltb a b); cbn [negb andb orb] in *
  | H0 : context [Rleb ?a ?b] |- _ => let H := fresh "L" in pose proof (Rleb_spec a b) as H; destruct (Rleb a b); cbn [negb andb orb] in *
  end.

(** distances *)
Lemma Distance3_dist : forall p q, Distance3 p q = dist p q.
Proof. intros. unfold Distance3, dist. f_equal. ring. Qed.
Lemma dist_sym : forall p q, dist p q = dist q p.
Proof. intros. unfold dist. f_equal. ring. Qed.
Lemma dist_pos : forall p q, 0 <= dist p q.
Proof. intros. apply sqrt_pos. Qed.
Lemma dist_refl : forall p, dist p p = 0.
Proof. intros. unfold dist. rewrite !Rminus_diag_eq by auto. replace (0 ^ 2 + 0 ^ 2 + 0 ^ 2) with 0 by ring. apply sqrt_0. Qed.
Lemma ss3 : forall a b c : R, 0 <= a ^ 2 + b ^ 2 + c ^ 2.
Proof. intros. pose proof (pow2_ge_0 a). pose proof (pow2_ge_0 b). pose proof (pow2_ge_0 c). lra. Qed.
Lemma dist_sq : forall p q, dist p q * dist p q = (vx p - vx q) ^ 2 + (vy p - vy q) ^ 2 + (vz p - vz q) ^ 2.
Proof. intros. unfold dist. apply sqrt_sqrt. apply ss3. Qed.
Lemma dist_tri : forall p q r, dist p r <= dist p q + dist q r.
Proof.
  intros p q r. pose proof (dist_pos p q) as P1. pose proof (dist_pos q r) as P2. pose proof (dist_pos p r) as P3.
  pose proof (dist_sq p q) as S1. pose proof (dist_sq q r) as S2. pose proof (dist_sq p r) as S3.
  destruct p as [px py pz], q as [qx qy qz], r as [rx ry rz]. cbn [vx vy vz] in *.
  set (a := dist _ _) in *. set (b := dist (V3 qx qy qz) (V3 rx ry rz)) in *. set (c := dist (V3 px py pz) (V3 rx ry rz)) in *.
  set (ux := px - qx) in *. set (uy := py - qy) in *. set (uz := pz - qz) in *.
  set (wx := qx - rx) in *. set (wy := qy - ry) in *. set (wz := qz - rz) in *.
  assert (E : c * c = a * a + b * b + 2 * (ux * wx + uy * wy + uz * wz)).
  { rewrite S3, S1, S2. unfold ux, uy, uz, wx, wy, wz. ring. }
  set (d := ux * wx + uy * wy + uz * wz) in *.
  assert (CS : d * d <= (a * a) * (b * b)).
  { rewrite S1, S2. unfold d.
    pose proof (ss3 (ux * wy - uy * wx) (ux * wz - uz * wx) (uy * wz - uz * wy)).
    lra. }
  assert (d <= a * b).
  { assert (0 <= a * b) by nra. destruct (Rle_dec d (a * b)); auto. exfalso. nra. }
  destruct (Rle_dec c (a + b)); auto. exfalso. nra.
Qed.

(** A point at parameter [t] on the way from [p] to [q]. *)
Definition lerp (p q : v3) (t : R) : v3 := V3 (vx p + t * (vx q - vx p)) (vy p + t * (vy q - vy p)) (vz p + t * (vz q - vz p)).
Lemma dist_lerp : forall p q t, dist (lerp p q t) p = Rabs t * dist q p.
Proof.
  intros. unfold dist, lerp. cbn [vx vy vz].
  replace ((vx p + t * (vx q - vx p) - vx p) ^ 2 + (vy p + t * (vy q - vy p) - vy p) ^ 2 + (vz p + t * (vz q - vz p) - vz p) ^ 2)
    with (t * t * ((vx q - vx p) ^ 2 + (vy q - vy p) ^ 2 + (vz q - vz p) ^ 2)) by ring.
  rewrite sqrt_mult by (try apply ss3; apply Rle_0_sqr). f_equal. apply sqrt_Rsqr_abs.
Qed.
Lemma lerp_swap : forall p q t, lerp p q t = lerp q p (1 - t).
Proof. intros. unfold lerp. f_equal; ring. Qed.
Lemma dist_lerp' : forall p q t, dist (lerp p q t) q = Rabs (1 - t) * dist q p.
Proof. intros. rewrite lerp_swap, dist_lerp, (dist_sym p q). auto. Qed.

(** boxes *)
Ltac boxes := unfold inbox, aabb_IsActive, sel_min, sel_max, near_box, proper, inactive in *; cbn [bmin bmax vx vy vz] in *.
Lemma active_iff : forall b, aabb_IsActive b = true <-> vx (bmin b) <= vx (bmax b).
Proof. intros. unfold aabb_IsActive. rewrite negb_true_iff, Rltb_false. tauto. Qed.
Lemma inbox_active : forall b q, inbox b q -> aabb_IsActive b = true.
Proof. intros b q (H & _). apply active_iff. lra. Qed.

Lemma aabb_add_l : forall a b q, inbox a q -> inbox (aabb_add a b) q.
Proof.
  intros a b q H. pose proof (inbox_active _ _ H) as A. unfold aabb_add. rewrite A. cbn [negb].
  destruct (aabb_IsActive b); cbn [negb]; auto. boxes. rdec; lra.
Qed.
Lemma aabb_add_r : forall a b q, inbox b q -> inbox (aabb_add a b) q.
Proof.
  intros a b q H. pose proof (inbox_active _ _ H) as A. unfold aabb_add. rewrite A. cbn [negb].
  destruct (aabb_IsActive a); cbn [negb]; auto. boxes. rdec; lra.
Qed.
(** the merged box is the least one *)
Lemma aabb_add_least : forall a b c, proper a -> proper b -> (forall q, inbox a q \/ inbox b q -> inbox c q) ->
  forall q, inbox (aabb_add a b) q -> inbox c q.
Proof.
  intros a b c Pa Pb H q Hq.
  assert (Aa : aabb_IsActive a = true) by (apply active_iff; apply Pa).
  assert (Ab : aabb_IsActive b = true) by (apply active_iff; apply Pb).
  unfold aabb_add in Hq. rewrite Aa, Ab in Hq. cbn [negb] in Hq.
  pose proof (H (bmin a) ltac:(left; boxes; lra)) as H1. pose proof (H (bmax a) ltac:(left; boxes; lra)) as H2.
  pose proof (H (bmin b) ltac:(right; boxes; lra)) as H3. pose proof (H (bmax b) ltac:(right; boxes; lra)) as H4.
  clear H Aa Ab. unfold inbox, sel_min, sel_max in *; cbn [bmin bmax vx vy vz] in *.
  destruct Hq as (Q1 & Q2 & Q3).
  split; [clear Q2 Q3; rdec; lra|split; [clear Q1 Q3; rdec; lra|clear Q1 Q2; rdec; lra]].
Qed.
Lemma aabb_add_proper : forall a b, proper a -> proper b -> proper (aabb_add a b).
Proof.
  intros a b Pa Pb. assert (Aa : aabb_IsActive a = true) by (apply active_iff; apply Pa).
  assert (Ab : aabb_IsActive b = true) by (apply active_iff; apply Pb).
  unfold aabb_add. rewrite Aa, Ab. cbn [negb]. unfold proper, sel_min, sel_max in *. cbn [bmin bmax vx vy vz].
  destruct Pa as (A1 & A2 & A3), Pb as (B1 & B2 & B3). split; [|split]; rdec; lra.
Qed.

Lemma aabb_AddPoint_old : forall a p e q, inbox a q -> inbox (aabb_AddPoint a p e) q.
Proof.
  intros a p e q H. pose proof (inbox_active _ _ H) as A. unfold aabb_AddPoint. rewrite A. cbn [negb].
  destruct (Rltb e 0); auto. destruct H as (H1 & H2 & H3). unfold inbox, sel_min, sel_max in *. cbn [bmin bmax vx vy vz].
  split; [|split]; rdec; lra.
Qed.
Lemma Rabs_le_iff : forall x y e, Rabs (x - y) <= e <-> y - e <= x <= y + e.
Proof. intros. unfold Rabs. destruct (Rcase_abs (x - y)); lra. Qed.
Lemma aabb_AddPoint_new : forall a p e q, 0 <= e -> near_box p e q -> inbox (aabb_AddPoint a p e) q.
Proof.
  intros a p e q He (H1 & H2 & H3). rewrite Rabs_le_iff in H1, H2, H3. unfold aabb_AddPoint.
  rewrite (proj2 (Rltb_false e 0)) by auto.
  destruct (aabb_IsActive a); cbn [negb]; unfold inbox, sel_min, sel_max; cbn [bmin bmax vx vy vz]; split; try split; rdec; lra.
Qed.
Lemma aabb_AddPoint_proper : forall a p e, 0 <= e -> proper a \/ inactive a -> proper (aabb_AddPoint a p e).
Proof.
  intros a p e He H. unfold aabb_AddPoint. rewrite (proj2 (Rltb_false e 0)) by auto.
  destruct (aabb_IsActive a) eqn:E; cbn [negb].
  - apply active_iff in E. destruct H as [H|H]; [|unfold inactive in H; lra]. destruct H as (A1 & A2 & A3).
    unfold proper, sel_min, sel_max; cbn [bmin bmax vx vy vz]; split; try split; rdec; lra.
  - unfold proper; cbn [bmin bmax vx vy vz]; lra.
Qed.
Lemma aabb_addv_AddPoint : forall a p, aabb_addv a p = aabb_AddPoint a p 0.
Proof.
  intros. unfold aabb_addv, aabb_AddPoint. rewrite (proj2 (Rltb_false 0 0)) by lra.
  rewrite !Rminus_0_r, !Rplus_0_r. destruct p; reflexivity.
Qed.

Lemma aabb_intersect_iff : forall a b, proper a \/ inactive a -> proper b \/ inactive b ->
  (aabb_IsIntersect a b = true <-> exists q, inbox a q /\ inbox b q).
Proof.
  intros a b Pa Pb. split.
  - unfold aabb_IsIntersect. destruct (aabb_IsActive a) eqn:Aa; cbn [negb]; [|discriminate].
    destruct (aabb_IsActive b) eqn:Ab; cbn [negb]; [|discriminate].
    apply active_iff in Aa. apply active_iff in Ab.
    destruct Pa as [Pa|Pa]; [|unfold inactive in Pa; lra]. destruct Pb as [Pb|Pb]; [|unfold inactive in Pb; lra].
    destruct (Rltb (vx (bmax b)) _) eqn:E1; [discriminate|]. apply Rltb_false in E1.
    destruct (Rltb (vy (bmax b)) _) eqn:E2; [discriminate|]. apply Rltb_false in E2.
    destruct (Rltb (vz (bmax b)) _) eqn:E3; [discriminate|]. apply Rltb_false in E3.
    destruct (Rltb (vx (bmax a)) _) eqn:E4; [discriminate|]. apply Rltb_false in E4.
    destruct (Rltb (vy (bmax a)) _) eqn:E5; [discriminate|]. apply Rltb_false in E5.
    destruct (Rltb (vz (bmax a)) _) eqn:E6; [discriminate|]. apply Rltb_false in E6.
    intros _. exists (V3 (Rmax (vx (bmin a)) (vx (bmin b))) (Rmax (vy (bmin a)) (vy (bmin b))) (Rmax (vz (bmin a)) (vz (bmin b)))).
    destruct Pa as (A1 & A2 & A3), Pb as (B1 & B2 & B3).
    unfold inbox, Rmax; cbn [vx vy vz]. split; (split; [|split]);
      match goal with |- context [Rle_dec ?x ?y] => destruct (Rle_dec x y) end; lra.
  - intros (q & Ha & Hb). unfold aabb_IsIntersect. rewrite (inbox_active _ _ Ha), (inbox_active _ _ Hb). cbn [negb].
    destruct Ha as (A1 & A2 & A3), Hb as (B1 & B2 & B3).
    rewrite !(proj2 (Rltb_false _ _)) by lra. auto.
Qed.

Lemma aabb_isInclude_iff : forall b q, aabb_isInclude_Point b q = true <-> inbox b q.
Proof.
  intros b q. unfold aabb_isInclude_Point. split.
  - destruct (aabb_IsActive b) eqn:E; cbn [negb]; [|discriminate]. rewrite !andb_true_iff, !Rleb_true. unfold inbox. tauto.
  - intros H. rewrite (inbox_active _ _ H). cbn [negb]. rewrite !andb_true_iff, !Rleb_true. unfold inbox in H. tauto.
Qed.

Lemma aabb_isInclude3_iff : forall a b, proper a -> proper b -> (aabb_IsInclude_AABB3 a b = true <-> forall q, inbox b q -> inbox a q).
Proof.
  intros a b Pa Pb. assert (Aa : aabb_IsActive a = true) by (apply active_iff; apply Pa).
  assert (Ab : aabb_IsActive b = true) by (apply active_iff; apply Pb).
  unfold aabb_IsInclude_AABB3. rewrite Aa, Ab. cbn [negb]. rewrite !andb_true_iff, !Rleb_true. split.
  - intros H q Hq. unfold inbox in *. lra.
  - intros H. pose proof (H (bmin b) ltac:(unfold inbox, proper in *; lra)) as H1.
    pose proof (H (bmax b) ltac:(unfold inbox, proper in *; lra)) as H2. unfold inbox in *. lra.
Qed.

Lemma clamp_props : forall lo hi x, lo <= hi -> lo <= clampR lo hi x <= hi /\ forall y, lo <= y <= hi -> (clampR lo hi x - x) ^ 2 <= (y - x) ^ 2.
Proof.
  intros lo hi x H. unfold clampR. split; [rdec; lra|]. intros y Hy. pose proof (pow2_ge_0 (y - x)). rdec; nra.
Qed.
Lemma aabb_mindist : forall b q, proper b ->
  (exists c, inbox b c /\ dist c q = aabb_MinimumDistance b q) /\ (forall c, inbox b c -> aabb_MinimumDistance b q <= dist c q).
Proof.
  intros b q (P1 & P2 & P3). destruct (clamp_props _ _ (vx q) P1) as (X & X'). destruct (clamp_props _ _ (vy q) P2) as (Y & Y').
  destruct (clamp_props _ _ (vz q) P3) as (Z & Z'). unfold aabb_MinimumDistance. cbv zeta. split.
  - eexists (V3 _ _ _). split; [unfold inbox; cbn [vx vy vz]; eauto|]. unfold dist. cbn [vx vy vz]. f_equal. ring.
  - intros c (C1 & C2 & C3). unfold dist. apply sqrt_le_1_alt.
    specialize (X' _ C1). specialize (Y' _ C2). specialize (Z' _ C3). lra.
Qed.

(** spheres *)
Definition sle (s S : sphere) : Prop := dist (sc s) (sc S) + sr s <= sr S.
Lemma sle_in : forall s S q, sle s S -> insphere s q -> insphere S q.
Proof. intros s S q H Q. unfold sle, insphere in *. pose proof (dist_tri q (sc s) (sc S)). lra. Qed.
Lemma sle_refl : forall s, sle s s.
Proof. intros. unfold sle. rewrite dist_refl. lra. Qed.
Lemma sle_trans : forall a b c, sle a b -> sle b c -> sle a c.
Proof. unfold sle. intros a b c H1 H2. pose proof (dist_tri (sc a) (sc b) (sc c)). lra. Qed.

Lemma sphere_AddPoint_ok : forall s p e, 0 <= e -> exists s', sphere_AddPoint s p e = Some s' /\ 0 <= sr s' /\
  sle (Sph e p) s' /\ (0 <= sr s -> sle s s').
Proof.
  intros s p e He. unfold sphere_AddPoint. rewrite (proj2 (Rltb_false e 0)) by auto.
  destruct (Rltb (sr s) 0) eqn:E0.
  { apply Rltb_true in E0. eexists. split; [reflexivity|]. cbn [sr]. split; [auto|split; [apply sle_refl|lra]]. }
  apply Rltb_false in E0. cbv zeta. rewrite Distance3_dist. set (L := dist p (sc s)). pose proof (dist_pos p (sc s)) as PL. fold L in PL.
  destruct (Rltb (L + e) (sr s)) eqn:E1.
  { apply Rltb_true in E1. eexists. split; [reflexivity|]. split; [auto|split; [|intros; apply sle_refl]].
    unfold sle. cbn [sc sr]. fold L. lra. }
  apply Rltb_false in E1. destruct (Rltb (L + sr s) e) eqn:E2.
  { apply Rltb_true in E2. eexists. split; [reflexivity|]. cbn [sr]. split; [auto|split; [apply sle_refl|]].
    intros _. unfold sle. cbn [sc sr]. rewrite dist_sym. fold L. lra. }
  apply Rltb_false in E2. destruct (Rleb (Rabs L) _) eqn:E3.
  { eexists. split; [reflexivity|]. cbn [sr]. split; [lra|]. split; unfold sle; cbn [sc sr].
    - fold L. lra.
    - rewrite dist_refl. lra. }
  apply Rleb_false in E3. rewrite (Rabs_right L) in E3 by lra. pose proof (Rabs_pos (sr s + e)).
  assert (0 < L) by lra.
  set (r0 := 1 / 2 * (L + sr s - e) / L). set (r1 := 1 / 2 * (L + e - sr s) / L).
  assert (R0 : 0 <= r0). { unfold r0. apply Rmult_le_pos; [lra|]. left. apply Rinv_0_lt_compat. auto. }
  assert (R1 : 0 <= r1). { unfold r1. apply Rmult_le_pos; [lra|]. left. apply Rinv_0_lt_compat. auto. }
  rewrite (proj2 (Rleb_true 0 r0)), (proj2 (Rleb_true 0 r1)) by auto. cbn [andb assertb bind].
  eexists. split; [reflexivity|]. cbn [sr]. split; [lra|].
  assert (ES : r0 + r1 = 1) by (unfold r0, r1; field; lra).
  assert (E1L : r1 * L = 1 / 2 * (L + e - sr s)) by (unfold r1; field; lra).
  assert (E0L : r0 * L = 1 / 2 * (L + sr s - e)) by (unfold r0; field; lra).
  set (c' := V3 _ _ _).
  assert (EC : c' = lerp (sc s) p r1). { unfold c', lerp. replace r0 with (1 - r1) by lra. f_equal; ring. }
  split; unfold sle; cbn [sc sr]; rewrite EC, dist_sym.
  - rewrite dist_lerp'. fold L. replace (1 - r1) with r0 by lra. rewrite Rabs_right by lra. lra.
  - rewrite dist_lerp. fold L. rewrite Rabs_right by lra. intros. lra.
Qed.

Lemma sphere_AddPoint_neg : forall s p e, e < 0 -> sphere_AddPoint s p e = Some s.
Proof. intros. unfold sphere_AddPoint. rewrite (proj2 (Rltb_true e 0)) by auto. auto. Qed.

Lemma sphere_add_ok : forall s b, 0 <= sr b -> exists s', sphere_add s b = Some s' /\ 0 <= sr s' /\ sle b s' /\ (0 <= sr s -> sle s s').
Proof. intros s b H. destruct (sphere_AddPoint_ok s (sc b) (sr b) H) as (s' & A & B & C & D). exists s'. destruct b. auto. Qed.

Lemma sphere_intersect_iff : forall s b, 0 <= sr s -> 0 <= sr b -> (sphere_IsIntersect s b = true <-> exists q, insphere s q /\ insphere b q).
Proof.
  intros s b Hs Hb. unfold sphere_IsIntersect. cbv zeta. rewrite Distance3_dist. split.
  - destruct (Rltb _ _) eqn:E; [discriminate|]. intros _. apply Rltb_false in E.
    destruct (Req_dec (sr b + sr s) 0) as [Z|Z].
    + exists (sc s). unfold insphere. rewrite dist_refl, dist_sym. pose proof (dist_pos (sc b) (sc s)). lra.
    + assert (P : 0 < sr b + sr s) by lra. exists (lerp (sc s) (sc b) (sr s / (sr b + sr s))). unfold insphere.
      rewrite dist_lerp, dist_lerp'. 
      assert (I : 0 < / (sr b + sr s)) by (apply Rinv_0_lt_compat; auto).
      assert (X : 0 <= sr s / (sr b + sr s)) by (apply Rmult_le_pos; lra).
      assert (Y : 1 - sr s / (sr b + sr s) = sr b / (sr b + sr s)) by (field; lra).
      assert (X' : 0 <= sr b / (sr b + sr s)) by (apply Rmult_le_pos; lra).
      rewrite Y, !Rabs_right by lra. split.
      * apply Rle_trans with (sr s / (sr b + sr s) * (sr b + sr s)); [apply Rmult_le_compat_l; auto|]. right. field. lra.
      * apply Rle_trans with (sr b / (sr b + sr s) * (sr b + sr s)); [apply Rmult_le_compat_l; auto|]. right. field. lra.
  - intros (q & Q1 & Q2). unfold insphere in *. rewrite (proj2 (Rltb_false _ _)); auto.
    pose proof (dist_tri (sc b) q (sc s)). rewrite (dist_sym (sc b) q) in *. lra.
Qed.

Lemma dist_move : forall p t, dist (V3 (vx p + t) (vy p) (vz p)) p = Rabs t.
Proof.
  intros. unfold dist. cbn [vx vy vz].
  replace ((vx p + t - vx p) ^ 2 + (vy p - vy p) ^ 2 + (vz p - vz p) ^ 2) with (t * t) by ring. apply sqrt_Rsqr_abs.
Qed.

(** Every distance in the range is met, and no other. *)
Lemma sphere_range_ok : forall s mm q, 0 <= sr s -> let '(mn, mx) := sphere_Range s mm q in
  0 <= mn <= mx /\ (forall c, insphere s c -> mn <= dist c q <= mx) /\
  (exists c, insphere s c /\ dist c q = mn) /\ (exists c, insphere s c /\ dist c q = mx).
Proof.
  intros s mm q Hr. unfold sphere_Range. rewrite (proj2 (Rltb_false _ _)) by auto. cbv zeta. rewrite Distance3_dist.
  set (L := dist q (sc s)). pose proof (dist_pos q (sc s)) as PL. fold L in PL.
  assert (B : forall c, insphere s c -> L - sr s <= dist c q <= L + sr s).
  { intros c Hc. unfold insphere in Hc. pose proof (dist_tri q c (sc s)) as T1. pose proof (dist_tri c (sc s) q) as T2.
    rewrite (dist_sym q c) in T1. rewrite (dist_sym (sc s) q) in T2. fold L in T1, T2. lra. }
  assert (MX : exists c, insphere s c /\ dist c q = L + sr s).
  { destruct (Req_dec L 0) as [Z|Z].
    - exists (V3 (vx (sc s) + sr s) (vy (sc s)) (vz (sc s))). unfold insphere. rewrite dist_move, Rabs_right by lra. split; [lra|].
      set (c := V3 _ _ _). pose proof (dist_tri (sc s) q c) as T1. pose proof (dist_tri c (sc s) q) as T2.
      assert (D : dist c (sc s) = sr s) by (unfold c; rewrite dist_move, Rabs_right; lra).
      rewrite (dist_sym (sc s) q) in *. rewrite (dist_sym (sc s) c) in *. rewrite (dist_sym q c) in *. fold L in T1, T2. lra.
    - exists (lerp (sc s) q (- (sr s / L))). unfold insphere. rewrite dist_lerp, dist_lerp'. fold L.
      assert (0 < / L) by (apply Rinv_0_lt_compat; lra).
      assert (0 <= sr s / L) by (apply Rmult_le_pos; lra).
      assert (E : sr s / L * L = sr s) by (field; auto).
      rewrite Rabs_Ropp, Rabs_right by lra. replace (1 - - (sr s / L)) with (1 + sr s / L) by ring. rewrite Rabs_right by lra. lra. }
  destruct (Rltb L (sr s)) eqn:E.
  - apply Rltb_true in E. split; [lra|split; [|split]].
    + intros c Hc. specialize (B c Hc). pose proof (dist_pos c q). lra.
    + exists q. unfold insphere. fold L. rewrite dist_refl. lra.
    + destruct MX as (c & C1 & C2). exists c. split; auto. lra.
  - apply Rltb_false in E. split; [lra|split; [auto|split; [|auto]]].
    destruct (Req_dec L 0) as [Z|Z].
    + exists q. unfold insphere. fold L. rewrite dist_refl. lra.
    + exists (lerp (sc s) q (sr s / L)). unfold insphere. rewrite dist_lerp, dist_lerp'. fold L.
      assert (0 < / L) by (apply Rinv_0_lt_compat; lra).
      assert (0 <= sr s / L) by (apply Rmult_le_pos; lra).
      assert (E' : sr s / L * L = sr s) by (field; auto).
      assert (sr s / L <= 1). { apply Rmult_le_reg_r with L; lra. }
      rewrite !Rabs_right by lra. lra.
Qed.

(** rays and lines *)
Definition at_ (src dir : v3) (t : R) : v3 := V3 (vx src + t * vx dir) (vy src + t * vy dir) (vz src + t * vz dir).
Lemma dot_pos : forall d, nonzero d -> 0 < dot3 d d.
Proof. intros [x y z] H. unfold nonzero, dot3 in *. cbn [vx vy vz] in *. pose proof (Rle_0_sqr x). pose proof (Rle_0_sqr y). pose proof (Rle_0_sqr z). unfold Rsqr in *.
  destruct (Req_dec x 0) as [X|X]; [|pose proof (Rsqr_pos_lt x X); unfold Rsqr in *; lra].
  destruct (Req_dec y 0) as [Y|Y]; [|pose proof (Rsqr_pos_lt y Y); unfold Rsqr in *; lra].
  destruct (Req_dec z 0) as [Z|Z]; [|pose proof (Rsqr_pos_lt z Z); unfold Rsqr in *; lra]. exfalso. auto. Qed.
Lemma at_sq : forall src dir c t, 0 < dot3 dir dir ->
  let r := dot3 dir (sub3 c src) / dot3 dir dir in
  dist (at_ src dir t) c * dist (at_ src dir t) c = dist (at_ src dir r) c * dist (at_ src dir r) c + (t - r) * (t - r) * dot3 dir dir.
Proof.
  intros src dir c t H r. rewrite !dist_sq. unfold at_. cbn [vx vy vz].
  assert (E : r * dot3 dir dir = dot3 dir (sub3 c src)) by (unfold r; field; lra).
  unfold dot3, sub3 in *. cbn [vx vy vz] in *. 
  destruct src as [a1 a2 a3], dir as [d1 d2 d3], c as [c1 c2 c3]. cbn [vx vy vz] in *. 
  replace ((t - r) * (t - r) * (d1 * d1 + d2 * d2 + d3 * d3)) with ((t * t - 2 * t * r) * (d1 * d1 + d2 * d2 + d3 * d3) + r * (r * (d1 * d1 + d2 * d2 + d3 * d3))) by ring.
  replace ((t * t - 2 * t * r) * (d1 * d1 + d2 * d2 + d3 * d3)) with (t * t * (d1 * d1 + d2 * d2 + d3 * d3) - 2 * t * (r * (d1 * d1 + d2 * d2 + d3 * d3))) by ring.
  replace ((a1 + r * d1 - c1) ^ 2 + (a2 + r * d2 - c2) ^ 2 + (a3 + r * d3 - c3) ^ 2) with
    ((a1 - c1) ^ 2 + (a2 - c2) ^ 2 + (a3 - c3) ^ 2 - 2 * r * (d1 * (c1 - a1) + d2 * (c2 - a2) + d3 * (c3 - a3)) + r * (r * (d1 * d1 + d2 * d2 + d3 * d3))) by ring.
  rewrite E. ring_simplify. ring.
Qed.
Lemma sq_le : forall a b, 0 <= a -> 0 <= b -> a * a <= b * b -> a <= b.
Proof. intros. destruct (Rle_dec a b); auto. nra. Qed.
Lemma at_min : forall src dir c t, 0 < dot3 dir dir -> dist (at_ src dir (dot3 dir (sub3 c src) / dot3 dir dir)) c <= dist (at_ src dir t) c.
Proof.
  intros src dir c t H. pose proof (at_sq src dir c t H) as E. cbv zeta in E.
  apply sq_le; try apply dist_pos. rewrite E. assert (forall x, 0 <= x * x) by (intros; nra).
  pose proof (Rmult_le_pos _ _ (H0 (t - dot3 dir (sub3 c src) / dot3 dir dir)) (Rlt_le _ _ H)). lra.
Qed.
Lemma at_perp : forall src dir c, 0 < dot3 dir dir -> dot3 dir (sub3 (at_ src dir (dot3 dir (sub3 c src) / dot3 dir dir)) c) = 0.
Proof. intros src dir c H. unfold dot3, sub3, at_ in *. cbn [vx vy vz] in *. field. lra. Qed.

Lemma line_iff : forall s src dir, nonzero dir -> exists b, sphere_IsIntersectLine s src dir = Some b /\
  (b = true <-> exists q, on_line src dir q /\ insphere s q).
Proof.
  intros s src dir Hd. apply dot_pos in Hd. unfold sphere_IsIntersectLine.
  destruct (Req_EM_T (dot3 dir dir) 0) as [Z|_]; [lra|]. cbv zeta.
  set (r := dot3 dir (sub3 (sc s) src) / dot3 dir dir). fold (at_ src dir r).
  assert (Z : dot3 dir (sub3 (at_ src dir r) (sc s)) = 0) by (apply at_perp; auto). rewrite Z, Rabs_R0.
  rewrite (proj2 (Rltb_true _ _)) by lra. cbn [assertb bind]. rewrite Distance3_dist.
  eexists. split; [reflexivity|]. rewrite Rleb_true. split.
  - intros H. exists (at_ src dir r). split; [exists r; auto|exact H].
  - intros (q & (t & ->) & H). fold (at_ src dir t) in H. unfold insphere in H.
    pose proof (at_min src dir (sc s) t Hd). fold r in H0. lra.
Qed.
Lemma ray_iff : forall s src dir, nonzero dir -> exists b, sphere_IsIntersectRay s src dir = Some b /\
  (b = true <-> exists q, on_ray src dir q /\ insphere s q).
Proof.
  intros s src dir Hd. apply dot_pos in Hd. unfold sphere_IsIntersectRay. cbv zeta. rewrite Distance3_dist.
  assert (A0 : at_ src dir 0 = src). { unfold at_. destruct src; cbn. f_equal; ring. }
  destruct (Rleb (dist src (sc s)) (sr s)) eqn:E0.
  { apply Rleb_true in E0. exists true. split; auto. split; auto. intros _. exists src. split; [|exact E0].
    exists 0. split; [lra|]. symmetry. exact A0. }
  apply Rleb_false in E0. destruct (Req_EM_T (dot3 dir dir) 0) as [Z|_]; [lra|].
  set (r := dot3 dir (sub3 (sc s) src) / dot3 dir dir).
  destruct (Rltb r 0) eqn:E1.
  - apply Rltb_true in E1. exists false. split; auto. split; [discriminate|]. intros (q & (t & Ht & ->) & H). exfalso.
    fold (at_ src dir t) in H. unfold insphere in H.
    pose proof (at_sq src dir (sc s) t Hd) as X. pose proof (at_sq src dir (sc s) 0 Hd) as Y. cbv zeta in X, Y. fold r in X, Y.
    rewrite A0 in Y. pose proof (dist_pos (at_ src dir t) (sc s)). pose proof (dist_pos src (sc s)).
    assert ((t - r) * (t - r) * dot3 dir dir >= (0 - r) * (0 - r) * dot3 dir dir). { apply Rmult_ge_compat_r; [lra|]. nra. }
    assert (dist src (sc s) <= dist (at_ src dir t) (sc s)) by (apply sq_le; auto; lra). lra.
  - apply Rltb_false in E1. fold (at_ src dir r).
    assert (Z : dot3 dir (sub3 (at_ src dir r) (sc s)) = 0) by (apply at_perp; auto). rewrite Z, Rabs_R0.
    rewrite (proj2 (Rltb_true _ _)) by lra. cbn [assertb bind]. rewrite Distance3_dist.
    eexists. split; [reflexivity|]. rewrite Rleb_true. split.
    + intros H. exists (at_ src dir r). split; [exists r; split; auto|exact H].
    + intros (q & (t & Ht & ->) & H). fold (at_ src dir t) in H. unfold insphere in H.
      pose proof (at_min src dir (sc s) t Hd). fold r in H0. lra.
Qed.

Lemma setpoints4_ok : forall p0 p1 p2 p3 cc, 0 <= cc -> exists s, sphere_SetPoints4 p0 p1 p2 p3 cc = Some s /\
  forall p q, In p [p0; p1; p2; p3] -> near_ball p cc q -> insphere s q.
Proof.
  intros p0 p1 p2 p3 cc Hc. unfold sphere_SetPoints4. rewrite (proj2 (Rleb_true 0 cc)) by auto. cbn [assertb bind]. cbv zeta.
  set (c := V3 _ _ _). eexists. split; [reflexivity|]. rewrite !Distance3_dist.
  assert (M : forall p q r, dist c p <= r -> near_ball p cc q -> insphere (Sph (r + cc) c) q).
  { intros p q r H Q. unfold insphere, near_ball in *. cbn [sc sr]. pose proof (dist_tri q p c). rewrite (dist_sym p c) in H0. lra. }
  intros p q Hp. apply M.
  cbn [In] in Hp. destruct Hp as [<-|[<-|[<-|[<-|[]]]]]; rdec; lra.
Qed.

Lemma isInclude_sphere_iff : forall s q, 0 <= sr s -> (sphere_isInclude_Point s q = true <-> dist q (sc s) < sr s).
Proof.
  intros s q Hr. unfold sphere_isInclude_Point. cbv zeta. rewrite Rltb_true.
  assert (E : dot3 (sub3 q (sc s)) (sub3 q (sc s)) = dist q (sc s) * dist q (sc s)).
  { rewrite dist_sq. unfold dot3, sub3. cbn [vx vy vz]. ring. }
  rewrite E. pose proof (dist_pos q (sc s)). split; intros; nra.
Qed.
Lemma IsInclude_sphere_iff : forall s b m, 0 <= sr b ->
  (sphere_IsInclude s b m = true <-> forall q, insphere b q -> insphere (Sph (sr s + m) (sc s)) q).
Proof.
  intros s b m Hb. unfold sphere_IsInclude. rewrite Distance3_dist, Rleb_true. split.
  - intros H q Hq. unfold insphere in *. cbn [sc sr]. pose proof (dist_tri q (sc b) (sc s)). lra.
  - intros H. pose proof (sphere_range_ok b (0, 0) (sc s) Hb) as R. unfold sphere_Range in R.
    rewrite (proj2 (Rltb_false _ _)) in R by auto. cbv zeta in R. rewrite Distance3_dist in R.
    assert (X : exists c, insphere b c /\ dist c (sc s) = dist (sc s) (sc b) + sr b).
    { destruct (Rltb (dist (sc s) (sc b)) (sr b)); destruct R as (_ & _ & _ & (c & C1 & C2)); exists c; split; auto; lra. }
    destruct X as (c & C1 & C2). specialize (H c C1). unfold insphere in H. cbn [sc sr] in H. rewrite (dist_sym (sc b)). lra.
Qed.
