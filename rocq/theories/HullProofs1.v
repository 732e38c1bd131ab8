(** Plane geometry for the convex hull: the scan over points sorted by angle around the origin. *)
From Coq Require Import List Arith Bool Reals Lia Lra Psatz.
Import ListNotations.
From Verif Require Import HullSpec.
Open Scope R_scope.

Definition cr (a b : pnt) : R := fst a * snd b - snd a * fst b.
Definition turn (a b c : pnt) : R := orient a b c.
Lemma turn_cr : forall a b c, turn a b c = cr a b + cr b c - cr a c.
Proof. intros. unfold turn, orient, cr. ring. Qed.
(** the half plane of the directions *)
Definition up (a : pnt) : Prop := 0 < snd a \/ (snd a = 0 /\ 0 < fst a).
Definition scal (t : R) (a : pnt) : pnt := (t * fst a, t * snd a).
(** [b] comes after [a]: in a larger direction, or in the same one and not farther *)
Definition ang (a b : pnt) : Prop := 0 < cr a b \/ exists t, 0 < t <= 1 /\ b = scal t a.
Lemma ang_cr : forall a b, ang a b -> 0 <= cr a b.
Proof. intros a b [H|(t & Ht & ->)]. lra. unfold cr, scal. simpl. assert (fst a * (t * snd a) - snd a * (t * fst a) = 0) by ring. lra. Qed.
Lemma cr_scal_l : forall t a b, cr (scal t a) b = t * cr a b. Proof. intros. unfold cr, scal. simpl. ring. Qed.
Lemma cr_scal_r : forall t a b, cr a (scal t b) = t * cr a b. Proof. intros. unfold cr, scal. simpl. ring. Qed.
Lemma cr_self : forall a, cr a a = 0. Proof. intros. unfold cr. ring. Qed.
Lemma cr_anti : forall a b, cr a b = - cr b a. Proof. intros. unfold cr. ring. Qed.
Lemma cr_0l : forall a, cr (0, 0) a = 0. Proof. intros. unfold cr. simpl. ring. Qed.
Lemma cr_0r : forall a, cr a (0, 0) = 0. Proof. intros. unfold cr. simpl. ring. Qed.

Lemma pos_of_mul : forall x y, 0 < x -> 0 <= x * y -> 0 <= y.
Proof. intros x y Hx H. destruct (Rle_lt_dec 0 y); auto. exfalso. assert (0 < x * (- y)) by (apply Rmult_lt_0_compat; lra). lra. Qed.

(** If the scan turns left after p2, p2 is in a larger direction than p1. *)
Lemma strict_pair : forall p1 p2 p3, ang p1 p2 -> 0 <= cr p1 p3 -> 0 < turn p1 p2 p3 -> 0 < cr p1 p2.
Proof.
  intros p1 p2 p3 [H|(t & Ht & ->)] H3 HT; auto. exfalso. rewrite turn_cr, cr_scal_r, cr_scal_l, cr_self in HT. assert ((1 - t) * cr p1 p3 >= 0) by (apply Rle_ge, Rmult_le_pos; lra). lra.
Qed.
(** A point in a smaller direction stays on the left of the new edge. *)
Lemma old_left : forall p1 p2 p3 x, 0 < cr p1 p2 -> 0 <= cr p2 p3 -> 0 < turn p1 p2 p3 -> 0 <= cr x p2 -> 0 <= turn p1 p2 x -> 0 <= turn p2 p3 x.
Proof.
  intros p1 p2 p3 x H1 H2 H3 H4 H5. apply (pos_of_mul (cr p1 p2)); auto.
  assert (E : cr p1 p2 * turn p2 p3 x = turn p1 p2 p3 * cr x p2 + turn p1 p2 x * cr p2 p3) by (unfold turn, orient, cr; ring). rewrite E.
  assert (0 <= turn p1 p2 p3 * cr x p2) by (apply Rmult_le_pos; lra). assert (0 <= turn p1 p2 x * cr p2 p3) by (apply Rmult_le_pos; lra). lra.
Qed.
(** The new point is on the left of an older edge if it is on the left of the one that follows. *)
Lemma new_left : forall a b c x, 0 < cr b c -> 0 <= cr a b -> 0 < turn a b c -> 0 <= turn b c x -> 0 <= cr b x -> 0 <= turn a b x.
Proof.
  intros a b c x H1 H2 H3 H4 H5. apply (pos_of_mul (cr b c)); auto.
  assert (E : cr b c * turn a b x = cr a b * turn b c x + turn a b c * cr b x) by (unfold turn, orient, cr; ring). rewrite E.
  assert (0 <= cr a b * turn b c x) by (apply Rmult_le_pos; lra). assert (0 <= turn a b c * cr b x) by (apply Rmult_le_pos; lra). lra.
Qed.

(** convex sets *)
Lemma hull_mono : forall (S S' : pnt -> Prop) x, hull S x -> (forall y, S y -> hull S' y) -> hull S' x.
Proof. intros S S' x H Hs. induction H; auto. apply hull_seg; auto. Qed.
Lemma hull_scal : forall (S : pnt -> Prop) a t, hull S (0, 0) -> hull S a -> 0 <= t <= 1 -> hull S (scal t a).
Proof. intros S a t H0 Ha Ht. pose proof (hull_seg S (0, 0) a t H0 Ha Ht) as H. simpl in H. unfold scal. replace (t * fst a) with ((1 - t) * 0 + t * fst a) by ring. replace (t * snd a) with ((1 - t) * 0 + t * snd a) by ring. auto. Qed.
Lemma hull_left : forall (S : pnt -> Prop) a b x, hull S x -> (forall y, S y -> 0 <= turn a b y) -> 0 <= turn a b x.
Proof.
  intros S a b x H Hs. induction H; auto.
  assert (E : turn a b ((1 - t) * fst x + t * fst y, (1 - t) * snd x + t * snd y) = (1 - t) * turn a b x + t * turn a b y) by (unfold turn, orient; simpl; ring). rewrite E.
  assert (0 <= (1 - t) * turn a b x) by (apply Rmult_le_pos; lra). assert (0 <= t * turn a b y) by (apply Rmult_le_pos; lra). lra.
Qed.
(** A point that is popped is in the triangle of the origin, its predecessor and the new point. *)
Lemma popped : forall (S : pnt -> Prop) p1 p2 p3, hull S (0, 0) -> hull S p1 -> hull S p3 -> ang p1 p2 -> ang p2 p3 -> 0 <= cr p1 p3 -> turn p1 p2 p3 <= 0 -> hull S p2.
Proof.
  intros S p1 p2 p3 H0 H1 H3 A12 A23 H13 HT. pose proof (ang_cr _ _ A12) as C12. pose proof (ang_cr _ _ A23) as C23. rewrite turn_cr in HT.
  destruct (Rle_lt_or_eq_dec _ _ H13) as [Hp|Hz].
  - assert (E1 : forall k : pnt -> R, k = fst \/ k = snd -> cr p1 p3 * k p2 = cr p2 p3 * k p1 + cr p1 p2 * k p3). { intros k [->| ->]; unfold cr; ring. }
    set (al := cr p2 p3 / cr p1 p3). set (be := cr p1 p2 / cr p1 p3).
    assert (Ha : 0 <= al). { unfold al. apply Rmult_le_pos. lra. apply Rlt_le, Rinv_0_lt_compat. lra. }
    assert (Hb : 0 <= be). { unfold be. apply Rmult_le_pos. lra. apply Rlt_le, Rinv_0_lt_compat. lra. }
    assert (Hs : al + be <= 1). { unfold al, be. apply (Rmult_le_reg_r (cr p1 p3)). lra. field_simplify; lra. }
    assert (E : forall k : pnt -> R, k = fst \/ k = snd -> k p2 = al * k p1 + be * k p3). { intros k Hk. specialize (E1 k Hk). unfold al, be. apply (Rmult_eq_reg_l (cr p1 p3)). 2: lra. rewrite E1. field. lra. }
    destruct (Rle_lt_or_eq_dec _ _ (Rplus_le_le_0_compat _ _ Ha Hb)) as [Hsp|Hsz].
    + assert (Hm : hull S ((1 - be / (al + be)) * fst p1 + be / (al + be) * fst p3, (1 - be / (al + be)) * snd p1 + be / (al + be) * snd p3)).
      { apply hull_seg; auto. split. apply Rmult_le_pos. lra. apply Rlt_le, Rinv_0_lt_compat. lra. apply (Rmult_le_reg_r (al + be)). lra. field_simplify; lra. }
      pose proof (hull_scal S _ (al + be) H0 Hm ltac:(lra)) as Hr. unfold scal in Hr. simpl in Hr.
      replace p2 with ((al + be) * ((1 - be / (al + be)) * fst p1 + be / (al + be) * fst p3), (al + be) * ((1 - be / (al + be)) * snd p1 + be / (al + be) * snd p3)); auto.
      rewrite (surjective_pairing p2). rewrite (E fst), (E snd) by auto. f_equal; field; lra.
    + assert (al = 0) by lra. assert (be = 0) by lra. replace p2 with ((0, 0) : pnt); auto. rewrite (surjective_pairing p2). rewrite (E fst), (E snd) by auto. rewrite H, H2. f_equal; ring.
  - assert (cr p1 p2 = 0) by lra. destruct A12 as [A|(t & Ht & ->)]. lra. apply hull_scal; auto. lra.
Qed.

(** angles and cosines *)
Definition nrm (a : pnt) : R := sqrt (fst a * fst a + snd a * snd a).
Definition cosv (a : pnt) : R := fst a / nrm a.
Lemma up_pos : forall a, up a -> 0 < fst a * fst a + snd a * snd a.
Proof. intros a [H|(-> & H)]. pose proof (Rle_0_sqr (fst a)). unfold Rsqr in H0. nra. nra. Qed.
Lemma nrm_pos : forall a, up a -> 0 < nrm a.
Proof. intros. apply sqrt_lt_R0. apply up_pos. auto. Qed.
Lemma nrm_sq : forall a, nrm a * nrm a = fst a * fst a + snd a * snd a.
Proof. intros. unfold nrm. apply sqrt_sqrt. nra. Qed.
Lemma sq_le : forall x y, 0 <= y -> x * x <= y * y -> x <= y.
Proof. intros. destruct (Rle_lt_dec x y); auto. nra. Qed.
Lemma cos_cr : forall a b, up a -> up b -> cosv b < cosv a -> 0 < cr a b.
Proof.
  intros a b Ha Hb H. pose proof (nrm_pos _ Ha) as Na. pose proof (nrm_pos _ Hb) as Nb. pose proof (nrm_sq a) as Sa. pose proof (nrm_sq b) as Sb. destruct (Rlt_le_dec 0 (cr a b)) as [|C]; auto. exfalso.
  assert (H' : fst b * nrm a < fst a * nrm b). { unfold cosv in H. apply (Rmult_lt_compat_r (nrm a * nrm b)) in H. 2: nra. field_simplify in H; lra. }
  apply (Rlt_not_le _ _ H'). clear H H'. unfold cr in C. destruct a as (ax, ay), b as (bx, by_). unfold up in *. simpl in *. set (na := nrm (ax, ay)) in *. set (nb := nrm (bx, by_)) in *.
  assert (Hay : 0 <= ay) by lra. assert (Hby : 0 <= by_) by lra.
  assert (D : (bx * na) * (bx * na) - (ax * nb) * (ax * nb) = (bx * ay - ax * by_) * (bx * ay + ax * by_)). { replace ((bx * na) * (bx * na)) with (bx * bx * (na * na)) by ring. replace ((ax * nb) * (ax * nb)) with (ax * ax * (nb * nb)) by ring. rewrite Sa, Sb. ring. }
  destruct (Rle_lt_dec 0 bx) as [Bx|Bx].
  - destruct (Rle_lt_dec 0 ax) as [Ax|Ax].
    + apply sq_le. apply Rmult_le_pos; lra. assert (0 <= bx * ay) by (apply Rmult_le_pos; lra). assert (0 <= ax * by_) by (apply Rmult_le_pos; lra). assert (0 <= (bx * ay - ax * by_) * (bx * ay + ax * by_)) by (apply Rmult_le_pos; lra). lra.
    + assert (0 <= bx * na) by (apply Rmult_le_pos; lra). assert (0 <= (- ax) * nb) by (apply Rmult_le_pos; lra). lra.
  - assert (Hby' : 0 < by_) by lra. assert (0 <= ay * (- bx)) by (apply Rmult_le_pos; lra). assert (Ax : ax <= 0). { destruct (Rle_lt_dec ax 0); auto. assert (0 < ax * by_) by (apply Rmult_lt_0_compat; lra). lra. }
    assert (- (bx * na) <= - (ax * nb)); [|lra]. apply sq_le. assert (0 <= (- ax) * nb) by (apply Rmult_le_pos; lra). lra.
    assert (0 <= (- (bx * ay - ax * by_)) * (- - (bx * ay - ax * by_)) \/ True) by auto. assert (ax * by_ <= 0). { assert (0 <= (- ax) * by_) by (apply Rmult_le_pos; lra). lra. }
    assert (0 <= (bx * ay - ax * by_) * (- (bx * ay + ax * by_))). { apply Rmult_le_pos; lra. } lra.
Qed.
Lemma cr0_scal : forall a b, up a -> up b -> cr a b = 0 -> exists t, 0 < t /\ b = scal t a.
Proof.
  intros (ax, ay) (bx, by_) Ha Hb C. unfold up, cr, scal in *. simpl in *. destruct Ha as [Ha|(-> & Ha)].
  - assert (0 < by_). { destruct Hb as [|(E & Hb)]; auto. exfalso. rewrite E in C. assert (0 < ay * bx) by (apply Rmult_lt_0_compat; lra). lra. }
    exists (by_ / ay). split. apply Rdiv_lt_0_compat; lra. f_equal. apply (Rmult_eq_reg_r ay). 2: lra. replace (by_ / ay * ax * ay) with (ax * by_) by (field; lra). lra. field. lra.
  - assert (by_ = 0). { apply (Rmult_eq_reg_l ax). 2: lra. lra. } exists (bx / ax). split. apply Rdiv_lt_0_compat; lra. f_equal. field; lra. subst. field. lra.
Qed.
Lemma cos_scal : forall a t, up a -> 0 < t -> cosv (scal t a) = cosv a.
Proof.
  intros a t Ha Ht. pose proof (nrm_pos _ Ha) as Na. unfold cosv. assert (E : nrm (scal t a) = t * nrm a).
  { unfold nrm, scal. simpl. replace (t * fst a * (t * fst a) + t * snd a * (t * snd a)) with (t * t * (fst a * fst a + snd a * snd a)) by ring. rewrite sqrt_mult. rewrite sqrt_square by lra. auto. nra. nra. }
  rewrite E. unfold scal. simpl. field. lra.
Qed.
