(** Clusters moved towards a turned copy of their rest shape. *)
From Coq Require Import List Arith Bool Reals Lra Lia.
Import ListNotations.
From Verif Require Import Imp PrModel GjkProofs1 MeasSpec MeasProofs2 EnerSpec EditProofs1 PbdModel PbdSpec PbdProofs2 PbdProofs4 PbdProofs6.
Open Scope R_scope.

Lemma xy_run : forall a i, has2 a i -> xy a i = Some (px a i, py a i).
Proof.
  intros a i H. unfold has2 in H. unfold xy. rewrite (vget_nth _ 0) by lia. cbn [bind]. rewrite (vget_nth _ 0) by lia. cbn [bind]. unfold px, py. rewrite (Nat.mul_comm i 2), Nat.add_0_r. reflexivity.
Qed.
Lemma lsum_app : forall l l' f, lsum (l ++ l') f = lsum l f + lsum l' f.
Proof. induction l as [|i l IH]; intros; [unfold lsum; cbn [app fold_right]; ring|]. unfold lsum in *. cbn [app fold_right]. rewrite IH. ring. Qed.
Lemma lsum_one : forall i f, lsum [i] f = f i.
Proof. intros. unfold lsum. cbn [fold_right]. ring. Qed.
Lemma lsum_cons : forall i l f, lsum (i :: l) f = f i + lsum l f.
Proof. reflexivity. Qed.
Lemma lsum_ext : forall l f g, (forall i, In i l -> f i = g i) -> lsum l f = lsum l g.
Proof. induction l as [|i l IH]; intros f g H; [reflexivity|]. rewrite !lsum_cons, (H i), (IH f g); cbn [In]; auto. intros. apply H. cbn [In]. auto. Qed.
Lemma lsum_plus : forall l f g, lsum l (fun i => f i + g i) = lsum l f + lsum l g.
Proof. induction l as [|i l IH]; intros; [unfold lsum; cbn [fold_right]; ring|]. rewrite !lsum_cons, IH. ring. Qed.
Lemma lsum_scale : forall l c f, lsum l (fun i => c * f i) = c * lsum l f.
Proof. induction l as [|i l IH]; intros; [unfold lsum; cbn [fold_right]; ring|]. rewrite !lsum_cons, IH. ring. Qed.
Lemma lsum_const : forall l c, lsum l (fun _ => c) = INR (length l) * c.
Proof. induction l as [|i l IH]; intros; [unfold lsum; cbn; ring|]. rewrite lsum_cons, IH. cbn [length]. rewrite S_INR. ring. Qed.
Lemma lsum_nneg : forall l f, (forall i, In i l -> 0 <= f i) -> 0 <= lsum l f.
Proof. induction l as [|i l IH]; intros f H; [unfold lsum; cbn; lra|]. rewrite lsum_cons. assert (0 <= f i) by (apply H; cbn [In]; auto). assert (0 <= lsum l f) by (apply IH; intros; apply H; cbn [In]; auto). lra. Qed.
Lemma len_pos : forall l : list nat, l <> [] -> 0 < INR (length l).
Proof. intros [|i l] H; [congruence|]. cbn [length]. rewrite S_INR. pose proof (pos_INR (length l)). lra. Qed.
Lemma off_zero : forall l f, l <> [] -> lsum l (off l f) = 0.
Proof.
  intros l f H. pose proof (len_pos l H). unfold off. transitivity (lsum l (fun i => f i + (- mean l f))); [apply lsum_ext; intros; ring|]. rewrite lsum_plus, lsum_const. unfold mean. field. lra.
Qed.

(** What the three loops compute. *)
Lemma rigid_run : forall k ips q n t, NoDup ips -> (forall i, In i ips -> has2 t i /\ has2 q i /\ (i < n)%nat) ->
  let '(r0, r1, r2, r3) := RotationalComponentOfMatrix2 (moment ips (px t) (px q), moment ips (px t) (py q), moment ips (py t) (px q), moment ips (py t) (py q)) in
  exists t', Rigid2D1 k ips q n t = Some t' /\ length t' = length t /\ (forall i, ~ In i ips -> px t' i = px t i /\ py t' i = py t i) /\
  (forall i, In i ips -> px t' i = k * (mean ips (px t) + (r0 * off ips (px q) i + r1 * off ips (py q) i)) + (1 - k) * px t i /\
                         py t' i = k * (mean ips (py t) + (r2 * off ips (px q) i + r3 * off ips (py q) i)) + (1 - k) * py t i).
Proof.
  intros k ips q n t ND HH.
  destruct (RotationalComponentOfMatrix2 _) as [[[r0 r1] r2] r3] eqn:ER. apply wp_ex. unfold Rigid2D1. apply wp_bind.
  apply (wp_foldM _ _ (fun l st => st = ((lsum l (px q), lsum l (py q)), (lsum l (px t), lsum l (py t))))); [reflexivity| |].
  { intros l1 i l2 st E ->. destruct (HH i) as (Ht & Hq & Hn); [rewrite E; apply in_elt|]. apply wp_bind, wp_assertb; [apply Nat.ltb_lt; auto|]. rewrite !xy_run by auto. cbn [bind wp fst snd]. rewrite !lsum_app, !lsum_one. reflexivity. }
  intros st ->. cbn [fst snd]. apply wp_bind.
  apply (wp_foldM _ _ (fun l A => A = (lsum l (fun i => off ips (px t) i * off ips (px q) i), lsum l (fun i => off ips (px t) i * off ips (py q) i), lsum l (fun i => off ips (py t) i * off ips (px q) i), lsum l (fun i => off ips (py t) i * off ips (py q) i)))); [reflexivity| |].
  { intros l1 i l2 st E ->. destruct (HH i) as (Ht & Hq & Hn); [rewrite E; apply in_elt|]. rewrite !xy_run by auto. cbn [bind wp fst snd]. rewrite !lsum_app, !lsum_one. reflexivity. }
  intros A ->. unfold moment in ER. rewrite ER.
  apply (wp_foldM _ _ (fun l a => length a = length t /\ (forall i, ~ In i l -> px a i = px t i /\ py a i = py t i) /\
  (forall i, In i l -> px a i = k * (mean ips (px t) + (r0 * off ips (px q) i + r1 * off ips (py q) i)) + (1 - k) * px t i /\
                         py a i = k * (mean ips (py t) + (r2 * off ips (px q) i + r3 * off ips (py q) i)) + (1 - k) * py t i))); [split; [auto|split; [auto|intros i []]]| |auto].
  intros l1 i l2 a E (L & HO & HI). destruct (HH i) as (Ht & Hq & Hn); [rewrite E; apply in_elt|]. assert (Ha : has2 a i) by (unfold has2 in *; lia). rewrite !xy_run by auto. cbn [bind fst snd].
  assert (NI : ~ In i l1) by (rewrite E in ND; apply NoDup_remove_2 in ND; intro; apply ND, in_or_app; auto). destruct (HO i NI) as (-> & ->). unfold has2 in *.
  apply wp_bind, (wp_vset_nth _ 0); [lia|]. intros b Lb Nb. apply (wp_vset_nth _ 0); [lia|]. intros c Lc Nc.
  assert (X : forall j, px c j = if Nat.eq_dec j i then k * (mean ips (px t) + (r0 * off ips (px q) i + r1 * off ips (py q) i)) + (1 - k) * px t i else px a j).
  { intro j. unfold px at 1. rewrite Nc, Nb. destruct (Nat.eqb_spec (2 * j) (i * 2 + 1)); [lia|]. destruct (Nat.eqb_spec (2 * j) (i * 2 + 0)); destruct (Nat.eq_dec j i); try lia; reflexivity. }
  assert (Y : forall j, py c j = if Nat.eq_dec j i then k * (mean ips (py t) + (r2 * off ips (px q) i + r3 * off ips (py q) i)) + (1 - k) * py t i else py a j).
  { intro j. unfold py at 1. rewrite Nc, Nb. destruct (Nat.eqb_spec (2 * j + 1) (i * 2 + 0)); [lia|]. destruct (Nat.eqb_spec (2 * j + 1) (i * 2 + 1)); destruct (Nat.eq_dec j i); try lia; reflexivity. }
  split; [lia|]. split; intros j Hj; rewrite X, Y.
  - destruct (Nat.eq_dec j i) as [->|J]; [exfalso; apply Hj, in_elt|]. apply HO. intro. apply Hj, in_or_app. auto.
  - destruct (Nat.eq_dec j i) as [->|J]; [auto|]. apply HI. apply in_app_or in Hj. destruct Hj as [Hj|[Hj|[]]]; [auto|congruence].
Qed.

(** The sums over all points. *)
Lemma sum_lsum : forall n l h, NoDup l -> (forall i, In i l -> (i < n)%nat) -> (forall i, ~ In i l -> h i = 0) -> sum n h = lsum l h.
Proof.
  induction l as [|x l IH]; intros h ND HL HZ.
  - unfold lsum. cbn [fold_right]. apply sum_zero. intros. apply HZ. intros [].
  - inversion ND as [|x' l' NX ND']; subst. rewrite lsum_cons. assert (HX : (x < n)%nat) by (apply HL; cbn [In]; auto).
    transitivity (sum n (fun i => (if Nat.eq_dec i x then h x else 0) + (if Nat.eq_dec i x then 0 else h i))).
    { apply sum_ext. intros i _. destruct (Nat.eq_dec i x) as [->|]; ring. }
    rewrite sum_plus. f_equal.
    + transitivity (sum n (fun i => if (i =? x)%nat then h x else 0)); [apply sum_ext; intros i _; destruct (Nat.eq_dec i x) as [->|N]; [rewrite Nat.eqb_refl; auto|apply Nat.eqb_neq in N; rewrite N; auto]|].
      clear -HX. induction n as [|n IHn]; [lia|]. cbn [sum]. destruct (Nat.eq_dec x n) as [->|N].
      * rewrite Nat.eqb_refl. rewrite (sum_zero n); [ring|]. intros i Hi. replace (i =? n)%nat with false; [auto|symmetry; apply Nat.eqb_neq; lia].
      * replace (n =? x)%nat with false by (symmetry; apply Nat.eqb_neq; lia). rewrite IHn by lia. ring.
    + rewrite IH; auto; [|intros; apply HL; cbn [In]; auto|].
      * apply lsum_ext. intros i Hi. destruct (Nat.eq_dec i x) as [->|]; [contradiction|auto].
      * intros i Hi. destruct (Nat.eq_dec i x); [auto|]. apply HZ. intros [E|E]; [congruence|contradiction].
Qed.
Lemma rigid_sum : forall k r0 r1 f f' gx gy l, l <> [] -> (forall i, In i l -> f' i = k * (mean l f + (r0 * off l gx i + r1 * off l gy i)) + (1 - k) * f i) -> lsum l f' = lsum l f.
Proof.
  intros k r0 r1 f f' gx gy l NE H. rewrite (lsum_ext l f' (fun i => k * mean l f + ((k * r0) * off l gx i + ((k * r1) * off l gy i + (1 - k) * f i)))) by (intros i Hi; rewrite H by auto; ring).
  rewrite !lsum_plus, !lsum_scale, !off_zero, lsum_const by auto. unfold mean. pose proof (len_pos l NE). field. lra.
Qed.
Lemma rigid_total : forall n l f f', NoDup l -> (forall i, In i l -> (i < n)%nat) -> (forall i, ~ In i l -> f' i = f i) -> lsum l f' = lsum l f -> sum n f' = sum n f.
Proof.
  intros n l f f' ND HL HO HS. assert (E : sum n (fun i => f' i + - 1 * f i) = 0).
  { rewrite (sum_lsum n l); auto; [rewrite lsum_plus, lsum_scale; rewrite HS; ring|]. intros i Hi. rewrite HO by auto. ring. }
  rewrite sum_plus, sum_scale in E. lra.
Qed.

(** The distances to the turned rest shape. *)
Lemma misfit_split : forall l t q c s, c * c + s * s = 1 -> misfit l t q c s =
  moment l (px t) (px t) + moment l (py t) (py t) + moment l (px q) (px q) + moment l (py q) (py q) - 2 * (c * (moment l (px t) (px q) + moment l (py t) (py q)) + s * (moment l (py t) (px q) - moment l (px t) (py q))).
Proof.
  intros l t q c s H. unfold misfit, moment. set (X := off l (px t)). set (Y := off l (py t)). set (A := off l (px q)). set (B := off l (py q)). clearbody X Y A B.
  induction l as [|i l IH]; [unfold lsum; cbn [fold_right]; ring|]. rewrite !lsum_cons, IH. 
  transitivity (X i * X i + Y i * Y i + (c * c + s * s) * (A i * A i + B i * B i) - 2 * (c * (X i * A i + Y i * B i) + s * (Y i * A i - X i * B i)) +
   (lsum l (fun i => X i * X i) + lsum l (fun i => Y i * Y i) + lsum l (fun i => A i * A i) + lsum l (fun i => B i * B i) - 2 * (c * (lsum l (fun i => X i * A i) + lsum l (fun i => Y i * B i)) + s * (lsum l (fun i => Y i * A i) - lsum l (fun i => X i * B i))))); [ring|]. rewrite H. ring.
Qed.
Lemma misfit_least : forall l t q c s w, c * c + s * s = 1 -> 0 < w -> moment l (px t) (px q) + moment l (py t) (py q) = w * c -> moment l (py t) (px q) - moment l (px t) (py q) = w * s ->
  forall c' s', c' * c' + s' * s' = 1 -> misfit l t q c s <= misfit l t q c' s'.
Proof.
  intros l t q c s w H W E1 E2 c' s' H'. rewrite !misfit_split by auto. rewrite E1, E2.
  pose proof (Rle_0_sqr (c - c')) as Q1. pose proof (Rle_0_sqr (s - s')) as Q2. unfold Rsqr in Q1, Q2. assert (D : c * c' + s * s' <= 1) by lra.
  assert (w * (c * c' + s * s') <= w * 1) by (apply Rmult_le_compat_l; lra).
  assert (T : c * (w * c) + s * (w * s) = w * 1) by (rewrite <- H; ring). lra.
Qed.
Lemma misfit_zero : forall l t q c s, misfit l t q c s <= 0 -> forall i, In i l -> off l (px t) i = c * off l (px q) i - s * off l (py q) i /\ off l (py t) i = s * off l (px q) i + c * off l (py q) i.
Proof.
  intros l t q c s H. unfold misfit in H. revert H. set (X := off l (px t)). set (Y := off l (py t)). set (A := off l (px q)). set (B := off l (py q)). clearbody X Y A B.
  assert (P : forall i, 0 <= (X i - (c * A i - s * B i)) ^ 2 + (Y i - (s * A i + c * B i)) ^ 2) by (intro i; pose proof (pow2_ge_0 (X i - (c * A i - s * B i))); pose proof (pow2_ge_0 (Y i - (s * A i + c * B i))); lra).
  induction l as [|j l IH]; intros H i; [intros []|]. rewrite lsum_cons in H. pose proof (P j) as Pj. assert (L : 0 <= lsum l (fun i => (X i - (c * A i - s * B i)) ^ 2 + (Y i - (s * A i + c * B i)) ^ 2)) by (apply lsum_nneg; auto).
  intros [<-|Hi]; [|apply IH; auto; lra]. pose proof (pow2_ge_0 (X j - (c * A j - s * B j))). pose proof (pow2_ge_0 (Y j - (s * A j + c * B j))).
  assert (Z1 : (X j - (c * A j - s * B j)) ^ 2 = 0) by lra. assert (Z2 : (Y j - (s * A j + c * B j)) ^ 2 = 0) by lra.
  split.
  - assert (F : (X j - (c * A j - s * B j)) * (X j - (c * A j - s * B j)) = 0) by lra. apply Rmult_integral in F. destruct F; lra.
  - assert (F : (Y j - (s * A j + c * B j)) * (Y j - (s * A j + c * B j)) = 0) by lra. apply Rmult_integral in F. destruct F; lra.
Qed.
