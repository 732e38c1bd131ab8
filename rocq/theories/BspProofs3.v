(** The tables of coefficients, curves on uniform knots, and their derivatives. *)
From Coq Require Import List Arith Bool ZArith Reals Lra Lia.
Import ListNotations.
From Verif Require Import Imp PrModel ProxModel GjkProofs1 MeasSpec MeasProofs2 MeasProofs3 BspModel BspSpec BspProofs1 BspProofs2.
Open Scope R_scope.

Definition C (c : list (list R)) (j q : nat) : R := nth q (nth j c []) 0.
Definition wf (n : nat) (c : list (list R)) : Prop := length c = (n + 1)%nat /\ forall j, (j < n + 1)%nat -> length (nth j c []) = n.
Lemma get2_ok : forall n c j q, wf n c -> (j < n + 1)%nat -> (q < n)%nat -> get2 c j q = Some (C c j q).
Proof. intros n c j q (L & W) J Q. unfold get2. rewrite (vget_nth _ []) by lia. cbn [bind]. apply vget_nth. rewrite W; auto. Qed.
Lemma set2_ok : forall n c j q x, wf n c -> (j < n + 1)%nat -> (q < n)%nat -> wp (set2 c j q x) (fun c' => wf n c' /\ forall a b, C c' a b = if (a =? j)%nat && (b =? q)%nat then x else C c a b).
Proof.
  intros n c j q x (L & W) J Q. unfold set2. rewrite (vget_nth _ []) by lia. cbn [bind]. rewrite vset_upd by (rewrite W; auto). cbn [bind]. apply wp_vset; [lia|]. split.
  - split; [rewrite upd_length; auto|]. intros a A. rewrite nth_upd by lia. destruct (Nat.eq_dec j a); [rewrite upd_length; apply W; auto|apply W; auto].
  - intros a b. unfold C. rewrite nth_upd by lia. destruct (Nat.eq_dec j a) as [<-|N].
    + rewrite Nat.eqb_refl. rewrite nth_upd by (rewrite W; auto). destruct (Nat.eq_dec q b) as [<-|M]; [rewrite Nat.eqb_refl; auto|]. destruct (Nat.eqb_spec b q); [lia|auto].
    + destruct (Nat.eqb_spec a j); [lia|auto].
Qed.
Lemma row_ok : forall n i j knot c, wf n c -> length knot = (2 * n)%nat -> (j < n)%nat -> (2 <= i <= n)%nat ->
  let k := fun x => nth x knot 0%Z in
  let c0 := - safe_divide (IZR (k j)) (k (j + i - 1)%nat - k j) in let c1 := safe_divide (IZR (k (j + i)%nat)) (k (j + i)%nat - k (j + 1)%nat) in
  let c2 := safe_divide 1 (k (j + i - 1)%nat - k j) in let c3 := - safe_divide 1 (k (j + i)%nat - k (j + 1)%nat) in
  wp (segment_row n i j knot c) (fun c' => wf n c' /\ forall a b, (b < n)%nat -> C c' a b = if (a =? j)%nat then c0 * C c j b + c1 * C c (j + 1) b + (if (b =? 0)%nat then 0 else c2 * C c j (b - 1) + c3 * C c (j + 1) (b - 1)) else C c a b).
Proof.
  intros n i j knot c W L J I k c0 c1 c2 c3. unfold segment_row. rewrite !(vget_nth _ 0%Z knot) by lia. cbn [bind]. fold (k j) (k (j + i - 1)%nat) (k (j + i)%nat) (k (j + 1)%nat). fold c0 c1 c2 c3.
  apply wp_bind. apply wp_ford with (I := fun m c' => (m < n)%nat /\ wf n c' /\ forall a b, C c' a b = if (a =? j)%nat && ((m <? b)%nat && (b <? n)%nat) then c0 * C c j b + c1 * C c (j + 1) b + (c2 * C c j (b - 1) + c3 * C c (j + 1) (b - 1)) else C c a b); [lia| | |].
  - split; [lia|]. split; [auto|]. intros a b. destruct (Nat.ltb_spec (n - 1) b), (Nat.ltb_spec b n); try lia; rewrite ?andb_false_r; auto.
  - intros m c' M (Mn & W' & H). rewrite !(get2_ok n) by (auto; lia). cbn [bind]. eapply wp_mono; [apply (set2_ok n); auto; lia|]. intros c'' (W'' & G). split; [lia|]. split; [auto|]. intros a b. rewrite G, !H. rewrite !Nat.eqb_refl, (proj2 (Nat.eqb_neq (j + 1) j)) by lia. rewrite (proj2 (Nat.ltb_ge m m)), (proj2 (Nat.ltb_ge m (m - 1))) by lia. cbn [andb].
    destruct (Nat.eqb_spec a j) as [->|]; cbn [andb]; auto. destruct (Nat.eqb_spec b m) as [->|]; cbn [andb].
    + rewrite (proj2 (Nat.ltb_lt (m - 1) m)), (proj2 (Nat.ltb_lt m n)) by lia. cbn [andb]. ring.
    + destruct (Nat.ltb_spec m b), (Nat.ltb_spec (m - 1) b); auto; lia.
  - intros c' (Mn & W' & H). rewrite !(get2_ok n) by (auto; lia). cbn [bind]. eapply wp_mono; [apply (set2_ok n); auto; lia|]. intros c'' (W'' & G). split; [auto|]. intros a b B. rewrite G, !H. rewrite !Nat.eqb_refl, (proj2 (Nat.eqb_neq (j + 1) j)) by lia. change (0 <? 0)%nat with false. cbn [andb].
    destruct (Nat.eqb_spec a j) as [->|]; cbn [andb]; auto. destruct b as [|b]; cbn [Nat.eqb].
    + change (0 <? 0)%nat with false. cbn [andb]. ring.
    + rewrite (proj2 (Nat.ltb_lt 0 (S b))), (proj2 (Nat.ltb_lt (S b) n)) by lia. cbn [andb]. auto.
Qed.
Definition ev (n : nat) (c : list (list R)) (j : nat) (t : R) : R := sum n (fun q => C c j q * t ^ q).
Definition lvl (n : nat) (k : nat -> R) (c : list (list R)) (j d : nat) : Prop := (forall t, ev n c j t = cox k (taken (n - 1)) d j t) /\ forall q, (d < q < n)%nat -> C c j q = 0.
Lemma sd_ratio : forall a b c, safe_divide a (b - c) = ratio a (IZR b - IZR c).
Proof. intros. unfold safe_divide, ratio. rewrite <- minus_IZR. destruct (Z.eqb_spec (b - c) 0) as [E|E], (Req_EM_T (IZR (b - c)) 0) as [F|F]; auto; exfalso; [apply F; rewrite E; auto|apply E; apply eq_IZR; auto]. Qed.
Lemma ev_row : forall n c c' j e0 e1 e2 e3 t, (0 < n)%nat -> (forall b, (b < n)%nat -> C c' j b = e0 * C c j b + e1 * C c (j + 1) b + (if (b =? 0)%nat then 0 else e2 * C c j (b - 1) + e3 * C c (j + 1) (b - 1))) ->
  C c j (n - 1) = 0 -> C c (j + 1) (n - 1) = 0 -> ev n c' j t = (e0 + e2 * t) * ev n c j t + (e1 + e3 * t) * ev n c (j + 1) t.
Proof.
  intros n c c' j e0 e1 e2 e3 t N H Z0 Z1. unfold ev. destruct n as [|m]; [lia|]. replace (S m - 1)%nat with m in * by lia.
  assert (X : sum (S m) (fun q => (if (q =? 0)%nat then 0 else e2 * C c j (q - 1) + e3 * C c (j + 1) (q - 1)) * t ^ q) = e2 * t * sum (S m) (fun q => C c j q * t ^ q) + e3 * t * sum (S m) (fun q => C c (j + 1) q * t ^ q)).
  { rewrite sum_first, !(sum_S m), Z0, Z1. cbn [Nat.eqb]. transitivity (sum m (fun q => e2 * t * (C c j q * t ^ q) + e3 * t * (C c (j + 1) q * t ^ q))).
    - rewrite Rmult_0_l, Rplus_0_l. apply sum_ext. intros i I. replace (S i - 1)%nat with i by lia. cbn [pow]. ring.
    - rewrite sum_plus, !sum_scale. ring. }
  transitivity (sum (S m) (fun q => e0 * (C c j q * t ^ q) + e1 * (C c (j + 1) q * t ^ q)) + sum (S m) (fun q => (if (q =? 0)%nat then 0 else e2 * C c j (q - 1) + e3 * C c (j + 1) (q - 1)) * t ^ q)).
  - rewrite <- sum_plus. apply sum_ext. intros i I. rewrite H by auto. ring.
  - rewrite X, sum_plus, !sum_scale. ring.
Qed.
Lemma ratio_lin : forall a b t, - ratio a b + ratio 1 b * t = ratio (t - a) b.
Proof. intros. unfold ratio. destruct (Req_EM_T b 0); [ring|field; auto]. Qed.
Lemma ratio_lin' : forall a b t, ratio a b + - ratio 1 b * t = ratio (a - t) b.
Proof. intros. unfold ratio. destruct (Req_EM_T b 0); [ring|field; auto]. Qed.
Definition kz (knot : list Z) (i : nat) : R := IZR (nth i knot 0%Z).
Lemma row_lvl : forall n i j knot c, wf n c -> length knot = (2 * n)%nat -> (j < n)%nat -> (2 <= i <= n)%nat -> lvl n (kz knot) c j (i - 2) -> lvl n (kz knot) c (j + 1) (i - 2) ->
  wp (segment_row n i j knot c) (fun c' => wf n c' /\ lvl n (kz knot) c' j (i - 1) /\ forall a, a <> j -> forall b, (b < n)%nat -> C c' a b = C c a b).
Proof.
  intros n i j knot c W L J I (E0 & Z0) (E1 & Z1). eapply wp_mono; [apply (row_ok n i j knot c W L J I)|]. intros c' (W' & H). split; [auto|]. split.
  - split.
    + intros t. erewrite (ev_row n c c' j); [|lia|intros b B; rewrite H by auto; rewrite Nat.eqb_refl; reflexivity|apply Z0; lia|apply Z1; lia]. rewrite E0, E1, !sd_ratio, ratio_lin, ratio_lin'. replace (i - 1)%nat with (S (i - 2)) by lia. cbn [cox]. unfold kz. replace (j + S (i - 2))%nat with (j + i - 1)%nat by lia. replace (j + i - 1 + 1)%nat with (j + i)%nat by lia. auto.
    + intros q Q. rewrite H by lia. rewrite Nat.eqb_refl. destruct (Nat.eqb_spec q 0); [lia|]. rewrite (Z0 q), (Z0 (q - 1)%nat), (Z1 q), (Z1 (q - 1)%nat) by lia. ring.
  - intros a A b B. rewrite H by auto. destruct (Nat.eqb_spec a j); [lia|auto].
Qed.
Lemma lvl_same : forall n k c c' j d, (forall b, (b < n)%nat -> C c' j b = C c j b) -> lvl n k c j d -> lvl n k c' j d.
Proof. intros n k c c' j d H (E & Z). split; [intros t; rewrite <- E; apply sum_ext; intros; rewrite H; auto|]. intros q Q. rewrite H by lia. auto. Qed.
Lemma table_ok : forall n knot, (0 < n)%nat -> length knot = (2 * n)%nat -> wp (segment_table n knot) (fun c => wf n c /\ forall j, (j <= n)%nat -> forall t, ev n c j t = cox (kz knot) (taken (n - 1)) (n - 1) j t).
Proof.
  intros n knot N L. unfold segment_table. apply wp_bind. assert (W0 : wf n (repeat (repeat 0 n) (n + 1))). { split; [apply repeat_length|]. intros j J. rewrite (nth_indep _ [] (repeat 0 n)) by (rewrite repeat_length; auto). rewrite nth_repeat. apply repeat_length. }
  assert (C0 : forall a b, C (repeat (repeat 0 n) (n + 1)) a b = 0). { intros a b. unfold C. destruct (Nat.lt_ge_cases a (n + 1)). - rewrite (nth_indep _ [] (repeat 0 n)) by (rewrite repeat_length; auto). rewrite nth_repeat. apply nth_repeat. - rewrite (nth_overflow _ []) by (rewrite repeat_length; auto). destruct b; auto. }
  eapply wp_mono; [apply (set2_ok n); auto; lia|]. intros c (W & H).
  assert (Hz : forall j b, (j <> n - 1)%nat \/ (b <> 0)%nat -> C c j b = 0). { intros j b Q. rewrite H, C0. destruct (Nat.eqb_spec j (n - 1)), (Nat.eqb_spec b 0); cbn [andb]; auto; lia. }
  apply wp_forn with (I := fun i c => wf n c /\ (forall b, (b < n)%nat -> C c n b = 0) /\ forall j, (j < n)%nat -> lvl n (kz knot) c j (i - 2)); [lia| | |].
  - split; [auto|]. split; [intros; apply Hz; lia|]. intros j J. split.
    + intros t. cbn [Nat.sub cox]. unfold taken, ev. destruct n as [|m]; [lia|]. rewrite sum_first. rewrite (sum_nil m) by (intros; rewrite Hz by lia; ring). destruct (Nat.eqb_spec j (S m - 1)) as [->|].
      * rewrite H, !Nat.eqb_refl. cbn. ring.
      * rewrite Hz by lia. ring.
    + intros q Q. apply Hz. lia.
  - intros i c1 I (W1 & N1 & L1). apply wp_forn with (I := fun a c2 => wf n c2 /\ (forall b, (b < n)%nat -> C c2 n b = 0) /\ forall j, (j < n)%nat -> lvl n (kz knot) c2 j (if (j <? a)%nat then i - 1 else i - 2)); [lia| | |].
    + split; [auto|]. split; [auto|]. intros j J. cbn. apply L1; auto.
    + intros j c2 J (W2 & N2 & L2). eapply wp_mono; [apply (row_lvl n i j knot c2); auto; try lia|].
      * specialize (L2 j ltac:(lia)). rewrite (proj2 (Nat.ltb_ge j j)) in L2 by lia. auto.
      * destruct (Nat.eq_dec (j + 1) n) as [E|E].
        -- rewrite E. split; [|intros; apply N2; lia]. intros t. unfold ev. rewrite (sum_nil n) by (intros; rewrite N2 by lia; ring). rewrite cox_out by lia. auto.
        -- specialize (L2 (j + 1)%nat ltac:(lia)). rewrite (proj2 (Nat.ltb_ge (j + 1) j)) in L2 by lia. auto.
      * intros c3 (W3 & Lv & Sm). split; [auto|]. split; [intros; rewrite Sm by lia; auto|]. intros a A. destruct (Nat.eq_dec a j) as [->|Na].
        -- rewrite (proj2 (Nat.ltb_lt j (S j))) by lia. auto.
        -- apply (lvl_same n _ c2); [intros; apply Sm; auto|]. specialize (L2 a A). destruct (Nat.ltb_spec a j), (Nat.ltb_spec a (S j)); auto; lia.
    + intros c2 (W2 & N2 & L2). split; [auto|]. split; [auto|]. intros j J. specialize (L2 j J). rewrite (proj2 (Nat.ltb_lt j n)) in L2 by lia. replace (S i - 2)%nat with (i - 1)%nat by lia. auto.
  - intros c1 (W1 & N1 & L1). split; [auto|]. intros j J t. destruct (Nat.eq_dec j n) as [->|]; [unfold ev; rewrite (sum_nil n) by (intros; rewrite N1 by lia; ring); rewrite cox_out by lia; auto|]. destruct (L1 j ltac:(lia)) as (E & _). rewrite E. f_equal. lia.
Qed.
Lemma seg_ok : forall n t knot pl, (0 < n)%nat -> length knot = (2 * n)%nat -> length pl = n -> 0 <= t <= 1 -> Sample_BsplineCurveSegment n t knot pl = Some (win (kz knot) (n - 1) (n - 1) (fun j => nth j pl 0) t).
Proof.
  intros n t knot pl N L Lp T. unfold Sample_BsplineCurveSegment. pose proof (ltRs t 0) as A. pose proof (ltRs 1 t) as B. destruct (ltR t 0); [lra|]. destruct (ltR 1 t); [lra|]. cbn [negb andb assertb bind].
  destruct (wp_ex _ _ _ (table_ok n knot N L)) as (c & E & W & V). rewrite E. cbn [bind].
  match goal with |- bind ?e ?f = Some ?v => destruct (wp_ex _ (bind e f) (fun x => x = v)) as (x & Ex & ->); [|exact Ex] end. apply wp_bind.
  apply wp_forn with (I := fun i w => length w = i /\ forall a, (a < i)%nat -> nth a w 0 = ev n c a t); [lia|split; [auto|intros; lia]| |].
  - intros i w I (Lw & H). rewrite (get2_ok n) by (auto; lia). cbn [bind]. apply wp_bind. apply wp_forn with (I := fun j x => x = sum j (fun r => C c i (n - j + r) * t ^ r)); [lia| | |].
    + cbn [sum pow]. replace (n - 1 + 0)%nat with (n - 1)%nat by lia. ring.
    + intros j x J ->. rewrite (get2_ok n) by (auto; lia). cbn [bind]. apply wp_some. rewrite sum_first. replace (n - S j + 0)%nat with (n - 1 - j)%nat by lia. rewrite Rplus_comm. f_equal; [cbn; ring|]. rewrite Rmult_comm, <- sum_scale. apply sum_ext. intros r R0. replace (n - S j + S r)%nat with (n - j + r)%nat by lia. cbn [pow]. ring.
    + intros x ->. apply wp_some. rewrite app_length. split; [cbn [length]; lia|]. intros a Aa. rewrite nth_snoc. destruct (Nat.eqb_spec a (length w)) as [->|]; [|apply H; lia]. rewrite Lw. unfold ev. apply sum_ext. intros r R0. replace (n - n + r)%nat with r by lia. auto.
  - intros w (Lw & H). apply wp_forn with (I := fun i p => p = sum i (fun j => nth j pl 0 * ev n c j t)); [lia|auto| |].
    + intros i p I ->. rewrite !(vget_nth _ 0) by lia. cbn [bind]. apply wp_some. rewrite H by lia. auto.
    + intros p ->. unfold win. replace (S (n - 1)) with n by lia. apply sum_ext. intros j J. rewrite V by lia. replace (n - 1 - (n - 1) + j)%nat with j by lia. ring.
Qed.

(** *** Uniform knots *)
Lemma nth_map_seq : forall A (f : nat -> A) n i d, (i < n)%nat -> nth i (map f (seq 0 n)) d = f i.
Proof. intros. rewrite (nth_indep _ d (f 0%nat)) by (rewrite map_length, seq_length; auto). rewrite map_nth, seq_nth by auto. auto. Qed.
Lemma clamped_rising : forall d N m, rising (clamped d N) m.
Proof. intros d N m i _. unfold clamped. apply le_INR. lia. Qed.
Lemma clamp_knot : forall d N I i, (I <= N)%nat -> IZR (clampZ (Z.of_nat I + Z.of_nat i - Z.of_nat d) 0 (Z.of_nat N) - Z.of_nat I) = clamped d N (i + I) - INR I.
Proof.
  intros d N I i H. unfold clamped. rewrite minus_IZR, <- !INR_IZR_INZ. f_equal. rewrite INR_IZR_INZ. f_equal. unfold clampZ. destruct (Z.ltb_spec (Z.of_nat I + Z.of_nat i - Z.of_nat d) 0); [lia|]. destruct (Z.ltb_spec (Z.of_nat N) (Z.of_nat I + Z.of_nat i - Z.of_nat d)); lia.
Qed.
Lemma trunc_ok : forall t I, INR I <= t < INR I + 1 -> trunc_int t = Z.of_nat I.
Proof.
  intros t I H. unfold trunc_int. pose proof (ltRs t 0) as A. pose proof (pos_INR I). destruct (ltR t 0); [lra|]. symmetry. unfold Int_part. replace (Z.of_nat I) with ((Z.of_nat I + 1) - 1)%Z by lia. f_equal. apply tech_up; rewrite plus_IZR, <- INR_IZR_INZ; lra.
Qed.
(** The unit interval of a parameter. *)
Definition cell (N : nat) (t : R) (I : nat) : Prop := (I < N)%nat /\ (INR I <= t < INR I + 1 \/ (I + 1 = N)%nat /\ t = INR N).
Lemma cell_ex : forall N t, (0 < N)%nat -> 0 <= t <= INR N -> exists I, cell N t I.
Proof.
  intros N t H T. destruct (Req_dec t (INR N)) as [E|E]; [exists (N - 1)%nat; split; [lia|right; split; [lia|auto]]|]. destruct (archimed t) as (A & B). assert (U : (0 < up t)%Z) by (apply lt_IZR; lra). exists (Z.to_nat (up t - 1)).
  assert (X : INR (Z.to_nat (up t - 1)) = IZR (up t) - 1) by (rewrite INR_IZR_INZ, Z2Nat.id, minus_IZR by lia; auto). split; [|left; lra]. apply INR_lt. rewrite X. lra.
Qed.
Lemma cell_bounds : forall N t I, cell N t I -> INR I <= t <= INR I + 1.
Proof. intros N t I (H & [T|(E & ->)]); [lra|]. rewrite <- E, plus_INR. cbn. lra. Qed.
Lemma pushZ_ok : forall (poly : list R) I n, (I + n <= length poly)%nat -> wp (forn 0 n (fun i a => x <- vgetZ poly (Z.of_nat I + Z.of_nat i) ;; Some (a ++ [x])) []) (fun a => length a = n /\ forall j, (j < n)%nat -> nth j a 0 = nth (I + j) poly 0).
Proof.
  intros poly I n H. apply wp_forn with (I := fun i a => length a = i /\ forall j, (j < i)%nat -> nth j a 0 = nth (I + j) poly 0); [lia|split; [auto|intros; lia]| |auto].
  intros i a Hi (L & A). unfold vgetZ. destruct (Z.ltb_spec (Z.of_nat I + Z.of_nat i) 0); [lia|]. replace (Z.to_nat (Z.of_nat I + Z.of_nat i)) with (I + i)%nat by lia. rewrite (vget_nth _ 0) by lia. cbn [bind]. apply wp_some. rewrite app_length. split; [cbn [length]; lia|]. intros j J. rewrite nth_snoc. destruct (Nat.eqb_spec j (length a)) as [->|]; [f_equal; lia|apply A; lia].
Qed.
Lemma win_local : forall m N I knot n0 A t, length knot = (2 * (S m))%nat -> (I <= N)%nat -> (n0 <= I + S m)%nat -> (forall i, (i < 2 * S m)%nat -> kz knot i = clamped n0 N (i + (I + (n0 - m))) - INR I) -> (m <= n0)%nat ->
  win (kz knot) m m A (t - INR I) = win (clamped n0 N) (I + n0) m A t.
Proof.
  intros m N I knot n0 A t L In Hn K M. unfold win. apply sum_ext. intros j J. f_equal. replace (m - m + j)%nat with j by lia.
  rewrite (cox_ext _ (fun x => clamped n0 N (x + (I + (n0 - m))) - INR I) (taken m) (taken m) m j) by (intros; auto; apply K; lia). rewrite cox_shift. replace (m + (I + (n0 - m)))%nat with (I + n0)%nat by lia. replace (j + (I + (n0 - m)))%nat with (I + n0 - m + j)%nat by lia. f_equal. ring.
Qed.
Lemma curve_ok : forall p t poly I, let N := (length poly - p)%nat in (p < length poly)%nat -> cell N t I ->
  Sample_BsplineCurve (S p) t poly = Some (win (clamped p N) (I + p) p (fun j => nth (I + j) poly 0) t).
Proof.
  intros p t poly I N Lp Cc. pose proof (cell_bounds _ _ _ Cc) as Bd. destruct Cc as (In & Cc). unfold Sample_BsplineCurve. replace (Z.of_nat (length poly) + 1 - Z.of_nat (S p))%Z with (Z.of_nat N) by (unfold N; lia). rewrite <- INR_IZR_INZ.
  assert (Ix : (trunc_int t + (if eqR t (INR N) then -1 else 0))%Z = Z.of_nat I).
  { pose proof (eqRs t (INR N)) as E. destruct Cc as [T|(E1 & ->)].
    - destruct (eqR t (INR N)); [|rewrite (trunc_ok t I T); lia]. exfalso. assert (INR (S I) <= INR N) by (apply le_INR; lia). rewrite S_INR in *. lra.
    - destruct (eqR (INR N) (INR N)); [|congruence]. rewrite (trunc_ok (INR N) N) by lra. lia. }
  rewrite Ix. rewrite (proj2 (Z.leb_le 0 (Z.of_nat I))), (proj2 (Z.ltb_lt _ _)), (proj2 (Z.leb_le 0 (Z.of_nat N))) by (unfold N in *; lia). cbn [andb assertb bind].
  destruct (wp_ex _ _ _ (pushZ_ok poly I (S p) ltac:(unfold N in In; lia))) as (a & E & La & A). rewrite E. cbn [bind]. rewrite <- INR_IZR_INZ. rewrite seg_ok; [|lia|rewrite map_length, seq_length; lia|auto|lra]. f_equal. replace (S p - 1)%nat with p by lia.
  rewrite (win_local p N I _ p); [|rewrite map_length, seq_length; lia|lia|lia| |lia].
  - apply win_ext. intros j J. apply A. lia.
  - intros i Hi. unfold kz. rewrite nth_map_seq by lia. replace (Z.of_nat (S p) - 1)%Z with (Z.of_nat p) by lia. rewrite clamp_knot by lia. do 2 f_equal. lia.
Qed.
Lemma curve_spline : forall p t poly I, let N := (length poly - p)%nat in (p < length poly)%nat -> cell N t I -> Sample_BsplineCurve (S p) t poly = Some (spline (clamped p N) (taken (I + p)) p (length poly) (kn poly) t).
Proof. intros p t poly I N L Cc. rewrite (curve_ok p t poly I L Cc). f_equal. destruct Cc as (In & _). rewrite spline_win by (unfold N in In; lia). apply win_ext. intros. unfold kn. f_equal. lia. Qed.
Lemma knot_at : forall p N I, (I <= N)%nat -> clamped p N (I + p) = INR I.
Proof. intros. unfold clamped. f_equal. lia. Qed.
Lemma knot_next : forall p N I, (I < N)%nat -> clamped p N (I + p + 1) = INR I + 1.
Proof. intros. unfold clamped. replace (Nat.min (I + p + 1 - p) N) with (S I) by lia. apply S_INR. Qed.
(** The derivative. *)
Lemma derivative_ok : forall d t poly I, let p := S d in let N := (length poly - p)%nat in (p < length poly)%nat -> cell N t I ->
  Sample_BsplineDerivative (S p) t poly = Some (win (clamped p N) (I + p) d (fun j => INR p / (clamped p N (I + p + j + 1) - clamped p N (I + p - d + j)) * (nth (I + S j) poly 0 - nth (I + j) poly 0)) t).
Proof.
  intros d t poly I p N Lp Cc. pose proof (cell_bounds _ _ _ Cc) as Bd. destruct Cc as (In & Cc). unfold Sample_BsplineDerivative. replace (Z.of_nat (length poly) + 1 - Z.of_nat (S p))%Z with (Z.of_nat N) by (unfold N; lia). rewrite <- !INR_IZR_INZ. rewrite (proj2 (Z.leb_le 0 (Z.of_nat N))) by lia. cbn [assertb bind]. destruct (Z.eqb_spec (Z.of_nat N) 0); [lia|].
  assert (Np : 0 < INR N) by (apply lt_0_INR; lia).
  assert (Ix : trunc_int (t + (if eqR t (INR N) then -1 else 0)) = Z.of_nat I).
  { pose proof (eqRs t (INR N)) as E. destruct Cc as [T|(E1 & ->)].
    - destruct (eqR t (INR N)); [|rewrite Rplus_0_r; apply trunc_ok; auto]. exfalso. assert (INR (S I) <= INR N) by (apply le_INR; lia). rewrite S_INR in *. lra.
    - destruct (eqR (INR N) (INR N)); [|congruence]. apply trunc_ok. rewrite <- E1, plus_INR. cbn. lra. }
  rewrite Ix. replace (S p - 1)%nat with p by lia.
  assert (KG : forall j, IZR (clampZ (Z.of_nat j - Z.of_nat (S p) + 1) 0 (Z.of_nat N)) = clamped p N j). { intros j. pose proof (clamp_knot p N 0 j ltac:(lia)) as X. rewrite Nat.add_0_r in X. cbn [INR] in X. rewrite Rminus_0_r in X. rewrite <- X. f_equal. change (Z.of_nat 0) with 0%Z. rewrite Z.sub_0_r. f_equal. lia. }
  assert (Dn : forall j, (j < p)%nat -> clamped p N (I + p - d + j) < clamped p N (I + p + j + 1)). { intros j J. unfold clamped. apply lt_INR. unfold p in *. lia. }
  match goal with |- bind ?e _ = _ => destruct (wp_ex _ e (fun a => length a = p /\ forall j, (j < p)%nat -> nth j a 0 = INR N * (INR p / (clamped p N (I + p + j + 1) - clamped p N (I + p - d + j)) * (nth (I + S j) poly 0 - nth (I + j) poly 0)))) as (a & E & La & A) end.
  { apply wp_forn with (I := fun i a => length a = i /\ forall j, (j < i)%nat -> nth j a 0 = INR N * (INR p / (clamped p N (I + p + j + 1) - clamped p N (I + p - d + j)) * (nth (I + S j) poly 0 - nth (I + j) poly 0))); [lia|split; [auto|intros; lia]| |auto].
    intros j a J (L & A). cbv zeta. replace (Z.of_nat I + Z.of_nat j + Z.of_nat (S p))%Z with (Z.of_nat (I + p + j + 1)) by lia. replace (Z.of_nat I + Z.of_nat j + 1)%Z with (Z.of_nat (I + p - d + j)) by (unfold p; lia). rewrite !KG. specialize (Dn j ltac:(lia)).
    assert (D0 : clamped p N (I + p + j + 1) / INR N - clamped p N (I + p - d + j) / INR N <> 0). { intros X. apply (f_equal (fun z => z * INR N)) in X. field_simplify in X; lra. }
    pose proof (eqRs (clamped p N (I + p + j + 1) / INR N - clamped p N (I + p - d + j) / INR N) 0) as E. destruct (eqR _ 0); [contradiction|]. unfold vgetZ. destruct (Z.ltb_spec (Z.of_nat (I + p - d + j)) 0); [lia|]. destruct (Z.ltb_spec (Z.of_nat I + Z.of_nat j) 0); [lia|]. rewrite Nat2Z.id. replace (Z.to_nat (Z.of_nat I + Z.of_nat j)) with (I + j)%nat by lia. rewrite !(vget_nth _ 0) by (unfold p, N in *; lia). cbn [bind]. apply wp_some.
    rewrite app_length. split; [cbn [length]; lia|]. intros i Hi. rewrite nth_snoc. destruct (Nat.eqb_spec i (length a)) as [->|]; [|apply A; lia]. rewrite L. replace (I + S j)%nat with (I + p - d + j)%nat by (unfold p; lia). field; repeat split; lra. }
  rewrite E. cbn [bind]. rewrite <- INR_IZR_INZ. rewrite seg_ok; [|unfold p; lia|rewrite map_length, seq_length; lia|auto|lra]. cbn [bind]. f_equal. replace (p - 1)%nat with d by (unfold p; lia).
  rewrite (win_local d N I _ p); [|rewrite map_length, seq_length; unfold p; lia|lia|unfold p; lia| |unfold p; lia].
  - unfold win. unfold Rdiv. rewrite Rmult_comm, <- sum_scale. apply sum_ext. intros j J. rewrite A by (unfold p; lia). field. specialize (Dn j ltac:(unfold p; lia)). split; lra.
  - intros i Hi. unfold kz. rewrite nth_map_seq by (unfold p; lia).
    replace (i + (I + (p - d)))%nat with ((i + 1) + I)%nat by (unfold p; lia). rewrite <- clamp_knot by lia. do 3 f_equal. lia.
Qed.
