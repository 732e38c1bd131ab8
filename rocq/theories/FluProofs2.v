(** Interpolation, divergence, gradients and advection. *)
From Coq Require Import List Arith Bool ZArith Reals Lra Lia.
Import ListNotations.
From Verif Require Import Imp PrModel ProxModel GjkProofs1 MeasSpec MeasProofs2 MeasProofs3 BspProofs1 BspProofs2 FluModel FluSpec FluProofs1.
Open Scope R_scope.

Lemma e10_small : 0 < e10 < 1 / 2.
Proof. split; [apply e10_pos|]. unfold e10. apply Rmult_lt_reg_l with (10 ^ 10); [lra|]. rewrite Rinv_r by lra. lra. Qed.
Lemma index_ok : forall n x, (2 <= n)%nat -> between n x (Z.to_nat (Int_part (let b := (if ltR (INR n - 1 - e10) x then INR n - 1 - e10 else x) in if ltR b 0 then 0 else b))).
Proof.
  intros n x N. pose proof e10_small as E. assert (N2 : 2 <= INR n) by (apply (le_INR 2); auto).
  set (m := if ltR (INR n - 1 - e10) x then INR n - 1 - e10 else x). cbv zeta. set (x1 := if ltR m 0 then 0 else m).
  assert (B : 0 <= x1 <= INR n - 1 - e10 /\ (x1 <= x \/ x1 = 0) /\ (x <= x1 \/ x1 = INR n - 1 - e10)).
  { unfold x1, m. pose proof (ltRs (INR n - 1 - e10) x) as A. destruct (ltR (INR n - 1 - e10) x).
    - pose proof (ltRs (INR n - 1 - e10) 0) as C. destruct (ltR _ 0); lra.
    - pose proof (ltRs x 0) as C. destruct (ltR _ 0); lra. }
  clearbody x1. clear m. destruct B as (B & B1 & B2). destruct (base_Int_part x1) as (P & Q). set (z := Int_part x1) in *.
  assert (Z0 : (0 <= z)%Z). { assert ((-1 < z)%Z); [|lia]. apply lt_IZR. lra. }
  assert (Zi : INR (Z.to_nat z) = IZR z) by (rewrite INR_IZR_INZ, Z2Nat.id by auto; auto). set (i := Z.to_nat z) in *. rewrite <- Zi in P, Q.
  assert (I1 : (i + 1 < n)%nat). { apply INR_lt. rewrite plus_INR. cbn [INR]. lra. }
  split; [auto|]. split.
  - destruct B1 as [B1|B1]; [left; lra|]. right. assert ((i < 1)%nat); [|lia]. apply INR_lt. cbn [INR]. lra.
  - destruct B2 as [B2|B2]; [left; lra|]. right. destruct (Nat.lt_ge_cases (i + 2) n) as [L|L]; [|lia]. exfalso. apply (le_INR (S (i + 2)) n) in L. rewrite S_INR, plus_INR in L. cbn [INR] in L. lra.
Qed.
Lemma elem_ok : forall k f i j, (k < 2)%nat -> elem2 (f i j) k = Some (comp k f i j). Proof. intros [|[|k]] f i j K; try reflexivity. lia. Qed.
Lemma interp_ok : forall a ni nj k x y, sized a ni nj -> (2 <= ni)%nat -> (2 <= nj)%nat -> (k < 2)%nat -> exists z, LinearInterpolationOnGrid2 a k x y = Some z /\ interpolated ni nj (comp k (val2 a)) x y z.
Proof.
  intros a ni nj k x y S I J K. unfold LinearInterpolationOnGrid2. pose proof S as (A & B & _). rewrite A, B. cbv zeta.
  pose proof (index_ok ni x I) as X. pose proof (index_ok nj y J) as Y. cbv zeta in X, Y. set (i := Z.to_nat _) in X at 1. fold i. set (j := Z.to_nat _) in Y at 1. fold j.
  pose proof X as (Xi & _). pose proof Y as (Yj & _). rewrite (proj2 (Nat.ltb_lt i (ni - 1))), (proj2 (Nat.ltb_lt j (nj - 1))) by lia. cbn [assertb bind].
  rewrite (at2_ok _ (0, 0) a ni nj i j), (at2_ok _ (0, 0) a ni nj (i + 1) j), (at2_ok _ (0, 0) a ni nj i (j + 1)), (at2_ok _ (0, 0) a ni nj (i + 1) (j + 1)) by (auto; lia). fold (val2 a i j) (val2 a (i + 1) j) (val2 a i (j + 1)) (val2 a (i + 1) (j + 1)). cbn [bind]. rewrite !elem_ok by auto. cbn [bind].
  eexists. split; [reflexivity|]. exists i, j. split; [auto|]. split; [auto|]. unfold blend. ring.
Qed.
Lemma interp_thin : forall a ni nj k x y, sized a ni nj -> (ni < 2)%nat \/ (nj < 2)%nat -> LinearInterpolationOnGrid2 a k x y = None.
Proof.
  intros a ni nj k x y (A & B & _) H. unfold LinearInterpolationOnGrid2. rewrite A, B. destruct H as [H|H].
  - rewrite (proj2 (Nat.ltb_ge _ (ni - 1))) by lia. reflexivity.
  - rewrite (proj2 (Nat.ltb_ge _ (nj - 1))) by lia. destruct (assertb _); reflexivity.
Qed.
Lemma between_in : forall n x i, between n x i -> 0 <= x <= INR n - 1 -> 0 <= x - INR i <= 1.
Proof.
  intros n x i (A & B & C) X. split.
  - destruct B as [B| ->]; [lra|cbn [INR]; lra].
  - destruct C as [C|C]; [lra|]. rewrite <- C, plus_INR in X. cbn [INR] in X. lra.
Qed.
Lemma between_node : forall n k i, (k < n)%nat -> between n (INR k) i -> i = k \/ (i + 1)%nat = k.
Proof.
  intros n k i K (A & B & C). assert (i <= k)%nat by (destruct B as [B| ->]; [apply INR_le; auto|lia]). assert (k < i + 1 \/ i + 2 = n)%nat; [|lia].
  destruct C as [C|C]; [left|auto]. apply INR_lt. rewrite plus_INR. cbn [INR]. lra.
Qed.
Lemma blend_mean : forall f i j x y lo hi, 0 <= x - INR i <= 1 -> 0 <= y - INR j <= 1 -> (forall a b, (a = i \/ a = i + 1)%nat -> (b = j \/ b = j + 1)%nat -> lo <= f a b <= hi) -> lo <= blend f i j x y <= hi.
Proof.
  intros f i j x y lo hi X Y H. unfold blend. set (r := x - INR i) in *. set (s := y - INR j) in *. replace (INR i + 1 - x) with (1 - r) by (unfold r; ring). replace (INR j + 1 - y) with (1 - s) by (unfold s; ring).
  pose proof (H i j ltac:(auto) ltac:(auto)). pose proof (H (i + 1)%nat j ltac:(auto) ltac:(auto)). pose proof (H i (j + 1)%nat ltac:(auto) ltac:(auto)). pose proof (H (i + 1)%nat (j + 1)%nat ltac:(auto) ltac:(auto)).
  assert (W1 : 0 <= (1 - r) * (1 - s)) by (apply Rmult_le_pos; lra). assert (W2 : 0 <= r * (1 - s)) by (apply Rmult_le_pos; lra). assert (W3 : 0 <= (1 - r) * s) by (apply Rmult_le_pos; lra). assert (W4 : 0 <= r * s) by (apply Rmult_le_pos; lra).
  set (w1 := (1 - r) * (1 - s)) in *. set (w2 := r * (1 - s)) in *. set (w3 := (1 - r) * s) in *. set (w4 := r * s) in *. assert (E : w1 + w2 + w3 + w4 = 1) by (unfold w1, w2, w3, w4; ring). clearbody w1 w2 w3 w4.
  assert (M : forall w a b, 0 <= w -> a <= b -> w * a <= w * b) by (intros; apply Rmult_le_compat_l; auto).
  split.
  - replace lo with (w1 * lo + w2 * lo + w3 * lo + w4 * lo) by (rewrite <- !Rmult_plus_distr_r, E; ring). repeat apply Rplus_le_compat; apply M; tauto.
  - replace hi with (w1 * hi + w2 * hi + w3 * hi + w4 * hi) by (rewrite <- !Rmult_plus_distr_r, E; ring). repeat apply Rplus_le_compat; apply M; tauto.
Qed.
Lemma interp_mean : forall ni nj f x y z lo hi, interpolated ni nj f x y z -> inside ni nj x y -> (forall i j, (i < ni)%nat -> (j < nj)%nat -> lo <= f i j <= hi) -> lo <= z <= hi.
Proof. intros ni nj f x y z lo hi (i & j & A & B & ->) (X & Y) H. apply blend_mean; [eapply between_in; eauto|eapply between_in; eauto|]. destruct A as (A & _). destruct B as (B & _). intros a b Ha Hb. apply H; lia. Qed.
Lemma interp_node : forall ni nj f k l z, interpolated ni nj f (INR k) (INR l) z -> (k < ni)%nat -> (l < nj)%nat -> z = f k l.
Proof. intros ni nj f k l z (i & j & A & B & ->) K L. unfold blend. apply between_node in A; auto. apply between_node in B; auto. destruct A as [->|<-]; destruct B as [->|<-]; rewrite ?plus_INR; cbn [INR]; ring. Qed.
Lemma interp_bilinear : forall ni nj f x y z a b c e, interpolated ni nj f x y z -> (forall i j, (i < ni)%nat -> (j < nj)%nat -> f i j = a + b * INR i + c * INR j + e * INR i * INR j) -> z = a + b * x + c * y + e * x * y.
Proof. intros ni nj f x y z a b c e (i & j & (A & _) & (B & _) & ->) H. unfold blend. rewrite !H by lia. rewrite !plus_INR. cbn [INR]. ring. Qed.
Lemma interp_ext : forall ni nj f g x y z, (forall i j, (i < ni)%nat -> (j < nj)%nat -> f i j = g i j) -> interpolated ni nj f x y z -> interpolated ni nj g x y z.
Proof. intros ni nj f g x y z H (i & j & A & B & ->). exists i, j. split; [auto|]. split; [auto|]. unfold blend. destruct A as (A & _). destruct B as (B & _). rewrite !H by lia. auto. Qed.

(** *** Loops *)
Ltac at_ok ni nj := rewrite ?(at2_ok R 0 _ ni nj), ?(at2_ok (R * R) (0, 0) _ ni nj) by (auto; lia); cbn [bind].
Lemma neqR : forall h, h <> 0 -> eqR h 0 = false. Proof. intros h H. pose proof (eqRs h 0) as E. destruct (eqR h 0); auto. contradiction. Qed.
Lemma divergence_ok : forall dv ni nj u v h, sized dv ni nj -> sized u (ni + 1) nj -> sized v ni (nj + 1) -> h <> 0 ->
  wp (Divergence_StaggerdGrid2 dv ni nj u v h) (fun d => sized d ni nj /\ forall i j, (i < ni)%nat -> (j < nj)%nat -> val d i j = outflow (val u) (val v) i j / h).
Proof.
  intros dv ni nj u v h D U V H. unfold Divergence_StaggerdGrid2. rewrite !has_size_ok by auto. cbn [assertb bind]. rewrite (neqR h H).
  eapply wp_mono; [apply (fill_ok (T := R) 0 ni nj 0 ni 0 nj (fun x _ => x) (fun _ y => y) (fun x y _ => outflow (val u) (val v) x y / h) dv); auto|].
  - intros x y (X & Y). lia.
  - intros x y b (X & Y) B. rewrite (at2_ok R 0 u (ni + 1) nj (x + 1) y), (at2_ok R 0 u (ni + 1) nj x y), (at2_ok R 0 v ni (nj + 1) x (y + 1)), (at2_ok R 0 v ni (nj + 1) x y) by (auto; lia). cbn [bind]. reflexivity.
  - intros d (S & A & _). split; [auto|]. intros i j I J. apply (A i j). split; lia.
Qed.
Lemma cell_divergence_ok : forall dv ni nj a h, sized dv ni nj -> sized a ni nj -> h <> 0 ->
  wp (Divergence_CellCenteredGrid2 dv ni nj a h) (fun d => sized d ni nj /\ forall i j, (i < ni)%nat -> (j < nj)%nat -> val d i j = if ((0 <? i) && (i + 1 <? ni) && (0 <? j) && (j + 1 <? nj))%nat then
    (fst (val2 a (i - 1) j) - fst (val2 a (i + 1) j) + snd (val2 a i (j - 1)) - snd (val2 a i (j + 1))) / h else val dv i j).
Proof.
  intros dv ni nj a h D S H. unfold Divergence_CellCenteredGrid2. rewrite !has_size_ok by auto. cbn [assertb bind]. rewrite (neqR h H).
  eapply wp_mono; [apply (fill_ok (T := R) 0 ni nj 1 (ni - 1) 1 (nj - 1) (fun x _ => x) (fun _ y => y) (fun i j _ => (fst (val2 a (i - 1) j) - fst (val2 a (i + 1) j) + snd (val2 a i (j - 1)) - snd (val2 a i (j + 1))) / h) dv); auto|].
  - intros x y (X & Y). lia.
  - intros x y b (X & Y) B. rewrite (at2_ok _ (0, 0) a ni nj (x + 1) y), (at2_ok _ (0, 0) a ni nj (x - 1) y), (at2_ok _ (0, 0) a ni nj x (y + 1)), (at2_ok _ (0, 0) a ni nj x (y - 1)) by (auto; lia). reflexivity.
  - intros d (Sd & A & B). split; [auto|]. intros i j I J. destruct (Nat.ltb_spec 0 i); [destruct (Nat.ltb_spec (i + 1) ni); [destruct (Nat.ltb_spec 0 j); [destruct (Nat.ltb_spec (j + 1) nj)|]|]|]; cbn [andb]; [apply (A i j); split; lia|..]; apply (B i j); auto; intros x y (X & Y) (E & F); lia.
Qed.
Lemma gradient_ok : forall u v ni nj s p, sized u (ni + 1) nj -> sized v ni (nj + 1) -> sized p ni nj ->
  wp (SubstructPressureGradient_StaggeredGrid2 u v ni nj s p) (fun r => sized (fst r) (ni + 1) nj /\ sized (snd r) ni (nj + 1) /\
    (forall i j, (i < ni + 1)%nat -> (j < nj)%nat -> val (fst r) i j = if ((0 <? i) && (i <? ni))%nat then val u i j - s * (val p i j - val p (i - 1) j) else val u i j) /\
    (forall i j, (i < ni)%nat -> (j < nj + 1)%nat -> val (snd r) i j = if ((0 <? j) && (j <? nj))%nat then val v i j - s * (val p i j - val p i (j - 1)) else val v i j)).
Proof.
  intros u v ni nj s p U V P. unfold SubstructPressureGradient_StaggeredGrid2. rewrite !has_size_ok by auto. cbn [assertb bind]. apply wp_bind.
  eapply wp_mono; [apply (fill_ok (T := R) 0 (ni + 1) nj 0 nj 0 (ni - 1) (fun _ y => (y + 1)%nat) (fun x _ => x) (fun x y o => o - s * (val p (y + 1) x - val p (y + 0) x)) u); auto|].
  - intros x y (X & Y). lia.
  - intros x y x' y' _ _ E F. lia.
  - intros x y b (X & Y) B. rewrite (at2_ok _ 0 p ni nj (y + 1) x), (at2_ok _ 0 p ni nj (y + 0) x), (at2_ok _ 0 b (ni + 1) nj (y + 1) x) by (auto; lia). reflexivity.
  - intros u' (Su & Au & Bu). apply wp_bind. eapply wp_mono; [apply (fill_ok (T := R) 0 ni (nj + 1) 0 (nj - 1) 0 ni (fun _ y => y) (fun x _ => (x + 1)%nat) (fun x y o => o - s * (val p y (x + 1) - val p y (x + 0))) v); auto|].
    + intros x y (X & Y). lia.
    + intros x y x' y' _ _ E F. lia.
    + intros x y b (X & Y) B. rewrite (at2_ok _ 0 p ni nj y (x + 1)), (at2_ok _ 0 p ni nj y (x + 0)), (at2_ok _ 0 b ni (nj + 1) y (x + 1)) by (auto; lia). reflexivity.
    + intros v' (Sv & Av & Bv). apply wp_some. cbn [fst snd]. split; [auto|]. split; [auto|]. split.
      * intros i j I J. destruct (Nat.ltb_spec 0 i); [destruct (Nat.ltb_spec i ni)|]; cbn [andb].
        -- specialize (Au j (i - 1)%nat ltac:(split; lia)). replace (i - 1 + 1)%nat with i in Au by lia. rewrite Nat.add_0_r in Au. exact Au.
        -- apply (Bu i j); auto. intros x y (X & Y) (E & F). lia.
        -- apply (Bu i j); auto. intros x y (X & Y) (E & F). lia.
      * intros i j I J. destruct (Nat.ltb_spec 0 j); [destruct (Nat.ltb_spec j nj)|]; cbn [andb].
        -- specialize (Av (j - 1)%nat i ltac:(split; lia)). replace (j - 1 + 1)%nat with j in Av by lia. rewrite Nat.add_0_r in Av. exact Av.
        -- apply (Bv i j); auto. intros x y (X & Y) (E & F). lia.
        -- apply (Bv i j); auto. intros x y (X & Y) (E & F). lia.
Qed.
Lemma cell_gradient_ok : forall a ni nj s p, sized a ni nj -> sized p ni nj ->
  wp (SubstructPressureGradient_CellCenteredGrid2 a ni nj s p) (fun b => sized b ni nj /\ forall i j, (i < ni)%nat -> (j < nj)%nat -> val2 b i j = if ((0 <? i) && (i + 1 <? ni) && (0 <? j) && (j + 1 <? nj))%nat then
    (fst (val2 a i j) - s * (val p (i - 1) j - val p (i + 1) j) / 2, snd (val2 a i j) - s * (val p i (j - 1) - val p i (j + 1)) / 2) else val2 a i j).
Proof.
  intros a ni nj s p S P. unfold SubstructPressureGradient_CellCenteredGrid2. rewrite !has_size_ok by auto. cbn [assertb bind].
  eapply wp_mono; [apply (fill_ok (T := R * R) (0, 0) ni nj 1 (nj - 1) 1 (ni - 1) (fun _ y => y) (fun x _ => x) (fun j i o => (fst o - s * (val p (i - 1) j - val p (i + 1) j) * (1 / 2), snd o - s * (val p i (j - 1) - val p i (j + 1)) * (1 / 2))) a); auto|].
  - intros x y (X & Y). lia.
  - intros x y b (X & Y) B. rewrite (at2_ok _ 0 p ni nj (y + 1) x), (at2_ok _ 0 p ni nj (y - 1) x), (at2_ok _ 0 p ni nj y (x + 1)), (at2_ok _ 0 p ni nj y (x - 1)), (at2_ok _ (0, 0) b ni nj y x) by (auto; lia). reflexivity.
  - intros d (Sd & A & B). split; [auto|]. intros i j I J. destruct (Nat.ltb_spec 0 i); [destruct (Nat.ltb_spec (i + 1) ni); [destruct (Nat.ltb_spec 0 j); [destruct (Nat.ltb_spec (j + 1) nj)|]|]|]; cbn [andb].
    + specialize (A j i ltac:(split; lia)). unfold val2 at 1. rewrite A. unfold val2. f_equal; field.
    + apply (B i j); auto; intros x y (X & Y) (E & F); lia.
    + apply (B i j); auto; intros x y (X & Y) (E & F); lia.
    + apply (B i j); auto; intros x y (X & Y) (E & F); lia.
    + apply (B i j); auto; intros x y (X & Y) (E & F); lia.
Qed.
(** What the subtraction does to the flow out of a cell. *)
Lemma outflow_gradient : forall ni nj u v u' v' p s, (forall i j, (i < ni + 1)%nat -> (j < nj)%nat -> u' i j = if ((0 <? i) && (i <? ni))%nat then u i j - s * (p i j - p (i - 1)%nat j) else u i j) ->
  (forall i j, (i < ni)%nat -> (j < nj + 1)%nat -> v' i j = if ((0 <? j) && (j <? nj))%nat then v i j - s * (p i j - p i (j - 1)%nat) else v i j) ->
  forall i j, (i < ni)%nat -> (j < nj)%nat -> outflow u' v' i j = outflow u v i j - s * lap ni nj p i j.
Proof.
  intros ni nj u v u' v' p s U V i j I J. unfold outflow, lap. rewrite !U, !V by lia. rewrite (proj2 (Nat.ltb_lt i ni)), (proj2 (Nat.ltb_lt j nj)), (proj2 (Nat.ltb_lt 0 (i + 1))), (proj2 (Nat.ltb_lt 0 (j + 1))) by lia. rewrite !andb_true_r, !andb_true_l. rewrite !Nat.add_sub.
  destruct (i + 1 <? ni)%nat, (0 <? i)%nat, (j + 1 <? nj)%nat, (0 <? j)%nat; ring.
Qed.

(** *** Advection *)
Lemma faces_u_ok : forall u v ni nj t, sized u (ni + 1) nj -> sized v ni (nj + 1) -> (0 < ni)%nat -> sized t (ni + 1) nj ->
  wp (faces_u u v ni nj t) (fun t => sized t (ni + 1) nj /\ forall i j, (i < ni + 1)%nat -> (j < nj)%nat -> val2 t i j = (val u i j, v_at_u ni (val v) i j)).
Proof.
  intros u v ni nj t U V N T. unfold faces_u. eapply wp_mono; [apply (fill_ok (T := R * R) (0, 0) (ni + 1) nj 0 (ni + 1) 0 (nj + 0) (fun x _ => x) (fun _ y => y) (fun i j _ => (val u i j, v_at_u ni (val v) i j)) t); auto|].
  - intros x y (X & Y). lia.
  - intros x y b (X & Y) B. assert (Fc : forall i j k l, k = Z.to_nat (myclamp i 0 (Z.of_nat ni - 1)) -> l = Z.to_nat (myclamp j 0 (Z.of_nat (nj + 1) - 1)) -> fetch2 v i j = Some (cell 0 v k l)) by (intros; eapply fetch2_ok; eauto; lia). unfold myclamp in Fc.
    rewrite (Fc _ _ (x - 1)%nat y), (Fc _ _ (Nat.min x (ni - 1)) y), (Fc _ _ (x - 1)%nat (y + 1)%nat), (Fc _ _ (Nat.min x (ni - 1)) (y + 1)%nat) by lia. cbn [bind]. rewrite (at2_ok _ 0 u (ni + 1) nj) by (auto; lia). cbn [bind]. f_equal. f_equal. unfold v_at_u, val. field.
  - intros d (S & A & _). split; [auto|]. intros i j I J. apply (A i j). split; lia.
Qed.
Lemma faces_v_ok : forall u v ni nj t, sized u (ni + 1) nj -> sized v ni (nj + 1) -> (0 < nj)%nat -> sized t ni (nj + 1) ->
  wp (faces_v u v ni nj t) (fun t => sized t ni (nj + 1) /\ forall i j, (i < ni)%nat -> (j < nj + 1)%nat -> val2 t i j = (u_at_v nj (val u) i j, val v i j)).
Proof.
  intros u v ni nj t U V N T. unfold faces_v. eapply wp_mono; [apply (fill_ok (T := R * R) (0, 0) ni (nj + 1) 0 (nj + 1) 0 (ni + 0) (fun _ y => y) (fun x _ => x) (fun j i _ => (u_at_v nj (val u) i j, val v i j)) t); auto|].
  - intros x y (X & Y). lia.
  - intros x y b (X & Y) B. assert (Fc : forall i j k l, k = Z.to_nat (myclamp i 0 (Z.of_nat (ni + 1) - 1)) -> l = Z.to_nat (myclamp j 0 (Z.of_nat nj - 1)) -> fetch2 u i j = Some (cell 0 u k l)) by (intros; eapply fetch2_ok; eauto; lia). unfold myclamp in Fc.
    rewrite (Fc _ _ y (x - 1)%nat), (Fc _ _ (y + 1)%nat (x - 1)%nat), (Fc _ _ y (Nat.min x (nj - 1))), (Fc _ _ (y + 1)%nat (Nat.min x (nj - 1))) by lia. cbn [bind]. rewrite (at2_ok _ 0 v ni (nj + 1)) by (auto; lia). cbn [bind]. f_equal. f_equal. unfold u_at_v, val. field.
  - intros d (S & A & _). split; [auto|]. intros i j I J. apply (A j i). split; lia.
Qed.
Definition or0 (o : option R) : R := match o with Some x => x | None => 0 end.
Lemma carry_ok : forall t k ni nj dt h a, sized t ni nj -> sized a ni nj -> (2 <= ni)%nat -> (2 <= nj)%nat -> (k < 2)%nat -> h <> 0 ->
  wp (carry t k ni nj dt h a) (fun b => sized b ni nj /\ forall i j, (i < ni)%nat -> (j < nj)%nat -> interpolated ni nj (comp k (val2 t)) (INR i - fst (val2 t i j) * dt / h) (INR j - snd (val2 t i j) * dt / h) (val b i j)).
Proof.
  intros t k ni nj dt h a T A I J K H. unfold carry. rewrite (neqR h H).
  eapply wp_mono; [apply (fill_ok (T := R) 0 ni nj 0 ni 0 nj (fun x _ => x) (fun _ y => y) (fun i j _ => or0 (LinearInterpolationOnGrid2 t k (INR i - fst (val2 t i j) * dt / h) (INR j - snd (val2 t i j) * dt / h))) a); auto|].
  - intros x y (X & Y). lia.
  - intros x y b (X & Y) B. rewrite (at2_ok _ (0, 0) t ni nj) by (auto; lia). cbn [bind]. fold (val2 t x y). destruct (interp_ok t ni nj k (INR x - fst (val2 t x y) * dt / h) (INR y - snd (val2 t x y) * dt / h) T I J K) as (z & -> & _). reflexivity.
  - intros d (S & C & _). split; [auto|]. intros i j Hi Hj. specialize (C i j ltac:(split; lia)). unfold val at 1. rewrite C. destruct (interp_ok t ni nj k (INR i - fst (val2 t i j) * dt / h) (INR j - snd (val2 t i j) * dt / h) T I J K) as (z & -> & Z). exact Z.
Qed.
Lemma carry_thin : forall t k ni nj dt h a, sized t ni nj -> (0 < ni)%nat -> (0 < nj)%nat -> (ni < 2)%nat \/ (nj < 2)%nat -> carry t k ni nj dt h a = None.
Proof.
  intros t k ni nj dt h a T I J H. unfold carry. match goal with |- ?e = None => destruct e eqn:E; auto end. exfalso. destruct (forn_some _ _ _ _ _ _ E 0%nat ltac:(lia)) as (x & y & E1). destruct (forn_some _ _ _ _ _ _ E1 0%nat ltac:(lia)) as (x' & y' & E2).
  destruct (at2 t 0 0); [|discriminate]. cbn [bind] in E2. destruct (eqR h 0); [discriminate|]. rewrite (interp_thin t ni nj) in E2 by auto. discriminate.
Qed.
Lemma advection_ok : forall u v ut vt ni nj dt h, sized u (ni + 1) nj -> sized v ni (nj + 1) -> sized ut (ni + 1) nj -> sized vt ni (nj + 1) -> (2 <= ni)%nat -> (2 <= nj)%nat -> h <> 0 ->
  exists u' v' ut' vt', AdvectionSemiLagrangian_StaggeredGrid2 u v ut vt ni nj dt h = Some (u', v', ut', vt') /\ sized u' (ni + 1) nj /\ sized v' ni (nj + 1) /\
    (forall i j, (i < ni + 1)%nat -> (j < nj)%nat -> interpolated (ni + 1) nj (val u) (INR i - val u i j * dt / h) (INR j - v_at_u ni (val v) i j * dt / h) (val u' i j)) /\
    (forall i j, (i < ni)%nat -> (j < nj + 1)%nat -> interpolated ni (nj + 1) (val v) (INR i - u_at_v nj (val u) i j * dt / h) (INR j - val v i j * dt / h) (val v' i j)).
Proof.
  intros u v ut vt ni nj dt h U V UT VT I J H. unfold AdvectionSemiLagrangian_StaggeredGrid2. rewrite !has_size_ok by auto. rewrite (proj2 (Nat.ltb_lt 0 ni)), (proj2 (Nat.ltb_lt 0 nj)) by lia. cbn [assertb bind andb].
  destruct (wp_ex _ _ _ (faces_u_ok u v ni nj ut U V ltac:(lia) UT)) as (ut' & -> & Sut & Eut). cbn [bind]. destruct (wp_ex _ _ _ (faces_v_ok u v ni nj vt U V ltac:(lia) VT)) as (vt' & -> & Svt & Evt). cbn [bind]. rewrite !Nat.add_0_r.
  destruct (wp_ex _ _ _ (carry_ok ut' 0 (ni + 1) nj dt h u Sut U ltac:(lia) ltac:(lia) ltac:(lia) H)) as (u' & -> & Su & Eu). cbn [bind]. destruct (wp_ex _ _ _ (carry_ok vt' 1 ni (nj + 1) dt h v Svt V ltac:(lia) ltac:(lia) ltac:(lia) H)) as (v' & -> & Sv & Ev). cbn [bind].
  exists u', v', ut', vt'. split; [auto|]. split; [auto|]. split; [auto|]. split.
  - intros i j Hi Hj. specialize (Eu i j Hi Hj). rewrite (Eut i j Hi Hj) in Eu. cbn [fst snd] in Eu. eapply interp_ext; [|exact Eu]. intros a b A B. unfold comp. rewrite Eut by auto. reflexivity.
  - intros i j Hi Hj. specialize (Ev i j Hi Hj). rewrite (Evt i j Hi Hj) in Ev. cbn [fst snd] in Ev. eapply interp_ext; [|exact Ev]. intros a b A B. unfold comp. rewrite Evt by auto. reflexivity.
Qed.
Lemma cell_advection_ok : forall a t ni nj dt h, sized a ni nj -> sized t ni nj -> (2 <= ni)%nat -> (2 <= nj)%nat -> h <> 0 ->
  wp (AdvectionSemiLagrangian_CellCenteredGrid2 a t ni nj dt h) (fun b => sized b ni nj /\ forall i j k, (i < ni)%nat -> (j < nj)%nat -> (k < 2)%nat ->
    interpolated ni nj (comp k (val2 a)) (INR i - fst (val2 a i j) * dt / h) (INR j - snd (val2 a i j) * dt / h) (comp k (val2 b) i j)).
Proof.
  intros a t ni nj dt h A T I J H. unfold AdvectionSemiLagrangian_CellCenteredGrid2. rewrite !has_size_ok by auto. rewrite (proj2 (Nat.ltb_lt 0 ni)), (proj2 (Nat.ltb_lt 0 nj)) by lia. cbn [assertb bind andb].
  replace (mkarray2 (a_ni t) (a_nj t) (a_v a)) with a. 2:{ destruct A as (A1 & A2 & _). destruct T as (T1 & T2 & _). rewrite T1, T2, <- A1, <- A2. destruct a; reflexivity. }
  rewrite (neqR h H).
  eapply wp_mono; [apply (fill_ok (T := R * R) (0, 0) ni nj 0 ni 0 nj (fun x _ => x) (fun _ y => y) (fun i j _ => (or0 (LinearInterpolationOnGrid2 a 0 (INR i - fst (val2 a i j) * dt / h) (INR j - snd (val2 a i j) * dt / h)), or0 (LinearInterpolationOnGrid2 a 1 (INR i - fst (val2 a i j) * dt / h) (INR j - snd (val2 a i j) * dt / h)))) a); auto|].
  - intros x y (X & Y). lia.
  - intros x y b (X & Y) B. rewrite (at2_ok _ (0, 0) a ni nj) by (auto; lia). cbn [bind]. fold (val2 a x y). destruct (interp_ok a ni nj 0 (INR x - fst (val2 a x y) * dt / h) (INR y - snd (val2 a x y) * dt / h) A I J ltac:(lia)) as (z & -> & _). destruct (interp_ok a ni nj 1 (INR x - fst (val2 a x y) * dt / h) (INR y - snd (val2 a x y) * dt / h) A I J ltac:(lia)) as (z' & -> & _). reflexivity.
  - intros d (S & C & _). split; [auto|]. intros i j k Hi Hj K. specialize (C i j ltac:(split; lia)). unfold comp at 2. unfold val2 at 4 5. rewrite C. cbn [fst snd].
    destruct (interp_ok a ni nj 0 (INR i - fst (val2 a i j) * dt / h) (INR j - snd (val2 a i j) * dt / h) A I J ltac:(lia)) as (z & -> & Z). destruct (interp_ok a ni nj 1 (INR i - fst (val2 a i j) * dt / h) (INR j - snd (val2 a i j) * dt / h) A I J ltac:(lia)) as (z' & -> & Z'). cbn [or0]. destruct k as [|[|k]]; [exact Z|exact Z'|lia].
Qed.
