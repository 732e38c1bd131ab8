(** Draws of points on meshes, and colours. *)
From Coq Require Import List Arith Bool ZArith Reals Lra Lia.
Import ListNotations.
From Verif Require Import Imp PrModel GjkProofs1 MeasSpec MeasProofs2 MeasProofs3 BspProofs1 PlnProofs1 SmpModel SmpSpec.
Open Scope R_scope.

(** *** Areas *)
Lemma area_at : forall vtx tri t, valid vtx tri -> (t < length tri / 3)%nat -> Area_Tri3_at vtx tri t = Some (area vtx tri t).
Proof.
  intros vtx tri t V T. assert (B : (t * 3 + 3 <= length tri)%nat) by (pose proof (Nat.mul_div_le (length tri) 3); lia).
  assert (G : forall k, (k < 3)%nat -> vget tri (t * 3 + k) = Some (nth (t * 3 + k) tri 0%nat)) by (intros; apply vget_nth; lia).
  assert (H : forall k d, (k < 3)%nat -> (d < 3)%nat -> vget vtx (nth (t * 3 + k) tri 0%nat * 3 + d) = Some (coord vtx tri t k d)).
  { intros k d K D. apply vget_nth. specialize (V (nth (t * 3 + k) tri 0%nat)). assert (In (nth (t * 3 + k) tri 0%nat) tri) by (apply nth_In; lia). specialize (V H). lia. }
  unfold Area_Tri3_at. cbv zeta. rewrite !G by lia. cbn [bind]. rewrite !H by lia. cbn [bind]. f_equal. unfold area, dot, edge. cbv zeta. f_equal. f_equal. ring.
Qed.
Lemma area_pos : forall vtx tri t, 0 <= area vtx tri t.
Proof. intros. unfold area. cbv zeta. pose proof (sqrt_pos (dot (edge vtx tri t 1) (edge vtx tri t 1) * dot (edge vtx tri t 2) (edge vtx tri t 2) - dot (edge vtx tri t 1) (edge vtx tri t 2) * dot (edge vtx tri t 1) (edge vtx tri t 2))). lra. Qed.
(** *** Sums of areas *)
Definition sums (f : nat -> R) (n : nat) (cum : list R) : Prop := length cum = S n /\ forall k, (k <= n)%nat -> nth k cum 0 = sum k f.
Lemma sums_step : forall f n cum a, sums f n cum -> a = f n -> sums f (S n) (cum ++ [a + nth (length cum - 1) cum 0]).
Proof.
  intros f n cum a (L & H) ->. split; [rewrite app_length; cbn; lia|]. intros k K. destruct (Nat.eq_dec k (S n)) as [->|N].
  - rewrite app_nth2 by lia. replace (S n - length cum)%nat with 0%nat by lia. cbn [nth sum]. replace (length cum - 1)%nat with n by lia. rewrite H by lia. ring.
  - rewrite app_nth1 by lia. apply H. lia.
Qed.
Lemma sums_nil : forall f, sums f 0 [0].
Proof. intros f. split; [reflexivity|]. intros k K. replace k with 0%nat by lia. reflexivity. Qed.
Lemma sums_ext : forall f g n cum, (forall i, (i < n)%nat -> f i = g i) -> sums f n cum -> sums g n cum.
Proof. intros f g n cum E (L & H). split; auto. intros k K. rewrite H by auto. apply sum_ext. intros; apply E; lia. Qed.
Lemma cum_ok : forall vtx tri, valid vtx tri -> exists cum, cumulative_area_sum vtx tri = Some cum /\ sums (area vtx tri) (length tri / 3) cum.
Proof.
  intros vtx tri V. apply wp_ex. unfold cumulative_area_sum. apply wp_forn with (I := fun i cum => sums (area vtx tri) i cum); [lia|apply sums_nil| |auto].
  intros i cum Hi I. rewrite area_at by (auto; lia). cbn [bind]. rewrite (vget_nth _ 0) by (destruct I; lia). cbn [bind wp]. apply sums_step; auto.
Qed.
Lemma cum_sel_ok : forall vtx tri fnc, valid vtx tri -> exists cum, cumulative_area_sum_selective vtx tri fnc = Some (cum, filter fnc (seq 0 (length tri / 3))) /\
  sums (fun i => area vtx tri (nth i (filter fnc (seq 0 (length tri / 3))) 0%nat)) (length (filter fnc (seq 0 (length tri / 3)))) cum.
Proof.
  intros vtx tri fnc V. assert (W : wp (cumulative_area_sum_selective vtx tri fnc) (fun r => snd r = filter fnc (seq 0 (length tri / 3)) /\ sums (fun i => area vtx tri (nth i (snd r) 0%nat)) (length (snd r)) (fst r))).
  { unfold cumulative_area_sum_selective. apply wp_forn with (I := fun i r => snd r = filter fnc (seq 0 i) /\ sums (fun i => area vtx tri (nth i (snd r) 0%nat)) (length (snd r)) (fst r)); [lia|split; [reflexivity|apply sums_nil]| |auto].
    intros i (cum, flg) Hi (E & I). cbn [fst snd] in *. rewrite seq_S, filter_app. cbn [filter Nat.add]. destruct (fnc i); cbn [negb].
    - rewrite area_at by (auto; lia). cbn [bind]. rewrite (vget_nth _ 0) by (destruct I; lia). cbn [bind wp fst snd]. split; [congruence|]. rewrite app_length. cbn [length]. rewrite Nat.add_1_r. apply sums_step.
      + apply sums_ext with (2 := I). intros j J. rewrite app_nth1 by auto. auto.
      + rewrite app_nth2, Nat.sub_diag by lia. reflexivity.
    - cbn [wp fst snd]. rewrite app_nil_r. auto. }
  apply wp_iff in W. destruct W as ((cum, flg) & E & F & S). cbn [fst snd] in F, S. subst flg. exists cum. split; assumption.
Qed.
(** *** The search *)
Lemma sum_mono : forall f i j, (forall k, 0 <= f k) -> (i <= j)%nat -> sum i f <= sum j f.
Proof. intros f i j P H. induction H; [lra|]. cbn [sum]. pose proof (P m). lra. Qed.
Definition step (cum : list R) (a0 : R) : nat * nat -> option (nat * nat * bool) := fun '(itri_l, itri_u) =>
    cl <- vget cum itri_l ;; assertb (ltR cl a0) ;;;
    cu <- vget cum itri_u ;; assertb (ltR a0 cu) ;;;
    let itri_h := ((itri_u + itri_l) / 2)%nat in
    if (itri_u - itri_l =? 1)%nat then Some ((itri_l, itri_u), true) else
    ch <- vget cum itri_h ;;
    if ltR ch a0 then Some ((itri_h, itri_u), false) else Some ((itri_l, itri_h), false).
Lemma loop_some : forall f n cum a0, (forall k, 0 <= f k) -> sums f n cum -> forall t, sum t f < a0 < sum (S t) f -> forall fuel l u, (l <= t)%nat -> (t < u <= n)%nat -> (u - l < fuel)%nat -> loopf fuel (step cum a0) (l, u) = Some (t, S t).
Proof.
  intros f n cum a0 P (L & H) t A. induction fuel; intros l u Lt Ut F; [lia|]. cbn [loopf]. unfold step at 1.
  rewrite !(vget_nth _ 0) by lia. cbn [bind]. rewrite !H by lia. pose proof (sum_mono f l t P Lt). pose proof (sum_mono f (S t) u P ltac:(lia)). rewrite (ltRt (sum l f)) by lra. cbn [assertb bind]. rewrite (ltRt a0) by lra. cbn [assertb bind]. cbv zeta.
  destruct (Nat.eqb_spec (u - l) 1) as [E|E]; [cbn [bind]; do 2 f_equal; lia|].
  assert (HB : (l < (u + l) / 2 < u)%nat). { split; [apply Nat.div_le_lower_bound; lia|apply Nat.div_lt_upper_bound; lia]. } set (m := ((u + l) / 2)%nat) in *.
  rewrite !(vget_nth _ 0) by lia. cbn [bind]. rewrite H by lia. pose proof (ltRs (sum m f) a0) as Q. destruct (ltR (sum m f) a0); cbn [bind].
  - apply IHfuel; try lia. destruct (le_lt_dec m t); auto. pose proof (sum_mono f (S t) m P ltac:(lia)). lra.
  - apply IHfuel; try lia. destruct (le_lt_dec m t); [|lia]. pose proof (sum_mono f m t P ltac:(lia)). lra.
Qed.
Lemma loop_sound : forall f n cum a0, sums f n cum -> forall fuel l u l' u', (l <= u <= n)%nat -> loopf fuel (step cum a0) (l, u) = Some (l', u') -> (l' < n)%nat /\ sum l' f < a0 < sum (S l') f.
Proof.
  intros f n cum a0 (L & H). induction fuel; intros l u l' u' B E; [discriminate|]. cbn [loopf] in E. unfold step at 1 in E.
  rewrite !(vget_nth _ 0) in E by lia. cbn [bind] in E. rewrite !H in E by lia. pose proof (ltRs (sum l f) a0) as Q. destruct (ltR (sum l f) a0); cbn [assertb bind] in E; [|discriminate]. pose proof (ltRs a0 (sum u f)) as Q'. destruct (ltR a0 (sum u f)); cbn [assertb bind] in E; [|discriminate].
  cbv zeta in E. destruct (Nat.eqb_spec (u - l) 1) as [D|D]; [cbn [bind] in E; injection E as <- <-; replace (S l) with u by lia; split; [lia|lra]|].
  assert (LU : (l < u)%nat). { destruct (Nat.eq_dec l u) as [->|]; [lra|lia]. }
  assert (HB : (l < (u + l) / 2 < u)%nat). { split; [apply Nat.div_le_lower_bound; lia|apply Nat.div_lt_upper_bound; lia]. } set (m := ((u + l) / 2)%nat) in *.
  rewrite !(vget_nth _ 0) in E by lia. cbn [bind] in E. destruct (ltR (nth m cum 0) a0); cbn [bind] in E; apply IHfuel in E; auto; lia.
Qed.
Lemma bisect_some : forall f n cum a0 t, (forall k, 0 <= f k) -> sums f n cum -> (t < n)%nat -> sum t f < a0 < sum (S t) f -> bisect cum a0 n = Some t.
Proof. intros f n cum a0 t P S T A. unfold bisect. change (('(l, _) <- loopf (Datatypes.S n) (step cum a0) (0%nat, n) ;; Some l) = Some t). rewrite (loop_some f n cum a0 P S t A) by lia. reflexivity. Qed.
Lemma bisect_sound : forall f n cum a0 t, sums f n cum -> bisect cum a0 n = Some t -> (t < n)%nat /\ sum t f < a0 < sum (S t) f.
Proof.
  intros f n cum a0 t S E. unfold bisect in E. change (('(l, _) <- loopf (Datatypes.S n) (step cum a0) (0%nat, n) ;; Some l) = Some t) in E. destruct (loopf (Datatypes.S n) (step cum a0) (0%nat, n)) as [(l, u)|] eqn:F; [|discriminate]. cbn [bind] in E. injection E as <-. apply (loop_sound f n cum a0 S) in F; auto; lia.
Qed.
(** *** Draws *)
Definition fold2 (s v : R) : R * R := if Rlt_dec 1 (s + v) then (1 - v, 1 - s) else (s, v).
Lemma fold2_ok : forall s v a b, fold2 s v = (a, b) <-> folded s v a b.
Proof. intros s v a b. unfold fold2, folded. destruct (Rlt_dec 1 (s + v)); split; intros H; [injection H as <- <-; right; auto|destruct H as [(H & _)|(_ & -> & ->)]; [lra|auto]|injection H as <- <-; left; repeat split; lra|destruct H as [(_ & -> & ->)|(H & _)]; [auto|lra]]. Qed.
Lemma sample_some : forall f n cum u v k, (forall i, 0 <= f i) -> sums f n cum -> (k < n)%nat -> sum k f < u * sum n f < sum (S k) f -> sample_at cum n u v = Some (k, fst (fold2 ((u * sum n f - sum k f) / f k) v), snd (fold2 ((u * sum n f - sum k f) / f k) v)).
Proof.
  intros f n cum u v k P S K A. pose proof S as (L & H). unfold sample_at. replace (length cum =? n + 1)%nat with true by (symmetry; apply Nat.eqb_eq; lia). cbn [assertb bind]. rewrite (vget_nth _ 0 cum n) by lia. cbn [bind]. rewrite H by lia. cbv zeta. rewrite (bisect_some f n cum _ k) by auto. cbn [bind].
  rewrite !(vget_nth _ 0) by lia. cbn [bind]. rewrite !H by lia. replace (k + 1)%nat with (Datatypes.S k) by lia. rewrite (ltRt (sum k f)) by lra. cbn [assertb bind]. rewrite (ltRt _ (sum (Datatypes.S k) f)) by lra. cbn [assertb bind].
  assert (E : sum (Datatypes.S k) f - sum k f = f k) by (cbn [sum]; ring). rewrite E. pose proof (eqRs (f k) 0) as Q. destruct (eqR (f k) 0); [lra|]. unfold fold2, ltR. destruct (Rlt_dec 1 ((u * sum n f - sum k f) / f k + v)); reflexivity.
Qed.
Lemma sample_none : forall f n cum u v, sums f n cum -> (forall k, (k < n)%nat -> ~ (sum k f < u * sum n f < sum (S k) f)) -> sample_at cum n u v = None.
Proof.
  intros f n cum u v S A. pose proof S as (L & H). unfold sample_at. replace (length cum =? n + 1)%nat with true by (symmetry; apply Nat.eqb_eq; lia). cbn [assertb bind]. rewrite (vget_nth _ 0 cum n) by lia. cbn [bind]. rewrite H by lia. cbv zeta.
  destruct (bisect cum (u * sum n f) n) as [t|] eqn:E; [|reflexivity]. destruct (bisect_sound _ _ _ _ _ S E) as (T & B). destruct (A t T B).
Qed.
(** *** Colours *)
Lemma trunc_at : forall x k, (0 <= k)%Z -> IZR k <= x < IZR k + 1 -> truncZ x = k.
Proof.
  intros x k K H. unfold truncZ. assert (0 <= IZR k) by (apply IZR_le; auto). rewrite ltRf by lra. destruct (base_Int_part x) as (A & B). assert (Int_part x < k + 1)%Z by (apply lt_IZR; rewrite plus_IZR; lra). assert (k < Int_part x + 1)%Z by (apply lt_IZR; rewrite plus_IZR; lra). lia.
Qed.
Lemma cut_cases : forall x, (x <= 0 /\ cut01 x = 0) \/ (0 <= x <= 1 /\ cut01 x = x) \/ (1 <= x /\ cut01 x = 1).
Proof. intros x. unfold cut01. destruct (Rle_dec x 0); [left; split; auto; rewrite (Rmin_right 1 x) by lra; apply Rmax_left; lra|]. destruct (Rle_dec x 1); right; [left|right]; (split; [lra|]); [rewrite (Rmin_right 1 x) by lra|rewrite (Rmin_left 1 x) by lra]; apply Rmax_right; lra. Qed.
Lemma min_cases : forall x y, (x <= y /\ Rmin x y = x) \/ (y <= x /\ Rmin x y = y).
Proof. intros x y. destruct (Rle_dec x y); [left|right]; (split; [lra|]); [apply Rmin_left|apply Rmin_right]; lra. Qed.
Lemma around_cases : forall x, (x < 6 /\ around x = x) \/ (6 <= x /\ around x = x - 6).
Proof. intros x. unfold around. destruct (Rlt_dec x 6); [left|right]; split; auto; lra. Qed.
Ltac lk := unfold hsv, lack; cbv zeta; repeat match goal with |- context [around ?x] => destruct (around_cases x) as [(? & ->)|(? & ->)] end; repeat match goal with |- context [Rmin ?x ?y] => destruct (min_cases x y) as [(? & ->)|(? & ->)] end; repeat match goal with |- context [cut01 ?x] => destruct (cut_cases x) as [(? & ->)|[(? & ->)|(? & ->)]] end; try lra.
Lemma leRs : forall a b, if leR a b then a <= b else b < a. Proof. intros a b. unfold leR. pose proof (ltRs b a). destruct (ltR b a); cbn; auto. Qed.
