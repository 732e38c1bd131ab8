(** C78: B-splines by the algorithm of de Boor and by tables of coefficients, and their derivatives. *)
From Coq Require Import List Arith Bool ZArith Reals Lra Lia Sorted.
Import ListNotations.
From Verif Require Import Imp PrModel ProxModel GjkProofs1 MeasSpec MeasProofs2 MeasProofs3 BspModel BspSpec BspProofs1 BspProofs2 BspProofs3.
Open Scope R_scope.

(** *** Knots *)
Lemma kn_snoc : forall a x i, kn (a ++ [x]) i = if (i =? length a)%nat then x else kn a i. Proof. intros. apply nth_snoc. Qed.
Lemma flat_combine : forall k mu, length k = length mu -> concat (map (fun i => repeat (nth i k 0) (nth i mu 0%nat)) (seq 0 (length k))) = concat (map (fun p => repeat (fst p) (snd p)) (combine k mu)).
Proof.
  induction k as [|x k IH]; intros [|m mu] L; try discriminate; auto. cbn [length seq map concat combine fst snd nth]. f_equal. rewrite <- (IH mu) by (cbn in L; lia). rewrite <- seq_shift, map_map. reflexivity.
Qed.
Lemma flat_sorted : forall k mu, StronglySorted Rle k -> StronglySorted Rle (concat (map (fun p => repeat (fst p) (snd p)) (combine k mu))).
Proof.
  induction k as [|x k IH]; intros mu H; [constructor|]. destruct mu as [|m mu]; [constructor|]. inversion H as [|? ? Hk Hx]; subst. cbn [combine map concat fst snd]. specialize (IH mu Hk).
  assert (F : Forall (Rle x) (concat (map (fun p => repeat (fst p) (snd p)) (combine k mu)))). { apply Forall_forall. intros y Y. apply in_concat in Y. destruct Y as (z & Z & Yz). apply in_map_iff in Z. destruct Z as ([a b] & <- & Z). cbn [fst snd] in Yz. apply repeat_spec in Yz. subst y. rewrite Forall_forall in Hx. apply Hx. eapply in_combine_l. eauto. }
  induction m; cbn [repeat app]; auto. constructor; [auto|]. apply Forall_forall. intros y Y. apply in_app_or in Y. destruct Y as [Y|Y]; [apply repeat_spec in Y; subst; lra|]. rewrite Forall_forall in F. apply F. auto.
Qed.
(** The flat knots are the knots, each as often as its multiplicity, in their order. *)
Theorem C78_flat_knots : forall mu k, length k = length mu -> exists f, FlatKnot mu k = Some f /\ f = concat (map (fun p => repeat (fst p) (snd p)) (combine k mu)) /\ (StronglySorted Rle k -> StronglySorted Rle f).
Proof. intros mu k L. exists (concat (map (fun p => repeat (fst p) (snd p)) (combine k mu))). split; [rewrite flat_ok, flat_combine; auto|]. split; [auto|apply flat_sorted]. Qed.
Print Assumptions C78_flat_knots.

(** *** The algorithm of de Boor *)
Lemma at_span : forall u p (cp l : list R), length l = (length cp + p + 1)%nat -> (0 < p < length cp)%nat -> rising (kn l) (length l) -> kn l p < kn l (p + 1) -> kn l p <= u <= kn l (length cp) ->
  (forall j, (p < j < length cp)%nat -> ~ (kn l j < u <= kn l j + e10)) ->
  exists s, (p <= s < length cp)%nat /\ kn l s < kn l (s + 1) /\ (s = p /\ kn l p = u \/ kn l s < u) /\ u <= kn l (s + 1) /\ forall cp', length cp' = length cp -> DeBoorBSpline u p cp' l = Some (spline (kn l) (taken s) p (length cp) (kn cp') u).
Proof.
  intros u p cp l L P K K0 U G. pose proof e10_pos as Ep. destruct (de_boor_in u p cp l L P K K0 ltac:(lra)) as (s & S0 & Ks & A & B & H). exists s. split; [auto|]. split; [auto|]. split; [|split; [|auto]].
  - destruct A as [->|A]; [|right; lra]. destruct (Req_dec (kn l p) u) as [E|E]; [left; auto|right; lra].
  - destruct (Nat.eq_dec (s + 1) (length cp)) as [E|E]; [rewrite E; lra|]. destruct (Rle_dec u (kn l (s + 1))) as [|N]; auto. exfalso. apply (G (s + 1)%nat); [lia|lra].
Qed.
(** The answer is the B-spline curve at every parameter from knot p to knot n, if the parameter is not at most 1e-10 after a knot in between. *)
Theorem C78_de_boor : forall u p cp l, length l = (length cp + p + 1)%nat -> (0 < p < length cp)%nat -> rising (kn l) (length l) -> kn l p < kn l (p + 1) -> kn l p <= u <= kn l (length cp) ->
  (forall j, (p < j < length cp)%nat -> ~ (kn l j < u <= kn l j + / 10 ^ 10)) ->
  DeBoorBSpline u p cp l = Some (spline (kn l) (if Req_EM_T u (kn l p) then right_open (kn l) u else left_open (kn l) u) p (length cp) (kn cp) u).
Proof.
  intros u p cp l L P K K0 U G. destruct (at_span u p cp l L P K K0 U G) as (s & S0 & Ks & A & B & H). rewrite (H cp eq_refl). f_equal. apply spline_on. intros x X. symmetry. destruct (Req_EM_T u (kn l p)) as [E|E].
  - destruct A as [(-> & _)|A]; [apply (right_taken _ (length l)); auto; try lia; lra|]. pose proof (rising_le _ _ p s K ltac:(lia) ltac:(lia)). assert (s = p); [|subst s; apply (right_taken _ (length l)); auto; try lia; lra]. destruct (Nat.eq_dec s p); auto. lra.
  - destruct A as [(-> & A)|A]; [lra|]. apply (left_taken _ (length l)); auto; try lia.
Qed.
Print Assumptions C78_de_boor.
(** It is a mean of the control points, with weights that do not depend on the control points; only control points whose B-spline has the parameter in its support have a weight. *)
Theorem C78_de_boor_means : forall u p n l, length l = (n + p + 1)%nat -> (0 < p < n)%nat -> rising (kn l) (length l) -> kn l p < kn l (p + 1) -> kn l p <= u <= kn l n ->
  (forall j, (p < j < n)%nat -> ~ (kn l j < u <= kn l j + / 10 ^ 10)) ->
  exists w, mean n w /\ (forall i, (i < n)%nat -> w i <> 0 -> kn l i <= u <= kn l (i + p + 1)) /\ forall cp, length cp = n -> DeBoorBSpline u p cp l = Some (sum n (fun i => w i * kn cp i)).
Proof.
  intros u p n l L P K K0 U G. assert (Ln : length (repeat 0 n) = n) by apply repeat_length. destruct (at_span u p (repeat 0 n) l) as (s & S0 & Ks & A & B & H); try (rewrite Ln); auto. rewrite Ln in S0, H.
  assert (As : kn l s <= u) by (destruct A as [(-> & A)|A]; lra). exists (fun i => cox (kn l) (taken s) p i u). split; [apply (cox_mean _ (length l)); auto; try lia|]. split; [|intros cp Lc; apply H; auto].
  intros i I W. assert (R0 : ~ ((s < i)%nat \/ (i + p < s)%nat)) by (intros X; apply W; apply cox_out; auto). pose proof (rising_le _ _ i s K ltac:(lia) ltac:(lia)). pose proof (rising_le _ _ (s + 1) (i + p + 1) K ltac:(lia) ltac:(lia)). lra.
Qed.
Print Assumptions C78_de_boor_means.
(** A knot that is repeated p times at an end gives the control point at this end. *)
Theorem C78_de_boor_ends : forall p cp l, length l = (length cp + p + 1)%nat -> (0 < p < length cp)%nat -> rising (kn l) (length l) -> kn l p < kn l (p + 1) ->
  (kn l 1 = kn l p -> DeBoorBSpline (kn l p) p cp l = Some (kn cp 0)) /\
  (kn l (length cp - 1) + / 10 ^ 10 < kn l (length cp) -> kn l (length cp) = kn l (length cp + p - 1) -> DeBoorBSpline (kn l (length cp)) p cp l = Some (kn cp (length cp - 1))).
Proof.
  intros p cp l L P K K0. pose proof e10_pos as Ep. pose proof (rising_le _ _ (p + 1) (length cp) K ltac:(lia) ltac:(lia)) as Kn. split.
  - intros E. destruct (de_boor_in (kn l p) p cp l L P K K0 ltac:(lra)) as (s & S0 & Ks & A & B & H). rewrite (H cp eq_refl). f_equal. assert (s = p). { destruct A as [|A]; auto. pose proof (rising_le _ _ p s K ltac:(lia) ltac:(lia)). lra. } subst s. rewrite spline_win by lia. rewrite (win_left _ (length l)); auto; try lia; [f_equal; lia|]. intros i I. pose proof (rising_le _ _ 1 i K ltac:(lia) ltac:(lia)). pose proof (rising_le _ _ i p K ltac:(lia) ltac:(lia)). lra.
  - intros E1 E2. change (/ 10 ^ 10) with e10 in E1. destruct (de_boor_in (kn l (length cp)) p cp l L P K K0 ltac:(lra)) as (s & S0 & Ks & A & B & H). rewrite (H cp eq_refl). f_equal. assert (s = (length cp - 1)%nat). { destruct (Nat.eq_dec s (length cp - 1)); auto. exfalso. pose proof (rising_le _ _ (s + 1) (length cp - 1) K ltac:(lia) ltac:(lia)). lra. } subst s.
    rewrite spline_win by lia. rewrite (win_right _ (length l)); auto; try lia; [f_equal; lia|]. intros i I. pose proof (rising_le _ _ (length cp) i K ltac:(lia) ltac:(lia)). pose proof (rising_le _ _ i (length cp + p - 1) K ltac:(lia) ltac:(lia)). lra.
Qed.
Print Assumptions C78_de_boor_ends.
(** Outside of these parameters the code reads control points that are not there.  If the first span has length zero it divides by zero. *)
Theorem C78_de_boor_fails : forall u p cp l, length l = (length cp + p + 1)%nat -> (0 < p < length cp)%nat -> rising (kn l) (length l) ->
  (u < kn l p - / 10 ^ 10 \/ kn l (length cp) + / 10 ^ 10 < u \/ kn l p = kn l (p + 1) /\ u = kn l p) -> DeBoorBSpline u p cp l = None.
Proof.
  intros u p cp l L P K [U|[U|(E & ->)]]; [apply de_boor_out; auto|apply de_boor_out; auto|]. apply de_boor_flat; auto. rewrite Rminus_diag_eq by auto. rewrite Rabs_R0. pose proof e10_pos. lra.
Qed.
Print Assumptions C78_de_boor_fails.
(** Samples of a curve whose first and last p+1 knots are equal: from the first control point to the last, each the value at its parameter. *)
Theorem C78_samples : forall ns p cp l, length l = (length cp + p + 1)%nat -> (0 < p < length cp)%nat -> rising (kn l) (length l) -> kn l p < kn l (p + 1) -> kn l 0 = kn l p -> kn l (length cp) = kn l (length cp + p) -> (0 < ns)%nat ->
  exists pl, SampleBSpline ns p l cp = Some pl /\ length pl = (ns + 1)%nat /\ (forall i, (i <= ns)%nat -> DeBoorBSpline (kn l p + INR i / INR ns * (kn l (length cp) - kn l p)) p cp l = Some (kn pl i)) /\
    kn pl 0 = kn cp 0 /\ (kn l (length cp - 1) + / 10 ^ 10 < kn l (length cp) -> kn pl ns = kn cp (length cp - 1)).
Proof.
  intros ns p cp l L P K K0 E0 E1 Ns. assert (Np : 0 < INR ns) by (apply lt_0_INR; auto). pose proof e10_pos as Ep.
  assert (X : exists pl, SampleBSpline ns p l cp = Some pl /\ length pl = (ns + 1)%nat /\ (forall i, (i <= ns)%nat -> DeBoorBSpline (kn l p + INR i / INR ns * (kn l (length cp) - kn l p)) p cp l = Some (kn pl i))).
  { apply wp_ex. unfold SampleBSpline. rewrite !(vget_nth _ 0) by lia. cbn [bind]. change (nth 0 l 0) with (kn l 0). change (nth (length l - 1) l 0) with (kn l (length l - 1)). replace (length l - 1)%nat with (length cp + p)%nat by lia. rewrite <- E1, E0. destruct (Nat.eqb_spec ns 0); [lia|].
    apply wp_forn with (I := fun i pl => length pl = i /\ forall j, (j < i)%nat -> DeBoorBSpline (kn l p + INR j / INR ns * (kn l (length cp) - kn l p)) p cp l = Some (kn pl j)); [lia|split; [auto|intros; lia]| |].
    - intros i pl I (Lp & H). replace (INR i * (kn l (length cp) - kn l p) / INR ns + kn l p) with (kn l p + INR i / INR ns * (kn l (length cp) - kn l p)) by (field; lra). set (u := kn l p + INR i / INR ns * (kn l (length cp) - kn l p)).
      assert (U : kn l p <= u <= kn l (length cp)). { pose proof (rising_le _ _ (p + 1) (length cp) K ltac:(lia) ltac:(lia)). assert (0 <= INR i / INR ns <= 1). { pose proof (pos_INR i). assert (INR i <= INR ns) by (apply le_INR; lia). split; [apply Rmult_le_pos; [auto|left; apply Rinv_0_lt_compat; auto]|]. apply (Rmult_le_reg_r (INR ns)); auto. unfold Rdiv. rewrite Rmult_assoc, Rinv_l by lra. lra. } unfold u. split; nra. }
      destruct (de_boor_in u p cp l L P K K0 ltac:(lra)) as (s & _ & _ & _ & _ & D). rewrite (D cp eq_refl). cbn [bind]. apply wp_some. rewrite app_length. split; [cbn [length]; lia|]. intros j J. rewrite kn_snoc. destruct (Nat.eqb_spec j (length pl)) as [->|]; [rewrite Lp; fold u; apply D; auto|apply H; lia].
    - intros pl (Lp & H). split; [auto|]. intros i I. apply H. lia. }
  destruct X as (pl & E & Lp & H). exists pl. split; [auto|]. split; [auto|]. split; [auto|]. destruct (C78_de_boor_ends p cp l L P K K0) as (A & B). split.
  - specialize (H 0%nat ltac:(lia)). cbn [INR] in H. replace (kn l p + 0 / INR ns * (kn l (length cp) - kn l p)) with (kn l p) in H by (field; lra). rewrite A in H; [congruence|]. pose proof (rising_le _ _ 0 1 K ltac:(lia) ltac:(lia)). pose proof (rising_le _ _ 1 p K ltac:(lia) ltac:(lia)). lra.
  - intros G. specialize (H ns ltac:(lia)). replace (kn l p + INR ns / INR ns * (kn l (length cp) - kn l p)) with (kn l (length cp)) in H by (field; lra). rewrite B in H; auto; [congruence|]. pose proof (rising_le _ _ (length cp) (length cp + p - 1) K ltac:(lia) ltac:(lia)). pose proof (rising_le _ _ (length cp + p - 1) (length cp + p) K ltac:(lia) ltac:(lia)). lra.
Qed.
Print Assumptions C78_samples.

(** *** Uniform knots *)
Lemma on_cell : forall p N t I x, cell N t I -> (if Req_EM_T t (INR N) then left_open (clamped p N) t else right_open (clamped p N) t) x = taken (I + p) x.
Proof.
  intros p N t I x (In & Cc). pose proof (knot_at p N I ltac:(lia)) as K0. pose proof (knot_next p N I In) as K1. destruct Cc as [T|(E & ->)].
  - assert (INR (S I) <= INR N) by (apply le_INR; lia). rewrite S_INR in *. destruct (Req_EM_T t (INR N)); [lra|]. apply (right_taken _ (x + I + p + 2)); try lia; [apply clamped_rising|lra].
  - destruct (Req_EM_T (INR N) (INR N)); [|congruence]. apply (left_taken _ (x + I + p + 2)); try lia; [apply clamped_rising|]. rewrite K0, K1, <- E, plus_INR. cbn. lra.
Qed.
(** The curve of degree p with the knots 0 (p+1 times), 1, ..., N (p+1 times), N = number of control points - p. *)
Theorem C78_uniform : forall p t poly, let N := (length poly - p)%nat in (p < length poly)%nat -> 0 <= t <= INR N ->
  Sample_BsplineCurve (S p) t poly = Some (spline (clamped p N) (if Req_EM_T t (INR N) then left_open (clamped p N) t else right_open (clamped p N) t) p (length poly) (kn poly) t).
Proof.
  intros p t poly N L T. destruct (cell_ex N t ltac:(unfold N; lia) T) as (I & Cc). rewrite (curve_spline p t poly I L Cc). f_equal. apply spline_on. intros x X. symmetry. apply on_cell. auto.
Qed.
Print Assumptions C78_uniform.
Theorem C78_uniform_means : forall p t n, (p < n)%nat -> 0 <= t <= INR (n - p) -> exists w, mean n w /\ (forall i, (i < n)%nat -> w i <> 0 -> clamped p (n - p) i <= t <= clamped p (n - p) (i + p + 1)) /\
  forall poly, length poly = n -> Sample_BsplineCurve (S p) t poly = Some (sum n (fun i => w i * kn poly i)).
Proof.
  intros p t n L T. destruct (cell_ex (n - p) t ltac:(lia) T) as (I & Cc). pose proof (cell_bounds _ _ _ Cc) as Bd. pose proof Cc as (In & _). pose proof (knot_at p (n - p) I ltac:(lia)) as K0. pose proof (knot_next p (n - p) I In) as K1.
  exists (fun i => cox (clamped p (n - p)) (taken (I + p)) p i t). split; [apply (cox_mean _ (n + p + 1)); try lia; [apply clamped_rising|lra|lra]|]. split.
  - intros i Hi W. assert (R0 : ~ ((I + p < i)%nat \/ (i + p < I + p)%nat)) by (intros X; apply W; apply cox_out; auto). pose proof (rising_le _ (n + p + 9) i (I + p) (clamped_rising p (n - p) _) ltac:(lia) ltac:(lia)). pose proof (rising_le _ (n + p + n + 9) (I + p + 1) (i + p + 1) (clamped_rising p (n - p) _) ltac:(lia) ltac:(lia)). lra.
  - intros poly Lp. subst n. rewrite (curve_spline p t poly I L Cc). auto.
Qed.
Print Assumptions C78_uniform_means.
Theorem C78_uniform_ends : forall p poly, (p < length poly)%nat -> Sample_BsplineCurve (S p) 0 poly = Some (kn poly 0) /\ Sample_BsplineCurve (S p) (INR (length poly - p)) poly = Some (kn poly (length poly - 1)).
Proof.
  intros p poly L. set (N := (length poly - p)%nat). split.
  - assert (Cc : cell N 0 0) by (split; [unfold N; lia|left; cbn; lra]). rewrite (curve_ok p 0 poly 0 L Cc). fold N. f_equal. cbn [plus]. rewrite (win_left _ (p + p + 2)); auto; try lia; [apply clamped_rising| |].
    + unfold clamped. apply lt_INR. unfold N. lia.
    + intros i I. unfold clamped. replace (Nat.min (i - p) N) with 0%nat by lia. auto.
  - assert (Cc : cell N (INR N) (N - 1)) by (split; [unfold N; lia|right; split; [unfold N; lia|auto]]). rewrite (curve_ok p (INR N) poly (N - 1) L Cc). fold N. f_equal. rewrite (win_right _ (N + p + p + 2)); auto; try lia; [unfold kn; f_equal; unfold N; lia|apply clamped_rising| |].
    + unfold clamped. apply lt_INR. unfold N. lia.
    + intros i I. unfold clamped. f_equal. lia.
Qed.
Print Assumptions C78_uniform_ends.
(** The derivative: on the unit interval of t the curve is a function g that has the answer as its derivative at t.  Inside of the interval it is the derivative of the curve. *)
Theorem C78_uniform_derivative : forall p t poly, let N := (length poly - p)%nat in (0 < p < length poly)%nat -> 0 <= t <= INR N ->
  exists d g i, Sample_BsplineDerivative (S p) t poly = Some d /\ (i < N)%nat /\ INR i <= t <= INR i + 1 /\ derivable_pt_lim g t d /\ forall x, INR i <= x < INR i + 1 \/ (x = t \/ x = INR N) /\ INR i <= x <= INR i + 1 -> Sample_BsplineCurve (S p) x poly = Some (g x).
Proof.
  intros p t poly N P T. destruct p as [|d]; [lia|]. destruct (cell_ex N t ltac:(unfold N; lia) T) as (I & Cc). pose proof Cc as (In & Ct). pose proof (cell_bounds _ _ _ Cc) as Bd.
  pose proof (derivative_ok d t poly I ltac:(lia) Cc) as D. fold N in D. match type of D with _ = Some ?v => set (d0 := v) in *; exists d0 end. exists (win (clamped (S d) N) (I + S d) (S d) (fun j => nth (I + j) poly 0)), I. split; [auto|]. split; [auto|]. split; [auto|]. split.
  - unfold d0. apply (win_der _ (I + S d + S d + 2)); try lia; [apply clamped_rising|]. intros j J. apply Rlt_not_eq. unfold clamped. apply lt_INR. lia.
  - intros x X. apply curve_ok; [lia|]. fold N. split; [auto|]. destruct X as [X|([ -> | -> ] & X)]; [left; auto|destruct Ct as [Ct|Ct]; [left; auto|right; auto]|]. right. split; [|auto]. assert (INR N <= INR (S I)) by (rewrite S_INR; lra). apply INR_le in H. lia.
Qed.
Print Assumptions C78_uniform_derivative.
Theorem C78_uniform_derivative_inside : forall p t poly f, let N := (length poly - p)%nat in (0 < p < length poly)%nat -> 0 <= t <= INR N -> (forall i, (i <= N)%nat -> t <> INR i) ->
  (forall x, 0 <= x <= INR N -> Sample_BsplineCurve (S p) x poly = Some (f x)) -> exists d, Sample_BsplineDerivative (S p) t poly = Some d /\ derivable_pt_lim f t d.
Proof.
  intros p t poly f N P T NI F. destruct (C78_uniform_derivative p t poly P T) as (d & g & i & E & In & It & D & G). fold N in In, G. exists d. split; [auto|]. pose proof (NI i ltac:(lia)) as N0. pose proof (NI (S i) ltac:(lia)) as N1. rewrite S_INR in N1. assert (INR (S i) <= INR N) by (apply le_INR; lia). rewrite S_INR in *. pose proof (pos_INR i).
  intros eps He. destruct (D eps He) as (del & Hd). assert (M : 0 < Rmin del (Rmin (t - INR i) (INR i + 1 - t))) by (repeat apply Rmin_pos; try lra; apply cond_pos). exists (mkposreal _ M). intros h Hh H1. cbn [pos] in H1.
  pose proof (Rmin_l del (Rmin (t - INR i) (INR i + 1 - t))). pose proof (Rmin_r del (Rmin (t - INR i) (INR i + 1 - t))). pose proof (Rmin_l (t - INR i) (INR i + 1 - t)). pose proof (Rmin_r (t - INR i) (INR i + 1 - t)).
  pose proof (Rle_abs h). pose proof (Rle_abs (- h)). rewrite Rabs_Ropp in *.
  assert (Q : forall x, INR i < x < INR i + 1 -> f x = g x). { intros x X. specialize (F x ltac:(lra)). rewrite G in F by lra. congruence. }
  rewrite (Q (t + h)), (Q t) by lra. apply Hd; [auto|lra].
Qed.
Print Assumptions C78_uniform_derivative_inside.
(** Both algorithms agree on these knots, if the parameter is not at or at most 1e-10 after an integer between. *)
Theorem C78_algorithms_agree : forall p t poly, let N := (length poly - p)%nat in (0 < p < length poly)%nat -> 0 <= t <= INR N -> (forall j, (0 < j < N)%nat -> ~ (INR j <= t <= INR j + / 10 ^ 10)) ->
  DeBoorBSpline t p poly (map (clamped p N) (seq 0 (length poly + p + 1))) = Sample_BsplineCurve (S p) t poly.
Proof.
  intros p t poly N P T G. set (l := map (clamped p N) (seq 0 (length poly + p + 1))). assert (Ll : length l = (length poly + p + 1)%nat) by (unfold l; rewrite map_length, seq_length; auto). assert (Kl : forall i, (i < length poly + p + 1)%nat -> kn l i = clamped p N i) by (intros; unfold kn, l; apply nth_map_seq; auto).
  assert (R0 : rising (kn l) (length l)) by (intros i I; rewrite !Kl by lia; apply (clamped_rising p N (length l)); auto).
  assert (Kp : kn l p = 0) by (rewrite Kl by lia; unfold clamped; rewrite Nat.sub_diag; auto). assert (Kn : kn l (length poly) = INR N) by (rewrite Kl by lia; unfold clamped; f_equal; unfold N; lia). assert (Kp1 : kn l (p + 1) = 1) by (rewrite Kl by lia; unfold clamped; replace (Nat.min (p + 1 - p) N) with 1%nat by (unfold N; lia); auto).
  destruct (at_span t p poly l Ll P R0 ltac:(lra) ltac:(lra)) as (s & S0 & Ks & A & B & H).
  { intros j J. rewrite Kl by lia. unfold clamped. replace (Nat.min (j - p) N) with (j - p)%nat by (unfold N; lia). intros X. change e10 with (/ 10 ^ 10) in X. apply (G (j - p)%nat); [unfold N; lia|lra]. }
  rewrite (H poly eq_refl). rewrite (curve_spline p t poly (s - p)); [|lia|].
  - fold N. replace (s - p + p)%nat with s by lia. f_equal. unfold spline. apply sum_ext. intros i I. f_equal. apply cox_ext; auto. intros x X. apply Kl. lia.
  - rewrite !Kl in * by lia. fold N. replace s with (s - p + p)%nat in A, B, Ks by lia. rewrite knot_at in * by (unfold N; lia). rewrite knot_next in * by (unfold N; lia). split; [unfold N; lia|]. assert (A' : INR (s - p) <= t) by (destruct A as [(E & X)|X]; [replace (s - p)%nat with 0%nat by lia; cbn; lra|lra]).
    destruct (Req_dec t (INR (s - p) + 1)) as [E|E]; [|left; lra]. right. rewrite <- S_INR in E. assert (X : (S (s - p) = N)%nat); [|split; [lia|rewrite E, X; auto]]. destruct (Nat.eq_dec (S (s - p)) N); auto. exfalso. apply (G (S (s - p))); [unfold N in *; lia|]. pose proof e10_pos as Ep. unfold e10 in Ep. lra.
Qed.
Print Assumptions C78_algorithms_agree.

(** *** Cases *)
Definition ex_l : list R := [0; 0; 0; 1; 2; 2; 2].
Lemma ex_rising : rising (kn ex_l) (length ex_l). Proof. intros i I. cbn in I. destruct i as [|[|[|[|[|[|]]]]]]; try lia; unfold kn, ex_l; cbn; lra. Qed.
Example ex_flat : FlatKnot [3; 1; 3]%nat [0; 1; 2] = Some ex_l. Proof. reflexivity. Qed.
Example ex_ends : DeBoorBSpline 0 2 [5; 6; 8; 9] ex_l = Some 5 /\ DeBoorBSpline 2 2 [5; 6; 8; 9] ex_l = Some 9.
Proof.
  destruct (C78_de_boor_ends 2 [5; 6; 8; 9] ex_l eq_refl ltac:(cbn; lia) ex_rising ltac:(unfold kn, ex_l; cbn; lra)) as (A & B). split; [apply A; reflexivity|]. apply B; [|reflexivity]. unfold kn, ex_l. cbn [nth length Nat.sub]. assert (/ 10 ^ 10 <= / 10 ^ 1) by (apply Rinv_le_contravar; [lra|apply Rle_pow; [lra|lia]]). rewrite pow_1 in *. lra.
Qed.
Example ex_means : exists w, mean 4 w /\ forall cp, length cp = 4%nat -> DeBoorBSpline (1/2) 2 cp ex_l = Some (sum 4 (fun i => w i * kn cp i)).
Proof. destruct (C78_de_boor_means (1/2) 2 4 ex_l eq_refl ltac:(lia) ex_rising ltac:(unfold kn, ex_l; cbn; lra) ltac:(unfold kn, ex_l; cbn; lra)) as (w & M & _ & H); [|exists w; auto]. intros j J. assert (j = 3%nat) by lia. subst. unfold kn, ex_l. cbn [nth]. lra. Qed.
Example ex_uniform : Sample_BsplineCurve 3 0 [5; 6; 8; 9] = Some 5 /\ Sample_BsplineCurve 3 2 [5; 6; 8; 9] = Some 9.
Proof. destruct (C78_uniform_ends 2 [5; 6; 8; 9] ltac:(cbn; lia)) as (A & B). split; [exact A|]. replace 2 with (INR (length [5; 6; 8; 9] - 2)) by (cbn; ring). exact B. Qed.
(** At the start the slope is p times the first edge. *)
Example ex_slope : exists d, Sample_BsplineDerivative 3 0 [5; 6; 8; 9] = Some d /\ d = 2 * (6 - 5).
Proof.
  eexists. split; [apply (derivative_ok 1 0 [5; 6; 8; 9] 0); [cbn; lia|split; [cbn; lia|left; cbn; lra]]|]. cbn [plus length Nat.sub]. rewrite (win_step _ 2 0) by (try lia; intros j J; assert (j = 0%nat) by lia; subst; unfold clamped; cbn; lra). unfold win, al, clamped. cbn. field.
Qed.
(** Samples of a curve with simple knots at the ends fail: they start before the curve does. *)
Theorem C78_simple_end_knots_refuted : exists p cp l, length l = (length cp + p + 1)%nat /\ (0 < p < length cp)%nat /\ (forall i, (i + 1 < length l)%nat -> kn l i < kn l (i + 1)) /\ forall ns, (0 < ns)%nat -> SampleBSpline ns p l cp = None.
Proof.
  exists 1%nat, [5; 6], [0; 1; 2; 3]. split; [reflexivity|]. split; [cbn; lia|]. assert (K : forall i, (i + 1 < length [0; 1; 2; 3])%nat -> kn [0; 1; 2; 3] i < kn [0; 1; 2; 3] (i + 1)). { intros i I. cbn in I. destruct i as [|[|[|]]]; try lia; unfold kn; cbn; lra. } split; [auto|].
  intros ns Ns. unfold SampleBSpline. cbn [vget nth_error length Nat.sub bind]. destruct (forn _ _ _ _) eqn:E; auto. exfalso. destruct (forn_some _ _ _ _ _ _ E 0%nat ltac:(lia)) as (a & b & H). cbv beta in H. destruct (Nat.eqb_spec ns 0); [lia|]. rewrite C78_de_boor_fails in H; [discriminate|reflexivity|cbn; lia|intros i I; left; apply K; auto|]. left. unfold kn. cbn [nth INR].
  replace (0 * (3 - 0) / INR ns + 0) with 0 by (field; apply not_0_INR; auto). assert (/ 10 ^ 10 <= / 10 ^ 1) by (apply Rinv_le_contravar; [lra|apply Rle_pow; [lra|lia]]). rewrite pow_1 in *. lra.
Qed.
Print Assumptions C78_simple_end_knots_refuted.
(** Just after a knot the answer can be beyond all control points: the span before the knot is used. *)
Theorem C78_mean_after_a_knot_refuted : exists u p cp l v, length l = (length cp + p + 1)%nat /\ (0 < p < length cp)%nat /\ rising (kn l) (length l) /\ kn l p < kn l (p + 1) /\ kn l p <= u <= kn l (length cp) /\ DeBoorBSpline u p cp l = Some v /\ forall i, (i < length cp)%nat -> kn cp i < v.
Proof.
  set (l := [0; 0; 1; 2; 2]). set (cp := [0; 1; 1]). pose proof e10_pos as Ep. assert (E1 : e10 <= 1 / 10). { unfold e10. replace (1 / 10) with (/ 10 ^ 1) by (cbn; field). apply Rinv_le_contravar; [lra|apply Rle_pow; [lra|lia]]. }
  assert (K : rising (kn l) (length l)). { intros i I. cbn in I. destruct i as [|[|[|[|]]]]; try lia; unfold kn, l; cbn; lra. }
  destruct (de_boor_in (1 + e10) 1 cp l eq_refl ltac:(cbn; lia) K) as (s & S0 & Ks & A & B & H); try (unfold kn, l, cp; cbn; lra). cbn in S0.
  assert (s = 1%nat). { destruct A as [|A]; auto. assert (s = 1 \/ s = 2)%nat as [|] by lia; auto. subst s. unfold kn, l in A. cbn in A. lra. } subst s.
  exists (1 + e10), 1%nat, cp, l, (1 + e10). split; [reflexivity|]. split; [cbn; lia|]. split; [auto|]. split; [unfold kn, l; cbn; lra|]. split; [unfold kn, l, cp; cbn; lra|]. split.
  - rewrite (H cp eq_refl). f_equal. rewrite spline_win by (cbn; lia). rewrite win_step by (try lia; intros j J; assert (j = 0%nat) by lia; subst; unfold kn, l; cbn; lra). unfold win, al, kn, l, cp, taken. cbn. field.
  - intros i I. cbn in I. destruct i as [|[|[|]]]; try lia; unfold kn, cp; cbn [nth]; lra.
Qed.
Print Assumptions C78_mean_after_a_knot_refuted.
