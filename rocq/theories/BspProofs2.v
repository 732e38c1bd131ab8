(** The algorithm of de Boor. *)
From Coq Require Import List Arith Bool ZArith Reals Lra Lia.
Import ListNotations.
From Verif Require Import Imp PrModel ProxModel GjkProofs1 MeasSpec MeasProofs2 MeasProofs3 BspModel BspSpec BspProofs1.
Open Scope R_scope.

Lemma e10_pos : 0 < e10. Proof. unfold e10. apply Rinv_0_lt_compat. apply pow_lt. lra. Qed.
Lemma forn_some : forall S lo hi (f : nat -> S -> option S) s s', forn lo hi f s = Some s' -> forall i, (lo <= i < hi)%nat -> exists a b, f i a = Some b.
Proof.
  intros S lo hi f s s' H i I. unfold forn in H. assert (J : (lo <= i < lo + (hi - lo))%nat) by lia. clear I. revert H J. generalize (hi - lo)%nat. intros k. revert lo s. induction k; intros lo s H J; [lia|]. cbn in H. destruct (f lo s) as [b|] eqn:E; [|discriminate]. cbn [bind] in H.
  destruct (Nat.eq_dec i lo) as [->|]; [exists s, b; auto|]. apply (IHk (Datatypes.S lo) b); auto. lia.
Qed.
Lemma forn_zero : forall S lo hi (f : nat -> S -> option S) s, (hi <= lo)%nat -> forn lo hi f s = Some s.
Proof. intros. unfold forn. replace (hi - lo)%nat with 0%nat by lia. reflexivity. Qed.
Lemma nth_snoc : forall A (d : A) a x i, nth i (a ++ [x]) d = if (i =? length a)%nat then x else nth i a d.
Proof. intros. destruct (Nat.eqb_spec i (length a)) as [->|N]. - rewrite app_nth2, Nat.sub_diag by lia. reflexivity. - destruct (Nat.lt_ge_cases i (length a)); [apply app_nth1; auto|]. rewrite !nth_overflow; auto. rewrite app_length. cbn. lia. Qed.

Lemma span_ok : forall u p l, (2 * p + 1 <= length l)%nat -> (0 < p)%nat -> wp (find_span u p l) (fun s => (p <= s)%nat /\ (forall j, (p <= j < s)%nat -> u < kn l j - e10 \/ kn l (j + 1) + e10 < u) /\
  ((s < length l - p)%nat /\ kn l s - e10 <= u <= kn l (s + 1) + e10 \/ s = (length l - p)%nat)).
Proof.
  intros u p l L P. unfold find_span. apply wp_forb with (I := fun i s => s = i /\ (p <= i)%nat /\ forall j, (p <= j < i)%nat -> u < kn l j - e10 \/ kn l (j + 1) + e10 < u); [lia| | |].
  - split; [auto|]. split; [lia|]. intros. lia.
  - intros i s I (-> & Pi & H). rewrite !(vget_nth _ 0) by lia. cbn [bind]. change (nth i l 0) with (kn l i). change (nth (i + 1) l 0) with (kn l (i + 1)). pose proof (ltRs u (kn l i - e10)) as A. pose proof (ltRs (kn l (i + 1) + e10) u) as B. destruct (ltR u (kn l i - e10)).
    + cbn [negb andb]. apply wp_some. cbn [snd fst]. split; [auto|]. split; [lia|]. intros j J. destruct (Nat.eq_dec j i) as [->|]; [auto|apply H; lia].
    + destruct (ltR (kn l (i + 1) + e10) u); cbn [negb andb]; apply wp_some; cbn [snd fst].
      * split; [auto|]. split; [lia|]. intros j J. destruct (Nat.eq_dec j i) as [->|]; [auto|apply H; lia].
      * split; [lia|]. split; [auto|]. left. split; [lia|lra].
  - intros s (-> & Pi & H). split; [auto|]. split; [auto|]. right. lia.
Qed.
Lemma push_ok : forall (cp : list R) a b, (a <= b)%nat -> (b <= length cp)%nat -> wp (forn a b (fun ik t => c <- vget cp ik ;; Some (t ++ [c])) []) (fun t => length t = (b - a)%nat /\ forall j, (j < b - a)%nat -> nth j t 0 = nth (a + j) cp 0).
Proof.
  intros cp a b A B. apply wp_forn with (I := fun i t => length t = (i - a)%nat /\ forall j, (j < i - a)%nat -> nth j t 0 = nth (a + j) cp 0); [lia| | |auto].
  - split; [cbn; lia|]. intros. lia.
  - intros i t I (L & H). rewrite (vget_nth _ 0) by lia. cbn [bind]. apply wp_some. rewrite app_length. split; [cbn [length]; lia|]. intros j J. rewrite nth_snoc. destruct (Nat.eqb_spec j (length t)); [f_equal; lia|apply H; lia].
Qed.
(** The rounds on a span of positive length. *)
Lemma rounds_ok : forall u p s l a, rising (kn l) (length l) -> (p <= s)%nat -> (s + p + 1 <= length l)%nat -> (s + 1 < length l)%nat -> kn l s < kn l (s + 1) -> length a = S p ->
  wp (forn 0 p (fun r a => forn 0 (p - r) (fun j a =>
    u0 <- vget l (j + s - p + 1 + r) ;; u1 <- vget l (j + s + 1) ;; if eqR (u1 - u0) 0 then None else
    x <- vget a j ;; y <- vget a (j + 1) ;; vset a j ((1 - (u - u0) / (u1 - u0)) * x + (u - u0) / (u1 - u0) * y)) a) a)
  (fun b => length b = S p /\ nth 0 b 0 = win (kn l) s p (fun j => nth j a 0) u).
Proof.
  intros u p s l a K Ps M S1 Ks L. apply wp_forn with (I := fun r b => length b = S p /\ win (kn l) s (p - r) (fun j => nth j b 0) u = win (kn l) s p (fun j => nth j a 0) u); [lia| | |].
  - rewrite Nat.sub_0_r. auto.
  - intros r b R0 (Lb & W). set (d := (p - r - 1)%nat). apply wp_forn with (I := fun i c => length c = S p /\ forall j, nth j c 0 = if (j <? i)%nat then (1 - al (kn l) s d j u) * nth j b 0 + al (kn l) s d j u * nth (S j) b 0 else nth j b 0); [lia| | |].
    + split; auto.
    + intros j c J (Lc & H). rewrite !(vget_nth _ 0 l) by lia. cbn [bind]. change (nth (j + s + 1) l 0) with (kn l (j + s + 1)). change (nth (j + s - p + 1 + r) l 0) with (kn l (j + s - p + 1 + r)).
      replace (j + s + 1)%nat with (s + j + 1)%nat by lia. replace (j + s - p + 1 + r)%nat with (s - d + j)%nat by (unfold d; lia).
      pose proof (rising_le _ _ (s - d + j) s K ltac:(unfold d; lia) ltac:(lia)). pose proof (rising_le _ _ (s + 1) (s + j + 1) K ltac:(lia) ltac:(lia)). pose proof (eqRs (kn l (s + j + 1) - kn l (s - d + j)) 0) as E. destruct (eqR _ 0); [exfalso; lra|].
      rewrite !(vget_nth _ 0 c) by lia. cbn [bind]. apply wp_vset; [lia|]. split; [rewrite upd_length; auto|]. intros x. rewrite nth_upd by lia. rewrite !H. destruct (Nat.eq_dec j x) as [<-|N].
      * rewrite (proj2 (Nat.ltb_lt j (S j))) by lia. rewrite (proj2 (Nat.ltb_ge j j)) by lia. rewrite (proj2 (Nat.ltb_ge (j + 1) j)) by lia. replace (S j) with (j + 1)%nat by lia. reflexivity.
      * destruct (Nat.ltb_spec x j), (Nat.ltb_spec x (S j)); auto; lia.
    + intros c (Lc & H). split; [auto|]. rewrite <- W. replace (p - r)%nat with (S d) by (unfold d; lia). rewrite win_step; [|unfold d; lia|].
      * replace (p - S r)%nat with d by (unfold d; lia). apply win_ext. intros j J. rewrite H. rewrite (proj2 (Nat.ltb_lt j (p - r))) by (unfold d in J; lia). auto.
      * intros j J. pose proof (rising_le _ _ (s - d + j) s K ltac:(lia) ltac:(lia)). pose proof (rising_le _ _ (s + 1) (s + j + 1) K ltac:(lia) ltac:(unfold d in J; lia)). lra.
  - intros b (Lb & W). split; [auto|]. rewrite <- W. rewrite Nat.sub_diag. unfold win. cbn [sum cox]. unfold taken. replace (s - 0 + 0)%nat with s by lia. rewrite Nat.eqb_refl. ring.
Qed.
Lemma de_boor_at : forall u p cp l s, find_span u p l = Some s -> (0 < p)%nat -> length l = (length cp + p + 1)%nat -> rising (kn l) (length l) -> (p <= s)%nat -> (s < length cp)%nat -> kn l s < kn l (s + 1) ->
  DeBoorBSpline u p cp l = Some (spline (kn l) (taken s) p (length cp) (kn cp) u).
Proof.
  intros u p cp l s F P L K Ps Sn Ks. unfold DeBoorBSpline. rewrite (proj2 (Nat.ltb_lt 0 p) P), (proj2 (Nat.eqb_eq _ _) L), F. cbn [assertb bind].
  destruct (wp_ex _ _ _ (push_ok cp (s - p) (s + 1) ltac:(lia) ltac:(lia))) as (a & E & La & A). rewrite E. cbn [bind].
  destruct (wp_ex _ _ _ (rounds_ok u p s l a K Ps ltac:(lia) ltac:(lia) Ks ltac:(lia))) as (b & Eb & Lb & B). rewrite Eb. cbn [bind]. rewrite (vget_nth _ 0) by lia. rewrite B. f_equal. rewrite spline_win by auto. apply win_ext. intros j J. apply A. lia.
Qed.
(** The span that is found for a parameter inside. *)
Lemma span_in : forall u p l n, length l = (n + p + 1)%nat -> (0 < p < n)%nat -> rising (kn l) (length l) -> kn l p - e10 <= u <= kn l n + e10 ->
  exists s, find_span u p l = Some s /\ (p <= s < n)%nat /\ (s = p \/ kn l s + e10 < u) /\ u <= kn l (s + 1) + e10.
Proof.
  intros u p l n L P K U. pose proof e10_pos as Ep. destruct (wp_ex _ _ _ (span_ok u p l ltac:(lia) ltac:(lia))) as (s & E & Ps & B & G). exists s. split; [auto|].
  assert (C : forall j, (p <= j < s)%nat -> (j < n)%nat -> kn l (j + 1) + e10 < u).
  { induction j as [|j IH]; intros J Jn; destruct (B _ J) as [H|H]; auto; exfalso. { assert (p = 0)%nat by lia. subst. lra. } destruct (Nat.eq_dec (S j) p) as [X|X]; [rewrite <- X in U; lra|]. specialize (IH ltac:(lia) ltac:(lia)). replace (j + 1)%nat with (S j) in IH by lia. lra. }
  assert (Sn : (s < n)%nat). { destruct (Nat.lt_ge_cases s n) as [|H]; auto. exfalso. specialize (C (n - 1)%nat ltac:(lia) ltac:(lia)). replace (n - 1 + 1)%nat with n in C by lia. lra. }
  split; [lia|]. split; [|lra || (destruct G as [G|G]; [lra|lia])]. destruct (Nat.eq_dec s p) as [|N]; [auto|right]. specialize (C (s - 1)%nat ltac:(lia) ltac:(lia)). replace (s - 1 + 1)%nat with s in C by lia. auto.
Qed.
Lemma de_boor_in : forall u p (cp l : list R), length l = (length cp + p + 1)%nat -> (0 < p < length cp)%nat -> rising (kn l) (length l) -> kn l p < kn l (p + 1) -> kn l p - e10 <= u <= kn l (length cp) + e10 ->
  exists s, (p <= s < length cp)%nat /\ kn l s < kn l (s + 1) /\ (s = p \/ kn l s + e10 < u) /\ u <= kn l (s + 1) + e10 /\ forall cp', length cp' = length cp -> DeBoorBSpline u p cp' l = Some (spline (kn l) (taken s) p (length cp) (kn cp') u).
Proof.
  intros u p cp l L P K K0 U. destruct (span_in u p l (length cp) L P K U) as (s & E & S0 & G & H). exists s. assert (Ks : kn l s < kn l (s + 1)) by (destruct G as [->|]; lra). split; [auto|]. split; [auto|]. split; [auto|]. split; [auto|]. intros cp' Lc. rewrite (de_boor_at u p cp' l s) by (auto; lia). rewrite Lc. auto.
Qed.
Lemma push_none : forall (cp : list R) a b, (a < b)%nat -> (length cp < b)%nat -> forn a b (fun ik t => c <- vget cp ik ;; Some (t ++ [c])) [] = None.
Proof. intros cp a b A B. destruct (forn _ _ _ _) eqn:E; auto. destruct (forn_some _ _ _ _ _ _ E (b - 1)%nat ltac:(lia)) as (x & y & H). unfold vget in H. rewrite (proj2 (nth_error_None cp (b - 1))) in H by lia. discriminate. Qed.
Lemma de_boor_out : forall u p cp l, length l = (length cp + p + 1)%nat -> (0 < p < length cp)%nat -> rising (kn l) (length l) -> u < kn l p - e10 \/ kn l (length cp) + e10 < u -> DeBoorBSpline u p cp l = None.
Proof.
  intros u p cp l L P K U. pose proof e10_pos as Ep. unfold DeBoorBSpline. rewrite (proj2 (Nat.ltb_lt 0 p) ltac:(lia)), (proj2 (Nat.eqb_eq _ _) L). cbn [assertb bind]. destruct (wp_ex _ _ _ (span_ok u p l ltac:(lia) ltac:(lia))) as (s & E & Ps & B & G). rewrite E. cbn [bind]. rewrite push_none; [auto|lia|].
  destruct (Nat.lt_ge_cases (length cp) (s + 1)) as [|H]; auto. exfalso. destruct G as [(_ & G)|G]; [|lia]. pose proof (rising_le _ _ p s K ltac:(lia) ltac:(lia)). pose proof (rising_le _ _ (s + 1) (length cp) K ltac:(lia) ltac:(lia)). lra.
Qed.
(** A first span of length zero. *)
Lemma de_boor_flat : forall u p cp l, length l = (length cp + p + 1)%nat -> (0 < p < length cp)%nat -> kn l p = kn l (p + 1) -> Rabs (u - kn l p) <= e10 -> DeBoorBSpline u p cp l = None.
Proof.
  intros u p cp l L P K U. pose proof e10_pos as Ep. unfold DeBoorBSpline. rewrite (proj2 (Nat.ltb_lt 0 p) ltac:(lia)), (proj2 (Nat.eqb_eq _ _) L). cbn [assertb bind]. destruct (wp_ex _ _ _ (span_ok u p l ltac:(lia) ltac:(lia))) as (s & E & Ps & B & G). rewrite E. cbn [bind].
  assert (s = p). { destruct (Nat.eq_dec s p) as [|N]; auto. exfalso. destruct (B p ltac:(lia)) as [H|H]; unfold Rabs in U; destruct (Rcase_abs (u - kn l p)); lra. } subst s.
  destruct (wp_ex _ _ _ (push_ok cp (p - p) (p + 1) ltac:(lia) ltac:(lia))) as (a & Ea & _). rewrite Ea. cbn [bind]. match goal with |- bind ?e _ = None => destruct e eqn:F; auto end. exfalso. destruct (forn_some _ _ _ _ _ _ F (p - 1)%nat ltac:(lia)) as (x & y & H). destruct (forn_some _ _ _ _ _ _ H 0%nat ltac:(lia)) as (x' & y' & H').
  rewrite !(vget_nth _ 0 l) in H' by lia. cbn [bind] in H'. change (nth (0 + p + 1) l 0) with (kn l (0 + p + 1)) in H'. change (nth (0 + p - p + 1 + (p - 1)) l 0) with (kn l (0 + p - p + 1 + (p - 1))) in H'. replace (0 + p - p + 1 + (p - 1))%nat with p in H' by lia. replace (0 + p + 1)%nat with (p + 1)%nat in H' by lia. pose proof (eqRs (kn l (p + 1) - kn l p) 0) as Z. destruct (eqR _ 0); [discriminate|lra].
Qed.
(** Which span a parameter is in. *)
Lemma left_taken : forall k m s t x, rising k m -> (s + 1 < m)%nat -> (x + 1 < m)%nat -> k s < t <= k (s + 1)%nat -> left_open k t x = taken s x.
Proof.
  intros k m s t x K S1 X T. unfold left_open, taken. destruct (Nat.eqb_spec x s) as [->|N].
  - destruct (Rlt_dec (k s) t), (Rle_dec t (k (s + 1)%nat)); lra.
  - destruct (Nat.lt_ge_cases x s).
    + pose proof (rising_le k m (x + 1) s K ltac:(lia) ltac:(lia)). destruct (Rlt_dec (k x) t), (Rle_dec t (k (x + 1)%nat)); lra.
    + pose proof (rising_le k m (s + 1) x K ltac:(lia) ltac:(lia)). destruct (Rlt_dec (k x) t); lra.
Qed.
Lemma right_taken : forall k m s t x, rising k m -> (s + 1 < m)%nat -> (x + 1 < m)%nat -> k s <= t < k (s + 1)%nat -> right_open k t x = taken s x.
Proof.
  intros k m s t x K S1 X T. unfold right_open, taken. destruct (Nat.eqb_spec x s) as [->|N].
  - destruct (Rle_dec (k s) t), (Rlt_dec t (k (s + 1)%nat)); lra.
  - destruct (Nat.lt_ge_cases x s).
    + pose proof (rising_le k m (x + 1) s K ltac:(lia) ltac:(lia)). destruct (Rle_dec (k x) t), (Rlt_dec t (k (x + 1)%nat)); lra.
    + pose proof (rising_le k m (s + 1) x K ltac:(lia) ltac:(lia)). destruct (Rle_dec (k x) t); lra.
Qed.
Lemma spline_on : forall k on on' d n P t, (forall x, (x < n + d)%nat -> on x = on' x) -> spline k on d n P t = spline k on' d n P t.
Proof. intros. unfold spline. apply sum_ext. intros i I. f_equal. apply cox_ext; auto. intros. apply H. lia. Qed.
(** Weights. *)
Lemma cox_mean : forall k m s d n t, rising k m -> (d <= s < n)%nat -> (n + d < m)%nat -> k s < k (s + 1)%nat -> k s <= t <= k (s + 1)%nat -> mean n (fun i => cox k (taken s) d i t).
Proof.
  intros k m s d n t K S0 M Ks T. split; [intros; apply (cox_pos k m); auto; lia|]. transitivity (spline k (taken s) d n (fun _ => 1) t); [unfold spline; apply sum_ext; intros; ring|]. rewrite spline_win by lia. apply (win_one k m); auto; lia.
Qed.
(** Ends. *)
Lemma win_left : forall k m p d A t, rising k m -> (d <= p)%nat -> (p + p + 1 < m + 1)%nat -> (p + 1 < m)%nat -> k p < k (p + 1)%nat -> (forall i, (1 <= i <= p)%nat -> k i = t) -> win k p d A t = A 0%nat.
Proof.
  induction d; intros A t K D M M1 Kp T.
  - unfold win. cbn [sum cox]. unfold taken. replace (p - 0 + 0)%nat with p by lia. rewrite Nat.eqb_refl. ring.
  - rewrite win_step; [|lia|].
    + rewrite IHd by (auto; lia). unfold al. rewrite (T (p - d + 0)%nat) by lia. replace (t - t) with 0 by ring. unfold Rdiv. ring.
    + intros j J. pose proof (rising_le k m (p - d + j) p K ltac:(lia) ltac:(lia)). pose proof (rising_le k m (p + 1) (p + j + 1) K ltac:(lia) ltac:(lia)). lra.
Qed.
Lemma win_right : forall k m s d A t, rising k m -> (d <= s)%nat -> (s + d + 1 < m + 1)%nat -> (s + 1 < m)%nat -> k s < k (s + 1)%nat -> (forall i, (s + 1 <= i <= s + d)%nat -> k i = t) -> win k s d A t = A d.
Proof.
  induction d; intros A t K D M M1 Kp T.
  - unfold win. cbn [sum cox]. unfold taken. replace (s - 0 + 0)%nat with s by lia. rewrite Nat.eqb_refl. ring.
  - rewrite win_step; [|lia|].
    + rewrite IHd by (auto; try lia; intros; apply T; lia). unfold al. replace (s - d + d)%nat with s by lia. rewrite (T (s + d + 1)%nat) by lia. assert (k s < t) by (rewrite <- (T (s + 1)%nat) by lia; auto). field. lra.
    + intros j J. pose proof (rising_le k m (s - d + j) s K ltac:(lia) ltac:(lia)). pose proof (rising_le k m (s + 1) (s + j + 1) K ltac:(lia) ltac:(lia)). lra.
Qed.
(** Flat knots. *)
Lemma flat_ok : forall mu k, length k = length mu -> FlatKnot mu k = Some (concat (map (fun i => repeat (nth i k 0) (nth i mu 0%nat)) (seq 0 (length k)))).
Proof.
  intros mu k L. unfold FlatKnot. rewrite (proj2 (Nat.eqb_eq _ _) L). cbn [assertb bind]. 
  destruct (wp_ex _ (forn 0 (length k) (fun ik f => n <- vget mu ik ;; forn 0 n (fun _ f => k0 <- vget k ik ;; Some (f ++ [k0])) f) []) (fun f => f = concat (map (fun i => repeat (nth i k 0) (nth i mu 0%nat)) (seq 0 (length k))))) as (f & E & ->); [|auto].
  apply wp_forn with (I := fun i f => f = concat (map (fun i => repeat (nth i k 0) (nth i mu 0%nat)) (seq 0 i))); [lia|auto| |auto].
  intros i f I ->. rewrite (vget_nth _ 0%nat) by lia. cbn [bind]. rewrite seq_S, map_app, concat_app. cbn [map concat plus]. rewrite app_nil_r. set (f0 := concat _). apply wp_forn with (I := fun j f => f = f0 ++ repeat (nth i k 0) j); [lia|cbn; rewrite app_nil_r; auto| |auto].
  intros j f J ->. rewrite (vget_nth _ 0) by lia. cbn [bind]. apply wp_some. rewrite <- app_assoc. f_equal. change [nth i k 0] with (repeat (nth i k 0) 1). rewrite <- repeat_app. f_equal. lia.
Qed.
