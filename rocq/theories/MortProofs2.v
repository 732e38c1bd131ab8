From Coq Require Import List Arith Bool ZArith NArith Lia.
Import ListNotations.
From Verif Require Import Imp MortModel MortSpec MortProofs1.
Open Scope nat_scope.

Lemma half_gap : forall a b c d : N, (a / 2 = d / 2)%N -> a <> b -> c <> d -> (a <= b)%N -> (b <= c)%N -> (c <= d)%N -> False.
Proof.
  intros a b c d Q Na Nc L1 L2 L3.
  pose proof (N.div_mod a 2 ltac:(lia)) as A. pose proof (N.mod_lt a 2 ltac:(lia)) as A'.
  pose proof (N.div_mod d 2 ltac:(lia)) as B. pose proof (N.mod_lt d 2 ltac:(lia)) as B'.
  rewrite Q in A. clear Q. revert A A' B B'. generalize (a mod 2)%N, (d mod 2)%N, (d / 2)%N. intros. 
  assert (a < b)%N by (apply N.le_neq; auto). assert (c < d)%N by (apply N.le_neq; auto). clear Na Nc. subst. lia.
Qed.

Section Codes.
Variable mc : list N.
Let n := length mc.
Hypothesis Hs : sorted_codes mc.
Hypothesis Hw : words32 mc.

Definition code (i : nat) : N := nth i mc 0%N.
Definition D (i j : nat) : nat := clz (N.lxor (code i) (code j)).

Lemma code_lt : forall i, (code i < 2 ^ 32)%N.
Proof.
  intros i. unfold code. destruct (Nat.ltb_spec i (length mc)).
  - apply Hw. apply nth_In; auto.
  - rewrite nth_overflow by auto. reflexivity.
Qed.

Lemma code_mono : forall i j, i <= j -> j < n -> (code i <= code j)%N.
Proof. intros. apply Hs. auto. Qed.

Lemma D_sym : forall i j, D i j = D j i.
Proof. intros. unfold D. rewrite N.lxor_comm. auto. Qed.

Lemma D_le32 : forall i j, D i j <= 32.
Proof. intros. apply clz_le32. Qed.

Definition qt (p i : nat) : N := (code i / 2 ^ N.of_nat (32 - p))%N.
Lemma D_qt : forall i j p, p <= 32 -> (p <= D i j <-> qt p i = qt p j).
Proof. intros. unfold D, qt. apply clz_prefix; auto using code_lt. Qed.
Lemma qt_mono : forall p i j, i <= j -> j < n -> (qt p i <= qt p j)%N.
Proof. intros. unfold qt. apply N.div_le_mono; [apply N.pow_nonzero; lia|apply code_mono; auto]. Qed.
Lemma qt_half : forall p i, p < 32 -> (qt p i = qt (S p) i / 2)%N.
Proof.
  intros. unfold qt. rewrite N.div_div by (try apply N.pow_nonzero; lia). f_equal.
  replace (N.of_nat (32 - p)) with (N.succ (N.of_nat (32 - S p))) by lia. rewrite N.pow_succ_r'. lia.
Qed.

(** Boundary values: between positions k-1 and k; -1 at both ends. *)
Definition bd (k : nat) : Z := if (k =? 0) || (n <=? k) then (-1)%Z else Z.of_nat (D (k - 1) k).

Lemma bd_in : forall k, 0 < k < n -> bd k = Z.of_nat (D (k - 1) k).
Proof. intros. unfold bd. destruct (Nat.eqb_spec k 0); [lia|]. destruct (Nat.leb_spec n k); [lia|]. auto. Qed.
Lemma bd_0 : bd 0 = (-1)%Z. Proof. reflexivity. Qed.
Lemma bd_n : forall k, n <= k -> bd k = (-1)%Z.
Proof. intros. unfold bd. destruct (Nat.leb_spec n k); [|lia]. rewrite orb_true_r. auto. Qed.
Lemma bd_range : forall k, (-1 <= bd k <= 32)%Z.
Proof. intros. unfold bd. destruct (_ || _); [lia|]. pose proof (D_le32 (k - 1) k). lia. Qed.
Lemma bd_pos : forall k, 0 < k < n -> (0 <= bd k)%Z.
Proof. intros. rewrite bd_in by auto. lia. Qed.

Lemma D_min : forall i j p, i <= j -> j < n -> p <= 32 ->
  (p <= D i j <-> forall k, i < k <= j -> (Z.of_nat p <= bd k)%Z).
Proof.
  intros i j p Hij Hj Hp. rewrite D_qt by auto. split.
  - intros E k Hk. rewrite bd_in by lia. apply inj_le. apply D_qt; auto.
    pose proof (qt_mono p i (k - 1) ltac:(lia) ltac:(lia)). pose proof (qt_mono p (k - 1) k ltac:(lia) ltac:(lia)).
    pose proof (qt_mono p k j ltac:(lia) ltac:(lia)). lia.
  - intros H. induction j.
    + replace i with 0 by lia. auto.
    + destruct (Nat.eq_dec i (S j)) as [->|]; auto.
      rewrite IHj by (try lia; intros; apply H; lia).
      specialize (H (S j) ltac:(lia)). rewrite bd_in in H by lia.
      replace (S j - 1) with j in H by lia. apply D_qt; auto. lia.
Qed.

(** The least boundary of an interval is unique when the codes differ. *)
Lemma bd_unique : forall a b, 0 < a < b -> b < n -> bd a = bd b -> (bd a < 32)%Z ->
  (forall k, a < k < b -> (bd a <= bd k)%Z) -> False.
Proof.
  intros a b Hab Hb E L H.
  rewrite (bd_in a) in * by lia. rewrite (bd_in b) in * by lia.
  set (p := D (a - 1) a) in *.
  assert (Ep : p = D (b - 1) b) by lia. assert (p < 32) by lia.
  assert (Q : qt p (a - 1) = qt p b).
  { apply D_qt; [lia|]. apply D_min; try lia. intros k Hk.
    destruct (Nat.eq_dec k a) as [->|]; [rewrite bd_in by lia; fold p; lia|].
    destruct (Nat.eq_dec k b) as [->|]; [rewrite bd_in by lia; lia|]. apply H. lia. }
  assert (Na : qt (S p) (a - 1) <> qt (S p) a).
  { intros X. apply D_qt in X; [|lia]. fold p in X. lia. }
  assert (Nb : qt (S p) (b - 1) <> qt (S p) b).
  { intros X. apply D_qt in X; [|lia]. rewrite <- Ep in X. lia. }
  pose proof (qt_mono (S p) (a - 1) a ltac:(lia) ltac:(lia)).
  pose proof (qt_mono (S p) a (b - 1) ltac:(lia) ltac:(lia)).
  pose proof (qt_mono (S p) (b - 1) b ltac:(lia) ltac:(lia)).
  rewrite (qt_half p (a - 1)), (qt_half p b) in Q by auto.
  eapply half_gap; eauto.
Qed.

Definition blt (a b : nat) : Prop := (bd a < bd b)%Z \/ (bd a = bd b /\ a < b).
Lemma blt_irr : forall a, ~ blt a a. Proof. unfold blt. intros; lia. Qed.
Lemma blt_trans : forall a b c, blt a b -> blt b c -> blt a c. Proof. unfold blt. intros; lia. Qed.
Lemma blt_asym : forall a b, blt a b -> ~ blt b a. Proof. unfold blt. intros; lia. Qed.
Lemma blt_total : forall a b, a <> b -> blt a b \/ blt b a. Proof. unfold blt. intros; lia. Qed.

(** delta *)
Lemma delta_spec : forall i j, i < n -> delta mc i j = Some (if ((j <? 0) || (j >=? Z.of_nat n))%Z then -1 else Z.of_nat (D i (Z.to_nat j)))%Z.
Proof.
  intros i j Hi. unfold delta. fold n. destruct ((j <? 0) || (j >=? Z.of_nat n))%Z eqn:E; auto.
  apply orb_false_iff in E. destruct E as (E1 & E2). apply Z.ltb_ge in E1. assert (j < Z.of_nat n)%Z by lia.
  rewrite (vget_nth _ 0%N) by auto. cbn [bind]. rewrite (vget_nth _ 0%N) by (fold n; lia). cbn [bind].
  rewrite clz_spec. cbn [bind]. auto. apply lxor_bound; apply code_lt.
Qed.

Lemma delta_adj_p : forall i, i < n -> delta mc i (Z.of_nat i + 1) = Some (bd (i + 1)).
Proof.
  intros. rewrite delta_spec by auto. f_equal. unfold bd.
  destruct (Nat.eqb_spec (i + 1) 0); [lia|]. destruct (Nat.leb_spec n (i + 1)).
  - replace ((_ <? 0) || _)%Z with true; auto. symmetry. apply orb_true_iff. right. lia.
  - replace ((_ <? 0) || _)%Z with false. cbn [orb]. repeat f_equal; lia.
    symmetry. apply orb_false_iff. split; lia.
Qed.
Lemma delta_adj_m : forall i, 0 < i < n -> delta mc i (Z.of_nat i - 1) = Some (bd i).
Proof.
  intros. rewrite delta_spec by lia. f_equal. rewrite bd_in by lia.
  replace ((_ <? 0) || _)%Z with false. rewrite D_sym. repeat f_equal; lia.
  symmetry. apply orb_false_iff. split; lia.
Qed.

(** Searching the far end of the range: for a property of lengths closed downwards. *)
Section Search.
Variable i : nat.
Variable d dmin : Z.
Hypothesis Hi : i < n.
Hypothesis Hd : d = 1%Z \/ d = (-1)%Z.
Hypothesis Hdm : (-1 <= dmin)%Z.
Definition dv (l : nat) : Z := let j := (Z.of_nat i + Z.of_nat l * d)%Z in (if ((j <? 0) || (j >=? Z.of_nat n))%Z then -1 else Z.of_nat (D i (Z.to_nat j)))%Z.
Definition good (l : nat) : Prop := (dv l > dmin)%Z.
Hypothesis H1 : good 1.

Lemma good_in : forall l, good l -> l < n /\ (0 <= Z.of_nat i + Z.of_nat l * d < Z.of_nat n)%Z.
Proof.
  intros l G. unfold good, dv in G. destruct ((_ <? 0) || _)%Z eqn:E; [lia|]. apply orb_false_iff in E. destruct E as (A & B).
  apply Z.ltb_ge in A. split; [|lia]. clear H1. destruct Hd; lia.
Qed.

Lemma search_wp : wp (
  '(lmax, _) <- loopf (S n) (fun s =>
      let '(lmax, _) := s in
      dd <- delta mc i (Z.of_nat i + Z.of_nat lmax * d) ;;
      if (dd >? dmin)%Z then Some ((lmax * 2, tt), false) else Some ((lmax, tt), true)) (2, tt) ;;
  '(l, t) <- whilef lmax (fun s => 1 <=? snd s) (fun s =>
      let '(l, t) := s in
      dd <- delta mc i (Z.of_nat i + Z.of_nat (l + t) * d) ;;
      Some ((if (dd >? dmin)%Z then l + t else l), t / 2)) (0, lmax / 2) ;; Some l)
  (fun l => good l /\ ~ good (l + 1)).
Proof.
  apply wp_bind.
  apply (wp_loopf _ (fun s => n - (fst s - 1)) (fun s => good (fst s / 2) /\ exists e, fst s = 2 ^ S e)).
  - cbn [fst]. lia.
  - cbn [fst]. split; [exact H1|]. exists 0. auto.
  - intros [lmax u] (G & e & E). cbn [fst] in *. rewrite delta_spec by auto. cbn [bind]. fold (dv lmax).
    assert (0 < 2 ^ e) by (apply Nat.neq_0_lt_0, Nat.pow_nonzero; lia).
    assert (EL : lmax = 2 * 2 ^ e) by (rewrite E; auto).
    destruct (Z.gtb_spec (dv lmax) dmin) as [L|L]; apply wp_some; cbn [fst snd].
    + assert (GL : good lmax) by (unfold good; lia). destruct (good_in lmax GL). split; [split|].
      * rewrite Nat.div_mul by lia. auto.
      * exists (S e). rewrite E. cbn [Nat.pow]. lia.
      * lia.
    + assert (NG : ~ good lmax) by (unfold good; lia).
      apply wp_bind.
      apply (wp_whilef _ (fun s => snd s) (fun s => (fst s = 0 \/ good (fst s)) /\ (fst s <> 0 \/ good (snd s)) /\
            ((exists e, snd s = 2 ^ e /\ ~ good (fst s + 2 * snd s)) \/ (snd s = 0 /\ good (fst s) /\ ~ good (fst s + 1))))).
      * cbn [snd]. apply Nat.div_le_upper_bound; lia.
      * cbn [fst snd]. split; [auto|split; [auto|]]. left. exists e. rewrite EL, Nat.mul_comm, Nat.div_mul by lia.
        split; auto. replace (0 + 2 * 2 ^ e) with lmax by lia. auto.
      * intros [l t] (A & B & C) Ht. cbn [fst snd] in *. apply Nat.leb_le in Ht. split; [lia|].
        destruct C as [(e' & C & NG')|(C & _)]; [|lia].
        rewrite delta_spec by auto. cbn [bind]. fold (dv (l + t)).
        assert (Tt : t / 2 < t) by (apply Nat.div_lt; lia).
        destruct (Z.gtb_spec (dv (l + t)) dmin) as [M|M]; apply wp_some; cbn [fst snd].
        -- assert (good (l + t)) by (unfold good; lia). split; [|exact Tt]. split; [auto|split; [left; lia|]].
           destruct e'.
           ++ cbn in C. subst t. right. split; auto. split; auto. replace (l + 1 + 1) with (l + 2 * 1) by lia. auto.
           ++ left. exists e'. rewrite C. cbn [Nat.pow]. rewrite (Nat.mul_comm 2 (2 ^ e')), Nat.div_mul by lia. split; auto.
              replace (l + 2 ^ e' * 2 + 2 * 2 ^ e') with (l + 2 * t); auto. rewrite C. cbn [Nat.pow]. lia.
        -- assert (NG1 : ~ good (l + t)) by (unfold good; lia).
           assert (l <> 0). { intros ->. destruct B; auto. }
           split; [|exact Tt]. split; [auto|split; [left; auto|]].
           destruct e'.
           ++ cbn in C. subst t. right. split; auto. split; auto. destruct A; [lia|auto].
           ++ left. exists e'. rewrite C. cbn [Nat.pow]. rewrite (Nat.mul_comm 2 (2 ^ e')), Nat.div_mul by lia. split; auto.
              replace (l + 2 * 2 ^ e') with (l + t); auto.
      * intros [l t] (A & B & C) Ht. cbn [fst snd] in *. apply Nat.leb_gt in Ht. apply wp_some.
        destruct C as [(e' & C & _)|(_ & C & C')]; [|auto].
        assert (2 ^ e' <> 0) by (apply Nat.pow_nonzero; lia). lia.
Qed.
End Search.

Definition inner_ok (l r : nat) : Prop := l < r /\ r < n /\ forall k, l < k <= r -> blt l k /\ blt (r + 1) k.
Definition is_index (i l r : nat) : Prop :=
  (i = 0 /\ l = 0 /\ r = n - 1) \/ (0 < i /\ i = l /\ blt (r + 1) l) \/ (i = r /\ r + 1 < n /\ blt l (r + 1)).

Lemma dv_fwd : forall i l, i + l < n -> dv i 1 l = Z.of_nat (D i (i + l)).
Proof.
  intros. unfold dv. cbv zeta. replace ((_ <? 0) || _)%Z with false. repeat f_equal; lia.
  symmetry. apply orb_false_iff. split; lia.
Qed.
Lemma dv_bwd : forall i l, l <= i -> i < n -> dv i (-1) l = Z.of_nat (D (i - l) i).
Proof.
  intros. unfold dv. cbv zeta. rewrite D_sym. replace ((_ <? 0) || _)%Z with false. repeat f_equal; lia.
  symmetry. apply orb_false_iff. split; lia.
Qed.

Lemma gt_min : forall i j m, i <= j -> j < n -> (-1 <= m < 32)%Z ->
  ((Z.of_nat (D i j) > m)%Z <-> forall k, i < k <= j -> (bd k > m)%Z).
Proof.
  intros i j m Hij Hj Hm. pose proof (D_min i j (Z.to_nat (m + 1)) Hij Hj ltac:(lia)) as X.
  split.
  - intros G k Hk. enough (Z.of_nat (Z.to_nat (m + 1)) <= bd k)%Z by lia. apply X; [lia|auto].
  - intros G. enough (Z.to_nat (m + 1) <= D i j) by lia. apply X. intros k Hk. specialize (G k Hk). lia.
Qed.

Lemma DR_spec : forall i, 2 <= n -> i < n - 1 -> wp (DeterminRange mc i) (fun '(l, r) => inner_ok l r /\ is_index i l r).
Proof.
  intros i Hn Hi. unfold DeterminRange. fold n. cbv zeta.
  apply wp_bind. apply wp_assertb; [apply Nat.ltb_lt; lia|].
  destruct (Nat.eqb_spec i 0) as [->|Hi0].
  { apply wp_some. split; [|left; auto]. split; [lia|split; [lia|]]. intros k Hk.
    pose proof (bd_pos k ltac:(lia)). split; left; [rewrite bd_0|rewrite bd_n by lia]; lia. }
  destruct (Nat.eqb_spec i (n - 1)) as [|_]; [lia|].
  rewrite !(vget_nth _ 0%N) by (fold n; lia). cbn [bind].
  fold (code (i - 1)) (code (i + 0)) (code (i + 1)). rewrite Nat.add_0_r.
  destruct ((code (i - 1) =? code i) && (code i =? code (i + 1)))%N eqn:EC.
  { apply andb_true_iff in EC. destruct EC as (E1 & E2). apply N.eqb_eq in E1, E2.
    assert (EQ : forall k, 0 < k < n -> (bd k = 32)%Z <-> code (k - 1) = code k).
    { intros k Hk. rewrite bd_in by auto. pose proof (D_le32 (k - 1) k). pose proof (D_qt (k - 1) k 32 ltac:(lia)) as X.
      unfold qt in X. cbn [Nat.sub N.of_nat] in X. rewrite N.pow_0_r, !N.div_1_r in X.
      rewrite <- X. lia. }
    assert (Bi : bd i = 32%Z) by (apply EQ; auto; lia).
    apply wp_bind.
    apply (wp_forb _ (fun k j => j = k /\ i + 1 <= j <= n /\ forall m, i < m < j -> code m = code i)).
    - lia.
    - split; [auto|split; [lia|]]. intros. lia.
    - intros k j Hk (-> & A & B). rewrite (vget_nth _ 0%N) by (fold n; lia). cbn [bind]. fold (code k).
      destruct (N.eqb_spec (code k) (code i)) as [E|E]; apply wp_some; cbn [fst snd].
      + split; [lia|split; [lia|]]. intros m Hm. destruct (Nat.eq_dec m k) as [->|]; auto. apply B. lia.
      + assert (k <> i + 1) by (intros ->; congruence). apply wp_some.
        assert (AB : forall m, i < m <= k - 1 -> bd m = 32%Z).
        { intros m Hm. apply EQ; [lia|]. rewrite (B m) by lia. destruct (Nat.eq_dec (m - 1) i) as [->|]; auto. apply B. lia. }
        assert (NB : (bd k < 32)%Z).
        { pose proof (bd_range k). enough (bd k <> 32)%Z by lia. intros X. apply EQ in X; [|lia]. rewrite (B (k - 1)) in X by lia. congruence. }
        replace (k - 1 + 1) with k in * by lia.
        split; [split; [lia|split; [lia|]]|].
        * intros m Hm. replace (k - 1 + 1) with k by lia. split; [right|left]; rewrite (AB m) by lia; lia.
        * right. left. replace (k - 1 + 1) with k by lia. split; [lia|split; auto]. left. lia.
    - intros j (-> & A & B). apply wp_some.
      assert (AB : forall m, i < m <= n - 1 -> bd m = 32%Z).
      { intros m Hm. apply EQ; [lia|]. rewrite (B m) by lia. destruct (Nat.eq_dec (m - 1) i) as [->|]; auto. apply B. lia. }
      assert (NB : bd n = (-1)%Z) by (apply bd_n; lia).
      split; [split; [lia|split; [lia|]]|].
      * intros m Hm. replace (n - 1 + 1) with n by lia. split; [right|left]; rewrite (AB m) by lia; lia.
      * right. left. replace (n - 1 + 1) with n by lia. split; [lia|split; auto]. left. lia. }
  rewrite delta_adj_p, delta_adj_m by lia. cbn [bind].
  assert (N32 : ~ (bd i = 32 /\ bd (i + 1) = 32)%Z).
  { intros (A & B). rewrite bd_in in A, B by lia. replace (i + 1 - 1) with i in B by lia.
    pose proof (D_qt (i - 1) i 32 ltac:(lia)) as X. pose proof (D_qt i (i + 1) 32 ltac:(lia)) as Y.
    unfold qt in X, Y. cbn [Nat.sub N.of_nat] in X, Y. rewrite N.pow_0_r, !N.div_1_r in X, Y.
    assert (code (i - 1) = code i) by (apply X; lia). assert (code i = code (i + 1)) by (apply Y; lia).
    rewrite (proj2 (N.eqb_eq _ _) H), (proj2 (N.eqb_eq _ _) H0) in EC. discriminate. }
  pose proof (bd_range i) as R1. pose proof (bd_range (i + 1)) as R2.
  assert (NE : bd i <> bd (i + 1)).
  { intros E. apply (bd_unique i (i + 1)); try lia. }
  destruct (Z.gtb_spec (bd (i + 1) - bd i) 0) as [L|L].
  - (* forward *)
    rewrite delta_adj_m by lia. cbn [bind].
    pose proof (search_wp i 1 (bd i) ltac:(lia) ltac:(auto) ltac:(lia)) as W.
    destruct (wp_ex _ _ _ (W ltac:(unfold good; rewrite dv_fwd by lia; replace (Z.of_nat (D i (i + 1))) with (bd (i + 1)); [lia|rewrite bd_in by lia; repeat f_equal; lia])))
      as (l & E & G1 & G2). clear W.
    match goal with |- wp (bind ?e ?k) _ => destruct e as [[lmax u]|]; cbn [bind] in E |- *; [|discriminate] end.
    match goal with |- wp (bind ?e ?k) _ => destruct e as [[l' t]|]; cbn [bind] in E |- *; [|discriminate] end.
    injection E as ->.
    destruct (good_in i 1 (bd i) ltac:(lia) ltac:(auto) ltac:(lia) l G1) as (Gl & Gr).
    replace (Z.to_nat (Z.of_nat i + Z.of_nat l * 1)) with (i + l) by lia.
    destruct (Nat.leb_spec i (i + l)); [|lia]. apply wp_some.
    unfold good in G1. rewrite dv_fwd in G1 by lia.
    pose proof (proj1 (gt_min i (i + l) (bd i) ltac:(lia) ltac:(lia) ltac:(lia)) G1) as In.
    assert (0 < l). { destruct l; [|lia]. exfalso. apply G2. unfold good. rewrite dv_fwd by lia.
      replace (Z.of_nat (D i (i + (0 + 1)))) with (bd (i + 1)); [lia|rewrite bd_in by lia; repeat f_equal; lia]. }
    assert (Out : (bd (i + l + 1) < bd i)%Z).
    { destruct (Nat.leb_spec n (i + l + 1)) as [X|X].
      - rewrite bd_n by auto. pose proof (bd_pos i ltac:(lia)). lia.
      - assert (Le : (bd (i + l + 1) <= bd i)%Z).
        { destruct (Z.leb_spec (bd (i + l + 1)) (bd i)); auto. exfalso. apply G2. unfold good. rewrite dv_fwd by lia.
          apply gt_min; try lia. intros k Hk. destruct (Nat.eq_dec k (i + (l + 1))) as [->|]; [replace (i + (l + 1)) with (i + l + 1) by lia; lia|]. apply In. lia. }
        destruct (Z.eq_dec (bd (i + l + 1)) (bd i)) as [E|]; [|lia]. exfalso.
        apply (bd_unique i (i + l + 1)); try lia. intros k Hk. specialize (In k ltac:(lia)). lia. }
    split; [split; [lia|split; [lia|]]|].
    + intros k Hk. specialize (In k ltac:(lia)). split; left; lia.
    + right. left. split; [lia|split; auto]. left. lia.
  - (* backward *)
    replace (Z.of_nat i - -1)%Z with (Z.of_nat i + 1)%Z by lia. rewrite delta_adj_p by lia. cbn [bind].
    pose proof (search_wp i (-1) (bd (i + 1)) ltac:(lia) ltac:(auto) ltac:(lia)) as W.
    destruct (wp_ex _ _ _ (W ltac:(unfold good; rewrite dv_bwd by lia; rewrite <- bd_in by lia; lia)))
      as (l & E & G1 & G2). clear W.
    match goal with |- wp (bind ?e ?k) _ => destruct e as [[lmax u]|]; cbn [bind] in E |- *; [|discriminate] end.
    match goal with |- wp (bind ?e ?k) _ => destruct e as [[l' t]|]; cbn [bind] in E |- *; [|discriminate] end.
    injection E as ->.
    destruct (good_in i (-1) (bd (i + 1)) ltac:(lia) ltac:(auto) ltac:(lia) l G1) as (Gl & Gr).
    replace (Z.to_nat (Z.of_nat i + Z.of_nat l * -1)) with (i - l) by lia.
    unfold good in G1. rewrite dv_bwd in G1 by lia.
    pose proof (proj1 (gt_min (i - l) i (bd (i + 1)) ltac:(lia) ltac:(lia) ltac:(lia)) G1) as In.
    assert (0 < l). { destruct l; [|lia]. exfalso. apply G2. unfold good. rewrite dv_bwd by lia.
      replace (i - (0 + 1)) with (i - 1) by lia. rewrite <- bd_in by lia. lia. }
    destruct (Nat.leb_spec i (i - l)); [lia|]. apply wp_some.
    assert (Out : (bd (i - l) < bd (i + 1))%Z).
    { destruct (Nat.eq_dec (i - l) 0) as [X|X].
      - rewrite X, bd_0. pose proof (bd_pos (i + 1) ltac:(lia)). lia.
      - assert (Le : (bd (i - l) <= bd (i + 1))%Z).
        { destruct (Z.leb_spec (bd (i - l)) (bd (i + 1))); auto. exfalso. apply G2. unfold good. rewrite dv_bwd by lia.
          apply gt_min; try lia. intros k Hk. destruct (Nat.eq_dec k (i - l)) as [->|]; [lia|]. apply In. lia. }
        destruct (Z.eq_dec (bd (i - l)) (bd (i + 1))) as [E|]; [|lia]. exfalso.
        apply (bd_unique (i - l) (i + 1)); try lia. intros k Hk. specialize (In k ltac:(lia)). lia. }
    split; [split; [lia|split; [lia|]]|].
    + intros k Hk. specialize (In k ltac:(lia)). split; left; lia.
    + right. right. split; [lia|split; [lia|]]. left. lia.
Qed.

(** FindSplit *)
Definition is_min (m l r : nat) : Prop := l < m <= r /\ forall k, l < k <= r -> k <> m -> blt m k.

Lemma min_unique : forall m m' l r, is_min m l r -> is_min m' l r -> m = m'.
Proof.
  intros m m' l r (A & B) (A' & B'). destruct (Nat.eq_dec m m'); auto. exfalso.
  apply (blt_asym m m'); [apply B|apply B']; auto.
Qed.

Lemma min_exists : forall l r, l < r -> exists m, is_min m l r.
Proof.
  intros l r H. induction r; [lia|]. destruct (Nat.eq_dec l r) as [->|].
  - exists (S r). split; [lia|]. intros. lia.
  - destruct IHr as (m & A & B); [lia|].
    destruct (blt_total m (S r) ltac:(lia)) as [L|L].
    + exists m. split; [lia|]. intros k Hk Hne. destruct (Nat.eq_dec k (S r)) as [->|]; auto. apply B; lia.
    + exists (S r). split; [lia|]. intros k Hk Hne. destruct (Nat.eq_dec k m) as [->|]; auto. apply blt_trans with m; auto. apply B; lia.
Qed.

Lemma FS_spec : forall l r, l < r -> r < n -> wp (FindSplit mc l r) (fun o => exists g, o = Some g /\ is_min (g + 1) l r).
Proof.
  intros l r Hlr Hr. unfold FindSplit.
  destruct (Nat.eqb_spec l r); [lia|].
  rewrite !(vget_nth _ 0%N) by (fold n; lia). cbn [bind]. fold (code l) (code r).
  rewrite clz_spec by (apply lxor_bound; apply code_lt). cbn [bind]. fold (D l r).
  destruct (Nat.eqb_spec (D l r) 32) as [E|E].
  - apply wp_some. exists l. split; auto. split; [lia|]. intros k Hk Hne.
    assert (A : forall k, l < k <= r -> bd k = 32%Z).
    { intros k' Hk'. pose proof (proj1 (D_min l r 32 ltac:(lia) Hr ltac:(lia)) ltac:(lia) k' Hk'). pose proof (bd_range k'). lia. }
    right. rewrite !A by lia. split; [auto|lia].
  - pose proof (D_le32 l r) as L32.
    destruct (min_exists l r Hlr) as (m & Hm).
    assert (Bm : bd m = Z.of_nat (D l r)).
    { destruct Hm as (M1 & M2).
      pose proof (proj1 (D_min l r (D l r) ltac:(lia) Hr ltac:(lia)) (le_n _)) as X.
      apply Z.le_antisymm; [|apply X; lia].
      pose proof (bd_pos m ltac:(lia)) as P0. pose proof (bd_range m).
      replace (bd m) with (Z.of_nat (Z.to_nat (bd m))) by lia. apply inj_le. apply D_min; try lia.
      intros k Hk. destruct (Nat.eq_dec k m) as [->|]; [lia|]. specialize (M2 k Hk n1). unfold blt in M2. lia. }
    assert (Key : forall x, l <= x < n -> x <= r -> (D l r < D l x <-> x < m)).
    { intros x Hx Hxr. pose proof (gt_min l x (Z.of_nat (D l r)) ltac:(lia) ltac:(lia) ltac:(lia)) as X.
      destruct Hm as (M1 & M2). split.
      - intros H. destruct (Nat.ltb_spec x m); auto. exfalso. 
        assert (Y : (bd m > Z.of_nat (D l r))%Z) by (apply X; lia). lia.
      - intros H. enough (Z.of_nat (D l x) > Z.of_nat (D l r))%Z by lia. apply X. intros k Hk.
        specialize (M2 k ltac:(lia) ltac:(lia)). destruct M2 as [M2|(M2 & M3)]; lia. }
    apply wp_bind.
    apply (wp_whilef _ (fun s => snd s) (fun s => l <= fst s /\ fst s < m /\ m <= fst s + snd s /\ 1 <= snd s)).
    + cbn [snd]. lia.
    + cbn [fst snd]. destruct Hm. lia.
    + intros [g st] (A & B & C & F) Hc. cbn [fst snd] in *. apply Nat.ltb_lt in Hc. split; [lia|].
      assert (S1 : (st + 1) / 2 < st) by (apply Nat.div_lt_upper_bound; lia).
      assert (S2 : st <= 2 * ((st + 1) / 2)). { pose proof (Nat.div_mod (st + 1) 2 ltac:(lia)). pose proof (Nat.mod_upper_bound (st + 1) 2 ltac:(lia)). lia. }
      set (st' := (st + 1) / 2) in *. cbv zeta.
      destruct (Nat.leb_spec r (g + st')) as [X|X].
      * apply wp_some. cbn [fst snd]. destruct Hm. lia.
      * rewrite (vget_nth _ 0%N) by (fold n; lia). cbn [bind]. fold (code (g + st')).
        rewrite clz_spec by (apply lxor_bound; apply code_lt). cbn [bind]. fold (D l (g + st')).
        specialize (Key (g + st') ltac:(lia) ltac:(lia)).
        destruct (Nat.ltb_spec (D l r) (D l (g + st'))) as [Y|Y]; apply wp_some; cbn [fst snd]; lia.
    + intros [g st] (A & B & C & F) Hc. cbn [fst snd] in *. apply Nat.ltb_ge in Hc. apply wp_some.
      exists g. split; auto. replace (g + 1) with m by lia. auto.
Qed.

End Codes.
