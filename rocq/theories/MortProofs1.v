From Coq Require Import List Arith Bool ZArith NArith QArith Qround Lia.
Import ListNotations.
From Verif Require Import Imp MortModel MortSpec.
Close Scope Q_scope. Open Scope nat_scope.

Definition clz (x : N) : nat := 32 - N.to_nat (N.size x).

Lemma size_le : forall x k, (x < 2 ^ k)%N <-> (N.size x <= k)%N.
Proof.
  intros. destruct (N.eq_dec x 0) as [->|Hx].
  - split; intros; [cbn; lia|]. apply N.neq_0_lt_0, N.pow_nonzero; lia.
  - rewrite N.size_log2 by auto. split; intros H.
    + apply N.log2_lt_pow2 in H; lia.
    + apply N.log2_lt_pow2; lia.
Qed.

Lemma size_dbl : forall x, x <> 0%N -> N.size (x * 2) = (N.size x + 1)%N.
Proof.
  intros. rewrite !N.size_log2 by lia. rewrite N.mul_comm, N.log2_double by lia. lia.
Qed.

Lemma testbit31 : forall x, (x < 2 ^ 32)%N -> N.testbit x 31 = (N.size x =? 32)%N.
Proof.
  intros x H. destruct (N.eqb_spec (N.size x) 32) as [E|E].
  - destruct (N.eq_dec x 0) as [->|Hx]; [cbn in E; lia|].
    rewrite N.size_log2 in E by auto. replace 31%N with (N.log2 x) by lia. apply N.bit_log2; auto.
  - apply size_le in H. assert (x < 2 ^ 31)%N by (apply size_le; lia).
    destruct (N.eq_dec x 0) as [->|Hx]; [reflexivity|].
    apply N.bits_above_log2. apply N.log2_lt_pow2; lia.
Qed.

Lemma clz_spec : forall x, (x < 2 ^ 32)%N -> nbits_leading_zero x = Some (clz x).
Proof.
  intros x Hx. unfold nbits_leading_zero, clz.
  destruct (N.eqb_spec x 0) as [->|H0]; [reflexivity|].
  assert (W : wp ('(n, y) <- whilef 32 (fun s => negb (N.testbit (snd s) 31)) (fun s => let '(n, y) := s in Some (n + 1, w32 (y * 2))) (0, x) ;; Some n)
     (fun r => r = 32 - N.to_nat (N.size x))).
  { apply wp_bind.
    pose (I := fun s : nat * N => snd s <> 0%N /\ (N.size (snd s) <= 32)%N /\ N.to_nat (N.size (snd s)) = N.to_nat (N.size x) + fst s).
    apply (wp_whilef _ (fun s => 32 - N.to_nat (N.size (snd s))) I).
    - cbn [snd]. lia.
    - unfold I. cbn [fst snd]. apply size_le in Hx. split; [auto|split; lia].
    - intros [n y] (A & B & C) Hc. cbn [fst snd] in *. apply size_le in B.
      rewrite testbit31 in Hc by auto. apply negb_true_iff, N.eqb_neq in Hc.
      pose proof (proj1 (size_le _ _) B) as B'.
      assert (S1 : N.size (y * 2) = (N.size y + 1)%N) by (apply size_dbl; auto).
      assert (y * 2 < 2 ^ 32)%N by (apply size_le; lia).
      assert (E : w32 (y * 2) = (y * 2)%N) by (unfold w32; rewrite N.mod_small; auto).
      split; [lia|]. apply wp_some. unfold I. cbn [fst snd]. rewrite E, S1. repeat split; try lia.
    - intros [n y] (A & B & C) Hc. cbn [fst snd] in *. apply size_le in B.
      rewrite testbit31 in Hc by auto. apply negb_false_iff, N.eqb_eq in Hc. cbn [fst snd]. apply wp_some. lia. }
  destruct (wp_ex _ _ _ W) as (r & E & ->). exact E.
Qed.

Lemma clz_le32 : forall x, clz x <= 32.
Proof. intros; unfold clz; lia. Qed.

Lemma lxor_bound : forall a b k, (a < 2 ^ k)%N -> (b < 2 ^ k)%N -> (N.lxor a b < 2 ^ k)%N.
Proof.
  intros a b k Ha Hb. apply size_le. apply size_le in Ha, Hb.
  destruct (N.eq_dec (N.lxor a b) 0) as [->|H0]; [cbn; lia|].
  rewrite N.size_log2 by auto.
  assert (N.log2 (N.lxor a b) < k)%N; [|lia].
  destruct (N.ltb_spec (N.log2 (N.lxor a b)) k); auto. exfalso.
  assert (T := N.bit_log2 _ H0). rewrite N.lxor_spec in T.
  assert (forall c, (N.size c <= k)%N -> N.testbit c (N.log2 (N.lxor a b)) = false).
  { intros c Hc. destruct (N.eq_dec c 0) as [->|Hc0]; [apply N.bits_0|].
    apply N.bits_above_log2. rewrite N.size_log2 in Hc by auto. lia. }
  rewrite !H1 in T by auto. discriminate.
Qed.

(** Common prefix length through quotients. *)
Lemma clz_prefix : forall a b p, (a < 2 ^ 32)%N -> (b < 2 ^ 32)%N -> p <= 32 ->
  (p <= clz (N.lxor a b) <-> (a / 2 ^ N.of_nat (32 - p) = b / 2 ^ N.of_nat (32 - p))%N).
Proof.
  intros a b p Ha Hb Hp.
  assert (p <= clz (N.lxor a b) <-> (N.lxor a b < 2 ^ N.of_nat (32 - p))%N).
  { pose proof (lxor_bound a b 32 Ha Hb) as L. apply size_le in L. rewrite size_le. unfold clz. lia. }
  rewrite H. clear H.
  assert (E : (N.lxor a b / 2 ^ N.of_nat (32 - p) = 0 <-> N.lxor a b < 2 ^ N.of_nat (32 - p))%N).
  { apply N.div_small_iff. apply N.pow_nonzero. lia. }
  rewrite <- E. rewrite <- !N.shiftr_div_pow2, N.shiftr_lxor. apply N.lxor_eq_0_iff.
Qed.

Lemma leading_zeros_clz : forall x, (x < 2 ^ 32)%N -> leading_zeros x (clz x).
Proof.
  intros x Hx. unfold leading_zeros. split; [apply clz_le32|].
  apply size_le in Hx. unfold clz. split.
  - intros i Hi. destruct (N.eq_dec x 0) as [->|H0]; [apply N.bits_0|].
    apply N.bits_above_log2. rewrite N.size_log2 in * by auto. lia.
  - intros H. destruct (N.eq_dec x 0) as [->|H0]; [cbn in H; lia|].
    rewrite N.size_log2 in * by auto.
    replace (N.of_nat (31 - (32 - N.to_nat (N.succ (N.log2 x))))) with (N.log2 x) by lia. apply N.bit_log2; auto.
Qed.

(** expandBits *)
Definition eb_bit (v i : N) : bool := if (i <? 30)%N then ((i mod 3 =? 0)%N && N.testbit v (i / 3)) else false.

Lemma in_domain : forall P : N -> bool, forallb P (map N.of_nat (seq 0 1024)) = true -> forall v, (v < 1024)%N -> P v = true.
Proof.
  intros P H v Hv. rewrite forallb_forall in H. apply H. apply in_map_iff.
  exists (N.to_nat v). split; [lia|]. apply in_seq. lia.
Qed.

Lemma expand_bits_small : forall v, (v < 1024)%N ->
  forallb (fun i => Bool.eqb (N.testbit (expandBits v) i) (eb_bit v i)) (map N.of_nat (seq 0 32)) = true.
Proof. apply (in_domain (fun v => forallb (fun i => Bool.eqb (N.testbit (expandBits v) i) (eb_bit v i)) (map N.of_nat (seq 0 32)))). vm_compute. reflexivity. Qed.

Lemma expand_lt : forall v, (v < 1024)%N -> (expandBits v < 2 ^ 30)%N.
Proof.
  intros v Hv. apply N.ltb_lt. revert v Hv.
  apply (in_domain (fun v => N.ltb (expandBits v) (2 ^ 30))). vm_compute. reflexivity.
Qed.

Lemma expand_mono : forall v w, (v <= w)%N -> (w < 1024)%N -> (expandBits v <= expandBits w)%N.
Proof.
  intros v w Hvw Hw.
  assert (S1 : forall v, (v < 1024)%N -> (v =? 1023)%N || (expandBits v <=? expandBits (v + 1))%N = true).
  { apply (in_domain (fun v => (v =? 1023)%N || (expandBits v <=? expandBits (v + 1))%N)). vm_compute. reflexivity. }
  assert (G : forall d, (v + N.of_nat d < 1024)%N -> (expandBits v <= expandBits (v + N.of_nat d))%N).
  { induction d; intros H.
    - rewrite N.add_0_r. lia.
    - specialize (S1 (v + N.of_nat d)%N ltac:(lia)). apply orb_true_iff in S1. destruct S1 as [S1|S1].
      + apply N.eqb_eq in S1. lia.
      + apply N.leb_le in S1. replace (v + N.of_nat (S d))%N with (v + N.of_nat d + 1)%N by lia.
        specialize (IHd ltac:(lia)). lia. }
  replace w with (v + N.of_nat (N.to_nat (w - v)))%N in * by lia. apply G. auto.
Qed.

Lemma expand_testbit : forall v i, (v < 1024)%N -> N.testbit (expandBits v) i = eb_bit v i.
Proof.
  intros v i Hv. destruct (N.ltb_spec i 32) as [L|L].
  - pose proof (expand_bits_small v Hv) as H. rewrite forallb_forall in H.
    apply eqb_prop, H. apply in_map_iff. exists (N.to_nat i). split; [lia|]. apply in_seq. lia.
  - pose proof (expand_lt v Hv) as H. unfold eb_bit. destruct (N.ltb_spec i 30); [lia|].
    destruct (N.eq_dec (expandBits v) 0) as [->|H0']; [apply N.bits_0|].
    apply N.bits_above_log2. apply N.log2_lt_pow2 in H; lia.
Qed.

Lemma quant_cell : forall x, is_cell x (quant x).
Proof.
  intros x. unfold quant.
  assert (HM : forall a b, (fmax a b == a /\ b <= a)%Q \/ (fmax a b == b /\ a <= b)%Q).
  { intros. unfold fmax. destruct (Qle_bool a b) eqn:E.
    - apply Qle_bool_iff in E. right. split; [reflexivity|auto].
    - left. split; [reflexivity|]. destruct (Qlt_le_dec b a) as [L|L]; [apply Qlt_le_weak; auto|].
      apply Qle_bool_iff in L. congruence. }
  assert (Hm : forall a b, (fmin a b == a /\ a <= b)%Q \/ (fmin a b == b /\ b <= a)%Q).
  { intros. unfold fmin. destruct (Qle_bool a b) eqn:E.
    - apply Qle_bool_iff in E. left. split; [reflexivity|auto].
    - right. split; [reflexivity|]. destruct (Qlt_le_dec b a) as [L|L]; [apply Qlt_le_weak; auto|].
      apply Qle_bool_iff in L. congruence. }
  set (m := fmax (x * 1024) 0). set (c := fmin m 1023).
  assert (Cr : (0 <= c <= 1023)%Q).
  { destruct (HM (x * 1024)%Q 0%Q) as [(E & L)|(E & L)]; fold m in E;
    destruct (Hm m 1023%Q) as [(F & M)|(F & M)]; fold c in F; rewrite F; split; try rewrite E in *; auto; try discriminate; try apply Qle_refl. }
  assert (Fl : (0 <= Qfloor c <= 1023)%Z).
  { split.
    - rewrite <- (Qfloor_Z 0). apply Qfloor_resp_le. apply Cr.
    - rewrite <- (Qfloor_Z 1023). apply Qfloor_resp_le. apply Cr. }
  unfold is_cell. split; [lia|split; [|split]].
  - intros Hx. assert (c == 0)%Q.
    { apply Qle_antisym; [|apply Cr].
      assert (m <= 0)%Q. { destruct (HM (x * 1024)%Q 0%Q) as [(E & L)|(E & L)]; fold m in E; rewrite E; [|apply Qle_refl].
        setoid_replace 0%Q with (0 * 1024)%Q by reflexivity. apply Qmult_le_compat_r; [auto|discriminate]. }
      destruct (Hm m 1023%Q) as [(F & M)|(F & M)]; fold c in F; rewrite F; auto. eapply Qle_trans; eauto. }
    rewrite H. reflexivity.
  - intros Hx. assert (c == 1023)%Q.
    { apply Qle_antisym; [apply Cr|].
      assert (1023 <= m)%Q. { assert (1023 <= x * 1024)%Q.
          { eapply Qle_trans; [|apply Qmult_le_compat_r; [exact Hx|discriminate]]. discriminate. }
          destruct (HM (x * 1024)%Q 0%Q) as [(E & L)|(E & L)]; fold m in E; rewrite E; auto. eapply Qle_trans; eauto. }
      destruct (Hm m 1023%Q) as [(F & M)|(F & M)]; fold c in F; rewrite F; auto. apply Qle_refl. }
    rewrite H. reflexivity.
  - intros H0 H1.
    assert (Em : (m == x * 1024)%Q).
    { destruct (HM (x * 1024)%Q 0%Q) as [(E & L)|(E & L)]; fold m in E; auto. rewrite E.
      apply Qle_antisym; auto. setoid_replace 0%Q with (0 * 1024)%Q by reflexivity. apply Qmult_le_compat_r; [auto|discriminate]. }
    assert (Lx : (x * 1024 < 1024)%Q).
    { setoid_replace 1024%Q with (1 * 1024)%Q at 2 by reflexivity. apply Qmult_lt_compat_r; auto. reflexivity. }
    rewrite Z2N.id by lia.
    destruct (Hm m 1023%Q) as [(F & M)|(F & M)]; fold c in F; rewrite F.
    + rewrite Em. split; [apply Qfloor_le|apply Qlt_floor].
    + replace (Qfloor 1023) with 1023%Z by reflexivity. rewrite Em in M. split; [exact M|exact Lx].
Qed.

Lemma quant_mono : forall x y, (x <= y)%Q -> (quant x <= quant y)%N.
Proof.
  intros x y H. unfold quant. 
  assert (HM : forall a b c, (a <= b -> fmax a c <= fmax b c)%Q).
  { intros a b c L. unfold fmax. destruct (Qle_bool a c) eqn:E1, (Qle_bool b c) eqn:E2; auto; try apply Qle_refl.
    - destruct (Qlt_le_dec c b) as [M|M]; [apply Qlt_le_weak; auto|]. apply Qle_bool_iff in M. congruence.
    - apply Qle_bool_iff in E2. eapply Qle_trans; eauto. }
  assert (Hm : forall a b c, (a <= b -> fmin a c <= fmin b c)%Q).
  { intros a b c L. unfold fmin. destruct (Qle_bool a c) eqn:E1, (Qle_bool b c) eqn:E2; auto; try apply Qle_refl.
    - apply Qle_bool_iff in E1; auto.
    - apply Qle_bool_iff in E2. exfalso. destruct (Qlt_le_dec c a) as [M|M].
      + apply (Qlt_irrefl c). eapply Qlt_le_trans; [exact M|]. eapply Qle_trans; eauto.
      + apply Qle_bool_iff in M. congruence. }
  assert (P0 : forall c, (0 <= Qfloor (fmin (fmax c 0) 1023))%Z).
  { intros c. apply (Z.le_trans _ (Qfloor 0)); [apply Z.le_refl|]. apply Qfloor_resp_le.
    assert (A : (0 <= fmax c 0)%Q).
    { unfold fmax. destruct (Qle_bool c 0) eqn:E; [apply Qle_refl|].
      destruct (Qlt_le_dec 0 c) as [M|M]; [apply Qlt_le_weak; auto|]. apply Qle_bool_iff in M. congruence. }
    unfold fmin. destruct (Qle_bool (fmax c 0) 1023); [auto|unfold Qle; cbn; lia]. }
  apply Z2N.inj_le; [apply P0|apply P0|].
apply Qfloor_resp_le. apply Hm, HM. apply Qmult_le_compat_r; [auto|discriminate].
Qed.

Lemma code_sum : forall a b c, (a < 1024)%N -> (b < 1024)%N -> (c < 1024)%N ->
  w32 (w32 (w32 (expandBits a * 4) + w32 (expandBits b * 2)) + expandBits c) = (expandBits a * 4 + expandBits b * 2 + expandBits c)%N /\
  (forall i, N.testbit (expandBits a * 4 + expandBits b * 2 + expandBits c) i =
     match (i mod 3)%N with 2%N => (i <? 32)%N && eb_bit a (i - 2) | 1%N => (i <? 31)%N && eb_bit b (i - 1) | _ => eb_bit c i end).
Proof.
  intros a b c Ha Hb Hc.
  assert (Ta : forall i, N.testbit (expandBits a * 4) i = (2 <=? i)%N && eb_bit a (i - 2)).
  { intros i. change 4%N with (2 ^ 2)%N. destruct (N.leb_spec 2 i).
    - rewrite N.mul_pow2_bits_high by lia. apply expand_testbit; auto.
    - rewrite N.mul_pow2_bits_low by lia. auto. }
  assert (Tb : forall i, N.testbit (expandBits b * 2) i = (1 <=? i)%N && eb_bit b (i - 1)).
  { intros i. change 2%N with (2 ^ 1)%N at 1. destruct (N.leb_spec 1 i).
    - rewrite N.mul_pow2_bits_high by lia. apply expand_testbit; auto.
    - rewrite N.mul_pow2_bits_low by lia. auto. }
  assert (Tc : forall i, N.testbit (expandBits c) i = eb_bit c i) by (intros; apply expand_testbit; auto).
  assert (M3 : forall i, (i = 3 * (i / 3) + i mod 3 /\ i mod 3 < 3)%N).
  { intros i. split; [apply N.div_mod; lia|apply N.mod_lt; lia]. }
  assert (EB : forall v i, eb_bit v i = true -> (i mod 3 = 0 /\ i < 30)%N).
  { intros v i. unfold eb_bit. destruct (N.ltb_spec i 30); [|discriminate]. intros X. apply andb_true_iff in X. destruct X as (X & _).
    apply N.eqb_eq in X. auto. }
  assert (Msub : forall i k, (k <= i)%N -> (k < 3)%N -> ((i - k) mod 3 = 0)%N -> (i mod 3 = k)%N).
  { intros i k L K H. destruct (M3 (i - k)%N) as (A & _). symmetry.
    apply N.mod_unique with (q := ((i - k) / 3)%N); lia. }
  assert (D1 : (expandBits a * 4 + expandBits b * 2 = N.lxor (expandBits a * 4) (expandBits b * 2))%N).
  { apply N.add_nocarry_lxor. apply N.bits_inj_0. intros i. rewrite N.land_spec, Ta, Tb.
    destruct (N.leb_spec 2 i); [|auto]. destruct (N.leb_spec 1 i); [|lia]. rewrite !andb_true_l.
    destruct (eb_bit a (i - 2)) eqn:E1; [|auto]. destruct (eb_bit b (i - 1)) eqn:E2; [|auto].
    apply EB in E1, E2. destruct E1 as (E1 & _), E2 as (E2 & _). apply Msub in E1; [|lia|lia]. apply Msub in E2; [|lia|lia]. lia. }
  assert (D2 : (N.lxor (expandBits a * 4) (expandBits b * 2) + expandBits c = N.lxor (N.lxor (expandBits a * 4) (expandBits b * 2)) (expandBits c))%N).
  { apply N.add_nocarry_lxor. apply N.bits_inj_0. intros i. rewrite N.land_spec, N.lxor_spec, Ta, Tb, Tc.
    destruct (eb_bit c i) eqn:E3; [|apply andb_false_r]. apply EB in E3. destruct E3 as (E3 & _).
    rewrite andb_true_r.
    assert (forall k v, (0 < k < 3)%N -> (k <=? i)%N && eb_bit v (i - k) = false).
    { intros k v Hk. destruct (N.leb_spec k i); [|auto]. rewrite andb_true_l. destruct (eb_bit v (i - k)) eqn:E; [|auto].
      apply EB in E. destruct E as (E & _). apply Msub in E; lia. }
    rewrite !H by lia. auto. }
  pose proof (expand_lt a Ha). pose proof (expand_lt b Hb). pose proof (expand_lt c Hc).
  split.
  - assert (B32 : (N.lxor (expandBits a * 4) (expandBits b * 2) < 2 ^ 32)%N).
    { apply lxor_bound; lia. }
    assert (C32 : (N.lxor (N.lxor (expandBits a * 4) (expandBits b * 2)) (expandBits c) < 2 ^ 32)%N).
    { apply lxor_bound; lia. }
    unfold w32. rewrite (N.mod_small (expandBits a * 4)) by lia. rewrite (N.mod_small (expandBits b * 2)) by lia.
    rewrite (N.mod_small (expandBits a * 4 + expandBits b * 2)) by (rewrite D1; auto).
    rewrite N.mod_small; auto. rewrite D1, D2. auto.
  - intros i. rewrite D1, D2, !N.lxor_spec, Ta, Tb, Tc.
    assert (Z : forall v k, (k <= i)%N -> (k < 3)%N -> (i mod 3 <> k)%N -> eb_bit v (i - k) = false).
    { intros v k L K Hne. destruct (eb_bit v (i - k)) eqn:E; auto. apply EB in E. destruct E as (E & _). apply Msub in E; try lia. }
    assert (Zk : forall v k, (k < 3)%N -> (i mod 3 <> k)%N -> (k <=? i)%N && eb_bit v (i - k) = false).
    { intros v k K Hne. destruct (N.leb_spec k i); auto. rewrite andb_true_l. apply Z; auto. }
    assert (Z0 : (i mod 3 <> 0)%N -> eb_bit c i = false).
    { intros. rewrite <- (Z c 0%N); try lia. f_equal. lia. }
    assert (EBk : forall v k, (k < 3)%N -> (i mod 3 = k)%N -> (k <=? i)%N && eb_bit v (i - k) = (i <? 30 + k)%N && eb_bit v (i - k)).
    { intros v k K E. destruct (N.leb_spec k i) as [L|L].
      - destruct (N.ltb_spec i (30 + k)); auto. rewrite andb_true_l, andb_false_l. unfold eb_bit. destruct (N.ltb_spec (i - k) 30); [lia|auto].
      - destruct (M3 i) as (A & _). lia. }
    destruct (M3 i) as (A & B).
    destruct (i mod 3)%N as [|[q|[q|q|]|]] eqn:E; try lia.
    + rewrite !Zk by lia. rewrite !xorb_false_l. reflexivity.
    + rewrite (Zk b 1%N) by lia. rewrite Z0 by lia. rewrite (EBk a 2%N) by lia. rewrite !xorb_false_r. auto.
    + rewrite Zk by lia. rewrite Z0 by lia. rewrite (EBk b 1%N) by lia. rewrite xorb_false_l, xorb_false_r. auto.
Qed.

Lemma MortonCode_bits : forall x y z, (MortonCode x y z < 2 ^ 30)%N /\
  forall i, (i < 10)%N -> N.testbit (MortonCode x y z) (3 * i + 2) = N.testbit (quant x) i /\
                          N.testbit (MortonCode x y z) (3 * i + 1) = N.testbit (quant y) i /\
                          N.testbit (MortonCode x y z) (3 * i) = N.testbit (quant z) i.
Proof.
  intros x y z. destruct (code_sum (quant x) (quant y) (quant z)) as (E & T); try apply quant_cell.
  unfold MortonCode. rewrite E.
  assert (M : forall i k, (k < 3)%N -> ((3 * i + k) mod 3 = k /\ (3 * i + k) / 3 = i)%N).
  { intros. rewrite N.add_comm, N.mul_comm, N.mod_add, N.div_add by lia. rewrite N.mod_small, N.div_small by lia. lia. }
  assert (M0 : forall i, ((3 * i) mod 3 = 0 /\ (3 * i) / 3 = i)%N).
  { intros i. rewrite N.mul_comm, N.mod_mul, N.div_mul by lia. auto. }
  split.
  - set (s := (expandBits (quant x) * 4 + expandBits (quant y) * 2 + expandBits (quant z))%N) in *.
    destruct (N.eq_dec s 0) as [->|S0]; [reflexivity|].
    apply N.log2_lt_pow2; [lia|]. destruct (N.ltb_spec (N.log2 s) 30) as [L|L]; auto. exfalso.
    pose proof (N.bit_log2 s S0) as B. rewrite T in B.
    assert (Q : forall v i, (30 <= i)%N -> eb_bit v i = false) by (intros; unfold eb_bit; destruct (N.ltb_spec i 30); [lia|auto]).
    destruct (N.eq_dec (N.log2 s) 30) as [E30|E30]; [rewrite E30 in B; cbn in B; discriminate|].
    destruct (N.eq_dec (N.log2 s) 31) as [E31|E31]; [rewrite E31 in B; cbn in B; discriminate|].
    destruct (N.log2 s mod 3)%N as [|[p|[p|p|]|]]; try (rewrite Q in B by lia; rewrite ?andb_false_r in B; discriminate).
  - intros i Hi. rewrite !T.
    destruct (M i 2%N ltac:(lia)) as (-> & D2). destruct (M i 1%N ltac:(lia)) as (-> & D1). destruct (M0 i) as (-> & D0).
    replace (3 * i + 2 - 2)%N with (3 * i)%N by lia. replace (3 * i + 1 - 1)%N with (3 * i)%N by lia.
    unfold eb_bit. rewrite D0. destruct (M0 i) as (-> & _).
    destruct (N.ltb_spec (3 * i) 30); [|lia]. destruct (N.ltb_spec (3 * i + 2) 32); [|lia]. destruct (N.ltb_spec (3 * i + 1) 31); [|lia]. auto.
Qed.

Lemma MortonCode_mono : forall x y z x' y' z', (x <= x')%Q -> (y <= y')%Q -> (z <= z')%Q -> (MortonCode x y z <= MortonCode x' y' z')%N.
Proof.
  intros. unfold MortonCode.
  rewrite (proj1 (code_sum (quant x) (quant y) (quant z) ltac:(apply quant_cell) ltac:(apply quant_cell) ltac:(apply quant_cell))).
  rewrite (proj1 (code_sum (quant x') (quant y') (quant z') ltac:(apply quant_cell) ltac:(apply quant_cell) ltac:(apply quant_cell))).
  pose proof (expand_mono (quant x) (quant x') ltac:(apply quant_mono; auto) ltac:(apply quant_cell)).
  pose proof (expand_mono (quant y) (quant y') ltac:(apply quant_mono; auto) ltac:(apply quant_cell)).
  pose proof (expand_mono (quant z) (quant z') ltac:(apply quant_mono; auto) ltac:(apply quant_cell)).
  lia.
Qed.
