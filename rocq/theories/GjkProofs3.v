(** Separating axes. *)
From Coq Require Import List Arith Bool Reals Lra Lia.
Import ListNotations.
From Verif Require Import Imp PrModel PolyModel HullSpec GjkModel GjkSpec GjkProofs1 GjkProofs2.
Open Scope R_scope.

Lemma range_ok : forall l a, l <> [] -> exists mn mx, Range_ProjectionPointsOnAxis l a = Some (mn, mx) /\
  (exists v, In v l /\ dotp a v = mn) /\ (exists v, In v l /\ dotp a v = mx) /\ forall v, In v l -> mn <= dotp a v <= mx.
Proof.
  intros l a N. assert (L0 : (0 < length l)%nat) by (destruct l; [congruence|cbn; lia]).
  assert (G : forall i, (i < length l)%nat -> vget l i = Some (nth i l (0, 0))) by (intros; apply nth_error_nth'; auto).
  assert (W : wp (Range_ProjectionPointsOnAxis l a) (fun r => (exists v, In v l /\ dotp a v = fst r) /\ (exists v, In v l /\ dotp a v = snd r) /\ forall v, In v l -> fst r <= dotp a v <= snd r)).
  { unfold Range_ProjectionPointsOnAxis. rewrite G by lia. cbn [bind]. cbv zeta. apply wp_bind.
    apply wp_forn with (I := fun i r => (exists v, In v l /\ dotp a v = fst r) /\ (exists v, In v l /\ dotp a v = snd r) /\ forall j, (j < i)%nat -> fst r <= dotp a (nth j l (0, 0)) <= snd r).
    - lia.
    - split; [exists (nth 0 l (0, 0)); split; auto; apply nth_In; auto|]. split; [exists (nth 0 l (0, 0)); split; auto; apply nth_In; auto|]. intros j Hj. assert (j = 0%nat) by lia. subst j. cbn [fst snd]. lra.
    - intros i (mn, mx) Hi (I1 & I2 & I3). rewrite G by lia. cbn [bind]. cbv zeta. apply wp_some. cbn [fst snd] in *.
      set (d := dotp a (nth i l (0, 0))). pose proof (ltRs d mn) as Q1. pose proof (ltRs mx d) as Q2.
      assert (Hin : In (nth i l (0, 0)) l) by (apply nth_In; lia).
      split; [destruct (ltR d mn); eauto|]. split; [destruct (ltR mx d); eauto|].
      intros j Hj. destruct (Nat.eq_dec j i) as [->|Nj]; [fold d; destruct (ltR d mn), (ltR mx d); lra|]. specialize (I3 j ltac:(lia)). destruct (ltR d mn), (ltR mx d); lra.
    - intros (mn, mx) (I1 & I2 & I3). cbn [fst snd] in *. pose proof (I3 0%nat L0) as Q. pose proof (ltRs mx mn) as Q1. destruct (ltR mx mn); [lra|]. cbn [negb assertb bind]. apply wp_some. cbn [fst snd].
      split; auto. split; auto. intros v Hv. apply (In_nth _ _ (0, 0)) in Hv. destruct Hv as (j & Hj & <-). auto. }
  apply wp_ex in W. destruct W as ((mn, mx) & E & W). exists mn, mx. auto.
Qed.

Section Sat.
Variables A B : list pt.
Hypothesis NA : A <> [].
Hypothesis NB : B <> [].
Notation M := (diffs A B).
Definition sepx (n : pt) : Prop := (forall m, In m M -> dotp n m < 0) \/ (forall m, In m M -> 0 < dotp n m).
Definition axis (v w : pt) : pt := (snd (subp v w), - fst (subp v w)).
Lemma axis_ok : forall v w, exists f, sat_axis A B v w = Some f /\ (f = true <-> sepx (axis v w)).
Proof.
  intros v w. unfold sat_axis. cbv zeta. fold (axis v w). set (n := axis v w). destruct (range_ok A n NA) as (n0 & x0 & -> & (va & Ia & Ea) & (va' & Ia' & Ea') & Ra). cbn [bind].
  destruct (range_ok B n NB) as (n1 & x1 & -> & (vb & Ib & Eb) & (vb' & Ib' & Eb') & Rb). cbn [bind fst snd]. eexists. split; [reflexivity|].
  assert (SB : forall a b, dotp n (subp a b) = dotp n a - dotp n b) by (intros; uv; ring).
  rewrite orb_true_iff. pose proof (ltRs x0 n1) as L1. pose proof (ltRs x1 n0) as L2. split.
  - intros [H|H]; rewrite H in *; [left|right]; intros m Hm; apply in_diffs in Hm; destruct Hm as (a & b & Ha & Hb & ->); rewrite SB; specialize (Ra a Ha); specialize (Rb b Hb); lra.
  - intros [H|H].
    + left. destruct (ltR x0 n1); auto. exfalso. specialize (H (subp va' vb)). rewrite SB in H. assert (In (subp va' vb) M) by (apply in_diffs; eauto). specialize (H H0). lra.
    + right. destruct (ltR x1 n0); auto. exfalso. specialize (H (subp va vb')). rewrite SB in H. assert (In (subp va vb') M) by (apply in_diffs; eauto). specialize (H H0). lra.
Qed.
Lemma pairs_ok : forall l f, exists f', sat_pairs A B l f = Some f' /\ (f' = true <-> f = true \/ exists i j, (i < j < length l)%nat /\ sepx (axis (nth i l (0, 0)) (nth j l (0, 0)))).
Proof.
  intros l f. assert (G : forall i, (i < length l)%nat -> vget l i = Some (nth i l (0, 0))) by (intros; apply nth_error_nth'; auto).
  apply wp_ex. unfold sat_pairs.
  apply wp_forn with (I := fun i f' => f' = true <-> f = true \/ exists i' j, (i' < i)%nat /\ (i' < j < length l)%nat /\ sepx (axis (nth i' l (0, 0)) (nth j l (0, 0)))).
  - lia.
  - split; auto. intros [H|(i' & j & H & _)]; auto. lia.
  - intros i g Hi I. apply wp_forn with (I := fun k f' => f' = true <-> g = true \/ exists j, (i < j < k)%nat /\ sepx (axis (nth i l (0, 0)) (nth j l (0, 0)))).
    + lia.
    + split; auto. intros [H|(j & H & _)]; auto. lia.
    + intros k f' Hk I'. destruct f'.
      * apply wp_some. split; auto. intros _. destruct I' as (I' & _). destruct (I' eq_refl) as [|(j & H & S)]; auto. right. exists j. split; auto. lia.
      * rewrite !G by lia. cbn [bind]. destruct (axis_ok (nth i l (0, 0)) (nth k l (0, 0))) as (h & -> & Eh). apply wp_some. rewrite Eh. split.
        -- intros S. right. exists k. split; auto. lia.
        -- intros [H|(j & H & S)]; [exfalso; assert (false = true) by (apply I'; auto); discriminate|]. destruct (Nat.eq_dec j k) as [->|Nj]; auto. exfalso. assert (false = true) by (apply I'; right; exists j; split; auto; lia). discriminate.
    + intros f' I'. rewrite I', I. split.
      * intros [[H|(i' & j & H & H')]|(j & H & S)]; auto; right; [exists i', j; split; [lia|auto]|exists i, j; split; [lia|]; split; [lia|auto]].
      * intros [H|(i' & j & H & H' & S)]; auto. destruct (Nat.eq_dec i' i) as [->|Ni]; [right; exists j; split; auto; lia|]. left. right. exists i', j. split; [lia|auto].
  - intros f' I. rewrite I. split; (intros [H|H]; [auto|right]).
    + destruct H as (i & j & _ & H). exists i, j. auto.
    + destruct H as (i & j & H & S). exists i, j. split; [lia|auto].
Qed.
Lemma sepx_sym : forall v w, sepx (axis v w) -> sepx (axis w v).
Proof.
  intros v w [H|H]; [right|left]; intros m Hm; specialize (H m Hm); unfold axis in *; uv; lra.
Qed.
Lemma sepx_ne : forall v, ~ sepx (axis v v).
Proof.
  intros v H. assert (E : exists m, In m M). { destruct A as [|a A']; [congruence|]. destruct B as [|b B']; [congruence|]. exists (subp a b). apply in_diffs. exists a, b. cbn. auto. }
  destruct E as (m & Hm). destruct H as [H|H]; specialize (H m Hm); unfold axis in H; uv; lra.
Qed.
Lemma sat_ok : exists r, IsIntersect_Points2_Points2_Sat A B = Some r /\ (r = false <-> exists v w, (In v A /\ In w A \/ In v B /\ In w B) /\ sepx (axis v w)).
Proof.
  unfold IsIntersect_Points2_Points2_Sat. destruct (pairs_ok B false) as (f & -> & Ef). cbn [bind]. destruct (pairs_ok A f) as (f' & -> & Ef'). cbn [bind]. eexists. split; [reflexivity|].
  assert (P : forall l v w, In v l -> In w l -> sepx (axis v w) -> exists i j, (i < j < length l)%nat /\ sepx (axis (nth i l (0, 0)) (nth j l (0, 0)))).
  { intros l v w Hv Hw S. apply (In_nth _ _ (0, 0)) in Hv. destruct Hv as (i & Hi & <-). apply (In_nth _ _ (0, 0)) in Hw. destruct Hw as (j & Hj & <-).
    destruct (lt_eq_lt_dec i j) as [[L| ->]|L]; [exists i, j; split; auto|exfalso; eapply sepx_ne; eauto|exists j, i; split; auto; apply sepx_sym; auto]. }
  destruct f' eqn:F; cbn [negb]; split; auto; try discriminate.
  - intros _. destruct (proj1 Ef' eq_refl) as [H|(i & j & H & S)].
    + destruct (proj1 Ef H) as [|(i & j & H' & S)]; [discriminate|]. exists (nth i B (0, 0)), (nth j B (0, 0)). split; auto. right. split; apply nth_In; lia.
    + exists (nth i A (0, 0)), (nth j A (0, 0)). split; auto. left. split; apply nth_In; lia.
  - intros (v & w & [(Hv & Hw)|(Hv & Hw)] & S); assert (false = true); try discriminate; apply Ef'.
    + right. exact (P A v w Hv Hw S).
    + left. apply Ef. right. exact (P B v w Hv Hw S).
Qed.
Lemma sat_sep : forall n, sepx n -> ~ collide A B.
Proof.
  intros n [H|H].
  - apply (not_collide A B n); auto. intros a b Ha Hb. apply H. apply in_diffs. eauto.
  - apply (not_collide A B (- fst n, - snd n)); auto. intros a b Ha Hb. assert (I : In (subp a b) M) by (apply in_diffs; eauto). specialize (H _ I). uv. lra.
Qed.

Lemma argmin : forall {T} (f : T -> R) l, l <> [] -> exists y, In y l /\ forall z, In z l -> f y <= f z.
Proof.
  intros T f l. induction l as [|a l IH]; intros N; [congruence|]. destruct l as [|b l].
  - exists a. split; [cbn; auto|]. intros z [<-|[]]. lra.
  - destruct IH as (y & Hy & L); [discriminate|]. destruct (Rle_lt_dec (f a) (f y)).
    + exists a. split; [cbn; auto|]. intros z [<-|Z]; [lra|]. specialize (L z Z). lra.
    + exists y. split; [right; auto|]. intros z [<-|Z]; [lra|auto].
Qed.
(** A corner of the polygon of the directions d with d . m >= 1. *)
Lemma corner : forall d0, (forall m, In m M -> 0 < dotp d0 m) -> (exists m1 m2, In m1 M /\ In m2 M /\ crossp m1 m2 <> 0) ->
  exists d x y, In x M /\ In y M /\ crossp x y <> 0 /\ dotp d x = 1 /\ dotp d y = 1 /\ forall m, In m M -> 1 <= dotp d m.
Proof.
  intros d0 H (m1 & m2 & H1 & H2 & C). assert (NM : M <> []) by (intros E; rewrite E in H1; destruct H1).
  destruct (argmin (dotp d0) M NM) as (x & Hx & Lx). pose proof (H x Hx) as Px. set (t := dotp d0 x) in *. set (d1 := (fst d0 / t, snd d0 / t)).
  assert (E1 : forall m, dotp d1 m = dotp d0 m / t) by (intros; unfold d1, dotp; cbn [fst snd]; field; lra).
  assert (L1 : forall m, In m M -> 1 <= dotp d1 m) by (intros m Hm; rewrite E1; apply Rmult_le_reg_r with t; auto; unfold Rdiv; rewrite Rmult_assoc, Rinv_l, Rmult_1_r, Rmult_1_l by lra; apply Lx; auto).
  assert (X1 : dotp d1 x = 1) by (rewrite E1; fold t; field; lra).
  assert (EM : exists m, In m M /\ crossp x m <> 0).
  { destruct (Req_dec (crossp x m1) 0) as [Z1|]; [|eauto]. destruct (Req_dec (crossp x m2) 0) as [Z2|]; [|eauto]. exfalso. apply C.
    assert (I : dotp x x * crossp m1 m2 = crossp x m2 * dotp x m1 - crossp x m1 * dotp x m2) by (clear; uv; ring). rewrite Z1, Z2 in I. rewrite !Rmult_0_l, Rminus_0_r in I. apply Rmult_integral in I. destruct I as [I|]; auto. apply dotp_zero in I. rewrite I in X1. uv. lra. }
  destruct EM as (m & Hm & Cm).
  assert (SG : exists g, g * crossp x m < 0) by (exists (- crossp x m); assert (0 < crossp x m * crossp x m) by (apply Rsqr_pos_lt in Cm; exact Cm); lra). destruct SG as (g & Hg).
  set (l := filter (fun z => ltR (g * crossp x z) 0) M).
  assert (Il : forall z, In z l <-> In z M /\ g * crossp x z < 0) by (intros z; unfold l; rewrite filter_In; pose proof (ltRs (g * crossp x z) 0) as Q; destruct (ltR _ 0); split; intros (U & V); split; auto; try discriminate; lra).
  assert (Nl : l <> []) by (intros E; assert (I : In m l) by (apply Il; auto); rewrite E in I; destruct I).
  destruct (argmin (fun z => (dotp d1 z - 1) / - (g * crossp x z)) l Nl) as (y & Hy & Ly). apply Il in Hy. destruct Hy as (Hy & Gy).
  set (s := (dotp d1 y - 1) / - (g * crossp x y)) in *.
  assert (s0 : 0 <= s) by (unfold s; apply Rmult_le_pos; [specialize (L1 y Hy); lra|left; apply Rinv_0_lt_compat; lra]).
  exists (fst d1 - s * g * snd x, snd d1 + s * g * fst x), x, y.
  assert (E2 : forall z, dotp (fst d1 - s * g * snd x, snd d1 + s * g * fst x) z = dotp d1 z + s * (g * crossp x z)) by (intros; clear; uv; ring).
  split; auto. split; auto. split; [intros Z; rewrite Z in Gy; lra|]. rewrite !E2. split; [rewrite X1; unfold crossp; ring|]. split; [unfold s; set (k := g * crossp x y) in *; clearbody k; field; lra|].
  intros z Hz. rewrite E2. destruct (Rle_lt_dec 0 (g * crossp x z)) as [P|P].
  - assert (0 <= s * (g * crossp x z)) by (apply Rmult_le_pos; auto). specialize (L1 z Hz). lra.
  - assert (Q : s <= (dotp d1 z - 1) / - (g * crossp x z)) by (apply Ly; apply Il; auto).
    assert (Q2 : s * - (g * crossp x z) <= (dotp d1 z - 1) / - (g * crossp x z) * - (g * crossp x z)) by (apply Rmult_le_compat_r; lra).
    set (k := g * crossp x z) in *; clearbody k. replace ((dotp d1 z - 1) / - k * - k) with (dotp d1 z - 1) in Q2 by (field; lra). lra.
Qed.
Lemma span : not_parallel A B -> exists m1 m2, In m1 M /\ In m2 M /\ crossp m1 m2 <> 0.
Proof.
  intros (e & f & He & Hf & C).
  assert (a0 : exists a, In a A) by (destruct A as [|a ?]; [congruence|exists a; cbn; auto]). assert (b0 : exists b, In b B) by (destruct B as [|b ?]; [congruence|exists b; cbn; auto]).
  destruct a0 as (a0 & Ha0). destruct b0 as (b0 & Hb0).
  assert (D : forall g, difference A B g -> exists p q, In p M /\ In q M /\ g = subp p q).
  { intros g (v & w & [(Hv & Hw)|(Hv & Hw)] & ->).
    - exists (subp v b0), (subp w b0). split; [apply in_diffs; eauto|]. split; [apply in_diffs; eauto|]. unfold subp. cbn [fst snd]. f_equal; ring.
    - exists (subp a0 w), (subp a0 v). split; [apply in_diffs; eauto|]. split; [apply in_diffs; eauto|]. unfold subp. cbn [fst snd]. f_equal; ring. }
  apply D in He. apply D in Hf. destruct He as (p & q & Hp & Hq & ->). destruct Hf as (r & s & Hr & Hs & ->). fold (crossp (subp p q) (subp r s)) in C.
  destruct (Req_dec (crossp p r) 0) as [Z1|]; [|eauto 8]. destruct (Req_dec (crossp p s) 0) as [Z2|]; [|eauto 8]. destruct (Req_dec (crossp q r) 0) as [Z3|]; [|eauto 8]. destruct (Req_dec (crossp q s) 0) as [Z4|]; [|eauto 8].
  exfalso. apply C. replace (crossp (subp p q) (subp r s)) with (crossp p r - crossp p s - crossp q r + crossp q s) by (clear; uv; ring). lra.
Qed.
Lemma sat_complete : not_parallel A B -> ~ collide A B -> exists v w, (In v A /\ In w A \/ In v B /\ In w B) /\ sepx (axis v w).
Proof.
  intros NP NC. destruct (gjk_ok A B NA NB _ (le_n _)) as (r & _ & [(-> & d & Hd)|(s0 & s1 & s2 & -> & H0 & H1 & H2 & HH)]).
  2:{ exfalso. apply NC. apply collide_of. eapply hull_mono; [|exact HH]. intros y [->|[->| ->]]; auto. }
  destruct (corner (- fst d, - snd d)) as (u & x & y & Hx & Hy & Cxy & Ux & Uy & Um); [intros m Hm; specialize (Hd m Hm); uv; lra|apply span; auto|].
  pose proof Hx as Hx'. pose proof Hy as Hy'. apply in_diffs in Hx'. destruct Hx' as (a & b & Ha & Hb & Ex). apply in_diffs in Hy'. destruct Hy' as (a' & b' & Ha' & Hb' & Ey).
  assert (SB : forall p q, dotp u (subp p q) = dotp u p - dotp u q) by (intros; clear; uv; ring).
  assert (I1 : In (subp a' b) M) by (apply in_diffs; eauto). assert (I2 : In (subp a b') M) by (apply in_diffs; eauto). apply Um in I1. apply Um in I2.
  rewrite Ex in Ux. rewrite Ey in Uy. rewrite SB in *.
  assert (K : forall v w, dotp u (subp v w) = 0 -> subp v w <> (0, 0) -> sepx (axis v w)).
  { intros v w E N. pose proof (dotp_pos _ N) as P. set (q := dotp u (- snd (subp v w), fst (subp v w))).
    assert (Q : forall m, In m M -> 0 < q * - dotp (axis v w) m).
    { intros m Hm. pose proof (side_eq u (subp v w) m E) as S. fold q in S. replace (- dotp (axis v w) m) with (crossp (subp v w) m) by (unfold axis; clear; uv; ring). rewrite <- S. apply Rmult_lt_0_compat; auto. specialize (Um m Hm). lra. }
    destruct (Rle_lt_dec q 0) as [L|L].
    - right. intros m Hm. specialize (Q m Hm). destruct (Rle_lt_dec (dotp (axis v w) m) 0) as [W|]; auto. assert (0 <= (- q) * (- dotp (axis v w) m)) by (apply Rmult_le_pos; lra). lra.
    - left. intros m Hm. specialize (Q m Hm). destruct (Rle_lt_dec 0 (dotp (axis v w) m)) as [W|]; auto. assert (0 <= q * dotp (axis v w) m) by (apply Rmult_le_pos; lra). lra. }
  destruct (Req_dec (dotp (subp a a') (subp a a')) 0) as [Z|Z].
  - exists b, b'. split; [auto|]. apply K; [rewrite SB; lra|]. intros E. apply Cxy. apply dotp_zero in Z.
    assert (x = y) by (rewrite Ex, Ey; unfold subp in *; injection Z; injection E; intros; f_equal; lra). rewrite <- H. unfold crossp. ring.
  - exists a, a'. split; [auto|]. apply K; [rewrite SB; lra|]. intros E. apply Z. rewrite E. unfold dotp. cbn [fst snd]. ring.
Qed.
End Sat.
