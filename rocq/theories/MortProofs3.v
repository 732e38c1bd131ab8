From Coq Require Import List Arith Bool ZArith NArith Lia Permutation.
Import ListNotations.
From Verif Require Import Imp MortModel MortSpec MortProofs1 MortProofs2.
Open Scope nat_scope.

Definition nd (v : list bnode) (j : nat) : bnode := nth j v bnode0.

Lemma vmod_eq : forall (v : list bnode) i f, i < length v -> vmod v i f = Some (upd v i (f (nd v i))).
Proof. intros. unfold vmod. rewrite (vget_nth _ bnode0) by auto. cbn [bind]. rewrite vset_upd by auto. auto. Qed.

Lemma wp_parent : forall v i p (Q : list bnode -> Prop), i < length v ->
  (forall v', length v' = length v -> (forall j, iparent (nd v' j) = if j =? i then p else iparent (nd v j)) ->
     (forall j, ichild0 (nd v' j) = ichild0 (nd v j)) -> (forall j, ichild1 (nd v' j) = ichild1 (nd v j)) -> Q v') ->
  wp (vmod v i (set_parent p)) Q.
Proof.
  intros v i p Q Hi H. rewrite vmod_eq by auto. apply wp_some. apply H; [apply upd_length|..];
  intros j; unfold nd; destruct (Nat.eqb_spec j i) as [->|]; rewrite ?nth_upd_same, ?nth_upd_other by auto; auto.
Qed.
Lemma wp_child0 : forall v i p (Q : list bnode -> Prop), i < length v ->
  (forall v', length v' = length v -> (forall j, iparent (nd v' j) = iparent (nd v j)) ->
     (forall j, ichild0 (nd v' j) = if j =? i then p else ichild0 (nd v j)) -> (forall j, ichild1 (nd v' j) = ichild1 (nd v j)) -> Q v') ->
  wp (vmod v i (set_child0 p)) Q.
Proof.
  intros v i p Q Hi H. rewrite vmod_eq by auto. apply wp_some. apply H; [apply upd_length|..];
  intros j; unfold nd; destruct (Nat.eqb_spec j i) as [->|]; rewrite ?nth_upd_same, ?nth_upd_other by auto; auto.
Qed.
Lemma wp_child1 : forall v i p (Q : list bnode -> Prop), i < length v ->
  (forall v', length v' = length v -> (forall j, iparent (nd v' j) = iparent (nd v j)) ->
     (forall j, ichild0 (nd v' j) = ichild0 (nd v j)) -> (forall j, ichild1 (nd v' j) = if j =? i then p else ichild1 (nd v j)) -> Q v') ->
  wp (vmod v i (set_child1 p)) Q.
Proof.
  intros v i p Q Hi H. rewrite vmod_eq by auto. apply wp_some. apply H; [apply upd_length|..];
  intros j; unfold nd; destruct (Nat.eqb_spec j i) as [->|]; rewrite ?nth_upd_same, ?nth_upd_other by auto; auto.
Qed.

Section Tree.
Variable mc : list N.
Variable objs : list nat.
Local Notation n := (length mc).
Local Notation nni := (length mc - 1).
Hypothesis Hs : sorted_codes mc.
Hypothesis Hw : words32 mc.
Hypothesis Hn : 2 <= n.
Hypothesis Ho : length objs = n.

Definition info (i l g r : nat) : Prop := inner_ok mc l r /\ is_index mc i l r /\ is_min mc (g + 1) l r.

Lemma info_ij : forall i j l g r, info i l g r -> info j l g r -> i = j.
Proof.
  intros i j l g r ((A1 & A2 & A3) & I & _) (_ & J & _).
  destruct I as [(I1 & I2 & I3)|[(I1 & I2 & I3)|(I1 & I2 & I3)]], J as [(J1 & J2 & J3)|[(J1 & J2 & J3)|(J1 & J2 & J3)]]; subst; try lia.
  - exfalso. exact (blt_asym _ _ _ I3 J3).
  - exfalso. exact (blt_asym _ _ _ I3 J3).
Qed.

Lemma info_min : forall i j l g r l' r', info i l g r -> info j l' g r' -> i = j /\ l = l' /\ r = r'.
Proof.
  assert (L : forall i j l g r l' r', info i l g r -> info j l' g r' -> l' <= l).
  { intros i j l g r l' r' ((A1 & A2 & A3) & _ & M) ((B1 & B2 & B3) & _ & M').
    destruct M as (M1 & M2), M' as (M1' & M2').
    destruct (Nat.leb_spec l' l); auto. exfalso.
    apply (blt_asym mc (g + 1) l'); [apply M2; lia|apply B3; lia]. }
  assert (R : forall i j l g r l' r', info i l g r -> info j l' g r' -> r <= r').
  { intros i j l g r l' r' ((A1 & A2 & A3) & _ & M) ((B1 & B2 & B3) & _ & M').
    destruct M as (M1 & M2), M' as (M1' & M2').
    destruct (Nat.leb_spec r r'); auto. exfalso.
    apply (blt_asym mc (g + 1) (r' + 1)); [apply M2; lia|apply B3; lia]. }
  intros i j l g r l' r' A B.
  pose proof (L _ _ _ _ _ _ _ A B). pose proof (L _ _ _ _ _ _ _ B A). pose proof (R _ _ _ _ _ _ _ A B). pose proof (R _ _ _ _ _ _ _ B A).
  assert (l = l') by lia. assert (r = r') by lia. subst. split; auto. eapply info_ij; eauto.
Qed.

Lemma info_i : forall i l g r l' g' r', info i l g r -> info i l' g' r' -> l = l' /\ g = g' /\ r = r'.
Proof.
  intros i l g r l' g' r' A B.
  assert (E : l = l' /\ r = r').
  { destruct A as ((A1 & A2 & A3) & I & _), B as ((B1 & B2 & B3) & J & _).
    destruct I as [(I1 & I2 & I3)|[(I1 & I2 & I3)|(I1 & I2 & I3)]], J as [(J1 & J2 & J3)|[(J1 & J2 & J3)|(J1 & J2 & J3)]]; try lia.
    - assert (l' = l) by lia. clear J2; subst l'. split; auto.
      destruct (Nat.lt_trichotomy r r') as [X|[X|X]]; auto; exfalso.
      + apply (blt_asym mc _ _ I3). apply B3. lia.
      + apply (blt_asym mc _ _ J3). apply A3. lia.
    - exfalso. assert (r' = l) by lia. clear J1; subst r'. specialize (B3 l ltac:(lia)). destruct B3 as (_ & B3).
      specialize (A3 (l + 1) ltac:(lia)). destruct A3 as (A3 & _). exact (blt_asym mc _ _ A3 B3).
    - exfalso. assert (l' = r) by lia. clear J2; subst l'. specialize (A3 r ltac:(lia)). destruct A3 as (_ & A3).
      specialize (B3 (r + 1) ltac:(lia)). destruct B3 as (B3 & _). exact (blt_asym mc _ _ A3 B3).
    - assert (r' = r) by lia. clear J1; subst r'. split; auto.
      destruct (Nat.lt_trichotomy l l') as [X|[X|X]]; auto; exfalso.
      + apply (blt_asym mc _ _ J3). apply A3. lia.
      + apply (blt_asym mc _ _ I3). apply B3. lia. }
  destruct E as (-> & ->). split; auto. split; auto.
  destruct A as (_ & _ & M), B as (_ & _ & M'). pose proof (min_unique mc _ _ _ _ M M'). lia.
Qed.

Definition c0 (l g : nat) : nat := if l =? g then nni + g else g.
Definition c1 (g r : nat) : nat := if r =? g + 1 then nni + g + 1 else g + 1.

Lemma info_bounds : forall i l g r, info i l g r -> i < nni /\ l <= g /\ g < r /\ r < n /\
   (c0 l g < nni -> l < g /\ c0 l g = g) /\ (nni <= c0 l g -> l = g /\ c0 l g = nni + g) /\
   (c1 g r < nni -> g + 1 < r /\ c1 g r = g + 1) /\ (nni <= c1 g r -> r = g + 1 /\ c1 g r = nni + g + 1).
Proof.
  intros i l g r ((A1 & A2 & A3) & I & M). destruct M as (M1 & M2). unfold is_index in I.  unfold c0, c1.
  split; [lia|]. destruct (Nat.eqb_spec l g), (Nat.eqb_spec r (g + 1)); lia.
Qed.

Lemma c0_inj : forall i j l g r l' g' r', info i l g r -> info j l' g' r' -> c0 l g = c0 l' g' -> i = j.
Proof.
  intros i j l g r l' g' r' A B E.
  pose proof (info_bounds _ _ _ _ A). pose proof (info_bounds _ _ _ _ B).
  assert (g = g') by (destruct (Nat.ltb_spec (c0 l g) nni); lia). subst. exact (proj1 (info_min _ _ _ _ _ _ _ A B)).
Qed.
Lemma c1_inj : forall i j l g r l' g' r', info i l g r -> info j l' g' r' -> c1 g r = c1 g' r' -> i = j.
Proof.
  intros i j l g r l' g' r' A B E.
  pose proof (info_bounds _ _ _ _ A). pose proof (info_bounds _ _ _ _ B).
  assert (g = g') by (destruct (Nat.ltb_spec (c1 g r) nni); lia). subst. exact (proj1 (info_min _ _ _ _ _ _ _ A B)).
Qed.
Lemma c0_c1 : forall i j l g r l' g' r', info i l g r -> info j l' g' r' -> c0 l g <> c1 g' r'.
Proof.
  intros i j l g r l' g' r' A B E.
  pose proof (info_bounds _ _ _ _ A) as X. pose proof (info_bounds _ _ _ _ B) as Y.
  destruct A as ((A1 & A2 & A3) & _ & M), B as ((B1 & B2 & B3) & _ & M').
  destruct M as (M1 & M2), M' as (M1' & M2').
  destruct (Nat.ltb_spec (c0 l g) nni) as [L|L].
  - assert (l < g /\ g = g' + 1 /\ g < r') by lia. destruct H as (H1 & H2 & H3). subst g.
    apply (blt_asym mc (g' + 1 + 1) (g' + 1)); [apply M2; lia|apply M2'; lia].
  - assert (l = g /\ g = g' + 1 /\ r' = g) by lia. destruct H as (H1 & H2 & H3). subst l g r'.
    apply (blt_asym mc (g' + 1 + 1) (g' + 1)).
    + apply B3. lia.
    + apply A3. lia.
Qed.

Definition Inv (k : nat) (v : list bnode) : Prop :=
  length v = 2 * n - 1 /\ iparent (nd v 0) = None /\
  forall i l g r, i < k -> info i l g r ->
    ichild0 (nd v i) = Some (c0 l g) /\ ichild1 (nd v i) = Some (c1 g r) /\
    iparent (nd v (c0 l g)) = Some i /\ iparent (nd v (c1 g r)) = Some i /\
    (l = g -> ichild0 (nd v (c0 l g)) = Some (nth g objs 0) /\ ichild1 (nd v (c0 l g)) = None) /\
    (r = g + 1 -> ichild0 (nd v (c1 g r)) = Some (nth (g + 1) objs 0) /\ ichild1 (nd v (c1 g r)) = None).

(** What one pass of the loop writes. *)
Definition step_ok (k l g r : nat) (v v' : list bnode) : Prop :=
  length v' = length v /\
  (forall j, iparent (nd v' j) = if (j =? c0 l g) || (j =? c1 g r) then Some k else iparent (nd v j)) /\
  (forall j, ichild0 (nd v' j) = if j =? k then Some (c0 l g) else if (l =? g) && (j =? c0 l g) then Some (nth g objs 0)
       else if (r =? g + 1) && (j =? c1 g r) then Some (nth (g + 1) objs 0) else ichild0 (nd v j)) /\
  (forall j, ichild1 (nd v' j) = if j =? k then Some (c1 g r) else if (l =? g) && (j =? c0 l g) then None
       else if (r =? g + 1) && (j =? c1 g r) then None else ichild1 (nd v j)).

Lemma Inv_step : forall k l g r v v', info k l g r -> Inv k v -> step_ok k l g r v v' -> Inv (S k) v'.
Proof.
  intros k l g r v v' HI (V1 & V2 & V3) (S1 & S2 & S3 & S4).
  pose proof (info_bounds _ _ _ _ HI) as X.
  assert (X0 : nni <= c0 l g \/ (l <> g /\ c0 l g = g)) by lia.
  split; [lia|split].
  - rewrite S2. destruct (Nat.eqb_spec 0 (c0 l g)); [lia|]. destruct (Nat.eqb_spec 0 (c1 g r)); [lia|]. auto.
  - intros i l' g' r' Hi HI'.
    pose proof (info_bounds _ _ _ _ HI') as Y.
    destruct (Nat.eq_dec i k) as [->|Ne].
    + destruct (info_i _ _ _ _ _ _ _ HI HI') as (<- & <- & <-).
      pose proof (c0_c1 _ _ _ _ _ _ _ _ HI HI) as N01.
      rewrite S3, S4, Nat.eqb_refl. split; [auto|split; [auto|]].
      rewrite !S2, !Nat.eqb_refl, orb_true_r. split; [auto|split; [auto|]]. split.
      * intros E. rewrite S3, S4. destruct (Nat.eqb_spec (c0 l g) k); [lia|].
        rewrite (proj2 (Nat.eqb_eq l g) E), Nat.eqb_refl. auto.
      * intros E. rewrite S3, S4. destruct (Nat.eqb_spec (c1 g r) k); [lia|].
        destruct (Nat.eqb_spec (c1 g r) (c0 l g)); [congruence|]. rewrite andb_false_r.
        rewrite (proj2 (Nat.eqb_eq r (g + 1)) E), Nat.eqb_refl. auto.
    + destruct (V3 i l' g' r' ltac:(lia) HI') as (A & B & C & F & G & H).
      assert (N1 : c0 l' g' <> c0 l g) by (intros E; apply Ne; eapply c0_inj; eauto).
      assert (N2 : c1 g' r' <> c1 g r) by (intros E; apply Ne; eapply c1_inj; eauto).
      assert (N3 : c0 l' g' <> c1 g r) by (eapply c0_c1; eauto).
      assert (N4 : c1 g' r' <> c0 l g) by (apply not_eq_sym; eapply c0_c1; eauto).
      assert (Z0 : (l =? g) && (i =? c0 l g) = false).
      { destruct (Nat.eqb_spec l g); auto. destruct (Nat.eqb_spec i (c0 l g)); auto. lia. }
      assert (Z1 : (r =? g + 1) && (i =? c1 g r) = false).
      { destruct (Nat.eqb_spec r (g + 1)); auto. destruct (Nat.eqb_spec i (c1 g r)); auto. lia. }
      rewrite (S3 i), (S4 i). destruct (Nat.eqb_spec i k); [lia|]. rewrite Z0, Z1.
      split; [auto|split; [auto|]]. rewrite !S2.
      destruct (Nat.eqb_spec (c0 l' g') (c0 l g)); [congruence|]. destruct (Nat.eqb_spec (c0 l' g') (c1 g r)); [congruence|].
      destruct (Nat.eqb_spec (c1 g' r') (c0 l g)); [congruence|]. destruct (Nat.eqb_spec (c1 g' r') (c1 g r)); [congruence|].
      cbn [orb]. split; [auto|split; [auto|]]. split.
      * intros E. rewrite S3, S4. destruct (Nat.eqb_spec (c0 l' g') k); [lia|].
        destruct (Nat.eqb_spec (c0 l' g') (c0 l g)); [congruence|]. destruct (Nat.eqb_spec (c0 l' g') (c1 g r)); [congruence|].
        rewrite !andb_false_r. auto.
      * intros E. rewrite S3, S4. destruct (Nat.eqb_spec (c1 g' r') k); [lia|].
        destruct (Nat.eqb_spec (c1 g' r') (c0 l g)); [congruence|]. destruct (Nat.eqb_spec (c1 g' r') (c1 g r)); [congruence|].
        rewrite !andb_false_r. auto.
Qed.

Lemma build_wp : forall nodes, wp (BVHTopology_Morton nodes objs mc) (Inv nni).
Proof.
  intros nodes. unfold BVHTopology_Morton. cbv zeta.
  apply wp_bind. apply wp_assertb; [apply Nat.eqb_eq; auto|].
  apply wp_bind. apply wp_assertb; [apply negb_true_iff, Nat.eqb_neq; lia|].
  apply wp_bind. apply wp_parent; [rewrite vresize_length; lia|].
  intros v0 L0 P0 _ _. rewrite vresize_length in L0.
  apply (wp_forn _ Inv).
  - lia.
  - split; [lia|split; [rewrite P0; auto|]]. intros; lia.
  - intros k v Hk HI. pose proof HI as (V1 & _).
    apply wp_bind. eapply wp_mono; [apply DR_spec; auto; lia|].
    intros [l r] (A & B). cbn [bind]. apply wp_bind.
    pose proof A as (A1 & A2 & _).
    eapply wp_mono; [apply FS_spec; auto|]. intros o (g & -> & M). cbn beta iota.
    assert (IN : info k l g r) by (split; [auto|split; auto]).
    pose proof (info_bounds _ _ _ _ IN) as X.
    assert (HQ : forall v', step_ok k l g r v v' -> Inv (S k) v') by (intros; eapply Inv_step; eauto).
    unfold c0, c1 in X.
    destruct (Nat.eqb_spec l g) as [E0|E0]; apply wp_bind.
    + apply wp_bind. apply wp_child0; [lia|]. intros v1 L1 P1 C1 D1.
      apply wp_bind. apply wp_parent; [lia|]. intros v2 L2 P2 C2 D2.
      rewrite (vget_nth _ 0) by lia. cbn [bind].
      apply wp_bind. apply wp_child0; [lia|]. intros v3 L3 P3 C3 D3.
      apply wp_child1; [lia|]. intros v4 L4 P4 C4 D4.
      destruct (Nat.eqb_spec r (g + 1)) as [E1|E1].
      * apply wp_bind. apply wp_child1; [lia|]. intros v5 L5 P5 C5 D5.
        apply wp_bind. apply wp_parent; [lia|]. intros v6 L6 P6 C6 D6.
        rewrite (vget_nth _ 0) by lia. cbn [bind].
        apply wp_bind. apply wp_child0; [lia|]. intros v7 L7 P7 C7 D7.
        apply wp_child1; [lia|]. intros v8 L8 P8 C8 D8.
        apply HQ. unfold step_ok, c0, c1. rewrite (proj2 (Nat.eqb_eq _ _) E0), (proj2 (Nat.eqb_eq _ _) E1).
        split; [lia|]. split; [|split]; intros j.
        -- rewrite P8, P7, P6, P5, P4, P3, P2, P1. destruct (Nat.eqb_spec j (nni + g)), (Nat.eqb_spec j (nni + g + 1)); auto.
        -- rewrite C8, C7, C6, C5, C4, C3, C2, C1.
           destruct (Nat.eqb_spec j k), (Nat.eqb_spec j (nni + g)), (Nat.eqb_spec j (nni + g + 1)); auto; lia.
        -- rewrite D8, D7, D6, D5, D4, D3, D2, D1.
           destruct (Nat.eqb_spec j k), (Nat.eqb_spec j (nni + g)), (Nat.eqb_spec j (nni + g + 1)); auto; lia.
      * apply wp_bind. apply wp_child1; [lia|]. intros v5 L5 P5 C5 D5.
        apply wp_parent; [lia|]. intros v6 L6 P6 C6 D6.
        apply HQ. unfold step_ok, c0, c1. rewrite (proj2 (Nat.eqb_eq _ _) E0), (proj2 (Nat.eqb_neq _ _) E1).
        split; [lia|]. split; [|split]; intros j.
        -- rewrite P6, P5, P4, P3, P2, P1. destruct (Nat.eqb_spec j (nni + g)), (Nat.eqb_spec j (g + 1)); auto.
        -- rewrite C6, C5, C4, C3, C2, C1.
           destruct (Nat.eqb_spec j k), (Nat.eqb_spec j (nni + g)); auto; lia.
        -- rewrite D6, D5, D4, D3, D2, D1.
           destruct (Nat.eqb_spec j k), (Nat.eqb_spec j (nni + g)); auto; lia.
    + apply wp_bind. apply wp_child0; [lia|]. intros v1 L1 P1 C1 D1.
      apply wp_parent; [lia|]. intros v4 L4 P4 C4 D4.
      destruct (Nat.eqb_spec r (g + 1)) as [E1|E1].
      * apply wp_bind. apply wp_child1; [lia|]. intros v5 L5 P5 C5 D5.
        apply wp_bind. apply wp_parent; [lia|]. intros v6 L6 P6 C6 D6.
        rewrite (vget_nth _ 0) by lia. cbn [bind].
        apply wp_bind. apply wp_child0; [lia|]. intros v7 L7 P7 C7 D7.
        apply wp_child1; [lia|]. intros v8 L8 P8 C8 D8.
        apply HQ. unfold step_ok, c0, c1. rewrite (proj2 (Nat.eqb_neq _ _) E0), (proj2 (Nat.eqb_eq _ _) E1).
        split; [lia|]. split; [|split]; intros j.
        -- rewrite P8, P7, P6, P5, P4, P1. destruct (Nat.eqb_spec j g), (Nat.eqb_spec j (nni + g + 1)); auto.
        -- rewrite C8, C7, C6, C5, C4, C1.
           destruct (Nat.eqb_spec j k), (Nat.eqb_spec j (nni + g + 1)); auto; lia.
        -- rewrite D8, D7, D6, D5, D4, D1.
           destruct (Nat.eqb_spec j k), (Nat.eqb_spec j (nni + g + 1)); auto; lia.
      * apply wp_bind. apply wp_child1; [lia|]. intros v5 L5 P5 C5 D5.
        apply wp_parent; [lia|]. intros v6 L6 P6 C6 D6.
        apply HQ. unfold step_ok, c0, c1. rewrite (proj2 (Nat.eqb_neq _ _) E0), (proj2 (Nat.eqb_neq _ _) E1).
        split; [lia|]. split; [|split]; intros j.
        -- rewrite P6, P5, P4, P1. destruct (Nat.eqb_spec j g), (Nat.eqb_spec j (g + 1)); auto.
        -- rewrite C6, C5, C4, C1. destruct (Nat.eqb_spec j k); auto.
        -- rewrite D6, D5, D4, D1. destruct (Nat.eqb_spec j k); auto.
  - auto.
Qed.

(** Every index has its interval, and every well-bounded interval its index. *)
Lemma info_exists : forall i, i < nni -> exists l g r, info i l g r.
Proof.
  intros i Hi. destruct (wp_ex _ _ _ (DR_spec mc Hs Hw i Hn Hi)) as ((l & r) & _ & A & B).
  destruct A as (A1 & A2 & A3). destruct (min_exists mc l r A1) as (m & M).
  exists l, (m - 1), r. split; [split; auto|split; auto]. replace (m - 1 + 1) with m; auto. destruct M. lia.
Qed.

Definition ids (i l r : nat) : list nat := seq (if i =? r then l + 1 else l) (r - l) ++ seq (nni + l) (r - l + 1).

Lemma info_left : forall i l g r, info i l g r -> l < g -> exists g', info g l g' g.
Proof.
  intros i l g r ((A1 & A2 & A3) & _ & (M1 & M2)) H.
  destruct (min_exists mc l g H) as (m & M). exists (m - 1).
  split; [split; [lia|split; [lia|]]|split].
  - intros k Hk. split; [apply A3; lia|apply M2; lia].
  - right. right. split; [auto|split; [lia|]]. apply A3. lia.
  - replace (m - 1 + 1) with m; auto. destruct M. lia.
Qed.
Lemma info_right : forall i l g r, info i l g r -> g + 1 < r -> exists g', info (g + 1) (g + 1) g' r.
Proof.
  intros i l g r ((A1 & A2 & A3) & _ & (M1 & M2)) H.
  destruct (min_exists mc (g + 1) r H) as (m & M). exists (m - 1).
  split; [split; [lia|split; [lia|]]|split].
  - intros k Hk. split; [apply M2; lia|apply A3; lia].
  - right. left. split; [lia|split; [lia|]]. apply A3. lia.
  - replace (m - 1 + 1) with m; auto. destruct M. lia.
Qed.

Lemma nd_nth_error : forall v j, j < length v -> nth_error v j = Some (nd v j).
Proof. intros. unfold nd. apply nth_error_nth'. auto. Qed.
Lemma bnode_eta : forall b a x y, iparent b = a -> ichild0 b = x -> ichild1 b = y -> b = mkB a x y.
Proof. intros [a x y]; cbn; intros; subst; auto. Qed.

Lemma tree_of : forall v, Inv nni v -> forall d i l g r, r - l <= d -> info i l g r ->
  exists t, represents v (iparent (nd v i)) t /\ root t = i /\ objects t = map (fun k => nth k objs 0) (seq l (r - l + 1)) /\
            Permutation (node_ids t) (seq (if i =? l then l else l + 1) (r - l) ++ seq (nni + l) (r - l + 1)).
Proof.
  intros v (V1 & V2 & V3). induction d; intros i l g r Hd IN.
  { destruct (info_bounds _ _ _ _ IN). lia. }
  pose proof (info_bounds _ _ _ _ IN) as X.
  destruct (V3 i l g r ltac:(lia) IN) as (A & B & C & F & G & H).
  assert (TL : exists t, represents v (Some i) t /\ root t = c0 l g /\ objects t = map (fun k => nth k objs 0) (seq l (g - l + 1)) /\
            Permutation (node_ids t) (seq (l + 1) (g - l) ++ seq (nni + l) (g - l + 1))).
  { destruct (Nat.eq_dec l g) as [E|E].
    - destruct (G E) as (G1 & G2). exists (BLeaf (c0 l g) (nth g objs 0)). cbn [represents root objects node_ids].
      rewrite nd_nth_error by lia. split; [f_equal; apply bnode_eta; auto|]. split; [auto|].
      replace (g - l) with 0 by lia. cbn [seq app map Nat.add]. subst g. split; [auto|].
      assert (c0 l l = nni + l) by lia. rewrite H0. auto.
    - destruct (info_left _ _ _ _ IN ltac:(lia)) as (g' & IN').
      destruct (IHd g l g' g ltac:(lia) IN') as (t & T1 & T2 & T3 & T4).
      assert (E0 : c0 l g = g) by lia. rewrite E0 in C. rewrite C in T1. exists t. split; [auto|split; [lia|split; [auto|]]].
      rewrite (proj2 (Nat.eqb_neq g l)) in T4 by lia. auto. }
  assert (TR : exists t, represents v (Some i) t /\ root t = c1 g r /\ objects t = map (fun k => nth k objs 0) (seq (g + 1) (r - g)) /\
            Permutation (node_ids t) (seq (g + 1) (r - (g + 1)) ++ seq (nni + (g + 1)) (r - g))).
  { destruct (Nat.eq_dec r (g + 1)) as [E|E].
    - destruct (H E) as (G1 & G2). exists (BLeaf (c1 g r) (nth (g + 1) objs 0)). cbn [represents root objects node_ids].
      rewrite nd_nth_error by lia. split; [f_equal; apply bnode_eta; auto|]. split; [auto|].
      replace (r - g) with 1 by lia. replace (r - (g + 1)) with 0 by lia. cbn [seq app map].
      assert (c1 g r = nni + (g + 1)) by lia. rewrite H0. auto.
    - destruct (info_right _ _ _ _ IN ltac:(lia)) as (g' & IN').
      destruct (IHd (g + 1) (g + 1) g' r ltac:(lia) IN') as (t & T1 & T2 & T3 & T4).
      assert (E0 : c1 g r = g + 1) by lia. rewrite E0 in F. rewrite F in T1. exists t. split; [auto|split; [lia|]].
      rewrite Nat.eqb_refl in T4. replace (r - (g + 1) + 1) with (r - g) in * by lia. auto. }
  destruct TL as (tl & L1 & L2 & L3 & L4), TR as (tr & R1 & R2 & R3 & R4).
  exists (BNode i tl tr). cbn [represents root objects node_ids].
  rewrite nd_nth_error by lia. split; [split; [|auto]|split; [auto|split]].
  - f_equal. apply bnode_eta; congruence.
  - rewrite L3, R3, <- map_app. f_equal. replace (r - l + 1) with ((g - l + 1) + (r - g)) by lia. rewrite (seq_app (g - l + 1) (r - g)). replace (l + (g - l + 1)) with (g + 1) by lia. auto.
  - rewrite L4, R4.
    assert (IX : i = l \/ (i = r /\ i <> l)).
    { destruct IN as ((A1 & A2 & A3) & I & _). unfold is_index in I. lia. }
    assert (P1 : Permutation (i :: (seq (l + 1) (g - l) ++ seq (g + 1) (r - (g + 1)))) (seq (if i =? l then l else l + 1) (r - l))).
    { assert (E : seq (l + 1) (g - l) ++ seq (g + 1) (r - (g + 1)) = seq (l + 1) (r - l - 1)).
      { replace (r - l - 1) with ((g - l) + (r - (g + 1))) by lia. rewrite (seq_app (g - l) (r - (g + 1))). replace (l + 1 + (g - l)) with (g + 1) by lia. auto. }
      rewrite E. destruct (Nat.eqb_spec i l) as [->|].
      - replace (r - l) with (S (r - l - 1)) by lia. cbn [seq]. replace (l + 1) with (S l) by lia. replace (S (r - l - 1) - 1) with (r - l - 1) by lia. apply Permutation_refl.
      - destruct IX as [|(-> & _)]; [lia|]. replace (r - l) with ((r - l - 1) + 1) at 2 by lia. rewrite seq_app. cbn [seq].
        replace (l + 1 + (r - l - 1)) with r by lia. apply Permutation_cons_append. }
    assert (P2 : seq (nni + l) (g - l + 1) ++ seq (nni + (g + 1)) (r - g) = seq (nni + l) (r - l + 1)).
    { replace (r - l + 1) with ((g - l + 1) + (r - g)) by lia. rewrite (seq_app (g - l + 1) (r - g)). replace (nni + l + (g - l + 1)) with (nni + (g + 1)) by lia. auto. }
    rewrite <- P1, <- P2. cbn [app]. constructor. rewrite <- !app_assoc. apply Permutation_app_head.
    rewrite !app_assoc. apply Permutation_app_tail. apply Permutation_app_comm.
Qed.

Lemma build_ok : forall nodes, exists nodes', BVHTopology_Morton nodes objs mc = Some nodes' /\ length nodes' = 2 * n - 1 /\
  exists t, represents nodes' None t /\ root t = 0 /\ objects t = objs /\ Permutation (node_ids t) (seq 0 (2 * n - 1)).
Proof.
  intros nodes. destruct (wp_ex _ _ _ (build_wp nodes)) as (v & E & HI). exists v. split; [auto|].
  split; [apply HI|].
  destruct (info_exists 0 ltac:(lia)) as (l & g & r & IN).
  assert (EE : l = 0 /\ r = n - 1).
  { destruct IN as ((A1 & A2 & A3) & I & M). unfold is_index in I.  lia. }
  destruct EE as (-> & ->).
  destruct (tree_of v HI _ 0 0 g (n - 1) (le_n _) IN) as (t & T1 & T2 & T3 & T4).
  pose proof HI as (_ & V2 & _). rewrite V2 in T1. exists t. split; [auto|split; [auto|split]].
  - rewrite T3. replace (n - 1 - 0 + 1) with (length objs) by lia. symmetry. apply list_ext with (d := 0).
    + rewrite map_length, seq_length. auto.
    + intros k Hk. rewrite nth_map_seq by auto. auto.
  - rewrite T4. cbn [Nat.eqb]. replace (n - 1 - 0) with nni by lia. rewrite Nat.add_0_r. 
    replace (nni + 1) with n by lia. rewrite <- (Nat.add_0_l nni) at 2. rewrite <- seq_app.
    replace (nni + n) with (2 * n - 1) by lia. apply Permutation_refl.
Qed.
End Tree.
