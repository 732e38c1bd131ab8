(** Looking around a point. *)
From Coq Require Import List Arith Lia Bool Relations.
Import ListNotations.
From Verif Require Import Imp DtriModel DtriSpec CollModel CollSpec FanModel FanSpec DtriProps DtriProofs1 DtriProofs2 DtriProofs4 CollProofs1 CollProofs2 CollProofs7.

Lemma forn_all : forall lo hi (f : nat -> option unit),
  forn lo hi (fun i _ => f i) tt = Some tt <-> forall i, lo <= i < hi -> f i = Some tt.
Proof.
  intros lo hi f. unfold forn. remember (hi - lo) as n eqn:En. revert lo En. induction n as [|n IH]; intros lo En.
  - split; auto. intros _ i Hi. lia.
  - cbn [forn_]. split.
    + intros H. destruct (f lo) as [[]|] eqn:E; [|discriminate]. cbn [bind] in H. rewrite (IH (S lo)) in H by lia.
      intros i Hi. destruct (Nat.eq_dec i lo) as [->|]; auto. apply H. lia.
    + intros H. rewrite H by lia. cbn [bind]. apply (IH (S lo)); [lia|]. intros i Hi. apply H. lia.
Qed.
Lemma assert_bind : forall {T} b (k : option T) r, (assertb b ;;; k) = Some r <-> b = true /\ k = Some r.
Proof. intros T [] k r; cbn; intuition discriminate. Qed.

Lemma gv_nx : forall m t i, t < length m -> gv (nth t m dtri0) ((i + 1) mod 3) = Some (V m t (nx i)).
Proof. intros. change ((i + 1) mod 3) with (nx i). rewrite gv_vtx by auto. reflexivity. Qed.
Lemma gv_pv : forall m t i, t < length m -> gv (nth t m dtri0) ((i + 2) mod 3) = Some (V m t (pv i)).
Proof. intros. change ((i + 2) mod 3) with (pv i). rewrite gv_vtx by auto. reflexivity. Qed.

(** AssertDTri is consistency of the triangles *)
Lemma FindAdj_inv : forall m t i k, t < length m -> i < 3 -> FindAdjEdgeIndex (nth t m dtri0) i m = Some k ->
  exists j, L m t i = Some j /\ j < length m /\ k < 3 /\ V m t (nx i) = V m j (pv k) /\ V m t (pv i) = V m j (nx k).
Proof.
  intros m t i k Ht Hi H. unfold FindAdjEdgeIndex in H. rewrite gv_nx, gv_pv in H by auto. cbn [bind] in H.
  apply assert_bind in H. destruct H as (_ & H). rewrite gs_lnk in H by auto. cbn [bind] in H.
  change (lnk (nth t m dtri0) i) with (L m t i) in H. destruct (L m t i) as [j|]; [|discriminate]. cbn [bind] in H.
  destruct (Nat.ltb_spec j (length m)) as [Hj|Hj].
  2: { unfold vget in H. rewrite (proj2 (nth_error_None m j)) in H by lia. discriminate. }
  exists j. rewrite (vget_nth _ dtri0) in H by auto. cbn [bind] in H.
  change (tv0 (nth j m dtri0)) with (V m j 0) in H. change (tv1 (nth j m dtri0)) with (V m j 1) in H. change (tv2 (nth j m dtri0)) with (V m j 2) in H.
  split; auto. split; auto.
  assert (K : forall a b c d, (a =? b) && (c =? d) = true -> a = b /\ c = d).
  { intros a b c d Q. apply andb_true_iff in Q. destruct Q as (Q1 & Q2). apply Nat.eqb_eq in Q1, Q2. auto. }
  destruct ((V m j 1 =? V m t (pv i)) && (V m j 2 =? V m t (nx i))) eqn:Q1;
    [apply K in Q1|destruct ((V m j 2 =? V m t (pv i)) && (V m j 0 =? V m t (nx i))) eqn:Q2;
    [apply K in Q2|destruct ((V m j 0 =? V m t (pv i)) && (V m j 1 =? V m t (nx i))) eqn:Q3; [apply K in Q3|discriminate]]];
    injection H as <-; (split; [lia|]).
  - change (pv 0) with 2. change (nx 0) with 1. intuition congruence.
  - change (pv 1) with 0. change (nx 1) with 2. intuition congruence.
  - change (pv 2) with 1. change (nx 2) with 0. intuition congruence.
Qed.

Lemma edge_assert : forall m t i, t < length m -> i < 3 ->
  (forall a b, a < 3 -> b < 3 -> V m t a = V m t b -> a = b) ->
  (AssertDTri_edge m t i = Some tt -> forall j, L m t i = Some j -> j < length m /\ exists k, twin m t i j k).
Proof.
  intros m t i Ht Hi Hv H j Hj. unfold AssertDTri_edge in H. rewrite (vget_nth _ dtri0) in H by auto. cbn [bind] in H.
  rewrite gs_lnk in H by auto. cbn [bind] in H. change (lnk (nth t m dtri0) i) with (L m t i) in H. rewrite Hj in H.
  apply assert_bind in H. destruct H as (H0 & H). apply Nat.ltb_lt in H0.
  destruct (FindAdjEdgeIndex (nth t m dtri0) i m) as [k|] eqn:F; [|discriminate]. cbn [bind] in H.
  destruct (FindAdj_inv m t i k Ht Hi F) as (j' & E1 & E2 & Hk & E3 & E4). rewrite Hj in E1. injection E1 as <-.
  rewrite (vget_nth _ dtri0) in H by auto. cbn [bind] in H. rewrite gs_lnk in H by auto. cbn [bind] in H.
  change (lnk (nth j m dtri0) k) with (L m j k) in H. apply assert_bind in H. destruct H as (H1 & _).
  destruct (onat_eqP (L m j k) (Some t)) as [E5|]; [|discriminate].
  split; auto. exists k. repeat split; auto.
Qed.
Lemma edge_assert_ok : forall m t i, tri_ok m -> t < length m -> i < 3 -> AssertDTri_edge m t i = Some tt.
Proof.
  intros m t i Hm Ht Hi. unfold AssertDTri_edge. rewrite (vget_nth _ dtri0) by auto. cbn [bind].
  rewrite gs_lnk by auto. cbn [bind]. change (lnk (nth t m dtri0) i) with (L m t i). destruct (L m t i) as [j|] eqn:Ej; auto.
  pose proof (L_lt m t i j Hm Ht Hi Ej) as Hj. destruct (L_twin m t i j Hm Ht Hi Ej) as (k & T). pose proof T as (_ & Hk & _ & L2 & E1 & E2).
  apply assert_bind. split; [apply Nat.ltb_lt; auto|].
  rewrite (FindAdj_loc m t i j k) by (auto; apply (Hm _); auto). cbn [bind]. rewrite (vget_nth _ dtri0) by auto. cbn [bind].
  rewrite gs_lnk by auto. cbn [bind]. change (lnk (nth j m dtri0) k) with (L m j k). rewrite L2.
  apply assert_bind. split. { destruct (onat_eqP (Some t) (Some t)); auto. }
  rewrite gv_nx, gv_pv by auto. cbn [bind]. apply assert_bind. split; [apply Nat.eqb_eq; auto|].
  rewrite gv_nx, gv_pv by auto. cbn [bind]. apply assert_bind. split; [apply Nat.eqb_eq; auto|auto].
Qed.

Lemma AssertDTri_iff : forall m, AssertDTri m = Some tt <-> tri_ok m.
Proof.
  intros m. unfold AssertDTri. rewrite (forn_all 0 (length m) _). split.
  - intros H t Ht. specialize (H t ltac:(lia)). rewrite (vget_nth _ dtri0) in H by auto. cbn [bind] in H.
    repeat (apply assert_bind in H; let Q := fresh "Q" in destruct H as (Q & H)).
    change (tv0 (nth t m dtri0)) with (V m t 0) in *. change (tv1 (nth t m dtri0)) with (V m t 1) in *. change (tv2 (nth t m dtri0)) with (V m t 2) in *.
    change (ts0 (nth t m dtri0)) with (L m t 0) in *. change (ts1 (nth t m dtri0)) with (L m t 1) in *. change (ts2 (nth t m dtri0)) with (L m t 2) in *.
    apply negb_true_iff, Nat.eqb_neq in Q, Q0, Q1.
    assert (K : forall x y z, negb (onat_eq x y) || onat_eq z None = true -> x = y -> z = None).
    { intros x y z Hz ->. destruct (onat_eqP y y); [|congruence]. cbn in Hz. destruct (onat_eqP z None); congruence. }
    pose proof (K _ _ _ Q2) as K2. pose proof (K _ _ _ Q3) as K3. pose proof (K _ _ _ Q4) as K4. clear Q2 Q3 Q4 K.
    assert (Hv : forall a b, a < 3 -> b < 3 -> V m t a = V m t b -> a = b) by (intros a b Ha Hb E; c3 a; c3 b; congruence || auto).
    split; [auto|]. split.
    + intros a b Ha Hb E N. c3 a; c3 b; auto; exfalso; apply N; first [solve [auto]|rewrite E; solve [auto]].
    + intros i j Hi. apply edge_assert; auto. apply (proj1 (forn_all 0 3 (fun i => AssertDTri_edge m t i)) H). lia.
  - intros Hm t Ht. assert (Htl : t < length m) by lia. rewrite (vget_nth _ dtri0) by auto. cbn [bind].
    destruct (Hm t Htl) as (Hv & Hl & _).
    change (tv0 (nth t m dtri0)) with (V m t 0). change (tv1 (nth t m dtri0)) with (V m t 1). change (tv2 (nth t m dtri0)) with (V m t 2).
    change (ts0 (nth t m dtri0)) with (L m t 0). change (ts1 (nth t m dtri0)) with (L m t 1). change (ts2 (nth t m dtri0)) with (L m t 2).
    assert (K : forall a b c, a < 3 -> b < 3 -> c < 3 -> a <> b -> (c = a \/ c = b) -> negb (onat_eq (L m t a) (L m t b)) || onat_eq (L m t c) None = true).
    { intros a b c Ha Hb Hc N Q. destruct (onat_eqP (L m t a) (L m t b)) as [E|]; auto. cbn [negb orb].
      destruct (onat_eqP (L m t c) None) as [|N']; auto. exfalso. apply N. apply Hl; auto. destruct Q; subst; congruence. }
    assert (K' : forall a b, a < 3 -> b < 3 -> a <> b -> negb (V m t a =? V m t b) = true).
    { intros a b Ha Hb N. apply negb_true_iff, Nat.eqb_neq. intros E. apply N. apply Hv; auto. }
    repeat (apply assert_bind; split; [first [apply K'; lia|apply K; lia]|]).
    apply (forn_all 0 3 (fun i => AssertDTri_edge m t i)). intros i Hi. apply edge_assert_ok; auto. lia.
Qed.

Lemma AssertMesh_iff : forall po m, AssertMeshDTri po m = Some tt <->
  (forall t, t < length m -> V m t 0 < length po) /\
  (forall p t, p < length po -> pe (nth p po (mkP None 0)) = Some t ->
     t < length m /\ pd (nth p po (mkP None 0)) < 3 /\ V m t (pd (nth p po (mkP None 0))) = p).
Proof.
  intros po m. unfold AssertMeshDTri.
  set (f1 := fun itri => tri <- vget m itri ;; assertb (tv0 tri <? length po) ;;; assertb (tv0 tri <? length po) ;;; assertb (tv0 tri <? length po) ;;; Some tt).
  set (f2 := fun ipoin => p <- vget po ipoin ;; match pe p with None => Some tt | Some itri0 =>
      assertb (itri0 <? length m) ;;; assertb (pd p <? 3) ;;; t <- vget m itri0 ;; v <- gv t (pd p) ;; assertb (v =? ipoin) ;;; Some tt end).
  change ((_ <- forn 0 (length m) (fun i _ => f1 i) tt ;; forn 0 (length po) (fun i _ => f2 i) tt) = Some tt <->
    (forall t, t < length m -> V m t 0 < length po) /\
  (forall p t, p < length po -> pe (nth p po (mkP None 0)) = Some t ->
     t < length m /\ pd (nth p po (mkP None 0)) < 3 /\ V m t (pd (nth p po (mkP None 0))) = p)).
  assert (F1 : forall t, t < length m -> (f1 t = Some tt <-> V m t 0 < length po)).
  { intros t Ht. unfold f1. rewrite (vget_nth _ dtri0) by auto. cbn [bind]. rewrite !assert_bind, Nat.ltb_lt.
    change (tv0 (nth t m dtri0)) with (V m t 0). tauto. }
  assert (F2 : forall p, p < length po -> (f2 p = Some tt <-> forall t, pe (nth p po (mkP None 0)) = Some t ->
     t < length m /\ pd (nth p po (mkP None 0)) < 3 /\ V m t (pd (nth p po (mkP None 0))) = p)).
  { intros p Hp. unfold f2. rewrite (vget_nth _ (mkP None 0)) by auto. cbn [bind]. destruct (nth p po (mkP None 0)) as [[t|] d]; cbn [pe pd].
    2: { split; auto. discriminate. }
    rewrite !assert_bind, !Nat.ltb_lt. split.
    - intros (H1 & H2 & H3) t' E. injection E as <-. split; auto. split; auto.
      rewrite (vget_nth _ dtri0) in H3 by auto. cbn [bind] in H3. rewrite gv_vtx in H3 by auto. cbn [bind] in H3.
      apply assert_bind in H3. destruct H3 as (H3 & _). apply Nat.eqb_eq in H3. exact H3.
    - intros H. destruct (H t eq_refl) as (H1 & H2 & H3). split; auto. split; auto.
      rewrite (vget_nth _ dtri0) by auto. cbn [bind]. rewrite gv_vtx by auto. cbn [bind]. apply assert_bind. split; auto.
      apply Nat.eqb_eq. exact H3. }
  split.
  - intros H. destruct (forn 0 (length m) (fun i _ => f1 i) tt) as [[]|] eqn:E; [|discriminate]. cbn [bind] in H.
    rewrite forn_all in E, H. split.
    + intros t Ht. apply F1; auto. apply E; lia.
    + intros p t Hp. apply F2; auto. apply H; lia.
  - intros (H1 & H2). rewrite (proj2 (forn_all 0 (length m) f1)). 2: { intros i Hi. apply F1; [lia|]. apply H1; lia. }
    cbn [bind]. apply forn_all. intros i Hi. apply F2; [lia|]. intros t. apply H2; lia.
Qed.

(** FindEdge_LookAllTriangles *)
Lemma LookAll_wp : forall m p0 p1 r0, wp (FindEdge_LookAllTriangles p0 p1 m r0) (fun r =>
  (exists t i, r = (t, i) /\ t < length m /\ i < 3 /\ V m t i = p0 /\ V m t (nx i) = p1 /\
     forall s j, s < length m -> j < 3 -> V m s j = p0 -> V m s (nx j) = p1 -> t < s \/ (t = s /\ i <= j)) \/
  (r = r0 /\ forall s j, s < length m -> j < 3 -> V m s j = p0 -> V m s (nx j) <> p1)).
Proof.
  intros m p0 p1 r0. unfold FindEdge_LookAllTriangles.
  set (hit := fun s j => V m s j = p0 /\ V m s (nx j) = p1).
  set (fst_hit := fun t i => t < length m /\ i < 3 /\ hit t i /\ forall s j, s < length m -> j < 3 -> hit s j -> t < s \/ (t = s /\ i <= j)).
  apply wp_bind. eapply wp_mono.
  { apply (wp_forb _ (fun t st => st = (r0, false) /\ forall s j, s < t -> j < 3 -> ~ hit s j)
    (fun st => (exists t i, st = ((t, i), true) /\ fst_hit t i) \/ (st = (r0, false) /\ forall s j, s < length m -> j < 3 -> ~ hit s j))).
  - lia.
  - split; auto. intros s j Hs. lia.
  - intros t st Ht (-> & Hn). apply wp_bind. eapply wp_mono.
    { apply (wp_forb _ (fun i st => st = (r0, false) /\ forall j, j < i -> ~ hit t j)
      (fun st => (exists i, st = ((t, i), true) /\ fst_hit t i) \/ (st = (r0, false) /\ forall j, j < 3 -> ~ hit t j))).
    + lia.
    + split; auto. intros j Hj. lia.
    + intros i st Hi (-> & Hni). rewrite (vget_nth _ dtri0) by lia. cbn [bind]. rewrite gv_nx by lia.
      rewrite Nat.add_0_r, Nat.mod_small, gv_vtx by lia. cbn [bind]. change (vtx (nth t m dtri0) i) with (V m t i).
      destruct (Nat.eqb_spec (V m t i) p0) as [E0|E0]; [destruct (Nat.eqb_spec (V m t (nx i)) p1) as [E1|E1]|]; cbn [andb]; apply wp_some; cbn [fst snd].
      * left. exists i. split; auto. split; [lia|]. split; [lia|]. split; [split; auto|].
        intros s j Hs Hj Hh. destruct (lt_eq_lt_dec t s) as [[|]|Hlt]; auto.
        -- subst s. right. split; auto. destruct (Nat.lt_ge_cases j i); [exfalso; eapply Hni; eauto|auto].
        -- exfalso. apply (Hn s j); auto.
      * split; auto. intros j Hj. destruct (Nat.eq_dec j i) as [->|]; [intros (_ & Q); auto|apply Hni; lia].
      * split; auto. intros j Hj. destruct (Nat.eq_dec j i) as [->|]; [intros (Q & _); auto|apply Hni; lia].
    + intros st (-> & H). right. auto. }
    intros st [(i & -> & H)|(-> & H)]; apply wp_some; cbn [fst snd].
    + left. eauto.
    + split; auto. intros s j Hs Hj. destruct (Nat.eq_dec s t) as [->|]; [auto|apply Hn; auto; lia].
  - intros st (-> & H). right. auto. }
  intros (r, b) [(t & i & E & H1 & H2 & (H3 & H4) & H5)|(E & H)]; injection E as -> ->; apply wp_some.
  - left. exists t, i. repeat (split; auto). intros s j Hs Hj E1 E2. apply H5; auto. split; auto.
  - right. split; auto. intros s j Hs Hj E1 E2. apply (H s j); auto. split; auto.
Qed.
