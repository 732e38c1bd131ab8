(** Delaunay flips around a point. *)
From Coq Require Import List Arith Lia Bool Relations Reals Lra.
Import ListNotations.
From Verif Require Import Imp PrModel PolyModel DtriModel DtriSpec CollSpec FanSpec DelaModel DelaSpec.
From Verif Require Import DtriProofs1 DtriProofs2 DtriProofs3 CollProofs1 CollProofs2 CollProofs7 FanProofs1 FanProofs2 DelaProofs1 DelaProofs2.
Local Open Scope nat_scope.

Section Dela.
Variable xy : list pt.
Notation X := (pos2 xy).

Lemma test_ok : forall po m t i, consistent po m -> length xy = length po -> t < length m -> i < 3 ->
  wp (delaunay_test t i m xy) (fun r => match r with
    | None => edge_fine xy m (t, i)
    | Some u => exists k, twin m t i u k /\ DetDelaunay (X (V m t 0)) (X (V m t 1)) (X (V m t 2)) (X (V m u k)) = 0
    end).
Proof.
  intros po m t i HC Hl Ht Hi. pose proof HC as (Hm & Hp & _). unfold delaunay_test.
  rewrite (vget_nth _ dtri0) by auto. cbn [bind]. rewrite gs_lnk by auto. cbn [bind]. change (lnk (nth t m dtri0) i) with (L m t i).
  destruct (L m t i) as [u|] eqn:E.
  - destruct (L_twin m t i u Hm Ht Hi E) as (k & TB). pose proof (L_lt m t i u Hm Ht Hi E) as Hu.
    rewrite (proj2 (Nat.ltb_lt _ _) Hu). cbn [negb]. rewrite (tt_FindAdj po m t i u k HC Ht TB). cbn [bind].
    rewrite (vget_nth _ dtri0) by auto. cbn [bind]. pose proof TB as (_ & Hk & _ & E' & _).
    rewrite gs_lnk by auto. cbn [bind]. change (lnk (nth u m dtri0) k) with (L m u k). rewrite E'.
    apply wp_bind, wp_assertb. { destruct (onat_eqP (Some t) (Some t)); auto. }
    rewrite gv_vtx by auto. cbn [bind]. change (vtx (nth u m dtri0) k) with (V m u k).
    change (tv0 (nth t m dtri0)) with (V m t 0). change (tv1 (nth t m dtri0)) with (V m t 1). change (tv2 (nth t m dtri0)) with (V m t 2).
    rewrite !(vget_nth _ (0, 0)%R) by (rewrite Hl; apply Hp; auto). cbn [bind]. fold (X (V m t 0)) (X (V m t 1)) (X (V m t 2)) (X (V m u k)).
    destruct (Nat.eqb_spec (DetDelaunay (X (V m t 0)) (X (V m t 1)) (X (V m t 2)) (X (V m u k))) 0) as [D|D]; apply wp_some.
    + exists k. auto.
    + intros u' k' TB'. cbn [fst snd] in *. destruct (twin_fun _ _ _ _ _ _ _ Hm Ht TB TB') as (-> & ->). auto.
  - apply wp_some. intros u k TB. cbn [fst snd] in TB. destruct TB as (_ & _ & Q & _). congruence.
Qed.

(** the number of triangles at a point *)
Definition has (m : list dtri) (p t : nat) : bool := (V m t 0 =? p) || (V m t 1 =? p) || (V m t 2 =? p).
Definition cnt (m : list dtri) (p : nat) : nat := length (filter (has m p) (seq 0 (length m))).
Lemma has_iff : forall m p t, has m p t = true <-> exists i, i < 3 /\ V m t i = p.
Proof.
  intros. unfold has. rewrite !orb_true_iff, !Nat.eqb_eq. split.
  - intros [[H|H]|H]; [exists 0|exists 1|exists 2]; auto.
  - intros (i & Hi & H). c3 i; auto.
Qed.
Lemma cnt_le : forall m p, cnt m p <= length m.
Proof.
  intros. unfold cnt. pose proof (NoDup_incl_length (NoDup_filter (has m p) (seq_NoDup (length m) 0)) (fun x Hx => proj1 (proj1 (filter_In _ _ _) Hx))) as H.
  rewrite seq_length in H. auto.
Qed.

Definition good (po0 : list dpnt) (m0 : list dtri) (po : list dpnt) (m : list dtri) : Prop :=
  consistent po m /\ positive xy m /\ length po = length po0 /\ length m = length m0 /\ total_area xy m = total_area xy m0 /\
  (forall q, q < length po0 -> pe (nth q po0 (mkP None 0)) <> None -> pe (nth q po (mkP None 0)) <> None) /\
  (forall a b, bedge m a b <-> bedge m0 a b) /\
  (forall q, used m q -> used m0 q).

Section Flip.
Variables (po : list dpnt) (m : list dtri) (t e u k : nat) (po' : list dpnt) (f : list dtri).
Hypothesis HC : consistent po m.
Hypothesis Ht : t < length m.
Hypothesis TB : twin m t e u k.
Hypothesis HN : V m t e <> V m u k.
Hypothesis HF : flipped xy po m t e u k po' f.

Lemma fl_u : u < length m. Proof. destruct TB as (He & _ & EL & _). apply (L_lt m t e); auto. apply HC. Qed.
Lemma fl_tu : t <> u. Proof. intros E. pose proof TB as TB'. rewrite <- E in TB'. apply (not_twin_self m t e k (proj1 HC)); auto; apply TB. Qed.
Lemma fl_Vt : V f t 0 = V m t (nx e) /\ V f t 1 = V m u k /\ V f t 2 = V m t e.
Proof. destruct HF as (_ & _ & _ & _ & _ & E & _). unfold V at 1 3 5. rewrite E. auto. Qed.
Lemma fl_Lt : L f t 0 = Some u /\ L f t 1 = L m t (pv e) /\ L f t 2 = L m u (nx k).
Proof. destruct HF as (_ & _ & _ & _ & _ & E & _). unfold L at 1 2 4. rewrite E. auto. Qed.
Lemma fl_Vu : V f u 0 = V m u (nx k) /\ V f u 1 = V m t e /\ V f u 2 = V m u k.
Proof. destruct HF as (_ & _ & _ & _ & _ & _ & E & _). unfold V at 1 3 5. rewrite E. auto. Qed.
Lemma fl_Lu : L f u 0 = Some t /\ L f u 1 = L m u (pv k) /\ L f u 2 = L m t (nx e).
Proof. destruct HF as (_ & _ & _ & _ & _ & _ & E & _). unfold L at 1 2 4. rewrite E. auto. Qed.

(** u has no corner at the point *)
Lemma fl_nou : forall i, i < 3 -> V m u i <> V m t e.
Proof.
  intros i Hi E. pose proof TB as (He & Hk & _ & _ & E1 & E2). destruct (ix3 k i Hk Hi) as [->|[->| ->]].
  - auto.
  - rewrite <- E2 in E. apply (proj1 (proj1 HC t Ht)) in E; auto. apply (pv_ne e); auto.
  - rewrite <- E1 in E. apply (proj1 (proj1 HC t Ht)) in E; auto. apply (nx_ne e); auto.
Qed.

Lemma fl_cnt : cnt m (V m t e) < cnt f (V m t e).
Proof.
  pose proof HF as (_ & _ & Hlen & _ & _ & _ & _ & FV & _). unfold cnt. rewrite Hlen. set (p := V m t e).
  change (length (u :: filter (has m p) (seq 0 (length m))) <= length (filter (has f p) (seq 0 (length m)))).
  apply NoDup_incl_length.
  - constructor; [|apply NoDup_filter, seq_NoDup]. intros H. apply filter_In in H. destruct H as (_ & H). apply has_iff in H.
    destruct H as (i & Hi & H). apply (fl_nou i); auto.
  - intros x [<-|Hx]; apply filter_In.
    + split; [apply in_seq; pose proof fl_u; lia|]. apply has_iff. exists 1. split; auto. apply fl_Vu.
    + apply filter_In in Hx. destruct Hx as (H1 & H2). split; auto. apply in_seq in H1. apply has_iff in H2. apply has_iff. destruct H2 as (i & Hi & E).
      destruct (Nat.eq_dec x t) as [->|N1]. { exists 2. split; auto. apply fl_Vt. }
      destruct (Nat.eq_dec x u) as [->|N2]. { exfalso. apply (fl_nou i); auto. }
      exists i. split; auto. rewrite FV; auto. lia.
Qed.

Lemma fl_bedge : forall a b, bedge f a b <-> bedge m a b.
Proof.
  intros a b. pose proof HF as (_ & _ & Hlen & _ & _ & _ & _ & FV & FN & _).
  pose proof TB as (He & Hk & EL & EL' & E1 & E2). pose proof fl_u as Hu.
  destruct fl_Vt as (V0 & V1 & V2), fl_Lt as (L0 & L1 & L2), fl_Vu as (V3 & V4 & V5), fl_Lu as (L3 & L4 & L5). split.
  - intros (x & i & Hx & Hi & EN & Ea & Eb). rewrite Hlen in Hx.
    destruct (Nat.eq_dec x t) as [->|N1]; [|destruct (Nat.eq_dec x u) as [->|N2]].
    + c3 i.
      * congruence.
      * change (V f t 2 = a) in Ea. change (V f t 0 = b) in Eb. exists t, (pv e). rewrite nx_pv, pv_pv by auto. repeat split; auto; congruence.
      * change (V f t 0 = a) in Ea. change (V f t 1 = b) in Eb. exists u, (nx k). rewrite nx_nx, pv_nx by auto. repeat split; auto; congruence.
    + c3 i.
      * congruence.
      * change (V f u 2 = a) in Ea. change (V f u 0 = b) in Eb. exists u, (pv k). rewrite nx_pv, pv_pv by auto. repeat split; auto; congruence.
      * change (V f u 0 = a) in Ea. change (V f u 1 = b) in Eb. exists t, (nx e). rewrite nx_nx, pv_nx by auto. repeat split; auto; congruence.
    + exists x, i. rewrite !FV in * by auto. repeat split; auto. apply FN; auto.
  - intros (x & i & Hx & Hi & EN & Ea & Eb).
    destruct (Nat.eq_dec x t) as [->|N1]; [|destruct (Nat.eq_dec x u) as [->|N2]].
    + destruct (ix3 e i He Hi) as [->|[->| ->]].
      * congruence.
      * rewrite nx_nx in Ea by auto. rewrite pv_nx in Eb by auto. exists u, 2. change (nx 2) with 0. change (pv 2) with 1. rewrite Hlen. repeat split; auto; congruence.
      * rewrite nx_pv in Ea by auto. rewrite pv_pv in Eb by auto. exists t, 1. change (nx 1) with 2. change (pv 1) with 0. rewrite Hlen. repeat split; auto; congruence.
    + destruct (ix3 k i Hk Hi) as [->|[->| ->]].
      * congruence.
      * rewrite nx_nx in Ea by auto. rewrite pv_nx in Eb by auto. exists t, 2. change (nx 2) with 0. change (pv 2) with 1. rewrite Hlen. repeat split; auto; congruence.
      * rewrite nx_pv in Ea by auto. rewrite pv_pv in Eb by auto. exists u, 1. change (nx 1) with 2. change (pv 1) with 0. rewrite Hlen. repeat split; auto; congruence.
    + exists x, i. rewrite Hlen, !FV by auto. repeat split; auto. apply FN; auto.
Qed.

Lemma fl_used : forall q, used f q -> used m q.
Proof.
  intros q (x & Hx & i & Hi & E). pose proof HF as (_ & _ & Hlen & _ & _ & _ & _ & FV & _). rewrite Hlen in Hx. pose proof fl_u as Hu.
  pose proof TB as (He & Hk & _). destruct fl_Vt as (V0 & V1 & V2), fl_Vu as (V3 & V4 & V5).
  destruct (Nat.eq_dec x t) as [->|N1]; [|destruct (Nat.eq_dec x u) as [->|N2]].
  - c3 i; rewrite ?V0, ?V1, ?V2 in E; [exists t|exists u|exists t]; split; auto; eexists; (split; [|exact E]); auto.
  - c3 i; rewrite ?V3, ?V4, ?V5 in E; [exists u|exists t|exists u]; split; auto; eexists; (split; [|exact E]); auto.
  - rewrite FV in E by auto. exists x. split; auto. exists i. auto.
Qed.

(** turns between other corners at the point stay *)
Lemma fl_turn : forall x y, vc m x -> vc m y -> fst x <> t -> fst x <> u -> fst y <> t -> fst y <> u -> turn m x y -> turn f x y.
Proof.
  intros (s, i) (s', i') (Hs & Hi) (Hs' & Hi') N1 N2 N3 N4 (j & (A1 & A2 & A3 & A4 & A5 & A6) & E). cbn [fst snd] in *.
  pose proof HF as (_ & _ & Hlen & _ & _ & _ & _ & FV & _ & FL & _).
  exists j. cbn [fst snd]. split; auto. repeat split; auto.
  - rewrite FL; auto; congruence.
  - rewrite FL; auto; congruence.
  - rewrite !FV by auto. auto.
  - rewrite !FV by auto. auto.
Qed.

(** the corner behind the flipped edge takes over the turns of the old one *)
Lemma fl_first : forall a, turn m (t, e) a -> turn f (u, 1) a.
Proof.
  intros (s, c) (j & T & E). cbn [fst snd] in *. pose proof T as (_ & Hj & A3 & A4 & A5 & A6).
  pose proof HF as (HC' & _ & Hlen & _ & _ & _ & _ & FV & _). pose proof fl_u as Hu. pose proof TB as (He & Hk & EL & EL' & E1 & E2).
  assert (Hs : s < length m) by (apply (L_lt m t (nx e)); auto; apply HC).
  rewrite nx_nx in A5 by auto. rewrite pv_nx in A6 by auto.
  assert (Ns : s <> t). { intros ->. apply (not_twin_self m t (nx e) j (proj1 HC)); auto. }
  assert (Nu : s <> u). { intros ->. apply (fl_nou (nx j)); auto. }
  assert (Q : L f u 2 = Some s). { rewrite (proj2 (proj2 fl_Lu)). auto. }
  destruct (L_twin f u 2 s (proj1 HC') ltac:(lia) ltac:(auto) Q) as (j' & T'). pose proof T' as (_ & Hj' & _ & _ & B1 & B2).
  change (pv 2) with 1 in B2. rewrite (proj1 (proj2 fl_Vu)), FV in B2 by auto. rewrite A6 in B2.
  apply (proj1 (proj1 HC s Hs)) in B2; auto. apply nx_inj in B2; auto. subst j'. exists j. cbn [fst snd]. auto.
Qed.

Lemma fl_stored : turn f (t, 2) (u, 1).
Proof.
  exists 0. cbn [fst snd]. change (nx 2) with 0. change (nx 0) with 1. split; auto.
  repeat split; auto; [apply fl_Lt|apply fl_Lu| |]; change (nx 0) with 1; change (pv 0) with 2; destruct fl_Vt as (_ & A1 & A2), fl_Vu as (_ & B1 & B2); congruence.
Qed.

(** edges that were fine stay fine *)
Lemma fl_fine : forall s i, s < length m -> i < 3 -> s <> t -> V m s i = V m t e -> edge_fine xy m (s, i) -> edge_fine xy f (s, i).
Proof.
  intros s i Hs Hi Ns Ep Hf w j T. cbn [fst snd] in *.
  pose proof HF as (HC' & _ & Hlen & _ & _ & _ & _ & FV & FN & FL & _). pose proof fl_u as Hu. pose proof TB as (He & Hk & EL & EL' & E1 & E2).
  assert (Nu : s <> u). { intros ->. apply (fl_nou i); auto. }
  pose proof T as (_ & Hj & T3 & T4 & T5 & T6). rewrite !FV in T5, T6 by auto. rewrite !FV by auto.
  assert (Q : forall a, a < 3 -> V m s a = V m t e -> a = i). { intros a Ha E. apply (proj1 (proj1 HC s Hs)); auto. congruence. }
  assert (Qn : V m s (nx i) <> V m t e). { intros E. apply Q in E; auto. apply (nx_ne i); auto. }
  assert (Qp : V m s (pv i) <> V m t e). { intros E. apply Q in E; auto. apply (pv_ne i); auto. }
  assert (Far : V f w j = V m t e -> DetDelaunay (X (V m s 0)) (X (V m s 1)) (X (V m s 2)) (X (V f w j)) <> 0).
  { intros E D. apply det0_in in D. apply incircle_ne in D. rewrite E, <- Ep in D. destruct D as (D0 & D1 & D2). c3 i; auto. }
  destruct fl_Vt as (V0 & V1 & V2), fl_Lt as (L0 & L1 & L2), fl_Vu as (V3 & V4 & V5), fl_Lu as (L3 & L4 & L5).
  destruct (Nat.eq_dec w t) as [->|Nw1]; [|destruct (Nat.eq_dec w u) as [->|Nw2]].
  - c3 j.
    + congruence.
    + change (nx 1) with 2 in T6. exfalso. apply Qp. congruence.
    + auto.
  - c3 j.
    + congruence.
    + auto.
    + change (pv 2) with 1 in T5. exfalso. apply Qn. congruence.
  - assert (HL : L m s i = Some w).
    { destruct (L m s i) as [w'|] eqn:Ew.
      2:{ apply FN in Ew; auto. congruence. }
      destruct (L_twin m s i w' (proj1 HC) Hs Hi Ew) as (a & T'). pose proof T' as (_ & Ha & _ & T4' & T5' & T6').
      destruct (Nat.eq_dec w' t) as [->|W1]; [|destruct (Nat.eq_dec w' u) as [->|W2]].
      - exfalso. destruct (ix3 e a He Ha) as [->|[->| ->]]; [congruence| |].
        + rewrite pv_nx in T5' by auto. auto.
        + rewrite nx_pv in T6' by auto. auto.
      - exfalso. destruct (ix3 k a Hk Ha) as [->|[->| ->]]; [congruence| |].
        + rewrite <- L2 in T4'. destruct (L_twin f t 2 s (proj1 HC') ltac:(lia) ltac:(auto) T4') as (b & TT). pose proof TT as (_ & Hb & _ & Q4 & Q5 & Q6).
          change (pv 2) with 1 in Q6. rewrite V1, FV in Q6 by auto. rewrite pv_nx in T5' by auto. rewrite <- T5' in Q6.
          apply (proj1 (proj1 HC s Hs)) in Q6; auto. apply nx_inj in Q6; auto. subst b. congruence.
        + rewrite <- L4 in T4'. destruct (L_twin f u 1 s (proj1 HC') ltac:(lia) ltac:(auto) T4') as (b & TT). pose proof TT as (_ & Hb & _ & Q4 & Q5 & Q6).
          change (nx 1) with 2 in Q5. rewrite V5, FV in Q5 by auto. rewrite nx_pv in T6' by auto. rewrite <- T6' in Q5.
          apply (proj1 (proj1 HC s Hs)) in Q5; auto. assert (b = i). { rewrite <- (nx_pv b), <- Q5, nx_pv; auto. } subst b. congruence.
      - rewrite FL in T3; auto; congruence. }
    destruct (L_twin m s i w (proj1 HC) Hs Hi HL) as (j' & T'). pose proof (L_lt m s i w (proj1 HC) Hs Hi HL) as Hw.
    pose proof T' as (_ & Hj' & _ & _ & Q5 & Q6). rewrite !FV in T5, T6 by auto.
    assert (j' = j). { assert (K : nx j' = nx j) by (apply (proj1 (proj1 HC w Hw)); auto; congruence). apply nx_inj in K; auto. }
    subst j'. rewrite FV by auto. apply (Hf w j T').
Qed.
End Flip.
End Dela.
