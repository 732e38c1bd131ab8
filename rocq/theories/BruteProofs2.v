(** Lines and rays against meshes and height fields. *)
From Coq Require Import List Arith Bool Reals Lra Lia Sorted.
Import ListNotations.
From Verif Require Import Imp PrModel GjkProofs1 PbdProofs1 QuatModel ProxModel ProxSpec ProxProofs1 ProxProofs3 IsecModel IsecSpec IsecProofs2 IsecProps MeasModel MeasSpec MeasProofs1 MeasProofs2 BruteModel BruteSpec BruteProofs1.
Open Scope R_scope.

Lemma nrm_zero : forall d p q r, inner d (nrm p q r) <> 0 -> dot3 (tn p q r) (tn p q r) <> 0.
Proof. intros d p q r N E. apply dot_zero in E. apply N. rewrite inner_dot, nrm_tn, E. u3. ring. Qed.
Lemma comb_inj : forall p q r a b c d, dot3 (tn p q r) (tn p q r) <> 0 -> comb a b (1 - a - b) p q r = comb c d (1 - c - d) p q r -> a = c /\ b = d.
Proof.
  intros p q r a b c d N E. destruct (bary_zero (a - c) (b - d) ((1 - a - b) - (1 - c - d)) p q r) as (A & B & _); auto; [lra| |lra].
  replace (comb (a - c) (b - d) (1 - a - b - (1 - c - d)) p q r) with (sub3 (comb a b (1 - a - b) p q r) (comb c d (1 - c - d) p q r)) by veq. rewrite E. veq.
Qed.
(** the test gives exactly the hits *)
Lemma ray_hit : forall org dir p q r eps r0 r1, IntersectRay_Tri3 org dir p q r eps = (true, Some (r0, r1)) <-> hit org dir eps p q r r0 r1.
Proof.
  intros org dir p q r eps r0 r1. destruct (C71_line_and_triangle org dir p q r eps) as (Par & Non). unfold hit. split.
  - intros E. destruct (Req_dec (inner dir (nrm p q r)) 0) as [Z|Z]; [rewrite (Par Z) in E; discriminate|]. destruct (Non Z) as (b & s0 & s1 & E' & X & B & _). rewrite E' in E. injection E as -> -> ->. split; [auto|]. split; [apply (X _); auto|apply B; auto].
  - intros (Z & L & W). destruct (Non Z) as (b & s0 & s1 & E' & X & B & _).
    assert (Q : comb r0 r1 (1 - r0 - r1) p q r = comb s0 s1 (1 - s0 - s1) p q r). { apply X. split; [auto|]. exists r0, r1, (1 - r0 - r1). split; [ring|auto]. }
    apply comb_inj in Q; [|eapply nrm_zero; eauto]. destruct Q as (-> & ->). rewrite E'. destruct b; auto. destruct B as (_ & B). specialize (B W). discriminate.
Qed.
Lemma ray_cases : forall org dir p q r eps, (exists r0 r1, IntersectRay_Tri3 org dir p q r eps = (true, Some (r0, r1))) \/
  ((forall A (f : R -> R -> A) a, match IntersectRay_Tri3 org dir p q r eps with (true, Some (r0, r1)) => f r0 r1 | _ => a end = a) /\ forall r0 r1, ~ hit org dir eps p q r r0 r1).
Proof.
  intros. destruct (IntersectRay_Tri3 org dir p q r eps) as [[] [[r0 r1]|]] eqn:E; [left; eauto| | |]; right; (split; [auto|]); intros s0 s1 H; apply ray_hit in H; rewrite E in H; discriminate.
Qed.

Definition ordered (a : list pes) : Prop := StronglySorted (fun p q => (fst (fst p) < fst (fst q))%nat) a.
Lemma ordered_snoc : forall a p, ordered a -> (forall q, In q a -> (fst (fst q) < fst (fst p))%nat) -> ordered (a ++ [p]).
Proof.
  induction a as [|q a IH]; intros p O H; cbn [app]; [repeat constructor|]. inversion O; subst. constructor; [apply IH; auto; intros; apply H; right; auto|]. apply Forall_app. split; auto. repeat constructor. apply H. left. auto.
Qed.
Lemma Line_ok : forall org dir tri l eps, valid tri l ->
  wp (IntersectionLine_MeshTri3 org dir tri l eps) (fun a => ordered a /\ forall p, In p a <-> (fst (fst p) < count 3 tri)%nat /\ hit_tri org dir eps l tri p).
Proof.
  intros org dir tri l eps V. unfold IntersectionLine_MeshTri3.
  apply (wp_forn _ (fun i a => ordered a /\ forall p, In p a <-> (fst (fst p) < i)%nat /\ hit_tri org dir eps l tri p)); [lia| | |auto].
  - split; [constructor|]. intros p. split; [intros []|lia].
  - intros i a Hi (O & A). rewrite tri3_ok by (auto; lia). cbn [bind].
    destruct (ray_cases org dir (at_corner l 3 tri i 0) (at_corner l 3 tri i 1) (at_corner l 3 tri i 2) eps) as [(r0 & r1 & E)|(E & NH)].
    + rewrite E. cbn [wp]. split; [apply ordered_snoc; auto; intros q Q; apply A in Q; apply Q|]. apply ray_hit in E. intros [[t s0] s1]. rewrite in_app_iff, A. cbn [fst In]. split.
      * intros [(T & H)|[Q|[]]]; [split; [lia|auto]|]. injection Q as <- <- <-. split; [lia|exact E].
      * intros (T & H). destruct (Nat.eq_dec t i) as [->|]; [|left; split; [lia|auto]]. right. left. cbn [hit_tri] in H. destruct E as (Z & L1 & _). pose proof H as H'. apply ray_hit in H'. destruct H as (_ & L2 & _).
        destruct (C71_line_and_triangle org dir (at_corner l 3 tri i 0) (at_corner l 3 tri i 1) (at_corner l 3 tri i 2) eps) as (_ & Non). destruct (Non Z) as (b & c0 & c1 & _ & X & _).
        assert (G : forall a b, line org dir (comb a b (1 - a - b) (at_corner l 3 tri i 0) (at_corner l 3 tri i 1) (at_corner l 3 tri i 2)) -> a = c0 /\ b = c1). { intros a' b' H. apply (comb_inj (at_corner l 3 tri i 0) (at_corner l 3 tri i 1) (at_corner l 3 tri i 2)); [eapply nrm_zero; eauto|]. apply X. split; auto. exists a', b', (1 - a' - b'). split; [ring|auto]. }
        destruct (G _ _ L1) as (-> & ->). destruct (G _ _ L2) as (-> & ->). auto.
    + rewrite E. cbn [wp]. split; auto. intros [[t s0] s1]. rewrite A. cbn [fst]. split; [intros (T & H); split; [lia|auto]|]. intros (T & H). split; auto. destruct (Nat.eq_dec t i) as [->|]; [|lia]. exfalso. apply (NH _ _ H).
Qed.

(** maps *)
Definition increasing {A} (m : list (R * A)) : Prop := StronglySorted (fun a b => fst a < fst b) m.
Lemma insert_ok : forall A (k : R) (a : A) m, increasing m ->
  increasing (map_insert k a m) /\ (forall e, In e (map_insert k a m) -> e = (k, a) /\ (forall b, ~ In (k, b) m) \/ In e m) /\ (forall e, In e m -> In e (map_insert k a m)) /\ exists b, In (k, b) (map_insert k a m).
Proof.
  intros A k a. induction m as [|[k' a'] m IH]; intros M; cbn [map_insert].
  - split; [repeat constructor|]. split; [intros e [E|[]]; auto|]. split; [intros e []|]. exists a. left. auto.
  - inversion M as [|? ? M1 M2]; subst. pose proof (ltRs k k') as L. destruct (ltR k k').
    + split; [constructor; auto; constructor; auto; eapply Forall_impl; [|exact M2]; cbn; intros; lra|]. split; [|split; [intros; right; auto|exists a; left; auto]].
      intros e [E|E]; [left; split; auto|right; auto]. intros b [B|B]; [injection B; intros; lra|]. rewrite Forall_forall in M2. specialize (M2 _ B). cbn in M2. lra.
    + pose proof (eqRs k k') as Q. destruct (eqR k k').
      * subst k'. split; [auto|]. split; [auto|]. split; [auto|]. exists a'. left. auto.
      * destruct (IH M1) as (I1 & I2 & I3 & b & I4). split.
        { constructor; auto. apply Forall_forall. intros e E. apply I2 in E. destruct E as [(-> & _)|E]; cbn [fst]; [lra|]. rewrite Forall_forall in M2. exact (M2 _ E). }
        split; [|split; [intros e [E|E]; [left; auto|right; auto]|exists b; right; auto]].
        intros e [E|E]; [right; left; auto|]. apply I2 in E. destruct E as [(E & N)|E]; [left; split; auto|right; right; auto]. intros c [C|C]; [injection C; intros; lra|]. exact (N c C).
Qed.

(** a map filled with the elements of a list: the keys in order, every key once with the first element *)
Definition filled (key : pes -> R) (done : list pes) (m : list (R * pes)) : Prop :=
  increasing m /\ (forall d p, In (d, p) m -> In p done /\ d = key p /\ 0 <= d) /\ (forall p, In p done -> 0 <= key p -> exists p', In (key p, p') m).
Lemma filled_step : forall key done m p, filled key done m -> filled key (done ++ [p]) (if ltR (key p) 0 then m else map_insert (key p) p m).
Proof.
  intros key done m p (I1 & I2 & I3). pose proof (ltRs (key p) 0) as L. destruct (ltR (key p) 0).
  - split; [auto|]. split; [intros d q Q; destruct (I2 d q Q); rewrite in_app_iff; auto|]. intros q Q K. apply in_app_or in Q. destruct Q as [Q|[<-|[]]]; [auto|lra].
  - destruct (insert_ok _ (key p) p m I1) as (J1 & J2 & J3 & J4). split; [auto|]. split.
    + intros d q Q. rewrite in_app_iff. destruct (J2 _ Q) as [(E & _)|Q']; [injection E as -> ->; cbn; auto|]. destruct (I2 d q Q'). auto.
    + intros q Q K. apply in_app_or in Q. destruct Q as [Q|[<-|[]]]; [|auto]. destruct (I3 q Q K) as (p' & P'). exists p'. auto.
Qed.
Lemma hit_along : forall org dir eps l tri p, hit_tri org dir eps l tri p -> exists s, tri_point l tri p = along org dir s.
Proof. intros org dir eps l tri [[t r0] r1] (_ & (s & L) & _). exists s. exact L. Qed.
Lemma depth_along : forall org dir s, dot3 (sub3 (along org dir s) org) dir = s * inner dir dir.
Proof. intros. unfold along, inner. u3. ring. Qed.
Lemma dir_pos : forall org dir eps l tri p, hit_tri org dir eps l tri p -> 0 < inner dir dir.
Proof.
  intros org dir eps l tri [[t r0] r1] (N & _). rewrite inner_dot. pose proof (dot_pos dir) as P. destruct (Req_dec (dot3 dir dir) 0) as [Z|]; [|lra]. exfalso. apply N. apply dot_zero in Z. rewrite Z. unfold inner, origin3. cbn [vx vy vz]. ring.
Qed.
Definition depth_of (org dir : vec3) (l : list R) (tri : list nat) (p : pes) : R := dot3 (sub3 (tri_point l tri p) org) dir.
Definition firsts (m : list (R * pes)) (done : list pes) (key : pes -> R) : Prop := forall d p q, In (d, p) m -> In q done -> key q = d -> (fst (fst p) <= fst (fst q))%nat.
Lemma Ray_ok : forall org dir tri l eps, valid tri l ->
  wp (IntersectionRay_MeshTri3 org dir tri l eps) (fun m => exists a, (ordered a /\ forall p, In p a <-> (fst (fst p) < count 3 tri)%nat /\ hit_tri org dir eps l tri p) /\ filled (depth_of org dir l tri) a m /\ firsts m a (depth_of org dir l tri)).
Proof.
  intros org dir tri l eps V. unfold IntersectionRay_MeshTri3. apply wp_bind. eapply wp_mono; [apply Line_ok; auto|]. intros a (O & A). cbv beta.
  apply (wp_foldM _ _ (fun done m => filled (depth_of org dir l tri) done m /\ firsts m done (depth_of org dir l tri))).
  - split; [split; [constructor|split; [intros ? ? []|intros ? []]]|intros ? ? ? []].
  - intros l1 p l2 m E (F & G). assert (P : In p a) by (rewrite E; apply in_or_app; right; left; auto). apply A in P. destruct p as [[t r0] r1]. cbn [fst] in P. rewrite pos_ok by (auto; apply P). cbn [bind].
    change (dot3 (sub3 (tri_point l tri (t, r0, r1)) org) dir) with (depth_of org dir l tri (t, r0, r1)). pose proof (filled_step (depth_of org dir l tri) l1 m (t, r0, r1) F) as F'.
    assert (B : forall q, In q l1 -> (fst (fst q) < t)%nat). { intros q Q. clear - O E Q. subst a. induction l1 as [|x l1 IH]; [destruct Q|]. cbn [app] in O. inversion O as [|? ? O1 O2]; subst. destruct Q as [->|Q]; [|apply IH; auto]. rewrite Forall_forall in O2. apply (O2 (t, r0, r1)). apply in_or_app. right. left. auto. }
    pose proof (ltRs (depth_of org dir l tri (t, r0, r1)) 0) as L. destruct (ltR _ 0); cbn [wp]; (split; [auto|]).
    + intros d p q Mp Q K. apply in_app_or in Q. destruct Q as [Q|[<-|[]]]; [eauto|]. destruct F as (_ & F2 & _). destruct (F2 d p Mp) as (_ & _ & D). lra.
    + destruct F as (F1 & F2 & F3). destruct (insert_ok _ (depth_of org dir l tri (t, r0, r1)) (t, r0, r1) m F1) as (_ & J2 & _ & _).
      intros d p q Mp Q K. apply in_app_or in Q. destruct (J2 _ Mp) as [(Ep & Nk)|Mp'].
      * injection Ep as -> ->. destruct Q as [Q|[<-|[]]]; [|lia]. exfalso. destruct (F3 q Q) as (p' & P'); [rewrite K; lra|]. rewrite K in P'. exact (Nk _ P').
      * destruct Q as [Q|[<-|[]]]; [eauto|]. destruct (F2 d p Mp') as (Pd & _). specialize (B p Pd). cbn [fst]. lia.
  - intros m (F & G). exists a. auto.
Qed.
Definition depth_q (org dir : vec3) (l : list R) (tri : list nat) (p : pes) : R := depth_of org dir l tri p / dot3 dir dir.
Lemma RayPart_ok : forall org dir tri l ts eps, valid tri l -> (forall t, In t ts -> (t < count 3 tri)%nat) ->
  wp (IntersectionRay_MeshTri3DPart org dir tri l ts eps) (fun m => exists a, (forall p, In p a <-> In (fst (fst p)) ts /\ hit_tri org dir eps l tri p) /\ filled (depth_q org dir l tri) a m).
Proof.
  intros org dir tri l ts eps V T. unfold IntersectionRay_MeshTri3DPart.
  apply (wp_foldM _ _ (fun done m => exists a, (forall p, In p a <-> In (fst (fst p)) done /\ hit_tri org dir eps l tri p) /\ filled (depth_q org dir l tri) a m)); [| |auto].
  - exists []. split; [intros p; split; [intros []|intros ([] & _)]|]. split; [constructor|split; [intros ? ? []|intros ? []]].
  - intros l1 i l2 m E (a & A & F). assert (P : In i ts) by (rewrite E; apply in_or_app; right; left; auto). rewrite tri3_ok by (auto; apply T; auto). cbn [bind].
    destruct (ray_cases org dir (at_corner l 3 tri i 0) (at_corner l 3 tri i 1) (at_corner l 3 tri i 2) eps) as [(r0 & r1 & H)|(H & NH)].
    + rewrite H. cbv zeta.
      change (add3 (add3 (mul3 r0 (at_corner l 3 tri i 0)) (mul3 r1 (at_corner l 3 tri i 1))) (mul3 (1 - r0 - r1) (at_corner l 3 tri i 2))) with (tri_point l tri (i, r0, r1)).
      change (dot3 (sub3 (tri_point l tri (i, r0, r1)) org) dir / dot3 dir dir) with (depth_q org dir l tri (i, r0, r1)).
      pose proof (filled_step (depth_q org dir l tri) a m (i, r0, r1) F) as F'. assert (G : wp (Some (if ltR (depth_q org dir l tri (i, r0, r1)) 0 then m else map_insert (depth_q org dir l tri (i, r0, r1)) (i, r0, r1) m)) (fun m => exists a, (forall p, In p a <-> In (fst (fst p)) (l1 ++ [i]) /\ hit_tri org dir eps l tri p) /\ filled (depth_q org dir l tri) a m)).
      { cbn [wp]. exists (a ++ [(i, r0, r1)]). split; [|auto]. pose proof (proj1 (ray_hit _ _ _ _ _ _ _ _) H) as Hh. intros [[t s0] s1]. rewrite !in_app_iff, A. cbn [fst In]. split.
        - intros [(I1 & I2)|[Q|[]]]; [auto|]. injection Q as <- <- <-. split; [auto|exact Hh].
        - intros ([I1|[<-|[]]] & I2); [auto|]. right. left. cbn [hit_tri] in I2. apply ray_hit in I2. rewrite H in I2. injection I2 as -> ->. auto. }
      destruct (ltR _ 0); exact G.
    + rewrite H. cbn [wp]. exists a. split; [|auto]. intros [[t s0] s1]. rewrite in_app_iff, A. cbn [fst In]. split; [intros (I1 & I2); auto|]. intros ([I1|[<-|[]]] & I2); [auto|]. exfalso. exact (NH _ _ I2).
Qed.
