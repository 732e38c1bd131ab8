(** Meshes of triangles that resist strain and bending, seams, and time steps. *)
From Coq Require Import List Arith Bool Reals Lra Lia.
Import ListNotations.
From Verif Require Import Imp PrModel QuatModel ProxModel IsecModel GjkProofs1 ProxProofs1 MeasSpec MeasProofs1 MeasProofs2 EditModel EditProofs1 DtriModel DtriSpec DtriProofs1 CollProofs1 EnerModel EnerSpec EnerProofs1 EnerProofs4 EnerProofs5 PbdModel PbdSpec PbdProofs1 PbdProofs2 PbdProofs3.
Open Scope R_scope.

Lemma foldM_inv : forall A S (f : A -> S -> option S) (I : S -> Prop) l s s', (forall x s s', In x l -> I s -> f x s = Some s' -> I s') -> I s -> foldM f l s = Some s' -> I s'.
Proof.
  intros A S f I l. induction l as [|x l]; intros s s' H H0 E; cbn [foldM] in E; [injection E as <-; auto|]. destruct (f x s) as [t|] eqn:F; [|discriminate]. cbn [bind] in E. apply (IHl t); auto.
  - intros. eapply H; eauto. right; auto.
  - eapply H; eauto. left; auto.
Qed.
Lemma kept_refl : forall a, kept a a. Proof. split; auto. Qed.
Lemma kept_trans : forall a b c, kept a b -> kept b c -> kept a c.
Proof. intros a b c (L & T) (L' & T'). split; [congruence|]. intros. rewrite T', T; auto. Qed.

Lemma strain1_keeps : forall v i0 i1 i2 a a', TriStrain1 v (i0, i1, i2) a = Some a' -> kept a a' /\ forall j d, (d < 3)%nat -> j <> i0 -> j <> i1 -> j <> i2 -> coord a' j d = coord a j d.
Proof.
  intros v i0 i1 i2 a a' E. unfold TriStrain1 in E. destruct (rest v _) as [P|]; [|discriminate]. cbn [bind] in E. destruct (corner a _) as [p|] eqn:C; [|discriminate]. cbn [bind] in E.
  destruct (update_keeps a 3 _ _ [i0; i1; i2] 1 a' eq_refl (corner_some _ _ _ C) (fun k d K D => stvk_sum P p k d K D) E) as (L & T & U). split; [split; auto|]. intros j d D N0 N1 N2. apply U; auto. intros [Q|[Q|[Q|[]]]]; congruence.
Qed.
Lemma strain_keeps : forall v tri a a', PBD_TriStrain a tri v = Some a' -> kept a a' /\ forall j d, (d < 3)%nat -> (forall i0 i1 i2, In (i0, i1, i2) tri -> j <> i0 /\ j <> i1 /\ j <> i2) -> coord a' j d = coord a j d.
Proof.
  intros v tri a a' E. unfold PBD_TriStrain in E.
  apply (foldM_inv _ _ _ (fun b => kept a b /\ forall j d, (d < 3)%nat -> (forall i0 i1 i2, In (i0, i1, i2) tri -> j <> i0 /\ j <> i1 /\ j <> i2) -> coord b j d = coord a j d) _ _ _) in E; auto.
  - intros ((i0 & i1) & i2) b b' I (K & U) F. apply strain1_keeps in F. destruct F as (K' & U'). split; [eapply kept_trans; eauto|]. intros j d D N. destruct (N _ _ _ I) as (N0 & N1 & N2). rewrite U' by auto. apply U; auto.
  - split; [apply kept_refl|auto].
Qed.

Lemma strain1_pre : forall a v i0 i1 i2, tri_rest a v i0 i1 i2 -> exists P p, rest v [i0; i1; i2] = Some P /\ corner a [i0; i1; i2] = Some p /\ rest_det P = turn2 v i0 i1 i2 /\
  (forall i d, (i < 3)%nat -> (d < 3)%nat -> p i d = coord a (nth i [i0; i1; i2] 0%nat) d) /\
  (forall i, (i < 3)%nat -> P i 0%nat = fst (nth (nth i [i0; i1; i2] 0%nat) v (0, 0)) /\ P i 1%nat = snd (nth (nth i [i0; i1; i2] 0%nat) v (0, 0)) /\ P i 2%nat = 0).
Proof.
  intros a v i0 i1 i2 (H0 & H1 & H2 & L0 & L1 & L2 & T).
  destruct (rest_run v [i0; i1; i2]) as (P & EP & FP); [intros i [<-|[<-|[<-|[]]]]; auto|]. destruct (corner_run a [i0; i1; i2]) as (p & Ep & Fp); [intros i [<-|[<-|[<-|[]]]]; auto|].
  exists P, p. split; [auto|]. split; [auto|]. split; [|split; auto]. unfold rest_det, turn2. destruct (FP 0%nat ltac:(cbn; lia)) as (-> & -> & _). destruct (FP 1%nat ltac:(cbn; lia)) as (-> & -> & _). destruct (FP 2%nat ltac:(cbn; lia)) as (-> & -> & _). reflexivity.
Qed.
Lemma strain1_rest : forall a v i0 i1 i2, (length a mod 3 = 0)%nat -> tri_rest a v i0 i1 i2 -> sq3 a i0 i1 = sq2 v i0 i1 -> sq3 a i0 i2 = sq2 v i0 i2 -> sq3 a i1 i2 = sq2 v i1 i2 ->
  TriStrain1 v (i0, i1, i2) a = Some a.
Proof.
  intros a v i0 i1 i2 M3 T Q01 Q02 Q12. destruct (strain1_pre a v i0 i1 i2 T) as (P & p & EP & Ep & DT & Fp & FP). destruct T as (H0 & H1 & H2 & L0 & L1 & L2 & T). unfold TriStrain1. rewrite EP, Ep. cbn [bind].
  destruct (FP 0%nat ltac:(lia)) as (P00 & P01 & _). destruct (FP 1%nat ltac:(lia)) as (P10 & P11 & _). destruct (FP 2%nat ltac:(lia)) as (P20 & P21 & _). cbn [nth] in P00, P01, P10, P11, P20, P21.
  assert (U : dot (diff (p 1%nat) (p 0%nat)) (diff (p 1%nat) (p 0%nat)) = (P 1%nat 0%nat - P 0%nat 0%nat) * (P 1%nat 0%nat - P 0%nat 0%nat) + (P 1%nat 1%nat - P 0%nat 1%nat) * (P 1%nat 1%nat - P 0%nat 1%nat)).
  { unfold sq3, sq2 in Q01. rewrite sum_3 in Q01. unfold dot, diff. rewrite sum_3, !Fp, P00, P01, P10, P11 by lia. cbn [nth]. lra. }
  assert (V : dot (diff (p 2%nat) (p 0%nat)) (diff (p 2%nat) (p 0%nat)) = (P 2%nat 0%nat - P 0%nat 0%nat) * (P 2%nat 0%nat - P 0%nat 0%nat) + (P 2%nat 1%nat - P 0%nat 1%nat) * (P 2%nat 1%nat - P 0%nat 1%nat)).
  { unfold sq3, sq2 in Q02. rewrite sum_3 in Q02. unfold dot, diff. rewrite sum_3, !Fp, P00, P01, P20, P21 by lia. cbn [nth]. lra. }
  assert (W : dot (diff (p 1%nat) (p 0%nat)) (diff (p 2%nat) (p 0%nat)) = (P 1%nat 0%nat - P 0%nat 0%nat) * (P 2%nat 0%nat - P 0%nat 0%nat) + (P 1%nat 1%nat - P 0%nat 1%nat) * (P 2%nat 1%nat - P 0%nat 1%nat)).
  { unfold sq3, sq2 in Q01, Q02, Q12. rewrite sum_3 in Q01, Q02, Q12. unfold dot, diff. rewrite sum_3, !Fp, P00, P01, P10, P11, P20, P21 by lia. cbn [nth]. lra. }
  apply update_rest; [reflexivity|intros i [<-|[<-|[<-|[]]]]; auto|auto| |].
  - apply stvk_indep; [rewrite DT; auto|]. cbv zeta. rewrite U, V, W. assert (ND : rest_det P <> 0) by (rewrite DT; intro Q; rewrite Q, Rabs_R0 in T; pose proof near_pos; unfold tiny, NEARLY_ZERO in *; lra).
    intro Q. apply ND. apply Rsqr_0_uniq. rewrite <- Q. unfold Rsqr, rest_det. ring.
  - apply stvk_rest; [rewrite DT; auto|auto|auto|auto].
Qed.
Lemma strain_rest : forall v tri a, (length a mod 3 = 0)%nat -> (forall i0 i1 i2, In (i0, i1, i2) tri -> tri_rest a v i0 i1 i2 /\ sq3 a i0 i1 = sq2 v i0 i1 /\ sq3 a i0 i2 = sq2 v i0 i2 /\ sq3 a i1 i2 = sq2 v i1 i2) ->
  PBD_TriStrain a tri v = Some a.
Proof.
  intros v tri a M3. unfold PBD_TriStrain. induction tri as [|((i0 & i1) & i2) l]; intros H; cbn [foldM]; [auto|]. destruct (H i0 i1 i2 ltac:(left; auto)) as (T & Q0 & Q1 & Q2). rewrite strain1_rest by auto. cbn [bind]. apply IHl. intros. apply H. right; auto.
Qed.

(** Bending. *)
Section Bend.
Variables (v : list (R * R)) (i0 i1 i2 i3 : nat).
Hypothesis T0 : 0 < turn2 v i0 i2 i3.
Hypothesis T1 : 0 < turn2 v i1 i3 i2.
Hypothesis HI : forall i, In i [i0; i1; i2; i3] -> (i < length v)%nat.
Lemma bend_pre : exists P, rest v [i0; i1; i2; i3] = Some P /\ bok P /\ forall i, (i < 4)%nat -> P i 0%nat = fst (nth (nth i [i0; i1; i2; i3] 0%nat) v (0, 0)) /\ P i 1%nat = snd (nth (nth i [i0; i1; i2; i3] 0%nat) v (0, 0)) /\ P i 2%nat = 0.
Proof.
  destruct (rest_run v [i0; i1; i2; i3] HI) as (P & EP & FP). exists P. split; [auto|]. split; [|exact FP].
  destruct (FP 0%nat ltac:(cbn; lia)) as (P00 & P01 & P02). destruct (FP 1%nat ltac:(cbn; lia)) as (P10 & P11 & P12). destruct (FP 2%nat ltac:(cbn; lia)) as (P20 & P21 & P22). destruct (FP 3%nat ltac:(cbn; lia)) as (P30 & P31 & P32). cbn [nth] in *.
  unfold turn2 in T0, T1. rewrite <- P00, <- P01, <- P20, <- P21, <- P30, <- P31 in T0. rewrite <- P10, <- P11, <- P20, <- P21, <- P30, <- P31 in T1.
  split; unfold area; apply Rdiv_lt_0_compat; try lra; unfold norm; apply sqrt_lt_R0; unfold dot, crossp, diff; rewrite sum_3; cbv beta iota; rewrite ?P02, ?P12, ?P22, ?P32.
  - match type of T0 with 0 < ?t => apply Rlt_le_trans with (t * t); [apply Rmult_lt_0_compat; auto|right; ring] end.
  - match type of T1 with 0 < ?t => apply Rlt_le_trans with (t * t); [apply Rmult_lt_0_compat; auto|right; ring] end.
Qed.
Variable (a : list R).
Hypothesis HA : forall i, In i [i0; i1; i2; i3] -> has a i.
Lemma bend1_run : forall ratio, exists a', Bend1 v [i0; i1; i2; i3] ratio a = Some a' /\ kept a a'.
Proof.
  intros ratio. destruct bend_pre as (P & EP & B & _). destruct (corner_run a _ HA) as (p & Ep & Fp). unfold Bend1. rewrite EP, Ep. cbn [bind].
  destruct (update_run a 4 (fun _ => 1) (fst (CdC_QuadBend P p)) (snd (CdC_QuadBend P p)) [i0; i1; i2; i3] ratio ltac:(intros; lra) eq_refl HA (quad_indep P p B)) as (lmd & a' & _ & E & _ & _).
  exists a'. split; [auto|]. apply update_keeps in E; auto. { destruct E as (L & T & _). split; auto. } intros. apply quad_sum.
Qed.
Lemma bend1_flat : forall ratio (q fa fb : vec), (length a mod 3 = 0)%nat -> (forall i d, In i [i0; i1; i2; i3] -> (d < 3)%nat -> coord a i d = q d + fst (nth i v (0, 0)) * fa d + snd (nth i v (0, 0)) * fb d) ->
  Bend1 v [i0; i1; i2; i3] ratio a = Some a.
Proof.
  intros ratio q fa fb M3 F. destruct bend_pre as (P & EP & B & FP). destruct (corner_run a _ HA) as (p & Ep & Fp). unfold Bend1. rewrite EP, Ep. cbn [bind].
  apply update_rest; auto; [apply quad_indep; auto|]. intros k K. rewrite quad_v by auto.
  pose (x := fun i => fst (nth (nth i [i0; i1; i2; i3] 0%nat) v (0, 0))). pose (y := fun i => snd (nth (nth i [i0; i1; i2; i3] 0%nat) v (0, 0))).
  destruct (bend_flat P (fun d => nth d [1; 0; 0] 0) (fun d => nth d [0; 1; 0] 0) x y (fun _ => 0) B) as (S0 & SX & SY).
  - unfold dot. rewrite sum_3. cbn [nth]. ring.
  - unfold dot. rewrite sum_3. cbn [nth]. ring.
  - unfold dot. rewrite sum_3. cbn [nth]. ring.
  - intros i d I D. destruct (FP i I) as (X & Y & Z). fold (x i) in X. fold (y i) in Y. clearbody x y. cases3 d D; cbn [nth]; rewrite ?X, ?Y, ?Z; ring.
  - unfold turn2 in T0, T1. unfold x, y. cbn [nth]. match type of T0 with 0 < ?s => match type of T1 with 0 < ?t => apply Rle_lt_trans with (- (s * t)); [right; ring|] end end. apply Ropp_lt_gt_0_contravar. apply Rmult_lt_0_compat; auto.
  - assert (G : sum 4 (fun i => bweight P i * p i k) = 0); [|rewrite G; ring].
    assert (PK : forall i, (i < 4)%nat -> p i k = q k + x i * fa k + y i * fb k) by (intros i I; rewrite Fp by auto; apply F; auto; apply nth_In; auto). clear Fp F.
    transitivity (q k * sum 4 (fun i => bweight P i) + fa k * sum 4 (fun i => bweight P i * x i) + fb k * sum 4 (fun i => bweight P i * y i)); [|rewrite S0, SX, SY; ring]. rewrite !sum_4, !PK by lia. ring.
Qed.
(** One projection removes the share ratio of the bending. *)
Lemma bend1_lin : forall ratio a', NoDup [i0; i1; i2; i3] -> Bend1 v [i0; i1; i2; i3] ratio a = Some a' -> exists P p p', rest v [i0; i1; i2; i3] = Some P /\ corner a [i0; i1; i2; i3] = Some p /\ corner a' [i0; i1; i2; i3] = Some p' /\
  forall k, (k < 3)%nat -> fst (CdC_QuadBend P p') k = (1 - ratio) * fst (CdC_QuadBend P p) k.
Proof.
  intros ratio a' ND E. destruct bend_pre as (P & EP & B & FP). destruct (corner_run a _ HA) as (p & Ep & Fp). exists P, p. unfold Bend1 in E. rewrite EP, Ep in E. cbn [bind] in E.
  destruct (update_run a 4 (fun _ => 1) (fst (CdC_QuadBend P p)) (snd (CdC_QuadBend P p)) [i0; i1; i2; i3] ratio ltac:(intros; lra) eq_refl HA (quad_indep P p B)) as (lmd & b & S & E' & L & F). rewrite E' in E. injection E as ->.
  destruct (corner_run a' [i0; i1; i2; i3]) as (p' & Ep' & Fp'). { intros i I. pose proof (HA i I). unfold has in *. lia. }
  exists p'. do 3 (split; [auto|]). intros k K. rewrite (quad_lin P p p' k K).
  destruct (update_shift a a' 4 [i0; i1; i2; i3] (fun i d => sum 3 (fun k => ratio * (snd (CdC_QuadBend P p) k i d * (1 / 1)) * lmd k)) eq_refl ND F) as (SH & _).
  pose proof (lin 4 (fun _ => 1) (snd (CdC_QuadBend P p)) ratio lmd (fun i d => p' i d - p i d)) as LN.
  rewrite (LN ltac:(intros i d I D; cbv beta; rewrite Fp, Fp' by auto; apply SH; auto) _ S k K). ring.
Qed.
End Bend.

(** The loops over the mesh. *)
Section Mesh.
Variables (m : list dtri) (v : list (R * R)) (ratio : R).
Hypothesis HT : tri_ok m.
Hypothesis HP : forall t, (t < length m)%nat -> 0 < turn2 v (V m t 0) (V m t 1) (V m t 2) /\ forall i, (i < 3)%nat -> (V m t i < length v)%nat.
Lemma turn_pos : forall t i, (t < length m)%nat -> (i < 3)%nat -> 0 < turn2 v (V m t i) (V m t (nx i)) (V m t (pv i)).
Proof.
  intros t i I J. destruct (HP t I) as (Q & _). destruct i as [|[|[|i]]]; [| | |lia]; unfold nx, pv; cbn [Nat.add Nat.modulo Nat.divmod snd Nat.sub]; [auto| |].
  - change ((1 + 1) mod 3)%nat with 2%nat. change ((1 + 2) mod 3)%nat with 0%nat. eapply Rlt_le_trans; [exact Q|]. right. unfold turn2. ring.
  - change ((2 + 1) mod 3)%nat with 0%nat. change ((2 + 2) mod 3)%nat with 1%nat. eapply Rlt_le_trans; [exact Q|]. right. unfold turn2. ring.
Qed.
Lemma bend_loop : forall (I : list R -> Prop) a0, I a0 ->
  (forall a i0 i1 i2 i3, I a -> (exists t k, (t < length m)%nat /\ (k < 3)%nat /\ i0 = V m t k) -> (exists t k, (t < length m)%nat /\ (k < 3)%nat /\ i1 = V m t k) -> (exists t k, (t < length m)%nat /\ (k < 3)%nat /\ i2 = V m t k) -> (exists t k, (t < length m)%nat /\ (k < 3)%nat /\ i3 = V m t k) ->
    0 < turn2 v i0 i2 i3 -> 0 < turn2 v i1 i3 i2 -> wp (Bend1 v [i0; i1; i2; i3] ratio a) I) -> wp (PBD_Bend a0 m v ratio) I.
Proof.
  intros I a0 H0 H. unfold PBD_Bend. apply (wp_forn _ (fun _ => I)); [lia|auto| |auto]. intros t a LT Ia.
  apply (wp_forn _ (fun _ => I)); [lia|auto| |auto]. intros i b LI Ib.
  rewrite (vget_nth _ dtri0) by lia. cbn [bind]. rewrite gs_lnk by lia. cbn [bind]. change (lnk (nth t m dtri0) i) with (L m t i).
  destruct (L m t i) as [j|] eqn:EL; [|exact Ib]. destruct (t <? j)%nat; [exact Ib|].
  destruct (HT t ltac:(lia)) as (DV & _ & TW). destruct (TW i j ltac:(lia) EL) as (LJ & k & W). destruct (HT j LJ) as (DJ & _ & _).
  rewrite (FindAdj_loc m t i j k ltac:(lia) LJ W DV DJ). cbn [bind]. rewrite (vget_nth _ dtri0) by auto. cbn [bind]. destruct W as (_ & LK & _ & LB & E1 & E2). rewrite gs_lnk by auto. cbn [bind]. change (lnk (nth j m dtri0) k) with (L m j k). rewrite LB. cbn [onat_eq]. rewrite Nat.eqb_refl. cbn [assertb bind].
  change ((i + 1) mod 3)%nat with (nx i). change ((i + 2) mod 3)%nat with (pv i). assert (LN : (nx i < 3)%nat) by (apply Nat.mod_upper_bound; lia). assert (LV : (pv i < 3)%nat) by (apply Nat.mod_upper_bound; lia).
  rewrite !gv_vtx by lia. cbn [bind]. change (vtx (nth t m dtri0) i) with (V m t i). change (vtx (nth j m dtri0) k) with (V m j k). change (vtx (nth t m dtri0) (nx i)) with (V m t (nx i)). change (vtx (nth t m dtri0) (pv i)) with (V m t (pv i)).
  apply H; auto.
  - exists t, i. repeat split; auto; lia.
  - exists j, k. repeat split; auto; lia.
  - exists t, (nx i). repeat split; auto; lia.
  - exists t, (pv i). repeat split; auto; lia.
  - apply turn_pos; lia.
  - rewrite E1, E2. apply turn_pos; lia.
Qed.
Variable (a : list R).
Hypothesis HA : forall t i, (t < length m)%nat -> (i < 3)%nat -> has a (V m t i).
Lemma bend_keeps : exists a', PBD_Bend a m v ratio = Some a' /\ kept a a'.
Proof.
  apply wp_ex. apply bend_loop; [apply kept_refl|]. intros b i0 i1 i2 i3 K (t0 & k0 & A0 & B0 & E0) (t1 & k1 & A1 & B1 & E1) (t2 & k2 & A2 & B2 & E2) (t3 & k3 & A3 & B3 & E3) T0 T1.
  destruct (bend1_run v i0 i1 i2 i3 T0 T1) with (a := b) (ratio := ratio) as (b' & E & K').
  - intros i [<-|[<-|[<-|[<-|[]]]]]; subst; eapply (proj2 (HP _ _)); auto.
  - destruct K as (LL & _). intros i [<-|[<-|[<-|[<-|[]]]]]; subst; unfold has; rewrite LL; apply HA; auto.
  - rewrite E. cbn [wp]. eapply kept_trans; eauto.
  Unshelve. all: auto.
Qed.
Lemma bend_rest : forall q fa fb : vec, (length a mod 3 = 0)%nat -> (forall t i d, (t < length m)%nat -> (i < 3)%nat -> (d < 3)%nat -> coord a (V m t i) d = q d + fst (nth (V m t i) v (0, 0)) * fa d + snd (nth (V m t i) v (0, 0)) * fb d) -> PBD_Bend a m v ratio = Some a.
Proof.
  intros q fa fb M3 F. assert (W : wp (PBD_Bend a m v ratio) (fun x => x = a)).
  - apply bend_loop; auto. intros b i0 i1 i2 i3 -> (t0 & k0 & A0 & B0 & E0) (t1 & k1 & A1 & B1 & E1) (t2 & k2 & A2 & B2 & E2) (t3 & k3 & A3 & B3 & E3) T0 T1.
    rewrite (bend1_flat v i0 i1 i2 i3 T0 T1) with (q := q) (fa := fa) (fb := fb); cbn [wp]; auto.
    + intros i [<-|[<-|[<-|[<-|[]]]]]; subst; eapply (proj2 (HP _ _)); auto.
    + intros i [<-|[<-|[<-|[<-|[]]]]]; subst; apply HA; auto.
    + intros i d [<-|[<-|[<-|[<-|[]]]]] D; subst; apply F; auto.
    Unshelve. all: auto.
  - apply wp_ex in W. destruct W as (x & E & ->). exact E.
Qed.
End Mesh.
