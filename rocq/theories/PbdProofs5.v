(** Seams and time steps. *)
From Coq Require Import List Arith Bool Reals Lra Lia.
Import ListNotations.
From Verif Require Import Imp PrModel QuatModel ProxModel IsecModel GjkProofs1 ProxProofs1 MeasSpec MeasProofs1 MeasProofs2 EditModel EditProofs1 EnerModel EnerSpec EnerProofs1 PbdModel PbdSpec PbdProofs1 PbdProofs2 PbdProofs3 PbdProofs4.
Open Scope R_scope.

Definition comp (p : vec3) (d : nat) : R := nth d [vx p; vy p; vz p] 0.
Lemma coord_pnt : forall a i d, (d < 3)%nat -> coord a i d = comp (pnt a i) d.
Proof. intros a i d D. unfold coord, comp, pnt. cases3 d D; cbn [nth vx vy vz]; auto. rewrite Nat.add_0_r. reflexivity. Qed.
Lemma coord_other : forall a a' i j d, (d < 3)%nat -> (forall k, (k < 3 * i \/ 3 * i + 2 < k)%nat -> nth k a' 0 = nth k a 0) -> j <> i -> coord a' j d = coord a j d.
Proof. intros a a' i j d D H N. unfold coord. apply H. lia. Qed.
Lemma total_two : forall a a' i j s, has a i -> has a j -> length a' = length a -> i <> j -> (forall d, (d < 3)%nat -> coord a' i d = coord a i d + s d) -> (forall d, (d < 3)%nat -> coord a' j d = coord a j d - s d) ->
  (forall k d, (d < 3)%nat -> k <> i -> k <> j -> coord a' k d = coord a k d) -> kept a a'.
Proof.
  intros a a' i j s Hi Hj L N Ei Ej Ek. split; [auto|]. intros d D. rewrite (update_total a a' 2 [i; j] (fun k d => nth k [- s d; s d] 0) d eq_refl); auto.
  - rewrite sum_2. cbn [nth]. ring.
  - intros k [<-|[<-|[]]]; auto.
  - intros k. rewrite sum_2. cbn [nth]. destruct (Nat.eqb_spec i k) as [->|]; destruct (Nat.eqb_spec j k) as [->|]; try congruence; rewrite ?Ei, ?Ej, ?Ek by auto; ring.
Qed.
Lemma gap_dist : forall a i j, Distance3 (fun d => nth d [vx (pnt a i); vy (pnt a i); vz (pnt a i)] 0) (fun d => nth d [vx (pnt a j); vy (pnt a j); vz (pnt a j)] 0) = gap a j i.
Proof. intros. unfold gap, sq3, Distance3, Length3, vsub. f_equal. rewrite sum_3. rewrite !coord_pnt by lia. unfold comp. cbn [nth]. ring. Qed.
Definition share (g : R) : R := if ltR (1 / 100) g then 1 / 200 / g else 1 / 2.
Lemma seam1_run : forall a i j, has a i -> has a j -> i <> j -> exists a', Seam1 i j a = Some a' /\ length a' = length a /\
  (forall d, (d < 3)%nat -> coord a' i d = coord a i d + share (gap a j i) * (coord a j d - coord a i d)) /\ (forall d, (d < 3)%nat -> coord a' j d = coord a j d - share (gap a j i) * (coord a j d - coord a i d)) /\
  (forall k d, (d < 3)%nat -> k <> i -> k <> j -> coord a' k d = coord a k d).
Proof.
  intros a i j Hi Hj N. apply wp_ex. unfold Seam1. rewrite !xyz_pnt by auto. cbn [bind]. rewrite gap_dist. unfold share. pose proof (ltRs (1 / 100) (gap a j i)) as C. destruct (ltR (1 / 100) (gap a j i)).
  - assert (GL : sqrt (vx (sub3 (pnt a j) (pnt a i)) * vx (sub3 (pnt a j) (pnt a i)) + vy (sub3 (pnt a j) (pnt a i)) * vy (sub3 (pnt a j) (pnt a i)) + vz (sub3 (pnt a j) (pnt a i)) * vz (sub3 (pnt a j) (pnt a i))) = gap a j i).
    { unfold gap, sq3. f_equal. rewrite sum_3. rewrite !coord_pnt by lia. unfold comp, sub3. cbn [nth vx vy vz]. ring. }
    rewrite GL. set (g := gap a j i) in *. clearbody g. unfold has in *.
    apply wp_bind, wp_inc3; [auto|]. intros b Lb Pb Nb. apply wp_inc3; [lia|]. intros c Lc Pc Nc. split; [lia|]. split; [|split].
    + intros d D. rewrite (coord_other b c j i d D Nc) by auto. rewrite !coord_pnt by auto. rewrite Pb. unfold comp, add3, sub3. cases3 d D; cbn [nth vx vy vz]; field; lra.
    + intros d D. rewrite (coord_pnt c) by auto. rewrite Pc. rewrite (pnt_same a b) by (intros; apply Nb; lia). rewrite !coord_pnt by auto. unfold comp, add3, sub3. cases3 d D; cbn [nth vx vy vz]; field; lra.
    + intros k d D K0 K1. rewrite (coord_other b c j k d D Nc), (coord_other a b i k d D Nb) by auto. reflexivity.
  - unfold has in *. apply wp_bind, wp_put3; [auto|]. intros b Lb Pb Nb. apply wp_put3; [lia|]. intros c Lc Pc Nc. split; [lia|]. split; [|split].
    + intros d D. rewrite (coord_other b c j i d D Nc) by auto. rewrite !coord_pnt by auto. rewrite Pb. unfold comp. cases3 d D; cbn [nth vx vy vz]; field.
    + intros d D. rewrite (coord_pnt c) by auto. rewrite Pc. rewrite !coord_pnt by auto. unfold comp. cases3 d D; cbn [nth vx vy vz]; field.
    + intros k d D K0 K1. rewrite (coord_other b c j k d D Nc), (coord_other a b i k d D Nb) by auto. reflexivity.
Qed.
Lemma seam1_same : forall a i, has a i -> exists a', Seam1 i i a = Some a' /\ kept a a'.
Proof.
  intros a i Hi. apply wp_ex. unfold Seam1. rewrite !xyz_pnt by auto. cbn [bind]. rewrite gap_dist.
  assert (G : gap a i i = 0). { unfold gap, sq3. rewrite sum_3. replace (_ + _ + _) with 0 by ring. apply sqrt_0. } rewrite G.
  pose proof (ltRs (1 / 100) 0) as C. destruct (ltR (1 / 100) 0); [lra|]. unfold has in *. apply wp_bind, wp_put3; [auto|]. intros b Lb Pb Nb. apply wp_put3; [lia|]. intros c Lc Pc Nc.
  assert (E : forall k d, (d < 3)%nat -> coord c k d = coord a k d).
  { intros k d D. destruct (Nat.eq_dec k i) as [->|K].
    - rewrite !coord_pnt by auto. rewrite Pc. unfold comp. cases3 d D; cbn [nth vx vy vz]; field.
    - rewrite (coord_other b c i k d D Nc), (coord_other a b i k d D Nb) by auto. reflexivity. }
  split; [lia|]. intros d D. unfold total. rewrite Lc, Lb. apply sum_ext. intros. apply E. auto.
Qed.
Lemma seam_keeps : forall l a, (forall i j, In (i, j) l -> has a i /\ has a j) -> exists a', PBD_Seam a l = Some a' /\ kept a a'.
Proof.
  intros l a H. apply wp_ex. unfold PBD_Seam. apply (wp_foldM _ _ (fun _ b => kept a b)); [apply kept_refl| |auto].
  intros l1 (i & j) l2 b E K. cbn [fst snd]. destruct (H i j) as (Hi & Hj); [rewrite E; apply in_elt|]. pose proof (proj1 K) as LL. unfold has in Hi, Hj. rewrite <- LL in Hi, Hj.
  destruct (Nat.eq_dec i j) as [<-|N].
  - destruct (seam1_same b i Hi) as (c & -> & K'). cbn [wp]. eapply kept_trans; eauto.
  - destruct (seam1_run b i j Hi Hj N) as (c & -> & L & Ei & Ej & Ek). cbn [wp]. eapply kept_trans; [eauto|]. apply (total_two b c i j (fun d => share (gap b j i) * (coord b j d - coord b i d))); auto.
Qed.
Lemma seam_gap : forall a a' i j, i <> j -> (forall d, (d < 3)%nat -> coord a' i d = coord a i d + share (gap a j i) * (coord a j d - coord a i d)) -> (forall d, (d < 3)%nat -> coord a' j d = coord a j d - share (gap a j i) * (coord a j d - coord a i d)) ->
  gap a' i j = Rmax 0 (gap a i j - 1 / 100).
Proof.
  intros a a' i j N Ei Ej. assert (SY : gap a j i = gap a i j) by (unfold gap, sq3; f_equal; rewrite !sum_3; ring). rewrite SY in Ei, Ej.
  assert (G2 : gap a' i j = Rabs (1 - 2 * share (gap a i j)) * gap a i j).
  { unfold gap at 1 3. rewrite <- (sqrt_Rsqr_abs (1 - 2 * share (gap a i j))). rewrite <- sqrt_mult_alt by apply Rle_0_sqr. f_equal. unfold sq3, Rsqr. rewrite !sum_3. rewrite !Ei, !Ej by lia. ring. }
  rewrite G2. unfold share. assert (GP : 0 <= gap a i j) by apply sqrt_pos. set (g := gap a i j) in *. clearbody g. pose proof (ltRs (1 / 100) g) as C. destruct (ltR (1 / 100) g).
  - rewrite Rmax_right by lra. rewrite Rabs_right; [field; lra|]. apply Rle_ge. apply (Rmult_le_reg_r g); [lra|]. replace ((1 - 2 * (1 / 200 / g)) * g) with (g - 1 / 100) by (field; lra). lra.
  - rewrite Rmax_left by lra. replace (1 - 2 * (1 / 2)) with 0 by field. rewrite Rabs_R0. ring.
Qed.

(** Prediction and velocities. *)
Lemma pre_run : forall old dt g x u flag n, length x = (3 * n)%nat -> length u = (3 * n)%nat -> length flag = n -> exists t, PBD_Pre3D old dt g x u flag = Some t /\ length t = (3 * n)%nat /\
  (forall i d, (i < n)%nat -> (d < 3)%nat -> fixed flag i -> coord t i d = coord x i d) /\ (forall i d, (i < n)%nat -> (d < 3)%nat -> ~ fixed flag i -> coord t i d = coord x i d + dt * coord u i d + dt * dt * comp g d).
Proof.
  intros old dt g x u flag n Lx Lu Lf. apply wp_ex. unfold PBD_Pre3D. assert (D3 : (length x / 3 = n)%nat) by (rewrite Lx, Nat.mul_comm; apply Nat.div_mul; lia). rewrite D3.
  apply wp_bind, wp_assertb; [apply Nat.eqb_eq; auto|]. apply wp_bind, wp_assertb; [apply Nat.eqb_eq; lia|].
  apply (wp_forn _ (fun m t => length t = (3 * n)%nat /\ (forall i d, (i < m)%nat -> (d < 3)%nat -> fixed flag i -> coord t i d = coord x i d) /\ (forall i d, (i < m)%nat -> (d < 3)%nat -> ~ fixed flag i -> coord t i d = coord x i d + dt * coord u i d + dt * dt * comp g d))); [lia| | |auto].
  - split; [rewrite vresize_length; lia|]. split; intros; lia.
  - intros i t I (L & F & G). rewrite (vget_nth _ 0%nat) by lia. cbn [bind]. rewrite (xyz_pnt x) by lia. cbn [bind]. destruct (Nat.eqb_spec (nth i flag 0%nat) 0%nat) as [Z|Z]; cbn [negb].
    + rewrite (xyz_pnt u) by lia. cbn [bind]. apply wp_put3; [lia|]. intros b Lb Pb Nb. split; [lia|]. split.
      * intros j d J D X. destruct (Nat.eq_dec j i) as [->|N]; [unfold fixed in X; contradiction|]. rewrite (coord_other t b i j d D Nb) by auto. apply F; auto; lia.
      * intros j d J D X. destruct (Nat.eq_dec j i) as [->|N]; [|rewrite (coord_other t b i j d D Nb) by auto; apply G; auto; lia]. rewrite !coord_pnt by auto. rewrite Pb. unfold comp. cases3 d D; reflexivity.
    + apply wp_put3; [lia|]. intros b Lb Pb Nb. split; [lia|]. split.
      * intros j d J D X. destruct (Nat.eq_dec j i) as [->|N]; [rewrite !coord_pnt, Pb by auto; reflexivity|]. rewrite (coord_other t b i j d D Nb) by auto. apply F; auto; lia.
      * intros j d J D X. destruct (Nat.eq_dec j i) as [->|N]; [unfold fixed in X; contradiction|]. rewrite (coord_other t b i j d D Nb) by auto. apply G; auto; lia.
Qed.
Lemma post_run : forall dt x u t flag n, length x = (3 * n)%nat -> length u = (3 * n)%nat -> length t = (3 * n)%nat -> length flag = n -> dt <> 0 -> exists x' u', PBD_Post x u dt t flag = Some (x', u') /\ length x' = (3 * n)%nat /\ length u' = (3 * n)%nat /\
  (forall i d, (i < n)%nat -> (d < 3)%nat -> fixed flag i -> coord x' i d = coord x i d /\ coord u' i d = coord u i d) /\
  (forall i d, (i < n)%nat -> (d < 3)%nat -> ~ fixed flag i -> coord x' i d = coord t i d /\ coord u' i d = (coord t i d - coord x i d) / dt).
Proof.
  intros dt x u t flag n Lx Lu Lt Lf DT.
  enough (W : wp (PBD_Post x u dt t flag) (fun '(x', u') => length x' = (3 * n)%nat /\ length u' = (3 * n)%nat /\
    (forall i d, (i < n)%nat -> (d < 3)%nat -> fixed flag i -> coord x' i d = coord x i d /\ coord u' i d = coord u i d) /\
    (forall i d, (i < n)%nat -> (d < 3)%nat -> ~ fixed flag i -> coord x' i d = coord t i d /\ coord u' i d = (coord t i d - coord x i d) / dt))).
  { apply wp_ex in W. destruct W as ((x' & u') & E & Q). exists x', u'. auto. }
  unfold PBD_Post. assert (D3 : (length x / 3 = n)%nat) by (rewrite Lx, Nat.mul_comm; apply Nat.div_mul; lia). rewrite D3.
  apply wp_bind, wp_assertb; [apply Nat.eqb_eq; auto|]. apply wp_bind, wp_assertb; [apply Nat.eqb_eq; lia|]. apply wp_bind, wp_assertb; [apply Nat.eqb_eq; lia|].
  apply (wp_forn _ (fun m '(x', u') => length x' = (3 * n)%nat /\ length u' = (3 * n)%nat /\
    (forall i d, (i < n)%nat -> (d < 3)%nat -> (fixed flag i \/ (m <= i)%nat) -> coord x' i d = coord x i d /\ coord u' i d = coord u i d) /\
    (forall i d, (i < m)%nat -> (d < 3)%nat -> ~ fixed flag i -> coord x' i d = coord t i d /\ coord u' i d = (coord t i d - coord x i d) / dt))); [lia| | |].
  - repeat split; auto; intros; lia.
  - intros i (x' & u') I (L1 & L2 & F & G). rewrite (vget_nth _ 0%nat) by lia. cbn [bind]. destruct (Nat.eqb_spec (nth i flag 0%nat) 0%nat) as [Z|Z]; cbn [negb].
    + pose proof (eqRs dt 0) as E. destruct (eqR dt 0); [contradiction|]. cbn [negb assertb bind]. rewrite !xyz_pnt by lia. cbn [bind].
      apply wp_bind, wp_put3; [lia|]. intros b Lb Pb Nb. apply wp_bind, wp_put3; [lia|]. intros c Lc Pc Nc. cbn [wp]. split; [lia|]. split; [lia|]. split.
      * intros j d J D [X|X].
        { destruct (Nat.eq_dec j i) as [->|N]; [unfold fixed in X; contradiction|]. rewrite (coord_other x' c i j d D Nc), (coord_other u' b i j d D Nb) by auto. apply F; auto. }
        { rewrite (coord_other x' c i j d D Nc), (coord_other u' b i j d D Nb) by lia. apply F; auto. right. lia. }
      * intros j d J D X. destruct (Nat.eq_dec j i) as [->|N].
        { destruct (F i d ltac:(lia) D ltac:(right; lia)) as (FX & _). rewrite <- FX. rewrite !coord_pnt by auto. rewrite Pb, Pc. unfold comp. split; [reflexivity|]. cases3 d D; reflexivity. }
        { rewrite (coord_other x' c i j d D Nc), (coord_other u' b i j d D Nb) by auto. apply G; auto. lia. }
    + cbn [wp]. split; [lia|]. split; [lia|]. split.
      * intros j d J D [X|X]; apply F; auto. right. lia.
      * intros j d J D X. destruct (Nat.eq_dec j i) as [->|N]; [unfold fixed in X; contradiction|]. apply G; auto. lia.
  - intros (x' & u') (L1 & L2 & F & G). repeat split; auto; try (apply F; auto); apply G; auto.
Qed.
