(** Proofs about cleaning, smoothing, quality and normals for EditModel. *)
From Coq Require Import List Arith Bool ZArith Reals Lra Lia.
Import ListNotations.
From Verif Require Import Imp PrModel PolyModel QuatModel QuatSpec ProxModel IsecModel GjkProofs1 ProxSpec ProxProofs1 MeasModel MeasSpec MeasProofs1 MeasProofs2 EditModel EditSpec EditProofs1.
Open Scope R_scope.

Lemma forn_none : forall S (f : nat -> S -> option S) n i s, (i < n)%nat -> (forall s, f i s = None) -> forn 0 n f s = None.
Proof.
  intros S f n i s Hi H. induction n; [lia|]. rewrite forn_S by lia. destruct (Nat.eq_dec i n) as [->|N].
  - destruct (forn 0 n f s); [apply H|reflexivity].
  - rewrite IHn by lia. reflexivity.
Qed.

(** * unreferenced points *)
Definition used (e : list nat) (i : nat) : bool := existsb (Nat.eqb i) e.
Fixpoint rank (e : list nat) (i : nat) : nat := match i with O => O | S k => (rank e k + if used e k then 1 else 0)%nat end.
Lemma used_in : forall e i, used e i = true <-> In i e.
Proof. intros. unfold used. rewrite existsb_exists. split; [intros (x & H & E); apply Nat.eqb_eq in E; subst; exact H|intros H; exists i; split; [exact H|apply Nat.eqb_refl]]. Qed.
Lemma rank_le : forall e i j, (i <= j)%nat -> (rank e i <= rank e j)%nat.
Proof. intros e i j H. induction H; [lia|]. cbn [rank]. destruct (used e m); lia. Qed.
Lemma rank_lt : forall e i j, (i < j)%nat -> used e i = true -> (rank e i < rank e j)%nat.
Proof. intros e i j H U. pose proof (rank_le e (S i) j ltac:(lia)) as L. cbn [rank] in L. rewrite U in L. lia. Qed.
Lemma rank_onto : forall e n r, (r < rank e n)%nat -> exists i, (i < n)%nat /\ used e i = true /\ rank e i = r.
Proof.
  induction n; intros r H; cbn [rank] in H; [lia|]. destruct (le_lt_dec (rank e n) r) as [L|L].
  - destruct (used e n) eqn:U; [|lia]. exists n. repeat split; [lia|exact U|lia].
  - destruct (IHn r L) as (i & Hi & U & E). exists i. repeat split; [lia|exact U|exact E].
Qed.
Definition zmap (e : list nat) (i : nat) : Z := if used e i then Z.of_nat (rank e i) else (-2)%Z.
Lemma remove_proof : forall old1 oldE m a e, (0 < m)%nat -> (forall i, In i e -> (i < length a / m)%nat) ->
  exists a1 e1 mp, RemoveUnreferencedPoints_MeshElem old1 oldE m a e = Some (a1, e1, mp) /\ same_mesh_without_unused m a e a1 e1 /\
    length mp = (length a / m)%nat /\ (forall j, (j < length e)%nat -> nth (nth j e 0%nat) mp 0%Z = Z.of_nat (nth j e1 0%nat)) /\
    (forall i, (i < length a / m)%nat -> ~ In i e -> nth i mp 0%Z = (-2)%Z).
Proof.
  intros old1 oldE m a e Hm Hv. set (np := (length a / m)%nat) in *. assert (Hnp : (np * m <= length a)%nat) by (unfold np; rewrite Nat.mul_comm; apply Nat.mul_div_le; lia).
  assert (W : wp (RemoveUnreferencedPoints_MeshElem old1 oldE m a e) (fun r => same_mesh_without_unused m a e (fst (fst r)) (snd (fst r)) /\
    length (snd r) = np /\ (forall j, (j < length e)%nat -> nth (nth j e 0%nat) (snd r) 0%Z = Z.of_nat (nth j (snd (fst r)) 0%nat)) /\
    (forall i, (i < np)%nat -> ~ In i e -> nth i (snd r) 0%Z = (-2)%Z))).
  { unfold RemoveUnreferencedPoints_MeshElem. apply wp_bind, wp_assertb; [apply negb_true_iff, Nat.eqb_neq; lia|]. fold np.
    apply wp_bind. apply (wp_foldM _ _ (fun l1 mp => length mp = np /\ forall i, (i < np)%nat -> nth i mp 0%Z = if used l1 i then (-1)%Z else (-2)%Z)).
    { split; [apply repeat_length|]. intros i Hi. cbn. rewrite (nth_indep _ 0%Z (-2)%Z) by (rewrite repeat_length; exact Hi). apply nth_repeat. }
    { intros l1 x l2 mp El (Lm & Nm). apply (wp_vset_nth _ 0%Z); [rewrite Lm; apply Hv; rewrite El; apply in_or_app; right; left; reflexivity|]. intros mp' Lm' Nm'. split; [lia|]. intros i Hi. rewrite Nm'. unfold used. rewrite existsb_app. cbn [existsb]. rewrite orb_false_r.
      destruct (Nat.eqb_spec i x) as [->|N]; [rewrite orb_true_r; reflexivity|]. rewrite orb_false_r. apply Nm. exact Hi. }
    intros mp0 (L0 & N0). apply wp_bind.
    apply (wp_forn _ (fun q st => length (fst st) = np /\ snd st = rank e q /\ forall i, (i < np)%nat -> nth i (fst st) 0%Z = if (i <? q)%nat then zmap e i else if used e i then (-1)%Z else (-2)%Z)); [lia| | |].
    { split; [exact L0|]. split; [reflexivity|]. intros i Hi. cbn [fst]. rewrite N0 by exact Hi. reflexivity. }
    { intros q (mp & npj) Hq (Lm & Ej & Nm). cbn [fst snd] in *. rewrite (vgetn Z 0%Z) by lia. cbn [bind]. rewrite Nm by lia. replace (q <? q)%nat with false by (symmetry; apply Nat.ltb_ge; lia).
      destruct (used e q) eqn:U; cbn [Z.eqb].
      - change (Z.eqb (-1) (-2)) with false. cbv iota. apply wp_bind, (wp_vset_nth _ 0%Z); [lia|]. intros mp' Lm' Nm'. cbn [wp fst snd]. split; [lia|]. split; [cbn [rank fst snd]; rewrite U; cbv iota; lia|]. intros i Hi. rewrite Nm'. destruct (Nat.eqb_spec i q) as [->|N].
        + replace (q <? S q)%nat with true by (symmetry; apply Nat.ltb_lt; lia). unfold zmap. rewrite U, Ej. reflexivity.
        + rewrite Nm by exact Hi. destruct (Nat.ltb_spec i q), (Nat.ltb_spec i (S q)); try reflexivity; lia.
      - change (Z.eqb (-2) (-2)) with true. cbv iota. cbn [wp fst snd]. split; [exact Lm|]. split; [cbn [rank fst snd]; rewrite U; cbv iota; lia|]. intros i Hi. rewrite Nm by exact Hi. destruct (Nat.ltb_spec i q), (Nat.ltb_spec i (S q)); try reflexivity; try lia. assert (i = q) by lia. subst. unfold zmap. rewrite U. reflexivity. }
    intros (mp & npj) (Lm & Ej & Nm). cbn [fst snd] in *. subst npj. assert (M : forall i, (i < np)%nat -> nth i mp 0%Z = zmap e i) by (intros i Hi; rewrite Nm by exact Hi; replace (i <? np)%nat with true by (symmetry; apply Nat.ltb_lt; exact Hi); reflexivity). clear Nm.
    apply wp_bind. apply (wp_forn _ (fun q x => length x = (rank e np * m)%nat /\ forall i k, (i < q)%nat -> used e i = true -> (k < m)%nat -> coord m x (rank e i) k = coord m a i k)); [lia| | |].
    { split; [apply length_vresize|]. intros. lia. }
    { intros q x Hq (Lx & Nx). rewrite (vgetn Z 0%Z) by lia. cbn [bind]. rewrite M by lia. unfold zmap. destruct (used e q) eqn:U.
      - replace (Z.eqb (Z.of_nat (rank e q)) (-2)) with false by (symmetry; apply Z.eqb_neq; lia). cbv iota. rewrite Nat2Z.id.
        assert (B : (S (rank e q) * m <= rank e np * m)%nat) by (apply Nat.mul_le_mono_r; apply (rank_lt e q np); [lia|exact U]). assert (B2 : (S q * m <= np * m)%nat) by (apply Nat.mul_le_mono_r; lia).
        apply (wp_forn _ (fun d x => length x = (rank e np * m)%nat /\ (forall k, (k < d)%nat -> coord m x (rank e q) k = coord m a q k) /\ forall i k, (i < q)%nat -> used e i = true -> (k < m)%nat -> coord m x (rank e i) k = coord m a i k)); [lia| | |].
        + split; [exact Lx|]. split; [intros; lia|exact Nx].
        + intros d y Hd (Ly & Cy & Ny). rewrite (vgetn R 0) by lia. cbn [bind]. apply (wp_vset_nth _ 0); [lia|]. intros z Lz Nz. split; [lia|]. split.
          * intros k Hk. unfold coord in *. rewrite Nz. destruct (Nat.eqb_spec (m * rank e q + k) (rank e q * m + d)) as [E|N].
            -- assert (k = d) by lia. subst k. f_equal. lia.
            -- apply Cy. lia.
          * intros i k Hi Ui Hk. pose proof (rank_lt e i q Hi Ui) as Rk. assert (B3 : (S (rank e i) * m <= rank e q * m)%nat) by (apply Nat.mul_le_mono_r; lia). unfold coord in *. rewrite Nz. destruct (Nat.eqb_spec (m * rank e i + k) (rank e q * m + d)) as [E|N]; [lia|]. apply Ny; assumption.
        + intros y (Ly & Cy & Ny). split; [exact Ly|]. intros i k Hi Ui Hk. destruct (Nat.eq_dec i q) as [->|N]; [apply Cy; exact Hk|apply Ny; [lia|exact Ui|exact Hk]].
      - change (Z.eqb (-2) (-2)) with true. cbv iota. cbn [wp]. split; [exact Lx|]. intros i k Hi Ui Hk. destruct (Nat.eq_dec i q) as [->|N]; [congruence|]. apply Nx; [lia|exact Ui|exact Hk]. }
    intros x (Lx & Nx). assert (Hin : forall j, (j < length e)%nat -> (nth j e 0 < np)%nat /\ used e (nth j e 0%nat) = true) by (intros j Hj; pose proof (nth_In e 0%nat Hj) as I; split; [apply Hv; exact I|apply used_in; exact I]).
    apply wp_bind. apply (wp_forn _ (fun q e1 => length e1 = length e /\ forall j, (j < q)%nat -> nth j e1 0%nat = rank e (nth j e 0%nat))); [lia| | |].
    { split; [apply length_vresize|]. intros. lia. }
    { intros q e1 Hq (Le & Ne). destruct (Hin q ltac:(lia)) as (I1 & I2). rewrite (vgetn nat 0%nat) by lia. cbn [bind]. rewrite (vgetn Z 0%Z) by lia. cbn [bind]. rewrite M by exact I1. unfold zmap. rewrite I2, Nat2Z.id.
      apply (wp_vset_nth _ 0%nat); [lia|]. intros e2 L2 N2. split; [lia|]. intros j Hj. rewrite N2. destruct (Nat.eqb_spec j q) as [->|N]; [reflexivity|]. apply Ne. lia. }
    intros e1 (Le & Ne). cbn [wp fst snd]. split; [|split; [exact Lm|split]].
    - split; [exact Le|]. split; [|split; [|split]].
      + intros j k Hj Hk. rewrite Ne by exact Hj. apply Nx; [apply Hin; exact Hj|apply Hin; exact Hj|exact Hk].
      + intros j j' Hj Hj' H. rewrite !Ne by assumption. apply rank_lt; [exact H|apply Hin; exact Hj].
      + intros j j' Hj Hj' H. rewrite !Ne by assumption. rewrite H. reflexivity.
      + exists (rank e np). split; [exact Lx|]. intros i. split.
        * intros I. apply (In_nth _ _ 0%nat) in I. destruct I as (j & Hj & <-). rewrite Le in Hj. rewrite Ne by exact Hj. destruct (Hin j Hj). apply rank_lt; assumption.
        * intros I. apply rank_onto in I. destruct I as (i0 & H0 & U & <-). apply used_in in U. apply (In_nth _ _ 0%nat) in U. destruct U as (j & Hj & Ej). rewrite <- Ej. rewrite <- Ne by exact Hj. apply nth_In. lia.
    - intros j Hj. destruct (Hin j Hj) as (I1 & I2). rewrite M by exact I1. unfold zmap. rewrite I2, Ne by exact Hj. reflexivity.
    - intros i Hi NI. rewrite M by exact Hi. unfold zmap. destruct (used e i) eqn:U; [apply used_in in U; contradiction|reflexivity]. }
  apply wp_iff in W. destruct W as (((a1 & e1) & mp) & E & H). exists a1, e1, mp. split; [exact E|exact H].
Qed.

(** * quality *)
Lemma xy_pnt2 : forall a i, (2 * i + 1 < length a)%nat -> xy a i = Some (pnt2 a i).
Proof.
  intros a i H. unfold xy. rewrite (vgetn R 0) by lia. cbn [bind]. rewrite (vgetn R 0) by lia. cbn [bind]. unfold pnt2, coord. do 2 f_equal; f_equal; lia.
Qed.
Lemma dist2_eq : forall p q, Distance2D p q = dist2 p q.
Proof. intros. unfold Distance2D, dist2. f_equal. ring. Qed.
Lemma dist2_sym : forall p q, dist2 p q = dist2 q p.
Proof. intros. unfold dist2. f_equal. ring. Qed.
Definition tri_aspect (a : list R) (tri : list nat) (t : nat) : R := aspect (pnt2 a (cor 3 tri t 0)) (pnt2 a (cor 3 tri t 1)) (pnt2 a (cor 3 tri t 2)) (tri_area2 a tri t).
Lemma area2d_eq : forall a tri t, Area_Tri2 (pnt2 a (cor 3 tri t 0)) (pnt2 a (cor 3 tri t 1)) (pnt2 a (cor 3 tri t 2)) = tri_area2 a tri t.
Proof. intros. unfold Area_Tri2, tri_area2, pnt2, coord. cbn [fst snd]. rewrite !Nat.add_0_r. field. Qed.
Lemma quality_proof : forall a tri n, (3 * n <= length tri)%nat -> (forall i, In i tri -> (2 * i + 1 < length a)%nat) -> (0 < n)%nat -> (forall t, (t < n)%nat -> tri_area2 a tri t <> 0) ->
  exists mx mn, Quality_MeshTri2D a tri n = Some (mx, mn) /\
    (forall t, (t < n)%nat -> tri_aspect a tri t <= mx) /\ (exists t, (t < n)%nat /\ tri_aspect a tri t = mx) /\
    (forall t, (t < n)%nat -> mn <= tri_area2 a tri t) /\ (exists t, (t < n)%nat /\ tri_area2 a tri t = mn).
Proof.
  intros a tri n Hl Hv Hn Ha. set (I := fun q (st : R * R) => (0 < q)%nat ->
    (forall t, (t < q)%nat -> tri_aspect a tri t <= fst st) /\ (exists t, (t < q)%nat /\ tri_aspect a tri t = fst st) /\ (forall t, (t < q)%nat -> snd st <= tri_area2 a tri t) /\ (exists t, (t < q)%nat /\ tri_area2 a tri t = snd st)).
  assert (W : wp (Quality_MeshTri2D a tri n) (fun r => I n r)).
  { unfold Quality_MeshTri2D. apply (wp_forn _ I); [lia|intros H; lia| |auto]. intros q (mx & mn) Hq HI.
    assert (C : forall k, (k < 3)%nat -> vget tri (q * 3 + k) = Some (cor 3 tri q k) /\ xy a (cor 3 tri q k) = Some (pnt2 a (cor 3 tri q k))).
    { intros k Hk. rewrite (vgetn nat 0%nat) by lia. unfold cor. replace (q * 3 + k)%nat with (3 * q + k)%nat by lia. split; [reflexivity|]. apply xy_pnt2, Hv, nth_In. lia. }
    rewrite (proj1 (C 0%nat ltac:(lia))). cbn [bind]. rewrite (proj1 (C 1%nat ltac:(lia))). cbn [bind]. rewrite (proj1 (C 2%nat ltac:(lia))). cbn [bind].
    rewrite (proj2 (C 0%nat ltac:(lia))). cbn [bind]. rewrite (proj2 (C 1%nat ltac:(lia))). cbn [bind]. rewrite (proj2 (C 2%nat ltac:(lia))). cbn [bind]. cbv zeta. rewrite area2d_eq, !dist2_eq.
    unfold ndiv. pose proof (eqRs (tri_area2 a tri q) 0) as Q. destruct (eqR (tri_area2 a tri q) 0); [exfalso; apply (Ha q ltac:(lia)); exact Q|]. cbn [bind].
    match goal with |- context [?x / tri_area2 a tri q] => replace (x / tri_area2 a tri q) with (tri_aspect a tri q) by (unfold tri_aspect, aspect; field; exact Q) end.
    destruct (Nat.eqb_spec q 0) as [->|N]; cbn [wp]; intros _; cbn [fst snd].
    - split; [|split; [|split]]; [intros t Ht; assert (t = 0)%nat by lia; subst; lra|exists 0%nat; split; [lia|reflexivity]|intros t Ht; assert (t = 0)%nat by lia; subst; lra|exists 0%nat; split; [lia|reflexivity]].
    - destruct (HI ltac:(lia)) as (A1 & (t1 & T1 & E1) & A2 & (t2 & T2 & E2)). cbn [fst snd] in *. pose proof (ltRs mx (tri_aspect a tri q)) as Q1. pose proof (ltRs (tri_area2 a tri q) mn) as Q2. split; [|split; [|split]].
      + intros t Ht. destruct (Nat.eq_dec t q) as [->|Nt]; [destruct (ltR mx (tri_aspect a tri q)); lra|]. pose proof (A1 t ltac:(lia)). destruct (ltR mx (tri_aspect a tri q)); lra.
      + destruct (ltR mx (tri_aspect a tri q)); [exists q; split; [lia|reflexivity]|exists t1; split; [lia|exact E1]].
      + intros t Ht. destruct (Nat.eq_dec t q) as [->|Nt]; [destruct (ltR (tri_area2 a tri q) mn); lra|]. pose proof (A2 t ltac:(lia)). destruct (ltR (tri_area2 a tri q) mn); lra.
      + destruct (ltR (tri_area2 a tri q) mn); [exists q; split; [lia|reflexivity]|exists t2; split; [lia|exact E2]]. }
  apply wp_iff in W. destruct W as ((mx & mn) & E & H). exists mx, mn. split; [exact E|]. exact (H Hn).
Qed.

(** * smoothing *)
Lemma half_nth : forall a b i k, length b = length a -> (3 * i <= length a)%nat -> nth k (half_done a b i) 0 = if (k <? 3 * i)%nat then nth k b 0 else nth k a 0.
Proof.
  intros a b i k Hl Hi. unfold half_done. destruct (Nat.ltb_spec k (3 * i)) as [L|L].
  - rewrite app_nth1 by (rewrite firstn_length; lia). rewrite <- (firstn_skipn (3 * i) b) at 2. rewrite app_nth1 by (rewrite firstn_length; lia). reflexivity.
  - rewrite app_nth2 by (rewrite firstn_length; lia). rewrite firstn_length, Nat.min_l by lia. rewrite <- (firstn_skipn (3 * i) a) at 2. rewrite app_nth2 by (rewrite firstn_length; lia). rewrite firstn_length, Nat.min_l by lia. reflexivity.
Qed.
Lemma half_length : forall a b i, length b = length a -> length (half_done a b i) = length a.
Proof. intros. unfold half_done. rewrite app_length, firstn_length, skipn_length. lia. Qed.
Lemma half_ext : forall a b b' i, length b = length a -> length b' = length a -> (3 * i <= length a)%nat -> (forall k, (k < 3 * i)%nat -> nth k b 0 = nth k b' 0) -> half_done a b i = half_done a b' i.
Proof.
  intros a b b' i L L' Hi H. apply (nth_ext _ _ 0 0); [rewrite !half_length by assumption; reflexivity|]. intros k _. rewrite !half_nth by assumption. destruct (Nat.ltb_spec k (3 * i)); [apply H; assumption|reflexivity].
Qed.
Definition lap_step (tri ind lst : list nat) (ip : nat) (a : list R) : option (list R) :=
  lo <- vget ind ip ;; hi <- vget ind (ip + 1) ;;
  '(pcnt, sum_area) <- forn lo hi (fun ielsup st =>
    let '(pcnt, sum_area) := st in
    assertb (ielsup <? length lst)%nat ;;;
    iel <- vget lst ielsup ;;
    assertb (iel <? length tri / 3)%nat ;;;
    '(p0, p1, p2) <- tri3 tri a iel ;;
    let area := TriArea3D p0 p1 p2 in
    Some (V3 (vx pcnt + area * (vx p0 + vx p1 + vx p2) / 3) (vy pcnt + area * (vy p0 + vy p1 + vy p2) / 3) (vz pcnt + area * (vz p0 + vz p1 + vz p2) / 3), sum_area + area)) (V3 0 0 0, 0) ;;
  pcnt <- divide pcnt sum_area ;; put3 a ip pcnt.
Lemma lap_step_ok : forall tri ind lst ip a n, lists_ok n tri ind lst -> (ip < n)%nat -> valid tri a ->
  lap_step tri ind lst ip a = (let lo := nth ip ind 0%nat in let m := (nth (ip + 1) ind 0 - lo)%nat in
    c <- divide (wsum m (fun j => tri_area a tri (nth (lo + j) lst 0%nat)) (fun j => tri_mid a tri (nth (lo + j) lst 0%nat))) (sum m (fun j => tri_area a tri (nth (lo + j) lst 0%nat))) ;; put3 a ip c).
Proof.
  intros tri ind lst ip a n (H1 & H2 & H3) Hi Hv. unfold lap_step. rewrite (vgetn nat 0%nat) by lia. cbn [bind]. rewrite (vgetn nat 0%nat) by lia. cbn [bind]. cbv zeta.
  pose proof (H2 (nth (ip + 1) ind 0%nat) ltac:(apply nth_In; lia)) as Hh.
  set (lo := nth ip ind 0%nat). set (hi := nth (ip + 1) ind 0%nat) in *.
  set (w := fun j => tri_area a tri (nth (lo + j) lst 0%nat)). set (p := fun j => tri_mid a tri (nth (lo + j) lst 0%nat)).
  set (G := forn lo hi _ _). assert (E : G = Some (wsum (hi - lo) w p, sum (hi - lo) w)).
  { unfold G. destruct (le_lt_dec lo hi) as [L|L].
    - assert (Z : (V3 0 0 0, 0) = (wsum (lo - lo) w p, sum (lo - lo) w)) by (rewrite Nat.sub_diag; reflexivity). rewrite Z.
      apply (forn_eq _ (fun i => (wsum (i - lo) w p, sum (i - lo) w))); [exact L|]. intros i Hi'. cbv beta iota.
      unfold assertb. replace (i <? length lst)%nat with true by (symmetry; apply Nat.ltb_lt; lia). cbn [bind]. rewrite (vgetn nat 0%nat) by lia. cbn [bind].
      pose proof (H3 (nth i lst 0%nat) ltac:(apply nth_In; lia)) as Ht. replace (nth i lst 0 <? length tri / 3)%nat with true by (symmetry; apply Nat.ltb_lt; exact Ht). cbn [bind]. rewrite tri3_ok by assumption. cbn [bind]. cbv zeta.
      rewrite area_eq. replace (S i - lo)%nat with (S (i - lo)) by lia. unfold wsum. cbn [sum vx vy vz]. unfold w, p. replace (lo + (i - lo))%nat with i by lia. unfold tri_area, tri_mid, mid3, comb. cbn [vx vy vz].
      f_equal. f_equal. f_equal; field.
    - assert (E0 : (hi - lo = 0)%nat) by lia. rewrite forn_foldM, E0. reflexivity. }
  rewrite E. cbn [bind]. reflexivity.
Qed.
Lemma lap_iff : forall tri ind lst a n m b, lists_ok n tri ind lst -> (m <= n)%nat -> valid tri a -> (3 * n <= length a)%nat ->
  (forn 0 m (lap_step tri ind lst) a = Some b <-> (length b = length a /\ smoothed tri ind lst a b m /\ forall k, (3 * m <= k)%nat -> nth k b 0 = nth k a 0)).
Proof.
  intros tri ind lst a n m b HL. revert b. induction m; intros b Hm Hv Hl.
  - split.
    + intros E. injection E. intros <-. split; [reflexivity|]. split; [intros i Hi; lia|reflexivity].
    + intros (L & _ & H). change (Some a = Some b). f_equal. apply (nth_ext _ _ 0 0); [auto|]. intros k _. symmetry. apply H. lia.
  - rewrite forn_S by lia. split.
    + intros E. destruct (forn 0 m (lap_step tri ind lst) a) as [c|] eqn:Ec; [|discriminate]. cbn [bind] in E. destruct (proj1 (IHm c ltac:(lia) Hv Hl) eq_refl) as (Lc & Sc & Nc).
      assert (Hc : half_done a c m = c) by (apply (nth_ext _ _ 0 0); [rewrite half_length by exact Lc; auto|]; intros k _; rewrite half_nth by (assumption || lia); destruct (Nat.ltb_spec k (3 * m)); [reflexivity|symmetry; apply Nc; assumption]).
      rewrite (lap_step_ok tri ind lst m c n) in E; [|exact HL|lia|intros i Hi; rewrite Lc; apply Hv; exact Hi]. cbv zeta in E.
      destruct (divide _ _) as [q|] eqn:Eq; [|discriminate]. cbn [bind] in E.
      assert (W : wp (put3 c m q) (fun b => length b = length a /\ pnt b m = q /\ forall k, (k < 3 * m \/ 3 * m + 2 < k)%nat -> nth k b 0 = nth k c 0)) by (apply wp_put3; [lia|]; intros b' Lb Pb Nb; repeat split; [lia|exact Pb|exact Nb]).
      rewrite E in W. cbn [wp] in W. destruct W as (Lb & Pb & Nb). split; [exact Lb|]. split.
      * intros i Hi. cbv zeta. rewrite (half_ext a b c i Lb Lc ltac:(lia)) by (intros; apply Nb; lia). destruct (Nat.eq_dec i m) as [->|N].
        -- rewrite Hc, Pb. set (mm := (nth (m + 1) ind 0 - nth m ind 0)%nat) in *. set (w := fun j => tri_area c tri (nth (nth m ind 0%nat + j) lst 0%nat)) in *. set (p := fun j => tri_mid c tri (nth (nth m ind 0%nat + j) lst 0%nat)) in *.
           destruct (divide_ok mm w p) as (D1 & D2). destruct (Req_dec (sum mm w) 0) as [Z|Z]; [rewrite (D2 Z) in Eq; discriminate|]. destruct (D1 Z) as (q' & E' & C'). rewrite E' in Eq. injection Eq. intros <-. exact C'.
        -- rewrite (pnt_same c b) by (intros; apply Nb; lia). apply Sc. lia.
      * intros k Hk. rewrite Nb by lia. apply Nc. lia.
    + intros (Lb & Sb & Nb). set (c := half_done a b m).
      assert (Lc : length c = length a) by (apply half_length; exact Lb).
      assert (Nc : forall k, nth k c 0 = if (k <? 3 * m)%nat then nth k b 0 else nth k a 0) by (intros; apply half_nth; [exact Lb|lia]).
      assert (Ec : forn 0 m (lap_step tri ind lst) a = Some c).
      { apply IHm; [lia|exact Hv|exact Hl|]. split; [exact Lc|]. split.
        - intros i Hi. pose proof (Sb i ltac:(lia)) as Q. cbv zeta in *. rewrite (half_ext a c b i Lc Lb ltac:(lia)) by (intros k Hk; rewrite Nc; replace (k <? 3 * m)%nat with true by (symmetry; apply Nat.ltb_lt; lia); reflexivity).
          rewrite (pnt_same b c); [exact Q|]. intros k Hk. rewrite Nc. replace (k <? 3 * m)%nat with true by (symmetry; apply Nat.ltb_lt; lia). reflexivity.
        - intros k Hk. rewrite Nc. replace (k <? 3 * m)%nat with false by (symmetry; apply Nat.ltb_ge; lia). reflexivity. }
      rewrite Ec. cbn [bind]. rewrite (lap_step_ok tri ind lst m c n); [|exact HL|lia|intros i Hi; rewrite Lc; apply Hv; exact Hi]. cbv zeta.
      pose proof (Sb m ltac:(lia)) as Q. cbv zeta in Q. fold c in Q.
      set (mm := (nth (m + 1) ind 0 - nth m ind 0)%nat) in *. set (w := fun j => tri_area c tri (nth (nth m ind 0%nat + j) lst 0%nat)) in *. set (p := fun j => tri_mid c tri (nth (nth m ind 0%nat + j) lst 0%nat)) in *.
      destruct (divide_ok mm w p) as (D1 & _). destruct (D1 (proj1 Q)) as (q & E' & C'). rewrite E'. cbn [bind]. pose proof (centre_unique _ _ _ _ _ Q C') as Eq. subst q.
      assert (W : wp (put3 c m (pnt b m)) (fun r => r = b)).
      { apply wp_put3; [lia|]. intros r Lr Pr Nr. apply (nth_ext _ _ 0 0); [lia|]. intros k _. destruct (le_lt_dec (3 * m) k) as [G|G]; [destruct (le_lt_dec k (3 * m + 2)) as [G2|G2]|].
        - assert (K : (k = 3 * m \/ k = 3 * m + 1 \/ k = 3 * m + 2)%nat) by lia. destruct K as [->|[->| ->]]; [exact (f_equal vx Pr)|exact (f_equal vy Pr)|exact (f_equal vz Pr)].
        - rewrite Nr, Nc by lia. replace (k <? 3 * m)%nat with false by (symmetry; apply Nat.ltb_ge; lia). symmetry. apply Nb. lia.
        - rewrite Nr, Nc by lia. replace (k <? 3 * m)%nat with true by (symmetry; apply Nat.ltb_lt; lia). reflexivity. }
      apply wp_iff in W. destruct W as (r & Er & ->). exact Er.
Qed.
Lemma lap_proof : forall tri ind lst a b, lists_ok (length a / 3) tri ind lst -> valid tri a ->
  (LaplacianSmoothing a tri ind lst = Some b <-> (length b = length a /\ smoothed tri ind lst a b (length a / 3) /\ forall k, (3 * (length a / 3) <= k)%nat -> nth k b 0 = nth k a 0)).
Proof. intros tri ind lst a b HL Hv. apply (lap_iff tri ind lst a (length a / 3) (length a / 3) b HL (le_n _) Hv (length_div3 a)). Qed.
Lemma inside_mid3 : forall lo hi p q r, inside lo hi p -> inside lo hi q -> inside lo hi r -> inside lo hi (mid3 p q r).
Proof. intros lo hi p q r. unfold inside, mid3, comb. cbn [vx vy vz]. intros. lra. Qed.
Lemma lap_box : forall tri ind lst a b lo hi, lists_ok (length a / 3) tri ind lst -> (forall i, In i tri -> (i < length a / 3)%nat) -> (forall i, (i < length a / 3)%nat -> inside lo hi (pnt a i)) ->
  LaplacianSmoothing a tri ind lst = Some b -> forall i, (i < length a / 3)%nat -> inside lo hi (pnt b i).
Proof.
  intros tri ind lst a b lo hi HL Hv0 Hin E. assert (Hv : valid tri a) by (intros i Hi; apply div3_lt, Hv0, Hi). apply lap_proof in E; [|exact HL|exact Hv]. destruct E as (Lb & Sb & _).
  pose proof (length_div3 a) as D. induction i as [i IH] using lt_wf_ind. intros Hi. pose proof (Sb i Hi) as Q. cbv zeta in Q. set (c := half_done a b i) in *.
  assert (P : forall j, (j < length a / 3)%nat -> inside lo hi (pnt c j)).
  { intros j Hj. destruct (le_lt_dec i j) as [G|G].
    - rewrite (pnt_same a c); [apply Hin; exact Hj|]. intros k Hk. unfold c. rewrite half_nth by (assumption || lia). replace (k <? 3 * i)%nat with false by (symmetry; apply Nat.ltb_ge; lia). reflexivity.
    - rewrite (pnt_same b c); [apply IH; assumption|]. intros k Hk. unfold c. rewrite half_nth by (assumption || lia). replace (k <? 3 * i)%nat with true by (symmetry; apply Nat.ltb_lt; lia). reflexivity. }
  destruct HL as (H1 & H2 & H3). pose proof (H2 (nth (i + 1) ind 0%nat) ltac:(apply nth_In; lia)) as Hh.
  apply (centre_box _ _ _ _ lo hi) in Q; [exact Q| |].
  - intros j Hj. unfold tri_area. pose proof (area2_nonneg (at_corner c 3 tri (nth (nth i ind 0%nat + j) lst 0%nat) 0) (at_corner c 3 tri (nth (nth i ind 0%nat + j) lst 0%nat) 1) (at_corner c 3 tri (nth (nth i ind 0%nat + j) lst 0%nat) 2)). lra.
  - intros j Hj. pose proof (H3 (nth (nth i ind 0%nat + j) lst 0%nat) ltac:(apply nth_In; lia)) as Ht. pose proof (Nat.mul_div_le (length tri) 3 ltac:(lia)) as D3. unfold tri_mid, at_corner, cor. right. apply inside_mid3; apply P, Hv0, nth_In; lia.
Qed.

(** * joining meshes *)
Lemma nth_pnt_app : forall a b i, (3 * i + 2 < length a)%nat -> pnt (a ++ b) i = pnt a i.
Proof. intros. unfold pnt. rewrite !app_nth1 by lia. reflexivity. Qed.
Lemma addmesh_proof : forall a tri a0 tri0, length a = (3 * (length a / 3))%nat -> length tri = (3 * (length tri / 3))%nat -> valid tri a -> valid tri0 a0 ->
  let '(a', tri') := AddMesh a tri a0 tri0 in
    valid tri' a' /\ length tri' = (length tri + length tri0)%nat /\
    (forall t k, (t < length tri / 3)%nat -> (k < 3)%nat -> at_corner a' 3 tri' t k = at_corner a 3 tri t k) /\
    (forall t k, (t < length tri0 / 3)%nat -> (k < 3)%nat -> at_corner a' 3 tri' (length tri / 3 + t) k = at_corner a0 3 tri0 t k).
Proof.
  intros a tri a0 tri0 Ha Ht Hv Hv0. unfold AddMesh. set (np := (length a / 3)%nat) in *. set (nt := (length tri / 3)%nat) in *. split; [|split; [|split]].
  - intros i Hi. rewrite app_length. apply in_app_or in Hi. destruct Hi as [Hi|Hi]; [pose proof (Hv i Hi); lia|]. apply in_map_iff in Hi. destruct Hi as (j & <- & Hj). pose proof (Hv0 j Hj). lia.
  - rewrite app_length, map_length. reflexivity.
  - intros t k H1 H2. unfold at_corner, cor. rewrite app_nth1 by lia. apply nth_pnt_app. apply Hv, nth_In. lia.
  - intros t k H1 H2. pose proof (Nat.mul_div_le (length tri0) 3 ltac:(lia)) as D. unfold at_corner, cor. rewrite app_nth2 by lia. replace (3 * (nt + t) + k - length tri)%nat with (3 * t + k)%nat by lia.
    rewrite (nth_indep _ 0%nat (0 + np)%nat) by (rewrite map_length; lia). rewrite (map_nth (fun i => (i + np)%nat)). set (j := nth (3 * t + k) tri0 0%nat). unfold pnt. rewrite !app_nth2 by lia.
    replace (3 * (j + np) - length a)%nat with (3 * j)%nat by lia. replace (3 * (j + np) + 1 - length a)%nat with (3 * j + 1)%nat by lia. replace (3 * (j + np) + 2 - length a)%nat with (3 * j + 2)%nat by lia. reflexivity.
Qed.

(** * distortion *)
Lemma distortion_proof : forall tA tE t tri a tex,
  let p := fun k => at_corner a 3 tri t k in let s := fun k => pnt2 tex (cor 3 tri t k) in
  (3 * t + 2 < length tri)%nat -> valid tri a -> (forall i, In i tri -> (2 * i + 1 < length tex)%nat) ->
  tri_area2 tex tri t <> 0 -> tri_area a tri t <> 0 -> (forall k l, (k < 3)%nat -> (l < 3)%nat -> k <> l -> dist2 (s k) (s l) <> 0 /\ dist3 (p k) (p l) <> 0) ->
  exists bad, Distortion_MappingTriangleFrom2To3Dim tA tE t tri a tex = Some bad /\
    (bad = false <-> (0 < tri_area2 tex tri t /\ mean_ratio (tri_area2 tex tri t) (tri_area a tri t) <= tA /\
      mean_ratio (dist2 (s 1%nat) (s 2%nat)) (dist3 (p 1%nat) (p 2%nat)) <= tE /\ mean_ratio (dist2 (s 2%nat) (s 0%nat)) (dist3 (p 2%nat) (p 0%nat)) <= tE /\ mean_ratio (dist2 (s 0%nat) (s 1%nat)) (dist3 (p 0%nat) (p 1%nat)) <= tE)).
Proof.
  intros tA tE t tri a tex p s Hl Hv Hx HA HB HD. unfold Distortion_MappingTriangleFrom2To3Dim.
  assert (C : forall k, (k < 3)%nat -> vget tri (t * 3 + k) = Some (cor 3 tri t k) /\ xy tex (cor 3 tri t k) = Some (s k) /\ xyz a (cor 3 tri t k) = Some (p k)).
  { intros k Hk. destruct (valid_cor a 3 tri t k Hv ltac:(lia)) as (V1 & V2). split; [exact V1|]. split; [|exact V2]. apply xy_pnt2, Hx, nth_In. lia. }
  destruct (C 0%nat ltac:(lia)) as (a0 & b0 & c0). destruct (C 1%nat ltac:(lia)) as (a1 & b1 & c1). destruct (C 2%nat ltac:(lia)) as (a2 & b2 & c2).
  rewrite a0. cbn [bind]. rewrite a1. cbn [bind]. rewrite a2. cbn [bind]. rewrite b0. cbn [bind]. rewrite b1. cbn [bind]. rewrite b2. cbn [bind]. rewrite c0. cbn [bind]. rewrite c1. cbn [bind]. rewrite c2. cbn [bind]. cbv zeta.
  assert (EA : Area_Tri2 (s 0%nat) (s 1%nat) (s 2%nat) = tri_area2 tex tri t) by apply area2d_eq. rewrite EA.
  assert (EB : TriArea3D (p 0%nat) (p 1%nat) (p 2%nat) = tri_area a tri t) by apply area_eq. rewrite EB. rewrite !dist2_eq, !dist_eq.
  assert (SC : forall x y, x <> 0 -> y <> 0 -> (u <- ndiv x y ;; v <- ndiv y x ;; Some (1 / 2 * (u + v))) = Some (mean_ratio x y)).
  { intros x y Nx Ny. unfold ndiv. pose proof (eqRs y 0) as Q. destruct (eqR y 0); [contradiction|]. cbn [bind]. pose proof (eqRs x 0) as Q2. destruct (eqR x 0); [contradiction|]. cbn [bind]. f_equal. unfold mean_ratio. field. auto. }
  rewrite SC by assumption. cbn [bind].
  assert (PA : 0 < tri_area a tri t) by (pose proof (area2_nonneg (p 0%nat) (p 1%nat) (p 2%nat)); unfold tri_area in *; unfold p in *; lra).
  set (A := tri_area2 tex tri t) in *. set (B := tri_area a tri t) in *. assert (SG : 0 < A -> 0 < mean_ratio A B) by (intros G; pose proof (Rdiv_lt_0_compat A B G PA); pose proof (Rdiv_lt_0_compat B A PA G); unfold mean_ratio; lra).
  assert (SN : A < 0 -> mean_ratio A B < 0) by (intros G; pose proof (Rdiv_lt_0_compat (- A) B ltac:(lra) PA) as G1; pose proof (Rdiv_lt_0_compat B (- A) PA ltac:(lra)) as G2; unfold mean_ratio; replace (- A / B) with (- (A / B)) in G1 by (field; lra); replace (B / - A) with (- (B / A)) in G2 by (field; lra); lra).
  clearbody A B. pose proof (ltRs (mean_ratio A B) 0) as Q1. pose proof (ltRs tA (mean_ratio A B)) as Q2.
  destruct (ltR (mean_ratio A B) 0); cbn [orb].
  { exists true. split; [reflexivity|]. split; [discriminate|]. intros (G & _). pose proof (SG G). lra. }
  assert (GA : 0 < A) by (destruct (Rlt_or_le 0 A) as [G|G]; [exact G|]; pose proof (SN ltac:(lra)); lra).
  destruct (ltR tA (mean_ratio A B)).
  { exists true. split; [reflexivity|]. split; [discriminate|]. intros (_ & G & _). lra. }
  destruct (HD 1%nat 2%nat ltac:(lia) ltac:(lia) ltac:(lia)) as (N1 & N2). destruct (HD 2%nat 0%nat ltac:(lia) ltac:(lia) ltac:(lia)) as (N3 & N4). destruct (HD 0%nat 1%nat ltac:(lia) ltac:(lia) ltac:(lia)) as (N5 & N6).
  rewrite SC by assumption. cbn [bind]. match goal with |- context [ltR tE ?x] => pose proof (ltRs tE x) as Q3; destruct (ltR tE x) end.
  { exists true. split; [reflexivity|]. split; [discriminate|]. intros (_ & _ & G & _). lra. }
  rewrite SC by assumption. cbn [bind]. match goal with |- context [ltR tE ?x] => pose proof (ltRs tE x) as Q4; destruct (ltR tE x) end.
  { exists true. split; [reflexivity|]. split; [discriminate|]. intros (_ & _ & _ & G & _). lra. }
  rewrite SC by assumption. cbn [bind]. match goal with |- context [ltR tE ?x] => pose proof (ltRs tE x) as Q5; destruct (ltR tE x) end.
  { exists true. split; [reflexivity|]. split; [discriminate|]. intros (_ & _ & _ & _ & G). lra. }
  exists false. split; [reflexivity|]. split; [intros _|reflexivity]. repeat split; lra.
Qed.
Lemma mean_ratio_ge : forall a b, 0 < a -> 0 < b -> 1 <= mean_ratio a b /\ (mean_ratio a b = 1 <-> a = b).
Proof.
  intros a b Ha Hb. assert (E : mean_ratio a b = 1 + (a - b) * (a - b) / (2 * (a * b))) by (unfold mean_ratio; field; lra). assert (P : 0 < 2 * (a * b)) by (pose proof (Rmult_lt_0_compat a b Ha Hb); lra).
  assert (S : 0 <= (a - b) * (a - b)) by (pose proof (Rle_0_sqr (a - b)) as Q; exact Q). split; [|split].
  - rewrite E. pose proof (Rmult_le_pos _ _ S (Rlt_le _ _ (Rinv_0_lt_compat _ P))). unfold Rdiv. lra.
  - intros H. rewrite E in H. assert (Z : (a - b) * (a - b) / (2 * (a * b)) = 0) by lra. assert (Z2 : (a - b) * (a - b) = 0) by (replace ((a - b) * (a - b)) with ((a - b) * (a - b) / (2 * (a * b)) * (2 * (a * b))) by (field; lra); rewrite Z; ring). apply Rmult_integral in Z2. lra.
  - intros ->. unfold mean_ratio. field. lra.
Qed.

(** * normals *)
Lemma un_iff : forall p q r u, unit_normal_tri p q r = Some u <-> unit_normal p q r u.
Proof.
  intros p q r u. unfold unit_normal_tri, unit_normal. set (n := V3 ((vy q - vy p) * (vz r - vz p) - (vy r - vy p) * (vz q - vz p)) ((vz q - vz p) * (vx r - vx p) - (vz r - vz p) * (vx q - vx p)) ((vx q - vx p) * (vy r - vy p) - (vx r - vx p) * (vy q - vy p))).
  set (e := vadd q (vscale (-1) p)). set (f := vadd r (vscale (-1) p)).
  assert (En : vcross e f = n) by (unfold e, f, n, vcross, vadd, vscale; cbn [vx vy vz]; apply v3_eq; cbn [vx vy vz]; ring). rewrite En.
  assert (O1 : vdot n e = 0) by (rewrite <- En; unfold vdot, vcross; cbn [vx vy vz]; ring). assert (O2 : vdot n f = 0) by (rewrite <- En; unfold vdot, vcross; cbn [vx vy vz]; ring). clearbody n e f.
  set (N := sqrt (vx n * vx n + vy n * vy n + vz n * vz n)). assert (NN : N * N = vdot n n) by (unfold N, vdot; apply sqrt_sqrt; pose proof (Rle_0_sqr (vx n)); pose proof (Rle_0_sqr (vy n)); pose proof (Rle_0_sqr (vz n)); unfold Rsqr in *; lra).
  assert (NP : 0 <= N) by apply sqrt_pos. cbv zeta. clearbody N. unfold ndiv. pose proof (eqRs (N / 2 * 2) 0) as Q. split.
  - intros E. destruct (eqR (N / 2 * 2) 0); [discriminate|]. cbn [bind] in E. assert (N0 : N <> 0) by (intros Z; apply Q; rewrite Z; field). injection E. intros <-. clear E. unfold vdot in *. cbn [vx vy vz].
    split; [|split; [|split]].
    + transitivity ((vx n * vx e + vy n * vy e + vz n * vz e) / N); [field; exact N0|rewrite O1; field; exact N0].
    + transitivity ((vx n * vx f + vy n * vy f + vz n * vz f) / N); [field; exact N0|rewrite O2; field; exact N0].
    + transitivity ((vx n * vx n + vy n * vy n + vz n * vz n) / (N * N)); [field; exact N0|rewrite <- NN; field; exact N0].
    + replace (_ + _ + _) with ((vx n * vx n + vy n * vy n + vz n * vz n) / N) by (field; exact N0). rewrite <- NN. replace (N * N / N) with N by (field; exact N0). lra.
  - intros (U1 & U2 & U3 & U4). set (s := vdot u n) in *.
    assert (K : n = vscale s u).
    { clear - En U1 U2 U3. assert (X : forall a b c, a * 0 - b * 0 = c -> c = 0) by (intros; lra).
      assert (H1 : vx n * vdot u u - vx u * vdot u n = - (vy u * (vz e * vdot u f - vz f * vdot u e) - vz u * (vy e * vdot u f - vy f * vdot u e))) by (rewrite <- En; unfold vdot, vcross; cbn [vx vy vz]; ring).
      assert (H2 : vy n * vdot u u - vy u * vdot u n = - (vz u * (vx e * vdot u f - vx f * vdot u e) - vx u * (vz e * vdot u f - vz f * vdot u e))) by (rewrite <- En; unfold vdot, vcross; cbn [vx vy vz]; ring).
      assert (H3 : vz n * vdot u u - vz u * vdot u n = - (vx u * (vy e * vdot u f - vy f * vdot u e) - vy u * (vx e * vdot u f - vx f * vdot u e))) by (rewrite <- En; unfold vdot, vcross; cbn [vx vy vz]; ring).
      rewrite U1, U2, U3 in *. fold s in H1, H2, H3. unfold vscale. apply v3_eq; cbn [vx vy vz]; lra. }
    assert (NS : N = s). { assert (E2 : N * N = s * s) by (rewrite NN, K; transitivity (s * s * vdot u u); [unfold vdot, vscale; cbn [vx vy vz]; ring|rewrite U3; ring]). assert (G : (N - s) * (N + s) = 0) by (ring_simplify; lra). apply Rmult_integral in G. lra. }
    destruct (eqR (N / 2 * 2) 0); [lra|]. cbn [bind]. f_equal. rewrite NS. assert (Kx := f_equal vx K). assert (Ky := f_equal vy K). assert (Kz := f_equal vz K). unfold vscale in Kx, Ky, Kz. cbn [vx vy vz] in Kx, Ky, Kz. clearbody s. apply v3_eq; cbn [vx vy vz]; [rewrite Kx|rewrite Ky|rewrite Kz]; field; lra.
Qed.
Lemma un_none : forall p q r, (forall u, ~ unit_normal p q r u) -> unit_normal_tri p q r = None.
Proof. intros p q r H. destruct (unit_normal_tri p q r) as [u|] eqn:E; [|reflexivity]. apply un_iff in E. exfalso. apply (H u E). Qed.
Definition pick (c i : nat) (u : vec3) : vec3 := if (c =? i)%nat then u else V3 0 0 0.
Lemma wp_inc_pick : forall a i u np (P : list R -> Prop), length a = (3 * np)%nat -> (i < np)%nat ->
  (forall a', length a' = (3 * np)%nat -> (forall j, (j < np)%nat -> pnt a' j = add3 (pnt a j) (pick i j u)) -> P a') -> wp (inc3 a i u) P.
Proof.
  intros a i u np P La Hi HP. apply wp_inc3; [lia|]. intros a' La' Pa' Na'. apply HP; [lia|]. intros j Hj. unfold pick. destruct (Nat.eqb_spec i j) as [->|N]; [exact Pa'|].
  rewrite (pnt_same a a') by (intros; apply Na'; lia). unfold add3. apply v3_eq; cbn [vx vy vz]; ring.
Qed.
Lemma norm_end : forall a np (g : nat -> vec3), length a = (3 * np)%nat -> (forall j, (j < np)%nat -> pnt a j = g j) -> (forall i, (i < np)%nat -> g i <> V3 0 0 0) ->
  wp (NormalizeVector_Points a np) (fun r => length r = (3 * np)%nat /\ forall i, (i < np)%nat -> direction (g i) (pnt r i)).
Proof.
  intros a np g La Pa G. destruct (normalize_vec_proof a np ltac:(lia)) as (N1 & _). destruct N1 as (r & E & Lr & D); [intros i Hi; rewrite Pa by exact Hi; apply G; exact Hi|].
  rewrite E. cbn [wp]. split; [lia|]. intros i Hi. rewrite <- Pa by exact Hi. apply D. exact Hi.
Qed.
Lemma zero_pnt : forall n j, pnt (repeat 0 n) j = V3 0 0 0.
Proof. intros. unfold pnt. rewrite !repeat_nth0. reflexivity. Qed.
Definition tri_loop (l : list R) (np : nat) (tri : list nat) (n : nat) : option (list R) :=
  forn 0 n (fun itri a =>
    i0 <- vget tri (itri * 3 + 0) ;; assertb (i0 <? np)%nat ;;;
    i1 <- vget tri (itri * 3 + 1) ;; assertb (i1 <? np)%nat ;;;
    i2 <- vget tri (itri * 3 + 2) ;; assertb (i2 <? np)%nat ;;;
    p0 <- xyz l i0 ;; p1 <- xyz l i1 ;; p2 <- xyz l i2 ;;
    un <- unit_normal_tri p0 p1 p2 ;;
    a <- inc3 a i0 un ;; a <- inc3 a i1 un ;; inc3 a i2 un) (repeat 0 (np * 3)).
Lemma tri_loop_ok : forall l np tri n u, (3 * np <= length l)%nat -> (3 * n <= length tri)%nat -> (forall i, In i tri -> (i < np)%nat) ->
  (forall t, (t < n)%nat -> unit_normal (at_corner l 3 tri t 0) (at_corner l 3 tri t 1) (at_corner l 3 tri t 2) (u t)) ->
  wp (tri_loop l np tri n) (fun a => length a = (3 * np)%nat /\ forall j, (j < np)%nat -> pnt a j = gathered 3 tri n (fun t _ => u t) j).
Proof.
  intros l np tri n u Hl Ht Hv Hu. unfold tri_loop. apply (wp_forn _ (fun q a => length a = (3 * np)%nat /\ forall j, (j < np)%nat -> pnt a j = gathered 3 tri q (fun t _ => u t) j)); [lia| | |auto].
  - split; [rewrite repeat_length; lia|]. intros j Hj. rewrite zero_pnt. reflexivity.
  - intros q a Hq (La & Pa). assert (V : valid tri l) by (intros i Hi; pose proof (Hv i Hi); lia).
    assert (C : forall k, (k < 3)%nat -> vget tri (q * 3 + k) = Some (cor 3 tri q k) /\ xyz l (cor 3 tri q k) = Some (at_corner l 3 tri q k)) by (intros; apply valid_cor; [exact V|lia]).
    assert (B : forall k, (k < 3)%nat -> (cor 3 tri q k < np)%nat) by (intros; apply Hv, nth_In; lia).
    destruct (C 0%nat ltac:(lia)) as (a0 & c0). destruct (C 1%nat ltac:(lia)) as (a1 & c1). destruct (C 2%nat ltac:(lia)) as (a2 & c2).
    rewrite a0. cbn [bind]. apply wp_bind, wp_assertb; [apply Nat.ltb_lt, B; lia|]. rewrite a1. cbn [bind]. apply wp_bind, wp_assertb; [apply Nat.ltb_lt, B; lia|]. rewrite a2. cbn [bind]. apply wp_bind, wp_assertb; [apply Nat.ltb_lt, B; lia|].
    rewrite c0. cbn [bind]. rewrite c1. cbn [bind]. rewrite c2. cbn [bind]. rewrite (proj2 (un_iff _ _ _ (u q)) (Hu q ltac:(lia))). cbn [bind].
    apply wp_bind, (wp_inc_pick _ _ _ np); [exact La|apply B; lia|]. intros x Lx Px. apply wp_bind, (wp_inc_pick _ _ _ np); [exact Lx|apply B; lia|]. intros y Ly Py. apply (wp_inc_pick _ _ _ np); [exact Ly|apply B; lia|]. intros z Lz Pz.
    split; [exact Lz|]. intros j Hj. rewrite Pz, Py, Px, Pa by exact Hj. unfold gathered, add3, pick. cbn [sum vx vy vz]. apply v3_eq; cbn [vx vy vz]; destruct (cor 3 tri q 0 =? j)%nat, (cor 3 tri q 1 =? j)%nat, (cor 3 tri q 2 =? j)%nat; cbn [vx vy vz]; ring.
Qed.
Lemma normal_tri_proof : forall l np tri n, (3 * np <= length l)%nat -> (3 * n <= length tri)%nat -> (forall i, In i tri -> (i < np)%nat) ->
  (forall u, (forall t, (t < n)%nat -> unit_normal (at_corner l 3 tri t 0) (at_corner l 3 tri t 1) (at_corner l 3 tri t 2) (u t)) ->
    ((forall i, (i < np)%nat -> gathered 3 tri n (fun t _ => u t) i <> V3 0 0 0) -> exists a, Normal_MeshTri3D l np tri n = Some a /\ length a = (3 * np)%nat /\ forall i, (i < np)%nat -> direction (gathered 3 tri n (fun t _ => u t) i) (pnt a i)) /\
    (forall i, (i < np)%nat -> gathered 3 tri n (fun t _ => u t) i = V3 0 0 0 -> Normal_MeshTri3D l np tri n = None)) /\
  (forall t, (t < n)%nat -> (forall u, ~ unit_normal (at_corner l 3 tri t 0) (at_corner l 3 tri t 1) (at_corner l 3 tri t 2) u) -> Normal_MeshTri3D l np tri n = None).
Proof.
  intros l np tri n Hl Ht Hv. change (Normal_MeshTri3D l np tri n) with (bind (tri_loop l np tri n) (fun a => NormalizeVector_Points a np)). split.
  - intros u Hu. pose proof (tri_loop_ok l np tri n u Hl Ht Hv Hu) as W. apply wp_iff in W. destruct W as (a & Ea & La & Pa). rewrite Ea. cbn [bind]. split.
    + intros G. apply wp_iff. apply norm_end; assumption.
    + intros i Hi G. apply (proj2 (normalize_vec_proof a np ltac:(lia)) i Hi). rewrite Pa by exact Hi. exact G.
  - intros t Ht2 Hn. assert (V : valid tri l) by (intros i Hi; pose proof (Hv i Hi); lia). unfold tri_loop. rewrite (forn_none _ _ n t); [reflexivity|exact Ht2|]. intros a.
    destruct (valid_cor l 3 tri t 0 V ltac:(lia)) as (a0 & c0). destruct (valid_cor l 3 tri t 1 V ltac:(lia)) as (a1 & c1). destruct (valid_cor l 3 tri t 2 V ltac:(lia)) as (a2 & c2).
    rewrite a0. cbn [bind]. destruct (assertb _); [|reflexivity]. cbn [bind]. rewrite a1. cbn [bind]. destruct (assertb _); [|reflexivity]. cbn [bind]. rewrite a2. cbn [bind]. destruct (assertb _); [|reflexivity]. cbn [bind]. rewrite c0. cbn [bind]. rewrite c1. cbn [bind]. rewrite c2. cbn [bind]. rewrite un_none by exact Hn. reflexivity.
Qed.
Lemma normal_quad_proof : forall l quad u, (forall i, In i quad -> (i < length l / 3)%nat) -> let np := (length l / 3)%nat in let n := (length quad / 4)%nat in
  (forall t, (t < n)%nat -> unit_normal (at_corner l 4 quad t 3) (at_corner l 4 quad t 0) (at_corner l 4 quad t 1) (u t 0%nat) /\ unit_normal (at_corner l 4 quad t 0) (at_corner l 4 quad t 1) (at_corner l 4 quad t 2) (u t 1%nat) /\
    unit_normal (at_corner l 4 quad t 1) (at_corner l 4 quad t 2) (at_corner l 4 quad t 3) (u t 2%nat) /\ unit_normal (at_corner l 4 quad t 2) (at_corner l 4 quad t 3) (at_corner l 4 quad t 0) (u t 3%nat)) ->
  (forall i, (i < np)%nat -> gathered 4 quad n u i <> V3 0 0 0) ->
  exists a, Normal_MeshQuad3 l quad = Some a /\ length a = (3 * np)%nat /\ forall i, (i < np)%nat -> direction (gathered 4 quad n u i) (pnt a i).
Proof.
  intros l quad u Hv np n Hu G. apply wp_iff. unfold Normal_MeshQuad3. fold np n. pose proof (length_div3 l) as D. fold np in D. pose proof (Nat.mul_div_le (length quad) 4 ltac:(lia)) as D4. fold n in D4.
  assert (V : valid quad l) by (intros i Hi; pose proof (Hv i Hi) as Hb; fold np in Hb; lia).
  apply wp_bind. apply (wp_forn _ (fun q a => length a = (3 * np)%nat /\ forall j, (j < np)%nat -> pnt a j = gathered 4 quad q u j)); [lia| | |].
  - split; [rewrite repeat_length; lia|]. intros j Hj. rewrite zero_pnt. reflexivity.
  - intros q a Hq (La & Pa).
    assert (C : forall k, (k < 4)%nat -> vget quad (q * 4 + k) = Some (cor 4 quad q k) /\ xyz l (cor 4 quad q k) = Some (at_corner l 4 quad q k)) by (intros; apply valid_cor; [exact V|lia]).
    assert (B : forall k, (k < 4)%nat -> (cor 4 quad q k < np)%nat) by (intros; apply Hv, nth_In; lia).
    destruct (C 0%nat ltac:(lia)) as (a0 & c0). destruct (C 1%nat ltac:(lia)) as (a1 & c1). destruct (C 2%nat ltac:(lia)) as (a2 & c2). destruct (C 3%nat ltac:(lia)) as (a3 & c3).
    rewrite a0. cbn [bind]. rewrite a1. cbn [bind]. rewrite a2. cbn [bind]. rewrite a3. cbn [bind]. rewrite c0. cbn [bind]. rewrite c1. cbn [bind]. rewrite c2. cbn [bind]. rewrite c3. cbn [bind].
    destruct (Hu q ltac:(lia)) as (U0 & U1 & U2 & U3). apply un_iff in U0. apply un_iff in U1. apply un_iff in U2. apply un_iff in U3. rewrite U0. cbn [bind]. rewrite U1. cbn [bind]. rewrite U2. cbn [bind]. rewrite U3. cbn [bind].
    apply wp_bind, (wp_inc_pick _ _ _ np); [exact La|apply B; lia|]. intros x Lx Px. apply wp_bind, (wp_inc_pick _ _ _ np); [exact Lx|apply B; lia|]. intros y Ly Py. apply wp_bind, (wp_inc_pick _ _ _ np); [exact Ly|apply B; lia|]. intros z Lz Pz. apply (wp_inc_pick _ _ _ np); [exact Lz|apply B; lia|]. intros w Lw Pw.
    split; [exact Lw|]. intros j Hj. rewrite Pw, Pz, Py, Px, Pa by exact Hj. unfold gathered, add3, pick. cbn [sum vx vy vz]. apply v3_eq; cbn [vx vy vz]; destruct (cor 4 quad q 0 =? j)%nat, (cor 4 quad q 1 =? j)%nat, (cor 4 quad q 2 =? j)%nat, (cor 4 quad q 3 =? j)%nat; cbn [vx vy vz]; ring.
  - intros a (La & Pa). apply norm_end; assumption.
Qed.
