(** Proofs about point arrays for EditModel. *)
From Coq Require Import List Arith Bool ZArith Reals Lra Lia.
Import ListNotations.
From Verif Require Import Imp PrModel PolyModel QuatModel QuatSpec ProxModel IsecModel GjkProofs1 ProxSpec ProxProofs1 MeasModel MeasSpec MeasProofs1 MeasProofs2 EditModel EditSpec.
Open Scope R_scope.

Lemma wp_vset_nth : forall A (d : A) v i x (P : list A -> Prop), (i < length v)%nat ->
  (forall v', length v' = length v -> (forall k, nth k v' d = if (k =? i)%nat then x else nth k v d) -> P v') -> wp (vset v i x) P.
Proof.
  intros A d v i x P Hi H. rewrite vset_upd by exact Hi. cbn [wp]. apply H; [apply upd_length|]. intros k. destruct (Nat.eqb_spec k i) as [->|N]; [apply nth_upd_same; exact Hi|apply nth_upd_other; auto].
Qed.
Lemma wp_vmod_nth : forall A (d : A) v i f (P : list A -> Prop), (i < length v)%nat ->
  (forall v', length v' = length v -> (forall k, nth k v' d = if (k =? i)%nat then f (nth i v d) else nth k v d) -> P v') -> wp (vmod v i f) P.
Proof.
  intros A d v i f P Hi H. apply (wp_vmod _ d); [exact Hi|]. apply H; [apply upd_length|]. intros k. destruct (Nat.eqb_spec k i) as [->|N]; [apply nth_upd_same; exact Hi|apply nth_upd_other; auto].
Qed.
Ltac eqbs := repeat match goal with |- context [(?a =? ?b)%nat] => destruct (Nat.eqb_spec a b); try lia end.
Lemma wp_put3 : forall a i p (P : list R -> Prop), (3 * i + 2 < length a)%nat ->
  (forall a', length a' = length a -> pnt a' i = p -> (forall k, (k < 3 * i \/ 3 * i + 2 < k)%nat -> nth k a' 0 = nth k a 0) -> P a') -> wp (put3 a i p) P.
Proof.
  intros a i p P Hi H. unfold put3. apply wp_bind, (wp_vset_nth _ 0); [lia|]. intros b Lb Nb. apply wp_bind, (wp_vset_nth _ 0); [lia|]. intros c Lc Nc. apply (wp_vset_nth _ 0); [lia|]. intros d Ld Nd.
  apply H; [lia| |].
  - unfold pnt. apply v3_eq; cbn [vx vy vz]; rewrite Nd, ?Nc, ?Nb; eqbs; reflexivity.
  - intros k Hk. rewrite Nd, Nc, Nb. eqbs. reflexivity.
Qed.
Lemma wp_inc3 : forall a i p (P : list R -> Prop), (3 * i + 2 < length a)%nat ->
  (forall a', length a' = length a -> pnt a' i = add3 (pnt a i) p -> (forall k, (k < 3 * i \/ 3 * i + 2 < k)%nat -> nth k a' 0 = nth k a 0) -> P a') -> wp (inc3 a i p) P.
Proof.
  intros a i p P Hi H. unfold inc3. apply wp_bind, (wp_vmod_nth _ 0); [lia|]. intros b Lb Nb. apply wp_bind, (wp_vmod_nth _ 0); [lia|]. intros c Lc Nc. apply (wp_vmod_nth _ 0); [lia|]. intros d Ld Nd.
  apply H; [lia| |].
  - unfold pnt, add3. apply v3_eq; cbn [vx vy vz]; rewrite Nd, ?Nc, ?Nb; eqbs; do 2 f_equal; lia.
  - intros k Hk. rewrite Nd. eqbs. rewrite Nc. eqbs. rewrite Nb. eqbs. reflexivity.
Qed.
Lemma pnt_same : forall a a' i, (forall k, (3 * i <= k <= 3 * i + 2)%nat -> nth k a' 0 = nth k a 0) -> pnt a' i = pnt a i.
Proof. intros a a' i H. unfold pnt. rewrite !H by lia. reflexivity. Qed.

(** a loop that replaces every point *)
Lemma replace_loop : forall (f : nat -> vec3 -> option vec3) (g : nat -> vec3) n a0 (P : list R -> Prop), (3 * n <= length a0)%nat ->
  (forall i, (i < n)%nat -> f i (pnt a0 i) = Some (g i)) ->
  (forall a', length a' = length a0 -> (forall i, (i < n)%nat -> pnt a' i = g i) -> (forall k, (3 * n <= k)%nat -> nth k a' 0 = nth k a0 0) -> P a') ->
  wp (forn 0 n (fun i a => p <- xyz a i ;; q <- f i p ;; put3 a i q) a0) P.
Proof.
  intros f g n a0 P Hl Hf HP.
  apply (wp_forn _ (fun m a => length a = length a0 /\ (forall i, (i < m)%nat -> pnt a i = g i) /\ (forall k, (3 * m <= k)%nat -> nth k a 0 = nth k a0 0))); [lia| | |].
  - repeat split; intros; lia || reflexivity.
  - intros i a Hi (La & Ga & Na). rewrite xyz_pnt by lia. cbn [bind]. rewrite (pnt_same a0 a) by (intros; apply Na; lia). rewrite Hf by lia. cbn [bind].
    apply wp_put3; [lia|]. intros a' La' Pa' Na'. split; [lia|]. split.
    + intros j Hj. destruct (Nat.eq_dec j i) as [->|N]; [exact Pa'|]. rewrite (pnt_same a a') by (intros; apply Na'; lia). apply Ga. lia.
    + intros k Hk. rewrite Na' by lia. apply Na. lia.
  - intros a (La & Ga & Na). apply HP; assumption.
Qed.
Lemma replace_loop_none : forall (f : nat -> vec3 -> option vec3) n a0 i, (3 * n <= length a0)%nat -> (i < n)%nat -> f i (pnt a0 i) = None ->
  forn 0 n (fun i a => p <- xyz a i ;; q <- f i p ;; put3 a i q) a0 = None.
Proof.
  intros f n a0 i Hl Hi Hf. destruct (forn 0 n (fun i a => p <- xyz a i ;; q <- f i p ;; put3 a i q) a0) as [r|] eqn:E; [|reflexivity]. exfalso.
  assert (G : forall m r, (m <= n)%nat -> forn 0 m (fun i a => p <- xyz a i ;; q <- f i p ;; put3 a i q) a0 = Some r -> (m <= i)%nat /\ length r = length a0 /\ (forall k, (3 * m <= k)%nat -> nth k r 0 = nth k a0 0)).
  { induction m; intros r' Hm E'. - injection E'. intros <-. repeat split; intros; lia || reflexivity.
    - rewrite forn_S in E' by lia. destruct (forn 0 m _ a0) as [b|] eqn:Eb; [|discriminate]. cbn [bind] in E'. destruct (IHm b ltac:(lia) eq_refl) as (H1 & H2 & H3).
      rewrite xyz_pnt in E' by lia. cbn [bind] in E'. rewrite (pnt_same a0 b) in E' by (intros; apply H3; lia).
      destruct (f m (pnt a0 m)) as [q|] eqn:Eq; [|discriminate]. cbn [bind] in E'.
      assert (W : wp (put3 b m q) (fun r => length r = length a0 /\ (forall k, (3 * S m <= k)%nat -> nth k r 0 = nth k a0 0))).
      { apply wp_put3; [lia|]. intros a' La' Pa' Na'. split; [lia|]. intros k Hk. rewrite Na' by lia. apply H3. lia. }
      rewrite E' in W. cbn [wp] in W. split; [|exact W]. destruct (Nat.eq_dec m i) as [->|N]; [congruence|lia]. }
  destruct (G n r (le_n n) E). lia.
Qed.

Lemma Bryant_rot : forall x y z v, Mat3_Bryant x y z v = rodrigues (V3 0 0 1) z (rodrigues (V3 0 1 0) y (rodrigues (V3 1 0 0) x v)).
Proof.
  intros x y z [a b c].
  assert (X : forall a b c, rodrigues (V3 1 0 0) x (V3 a b c) = V3 a (b * cos x - c * sin x) (b * sin x + c * cos x)) by (intros; unfold rodrigues, vadd, vscale, vcross, vdot; cbn [vx vy vz]; apply v3_eq; cbn [vx vy vz]; ring).
  assert (Y : forall a b c, rodrigues (V3 0 1 0) y (V3 a b c) = V3 (a * cos y + c * sin y) b (c * cos y - a * sin y)) by (intros; unfold rodrigues, vadd, vscale, vcross, vdot; cbn [vx vy vz]; apply v3_eq; cbn [vx vy vz]; ring).
  assert (Z : forall a b c, rodrigues (V3 0 0 1) z (V3 a b c) = V3 (a * cos z - b * sin z) (a * sin z + b * cos z) c) by (intros; unfold rodrigues, vadd, vscale, vcross, vdot; cbn [vx vy vz]; apply v3_eq; cbn [vx vy vz]; ring).
  rewrite X, Y, Z. unfold Mat3_Bryant. apply v3_eq; cbn [vx vy vz]; ring.
Qed.
Lemma length_div3 : forall (a : list R), (3 * (length a / 3) <= length a)%nat.
Proof. intros. pose proof (Nat.div_mod (length a) 3 ltac:(lia)). lia. Qed.
Lemma rotate_proof : forall a x y z, exists a', Rotate_Points3 a x y z = Some a' /\ length a' = length a /\
  forall i, (i < length a / 3)%nat -> pnt a' i = rodrigues (V3 0 0 1) z (rodrigues (V3 0 1 0) y (rodrigues (V3 1 0 0) x (pnt a i))).
Proof.
  intros a x y z. apply wp_iff. apply (replace_loop (fun _ p => Some (Mat3_Bryant x y z p)) (fun i => Mat3_Bryant x y z (pnt a i))); [apply length_div3|reflexivity|].
  intros a' La Ga _. split; [exact La|]. intros i Hi. rewrite Ga by exact Hi. apply Bryant_rot.
Qed.
Lemma norm3_sqr : forall p, norm3 p * norm3 p = dot3 p p.
Proof. intros p. apply sqrt_sqrt. unfold dot3. pose proof (Rle_0_sqr (vx p)). pose proof (Rle_0_sqr (vy p)). pose proof (Rle_0_sqr (vz p)). unfold Rsqr in *. lra. Qed.
Lemma norm3_zero : forall p, norm3 p = 0 <-> p = V3 0 0 0.
Proof.
  intros p. split; intros H.
  - pose proof (norm3_sqr p) as N. rewrite H in N. unfold dot3 in N. pose proof (Rle_0_sqr (vx p)). pose proof (Rle_0_sqr (vy p)). pose proof (Rle_0_sqr (vz p)). unfold Rsqr in *.
    apply v3_eq; cbn [vx vy vz]; apply Rsqr_0_uniq; unfold Rsqr; lra.
  - subst. unfold norm3, dot3. cbn [vx vy vz]. replace (0 * 0 + 0 * 0 + 0 * 0) with 0 by ring. apply sqrt_0.
Qed.
Lemma normalized_ok : forall p, (p <> V3 0 0 0 -> exists d, normalized p = Some d /\ direction p d) /\ (p = V3 0 0 0 -> normalized p = None).
Proof.
  intros p. unfold normalized, ndiv. pose proof (eqRs (norm3 p) 0) as Q. split; intros H.
  - destruct (eqR (norm3 p) 0); [apply norm3_zero in Q; contradiction|]. cbn [bind]. eexists. split; [reflexivity|]. pose proof (norm3_sqr p) as N.
    assert (G : 0 < norm3 p) by (pose proof (sqrt_pos (dot3 p p)); unfold norm3 in *; lra). split.
    + unfold vdot. cbn [vx vy vz]. transitivity (dot3 p p / (norm3 p * norm3 p)); [unfold dot3; field; lra|]. rewrite N. rewrite <- N. field. lra.
    + exists (norm3 p). split; [exact G|]. unfold vscale. apply v3_eq; cbn [vx vy vz]; field; lra.
  - destruct (eqR (norm3 p) 0); [reflexivity|]. exfalso. apply Q, norm3_zero, H.
Qed.
Lemma normalize_vec_proof : forall a n, (3 * n <= length a)%nat ->
  ((forall i, (i < n)%nat -> pnt a i <> V3 0 0 0) -> exists a', NormalizeVector_Points a n = Some a' /\ length a' = length a /\ forall i, (i < n)%nat -> direction (pnt a i) (pnt a' i)) /\
  (forall i, (i < n)%nat -> pnt a i = V3 0 0 0 -> NormalizeVector_Points a n = None).
Proof.
  intros a n Hl. split.
  - intros H. apply wp_iff. apply (replace_loop (fun _ => normalized) (fun i => match normalized (pnt a i) with Some d => d | None => V3 0 0 0 end)); [exact Hl| |].
    + intros i Hi. destruct (proj1 (normalized_ok (pnt a i)) (H i Hi)) as (d & E & _). rewrite E. reflexivity.
    + intros a' La Ga _. split; [exact La|]. intros i Hi. rewrite Ga by exact Hi. destruct (proj1 (normalized_ok (pnt a i)) (H i Hi)) as (d & E & D). rewrite E. exact D.
  - intros i Hi H. apply (replace_loop_none (fun _ => normalized) n a i Hl Hi). apply (proj2 (normalized_ok (pnt a i)) H).
Qed.
Lemma nth_vresize : forall A (d : A) v n k, (k < n)%nat -> nth k (vresize d v n) d = nth k v d.
Proof.
  intros A d v n k H. unfold vresize. destruct (le_lt_dec (length v) k) as [L|L].
  - rewrite app_nth2 by (rewrite firstn_length; lia). rewrite (nth_overflow v) by exact L. apply nth_repeat.
  - rewrite app_nth1 by (rewrite firstn_length; lia). rewrite <- (firstn_skipn n v) at 2. rewrite app_nth1 by (rewrite firstn_length; lia). reflexivity.
Qed.
Lemma length_vresize : forall A (d : A) v n, length (vresize d v n) = n.
Proof. intros. unfold vresize. rewrite app_length, firstn_length, repeat_length. lia. Qed.
(** the projection on the plane of the normal *)
Definition projected (o n : vec3) : vec3 := vadd o (vscale (- vdot o n) n).
Lemma tangent_proof : forall o n, length o = length n ->
  exists o', TangentVector_Points3 o n = Some o' /\ length o' = (length n / 3 * 3)%nat /\
    forall i, (i < length n / 3)%nat -> pnt o' i = vscale (sqrt (vdot (projected (pnt o i) (pnt n i)) (projected (pnt o i) (pnt n i)))) (projected (pnt o i) (pnt n i)).
Proof.
  intros o n Hl. apply wp_iff. unfold TangentVector_Points3. apply wp_bind, wp_assertb; [apply Nat.eqb_eq; exact Hl|].
  set (m := (length n / 3)%nat). pose proof (length_div3 n) as D. fold m in D.
  set (f := fun i p => n0 <- xyz n i ;; let on := dot3 p n0 in let o1 := V3 (vx p - on * vx n0) (vy p - on * vy n0) (vz p - on * vz n0) in Some (V3 (vx o1 * norm3 o1) (vy o1 * norm3 o1) (vz o1 * norm3 o1))).
  set (g := fun i => vscale (sqrt (vdot (projected (pnt o i) (pnt n i)) (projected (pnt o i) (pnt n i)))) (projected (pnt o i) (pnt n i))).
  erewrite forn_ext; [apply (replace_loop f g m)|].
  - rewrite length_vresize. lia.
  - intros i Hi. assert (Ep : pnt (vresize 0 o (m * 3)) i = pnt o i) by (unfold pnt; rewrite !nth_vresize by lia; reflexivity). rewrite Ep. unfold f. rewrite xyz_pnt by lia. cbn [bind]. cbv zeta. f_equal. unfold g.
    assert (Eq : V3 (vx (pnt o i) - dot3 (pnt o i) (pnt n i) * vx (pnt n i)) (vy (pnt o i) - dot3 (pnt o i) (pnt n i) * vy (pnt n i)) (vz (pnt o i) - dot3 (pnt o i) (pnt n i) * vz (pnt n i)) = projected (pnt o i) (pnt n i)).
    { unfold projected, vadd, vscale, vdot, dot3. apply v3_eq; cbn [vx vy vz]; ring. }
    rewrite Eq. unfold norm3. change (dot3 (projected (pnt o i) (pnt n i)) (projected (pnt o i) (pnt n i))) with (vdot (projected (pnt o i) (pnt n i)) (projected (pnt o i) (pnt n i))).
    set (pr := projected (pnt o i) (pnt n i)). clearbody pr. unfold vscale. apply v3_eq; cbn [vx vy vz]; ring.
  - intros a' La Ga _. rewrite length_vresize in La. split; [exact La|]. exact Ga.
  - intros i a Hi. unfold f. destruct (xyz n i); cbn [bind]; destruct (xyz a i); reflexivity.
Qed.

(** scale and translate *)
Lemma scale_proof : forall a s, exists a', Scale_PointsX a s = Some a' /\ length a' = length a /\ forall k, (k < length a)%nat -> nth k a' 0 = nth k a 0 * s.
Proof.
  intros a s. apply wp_iff. unfold Scale_PointsX.
  apply (wp_forn _ (fun m b => length b = length a /\ forall k, nth k b 0 = if (k <? m)%nat then nth k a 0 * s else nth k a 0)); [lia| | |].
  - split; [reflexivity|]. intros k. reflexivity.
  - intros i b Hi (Lb & Nb). apply (wp_vmod_nth _ 0); [lia|]. intros c Lc Nc. split; [lia|]. intros k. rewrite Nc, !Nb. destruct (Nat.eqb_spec k i) as [->|N].
    + replace (i <? i)%nat with false by (symmetry; apply Nat.ltb_ge; lia). replace (i <? S i)%nat with true by (symmetry; apply Nat.ltb_lt; lia). reflexivity.
    + destruct (Nat.ltb_spec k i), (Nat.ltb_spec k (S i)); try reflexivity; lia.
  - intros b (Lb & Nb). split; [exact Lb|]. intros k Hk. rewrite Nb. replace (k <? length a)%nat with true by (symmetry; apply Nat.ltb_lt; exact Hk). reflexivity.
Qed.
Lemma translate_proof : forall a n m t, (0 < m)%nat -> (n * m <= length a)%nat -> (m <= length t)%nat ->
  exists a', Translate_Points a n m t = Some a' /\ length a' = length a /\ (forall i k, (i < n)%nat -> (k < m)%nat -> coord m a' i k = coord m a i k + nth k t 0) /\ (forall k, (n * m <= k)%nat -> nth k a' 0 = nth k a 0).
Proof.
  intros a n m t Hm Hl Ht. apply wp_iff. unfold Translate_Points.
  set (I := fun q b => length b = length a /\ forall k, nth k b 0 = if (k <? q)%nat then nth k a 0 + nth (k mod m) t 0 else nth k a 0).
  apply (wp_forn _ (fun i b => I (i * m)%nat b)); [lia| | |].
  - split; [reflexivity|]. intros k. reflexivity.
  - intros i b Hi Hb. assert (B1 : (S i * m <= n * m)%nat) by (apply Nat.mul_le_mono_r; lia).
    apply (wp_forn _ (fun d b => I (i * m + d)%nat b)); [lia|rewrite Nat.add_0_r; exact Hb| |intros c Hc; replace (S i * m)%nat with (i * m + m)%nat by lia; exact Hc].
    intros d c Hd (Lc & Nc). rewrite (vgetn R 0) by lia. cbn [bind]. apply (wp_vmod_nth _ 0); [lia|]. intros e Le Ne. split; [lia|]. intros k. rewrite Ne, !Nc. destruct (Nat.eqb_spec k (i * m + d)) as [->|N].
    + replace (i * m + d <? i * m + d)%nat with false by (symmetry; apply Nat.ltb_ge; lia). replace (i * m + d <? i * m + S d)%nat with true by (symmetry; apply Nat.ltb_lt; lia).
      f_equal. f_equal. rewrite Nat.add_comm, Nat.mod_add by lia. symmetry. apply Nat.mod_small. lia.
    + destruct (Nat.ltb_spec k (i * m + d)), (Nat.ltb_spec k (i * m + S d)); try reflexivity; lia.
  - intros b (Lb & Nb). split; [exact Lb|]. split.
    + intros i k Hi Hk. unfold coord. rewrite Nb. assert (B1 : (S i * m <= n * m)%nat) by (apply Nat.mul_le_mono_r; lia). replace (m * i + k <? n * m)%nat with true by (symmetry; apply Nat.ltb_lt; lia).
      do 2 f_equal. rewrite Nat.add_comm, Nat.mul_comm, Nat.mod_add by lia. apply Nat.mod_small. lia.
    + intros k Hk. rewrite Nb. replace (k <? n * m)%nat with false by (symmetry; apply Nat.ltb_ge; exact Hk). reflexivity.
Qed.
Lemma translate3_proof : forall a x y z, exists a', Translate_Points3 a x y z = Some a' /\ length a' = length a /\ forall i, (i < length a / 3)%nat -> pnt a' i = vadd (pnt a i) (V3 x y z).
Proof.
  intros a x y z. destruct (translate_proof a (length a / 3) 3 [x; y; z]) as (a' & E & L & C & _); [lia|pose proof (length_div3 a); lia|cbn; lia|].
  exists a'. split; [exact E|]. split; [exact L|]. intros i Hi. pose proof (C i 0%nat Hi ltac:(lia)) as C0. pose proof (C i 1%nat Hi ltac:(lia)) as C1. pose proof (C i 2%nat Hi ltac:(lia)) as C2.
  unfold coord in *. rewrite !Nat.add_0_r in *. cbn [nth] in *. unfold pnt, vadd. apply v3_eq; cbn [vx vy vz]; assumption.
Qed.
Lemma size_none : forall w, 0 <= vx w -> 0 <= vy w -> 0 <= vz w -> largest (vx w) (vy w) (vz w) = 0 -> w = V3 0 0 0.
Proof.
  intros w A B C. unfold largest. pose proof (ltRs (vx w) (vy w)) as Q. destruct (ltR (vx w) (vy w)).
  - pose proof (ltRs (vy w) (vz w)) as Q2. destruct (ltR (vy w) (vz w)); intros; lra.
  - pose proof (ltRs (vx w) (vz w)) as Q2. destruct (ltR (vx w) (vz w)); intros; [lra|]. apply v3_eq; cbn [vx vy vz]; lra.
Qed.
Lemma largest_scale : forall s a b c, 0 <= s -> largest (s * a) (s * b) (s * c) = s * largest a b c.
Proof.
  intros s a b c Hs. assert (M : forall a b, (if ltR (s * a) (s * b) then s * b else s * a) = s * (if ltR a b then b else a)).
  { intros x y. pose proof (ltRs (s * x) (s * y)) as Q. pose proof (ltRs x y) as Q2. destruct (ltR x y), (ltR (s * x) (s * y)); try reflexivity.
    - pose proof (Rmult_le_compat_l s x y Hs ltac:(lra)). lra.
    - pose proof (Rmult_le_compat_l s y x Hs ltac:(lra)). lra. }
  unfold largest. rewrite !M. reflexivity.
Qed.
Lemma normalize_proof : forall a L, (3 <= length a)%nat -> 0 < L -> (exists p q, points a p /\ points a q /\ p <> q) ->
  exists a' c s, Normalize_Points3 a L = Some a' /\ length a' = length a /\ 0 < s /\
    (forall i, (i < length a / 3)%nat -> pnt a' i = vscale s (vadd (pnt a i) (vscale (-1) c))) /\
    exists h, box_of (points a') (vscale (-1) h) h /\ (2 * vx h <= L /\ 2 * vy h <= L /\ 2 * vz h <= L) /\ (2 * vx h = L \/ 2 * vy h = L \/ 2 * vz h = L).
Proof.
  intros a L Hl HL (p & q & Hp & Hq & Npq). unfold Normalize_Points3. destruct (proj2 (cws_proof a) Hl) as (c & w & Ecw & B). rewrite Ecw. cbn [bind].
  destruct (translate3_proof a (- vx c) (- vy c) (- vz c)) as (b & Eb & Lb & Pb). rewrite Eb. cbn [bind].
  destruct B as (Hin & (px & Sx & Ex) & (py & Sy & Ey) & (pz & Sz & Ez) & (qx & Tx & Fx) & (qy & Ty & Fy) & (qz & Tz & Fz)). cbn [vx vy vz] in *.
  pose proof (Hin _ Hp) as Ip. pose proof (Hin _ Hq) as Iq.
  assert (G : largest (vx w) (vy w) (vz w) <> 0). { intros Z. apply size_none in Z; [|lra..]. apply Npq. rewrite Z in *. cbn [vx vy vz] in *. apply v3_eq; lra. }
  assert (LL : (vx w <= largest (vx w) (vy w) (vz w) /\ vy w <= largest (vx w) (vy w) (vz w) /\ vz w <= largest (vx w) (vy w) (vz w)) /\ (largest (vx w) (vy w) (vz w) = vx w \/ largest (vx w) (vy w) (vz w) = vy w \/ largest (vx w) (vy w) (vz w) = vz w)).
  { unfold largest. pose proof (ltRs (vx w) (vy w)) as Q. destruct (ltR (vx w) (vy w)).
    - pose proof (ltRs (vy w) (vz w)) as Q2. destruct (ltR (vy w) (vz w)); split; repeat split; try lra; auto.
    - pose proof (ltRs (vx w) (vz w)) as Q2. destruct (ltR (vx w) (vz w)); split; repeat split; try lra; auto. }
  set (M := largest (vx w) (vy w) (vz w)) in *. assert (GM : 0 < M) by lra. clearbody M.
  unfold ndiv. pose proof (eqRs M 0) as Q. destruct (eqR M 0); [contradiction|]. cbn [bind]. clear Q.
  destruct (scale_proof b (L / M)) as (d & Ed & Ld & Nd). exists d, c, (L / M).
  assert (Gs : 0 < L / M) by (apply Rdiv_lt_0_compat; assumption).
  assert (P : forall i, (i < length a / 3)%nat -> pnt d i = vscale (L / M) (vadd (pnt a i) (vscale (-1) c))).
  { intros i Hi. pose proof (div3_lt a i Hi). assert (E1 : pnt d i = vscale (L / M) (pnt b i)) by (unfold pnt, vscale; apply v3_eq; cbn [vx vy vz]; rewrite Nd by lia; ring).
    rewrite E1, Pb by exact Hi. unfold vscale, vadd. apply v3_eq; cbn [vx vy vz]; ring. }
  split; [exact Ed|]. split; [lia|]. split; [exact Gs|]. split; [exact P|].
  exists (V3 (L / M * (vx w / 2)) (L / M * (vy w / 2)) (L / M * (vz w / 2))).
  assert (Pd : forall r, points d r <-> exists r', points a r' /\ r = vscale (L / M) (vadd r' (vscale (-1) c))).
  { intros r. unfold points. replace (length d) with (length a) by lia. split.
    - intros (i & Hi & ->). exists (pnt a i). split; [exists i; auto|apply P; exact Hi].
    - intros (r' & (i & Hi & ->) & ->). exists i. split; [exact Hi|symmetry; apply P; exact Hi]. }
  assert (S2 : forall x y, x <= y -> L / M * x <= L / M * y) by (intros; apply Rmult_le_compat_l; lra).
  assert (EQ : forall x, 2 * (L / M * (x / 2)) = L / M * x) by (intros; field; lra). assert (EM : L / M * M = L) by (field; lra).
  split; [|split].
  - split; [|repeat split].
    + intros r Hr. apply Pd in Hr. destruct Hr as (r' & Hr' & ->). pose proof (Hin _ Hr') as I. unfold vscale, vadd. cbn [vx vy vz].
      pose proof (S2 (- (vx w / 2)) (vx r' + -1 * vx c) ltac:(lra)). pose proof (S2 (vx r' + -1 * vx c) (vx w / 2) ltac:(lra)). pose proof (S2 (- (vy w / 2)) (vy r' + -1 * vy c) ltac:(lra)). pose proof (S2 (vy r' + -1 * vy c) (vy w / 2) ltac:(lra)).
      pose proof (S2 (- (vz w / 2)) (vz r' + -1 * vz c) ltac:(lra)). pose proof (S2 (vz r' + -1 * vz c) (vz w / 2) ltac:(lra)). repeat split; lra.
    + eexists. split; [apply Pd; exists px; split; [exact Sx|reflexivity]|]. unfold vscale, vadd. cbn [vx vy vz]. rewrite Ex. field. lra.
    + eexists. split; [apply Pd; exists py; split; [exact Sy|reflexivity]|]. unfold vscale, vadd. cbn [vx vy vz]. rewrite Ey. field. lra.
    + eexists. split; [apply Pd; exists pz; split; [exact Sz|reflexivity]|]. unfold vscale, vadd. cbn [vx vy vz]. rewrite Ez. field. lra.
    + eexists. split; [apply Pd; exists qx; split; [exact Tx|reflexivity]|]. unfold vscale, vadd. cbn [vx vy vz]. rewrite Fx. field. lra.
    + eexists. split; [apply Pd; exists qy; split; [exact Ty|reflexivity]|]. unfold vscale, vadd. cbn [vx vy vz]. rewrite Fy. field. lra.
    + eexists. split; [apply Pd; exists qz; split; [exact Tz|reflexivity]|]. unfold vscale, vadd. cbn [vx vy vz]. rewrite Fz. field. lra.
  - cbn [vx vy vz]. rewrite !EQ. destruct LL as ((L1 & L2 & L3) & _). pose proof (S2 _ _ L1). pose proof (S2 _ _ L2). pose proof (S2 _ _ L3). lra.
  - cbn [vx vy vz]. rewrite !EQ. destruct LL as (_ & [E|[E|E]]); rewrite <- E, EM; auto.
Qed.
