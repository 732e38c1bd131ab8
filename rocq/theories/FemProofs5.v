(** The patch test, and the diffusion step. *)
From Coq Require Import List Arith ZArith Reals Lia Lra Bool.
Import ListNotations.
From Verif Require Import Imp Alg SpModel SpSpec SpProps FemModel FemSpec FemProofs1 FemProofs2 FemProofs3 FemProofs4.
Local Open Scope R_scope.

Lemma affine_grad : forall tet X T nT np w c0 (c : nat -> R), mesh_ok (ncor tet) np T nT ->
  (forall p, (p < np)%nat -> w p = c0 + rsum (ndim tet) (fun k => c k * cmp (ndim tet) X p k)) -> gradients tet X T nT w (fun _ => c).
Proof.
  intros tet X T nT np w c0 c (_ & M & _) H e He i j Hi Hj. cbv beta. rewrite !H by (apply M; auto).
  transitivity (rsum (ndim tet) (fun k => c k * cmp (ndim tet) X (nd (ncor tet) T e j) k) - rsum (ndim tet) (fun k => c k * cmp (ndim tet) X (nd (ncor tet) T e i) k)); [|ring].
  rewrite <- rsum_sub. apply rsum_ext. intros; ring.
Qed.

Lemma count_sum : forall nno nT np (T : list nat) I (f : nat -> nat) (h : nat -> R),
  (forall e i, (e < nT)%nat -> (i < nno)%nat -> (nd nno T e (f i) < np)%nat) ->
  rsum nT (fun e => rsum nno (fun i => d1 I (nd nno T e i) * h (nd nno T e (f i)))) =
  rsum np (fun q => h q * count nno nT (fun e i => ((nd nno T e i =? I) && (nd nno T e (f i) =? q))%nat%bool)).
Proof.
  intros nno nT np T I f h Hf. unfold count.
  transitivity (rsum nT (fun e => rsum nno (fun i => rsum np (fun q => h q * (if ((nd nno T e i =? I) && (nd nno T e (f i) =? q))%nat%bool then 1 else 0))))).
  - apply rsum_ext. intros e He. apply rsum_ext. intros i Hi.
    rewrite <- (rsum_pick np (nd nno T e (f i)) (fun q => d1 I (nd nno T e i) * h q)) by auto. apply rsum_ext. intros q Hq.
    rewrite (Nat.eqb_sym q). unfold d1. destruct (nd nno T e i =? I)%nat, (nd nno T e (f i) =? q)%nat; cbn [andb]; ring.
  - rewrite (rsum_ext nT _ (fun e => rsum np (fun q => rsum nno (fun i => h q * (if ((nd nno T e i =? I) && (nd nno T e (f i) =? q))%nat%bool then 1 else 0))))) by (intros; apply rsum_swap).
    rewrite rsum_swap. apply rsum_ext. intros q Hq. rewrite <- rsum_mull. apply rsum_ext. intros e He. apply rsum_mull.
Qed.
Lemma count_sum2 : forall nno nT np (T : list nat) I (f g : nat -> nat) (h : nat -> nat -> R),
  (forall e i, (e < nT)%nat -> (i < nno)%nat -> (nd nno T e (f i) < np)%nat /\ (nd nno T e (g i) < np)%nat) ->
  rsum nT (fun e => rsum nno (fun i => d1 I (nd nno T e i) * h (nd nno T e (f i)) (nd nno T e (g i)))) =
  rsum np (fun q => rsum np (fun r => h q r * count nno nT (fun e i => ((nd nno T e i =? I) && ((nd nno T e (f i) =? q) && (nd nno T e (g i) =? r)))%nat%bool))).
Proof.
  intros nno nT np T I f g h Hf. unfold count.
  set (z := fun e i q r => h q r * (if ((nd nno T e i =? I) && ((nd nno T e (f i) =? q) && (nd nno T e (g i) =? r)))%nat%bool then 1 else 0)).
  transitivity (rsum nT (fun e => rsum nno (fun i => rsum np (fun q => rsum np (fun r => z e i q r))))).
  - apply rsum_ext. intros e He. apply rsum_ext. intros i Hi. destruct (Hf e i He Hi) as (F & G).
    rewrite <- (rsum_pick np (nd nno T e (f i)) (fun q => d1 I (nd nno T e i) * h q (nd nno T e (g i)))) by auto. apply rsum_ext. intros q Hq.
    rewrite <- (rsum_pick np (nd nno T e (g i)) (fun r => if (q =? nd nno T e (f i))%nat then d1 I (nd nno T e i) * h q r else 0)) by auto.
    apply rsum_ext. intros r Hr. unfold z, d1. rewrite (Nat.eqb_sym q), (Nat.eqb_sym r).
    destruct (nd nno T e i =? I)%nat, (nd nno T e (f i) =? q)%nat, (nd nno T e (g i) =? r)%nat; cbn [andb]; ring.
  - transitivity (rsum np (fun q => rsum np (fun r => rsum nT (fun e => rsum nno (fun i => z e i q r))))).
    2:{ apply rsum_ext. intros q Hq. apply rsum_ext. intros r Hr. rewrite <- rsum_mull. apply rsum_ext. intros e He. rewrite <- rsum_mull. auto. }
    transitivity (rsum nT (fun e => rsum np (fun q => rsum np (fun r => rsum nno (fun i => z e i q r))))).
    + apply rsum_ext. intros e He. rewrite rsum_swap. apply rsum_ext. intros q Hq. apply rsum_swap.
    + rewrite rsum_swap. apply rsum_ext. intros q Hq. apply rsum_swap.
Qed.

Lemma patch2 : forall X T nT np alpha w A b B b' c0 (c : nat -> R) I, mesh_ok 3 np T nT -> (forall e, (e < nT)%nat -> area X T e <> 0) ->
  poisson_weak false X T nT np alpha 0 w A b B b' -> (forall p, (p < np)%nat -> w p = c0 + rsum 2 (fun k => c k * cmp 2 X p k)) ->
  (I < np)%nat -> interior2 T nT I -> arr b' I = arr b I.
Proof.
  intros X T nT np alpha w A b B b' c0 c I M HS W Hw HI Int.
  pose proof (affine_grad false X T nT np w c0 c M Hw) as Gw.
  set (gi := fun e k => rsum 3 (fun i => d1 I (nd 3 T e i) * triD (loc 3 2 X T e) i k)).
  assert (Gi : gradients false X T nT (d1 I) gi).
  { intros e He. cbn [ncor ndim]. apply (is_grad_ext _ _ (loc 3 2 X T e)); [intros; apply loc_cmp; auto|]. apply tri_grad_ex. rewrite triA_area. apply (HS e He). }
  destruct (W (d1 I) (d1 I) gi gi _ Gi Gi Gw) as (_ & E). rewrite !lin_row1 in E by auto. rewrite E. cbn [ndim size].
  set (h := fun p => (c 1%nat * cmp 2 X p 0 - c 0%nat * cmp 2 X p 1) / 2).
  rewrite (rsum_ext nT _ (fun e => - alpha * (rsum 3 (fun i => d1 I (nd 3 T e i) * h (nd 3 T e ((i + 2) mod 3))) - rsum 3 (fun i => d1 I (nd 3 T e i) * h (nd 3 T e ((i + 1) mod 3)))))).
  - rewrite rsum_mull, rsum_sub. destruct M as (_ & M2 & _).
    rewrite (count_sum 3 nT np T I (fun i => (i + 2) mod 3)%nat h) by (intros; apply M2; auto; apply Nat.mod_upper_bound; lia).
    rewrite (count_sum 3 nT np T I (fun i => (i + 1) mod 3)%nat h) by (intros; apply M2; auto; apply Nat.mod_upper_bound; lia).
    rewrite (rsum_ext np (fun q => h q * count 3 nT (fun e i => _ && (nd 3 T e ((i + 2) mod 3) =? q)%nat)%bool)
       (fun q => h q * count 3 nT (fun e i => ((nd 3 T e i =? I) && (nd 3 T e ((i + 1) mod 3) =? q))%nat%bool))) by (intros q Hq; rewrite (Int q); auto).
    ring.
  - intros e He. pose proof (HS e He) as Hs. rewrite <- triA_area in *. unfold gdot, gi, h, triA, triD, TriDlDx, TriArea2D in *.
    rsums. change ((0 + 2) mod 3)%nat with 2%nat. change ((1 + 2) mod 3)%nat with 0%nat. change ((2 + 2) mod 3)%nat with 1%nat.
    change ((0 + 1) mod 3)%nat with 1%nat. change ((1 + 1) mod 3)%nat with 2%nat. change ((2 + 1) mod 3)%nat with 0%nat.
    rewrite <- !(loc_cmp 3 2) by lia. cbn [fst snd]. field. lra.
Qed.

Lemma opp_lt : forall i m, (i < 4)%nat -> (m < 3)%nat -> (opp i m < 4)%nat.
Proof. intros i m Hi Hm. lt4 i; lt3 m; cbn; lia. Qed.

Lemma patch3 : forall X T nT np alpha w A b B b' c0 (c : nat -> R) I, mesh_ok 4 np T nT -> (forall e, (e < nT)%nat -> volume X T e <> 0) ->
  poisson_weak true X T nT np alpha 0 w A b B b' -> (forall p, (p < np)%nat -> w p = c0 + rsum 3 (fun k => c k * cmp 3 X p k)) ->
  (I < np)%nat -> interior3 T nT I -> arr b' I = arr b I.
Proof.
  intros X T nT np alpha w A b B b' c0 c I M HS W Hw HI Int.
  pose proof (affine_grad true X T nT np w c0 c M Hw) as Gw.
  set (gi := fun e k => rsum 4 (fun i => d1 I (nd 4 T e i) * tetD (loc 4 3 X T e) i k)).
  assert (Gi : gradients true X T nT (d1 I) gi).
  { intros e He. cbn [ncor ndim]. apply (is_grad_ext _ _ (loc 4 3 X T e)); [intros; apply loc_cmp; auto|]. apply tet_grad_ex. rewrite tetV_volume. apply (HS e He). }
  destruct (W (d1 I) (d1 I) gi gi _ Gi Gi Gw) as (_ & E). rewrite !lin_row1 in E by auto. rewrite E. cbn [ndim size].
  set (h := fun p q => (c 0%nat * (cmp 3 X p 1 * cmp 3 X q 2 - cmp 3 X p 2 * cmp 3 X q 1) + c 1%nat * (cmp 3 X p 2 * cmp 3 X q 0 - cmp 3 X p 0 * cmp 3 X q 2)
     + c 2%nat * (cmp 3 X p 0 * cmp 3 X q 1 - cmp 3 X p 1 * cmp 3 X q 0)) / 6).
  assert (Anti : forall p q, h p q = - h q p) by (intros; unfold h; field).
  rewrite (rsum_ext nT _ (fun e => - alpha * rsum 3 (fun m => rsum 4 (fun i => d1 I (nd 4 T e i) * h (nd 4 T e (opp i m)) (nd 4 T e (opp i ((m + 1) mod 3))))))).
  - rewrite rsum_mull. rewrite rsum_swap. destruct M as (_ & M2 & _).
    set (n := around T nT I). assert (Sy : forall q r, n q r = n r q) by (exact Int).
    assert (Es : rsum 3 (fun m => rsum nT (fun e => rsum 4 (fun i => d1 I (nd 4 T e i) * h (nd 4 T e (opp i m)) (nd 4 T e (opp i ((m + 1) mod 3)))))) =
       rsum np (fun q => rsum np (fun r => h q r * n q r))).
    { rewrite (rsum_ext 3 _ (fun m => rsum np (fun q => rsum np (fun r => h q r * count 4 nT (fun e i => ((nd 4 T e i =? I) && ((nd 4 T e (opp i m) =? q) && (nd 4 T e (opp i ((m + 1) mod 3)) =? r)))%nat%bool))))).
      - rewrite rsum_swap. apply rsum_ext. intros q Hq. rewrite rsum_swap. apply rsum_ext. intros r Hr. apply rsum_mull.
      - intros m Hm. apply (count_sum2 4 nT np T I (fun i => opp i m) (fun i => opp i ((m + 1) mod 3)) h). intros e i He Hi.
        split; apply M2; auto; apply opp_lt; auto. apply Nat.mod_upper_bound; lia. }
    rewrite Es. assert (Z : rsum np (fun q => rsum np (fun r => h q r * n q r)) = - rsum np (fun q => rsum np (fun r => h q r * n q r))).
    { rewrite rsum_swap at 1. rewrite <- rsum_opp. apply rsum_ext. intros q Hq. rewrite <- rsum_opp. apply rsum_ext. intros r Hr.
      rewrite (Anti r q), (Sy r q). ring. }
    assert (Z' : rsum np (fun q => rsum np (fun r => h q r * n q r)) = 0) by lra. rewrite Z'. ring.
  - intros e He. pose proof (HS e He) as Hs. rewrite <- tetV_volume in *. unfold gdot, gi, h.
    assert (Es : forall i k, (i < 4)%nat -> (k < 3)%nat -> tetV (loc 4 3 X T e) * tetD (loc 4 3 X T e) i k =
       rsum 3 (fun m => let p := loc 4 3 X T e (opp i m) in let q := loc 4 3 X T e (opp i ((m + 1) mod 3)) in
          (match k with 0%nat => p 1%nat * q 2%nat - p 2%nat * q 1%nat | 1%nat => p 2%nat * q 0%nat - p 0%nat * q 2%nat | _ => p 0%nat * q 1%nat - p 1%nat * q 0%nat end) / 6)).
    { intros i k Hi Hk. unfold tetV, tetD, TetDlDx, TetVolume3D in *. lt4 i; lt3 k; rsums;
      change ((0 + 1) mod 3)%nat with 1%nat; change ((1 + 1) mod 3)%nat with 2%nat; change ((2 + 1) mod 3)%nat with 0%nat;
      cbn [opp nth fst snd]; field; lra. }
    transitivity (- alpha * rsum 4 (fun i => d1 I (nd 4 T e i) * rsum 3 (fun k => c k * (tetV (loc 4 3 X T e) * tetD (loc 4 3 X T e) i k)))).
    + rsums. ring.
    + f_equal. rewrite rsum_swap. apply rsum_ext. intros i Hi.
      rewrite (rsum_ext 3 _ (fun k => c k * rsum 3 (fun m => let p := loc 4 3 X T e (opp i m) in let q := loc 4 3 X T e (opp i ((m + 1) mod 3)) in
          (match k with 0%nat => p 1%nat * q 2%nat - p 2%nat * q 1%nat | 1%nat => p 2%nat * q 0%nat - p 0%nat * q 2%nat | _ => p 0%nat * q 1%nat - p 1%nat * q 0%nat end) / 6)))
        by (intros k Hk; rewrite Es by auto; auto).
      rewrite rsum_mull. f_equal.
      rewrite (rsum_ext 3 (fun k => c k * _) (fun k => rsum 3 (fun m => c k * (let p := loc 4 3 X T e (opp i m) in let q := loc 4 3 X T e (opp i ((m + 1) mod 3)) in
          (match k with 0%nat => p 1%nat * q 2%nat - p 2%nat * q 1%nat | 1%nat => p 2%nat * q 0%nat - p 0%nat * q 2%nat | _ => p 0%nat * q 1%nat - p 1%nat * q 0%nat end) / 6))))
        by (intros; rewrite rsum_mull; auto).
      rewrite rsum_swap. apply rsum_ext. intros m Hm. cbv zeta.
      rewrite <- !(loc_cmp 4 3) by (try apply opp_lt; try apply Nat.mod_upper_bound; lia). rsums. field.
Qed.

(** ---- diffusion ---- *)
Lemma mass_lin : forall tet X T e u v x c, mass tet X T e (fun p => u p + c * v p) x = mass tet X T e u x + c * mass tet X T e v x.
Proof.
  intros. unfold mass. rewrite rsum_add, rsum_mull.
  rewrite (rsum_ext _ (fun i => (_ + c * _) * _) (fun i => u (nd (ncor tet) T e i) * x (nd (ncor tet) T e i) + c * (v (nd (ncor tet) T e i) * x (nd (ncor tet) T e i)))) by (intros; ring).
  rewrite rsum_add, rsum_mull. unfold Rdiv. ring.
Qed.
Lemma mass_pos : forall tet X T e u, 0 < size tet X T e -> 0 <= mass tet X T e u u /\
  (mass tet X T e u u = 0 -> forall i, (i < ncor tet)%nat -> u (nd (ncor tet) T e i) = 0).
Proof.
  intros tet X T e u Hs. unfold mass. set (s := rsum (ncor tet) (fun i => u (nd (ncor tet) T e i))).
  set (q := rsum (ncor tet) (fun i => u (nd (ncor tet) T e i) * u (nd (ncor tet) T e i))).
  assert (Q : 0 <= q) by (apply rsum_nonneg; intros; apply Rle_0_sqr).
  pose proof (Rle_0_sqr s) as Sq. unfold Rsqr in Sq.
  assert (D : 0 < INR (ncor tet) * INR (S (ncor tet))) by (apply Rmult_lt_0_compat; apply lt_0_INR; destruct tet; cbn; lia).
  pose proof (Rinv_0_lt_compat _ D) as DI. split.
  - unfold Rdiv. apply Rmult_le_pos; [|lra]. apply Rmult_le_pos; lra.
  - intros E. unfold Rdiv in E. apply Rmult_integral in E. destruct E as [E|E]; [|lra]. apply Rmult_integral in E. destruct E as [E|E]; [lra|].
    assert (q = 0) by lra. intros i Hi.
    pose proof (rsum_nonneg_zero (ncor tet) (fun i => u (nd (ncor tet) T e i) * u (nd (ncor tet) T e i)) ltac:(intros; apply Rle_0_sqr) H i Hi) as Z.
    apply Rsqr_0_uniq. exact Z.
Qed.
Lemma diffusion_pd : forall tet X T nT np alpha rho source dt gamma w wv A b B b' x,
  mesh_ok (ncor tet) np T nT -> (forall e, (e < nT)%nat -> 0 < size tet X T e) ->
  diffusion_weak tet X T nT np alpha rho source dt gamma w wv A b B b' ->
  (forall I J, (I < np)%nat -> (J < np)%nat -> ent A I 0 J 0 = 0) -> 0 < rho -> 0 <= alpha -> 0 <= gamma * dt ->
  (forall p, (p < np)%nat -> exists e i, (e < nT)%nat /\ (i < ncor tet)%nat /\ nd (ncor tet) T e i = p) ->
  (forall I, (I < np)%nat -> rsum np (fun J => ent B I 0 J 0 * x J) = 0) -> forall I, (I < np)%nat -> x I = 0.
Proof.
  intros tet X T nT np alpha rho source dt gamma w wv A b B b' x M Hs W A0 Hr Ha Hg Cov Hx I HI.
  assert (HS : forall e, (e < nT)%nat -> size tet X T e <> 0) by (intros e He; specialize (Hs e He); lra).
  destruct (gradients_ex tet X T nT x HS) as (gx & Gx). destruct (gradients_ex tet X T nT w HS) as (gw & Gw).
  destruct (gradients_ex tet X T nT wv HS) as (gv & Gv).
  destruct (W x x gx gx gw gv Gx Gx Gw Gv) as (E & _).
  rewrite (bilin_zero np 1 A) in E.
  2:{ intros I' a J c HI' HJ H1 H2. assert (a = 0)%nat as -> by lia. assert (c = 0)%nat as -> by lia. auto. }
  assert (Q : bilin np 1 B (sc x) (sc x) = 0).
  { unfold bilin. apply rsum_zero. intros I' HI'. rewrite rsum_S, rsum_0, Rplus_0_l.
    transitivity (x I' * rsum np (fun J => ent B I' 0 J 0 * x J)); [|rewrite Hx by auto; ring].
    rewrite <- rsum_mull. apply rsum_ext. intros J HJ. rewrite rsum_S, rsum_0. unfold sc. ring. }
  rewrite Q in E.
  assert (P : forall e, (e < nT)%nat -> 0 <= gamma * dt * (alpha * size tet X T e * gdot (ndim tet) (gx e) (gx e))).
  { intros e He. apply Rmult_le_pos; [auto|]. apply Rmult_le_pos; [|apply gdot_nonneg]. apply Rmult_le_pos; [auto|]. left. auto. }
  assert (P2 : forall e, (e < nT)%nat -> 0 <= rho * mass tet X T e x x + gamma * dt * (alpha * size tet X T e * gdot (ndim tet) (gx e) (gx e))).
  { intros e He. specialize (P e He). pose proof (proj1 (mass_pos tet X T e x (Hs e He))).
    assert (0 <= rho * mass tet X T e x x) by (apply Rmult_le_pos; lra). lra. }
  destruct (Cov I HI) as (e & i & He & Hi & <-).
  pose proof (rsum_nonneg_zero nT _ P2 ltac:(lra) e He) as Z. cbv beta in Z. specialize (P e He).
  pose proof (proj1 (mass_pos tet X T e x (Hs e He))) as Mp.
  assert (0 <= rho * mass tet X T e x x) by (apply Rmult_le_pos; lra).
  assert (Z2 : rho * mass tet X T e x x = 0) by lra. apply Rmult_integral in Z2. destruct Z2 as [Z2|Z2]; [lra|].
  apply (proj2 (mass_pos tet X T e x (Hs e He)) Z2 i Hi).
Qed.

(** The updated state satisfies the discretised equation. *)
Lemma diffusion_step : forall tet X T nT np alpha rho source dt gamma w wv A b B b' x,
  mesh_ok (ncor tet) np T nT -> (forall e, (e < nT)%nat -> size tet X T e <> 0) ->
  diffusion_weak tet X T nT np alpha rho source dt gamma w wv A b B b' ->
  (forall I J, (I < np)%nat -> (J < np)%nat -> ent A I 0 J 0 = 0) -> (forall I, (I < np)%nat -> arr b I = 0) ->
  forall I, (I < np)%nat -> rsum np (fun J => ent B I 0 J 0 * x J) = arr b' I ->
  forall v gv w' gw', (forall p, v p = if (p =? I)%nat then 1 else 0) -> gradients tet X T nT v gv ->
    (forall p, w' p = w p + dt * wv p + gamma * dt * x p) -> gradients tet X T nT w' gw' ->
    rsum nT (fun e => rho * mass tet X T e (fun p => wv p + x p) v + alpha * size tet X T e * gdot (ndim tet) (gw' e) (gv e)) =
    rsum nT (fun e => source * size tet X T e * mean tet T e v).
Proof.
  intros tet X T nT np alpha rho source dt gamma w wv A b B b' x M HS W A0 b0 I HI Hx v gv w' gw' Hv Gv Hw' Gw'.
  destruct (gradients_ex tet X T nT x HS) as (gx & Gx). destruct (gradients_ex tet X T nT w HS) as (gw & Gw).
  destruct (gradients_ex tet X T nT wv HS) as (gwv & Gwv).
  destruct (W x v gx gv gw gwv Gx Gv Gw Gwv) as (E1 & E2).
  rewrite (bilin_zero np 1 A) in E1.
  2:{ intros I' a J c HI' HJ H1 H2. assert (a = 0)%nat as -> by lia. assert (c = 0)%nat as -> by lia. auto. }
  assert (Ev : forall p k, (p < np)%nat -> (k < 1)%nat -> sc v p k = sc (d1 I) p k) by (intros; unfold sc, d1; apply Hv).
  rewrite (bilin_ext np 1 B (sc x) (sc x) (sc v) (sc (d1 I))) in E1 by (intros; split; auto).
  rewrite !(lin_ext np 1 _ (sc v) (sc (d1 I))) in E2 by auto. rewrite bilin_row1 in E1 by auto. rewrite !lin_row1 in E2 by auto.
  rewrite b0 in E2 by auto. rewrite Hx, E2 in E1. clear E2 Hx.
  pose proof (gradients_lin _ _ _ _ _ _ _ _ (gamma * dt) (gradients_lin _ _ _ _ _ _ _ _ dt Gw Gwv) Gx) as G2.
  assert (Eg : forall e, (e < nT)%nat -> alpha * size tet X T e * gdot (ndim tet) (gw' e) (gv e) =
     alpha * size tet X T e * gdot (ndim tet) (fun k => gw e k + dt * gwv e k) (gv e) + gamma * dt * (alpha * size tet X T e * gdot (ndim tet) (gx e) (gv e))).
  { intros e He. replace (gdot (ndim tet) (gw' e) (gv e)) with (gdot (ndim tet) (fun k => gw e k + dt * gwv e k + gamma * dt * gx e k) (gv e)).
    - rewrite (gdot_addl _ (fun k => gw e k + dt * gwv e k) (fun k => gamma * dt * gx e k)), gdot_mull. ring.
    - symmetry. unfold gdot. apply rsum_ext. intros k Hk. f_equal. assert (U : forall g1 g2, is_grad (ncor tet) (ndim tet) (loc (ncor tet) (ndim tet) X T e) (fun i => w' (nd (ncor tet) T e i)) g1 ->
        is_grad (ncor tet) (ndim tet) (loc (ncor tet) (ndim tet) X T e) (fun i => w' (nd (ncor tet) T e i)) g2 -> g1 k = g2 k).
      { intros g1 g2 H1 H2. destruct tet; cbn [ncor ndim] in *.
        - rewrite (tet_grad _ _ _ ltac:(rewrite tetV_volume; apply (HS e He)) H1 k Hk), (tet_grad _ _ _ ltac:(rewrite tetV_volume; apply (HS e He)) H2 k Hk). auto.
        - rewrite (tri_grad _ _ _ ltac:(rewrite triA_area; apply (HS e He)) H1 k Hk), (tri_grad _ _ _ ltac:(rewrite triA_area; apply (HS e He)) H2 k Hk). auto. }
      apply (U (gw' e) (fun k => gw e k + dt * gwv e k + gamma * dt * gx e k)).
      + apply (grad_loc _ _ _ _ nT); auto.
      + apply (grad_loc _ _ _ _ nT w' (fun e k => gw e k + dt * gwv e k + gamma * dt * gx e k)); auto.
        apply (gradients_ext tet X T nT np (fun p => w p + dt * wv p + gamma * dt * x p)); auto. }
  rewrite (rsum_ext nT (fun e => rho * _ + _) (fun e => (rho * mass tet X T e x v + gamma * dt * (alpha * size tet X T e * gdot (ndim tet) (gx e) (gv e)))
     + (rho * mass tet X T e wv v + alpha * size tet X T e * gdot (ndim tet) (fun k => gw e k + dt * gwv e k) (gv e)))).
  - rewrite rsum_add. rewrite (rsum_ext nT (fun e => _ - _ - _) (fun e => source * size tet X T e * mean tet T e v - (rho * mass tet X T e wv v + alpha * size tet X T e * gdot (ndim tet) (fun k => gw e k + dt * gwv e k) (gv e)))) in E1 by (intros; ring).
    rewrite rsum_sub in E1. lra.
  - intros e He. rewrite Eg by auto.
    replace (mass tet X T e (fun p => wv p + x p) v) with (mass tet X T e wv v + 1 * mass tet X T e x v); [ring|].
    rewrite <- mass_lin. unfold mass. f_equal. f_equal. f_equal; [f_equal|]; apply rsum_ext; intros; ring.
Qed.
