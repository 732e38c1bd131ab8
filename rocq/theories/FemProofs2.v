(** Elements: shape functions, gradients, energies. *)
From Coq Require Import List Arith Reals Lia Lra Bool.
Import ListNotations.
From Verif Require Import Imp Alg SpModel SpSpec FemModel FemSpec FemProofs1.
Local Open Scope R_scope.

(** The local copy that FetchData makes. *)
Definition loc (nno d : nat) (X : list R) (aEl : list nat) (e : nat) : vecf :=
  fun i k => nth k (nth i (map (fun i => map (cmp d X (nd nno aEl e i)) (seq 0 d)) (seq 0 nno)) []) 0.
Lemma loc_cmp : forall nno d X aEl e i k, (i < nno)%nat -> (k < d)%nat -> loc nno d X aEl e i k = cmp d X (nd nno aEl e i) k.
Proof. intros. unfold loc. rewrite nth_map_seq by auto. apply nth_map_seq; auto. Qed.
Lemma Fetch_eq : forall nno d np X aEl nEl e, mesh_ok nno np aEl nEl -> (e < nEl)%nat -> length X = (np * d)%nat ->
  FetchData nno d (corners nno aEl e) X = Some (loc nno d X aEl e).
Proof.
  intros nno d np X aEl nEl e (M1 & M2 & M3) He LX. unfold FetchData.
  rewrite (mapM_some _ _ _ (fun i => map (cmp d X (nd nno aEl e i)) (seq 0 d))); [reflexivity|].
  intros i Hi. apply in_seq in Hi. rewrite (vget_nth _ 0%nat) by (rewrite corners_length; lia). cbn [bind].
  rewrite corners_nth by lia. apply mapM_some. intros k Hk. apply in_seq in Hk. unfold cmp. apply vget_nth.
  specialize (M2 e i He ltac:(lia)). nia.
Qed.

(** ---- triangles ---- *)
Definition triA (c : vecf) : R := TriArea2D (c 0%nat) (c 1%nat) (c 2%nat).
Definition triD (c : vecf) : vecf := fst (TriDlDx (c 0%nat) (c 1%nat) (c 2%nat)).
Definition triC (c : vecf) : nat -> R := snd (TriDlDx (c 0%nat) (c 1%nat) (c 2%nat)).
Lemma triA_area : forall X T e, triA (loc 3 2 X T e) = area X T e.
Proof.
  intros. unfold triA, TriArea2D, area, det2, side. rewrite !loc_cmp by lia. field.
Qed.
Ltac lt3 i := destruct i as [|[|[|i]]]; [| | |lia].
Ltac lt2 i := destruct i as [|[|i]]; [| |lia].
Ltac lt4 i := destruct i as [|[|[|[|i]]]]; [| | | |lia].
Lemma tri_bary : forall c i j, triA c <> 0 -> (i < 3)%nat -> (j < 3)%nat ->
  triC c i + rsum 2 (fun k => triD c i k * c j k) = if (i =? j)%nat then 1 else 0.
Proof.
  intros c i j HA Hi Hj. unfold triA, TriArea2D in HA. lt3 i; lt3 j; cbn [Nat.eqb]; unfold triC, triD, TriDlDx, TriArea2D; cbn [fst snd]; rsums; field; lra.
Qed.
Lemma tri_grad : forall c u g, triA c <> 0 -> is_grad 3 2 c u g -> forall k, (k < 2)%nat -> g k = rsum 3 (fun i => u i * triD c i k).
Proof.
  intros c u g HA H k Hk. pose proof (H 0%nat 1%nat ltac:(lia) ltac:(lia)) as E1. pose proof (H 0%nat 2%nat ltac:(lia) ltac:(lia)) as E2.
  revert E1 E2. rsums. intros E1 E2. unfold triA in HA.
  assert (D : 2 * TriArea2D (c 0%nat) (c 1%nat) (c 2%nat) <> 0) by lra.
  apply (Rmult_eq_reg_l (2 * TriArea2D (c 0%nat) (c 1%nat) (c 2%nat))); [|exact D].
  assert (U1 : u 1%nat = u 0%nat + (g 0%nat * (c 1%nat 0%nat - c 0%nat 0%nat) + g 1%nat * (c 1%nat 1%nat - c 0%nat 1%nat))) by lra.
  assert (U2 : u 2%nat = u 0%nat + (g 0%nat * (c 2%nat 0%nat - c 0%nat 0%nat) + g 1%nat * (c 2%nat 1%nat - c 0%nat 1%nat))) by lra.
  rewrite U1, U2. unfold triD, TriDlDx, TriArea2D in *. lt2 k; cbn [fst snd]; field; lra.
Qed.
Lemma tri_grad_ex : forall c u, triA c <> 0 -> is_grad 3 2 c u (fun k => rsum 3 (fun i => u i * triD c i k)).
Proof.
  intros c u HA i j Hi Hj. unfold triA, TriArea2D in HA. unfold triD, TriDlDx, TriArea2D.
  lt3 i; lt3 j; rsums; cbn [fst snd]; field; lra.
Qed.

(** ---- tetrahedra ---- *)
Definition tetV (c : vecf) : R := TetVolume3D (c 0%nat) (c 1%nat) (c 2%nat) (c 3%nat).
Definition tetD (c : vecf) : vecf := fst (TetDlDx (c 0%nat) (c 1%nat) (c 2%nat) (c 3%nat)).
Definition tetC (c : vecf) : nat -> R := snd (TetDlDx (c 0%nat) (c 1%nat) (c 2%nat) (c 3%nat)).
Lemma tetV_volume : forall X T e, tetV (loc 4 3 X T e) = volume X T e.
Proof.
  intros. unfold tetV, TetVolume3D, volume, det3, side. rewrite !loc_cmp by lia. field.
Qed.
Lemma tet_bary : forall c i j, tetV c <> 0 -> (i < 4)%nat -> (j < 4)%nat ->
  tetC c i + rsum 3 (fun k => tetD c i k * c j k) = if (i =? j)%nat then 1 else 0.
Proof.
  intros c i j HA Hi Hj. unfold tetV, TetVolume3D in HA.
  lt4 i; lt4 j; cbn [Nat.eqb]; unfold tetC, tetD, TetDlDx, TetVolume3D; cbn [fst snd]; rsums; field; lra.
Qed.
Lemma tet_grad : forall c u g, tetV c <> 0 -> is_grad 4 3 c u g -> forall k, (k < 3)%nat -> g k = rsum 4 (fun i => u i * tetD c i k).
Proof.
  intros c u g HA H k Hk. pose proof (H 0%nat 1%nat ltac:(lia) ltac:(lia)) as E1. pose proof (H 0%nat 2%nat ltac:(lia) ltac:(lia)) as E2.
  pose proof (H 0%nat 3%nat ltac:(lia) ltac:(lia)) as E3.
  revert E1 E2 E3. rsums. intros E1 E2 E3. unfold tetV in HA.
  assert (D : 6 * TetVolume3D (c 0%nat) (c 1%nat) (c 2%nat) (c 3%nat) <> 0) by lra.
  apply (Rmult_eq_reg_l (6 * TetVolume3D (c 0%nat) (c 1%nat) (c 2%nat) (c 3%nat))); [|exact D].
  apply (f_equal (fun t => u 0%nat + t)) in E1, E2, E3. rewrite Rplus_comm in E1, E2, E3.
  replace (u 0%nat + (u 1%nat - u 0%nat)) with (u 1%nat) in E1 by ring.
  replace (u 0%nat + (u 2%nat - u 0%nat)) with (u 2%nat) in E2 by ring.
  replace (u 0%nat + (u 3%nat - u 0%nat)) with (u 3%nat) in E3 by ring.
  rewrite <- E1, <- E2, <- E3. clear E1 E2 E3. unfold tetD, TetDlDx, TetVolume3D in *. lt3 k; cbn [fst snd]; field; lra.
Qed.
Lemma tet_grad_ex : forall c u, tetV c <> 0 -> is_grad 4 3 c u (fun k => rsum 4 (fun i => u i * tetD c i k)).
Proof.
  intros c u HA i j Hi Hj.
  assert (E : forall m k, (k < 4)%nat -> (m < 4)%nat -> rsum 3 (fun q => tetD c m q * c k q) = (if (m =? k)%nat then 1 else 0) - tetC c m).
  { intros m k Hk Hm. pose proof (tet_bary c m k HA Hm Hk). lra. }
  transitivity (rsum 4 (fun m => u m * (rsum 3 (fun q => tetD c m q * c j q) - rsum 3 (fun q => tetD c m q * c i q)))).
  - rsums. ring.
  - rewrite (rsum_ext 4 _ (fun m => u m * ((if (m =? j)%nat then 1 else 0) - (if (m =? i)%nat then 1 else 0)))).
    + lt4 i; lt4 j; rsums; cbn [Nat.eqb]; ring.
    + intros m Hm. rewrite !E by auto. ring.
Qed.
