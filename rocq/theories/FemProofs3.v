(** Assembled Poisson and diffusion systems. *)
From Coq Require Import List Arith ZArith Reals Lia Lra Bool.
Import ListNotations.
From Verif Require Import Imp Alg SpModel SpSpec SpProps FemModel FemSpec FemProofs1 FemProofs2.
Local Open Scope R_scope.

(** ---- elements ---- *)
Section Tri.
Variables (c : vecf) (alpha source : R).
Hypothesis HA : triA c <> 0.
Lemma tri_K : forall u v gu gv, is_grad 3 2 c u gu -> is_grad 3 2 c v gv ->
  rsum 3 (fun i => rsum 3 (fun j => v i * (alpha * triA c * (triD c i 0%nat * triD c j 0%nat + triD c i 1%nat * triD c j 1%nat)) * u j))
  = alpha * triA c * gdot 2 gu gv.
Proof.
  intros u v gu gv Hu Hv. unfold gdot. rewrite (rsum_ext 2 _ (fun k => rsum 3 (fun i => u i * triD c i k) * rsum 3 (fun i => v i * triD c i k))).
  - rsums. ring.
  - intros k Hk. rewrite (tri_grad c u gu HA Hu k Hk), (tri_grad c v gv HA Hv k Hk). auto.
Qed.
End Tri.
Section Tet.
Variables (c : vecf) (alpha source : R).
Hypothesis HA : tetV c <> 0.
Lemma tet_K : forall u v gu gv, is_grad 4 3 c u gu -> is_grad 4 3 c v gv ->
  rsum 4 (fun i => rsum 4 (fun j => v i * (alpha * tetV c * (tetD c i 0%nat * tetD c j 0%nat + tetD c i 1%nat * tetD c j 1%nat + tetD c i 2%nat * tetD c j 2%nat)) * u j))
  = alpha * tetV c * gdot 3 gu gv.
Proof.
  intros u v gu gv Hu Hv. unfold gdot. rewrite (rsum_ext 3 _ (fun k => rsum 4 (fun i => u i * tetD c i k) * rsum 4 (fun i => v i * tetD c i k))).
  - rsums. ring.
  - intros k Hk. rewrite (tet_grad c u gu HA Hu k Hk), (tet_grad c v gv HA Hv k Hk). auto.
Qed.
End Tet.

Lemma is_grad_ext : forall nno dim c c' u g, (forall i k, (i < nno)%nat -> (k < dim)%nat -> c i k = c' i k) ->
  is_grad nno dim c u g -> is_grad nno dim c' u g.
Proof.
  intros nno dim c c' u g E H i j Hi Hj. rewrite <- H by auto. apply rsum_ext. intros k Hk. rewrite !E by auto. auto.
Qed.
Lemma grad_loc : forall nno dim X T nT u g e, grad_on nno dim X T nT u g -> (e < nT)%nat ->
  is_grad nno dim (loc nno dim X T e) (fun i => u (nd nno T e i)) (g e).
Proof. intros. eapply is_grad_ext; [|apply H; auto]. intros. cbv beta. rewrite loc_cmp; auto. Qed.
Lemma size_loc3 : forall X T e, triA (loc 3 2 X T e) = size false X T e. Proof. exact triA_area. Qed.
Lemma size_loc4 : forall X T e, tetV (loc 4 3 X T e) = size true X T e. Proof. exact tetV_volume. Qed.

Lemma arr_cmp : forall l p, cmp 1 l p 0 = arr l p. Proof. intros. unfold cmp, arr. f_equal. lia. Qed.

Lemma gradients_ex : forall tet X T nT u, (forall e, (e < nT)%nat -> size tet X T e <> 0) -> exists g, gradients tet X T nT u g.
Proof.
  intros tet X T nT u H. destruct tet.
  - exists (fun e k => rsum 4 (fun i => u (nd 4 T e i) * tetD (loc 4 3 X T e) i k)). intros e He. cbn [ncor ndim].
    apply (is_grad_ext _ _ (loc 4 3 X T e)); [intros; apply loc_cmp; auto|]. apply tet_grad_ex. rewrite tetV_volume. apply (H e He).
  - exists (fun e k => rsum 3 (fun i => u (nd 3 T e i) * triD (loc 3 2 X T e) i k)). intros e He. cbn [ncor ndim].
    apply (is_grad_ext _ _ (loc 3 2 X T e)); [intros; apply loc_cmp; auto|]. apply tri_grad_ex. rewrite triA_area. apply (H e He).
Qed.

Ltac fetch M He := rewrite ?(Fetch_eq _ _ _ _ _ _ _ M He) by auto; cbn [bind].

Theorem poisson_ok : forall tet dbg alpha source X np T nT val A b,
  mesh_ok (ncor tet) np T nT -> length X = (np * ndim tet)%nat -> length val = np -> length b = np ->
  matrix_ok (ncor tet) np 1 T nT A -> (forall e, (e < nT)%nat -> size tet X T e <> 0) ->
  exists B b', run_poisson tet dbg A b alpha source X np T nT val = Some (B, b') /\ same_pattern A B /\ wf B /\ length b' = np /\
    poisson_weak tet X T nT np alpha source (arr val) A b B b'.
Proof.
  intros tet dbg alpha source X np T nT val A b M LX LV Lb HA HS.
  assert (LV1 : length val = (np * 1)%nat) by lia. assert (Lb1 : length b = (np * 1)%nat) by lia.
  destruct tet; cbn [ncor ndim run_poisson] in *.
  - set (pe := fun e => EMat_Poisson_Tet3D alpha source (loc 4 3 X T e) (fun i => loc 4 1 val T e i 0%nat)).
    destruct (assemble_forms 4 1 np (Some 0%nat) dbg (Merge2 dbg) ltac:(reflexivity) T nT M ltac:(lia) ltac:(lia)
      (fun aIP => coords <- FetchData 4 3 aIP X ;; value <- FetchData 4 1 aIP val ;;
         Some (scal (EMat_Poisson_Tet3D alpha source coords (fun i => value i 0%nat))))
      (fun e => fst (scal (pe e))) (fun e => snd (scal (pe e)))) with (A := A) (b := b) as (B & b' & E & S & W & L & F1 & F2); auto.
    { intros e He. fetch M He. do 2 eexists. split; [reflexivity|]. split; intros; reflexivity. }
    exists B, b'. split; [exact E|]. split; [auto|]. split; [auto|]. split; [lia|].
    intros u v gu gv gw Hu Hv Hw. unfold gradients in Hu, Hv, Hw. cbn [ncor ndim] in Hu, Hv, Hw. rewrite F1, F2. split; f_equal; apply rsum_ext; intros e He.
    + pose proof (HS e He) as Hs. cbn [size] in Hs. rewrite <- tetV_volume in Hs. cbn [size ndim]. rewrite <- tetV_volume.
      rewrite <- (tet_K _ alpha Hs _ _ _ _ (grad_loc _ _ _ _ _ _ _ e Hu He) (grad_loc _ _ _ _ _ _ _ e Hv He)).
      unfold eform. rsums. unfold sc, scal, pe, EMat_Poisson_Tet3D. unfold tetD, tetV. destruct (TetDlDx _ _ _ _). cbn [fst snd]. ring.
    + pose proof (HS e He) as Hs. cbn [size] in Hs. rewrite <- tetV_volume in Hs. unfold mean. cbn [size ndim ncor]. rewrite <- tetV_volume.
      rewrite <- (tet_K _ alpha Hs _ _ _ _ (grad_loc _ _ _ _ _ _ _ e Hw He) (grad_loc _ _ _ _ _ _ _ e Hv He)).
      unfold eload. unfold sc, scal, pe, EMat_Poisson_Tet3D. unfold tetD, tetV. destruct (TetDlDx _ _ _ _) as (D & Cc). cbn [fst snd].
      replace (INR 4) with 4 by (cbn; ring).
      rewrite (rsum_ext 4 (fun i => rsum 4 (fun j => v _ * _ * arr val _)) (fun i => rsum 4 (fun j => v (nd 4 T e i) * (alpha * TetVolume3D (loc 4 3 X T e 0%nat) (loc 4 3 X T e 1%nat) (loc 4 3 X T e 2%nat) (loc 4 3 X T e 3%nat) * (D i 0%nat * D j 0%nat + D i 1%nat * D j 1%nat + D i 2%nat * D j 2%nat)) * loc 4 1 val T e j 0%nat))).
      2:{ intros i Hi. apply rsum_ext. intros j Hj. rewrite <- arr_cmp, <- (loc_cmp 4 1) by lia. auto. }
      set (TV := TetVolume3D _ _ _ _). clearbody TV. unfold decR. rsums. cbn [fold_left]. field.
  - set (pe := fun e => EMat_Poisson_Tri2D alpha source (loc 3 2 X T e) (fun i => loc 3 1 val T e i 0%nat)).
    destruct (assemble_forms 3 1 np (Some 0%nat) dbg (Merge2 dbg) ltac:(reflexivity) T nT M ltac:(lia) ltac:(lia)
      (fun aIP => coords <- FetchData 3 2 aIP X ;; value <- FetchData 3 1 aIP val ;;
         Some (scal (EMat_Poisson_Tri2D alpha source coords (fun i => value i 0%nat))))
      (fun e => fst (scal (pe e))) (fun e => snd (scal (pe e)))) with (A := A) (b := b) as (B & b' & E & S & W & L & F1 & F2); auto.
    { intros e He. fetch M He. do 2 eexists. split; [reflexivity|]. split; intros; reflexivity. }
    exists B, b'. split; [exact E|]. split; [auto|]. split; [auto|]. split; [lia|].
    intros u v gu gv gw Hu Hv Hw. unfold gradients in Hu, Hv, Hw. cbn [ncor ndim] in Hu, Hv, Hw. rewrite F1, F2. split; f_equal; apply rsum_ext; intros e He.
    + pose proof (HS e He) as Hs. cbn [size] in Hs. rewrite <- triA_area in Hs. cbn [size ndim]. rewrite <- triA_area.
      rewrite <- (tri_K _ alpha Hs _ _ _ _ (grad_loc _ _ _ _ _ _ _ e Hu He) (grad_loc _ _ _ _ _ _ _ e Hv He)).
      unfold eform. rsums. unfold sc, scal, pe, EMat_Poisson_Tri2D. unfold triD, triA. destruct (TriDlDx _ _ _). cbn [fst snd]. ring.
    + pose proof (HS e He) as Hs. cbn [size] in Hs. rewrite <- triA_area in Hs. unfold mean. cbn [size ndim ncor]. rewrite <- triA_area.
      rewrite <- (tri_K _ alpha Hs _ _ _ _ (grad_loc _ _ _ _ _ _ _ e Hw He) (grad_loc _ _ _ _ _ _ _ e Hv He)).
      unfold eload. unfold sc, scal, pe, EMat_Poisson_Tri2D. unfold triD, triA. destruct (TriDlDx _ _ _) as (D & Cc). cbn [fst snd].
      replace (INR 3) with 3 by (cbn; ring).
      rewrite (rsum_ext 3 (fun i => rsum 3 (fun j => v _ * _ * arr val _)) (fun i => rsum 3 (fun j => v (nd 3 T e i) * (alpha * TriArea2D (loc 3 2 X T e 0%nat) (loc 3 2 X T e 1%nat) (loc 3 2 X T e 2%nat) * (D i 0%nat * D j 0%nat + D i 1%nat * D j 1%nat)) * loc 3 1 val T e j 0%nat))).
      2:{ intros i Hi. apply rsum_ext. intros j Hj. rewrite <- arr_cmp, <- (loc_cmp 3 1) by lia. auto. }
      set (TV := TriArea2D _ _ _). clearbody TV. unfold decR. rsums. cbn [fold_left]. field.
Qed.

Lemma arr_loc : forall nno val T e i, (i < nno)%nat -> loc nno 1 val T e i 0%nat = arr val (nd nno T e i).
Proof. intros. rewrite loc_cmp by (auto; lia). apply arr_cmp. Qed.

Theorem diffusion_ok : forall tet dbg alpha rho source dt gamma X np T nT val velo A b,
  mesh_ok (ncor tet) np T nT -> length X = (np * ndim tet)%nat -> length val = np -> length velo = np -> length b = np ->
  matrix_ok (ncor tet) np 1 T nT A -> (forall e, (e < nT)%nat -> size tet X T e <> 0) ->
  exists B b', run_diffusion tet dbg A b alpha rho source dt gamma X np T nT val velo = Some (B, b') /\ same_pattern A B /\ wf B /\ length b' = np /\
    diffusion_weak tet X T nT np alpha rho source dt gamma (arr val) (arr velo) A b B b'.
Proof.
  intros tet dbg alpha rho source dt gamma X np T nT val velo A b M LX LV LW Lb HA HS.
  assert (LV1 : length val = (np * 1)%nat) by lia. assert (LW1 : length velo = (np * 1)%nat) by lia. assert (Lb1 : length b = (np * 1)%nat) by lia.
  destruct tet; cbn [ncor ndim run_diffusion] in *.
  - set (pe := fun e => EMat_Diffusion_Newmark_Tet3D alpha source dt gamma rho (loc 4 3 X T e) (fun i => loc 4 1 val T e i 0%nat) (fun i => loc 4 1 velo T e i 0%nat)).
    destruct (assemble_forms 4 1 np (Some 0%nat) dbg (Merge2 dbg) ltac:(reflexivity) T nT M ltac:(lia) ltac:(lia)
      (fun aIP => coords <- FetchData 4 3 aIP X ;; value <- FetchData 4 1 aIP val ;; vl <- FetchData 4 1 aIP velo ;;
         Some (scal (EMat_Diffusion_Newmark_Tet3D alpha source dt gamma rho coords (fun i => value i 0%nat) (fun i => vl i 0%nat))))
      (fun e => fst (scal (pe e))) (fun e => snd (scal (pe e)))) with (A := A) (b := b) as (B & b' & E & S & W & L & F1 & F2); auto.
    { intros e He. fetch M He. do 2 eexists. split; [reflexivity|]. split; intros; reflexivity. }
    exists B, b'. split; [exact E|]. split; [auto|]. split; [auto|]. split; [lia|].
    intros u v gu gv gw gwv Hu Hv Hw Hwv. unfold gradients in Hu, Hv, Hw, Hwv. cbn [ncor ndim] in Hu, Hv, Hw, Hwv. rewrite F1, F2.
    split; f_equal; apply rsum_ext; intros e He.
    + pose proof (HS e He) as Hs. cbn [size] in Hs. rewrite <- tetV_volume in Hs. unfold mass. cbn [size ndim ncor]. rewrite <- tetV_volume.
      rewrite <- (tet_K _ alpha Hs _ _ _ _ (grad_loc _ _ _ _ _ _ _ e Hu He) (grad_loc _ _ _ _ _ _ _ e Hv He)).
      unfold eform. rsums. unfold sc, scal, pe, EMat_Diffusion_Newmark_Tet3D. unfold tetD, tetV. destruct (TetDlDx _ _ _ _). cbn [fst snd Nat.eqb].
      replace (INR 4) with 4 by (cbn; ring). replace (INR 5) with 5 by (cbn; ring).
      set (TV := TetVolume3D _ _ _ _). clearbody TV. field.
    + pose proof (HS e He) as Hs. cbn [size] in Hs. rewrite <- tetV_volume in Hs. unfold mean, mass. cbn [size ndim ncor]. rewrite <- tetV_volume.
      assert (Hs2 : is_grad 4 3 (loc 4 3 X T e) (fun i => arr val (nd 4 T e i) + dt * arr velo (nd 4 T e i)) (fun k => gw e k + dt * gwv e k)).
      { intros i j Hi Hj. pose proof (grad_loc _ _ _ _ _ _ _ e Hw He i j Hi Hj) as G1. pose proof (grad_loc _ _ _ _ _ _ _ e Hwv He i j Hi Hj) as G2.
        cbv beta in G1, G2. transitivity (arr val (nd 4 T e j) - arr val (nd 4 T e i) + dt * (arr velo (nd 4 T e j) - arr velo (nd 4 T e i))); [|ring].
        rewrite <- G1, <- G2, <- rsum_mull, <- rsum_add. apply rsum_ext. intros; ring. }
      rewrite <- (tet_K _ alpha Hs _ _ _ _ Hs2 (grad_loc _ _ _ _ _ _ _ e Hv He)).
      unfold eload. unfold sc, scal, pe, EMat_Diffusion_Newmark_Tet3D. unfold tetD, tetV. destruct (TetDlDx _ _ _ _) as (D & Cc). cbn [fst snd].
      replace (INR 4) with 4 by (cbn; ring). replace (INR 5) with 5 by (cbn; ring).
      set (TV := TetVolume3D _ _ _ _). clearbody TV. unfold decR. rsums. cbn [fold_left Nat.eqb]. rewrite !arr_loc by lia. field.
  - set (pe := fun e => EMat_Diffusion_Tri2D alpha source dt gamma rho (loc 3 2 X T e) (fun i => loc 3 1 val T e i 0%nat) (fun i => loc 3 1 velo T e i 0%nat)).
    destruct (assemble_forms 3 1 np (Some 0%nat) dbg (Merge2 dbg) ltac:(reflexivity) T nT M ltac:(lia) ltac:(lia)
      (fun aIP => coords <- FetchData 3 2 aIP X ;; value <- FetchData 3 1 aIP val ;; vl <- FetchData 3 1 aIP velo ;;
         Some (scal (EMat_Diffusion_Tri2D alpha source dt gamma rho coords (fun i => value i 0%nat) (fun i => vl i 0%nat))))
      (fun e => fst (scal (pe e))) (fun e => snd (scal (pe e)))) with (A := A) (b := b) as (B & b' & E & S & W & L & F1 & F2); auto.
    { intros e He. fetch M He. do 2 eexists. split; [reflexivity|]. split; intros; reflexivity. }
    exists B, b'. split; [exact E|]. split; [auto|]. split; [auto|]. split; [lia|].
    intros u v gu gv gw gwv Hu Hv Hw Hwv. unfold gradients in Hu, Hv, Hw, Hwv. cbn [ncor ndim] in Hu, Hv, Hw, Hwv. rewrite F1, F2.
    split; f_equal; apply rsum_ext; intros e He.
    + pose proof (HS e He) as Hs. cbn [size] in Hs. rewrite <- triA_area in Hs. unfold mass. cbn [size ndim ncor]. rewrite <- triA_area.
      rewrite <- (tri_K _ alpha Hs _ _ _ _ (grad_loc _ _ _ _ _ _ _ e Hu He) (grad_loc _ _ _ _ _ _ _ e Hv He)).
      unfold eform. rsums. unfold sc, scal, pe, EMat_Diffusion_Tri2D. unfold triD, triA. destruct (TriDlDx _ _ _). cbn [fst snd Nat.eqb].
      replace (INR 3) with 3 by (cbn; ring). replace (INR 4) with 4 by (cbn; ring).
      set (TV := TriArea2D _ _ _). clearbody TV. field.
    + pose proof (HS e He) as Hs. cbn [size] in Hs. rewrite <- triA_area in Hs. unfold mean, mass. cbn [size ndim ncor]. rewrite <- triA_area.
      assert (Hs2 : is_grad 3 2 (loc 3 2 X T e) (fun i => arr val (nd 3 T e i) + dt * arr velo (nd 3 T e i)) (fun k => gw e k + dt * gwv e k)).
      { intros i j Hi Hj. pose proof (grad_loc _ _ _ _ _ _ _ e Hw He i j Hi Hj) as G1. pose proof (grad_loc _ _ _ _ _ _ _ e Hwv He i j Hi Hj) as G2.
        cbv beta in G1, G2. transitivity (arr val (nd 3 T e j) - arr val (nd 3 T e i) + dt * (arr velo (nd 3 T e j) - arr velo (nd 3 T e i))); [|ring].
        rewrite <- G1, <- G2, <- rsum_mull, <- rsum_add. apply rsum_ext. intros; ring. }
      rewrite <- (tri_K _ alpha Hs _ _ _ _ Hs2 (grad_loc _ _ _ _ _ _ _ e Hv He)).
      unfold eload. unfold sc, scal, pe, EMat_Diffusion_Tri2D. unfold triD, triA. destruct (TriDlDx _ _ _) as (D & Cc). cbn [fst snd].
      replace (INR 3) with 3 by (cbn; ring). replace (INR 4) with 4 by (cbn; ring).
      set (TV := TriArea2D _ _ _). clearbody TV. unfold decR. rsums. cbn [fold_left Nat.eqb]. rewrite !arr_loc by lia. field.
Qed.
