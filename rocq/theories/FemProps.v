(** Theorems on linear finite elements for the Poisson and the diffusion equation (property C67). *)
From Coq Require Import List Arith ZArith Reals Lia Lra Bool.
Import ListNotations.
From Verif Require Import Imp Alg SpModel SpSpec SpProps FemModel FemSpec FemProofs1 FemProofs2 FemProofs3 FemProofs4 FemProofs5.
Local Open Scope R_scope.

(** TriDlDx and TetDlDx return the coefficients of the affine functions that are 1 at one corner and 0 at the others. *)
Theorem C67_shape_tri : forall p0 p1 p2 : nat -> R, det2 (fun k => p1 k - p0 k) (fun k => p2 k - p0 k) <> 0 ->
  forall i j, (i < 3)%nat -> (j < 3)%nat ->
    snd (TriDlDx p0 p1 p2) i + rsum 2 (fun k => fst (TriDlDx p0 p1 p2) i k * nth j [p0; p1; p2] p0 k) = if (i =? j)%nat then 1 else 0.
Proof.
  intros p0 p1 p2 H i j Hi Hj.
  rewrite <- (tri_bary (fun j => nth j [p0; p1; p2] p0) i j); auto. unfold triA, TriArea2D. unfold det2 in H. cbn [nth]. lra.
Qed.
Theorem C67_shape_tet : forall p0 p1 p2 p3 : nat -> R, det3 (fun k => p1 k - p0 k) (fun k => p2 k - p0 k) (fun k => p3 k - p0 k) <> 0 ->
  forall i j, (i < 4)%nat -> (j < 4)%nat ->
    snd (TetDlDx p0 p1 p2 p3) i + rsum 3 (fun k => fst (TetDlDx p0 p1 p2 p3) i k * nth j [p0; p1; p2; p3] p0 k) = if (i =? j)%nat then 1 else 0.
Proof.
  intros p0 p1 p2 p3 H i j Hi Hj.
  rewrite <- (tet_bary (fun j => nth j [p0; p1; p2; p3] p0) i j); auto. unfold tetV, TetVolume3D. unfold det3 in H. cbn [nth]. lra.
Qed.
(** TriArea2D and TetVolume3D are the signed area and the signed volume. *)
Theorem C67_measure : (forall p0 p1 p2, TriArea2D p0 p1 p2 = det2 (fun k => p1 k - p0 k) (fun k => p2 k - p0 k) / 2) /\
  (forall p0 p1 p2 p3, TetVolume3D p0 p1 p2 p3 = det3 (fun k => p1 k - p0 k) (fun k => p2 k - p0 k) (fun k => p3 k - p0 k) / 6).
Proof. split; intros; unfold TriArea2D, TetVolume3D, det2, det3; field. Qed.

(** Every field has a gradient on a mesh without flat elements, and only one: the weak forms below are statements about all fields. *)
Theorem C67_gradient : forall tet X T nT u, (forall e, (e < nT)%nat -> size tet X T e <> 0) ->
  (exists g, gradients tet X T nT u g) /\
  (forall g g', gradients tet X T nT u g -> gradients tet X T nT u g' -> forall e k, (e < nT)%nat -> (k < ndim tet)%nat -> g e k = g' e k).
Proof.
  intros tet X T nT u HS. split; [apply gradients_ex; auto|]. intros g g' G G' e k He Hk.
  pose proof (grad_loc _ _ _ _ _ _ _ e G He) as H1. pose proof (grad_loc _ _ _ _ _ _ _ e G' He) as H2. pose proof (HS e He) as Hs.
  destruct tet; cbn [ncor ndim size] in *.
  - rewrite <- tetV_volume in Hs. rewrite (tet_grad _ _ _ Hs H1 k Hk), (tet_grad _ _ _ Hs H2 k Hk). auto.
  - rewrite <- triA_area in Hs. rewrite (tri_grad _ _ _ Hs H1 k Hk), (tri_grad _ _ _ Hs H2 k Hk). auto.
Qed.

(** The assembled Poisson system is the weak form of the equation. *)
Theorem C67_poisson : forall tet dbg alpha source X np T nT val A b,
  mesh_ok (ncor tet) np T nT -> length X = (np * ndim tet)%nat -> length val = np -> length b = np ->
  matrix_ok (ncor tet) np 1 T nT A -> (forall e, (e < nT)%nat -> size tet X T e <> 0) ->
  exists B b', run_poisson tet dbg A b alpha source X np T nT val = Some (B, b') /\ same_pattern A B /\ wf B /\ length b' = np /\
    poisson_weak tet X T nT np alpha source (arr val) A b B b'.
Proof. exact poisson_ok. Qed.

Section Run.
Variables (tet dbg : bool) (alpha source : R) (X : list R) (np : nat) (T : list nat) (nT : nat) (val : list R) (A B : matsp Rcr) (b b' : list R).
Definition poisson_input : Prop :=
  mesh_ok (ncor tet) np T nT /\ length X = (np * ndim tet)%nat /\ length val = np /\ length b = np /\
  matrix_ok (ncor tet) np 1 T nT A /\ (forall e, (e < nT)%nat -> size tet X T e <> 0).
Hypothesis HI : poisson_input.
Hypothesis HR : run_poisson tet dbg A b alpha source X np T nT val = Some (B, b').

Lemma run_weak : poisson_weak tet X T nT np alpha source (arr val) A b B b' /\ wf B /\ same_pattern A B.
Proof.
  destruct HI as (H1 & H2 & H3 & H4 & H5 & H6). destruct (poisson_ok tet dbg alpha source X np T nT val A b H1 H2 H3 H4 H5 H6) as (B' & b2 & E & S & W & _ & P).
  rewrite HR in E. injection E as <- <-. auto.
Qed.

(** What is added is symmetric, and adds nothing for constant fields. *)
Theorem C67_symmetric : forall I J, (I < np)%nat -> (J < np)%nat -> ent B I 0 J 0 - ent A I 0 J 0 = ent B J 0 I 0 - ent A J 0 I 0.
Proof.
  destruct HI as (_ & _ & _ & _ & _ & H6). destruct run_weak as (W & _). eapply sys_sym; eauto.
Qed.
Theorem C67_constants : forall I, (I < np)%nat -> rsum np (fun J => ent B I 0 J 0) = rsum np (fun J => ent A I 0 J 0).
Proof. destruct HI as (_ & _ & _ & _ & _ & H6). destruct run_weak as (W & _). eapply sys_const; eauto. Qed.
(** It is positive semidefinite when no element is inverted. *)
Theorem C67_semidefinite : forall u, 0 <= alpha -> (forall e, (e < nT)%nat -> 0 < size tet X T e) ->
  bilin np 1 A (sc u) (sc u) <= bilin np 1 B (sc u) (sc u).
Proof. destruct HI as (_ & _ & _ & _ & _ & H6). destruct run_weak as (W & _). intros u. eapply sys_psd; eauto. Qed.
(** With every connected component of the mesh fixed at one point or more, the system has only one solution. *)
Theorem C67_solvable : forall bc C x, (forall I J, (I < np)%nat -> (J < np)%nat -> ent A I 0 J 0 = 0) -> 0 < alpha ->
  (forall e, (e < nT)%nat -> 0 < size tet X T e) -> length bc = np ->
  (forall p, (p < np)%nat -> exists q, (q < np)%nat /\ nth q bc 0%Z <> 0%Z /\ joined (ncor tet) T nT q p) ->
  SetFixedBC (K := Rcr) B bc = Some C ->
  (forall I, (I < np)%nat -> rsum np (fun J => ent C I 0 J 0 * x J) = 0) -> forall I, (I < np)%nat -> x I = 0.
Proof.
  destruct run_weak as (W & WB & SP). destruct HI as (H1 & _ & _ & _ & (_ & H5 & H5' & H5'' & H5''' & _) & H6). intros bc C x.
  destruct SP as (S1 & S2 & S3 & S4 & _). eapply sys_solvable; eauto; congruence.
Qed.
End Run.

(** Adding the solution of the system to the current values makes the residual of a second assembly vanish at the free points. *)
Theorem C67_newton : forall tet dbg alpha source X np T nT val val2 A B B2 b b' b2 x (free : nat -> Prop),
  poisson_input tet X np T nT val A b -> poisson_input tet X np T nT val2 A b ->
  run_poisson tet dbg A b alpha source X np T nT val = Some (B, b') ->
  run_poisson tet dbg A b alpha source X np T nT val2 = Some (B2, b2) ->
  (forall I J, (I < np)%nat -> (J < np)%nat -> ent A I 0 J 0 = 0) ->
  (forall I, (I < np)%nat -> arr val2 I = arr val I + x I) ->
  (forall I, (I < np)%nat -> free I -> rsum np (fun J => ent B I 0 J 0 * x J) = arr b' I) ->
  forall I, (I < np)%nat -> free I -> arr b2 I = 0.
Proof.
  intros tet dbg alpha source X np T nT val val2 A B B2 b b' b2 x free H H2 E E2. destruct (run_weak _ _ _ _ _ _ _ _ _ _ _ _ _ H E) as (W & _).
  destruct (run_weak _ _ _ _ _ _ _ _ _ _ _ _ _ H2 E2) as (W2 & _). destruct H as (H1 & _ & _ & _ & _ & H6). eapply newton; eauto.
Qed.

(** Patch test: values of an affine function leave no residual at the interior points of the mesh. *)
Theorem C67_patch : forall (tet dbg : bool) alpha X np T nT val A B b b' c0 (c : nat -> R) p,
  poisson_input tet X np T nT val A b -> run_poisson tet dbg A b alpha 0 X np T nT val = Some (B, b') ->
  (forall q, (q < np)%nat -> arr val q = c0 + rsum (ndim tet) (fun k => c k * cmp (ndim tet) X q k)) ->
  (p < np)%nat -> (if tet then interior3 T nT p else interior2 T nT p) -> arr b' p = arr b p.
Proof.
  intros tet dbg alpha X np T nT val A B b b' c0 c p H E Hv Hp Hin. destruct (run_weak _ _ _ _ _ _ _ _ _ _ _ _ _ H E) as (W & _).
  destruct H as (H1 & _ & _ & _ & _ & H6). destruct tet; cbn [ncor ndim size] in *.
  - eapply patch3; eauto.
  - eapply patch2; eauto.
Qed.

(** The assembled diffusion system is the weak form of one time step. *)
Theorem C67_diffusion : forall tet dbg alpha rho source dt gamma X np T nT val velo A b,
  mesh_ok (ncor tet) np T nT -> length X = (np * ndim tet)%nat -> length val = np -> length velo = np -> length b = np ->
  matrix_ok (ncor tet) np 1 T nT A -> (forall e, (e < nT)%nat -> size tet X T e <> 0) ->
  exists B b', run_diffusion tet dbg A b alpha rho source dt gamma X np T nT val velo = Some (B, b') /\ same_pattern A B /\ wf B /\ length b' = np /\
    diffusion_weak tet X T nT np alpha rho source dt gamma (arr val) (arr velo) A b B b'.
Proof. exact diffusion_ok. Qed.
(** If x solves row I of the system, the new velocity velo + x and the new value val + dt velo + gamma dt x satisfy
    rho dw/dt - div(alpha grad w) = source in its weak form, tested with the hat function v of point I. *)
Theorem C67_diffusion_step : forall tet dbg alpha rho source dt gamma X np T nT val velo A b B b' x,
  poisson_input tet X np T nT val A b -> length velo = np ->
  run_diffusion tet dbg A b alpha rho source dt gamma X np T nT val velo = Some (B, b') ->
  (forall I J, (I < np)%nat -> (J < np)%nat -> ent A I 0 J 0 = 0) -> (forall I, (I < np)%nat -> arr b I = 0) ->
  forall I, (I < np)%nat -> rsum np (fun J => ent B I 0 J 0 * x J) = arr b' I ->
  forall v gv w' gw', (forall p, v p = if (p =? I)%nat then 1 else 0) -> gradients tet X T nT v gv ->
    (forall p, w' p = arr val p + dt * arr velo p + gamma * dt * x p) -> gradients tet X T nT w' gw' ->
    rsum nT (fun e => rho * mass tet X T e (fun p => arr velo p + x p) v + alpha * size tet X T e * gdot (ndim tet) (gw' e) (gv e)) =
    rsum nT (fun e => source * size tet X T e * mean tet T e v).
Proof.
  intros tet dbg alpha rho source dt gamma X np T nT val velo A b B b' x (H1 & H2 & H3 & H4 & H5 & H6) HV E.
  destruct (diffusion_ok tet dbg alpha rho source dt gamma X np T nT val velo A b H1 H2 H3 HV H4 H5 H6) as (B0 & b0 & E0 & _ & _ & _ & W).
  rewrite E in E0. injection E0 as <- <-. eapply diffusion_step; eauto.
Qed.
(** The matrix of a time step is non-singular, without any fixed point. *)
Theorem C67_diffusion_solvable : forall tet dbg alpha rho source dt gamma X np T nT val velo A b B b' x,
  poisson_input tet X np T nT val A b -> length velo = np ->
  run_diffusion tet dbg A b alpha rho source dt gamma X np T nT val velo = Some (B, b') ->
  (forall e, (e < nT)%nat -> 0 < size tet X T e) ->
  (forall I J, (I < np)%nat -> (J < np)%nat -> ent A I 0 J 0 = 0) -> 0 < rho -> 0 <= alpha -> 0 <= gamma * dt ->
  (forall p, (p < np)%nat -> exists e i, (e < nT)%nat /\ (i < ncor tet)%nat /\ nd (ncor tet) T e i = p) ->
  (forall I, (I < np)%nat -> rsum np (fun J => ent B I 0 J 0 * x J) = 0) -> forall I, (I < np)%nat -> x I = 0.
Proof.
  intros tet dbg alpha rho source dt gamma X np T nT val velo A b B b' x (H1 & H2 & H3 & H4 & H5 & H6) HV E Hs.
  destruct (diffusion_ok tet dbg alpha rho source dt gamma X np T nT val velo A b H1 H2 H3 HV H4 H5 H6) as (B0 & b0 & E0 & _ & _ & _ & W).
  rewrite E in E0. injection E0 as <- <-. eapply diffusion_pd; eauto.
Qed.

(** Concrete case: a unit square cut into four triangles, and a tetrahedron cut into four, around a point in the middle. *)
Definition ex_fem_A : matsp Rcr := mkM (K := Rcr) 5 5 1 1 [0; 4; 8; 12; 16; 20]%nat
  [1; 2; 3; 4; 0; 2; 3; 4; 0; 1; 3; 4; 0; 1; 2; 4; 0; 1; 2; 3]%nat (repeat 0 20) (repeat 0 5).
Definition ex_fem_X (tet : bool) : list R := if tet then [0; 0; 0; 1; 0; 0; 0; 1; 0; 0; 0; 1; 1/4; 1/4; 1/4] else [0; 0; 1; 0; 1; 1; 0; 1; 1/2; 1/2].
Definition ex_fem_T (tet : bool) : list nat := if tet then [4; 1; 2; 3; 0; 4; 2; 3; 0; 1; 4; 3; 0; 1; 2; 4]%nat else [0; 1; 4; 1; 2; 4; 2; 3; 4; 3; 0; 4]%nat.
Ltac lt5 i := destruct i as [|[|[|[|[|i]]]]]; [| | | | |exfalso; lia].
Example C67_inst : forall tet val, length val = 5%nat ->
  poisson_input tet (ex_fem_X tet) 5 (ex_fem_T tet) 4 val ex_fem_A (repeat 0 5) /\
  (forall e, (e < 4)%nat -> 0 < size tet (ex_fem_X tet) (ex_fem_T tet) e) /\
  (if tet then interior3 (ex_fem_T tet) 4 4 else interior2 (ex_fem_T tet) 4 4) /\
  (forall p, (p < 5)%nat -> joined (ncor tet) (ex_fem_T tet) 4 0 p) /\
  (forall I J, (I < 5)%nat -> (J < 5)%nat -> ent ex_fem_A I 0 J 0 = 0).
Proof.
  intros tet val LV.
  assert (P : forall e, (e < 4)%nat -> 0 < size tet (ex_fem_X tet) (ex_fem_T tet) e).
  { intros e He. destruct tet; lt4 e; cbn [size]; unfold volume, area, det2, det3, side, cmp, nd; cbn [ex_fem_T ex_fem_X nth Nat.mul Nat.add]; lra. }
  assert (PT : forall I J, (I < 5)%nat -> (J < 5)%nat -> I <> J -> in_pattern ex_fem_A I J).
  { intros I J HI HJ N. unfold in_pattern. lt5 I; lt5 J; try congruence; cbn;
    first [exists 0%nat; split; [cbn; tauto|reflexivity] | exists 1%nat; split; [cbn; tauto|reflexivity] | exists 2%nat; split; [cbn; tauto|reflexivity] | exists 3%nat; split; [cbn; tauto|reflexivity] | exists 4%nat; split; [cbn; tauto|reflexivity] | exists 5%nat; split; [cbn; tauto|reflexivity] | exists 6%nat; split; [cbn; tauto|reflexivity] | exists 7%nat; split; [cbn; tauto|reflexivity] | exists 8%nat; split; [cbn; tauto|reflexivity] | exists 9%nat; split; [cbn; tauto|reflexivity] | exists 10%nat; split; [cbn; tauto|reflexivity] | exists 11%nat; split; [cbn; tauto|reflexivity] | exists 12%nat; split; [cbn; tauto|reflexivity] | exists 13%nat; split; [cbn; tauto|reflexivity] | exists 14%nat; split; [cbn; tauto|reflexivity] | exists 15%nat; split; [cbn; tauto|reflexivity] | exists 16%nat; split; [cbn; tauto|reflexivity] | exists 17%nat; split; [cbn; tauto|reflexivity] | exists 18%nat; split; [cbn; tauto|reflexivity] | exists 19%nat; split; [cbn; tauto|reflexivity]]. }
  assert (M : mesh_ok (ncor tet) 5 (ex_fem_T tet) 4).
  { split; [destruct tet; cbn; lia|]. split.
    - intros e i He Hi. destruct tet; cbn [ncor] in *; lt4 e; first [lt4 i | lt3 i]; cbn; lia.
    - intros e i j He Hi Hj. destruct tet; cbn [ncor] in *; lt4 e; first [lt4 i | lt3 i]; first [lt4 j | lt3 j]; cbn; lia. }
  split; [|split; [|split; [|split]]]; auto.
  - unfold poisson_input. split; [auto|]. split; [destruct tet; reflexivity|]. split; [auto|]. split; [auto|]. split.
    + split; [|split; [|split; [|split; [|split]]]]; try reflexivity.
      * unfold wf. cbn. repeat split; auto; try lia.
        -- intros I HI. lt5 I; cbn; lia.
        -- intros c Hc. do 20 (destruct c as [|c]; [cbn; lia|]). lia.
      * intros e i j He Hi Hj N. destruct M as (_ & M1 & M2). apply PT; auto. intros E. apply N. eapply M2; eauto.
    + intros e He. specialize (P e He). lra.
  - destruct tet.
    + intros q r. unfold around, count. do 5 (destruct q as [|q]; [do 5 (destruct r as [|r]; [cbn; lra|]); cbn; lra|]).
      do 5 (destruct r as [|r]; [cbn; lra|]); cbn; lra.
    + intros q. unfold count. do 5 (destruct q as [|q]; [cbn; lra|]). cbn; lra.
  - intros p Hp. destruct tet; cbn [ncor].
    + lt5 p; [apply joined_refl|apply (joined_step 4 (ex_fem_T true) 4 0 0%nat 3 0 1)|apply (joined_step 4 (ex_fem_T true) 4 0 0%nat 3 0 2)|apply (joined_step 4 (ex_fem_T true) 4 0 0%nat 2 0 3)|apply (joined_step 4 (ex_fem_T true) 4 0 0%nat 3 0 3)]; try apply joined_refl; try lia; reflexivity.
    + lt5 p.
      * apply joined_refl.
      * apply (joined_step 3 (ex_fem_T false) 4 0 0%nat 0 0 1); try lia; try apply joined_refl; reflexivity.
      * apply (joined_step 3 (ex_fem_T false) 4 0 4%nat 1 2 1); try lia; try reflexivity. apply (joined_step 3 (ex_fem_T false) 4 0 0%nat 0 0 2); try lia; try apply joined_refl; reflexivity.
      * apply (joined_step 3 (ex_fem_T false) 4 0 0%nat 3 1 0); try lia; try apply joined_refl; reflexivity.
      * apply (joined_step 3 (ex_fem_T false) 4 0 0%nat 0 0 2); try lia; try apply joined_refl; reflexivity.
  - intros I J HI HJ. unfold ent, dense, crs, dia. rewrite bigsum_zero; [|intros c _; unfold rp; cbn [ex_fem_A val_crs]; rewrite nth_repeat; destruct (_ =? J)%nat; auto]. destruct (I =? J)%nat; cbn [ex_fem_A val_dia]; rewrite ?nth_repeat; cbn; lra.
Qed.

Print Assumptions C67_shape_tri.
Print Assumptions C67_shape_tet.
Print Assumptions C67_measure.
Print Assumptions C67_gradient.
Print Assumptions C67_poisson.
Print Assumptions C67_symmetric.
Print Assumptions C67_constants.
Print Assumptions C67_semidefinite.
Print Assumptions C67_solvable.
Print Assumptions C67_newton.
Print Assumptions C67_patch.
Print Assumptions C67_diffusion.
Print Assumptions C67_diffusion_step.
Print Assumptions C67_diffusion_solvable.
