(** Theorems on linear elasticity (property C68). *)
From Coq Require Import List Arith ZArith Reals Lia Lra Bool.
Import ListNotations.
From Verif Require Import Imp Alg SpModel SpSpec SpProps FemModel FemSpec FemProofs1 FemProofs2 FemProofs3 FemProofs4 FemProofs5 FemProps.
From Verif Require Import SolidSpec SolidProofs1 SolidProofs2 SolidProofs3 SolidProofs4.
Local Open Scope R_scope.

(** Every vector field has exactly one gradient on a mesh without flat elements. *)
Theorem C68_gradient : forall tet X T nT u, (forall e, (e < nT)%nat -> size tet X T e <> 0) ->
  (exists G, vgradients tet X T nT u G) /\
  (forall G G', vgradients tet X T nT u G -> vgradients tet X T nT u G' -> forall e a k, (e < nT)%nat -> (a < ndim tet)%nat -> (k < ndim tet)%nat -> G e a k = G' e a k).
Proof. intros. split; [apply vgrad_ex; auto|]. intros. eapply vgrad_uniq; eauto. Qed.

(** The assembled system is the weak form of elastic equilibrium. *)
Theorem C68_static : forall tet dbg mu lambda rho g X np T nT disp A b, solid_input tet X np T nT A b -> length disp = (np * ndim tet)%nat ->
  exists B b', run_static tet dbg A b mu lambda rho g X np T nT disp = Some (B, b') /\ same_pattern A B /\ wf B /\ length b' = (np * ndim tet)%nat /\
    static_weak tet X T nT np mu lambda rho g (vec (ndim tet) disp) A b B b'.
Proof. exact static_ok. Qed.
Theorem C68_newmark : forall tet dbg mu lambda rho g dt beta X np T nT disp velo acc A b, solid_input tet X np T nT A b ->
  length disp = (np * ndim tet)%nat -> length velo = (np * ndim tet)%nat -> length acc = (np * ndim tet)%nat ->
  exists B b', run_newmark tet dbg A b mu lambda rho g dt beta X np T nT disp velo acc = Some (B, b') /\ same_pattern A B /\ wf B /\ length b' = (np * ndim tet)%nat /\
    newmark_weak tet X T nT np mu lambda rho g dt beta (vec (ndim tet) disp) (vec (ndim tet) velo) (vec (ndim tet) acc) A b B b'.
Proof. exact newmark_ok. Qed.
Theorem C68_beuler : forall dbg mu lambda rho g dt X np T nT disp velo A b, dt <> 0 -> solid_input true X np T nT A b ->
  length disp = (np * 3)%nat -> length velo = (np * 3)%nat ->
  exists B b', MergeLinSys_SolidLinear_BEuler_MeshTet3D dbg A b mu lambda rho g dt X np T nT disp velo = Some (B, b') /\ same_pattern A B /\ wf B /\ length b' = (np * 3)%nat /\
    beuler_weak true X T nT np mu lambda rho g dt (vec 3 disp) (vec 3 velo) A b B b'.
Proof. exact beuler_ok. Qed.
Theorem C68_stiffwarp : forall dbg mu lambda rho g dt X np T nT disp velo aR Rm A b, dt <> 0 -> solid_input true X np T nT A b ->
  length disp = (np * 3)%nat -> length velo = (np * 3)%nat -> length aR = (np * 9)%nat ->
  (forall p a c, (p < np)%nat -> (a < 3)%nat -> (c < 3)%nat -> cmp 9 aR p (a * 3 + c) = Rm a c) ->
  exists B b', MergeLinSys_SolidStiffwarp_BEuler_MeshTet3D dbg A b mu lambda rho g dt X np T nT disp velo aR = Some (B, b') /\ same_pattern A B /\ wf B /\ length b' = (np * 3)%nat /\
    stiffwarp_weak X T nT np mu lambda rho g dt (vec 3 disp) (vec 3 velo) Rm A b B b'.
Proof. exact stiffwarp_ok. Qed.

Section Run.
Variables (tet dbg : bool) (mu lambda rho : R) (g : nat -> R) (X : list R) (np : nat) (T : list nat) (nT : nat) (disp : list R) (A B : matsp Rcr) (b b' : list R).
Hypothesis HI : solid_input tet X np T nT A b.
Hypothesis HL : length disp = (np * ndim tet)%nat.
Hypothesis HR : run_static tet dbg A b mu lambda rho g X np T nT disp = Some (B, b').
Notation d := (ndim tet).

Lemma srun : static_weak tet X T nT np mu lambda rho g (vec d disp) A b B b' /\ wf B /\ same_pattern A B.
Proof.
  destruct (static_ok tet dbg mu lambda rho g X np T nT disp A b HI HL) as (B0 & b0 & E & S & W & _ & P). rewrite HR in E. injection E as <- <-. auto.
Qed.
Lemma srun1 : forall u v Gu Gv, vgradients tet X T nT u Gu -> vgradients tet X T nT v Gv ->
  bilin np d B u v = bilin np d A u v + rsum nT (fun e => size tet X T e * work d lambda mu (Gu e) (Gv e)).
Proof.
  intros u v Gu Gv Hu Hv. destruct srun as (W & _). destruct HI as (_ & _ & _ & _ & HS). destruct (vgrad_ex tet X T nT (vec d disp) HS) as (Gw & Hw).
  apply (W u v Gu Gv Gw Hu Hv Hw).
Qed.
(** What is added is symmetric. *)
Theorem C68_symmetric : forall I a J c, (I < np)%nat -> (J < np)%nat -> (a < d)%nat -> (c < d)%nat -> ent B I a J c - ent A I a J c = ent B J c I a - ent A J c I a.
Proof. destruct HI as (M & _ & _ & _ & HS). intros. eapply sol_sym; eauto using srun1. Qed.
(** Translations and infinitesimal rotations cause no force. *)
Theorem C68_rigid : forall u, rigid d X u -> forall I a, (I < np)%nat -> (a < d)%nat ->
  rsum np (fun J => rsum d (fun c => ent B I a J c * u J c)) = rsum np (fun J => rsum d (fun c => ent A I a J c * u J c)).
Proof. destruct HI as (M & _ & _ & _ & HS). intros. eapply sol_rigid; eauto using srun1. Qed.
(** The forces of the residual have the resultant and the torques of gravity: tested with a rigid motion v. *)
Theorem C68_balance : forall v, rigid d X v -> lin np d b' v = lin np d b v + rsum nT (fun e => rho * gravity tet X T e g v).
Proof. destruct HI as (M & _ & _ & _ & HS). destruct srun as (W & _). intros. eapply sol_balance; eauto. Qed.
(** The elastic energy is not negative, and vanishes only without strain. *)
Theorem C68_semidefinite : forall u, 0 <= mu -> 0 <= INR d * lambda + 2 * mu -> (forall e, (e < nT)%nat -> 0 < size tet X T e) -> bilin np d A u u <= bilin np d B u u.
Proof. destruct HI as (M & _ & _ & _ & HS). intros. eapply sol_psd; eauto using srun1. Qed.
Theorem C68_kernel : forall u G, (forall I a J c, (I < np)%nat -> (J < np)%nat -> (a < d)%nat -> (c < d)%nat -> ent A I a J c = 0) ->
  0 < mu -> 0 < INR d * lambda + 2 * mu -> (forall e, (e < nT)%nat -> 0 < size tet X T e) -> vgradients tet X T nT u G -> bilin np d B u u = 0 ->
  forall e a c, (e < nT)%nat -> (a < d)%nat -> (c < d)%nat -> strain (G e) a c = 0.
Proof. destruct HI as (M & _ & _ & _ & HS). intros u G H1 H2 H3 H4 H5 H6 e a c. eapply sol_kernel; eauto using srun1. Qed.
(** With enough fixed points the system has only one solution. *)
Theorem C68_solvable : forall bc C x, (forall I a J c, (I < np)%nat -> (J < np)%nat -> (a < d)%nat -> (c < d)%nat -> ent A I a J c = 0) ->
  0 < mu -> 0 < INR d * lambda + 2 * mu -> (forall e, (e < nT)%nat -> 0 < size tet X T e) -> length bc = (np * d)%nat ->
  (forall p, (p < np)%nat -> held (ncor tet) T nT (fun q => (q < np)%nat /\ forall a, (a < d)%nat -> nth (q * d + a) bc 0%Z <> 0%Z) p) ->
  SetFixedBC (K := Rcr) B bc = Some C ->
  (forall I a, (I < np)%nat -> (a < d)%nat -> rsum np (fun J => rsum d (fun c => ent C I a J c * x J c)) = 0) ->
  forall I a, (I < np)%nat -> (a < d)%nat -> x I a = 0.
Proof.
  destruct srun as (_ & WB & (S1 & S2 & S3 & S4 & _)). destruct HI as (M & _ & _ & (_ & H5 & H5' & H5'' & H5''' & _) & HS). intros bc C x. intros.
  eapply sol_solvable; eauto using srun1; congruence.
Qed.
End Run.

(** One solve brings the free degrees of freedom into equilibrium. *)
Theorem C68_newton : forall tet dbg mu lambda rho g X np T nT disp disp2 A b B b' B2 b2 x (free : nat -> nat -> Prop),
  solid_input tet X np T nT A b -> length disp = (np * ndim tet)%nat -> length disp2 = (np * ndim tet)%nat ->
  run_static tet dbg A b mu lambda rho g X np T nT disp = Some (B, b') -> run_static tet dbg A b mu lambda rho g X np T nT disp2 = Some (B2, b2) ->
  (forall I a J c, (I < np)%nat -> (J < np)%nat -> (a < ndim tet)%nat -> (c < ndim tet)%nat -> ent A I a J c = 0) ->
  (forall I a, (I < np)%nat -> (a < ndim tet)%nat -> vec (ndim tet) disp2 I a = vec (ndim tet) disp I a + x I a) ->
  (forall I a, (I < np)%nat -> (a < ndim tet)%nat -> free I a -> rsum np (fun J => rsum (ndim tet) (fun c => ent B I a J c * x J c)) = cmp (ndim tet) b' I a) ->
  forall I a, (I < np)%nat -> (a < ndim tet)%nat -> free I a -> cmp (ndim tet) b2 I a = 0.
Proof.
  intros tet dbg mu lambda rho g X np T nT disp disp2 A b B b' B2 b2 x free HI L1 L2 E E2.
  destruct (srun tet dbg mu lambda rho g X np T nT disp A B b b' HI L1 E) as (W & _). destruct (srun tet dbg mu lambda rho g X np T nT disp2 A B2 b b2 HI L2 E2) as (W2 & _).
  destruct HI as (M & _ & _ & _ & HS). eapply sol_newton; eauto.
Qed.

(** Newmark: the new acceleration and displacement satisfy rho a + elastic force = rho g in weak form, tested with the hat
    function of point I in component a. *)
Theorem C68_newmark_step : forall tet dbg mu lambda rho g dt beta X np T nT disp velo acc A b B b' x I a w' Gw' v Gv,
  solid_input tet X np T nT A b -> length disp = (np * ndim tet)%nat -> length velo = (np * ndim tet)%nat -> length acc = (np * ndim tet)%nat ->
  run_newmark tet dbg A b mu lambda rho g dt beta X np T nT disp velo acc = Some (B, b') ->
  (forall I a J c, (I < np)%nat -> (J < np)%nat -> (a < ndim tet)%nat -> (c < ndim tet)%nat -> ent A I a J c = 0) ->
  (I < np)%nat -> (a < ndim tet)%nat -> cmp (ndim tet) b I a = 0 ->
  rsum np (fun J => rsum (ndim tet) (fun c => ent B I a J c * x J c)) = cmp (ndim tet) b' I a ->
  (forall p k, v p k = if ((p =? I) && (k =? a))%bool%nat then 1 else 0) -> vgradients tet X T nT v Gv ->
  (forall p k, w' p k = vec (ndim tet) disp p k + dt * vec (ndim tet) velo p k
     + dt * dt * ((1 / 2 - beta) * vec (ndim tet) acc p k + beta * (vec (ndim tet) acc p k + x p k))) -> vgradients tet X T nT w' Gw' ->
  rsum nT (fun e => rho * vmass tet X T e (fun p k => vec (ndim tet) acc p k + x p k) v + size tet X T e * work (ndim tet) lambda mu (Gw' e) (Gv e))
  = rsum nT (fun e => rho * gravity tet X T e g v).
Proof.
  intros tet dbg mu lambda rho g dt beta X np T nT disp velo acc A b B b' x I a w' Gw' v Gv HI L1 L2 L3 E.
  destruct (newmark_ok tet dbg mu lambda rho g dt beta X np T nT disp velo acc A b HI L1 L2 L3) as (B0 & b0 & E0 & _ & _ & _ & W). rewrite E in E0. injection E0 as <- <-.
  destruct HI as (M & _ & _ & _ & HS). intros. eapply newmark_step; eauto.
Qed.
Theorem C68_newmark_solvable : forall tet dbg mu lambda rho g dt beta X np T nT disp velo acc A b B b' x,
  solid_input tet X np T nT A b -> length disp = (np * ndim tet)%nat -> length velo = (np * ndim tet)%nat -> length acc = (np * ndim tet)%nat ->
  run_newmark tet dbg A b mu lambda rho g dt beta X np T nT disp velo acc = Some (B, b') -> (forall e, (e < nT)%nat -> 0 < size tet X T e) ->
  (forall I a J c, (I < np)%nat -> (J < np)%nat -> (a < ndim tet)%nat -> (c < ndim tet)%nat -> ent A I a J c = 0) ->
  0 < rho -> 0 <= mu -> 0 <= INR (ndim tet) * lambda + 2 * mu -> 0 <= beta ->
  (forall p, (p < np)%nat -> exists e i, (e < nT)%nat /\ (i < ncor tet)%nat /\ nd (ncor tet) T e i = p) ->
  (forall I a, (I < np)%nat -> (a < ndim tet)%nat -> rsum np (fun J => rsum (ndim tet) (fun c => ent B I a J c * x J c)) = 0) ->
  forall I a, (I < np)%nat -> (a < ndim tet)%nat -> x I a = 0.
Proof.
  intros tet dbg mu lambda rho g dt beta X np T nT disp velo acc A b B b' x HI L1 L2 L3 E.
  destruct (newmark_ok tet dbg mu lambda rho g dt beta X np T nT disp velo acc A b HI L1 L2 L3) as (B0 & b0 & E0 & _ & _ & _ & W). rewrite E in E0. injection E0 as <- <-.
  destruct HI as (M & _ & _ & _ & HS). intros. eapply newmark_pd; eauto.
Qed.

(** Backward Euler: x/dt is the acceleration, the new displacement uses the new velocity. *)
Theorem C68_beuler_step : forall dbg mu lambda rho g dt X np T nT disp velo A b B b' x I a w' Gw' v Gv, dt <> 0 ->
  solid_input true X np T nT A b -> length disp = (np * 3)%nat -> length velo = (np * 3)%nat ->
  MergeLinSys_SolidLinear_BEuler_MeshTet3D dbg A b mu lambda rho g dt X np T nT disp velo = Some (B, b') ->
  (forall I a J c, (I < np)%nat -> (J < np)%nat -> (a < 3)%nat -> (c < 3)%nat -> ent A I a J c = 0) ->
  (I < np)%nat -> (a < 3)%nat -> cmp 3 b I a = 0 ->
  rsum np (fun J => rsum 3 (fun c => ent B I a J c * x J c)) = cmp 3 b' I a ->
  (forall p k, v p k = if ((p =? I) && (k =? a))%bool%nat then 1 else 0) -> vgradients true X T nT v Gv ->
  (forall p k, w' p k = vec 3 disp p k + dt * (vec 3 velo p k + x p k)) -> vgradients true X T nT w' Gw' ->
  rsum nT (fun e => rho * lumped true X T e (fun p k => x p k / dt) v + size true X T e * work 3 lambda mu (Gw' e) (Gv e))
  = rsum nT (fun e => rho * gravity true X T e g v).
Proof.
  intros dbg mu lambda rho g dt X np T nT disp velo A b B b' x I a w' Gw' v Gv Hdt HI L1 L2 E.
  destruct (beuler_ok dbg mu lambda rho g dt X np T nT disp velo A b Hdt HI L1 L2) as (B0 & b0 & E0 & _ & _ & _ & W). rewrite E in E0. injection E0 as <- <-.
  destruct HI as (M & _ & _ & _ & HS). intros. eapply (beuler_step true); eauto.
Qed.
Theorem C68_beuler_solvable : forall dbg mu lambda rho g dt X np T nT disp velo A b B b' x, dt <> 0 ->
  solid_input true X np T nT A b -> length disp = (np * 3)%nat -> length velo = (np * 3)%nat ->
  MergeLinSys_SolidLinear_BEuler_MeshTet3D dbg A b mu lambda rho g dt X np T nT disp velo = Some (B, b') -> (forall e, (e < nT)%nat -> 0 < size true X T e) ->
  (forall I a J c, (I < np)%nat -> (J < np)%nat -> (a < 3)%nat -> (c < 3)%nat -> ent A I a J c = 0) ->
  0 < rho -> 0 <= mu -> 0 <= INR 3 * lambda + 2 * mu ->
  (forall p, (p < np)%nat -> exists e i, (e < nT)%nat /\ (i < 4)%nat /\ nd 4 T e i = p) ->
  (forall I a, (I < np)%nat -> (a < 3)%nat -> rsum np (fun J => rsum 3 (fun c => ent B I a J c * x J c)) = 0) ->
  forall I a, (I < np)%nat -> (a < 3)%nat -> x I a = 0.
Proof.
  intros dbg mu lambda rho g dt X np T nT disp velo A b B b' x Hdt HI L1 L2 E.
  destruct (beuler_ok dbg mu lambda rho g dt X np T nT disp velo A b Hdt HI L1 L2) as (B0 & b0 & E0 & _ & _ & _ & W). rewrite E in E0. injection E0 as <- <-.
  destruct HI as (M & _ & _ & _ & HS). intros Hs A0 Hr Hm Hl Cov Hx. eapply (beuler_pd true); eauto.
Qed.

(** Stiffness warping: a body turned by the matrix of all points and shifted feels no elastic force; with the identity
    matrix everywhere it is the backward Euler step. *)
Theorem C68_stiffwarp_rigid : forall dbg mu lambda rho g dt X np T nT disp velo aR Rm A b B b', dt <> 0 -> solid_input true X np T nT A b ->
  length disp = (np * 3)%nat -> length velo = (np * 3)%nat -> length aR = (np * 9)%nat ->
  (forall p a c, (p < np)%nat -> (a < 3)%nat -> (c < 3)%nat -> cmp 9 aR p (a * 3 + c) = Rm a c) ->
  MergeLinSys_SolidStiffwarp_BEuler_MeshTet3D dbg A b mu lambda rho g dt X np T nT disp velo aR = Some (B, b') ->
  forall t, (forall p a, (p < np)%nat -> (a < 3)%nat -> vec 3 X p a + (vec 3 disp p a + dt * vec 3 velo p a) = t a + rsum 3 (fun k => Rm a k * vec 3 X p k)) ->
  forall v, lin np 3 b' v = lin np 3 b v + rsum nT (fun e => rho * gravity true X T e g v) / dt.
Proof.
  intros dbg mu lambda rho g dt X np T nT disp velo aR Rm A b B b' Hdt HI L1 L2 L3 HR E.
  destruct (stiffwarp_ok dbg mu lambda rho g dt X np T nT disp velo aR Rm A b Hdt HI L1 L2 L3 HR) as (B0 & b0 & E0 & _ & _ & _ & W). rewrite E in E0. injection E0 as <- <-.
  destruct HI as (M & _ & _ & _ & HS). intros t Ht v. exact (stiffwarp_rigid X T nT np mu lambda rho g dt _ _ Rm A b B b' M HS W t Ht v).
Qed.
Theorem C68_stiffwarp_identity : forall dbg mu lambda rho g dt X np T nT disp velo aR A b B b', dt <> 0 -> solid_input true X np T nT A b ->
  length disp = (np * 3)%nat -> length velo = (np * 3)%nat -> length aR = (np * 9)%nat ->
  (forall p a c, (p < np)%nat -> (a < 3)%nat -> (c < 3)%nat -> cmp 9 aR p (a * 3 + c) = if (a =? c)%nat then 1 else 0) ->
  MergeLinSys_SolidStiffwarp_BEuler_MeshTet3D dbg A b mu lambda rho g dt X np T nT disp velo aR = Some (B, b') ->
  beuler_weak true X T nT np mu lambda rho g dt (vec 3 disp) (vec 3 velo) A b B b'.
Proof.
  intros dbg mu lambda rho g dt X np T nT disp velo aR A b B b' Hdt HI L1 L2 L3 HR E.
  destruct (stiffwarp_ok dbg mu lambda rho g dt X np T nT disp velo aR _ A b Hdt HI L1 L2 L3 HR) as (B0 & b0 & E0 & _ & _ & _ & W). rewrite E in E0. injection E0 as <- <-.
  destruct HI as (M & _ & _ & _ & HS). eapply stiffwarp_id; eauto.
Qed.

(** Concrete case: the meshes of C67, with two (three) fixed points. *)
Definition ex_sol_A (d : nat) : matsp Rcr := mkM (K := Rcr) 5 5 d d [0; 4; 8; 12; 16; 20]%nat
  [1; 2; 3; 4; 0; 2; 3; 4; 0; 1; 3; 4; 0; 1; 2; 4; 0; 1; 2; 3]%nat (repeat 0 (20 * (d * d))) (repeat 0 (5 * (d * d))).
Lemma ex_sol_pat : forall d I J, (I < 5)%nat -> (J < 5)%nat -> I <> J -> in_pattern (ex_sol_A d) I J.
Proof.
  intros d I J HI HJ N.
  exists (I * 4 + (if (J <? I)%nat then J else J - 1))%nat. clear -HI HJ N. lt5 I; lt5 J; try congruence; (split; [cbn; tauto|reflexivity]).
Qed.
Lemma ex_sol_wf : forall d, wf (ex_sol_A d).
Proof.
  intros d. unfold wf. cbn [ex_sol_A nrowblk ncolblk nrowdim ncoldim col_ind row_ptr val_crs val_dia]. rewrite !repeat_length. repeat split; auto; try lia; try (cbn; lia).
  - intros I HI. lt5 I; cbn; lia.
  - intros c Hc. cbn [length] in Hc. do 20 (destruct c as [|c]; [cbn; lia|]). lia.
Qed.
Lemma ex_sol_0 : forall d I a J c, ent (ex_sol_A d) I a J c = 0.
Proof.
  intros. unfold ent, dense, crs, dia. rewrite bigsum_zero; [|intros q _; unfold rp; cbn [ex_sol_A val_crs]; rewrite nth_repeat; destruct (_ =? J)%nat; auto].
  destruct (I =? J)%nat; cbn [ex_sol_A val_dia]; rewrite ?nth_repeat; cbn; lra.
Qed.
Definition ex_sol_bc (tet : bool) : list Z := if tet then [1; 1; 1; 1; 1; 1; 1; 1; 1; 0; 0; 0; 0; 0; 0]%Z else [1; 1; 1; 1; 0; 0; 0; 0; 0; 0]%Z.
Example C68_inst : forall tet,
  solid_input tet (ex_fem_X tet) 5 (ex_fem_T tet) 4 (ex_sol_A (ndim tet)) (repeat 0 (5 * ndim tet)) /\
  (forall e, (e < 4)%nat -> 0 < size tet (ex_fem_X tet) (ex_fem_T tet) e) /\
  (forall p, (p < 5)%nat -> held (ncor tet) (ex_fem_T tet) 4 (fun q => (q < 5)%nat /\ forall a, (a < ndim tet)%nat -> nth (q * ndim tet + a) (ex_sol_bc tet) 0%Z <> 0%Z) p) /\
  (forall I a J c, ent (ex_sol_A (ndim tet)) I a J c = 0) /\ rigid (ndim tet) (ex_fem_X tet) (fun p a => match a with 0%nat => 3 - 2 * cmp (ndim tet) (ex_fem_X tet) p 1 | 1%nat => 2 * cmp (ndim tet) (ex_fem_X tet) p 0 | _ => 1 end).
Proof.
  intros tet. destruct (C67_inst tet (repeat 0 5) eq_refl) as ((M & LX & _ & _ & _ & HS) & P & _).
  split; [|split; [|split; [|split]]]; auto.
  - split; [auto|]. split; [auto|]. split; [apply repeat_length|]. split; [|auto].
    split; [apply ex_sol_wf|]. do 4 (split; [reflexivity|]). intros e i j He Hi Hj N. apply ex_sol_pat; try (apply M; auto). intros E. apply N. eapply M; eauto.
  - assert (F : forall p, (p < ndim tet)%nat -> held (ncor tet) (ex_fem_T tet) 4 (fun q => (q < 5)%nat /\ forall a, (a < ndim tet)%nat -> nth (q * ndim tet + a) (ex_sol_bc tet) 0%Z <> 0%Z) p).
    { intros p Hp. apply held_fixed. split; [destruct tet; cbn [ndim] in Hp; lia|]. intros a Ha. destruct tet; cbn [ndim] in *; [lt3 p; lt3 a|lt2 p; lt2 a]; cbn; lia. }
    destruct tet; cbn [ncor ndim] in *; set (fx := fun q => _) in *.
    + assert (H4 : held 4 (ex_fem_T true) 4 fx 4) by (apply (held_elem 4 (ex_fem_T true) 4 fx 3 3); try lia; intros j Hj N; lt4 j; try congruence; apply F; cbn; lia).
      assert (H3 : held 4 (ex_fem_T true) 4 fx 3) by (apply (held_elem 4 (ex_fem_T true) 4 fx 0 3); try lia; intros j Hj N; lt4 j; try congruence; cbn; auto; apply F; lia).
      intros p Hp. lt5 p; auto; apply F; lia.
    + assert (H4 : held 3 (ex_fem_T false) 4 fx 4) by (apply (held_elem 3 (ex_fem_T false) 4 fx 0 2); try lia; intros j Hj N; lt3 j; try congruence; apply F; cbn; lia).
      assert (H2 : held 3 (ex_fem_T false) 4 fx 2) by (apply (held_elem 3 (ex_fem_T false) 4 fx 1 1); try lia; intros j Hj N; lt3 j; try congruence; cbn; auto; apply F; lia).
      assert (H3 : held 3 (ex_fem_T false) 4 fx 3) by (apply (held_elem 3 (ex_fem_T false) 4 fx 2 1); try lia; intros j Hj N; lt3 j; try congruence; cbn; auto; apply F; lia).
      intros p Hp. lt5 p; auto; apply F; lia.
  - intros. apply ex_sol_0.
  - exists (fun a => match a with 0%nat => 3 | 1%nat => 0 | _ => 1 end), (fun a k => match a, k with 0%nat, 1%nat => - 2 | 1%nat, 0%nat => 2 | _, _ => 0 end). split.
    + intros a k. destruct a as [|[|a]], k as [|[|k]]; try ring; destruct a; try ring; destruct k; ring.
    + intros p a Ha. destruct tet; cbn [ndim] in *; [lt3 a|lt2 a]; rsums; ring.
Qed.

(** Failing case: with different matrices at the corners, the warped stiffness matrix is not symmetric. *)
Definition ex_sw_R : list R := [1; 0; 0; 0; 1; 0; 0; 0; 1] ++ [0; -1; 0; 1; 0; 0; 0; 0; 1] ++ [1; 0; 0; 0; 1; 0; 0; 0; 1] ++ [1; 0; 0; 0; 1; 0; 0; 0; 1].
Definition ex_sw_X : list R := [0; 0; 0; 1; 0; 0; 0; 1; 0; 0; 0; 1].
Definition ex_sw_A : matsp Rcr := mkM (K := Rcr) 4 4 3 3 [0; 3; 6; 9; 12]%nat [1; 2; 3; 0; 2; 3; 0; 1; 3; 0; 1; 2]%nat (repeat 0 108) (repeat 0 36).
Lemma ex_sw_in : solid_input true ex_sw_X 4 [0; 1; 2; 3]%nat 1 ex_sw_A (repeat 0 12).
Proof.
  assert (M : mesh_ok 4 4 [0; 1; 2; 3]%nat 1).
  { split; [cbn; lia|]. split.
    - intros e i He Hi. destruct e; [|lia]. lt4 i; cbn; lia.
    - intros e i j He Hi Hj. destruct e; [|lia]. lt4 i; lt4 j; cbn; lia. }
  split; [exact M|]. split; [reflexivity|]. split; [reflexivity|]. split.
  - split; [|do 4 (split; [reflexivity|])].
    + unfold wf. cbn [ex_sw_A nrowblk ncolblk nrowdim ncoldim col_ind row_ptr val_crs val_dia]. rewrite !repeat_length. repeat split; auto; try lia; try (cbn; lia).
      * intros I HI. lt4 I; cbn; lia.
      * intros c Hc. cbn [length] in Hc. do 12 (destruct c as [|c]; [cbn; lia|]). lia.
    + intros e i j He Hi Hj N. cbn [ncor] in Hi, Hj. destruct e; [|lia]. exists (i * 3 + (if (j <? i)%nat then j else j - 1))%nat. clear -Hi Hj N. lt4 i; lt4 j; try congruence; (split; [cbn; tauto|reflexivity]).
  - intros e He. destruct e; [|lia]. cbn [size ncor ndim]. unfold volume, det3, side, cmp, nd. cbn [nth Nat.mul Nat.add ex_sw_X]. lra.
Qed.
Theorem C68_stiffwarp_asymmetric_refuted : exists mu lambda rho dt X np T nT disp velo aR A b B b',
  0 < mu /\ 0 <= lambda /\ 0 < rho /\ 0 < dt /\ solid_input true X np T nT A b /\ (forall I a J c, ent A I a J c = 0) /\
  (forall p a c, (p < np)%nat -> (a < 3)%nat -> (c < 3)%nat -> rsum 3 (fun k => cmp 9 aR p (a * 3 + k) * cmp 9 aR p (c * 3 + k)) = if (a =? c)%nat then 1 else 0) /\
  MergeLinSys_SolidStiffwarp_BEuler_MeshTet3D true A b mu lambda rho (fun _ => 0) dt X np T nT disp velo aR = Some (B, b') /\
  ent B 0 0 1 0 <> ent B 1 0 0 0.
Proof.
  destruct (sw_asm true 1 0 1 (fun _ => 0) 1 ex_sw_X 4 [0; 1; 2; 3]%nat 1 (repeat 0 12) (repeat 0 12) ex_sw_R ex_sw_A (repeat 0 12) ltac:(lra) ex_sw_in eq_refl eq_refl eq_refl)
    as (B & b' & E & _ & _ & _ & F & _).
  exists 1, 0, 1, 1, ex_sw_X, 4%nat, [0; 1; 2; 3]%nat, 1%nat, (repeat 0 12), (repeat 0 12), ex_sw_R, ex_sw_A, (repeat 0 12), B, b'.
  assert (A0 : forall I a J c, ent ex_sw_A I a J c = 0).
  { intros. unfold ent, dense, crs, dia. rewrite bigsum_zero; [|intros q _; unfold rp; cbn [ex_sw_A val_crs]; rewrite nth_repeat; destruct (_ =? J)%nat; auto].
    destruct (I =? J)%nat; cbn [ex_sw_A val_dia]; rewrite ?nth_repeat; cbn; lra. }
  repeat (split; [lra|]). split; [exact ex_sw_in|]. split; [exact A0|]. split.
  { intros p a c Hp Ha Hc. lt4 p; lt3 a; lt3 c; rsums; unfold cmp; cbn [nth Nat.mul Nat.add ex_sw_R List.app Nat.eqb]; ring. }
  split; [exact E|]. rewrite <- !(bilin_ent 4 3) by lia. rewrite !F, !bilin_zero by auto. rewrite !rsum_S, !rsum_0, !Rplus_0_l.
  set (em := sw_em 0 1 1 1 ex_sw_X ex_sw_R [0; 1; 2; 3]%nat 0).
  assert (P1 : form 4 3 em (restr 4 [0; 1; 2; 3]%nat 0 (dl 1 0)) (restr 4 [0; 1; 2; 3]%nat 0 (dl 0 0)) = em 0%nat 1%nat 0%nat 0%nat) by (unfold form; rsums; unfold restr, dl, nd; cbn [nth Nat.mul Nat.add Nat.eqb andb]; ring).
  assert (P2 : form 4 3 em (restr 4 [0; 1; 2; 3]%nat 0 (dl 0 0)) (restr 4 [0; 1; 2; 3]%nat 0 (dl 1 0)) = em 1%nat 0%nat 0%nat 0%nat) by (unfold form; rsums; unfold restr, dl, nd; cbn [nth Nat.mul Nat.add Nat.eqb andb]; ring).
  rewrite P1, P2. unfold em, sw_em. cbn [Nat.eqb andb]. unfold RK, MatMat3f, MatMatTrans3f. rewrite !loc_cmp by lia. unfold cmp, nd. cbn [nth Nat.mul Nat.add ex_sw_R List.app].
  unfold KK, Kf. cbn [ncor ndim Nat.eqb]. unfold DD, tetD, TetDlDx, TetVolume3D. rsums. cbn [fst snd]. rewrite !loc_cmp by lia. unfold size, volume, det3, side, cmp, nd. cbn [nth Nat.mul Nat.add ex_sw_X].
  match goal with |- ?l <> ?r => assert (L : l = - 1 / 3) by field; assert (Rr : r = - 1 / 6) by field; rewrite L, Rr end. lra.
Qed.

Print Assumptions C68_gradient.
Print Assumptions C68_static.
Print Assumptions C68_newmark.
Print Assumptions C68_beuler.
Print Assumptions C68_stiffwarp.
Print Assumptions C68_symmetric.
Print Assumptions C68_rigid.
Print Assumptions C68_balance.
Print Assumptions C68_semidefinite.
Print Assumptions C68_kernel.
Print Assumptions C68_solvable.
Print Assumptions C68_newton.
Print Assumptions C68_newmark_step.
Print Assumptions C68_newmark_solvable.
Print Assumptions C68_beuler_step.
Print Assumptions C68_beuler_solvable.
Print Assumptions C68_stiffwarp_rigid.
Print Assumptions C68_stiffwarp_identity.
Print Assumptions C68_stiffwarp_asymmetric_refuted.
