(** Stiffness warping. *)
From Coq Require Import List Arith ZArith Reals Lia Lra Bool.
Import ListNotations.
From Verif Require Import Imp Alg SpModel SpSpec SpProps FemModel FemSpec FemProofs1 FemProofs2 FemProofs3 FemProofs4 FemProofs5 SolidSpec SolidProofs1 SolidProofs2 SolidProofs3.
Local Open Scope R_scope.

(** What every element adds, for any matrices at the corners. *)
Definition RK (lambda mu : R) (X aR : list R) (T : list nat) (e : nat) : matf := fun i j =>
  MatMat3f (fun a c => loc 4 9 aR T e i (a * 3 + c)%nat) (MatMatTrans3f (KK true lambda mu X T e i j) (fun a c => loc 4 9 aR T e i (a * 3 + c)%nat)).
Definition sw_em (lambda mu rho dt : R) (X aR : list R) (T : list nat) (e : nat) : matf := fun i j a c =>
  RK lambda mu X aR T e i j a c + 1 * (if ((i =? j) && (a =? c))%bool%nat then rho / (dt * dt) * size true X T e / INR (ncor true) else 0).
Definition sw_u (dt : R) (X aR disp velo : list R) (T : list nat) (e i j a : nat) : R :=
  loc 4 3 X T e j a + loc 4 3 disp T e j a + dt * loc 4 3 velo T e j a - MatVec3f (fun a c => loc 4 9 aR T e i (a * 3 + c)%nat) (loc 4 3 X T e j) a.
Definition sw_er (lambda mu rho dt : R) (g : nat -> R) (X aR disp velo : list R) (T : list nat) (e : nat) : vecf := fun i a =>
  / dt * (rho * size true X T e * g a / INR (ncor true)
    + (-1) * rsum 4 (fun j => rsum 3 (fun c => RK lambda mu X aR T e i j a c * sw_u dt X aR disp velo T e i j c))).

Lemma sw_asm : forall dbg mu lambda rho g dt X np T nT disp velo aR A b, dt <> 0 -> solid_input true X np T nT A b ->
  length disp = (np * 3)%nat -> length velo = (np * 3)%nat -> length aR = (np * 9)%nat ->
  exists B b', MergeLinSys_SolidStiffwarp_BEuler_MeshTet3D dbg A b mu lambda rho g dt X np T nT disp velo aR = Some (B, b') /\ same_pattern A B /\ wf B /\ length b' = (np * 3)%nat /\
    (forall u v, bilin np 3 B u v = bilin np 3 A u v + rsum nT (fun e => form 4 3 (sw_em lambda mu rho dt X aR T e) (restr 4 T e u) (restr 4 T e v))) /\
    (forall v, lin np 3 b' v = lin np 3 b v + rsum nT (fun e => ldot 4 3 (restr 4 T e v) (sw_er lambda mu rho dt g X aR disp velo T e))).
Proof.
  intros dbg mu lambda rho g dt X np T nT disp velo aR A b Hdt HI L1 L2 L3. pose proof HI as (M & LX & Lb & HA & HS).
  unfold MergeLinSys_SolidStiffwarp_BEuler_MeshTet3D. rewrite L3, Nat.eqb_refl. cbn [assertb bind].
  apply (asm true dbg X T nT np A b _ (sw_er lambda mu rho dt g X aR disp velo T) (sw_em lambda mu rho dt X aR T) HI).
  cbn [ncor ndim] in *. intros e He. fetch3 M He. unfold Stiffwarp_elem. rewrite s4. destruct (TetDlDx _ _ _ _) as (D & C) eqn:ED.
  do 2 eexists. split; [reflexivity|]. split.
  - intros i a Hi Ha. unfold sw_er, sw_u. cbn [seq fold_left]. change (INR (ncor true)) with (INR 4). rewrite inr4. rsums. unfold RK, MatMat3f, MatMatTrans3f, MatVec3f. rewrite !(K4 lambda mu X T e D C) by (auto; lia).
    set (K := KK true lambda mu X T e). clearbody K. set (MM := loc 4 9 aR T e). clearbody MM. set (XX := loc 4 3 X T e). clearbody XX. set (UU := loc 4 3 disp T e). clearbody UU. set (VV := loc 4 3 velo T e). clearbody VV.
    unfold Rdiv. ring.
  - intros i j a c Hi Hj Ha Hc. unfold sw_em. change (INR (ncor true)) with (INR 4). rewrite inr4. unfold RK, MatMat3f, MatMatTrans3f. rewrite !(K4 lambda mu X T e D C) by (auto; lia).
    destruct ((i =? j)%nat && (a =? c)%nat)%bool; [field; auto|ring].
Qed.

Lemma mat_loc : forall aR np T e i (Rm : nat -> nat -> R), (forall p a c, (p < np)%nat -> (a < 3)%nat -> (c < 3)%nat -> cmp 9 aR p (a * 3 + c) = Rm a c) ->
  (i < 4)%nat -> (nd 4 T e i < np)%nat -> forall a c, (a < 3)%nat -> (c < 3)%nat -> loc 4 9 aR T e i (a * 3 + c)%nat = Rm a c.
Proof. intros aR np T e i Rm H Hi Hp a c Ha Hc. rewrite loc_cmp by (auto; lia). auto. Qed.

Lemma RK_form : forall lambda mu X aR T e Rm u v, (forall i a c, (i < 4)%nat -> (a < 3)%nat -> (c < 3)%nat -> loc 4 9 aR T e i (a * 3 + c)%nat = Rm a c) ->
  form 4 3 (RK lambda mu X aR T e) u v = form 4 3 (KK true lambda mu X T e) (fun i a => rsum 3 (fun b => Rm b a * u i b)) (fun i a => rsum 3 (fun b => Rm b a * v i b)).
Proof.
  intros lambda mu X aR T e Rm u v H. unfold form. apply rsum_ext. intros i Hi. apply rsum_ext. intros j Hj.
  unfold RK, MatMat3f, MatMatTrans3f. set (K := KK true lambda mu X T e i j). clearbody K. rsums. rewrite !H by lia. ring.
Qed.

Lemma stiffwarp_ok : forall dbg mu lambda rho g dt X np T nT disp velo aR Rm A b, dt <> 0 -> solid_input true X np T nT A b ->
  length disp = (np * 3)%nat -> length velo = (np * 3)%nat -> length aR = (np * 9)%nat ->
  (forall p a c, (p < np)%nat -> (a < 3)%nat -> (c < 3)%nat -> cmp 9 aR p (a * 3 + c) = Rm a c) ->
  exists B b', MergeLinSys_SolidStiffwarp_BEuler_MeshTet3D dbg A b mu lambda rho g dt X np T nT disp velo aR = Some (B, b') /\ same_pattern A B /\ wf B /\ length b' = (np * 3)%nat /\
    stiffwarp_weak X T nT np mu lambda rho g dt (vec 3 disp) (vec 3 velo) Rm A b B b'.
Proof.
  intros dbg mu lambda rho g dt X np T nT disp velo aR Rm A b Hdt HI L1 L2 L3 HR.
  destruct (sw_asm dbg mu lambda rho g dt X np T nT disp velo aR A b Hdt HI L1 L2 L3) as (B & b' & E & S & W & L & F1 & F2).
  pose proof HI as (M & LX & Lb & HA & HS). exists B, b'. do 4 (split; [assumption|]).
  assert (HL : forall e, (e < nT)%nat -> forall i a c, (i < 4)%nat -> (a < 3)%nat -> (c < 3)%nat -> loc 4 9 aR T e i (a * 3 + c)%nat = Rm a c).
  { intros e He i a c Hi Ha Hc. eapply mat_loc; eauto. apply M; auto. }
  intros u v Gu Gv Gw Hu Hv Hw. rewrite F1, F2. split; f_equal.
  - apply rsum_ext. intros e He. unfold sw_em. rewrite form_addK, (elem_lump true), (RK_form _ _ _ _ _ _ Rm) by auto.
    pose proof (elem_KK true X T nT lambda mu _ _ Gu Gv e Hu Hv He (HS e He)) as Q. cbn [ncor ndim] in Q. rewrite <- Q. cbn [ncor ndim]. change (restr (ncor true) T e) with (restr 4 T e).
    replace (form 4 3 (KK true lambda mu X T e) (fun i a => rsum 3 (fun b0 => Rm b0 a * restr 4 T e u i b0)) (fun i a => rsum 3 (fun b0 => Rm b0 a * restr 4 T e v i b0)))
      with (form 4 3 (KK true lambda mu X T e) (restr 4 T e (unrot Rm u)) (restr 4 T e (unrot Rm v))) by reflexivity. ring.
  - unfold Rdiv. rewrite Rmult_comm, <- rsum_mull. apply rsum_ext. intros e He. unfold sw_er. rewrite ldot_mul. f_equal. rewrite ldot_add, (elem_gravity true), ldot_mul.
    pose proof (elem_KK true X T nT lambda mu _ _ Gw Gv e Hw Hv He (HS e He)) as Q. cbn [ncor ndim] in Q. rewrite <- Q.
    set (f := fun i a => rsum 4 (fun j => rsum 3 (fun c => RK lambda mu X aR T e i j a c * sw_u dt X aR disp velo T e i j c))).
    assert (Ef : ldot 4 3 (restr 4 T e v) f = form 4 3 (RK lambda mu X aR T e) (restr 4 T e (warped X Rm (fun p k => vec 3 disp p k + dt * vec 3 velo p k))) (restr 4 T e v)).
    { rewrite <- ldot_app. apply ldot_ext. intros i a Hi Ha. unfold f, app. apply rsum_ext. intros j Hj. apply rsum_ext. intros c Hc. f_equal.
      unfold sw_u, restr, warped, MatVec3f. rewrite !(HL e He i) by (auto; lia). rewrite !loc_cmp by (auto; lia). unfold vec. rsums. ring. }
    change (ldot (ncor true) (ndim true)) with (ldot 4 3). change (restr (ncor true) T e) with (restr 4 T e). fold f.
    rewrite Ef, (RK_form _ _ _ _ _ _ Rm) by auto. cbn [ncor ndim].
    replace (form 4 3 (KK true lambda mu X T e) (fun i a => rsum 3 (fun b0 => Rm b0 a * restr 4 T e (warped X Rm (fun p k => vec 3 disp p k + dt * vec 3 velo p k)) i b0)) (fun i a => rsum 3 (fun b0 => Rm b0 a * restr 4 T e v i b0)))
      with (form 4 3 (KK true lambda mu X T e) (restr 4 T e (unrot Rm (warped X Rm (fun p k => vec 3 disp p k + dt * vec 3 velo p k)))) (restr 4 T e (unrot Rm v))) by reflexivity. ring.
Qed.

(** A body that moves rigidly feels no elastic force. *)
Lemma stiffwarp_rigid : forall X T nT np mu lambda rho g dt w wv Rm A b B b', mesh_ok 4 np T nT -> (forall e, (e < nT)%nat -> size true X T e <> 0) ->
  stiffwarp_weak X T nT np mu lambda rho g dt w wv Rm A b B b' ->
  forall t, (forall p a, (p < np)%nat -> (a < 3)%nat -> vec 3 X p a + (w p a + dt * wv p a) = t a + rsum 3 (fun k => Rm a k * vec 3 X p k)) ->
  forall v, lin np 3 b' v = lin np 3 b v + rsum nT (fun e => rho * gravity true X T e g v) / dt.
Proof.
  intros X T nT np mu lambda rho g dt w wv Rm A b B b' M HS W t Ht v.
  destruct (vgrad_ex true X T nT (unrot Rm v) HS) as (Gv & Hv).
  assert (Hw : vgradients true X T nT (unrot Rm (warped X Rm (fun p k => w p k + dt * wv p k))) (fun _ _ _ => 0)).
  { apply (vgrad_ext true X T nT np (fun p a => rsum 3 (fun b => Rm b a * t b))); auto.
    - intros p k Hp Hk. unfold unrot, warped. apply rsum_ext. intros c Hc. f_equal. rewrite Ht by auto. ring.
    - intros a Ha. apply (gradients_const true X T nT). }
  destruct (W v v Gv Gv _ Hv Hv Hw) as (_ & E). rewrite E. f_equal. f_equal. apply rsum_ext. intros e He.
  rewrite (work_strain0 3 lambda mu (fun _ _ => 0)); [ring|]. intros. unfold strain. field.
Qed.
(** With the identity it is the backward Euler step. *)
Lemma stiffwarp_id : forall X T nT np mu lambda rho g dt w wv A b B b', mesh_ok 4 np T nT ->
  stiffwarp_weak X T nT np mu lambda rho g dt w wv (fun a c => if (a =? c)%nat then 1 else 0) A b B b' ->
  beuler_weak true X T nT np mu lambda rho g dt w wv A b B b'.
Proof.
  intros X T nT np mu lambda rho g dt w wv A b B b' M W u v Gu Gv Gw Hu Hv Hw.
  assert (U : forall u p k, (k < 3)%nat -> unrot (fun a c => if (a =? c)%nat then 1 else 0) u p k = u p k).
  { intros x p k Hk. unfold unrot. rewrite <- (rsum_pick 3 k (fun c => x p c)) by auto. apply rsum_ext. intros c Hc. destruct (c =? k)%nat; ring. }
  apply W.
  - apply (vgrad_ext true X T nT np u); auto. intros; symmetry; apply U; auto.
  - apply (vgrad_ext true X T nT np v); auto. intros; symmetry; apply U; auto.
  - apply (vgrad_ext true X T nT np (fun p k => w p k + dt * wv p k)); auto. intros p k Hp Hk. cbn [ndim] in Hk. rewrite U by auto. unfold warped.
    replace (rsum 3 (fun k0 => (if (k =? k0)%nat then 1 else 0) * vec 3 X p k0)) with (vec 3 X p k); [ring|].
    rewrite <- (rsum_pick 3 k (fun c => vec 3 X p c)) by auto. apply rsum_ext. intros c Hc. rewrite (Nat.eqb_sym c k). destruct (k =? c)%nat; ring.
Qed.
