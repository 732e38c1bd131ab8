(** Linear elasticity: the assembled systems. *)
From Coq Require Import List Arith ZArith Reals Lia Lra Bool.
Import ListNotations.
From Verif Require Import Imp Alg SpModel SpSpec SpProps FemModel FemSpec FemProofs1 FemProofs2 FemProofs3 FemProofs4 SolidSpec SolidProofs1.
Local Open Scope R_scope.

Notation lc tet X T e := (loc (ncor tet) (ndim tet) X T e).
Definition KK (tet : bool) (lambda mu : R) (X : list R) (T : list nat) (e : nat) : matf :=
  Kf (ndim tet) lambda mu (DD tet (lc tet X T e)) (size tet X T e).

Lemma asm : forall tet dbg X T nT np A b elem (er : nat -> vecf) (em : nat -> matf), solid_input tet X np T nT A b ->
  (forall e, (e < nT)%nat -> exists r m, elem (corners (ncor tet) T e) = Some (r, m) /\
     (forall i a, (i < ncor tet)%nat -> (a < ndim tet)%nat -> r i a = er e i a) /\
     (forall i j a c, (i < ncor tet)%nat -> (j < ncor tet)%nat -> (a < ndim tet)%nat -> (c < ndim tet)%nat -> m i j a c = em e i j a c)) ->
  exists B b', assemble (ncor tet) (ndim tet) (Merge4 dbg (ndim tet) (ndim tet)) elem np T nT A b = Some (B, b') /\ same_pattern A B /\ wf B /\ length b' = (np * ndim tet)%nat /\
    (forall u v, bilin np (ndim tet) B u v = bilin np (ndim tet) A u v + rsum nT (fun e => form (ncor tet) (ndim tet) (em e) (restr (ncor tet) T e u) (restr (ncor tet) T e v))) /\
    (forall v, lin np (ndim tet) b' v = lin np (ndim tet) b v + rsum nT (fun e => ldot (ncor tet) (ndim tet) (restr (ncor tet) T e v) (er e))).
Proof.
  intros tet dbg X T nT np A b elem er em (M & LX & Lb & HA & HS) HE.
  destruct (assemble_forms (ncor tet) (ndim tet) np None dbg (Merge4 dbg (ndim tet) (ndim tet)) ltac:(destruct tet; reflexivity) T nT M
    ltac:(destruct tet; cbn; lia) ltac:(destruct tet; cbn; lia) elem er em HE A b HA Lb) as (B & b' & E & S & W & L & F1 & F2).
  exists B, b'. do 4 (split; [assumption|]). split; [exact F1|exact F2].
Qed.

Ltac fetch3 M He := rewrite ?(Fetch_eq _ _ _ _ _ _ _ M He) by auto; cbn [bind].
Lemma s3 : forall X T e, TriArea2D (loc 3 2 X T e 0%nat) (loc 3 2 X T e 1%nat) (loc 3 2 X T e 2%nat) = size false X T e.
Proof. intros. apply triA_area. Qed.
Lemma s4 : forall X T e, TetVolume3D (loc 4 3 X T e 0%nat) (loc 4 3 X T e 1%nat) (loc 4 3 X T e 2%nat) (loc 4 3 X T e 3%nat) = size true X T e.
Proof. intros. apply tetV_volume. Qed.
Lemma K3 : forall lambda mu X T e D C i j a b, TriDlDx (loc 3 2 X T e 0%nat) (loc 3 2 X T e 1%nat) (loc 3 2 X T e 2%nat) = (D, C) -> (a < 2)%nat -> (b < 2)%nat ->
  SetEmat_LinearSolid2 lambda mu D (size false X T e) i j a b = KK false lambda mu X T e i j a b.
Proof. intros lambda mu X T e D C i j a b E Ha Hb. rewrite Solid2_Kf by auto. unfold KK, DD. cbn [ndim ncor]. unfold triD. rewrite E. auto. Qed.
Lemma K4 : forall lambda mu X T e D C i j a b, TetDlDx (loc 4 3 X T e 0%nat) (loc 4 3 X T e 1%nat) (loc 4 3 X T e 2%nat) (loc 4 3 X T e 3%nat) = (D, C) -> (a < 3)%nat -> (b < 3)%nat ->
  SetEmat_LinearSolid3 lambda mu D (size true X T e) i j a b = KK true lambda mu X T e i j a b.
Proof. intros lambda mu X T e D C i j a b E Ha Hb. rewrite Solid3_Kf by auto. unfold KK, DD. cbn [ndim ncor]. unfold tetD. rewrite E. auto. Qed.
Lemma inr3 : INR 3 = 3. Proof. cbn; ring. Qed.
Lemma inr4 : INR 4 = 4. Proof. cbn; ring. Qed.

Lemma elem_KK : forall tet X T nT lambda mu u v Gu Gv e, vgradients tet X T nT u Gu -> vgradients tet X T nT v Gv -> (e < nT)%nat -> size tet X T e <> 0 ->
  form (ncor tet) (ndim tet) (KK tet lambda mu X T e) (restr (ncor tet) T e u) (restr (ncor tet) T e v) = size tet X T e * work (ndim tet) lambda mu (Gu e) (Gv e).
Proof. intros. eapply elem_work; eauto. Qed.
Lemma form_vec : forall tet K l T e v, form (ncor tet) (ndim tet) K (loc (ncor tet) (ndim tet) l T e) (restr (ncor tet) T e v) =
  form (ncor tet) (ndim tet) K (restr (ncor tet) T e (vec (ndim tet) l)) (restr (ncor tet) T e v).
Proof. intros. apply form_ext; auto. intros. apply restr_vec; auto. Qed.

Theorem static_ok : forall tet dbg mu lambda rho g X np T nT disp A b, solid_input tet X np T nT A b -> length disp = (np * ndim tet)%nat ->
  exists B b', run_static tet dbg A b mu lambda rho g X np T nT disp = Some (B, b') /\ same_pattern A B /\ wf B /\ length b' = (np * ndim tet)%nat /\
    static_weak tet X T nT np mu lambda rho g (vec (ndim tet) disp) A b B b'.
Proof.
  intros tet dbg mu lambda rho g X np T nT disp A b HI LV.
  pose proof HI as (M & LX & Lb & HA & HS).
  set (er := fun e i a => rho * size tet X T e * g a / INR (ncor tet) + (-1) * app (ncor tet) (ndim tet) (KK tet lambda mu X T e) (lc tet disp T e) i a).
  assert (G : forall elem, (forall e, (e < nT)%nat -> exists r m, elem (corners (ncor tet) T e) = Some (r, m) /\
     (forall i a, (i < ncor tet)%nat -> (a < ndim tet)%nat -> r i a = er e i a) /\
     (forall i j a c, (i < ncor tet)%nat -> (j < ncor tet)%nat -> (a < ndim tet)%nat -> (c < ndim tet)%nat -> m i j a c = KK tet lambda mu X T e i j a c)) ->
     exists B b', assemble (ncor tet) (ndim tet) (Merge4 dbg (ndim tet) (ndim tet)) elem np T nT A b = Some (B, b') /\ same_pattern A B /\ wf B /\ length b' = (np * ndim tet)%nat /\
    static_weak tet X T nT np mu lambda rho g (vec (ndim tet) disp) A b B b').
  { intros elem HE. destruct (asm tet dbg X T nT np A b elem er _ HI HE) as (B & b' & E & S & W & L & F1 & F2).
    exists B, b'. do 4 (split; [assumption|]). intros u v Gu Gv Gw Hu Hv Hw. rewrite F1, F2. split; f_equal; apply rsum_ext; intros e He.
    - eapply elem_KK; eauto.
    - unfold er. rewrite ldot_add, elem_gravity, ldot_mul, ldot_app, form_vec. rewrite (elem_KK _ _ _ _ _ _ _ _ _ _ e Hw Hv He (HS e He)). ring. }
  destruct tet; cbn [run_static ncor ndim] in *.
  - apply G. intros e He. fetch3 M He. unfold EMat_SolidLinear_Static_Tet_add. rewrite s4. destruct (TetDlDx _ _ _ _) as (D & C) eqn:ED.
    assert (EK : forall i j a c, (a < 3)%nat -> (c < 3)%nat -> AddEmat_LinearSolid3 (fun _ _ _ _ => 0) lambda mu D (size true X T e) i j a c = KK true lambda mu X T e i j a c).
    { intros i j a c Ha Hc. rewrite <- (K4 lambda mu X T e D C i j a c ED Ha Hc). unfold AddEmat_LinearSolid3, SetEmat_LinearSolid3. destruct (a =? c)%nat; ring. }
    do 2 eexists. split; [reflexivity|]. split.
    + intros i a Hi Ha. unfold er, AddEmatEvecScale3, app. rewrite accR_sum, inr4. cbn [ncor ndim]. rewrite <- rsum_mull. f_equal; [unfold Rdiv; ring|]. apply rsum_ext. intros j Hj.
      rewrite !EK by (auto; lia). rsums. ring.
    + intros i j a c Hi Hj Ha Hc. apply EK; auto.
  - apply G. intros e He. fetch3 M He. unfold EMat_SolidStaticLinear_Tri2D. rewrite s3. destruct (TriDlDx _ _ _) as (D & C) eqn:ED.
    do 2 eexists. split; [reflexivity|]. split.
    + intros i a Hi Ha. unfold er, app. rewrite decR_sum, inr3. cbn [ncor ndim]. rewrite <- rsum_mull.
      rewrite (rsum_ext 3 (fun j => _ * _ + _ * _) (fun j => - ((-1) * rsum 2 (fun b0 => KK false lambda mu X T e i j a b0 * loc 3 2 disp T e j b0)))).
      * rewrite rsum_opp. lt2 a; unfold Rdiv; ring.
      * intros j Hj. rewrite !(K3 lambda mu X T e D C) by (auto; lia). rsums. ring.
    + intros i j a c Hi Hj Ha Hc. eapply K3; eauto.
Qed.

(** vgradients of combinations. *)
Lemma vgrad_ext : forall tet X T nT np u u' G, mesh_ok (ncor tet) np T nT -> (forall p k, (p < np)%nat -> (k < ndim tet)%nat -> u p k = u' p k) ->
  vgradients tet X T nT u G -> vgradients tet X T nT u' G.
Proof. intros tet X T nT np u u' G M E H a Ha. eapply (gradients_ext tet X T nT np (fun p => u p a)); [exact M| |exact (H a Ha)]. intros; apply E; auto. Qed.

Theorem newmark_ok : forall tet dbg mu lambda rho g dt beta X np T nT disp velo acc A b, solid_input tet X np T nT A b ->
  length disp = (np * ndim tet)%nat -> length velo = (np * ndim tet)%nat -> length acc = (np * ndim tet)%nat ->
  exists B b', run_newmark tet dbg A b mu lambda rho g dt beta X np T nT disp velo acc = Some (B, b') /\ same_pattern A B /\ wf B /\ length b' = (np * ndim tet)%nat /\
    newmark_weak tet X T nT np mu lambda rho g dt beta (vec (ndim tet) disp) (vec (ndim tet) velo) (vec (ndim tet) acc) A b B b'.
Proof.
  intros tet dbg mu lambda rho g dt beta X np T nT disp velo acc A b HI L1 L2 L3.
  pose proof HI as (M & LX & Lb & HA & HS).
  set (ww := fun e i a => lc tet disp T e i a + dt * lc tet velo T e i a + / 2 * dt * dt * lc tet acc T e i a).
  set (er := fun e i a => rho * size tet X T e * g a / INR (ncor tet) + (-1) * app (ncor tet) (ndim tet) (KK tet lambda mu X T e) (ww e) i a
     + (-1) * app (ncor tet) (ndim tet) (Mf (ncor tet) (rho * size tet X T e)) (lc tet acc T e) i a).
  set (em := fun e i j a c => Mf (ncor tet) (rho * size tet X T e) i j a c + beta * dt * dt * KK tet lambda mu X T e i j a c).
  assert (G : forall elem, (forall e, (e < nT)%nat -> exists r m, elem (corners (ncor tet) T e) = Some (r, m) /\
     (forall i a, (i < ncor tet)%nat -> (a < ndim tet)%nat -> r i a = er e i a) /\
     (forall i j a c, (i < ncor tet)%nat -> (j < ncor tet)%nat -> (a < ndim tet)%nat -> (c < ndim tet)%nat -> m i j a c = em e i j a c)) ->
     exists B b', assemble (ncor tet) (ndim tet) (Merge4 dbg (ndim tet) (ndim tet)) elem np T nT A b = Some (B, b') /\ same_pattern A B /\ wf B /\ length b' = (np * ndim tet)%nat /\
    newmark_weak tet X T nT np mu lambda rho g dt beta (vec (ndim tet) disp) (vec (ndim tet) velo) (vec (ndim tet) acc) A b B b').
  { intros elem HE. destruct (asm tet dbg X T nT np A b elem er em HI HE) as (B & b' & E & S & W & L & F1 & F2).
    exists B, b'. do 4 (split; [assumption|]). intros u v Gu Gv Gw Hu Hv Hw. rewrite F1, F2. split; f_equal; apply rsum_ext; intros e He.
    - unfold em. rewrite form_addK, elem_mass. rewrite (elem_KK _ _ _ _ _ _ _ _ _ _ e Hu Hv He (HS e He)). ring.
    - unfold er. rewrite ldot_add, ldot_add, elem_gravity, !ldot_mul, !ldot_app, form_vec, elem_mass.
      rewrite (form_ext _ _ _ (ww e) (restr (ncor tet) T e (fun p k => vec (ndim tet) disp p k + dt * vec (ndim tet) velo p k + / 2 * dt * dt * vec (ndim tet) acc p k)) _ (restr (ncor tet) T e v)); auto.
      + rewrite (elem_KK _ _ _ _ _ _ _ _ _ _ e Hw Hv He (HS e He)). ring.
      + intros i a Hi Ha. unfold ww. rewrite !restr_vec by auto. reflexivity. }
  assert (EM : forall w i j a c, (a < ndim tet)%nat -> (c < ndim tet)%nat -> (if tet then SetEmatConsistentMassTet w else EmatConsistentMassTri2 w) i j a c = Mf (ncor tet) w i j a c).
  { intros w i j a c Ha Hc. unfold Mf. destruct tet; cbn [ncor]; [unfold SetEmatConsistentMassTet|unfold EmatConsistentMassTri2]; destruct (a =? c)%nat, (i =? j)%nat; cbn; try field; ring. }
  destruct tet; cbn [run_newmark ncor ndim] in *.
  - apply G. intros e He. fetch3 M He. unfold EMat_SolidLinear_NewmarkBeta_MeshTet3D. rewrite s4. destruct (TetDlDx _ _ _ _) as (D & C) eqn:ED.
    do 2 eexists. split; [reflexivity|]. split.
    + intros i a Hi Ha. unfold er, AddEmatEvecScale3, app, ww. rewrite !accR_sum, inr4. cbn [ncor ndim].
      rewrite (rsum_ext 4 (fun j => - dt * _) (fun j => - dt * rsum 3 (fun b0 => KK true lambda mu X T e i j a b0 * loc 4 3 velo T e j b0))) by (intros j Hj; rewrite !(K4 lambda mu X T e D C) by (auto; lia); rsums; ring).
      rewrite (rsum_ext 4 (fun j => - / 2 * dt * dt * _) (fun j => - / 2 * dt * dt * rsum 3 (fun b0 => KK true lambda mu X T e i j a b0 * loc 4 3 acc T e j b0))) by (intros j Hj; rewrite !(K4 lambda mu X T e D C) by (auto; lia); rsums; ring).
      rewrite (rsum_ext 4 (fun j => - 1 * (SetEmat_LinearSolid3 _ _ _ _ _ _ _ _ * _ + _ + _)) (fun j => - 1 * rsum 3 (fun b0 => KK true lambda mu X T e i j a b0 * loc 4 3 disp T e j b0))) by (intros j Hj; rewrite !(K4 lambda mu X T e D C) by (auto; lia); rsums; ring).
      rewrite (rsum_ext 4 (fun j => - 1 * (SetEmatConsistentMassTet _ _ _ _ _ * _ + _ + _)) (fun j => - 1 * rsum 3 (fun b0 => Mf 4 (rho * size true X T e) i j a b0 * loc 4 3 acc T e j b0))) by (intros j Hj; rewrite !EM by (auto; lia); rsums; ring).
      rewrite (rsum_ext 4 (fun j => rsum 3 (fun b0 => KK true lambda mu X T e i j a b0 * (_ + _ + _)))
        (fun j => rsum 3 (fun b0 => KK true lambda mu X T e i j a b0 * loc 4 3 disp T e j b0) + dt * rsum 3 (fun b0 => KK true lambda mu X T e i j a b0 * loc 4 3 velo T e j b0)
          + / 2 * dt * dt * rsum 3 (fun b0 => KK true lambda mu X T e i j a b0 * loc 4 3 acc T e j b0))) by (intros j Hj; rsums; ring).
      rewrite !rsum_add, !rsum_mull.
      replace (match a with 0%nat => size true X T e * rho * g 0%nat * / 4 | 1%nat => size true X T e * rho * g 1%nat * / 4 | _ => size true X T e * rho * g 2%nat * / 4 end) with (rho * size true X T e * g a / 4) by (lt3 a; unfold Rdiv; ring).
      ring.
    + intros i j a c Hi Hj Ha Hc. unfold em. cbn [ncor]. rewrite !(K4 lambda mu X T e D C), <- EM by (auto; lia). auto.
  - apply G. intros e He. fetch3 M He. unfold EMat_SolidDynamicLinear_Tri2D. rewrite s3. destruct (TriDlDx _ _ _) as (D & C) eqn:ED.
    do 2 eexists. split; [reflexivity|]. split.
    + intros i a Hi Ha. unfold er, app, ww. rewrite !decR_sum, inr3. cbn [ncor ndim].
      rewrite (rsum_ext 3 (fun j => dt * _) (fun j => dt * rsum 2 (fun b0 => KK false lambda mu X T e i j a b0 * loc 3 2 velo T e j b0))) by (intros j Hj; rewrite !(K3 lambda mu X T e D C) by (auto; lia); rsums; ring).
      rewrite (rsum_ext 3 (fun j => / 2 * dt * dt * _) (fun j => / 2 * dt * dt * rsum 2 (fun b0 => KK false lambda mu X T e i j a b0 * loc 3 2 acc T e j b0))) by (intros j Hj; rewrite !(K3 lambda mu X T e D C) by (auto; lia); rsums; ring).
      rewrite (rsum_ext 3 (fun j => SetEmat_LinearSolid2 _ _ _ _ _ _ _ _ * _ + _) (fun j => rsum 2 (fun b0 => KK false lambda mu X T e i j a b0 * loc 3 2 disp T e j b0))) by (intros j Hj; rewrite !(K3 lambda mu X T e D C) by (auto; lia); rsums; ring).
      rewrite (rsum_ext 3 (fun j => EmatConsistentMassTri2 _ _ _ _ _ * _ + _) (fun j => rsum 2 (fun b0 => Mf 3 (rho * size false X T e) i j a b0 * loc 3 2 acc T e j b0))) by (intros j Hj; rewrite (Rmult_comm (size false X T e) rho), !EM by (auto; lia); rsums; ring).
      rewrite (rsum_ext 3 (fun j => rsum 2 (fun b0 => KK false lambda mu X T e i j a b0 * (_ + _ + _)))
        (fun j => rsum 2 (fun b0 => KK false lambda mu X T e i j a b0 * loc 3 2 disp T e j b0) + dt * rsum 2 (fun b0 => KK false lambda mu X T e i j a b0 * loc 3 2 velo T e j b0)
          + / 2 * dt * dt * rsum 2 (fun b0 => KK false lambda mu X T e i j a b0 * loc 3 2 acc T e j b0))) by (intros j Hj; rsums; ring).
      rewrite !rsum_add, !rsum_mull.
      replace (match a with 0%nat => size false X T e * rho * g 0%nat * / 3 | _ => size false X T e * rho * g 1%nat * / 3 end) with (rho * size false X T e * g a / 3) by (lt2 a; unfold Rdiv; ring).
      ring.
    + intros i j a c Hi Hj Ha Hc. unfold em. cbn [ncor]. rewrite !(K3 lambda mu X T e D C), <- EM by (auto; lia). rewrite (Rmult_comm rho). auto.
Qed.

Theorem beuler_ok : forall dbg mu lambda rho g dt X np T nT disp velo A b, dt <> 0 -> solid_input true X np T nT A b ->
  length disp = (np * 3)%nat -> length velo = (np * 3)%nat ->
  exists B b', MergeLinSys_SolidLinear_BEuler_MeshTet3D dbg A b mu lambda rho g dt X np T nT disp velo = Some (B, b') /\ same_pattern A B /\ wf B /\ length b' = (np * 3)%nat /\
    beuler_weak true X T nT np mu lambda rho g dt (vec 3 disp) (vec 3 velo) A b B b'.
Proof.
  intros dbg mu lambda rho g dt X np T nT disp velo A b Hdt HI L1 L2.
  pose proof HI as (M & LX & Lb & HA & HS).
  set (ww := fun e i a => loc 4 3 disp T e i a + dt * loc 4 3 velo T e i a).
  set (er := fun e i a => / dt * (rho * size true X T e * g a / INR (ncor true) + (-1) * app 4 3 (KK true lambda mu X T e) (ww e) i a)).
  set (em := fun e i j a c => KK true lambda mu X T e i j a c + 1 * (if ((i =? j) && (a =? c))%bool%nat then rho / (dt * dt) * size true X T e / INR (ncor true) else 0)).
  destruct (asm true dbg X T nT np A b (fun aIP => P <- FetchData 4 3 aIP X ;; u <- FetchData 4 3 aIP disp ;; v <- FetchData 4 3 aIP velo ;;
    Some (BEuler_elem mu lambda rho g dt P u v)) er em HI) as (B & b' & E & S & W & L & F1 & F2).
  - cbn [ncor ndim] in *. intros e He. fetch3 M He. unfold BEuler_elem. rewrite s4. destruct (TetDlDx _ _ _ _) as (D & C) eqn:ED.
    do 2 eexists. split; [reflexivity|]. split.
    + intros i a Hi Ha. unfold er, ww, app. cbn [seq fold_left]. rewrite inr4. rsums. rewrite !(K4 lambda mu X T e D C) by (auto; lia). field. auto.
    + intros i j a c Hi Hj Ha Hc. unfold em. rewrite inr4, !(K4 lambda mu X T e D C) by (auto; lia). destruct ((i =? j)%nat && (a =? c)%nat)%bool; [field; auto|ring].
  - cbn [ncor ndim] in *. exists B, b'. do 4 (split; [assumption|]). intros u v Gu Gv Gw Hu Hv Hw. cbn [ncor ndim]. rewrite F1, F2. split; f_equal.
    + apply rsum_ext; intros e He. unfold em. rewrite (form_addK 4 3). rewrite (elem_KK true _ _ _ _ _ _ _ _ _ e Hu Hv He (HS e He)), (elem_lump true). cbn [ndim]. ring.
    + unfold Rdiv. rewrite Rmult_comm, <- rsum_mull. apply rsum_ext; intros e He. unfold er. rewrite ldot_mul. f_equal. rewrite ldot_add. rewrite (elem_gravity true), ldot_mul, ldot_app.
      rewrite (form_ext _ _ _ (ww e) (restr 4 T e (fun p k => vec 3 disp p k + dt * vec 3 velo p k)) _ (restr 4 T e v)); auto.
      * rewrite (elem_KK true _ _ _ _ _ _ _ _ _ e Hw Hv He (HS e He)). cbn [ndim]. ring.
      * intros i a Hi Ha. unfold ww. rewrite !restr_vec by auto. reflexivity.
Qed.
