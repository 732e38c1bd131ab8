(** Faces of tetrahedra, and the triangles around a point. *)
From Coq Require Import List Arith Bool ZArith Reals Lra Lia.
Import ListNotations.
From Verif Require Import Imp PrModel GjkProofs1 PbdProofs1 QuatModel ProxModel ProxSpec ProxProofs1 ProxProofs3 ProxProps IsecModel IsecSpec IsecProofs2 MeasModel MeasSpec MeasProofs1 MeasProofs2 BruteModel BruteSpec BruteProofs1 BruteProofs2 BruteProofs3.
Open Scope R_scope.

Lemma tetface3_ok : forall l tet face i, valid tet l -> face_ok tet face -> (i < count 2 face)%nat -> tetface3 l tet face i = Some (face_point l tet face i 0, face_point l tet face i 1, face_point l tet face i 2).
Proof.
  intros l tet face i V F I. destruct (F i I) as (T & K). unfold count in *. pose proof (Nat.div_mod (length face) 2 ltac:(lia)). pose proof (Nat.div_mod (length tet) 4 ltac:(lia)).
  unfold tetface3. rewrite (vget_nth _ 0%nat face (i * 2 + 0)), (vget_nth _ 0%nat face (i * 2 + 1)) by lia. cbn [bind]. replace (i * 2 + 0)%nat with (2 * i)%nat by lia. replace (i * 2 + 1)%nat with (2 * i + 1)%nat by lia.
  unfold face_point, face_corner. set (t := nth (2 * i) face 0%nat) in *. set (f := nth (2 * i + 1) face 0%nat) in *. clearbody t f.
  assert (G : forall j, (j < 4)%nat -> vget tet (t * 4 + j) = Some (nth (4 * t + j) tet 0%nat) /\ xyz l (nth (4 * t + j) tet 0%nat) = Some (pnt l (nth (4 * t + j) tet 0%nat))). { intros j J. split; [rewrite (vget_nth _ 0%nat) by lia; do 2 f_equal; lia|]. apply xyz_pnt. apply V. apply nth_In. lia. }
  set (fc := [[1; 2; 3]; [0; 3; 2]; [0; 1; 3]; [0; 2; 1]]%nat).
  assert (R0 : vget noelTetFace (f * 3 + 0) = Some (nth 0 (nth f fc []) 0)%nat /\ vget noelTetFace (f * 3 + 1) = Some (nth 1 (nth f fc []) 0)%nat /\ vget noelTetFace (f * 3 + 2) = Some (nth 2 (nth f fc []) 0)%nat /\ forall k, (nth k (nth f fc []) 0 < 4)%nat).
  { destruct f as [|[|[|[|]]]]; [| | | |lia]; repeat split; intros [|[|[|[|k]]]]; cbn; lia. }
  destruct R0 as (-> & -> & -> & B). cbn [bind]. destruct (G _ (B 0%nat)) as (-> & X0). destruct (G _ (B 1%nat)) as (-> & X1). destruct (G _ (B 2%nat)) as (-> & X2). cbn [bind]. rewrite X0. cbn [bind]. rewrite X1. cbn [bind]. rewrite X2. reflexivity.
Qed.
Lemma FacePos_ok : forall l tet face i r0 r1, valid tet l -> face_ok tet face -> (i < count 2 face)%nat ->
  PositionOnFaceOfMeshTet (i, r0, r1) l tet face = Some (comb r0 r1 (1 - r0 - r1) (face_point l tet face i 0) (face_point l tet face i 1) (face_point l tet face i 2)).
Proof. intros. unfold PositionOnFaceOfMeshTet. rewrite tetface3_ok by auto. reflexivity. Qed.

(** areas as weights *)
Lemma area_part : forall a b c p q r, 0 <= a -> a + b + c = 1 -> Area_Tri_3 (comb a b c p q r) q r = a * (norm3 (tn p q r) / 2).
Proof.
  intros a b c p q r A S. unfold Area_Tri_3. replace (cross3 (sub3 q (comb a b c p q r)) (sub3 r (comb a b c p q r))) with (mul3 a (tn p q r)) by (replace c with (1 - a - b) by lra; unfold tn; veq).
  assert (N : norm3 (mul3 a (tn p q r)) = a * norm3 (tn p q r)). { unfold norm3. replace (dot3 (mul3 a (tn p q r)) (mul3 a (tn p q r))) with (a * a * dot3 (tn p q r) (tn p q r)) by (u3; ring). rewrite sqrt_mult by (try apply dot_pos; nra). rewrite sqrt_square by auto. auto. }
  rewrite N. field.
Qed.
Lemma comb_turn : forall a b c p q r, comb a b c p q r = comb b c a q r p. Proof. intros. veq. Qed.
Lemma tn_turn : forall p q r, norm3 (tn p q r) = norm3 (tn q r p). Proof. intros. unfold norm3, tn. f_equal. u3. ring. Qed.
Lemma areas_pos : forall x p q r, norm3 (tn p q r) <> 0 -> Area_Tri_3 x q r + Area_Tri_3 x r p + Area_Tri_3 x p q <> 0.
Proof.
  intros x p q r N E. unfold Area_Tri_3 in E. pose proof (sqrt_pos (dot3 (cross3 (sub3 q x) (sub3 r x)) (cross3 (sub3 q x) (sub3 r x)))) as P1. pose proof (sqrt_pos (dot3 (cross3 (sub3 r x) (sub3 p x)) (cross3 (sub3 r x) (sub3 p x)))) as P2. pose proof (sqrt_pos (dot3 (cross3 (sub3 p x) (sub3 q x)) (cross3 (sub3 p x) (sub3 q x)))) as P3. unfold norm3 in E.
  assert (Z : forall v, sqrt (dot3 v v) = 0 -> v = origin3) by (intros v H; apply dot_zero; apply sqrt_eq_0; auto; apply dot_pos).
  assert (E1 := Z _ (ltac:(lra) : sqrt (dot3 (cross3 (sub3 q x) (sub3 r x)) (cross3 (sub3 q x) (sub3 r x))) = 0)). assert (E2 := Z _ (ltac:(lra) : sqrt (dot3 (cross3 (sub3 r x) (sub3 p x)) (cross3 (sub3 r x) (sub3 p x))) = 0)). assert (E3 := Z _ (ltac:(lra) : sqrt (dot3 (cross3 (sub3 p x) (sub3 q x)) (cross3 (sub3 p x) (sub3 q x))) = 0)).
  apply N. replace (tn p q r) with (add3 (add3 (cross3 (sub3 q x) (sub3 r x)) (cross3 (sub3 r x) (sub3 p x))) (cross3 (sub3 p x) (sub3 q x))) by (unfold tn; veq). rewrite E1, E2, E3. unfold norm3. rewrite <- sqrt_0. f_equal. u3. ring.
Qed.
Definition face_large (l : list R) (tet face : list nat) (i : nat) : Prop := large3 (face_point l tet face i 0) (face_point l tet face i 1) (face_point l tet face i 2).
Definition fbest (l : list R) (tet face : list nat) (p : vec3) (n : nat) (b : option (R * nat * vec3)) : Prop :=
  match b with
  | None => n = 0%nat
  | Some (d, i, x) => (i < n)%nat /\ d = dist3 (add3 x p) p /\ face_points l tet face i (add3 x p) /\ forall u y, (u < n)%nat -> face_points l tet face u y -> d <= dist3 y p
  end.
Lemma TetFace_ok : forall p l tet face, valid tet l -> face_ok tet face -> (0 < count 2 face)%nat -> (forall i, (i < count 2 face)%nat -> face_large l tet face i) ->
  wp (Nearest_Point_MeshTetFace3D p l tet face) (fun '(i, r0, r1) => (i < count 2 face)%nat /\ exists x, closest (boundary l tet face) p x /\ face_points l tet face i x /\
    (p = origin3 -> x = comb r0 r1 (1 - r0 - r1) (face_point l tet face i 0) (face_point l tet face i 1) (face_point l tet face i 2)) /\
    r0 = Area_Tri_3 (sub3 x p) (face_point l tet face i 1) (face_point l tet face i 2) / (Area_Tri_3 (sub3 x p) (face_point l tet face i 1) (face_point l tet face i 2) + Area_Tri_3 (sub3 x p) (face_point l tet face i 2) (face_point l tet face i 0) + Area_Tri_3 (sub3 x p) (face_point l tet face i 0) (face_point l tet face i 1))).
Proof.
  intros p l tet face V F N L. unfold Nearest_Point_MeshTetFace3D. apply wp_bind.
  apply (wp_forn _ (fun i b => fbest l tet face p i b)); [lia|reflexivity| |].
  - intros i b Hi B. rewrite tetface3_ok by (auto; unfold count; lia). cbn [bind].
    destruct (near_tri (face_point l tet face i 0) (face_point l tet face i 1) (face_point l tet face i 2) p) as (x & r0 & r1 & E & W & X & C1 & C2); [apply L; unfold count; lia|]. rewrite E. cbn [bind wp].
    assert (AX : add3 x p = comb r0 r1 (1 - r0 - r1) (face_point l tet face i 0) (face_point l tet face i 1) (face_point l tet face i 2)) by (rewrite X; veq).
    assert (DX : norm3 x = dist3 (add3 x p) p) by (rewrite dist_norm; f_equal; veq). rewrite <- AX in *. 
    destruct b as [[[d j] z]|]; cbn [fbest] in *.
    + destruct B as (J & D & Fz & M). pose proof (ltRs (norm3 x) d) as Lt. destruct (ltR (norm3 x) d); cbn [fbest].
      * split; [lia|]. split; [auto|]. split; [auto|]. intros u y U Y. destruct (Nat.eq_dec u i) as [->|]; [rewrite DX; auto|]. specialize (M u y ltac:(lia) Y). lra.
      * split; [lia|]. split; [auto|]. split; [auto|]. intros u y U Y. destruct (Nat.eq_dec u i) as [->|]; [|apply (M u); auto; lia]. specialize (C2 y Y). lra.
    + split; [lia|]. split; [auto|]. split; [auto|]. intros u y U Y. replace u with i in Y by lia. rewrite DX. auto.
  - intros [[[d i] x]|] B; cbn [fbest] in B; [|unfold count in N; lia]. destruct B as (I & D & Fx & M). rewrite tetface3_ok by auto. cbn [bind]. unfold ndiv.
    assert (NZ : norm3 (tn (face_point l tet face i 0) (face_point l tet face i 1) (face_point l tet face i 2)) <> 0). { destruct (L i I) as (_ & _ & _ & A). rewrite <- area2_norm. assert (0 < / 10 ^ 10) by (apply Rinv_0_lt_compat; apply pow_lt; lra). lra. }
    pose proof (areas_pos x _ _ _ NZ) as AP. set (S := _ + _ + _) in *. pose proof (eqRs S 0) as Q. destruct (eqR S 0); [contradiction|]. cbn [bind wp].
    split; [auto|]. exists (add3 x p). split; [split; [exists i; auto|intros y (u & U & Y); rewrite <- D; eauto]|]. split; [auto|]. replace (sub3 (add3 x p) p) with x by veq. split; [|fold S; field; auto].
    intros ->. destruct Fx as (a & b & c & A & Bb & C & Sm & X). assert (X0 : x = comb a b c (face_point l tet face i 0) (face_point l tet face i 1) (face_point l tet face i 2)) by (rewrite <- X; veq).
    set (q0 := face_point l tet face i 0) in *. set (q1 := face_point l tet face i 1) in *. set (q2 := face_point l tet face i 2) in *.
    assert (A0 : Area_Tri_3 x q1 q2 = a * (norm3 (tn q0 q1 q2) / 2)) by (rewrite X0; apply area_part; auto).
    assert (A1 : Area_Tri_3 x q2 q0 = b * (norm3 (tn q0 q1 q2) / 2)) by (rewrite X0, comb_turn, tn_turn; apply area_part; auto; lra).
    assert (A2 : Area_Tri_3 x q0 q1 = c * (norm3 (tn q0 q1 q2) / 2)) by (rewrite X0, comb_turn, comb_turn, tn_turn, tn_turn; apply area_part; auto; lra).
    assert (ES : S = norm3 (tn q0 q1 q2) / 2). { unfold S. rewrite A0, A1, A2. replace c with (1 - a - b) by lra. field. }
    rewrite A0, A1, ES. replace (a * (norm3 (tn q0 q1 q2) / 2) * (1 / (norm3 (tn q0 q1 q2) / 2))) with a by (field; auto). replace (b * (norm3 (tn q0 q1 q2) / 2) * (1 / (norm3 (tn q0 q1 q2) / 2))) with b by (field; auto).
    replace (1 - a - b) with c by lra. exact X.
Qed.

(** the triangles around a point *)
Lemma near_total : forall p q0 q1 q2, large3 q0 q1 q2 -> exists x r0 r1, Nearest_Triangle3_Point3 p q0 q1 q2 = Some (x, r0, r1).
Proof.
  intros p q0 q1 q2 (A & B & C & D). destruct (Rle_dec (Rabs (volume6 p q0 q1 q2)) (6 * / 10 ^ 10)) as [H|H].
  - destruct (C70_nearest_point_of_the_border p q0 q1 q2 A B C H) as (x & r0 & r1 & E & _). eauto.
  - destruct (C70_nearest_point_of_a_triangle p q0 q1 q2 A B C D ltac:(lra)) as (x & r0 & r1 & E & _). eauto.
Qed.
Definition near_tri3 (p : vec3) (rad : R) (q0 q1 q2 : vec3) : Prop := exists x r0 r1, Nearest_Triangle3_Point3 p q0 q1 q2 = Some (x, r0, r1) /\ dist3 x p <= rad.
Definition near_by (p : vec3) (rad : R) (l : list R) (tri : list nat) (t : nat) : Prop := near_tri3 p rad (at_corner l 3 tri t 0) (at_corner l 3 tri t 1) (at_corner l 3 tri t 2).
Lemma nodup_bound : forall n (a : list nat), NoDup a -> (forall x, In x a -> (x < n)%nat) -> (length a <= n)%nat.
Proof. intros n a N H. rewrite <- (seq_length n 0). apply NoDup_incl_length; auto. intros x X. apply in_seq. specialize (H x X). lia. Qed.
Lemma nodup_snoc : forall (a : list nat) x, NoDup a -> ~ In x a -> NoDup (a ++ [x]).
Proof. intros a x N H. apply (NoDup_Add (a := x) (l := a)); [|auto]. rewrite <- (app_nil_r a) at 1. apply Add_app. Qed.
Lemma Sphere_ok : forall p rad t0 l tri adj, valid tri l -> adj_ok tri adj -> (t0 < count 3 tri)%nat -> (forall t, (t < count 3 tri)%nat -> large l tri t) ->
  wp (IndexesOfConnectedTriangleInSphere p rad t0 l tri adj) (fun res => NoDup res /\ (forall t, In t res -> (t < count 3 tri)%nat) /\ forall t, In t res <-> linked (near_by p rad l tri) adj t0 t).
Proof.
  intros p rad t0 l tri adj V (AL & AR) T0 L. unfold IndexesOfConnectedTriangleInSphere. fold (count 3 tri). set (n := count 3 tri) in *. set (near := near_by p rad l tri). apply wp_bind.
  set (J := fun s : list nat * list nat * list nat => let '(res, sea, nxt) := s in NoDup sea /\ (forall t, In t sea \/ In t nxt -> (t < n)%nat) /\ (In t0 sea \/ In t0 nxt) /\ NoDup res /\ (forall t, In t res <-> In t sea /\ near t) /\
    (forall t, In t sea \/ In t nxt -> near t -> linked near adj t0 t) /\ (forall t u, In t res -> next_to adj t u -> In u sea \/ In u nxt)).
  apply (wp_whilef _ (fun s => let '(res, sea, nxt) := s in (4 * (n - length sea) + length nxt)%nat) J).
  - cbn [length]. lia.
  - cbn [J]. split; [constructor|]. split; [intros t [[]|[<-|[]]]; auto|]. split; [right; left; auto|]. split; [constructor|]. split; [intros t; split; [intros []|intros ([] & _)]|]. split; [intros t [[]|[<-|[]]] H; constructor; auto|intros t u []].
  - intros [[res sea] nxt] I C. destruct nxt as [|t nxt]; [discriminate|]. split; [cbn [length]; lia|]. destruct I as (N1 & Bd & St & N2 & Rs & Lk & Cl).
    destruct (existsb (Nat.eqb t) sea) eqn:Ex.
    + apply existsb_exists in Ex. destruct Ex as (t' & Ht & Et). apply Nat.eqb_eq in Et. subst t'. cbn [wp]. split; [|cbn [length]; lia]. cbn [J].
      assert (EQ : forall u, In u sea \/ In u (t :: nxt) <-> In u sea \/ In u nxt) by (intros u; cbn [In]; split; [intros [?|[<-|?]]; auto|intros [?|?]; auto]).
      split; [auto|]. split; [intros u U; apply Bd; apply EQ; auto|]. split; [apply EQ; auto|]. split; [auto|]. split; [auto|]. split; [intros u U; apply Lk; apply EQ; auto|]. intros u w U W. apply EQ. eauto.
    + assert (Nt : ~ In t sea). { intros H. assert (existsb (Nat.eqb t) sea = true) by (apply existsb_exists; exists t; split; auto; apply Nat.eqb_refl). congruence. }
      assert (Tn : (t < n)%nat) by (apply Bd; right; left; auto).
      assert (Ln : (S (length sea) <= n)%nat) by (apply (nodup_bound n (t :: sea)); [constructor; auto|intros u [<-|U]; auto]).
      rewrite tri3_ok by auto. cbn [bind]. destruct (near_total p (at_corner l 3 tri t 0) (at_corner l 3 tri t 1) (at_corner l 3 tri t 2) (L t Tn)) as (x & r0 & r1 & E). rewrite E. cbn [bind]. rewrite <- dist_norm.
      assert (EQ : forall u, In u sea \/ In u (t :: nxt) <-> In u (t :: sea) \/ In u nxt) by (intros u; cbn [In]; tauto).
      assert (NB : near t <-> dist3 x p <= rad). { unfold near, near_by, near_tri3. rewrite E. split; [intros (x' & s0 & s1 & H & D); injection H; intros; subst; auto|eauto]. }
      pose proof (ltRs rad (dist3 x p)) as Lt. destruct (ltR rad (dist3 x p)).
      * cbn [wp]. split; [|cbn [length]; lia]. cbn [J]. split; [constructor; auto|]. split; [intros u U; apply Bd; apply EQ; auto|]. split; [apply EQ; auto|]. split; [auto|].
        split; [intros u; rewrite Rs; cbn [In]; split; [intros (U & Nu); auto|]; intros ([<-|U] & Nu); auto; exfalso; apply NB in Nu; lra|]. split; [intros u U; apply Lk; apply EQ; auto|]. intros u w U W. apply EQ. eauto.
      * assert (Nr : near t) by (apply NB; lra). assert (Lt0 : linked near adj t0 t) by (apply Lk; auto; right; left; auto). apply wp_bind.
        apply (wp_forn _ (fun e nx => (length nx <= length nxt + e)%nat /\ (forall u, In u nx <-> In u nxt \/ exists e', (e' < e)%nat /\ nth (3 * t + e') adj None = Some u))); [lia| | |].
        -- split; [lia|]. intros u. split; [auto|]. intros [U|(e' & H & _)]; [auto|lia].
        -- intros e nx He (Le & In_). rewrite (vget_nth _ None) by (rewrite AL; lia). cbn [bind]. replace (t * 3 + e)%nat with (3 * t + e)%nat by lia.
           destruct (nth (3 * t + e) adj None) as [u1|] eqn:Eu; cbn [wp length].
           ++ split; [lia|]. intros u. cbn [In]. rewrite In_. split.
              ** intros [<-|[U|(e' & H & K)]]; [right; exists e; split; [lia|auto]|auto|right; exists e'; split; [lia|auto]].
              ** intros [U|(e' & H & K)]; [auto|]. destruct (Nat.eq_dec e' e) as [->|]; [left; congruence|]. right. right. exists e'. split; [lia|auto].
           ++ split; [lia|]. intros u. rewrite In_. split.
              ** intros [U|(e' & H & K)]; [auto|right; exists e'; split; [lia|auto]].
              ** intros [U|(e' & H & K)]; [auto|]. destruct (Nat.eq_dec e' e) as [->|]; [congruence|]. right. exists e'. split; [lia|auto].
        -- intros nx (Le & In_). cbn [wp]. split; [|cbn [length]; lia].
           assert (In3 : forall u, In u nx <-> In u nxt \/ next_to adj t u) by (intros u; rewrite In_; reflexivity).
           assert (AdB : forall u, next_to adj t u -> (u < n)%nat). { intros u (e & He & Hu). apply AR. rewrite <- Hu. apply nth_In. rewrite AL. lia. }
           cbn [J]. split; [constructor; auto|]. split; [intros u; rewrite In3; intros [U|[U|U]]; [apply Bd; apply EQ; auto|apply Bd; apply EQ; auto|auto]|].
           split; [rewrite In3; apply EQ in St; tauto|]. split; [apply nodup_snoc; auto; rewrite Rs; tauto|].
           split; [intros u; rewrite in_app_iff, Rs; cbn [In]; split; [intros [(U & Nu)|[<-|[]]]; auto|]; intros ([<-|U] & Nu); auto|].
           split; [intros u; rewrite In3; intros [U|[U|U]] Nu; [apply Lk; auto; apply EQ; auto|apply Lk; auto; apply EQ; auto|eapply linked_next; eauto]|].
           intros u w U W. rewrite In3. apply in_app_or in U. destruct U as [U|[<-|[]]]; [|auto]. specialize (Cl u w U W). apply EQ in Cl. tauto.
  - intros [[res sea] nxt] I C. destruct nxt; [|discriminate]. destruct I as (N1 & Bd & St & N2 & Rs & Lk & Cl). cbn [wp].
    split; [auto|]. split; [intros t H; apply Bd; apply Rs in H; tauto|]. intros t. split.
    + intros H. apply Rs in H. apply Lk; tauto.
    + assert (Hs : In t0 sea) by (destruct St as [?|[]]; auto). induction 1 as [H|t u H IH A B]; [apply Rs; auto|]. apply Rs. split; auto. destruct (Cl t u IH A) as [|[]]; auto.
Qed.
(** the samples *)
Lemma There_ok : forall smpl rad samples els l tri adj, valid tri l -> adj_ok tri adj -> (fst (fst smpl) < count 3 tri)%nat -> (forall t, (t < count 3 tri)%nat -> large l tri t) ->
  (forall e, In e els -> (snd e < length samples)%nat) -> (forall s, In s samples -> (fst (fst s) < count 3 tri)%nat) ->
  wp (IsTherePointOnMeshInsideSphere smpl rad samples els l tri adj) (fun b => b = true <->
    exists t j s, linked (near_by (tri_point l tri smpl) rad l tri) adj (fst (fst smpl)) t /\ In (t, j) els /\ nth_error samples j = Some s /\ dist3 (tri_point l tri smpl) (tri_point l tri s) < rad).
Proof.
  intros [[t0 r0] r1] rad samples els l tri adj V A T L E S. cbn [fst] in *. unfold IsTherePointOnMeshInsideSphere. rewrite pos_ok by auto. cbn [bind fst]. set (p := tri_point l tri (t0, r0, r1)). apply wp_bind. eapply wp_mono; [apply Sphere_ok; auto|]. intros res (_ & _ & Rs). cbv beta.
  set (good := fun (ts : nat -> Prop) => exists t j s, ts t /\ In (t, j) els /\ nth_error samples j = Some s /\ dist3 p (tri_point l tri s) < rad).
  apply (wp_foldM _ _ (fun done b => b = true <-> good (fun t => In t done))).
  - split; [discriminate|]. intros (t & j & s & [] & _).
  - intros l1 t l2 b _ B.
    apply (wp_foldM _ _ (fun done b => b = true <-> good (fun u => In u l1) \/ exists j s, In (t, j) done /\ nth_error samples j = Some s /\ dist3 p (tri_point l tri s) < rad)).
    + rewrite B. split; [auto|]. intros [H|(j & s & [] & _)]. auto.
    + intros d1 [t' j] d2 b' Ed B'. assert (Fi : In (t', j) (filter (fun e => (fst e =? t)%nat) els)) by (rewrite Ed; apply in_or_app; right; left; auto). apply filter_In in Fi. destruct Fi as (Ie & Et). apply Nat.eqb_eq in Et. cbn [fst] in Et. subst t'. cbv beta iota.
      destruct b'.
      * cbn [wp]. split; [|auto]. intros _. destruct (proj1 B' eq_refl) as [H|(j' & s & H & K)]; [auto|]. right. exists j', s. rewrite in_app_iff. auto.
      * pose proof (E _ Ie) as Hj. cbn [snd] in Hj. unfold vget. unfold pes in *. destruct (nth_error samples j) as [s|] eqn:Es; [|apply nth_error_None in Es; lia]. cbn [bind]. cbv beta iota. destruct s as [[ts s0] s1]. rewrite pos_ok by (auto; exact (S _ (nth_error_In _ _ Es))). cbn [bind wp]. rewrite <- dist_norm.
        pose proof (ltRs (dist3 p (tri_point l tri (ts, s0, s1))) rad) as Lt. destruct (ltR _ rad).
        -- split; [|auto]. intros _. right. exists j, (ts, s0, s1). rewrite in_app_iff. cbn [In]. auto.
        -- split; [discriminate|]. intros [H|(j' & s & H & K & D)]; [apply B'; auto|]. apply in_app_or in H. destruct H as [H|[H|[]]]; [apply B'; right; eauto|]. injection H as <-. rewrite Es in K. injection K as <-. lra.
    + intros b' B'. rewrite B'. unfold good. split.
      * intros [(u & j & s & U & K)|(j & s & H & K)]; [exists u, j, s; rewrite in_app_iff; auto|]. apply filter_In in H. exists t, j, s. rewrite in_app_iff. cbn [In]. tauto.
      * intros (u & j & s & U & H & K). apply in_app_or in U. destruct U as [U|[<-|[]]]; [left; exists u, j, s; auto|]. right. exists j, s. split; [apply filter_In; split; auto; apply Nat.eqb_refl|auto].
  - intros b B. rewrite B. unfold good. split; intros (t & j & s & H & K); exists t, j, s; (split; [apply Rs; auto|auto]).
Qed.
(** what near means *)
Lemma near_off : forall p rad q0 q1 q2, large3 q0 q1 q2 -> 6 * / 10 ^ 10 < Rabs (volume6 p q0 q1 q2) ->
  ((exists y, triangle q0 q1 q2 y /\ dist3 y p <= rad) -> near_tri3 p rad q0 q1 q2) /\
  (near_tri3 p rad q0 q1 q2 -> exists a b, - / 10 ^ 4 < a /\ - / 10 ^ 4 < b /\ - / 10 ^ 4 < 1 - a - b /\ dist3 (comb a b (1 - a - b) q0 q1 q2) p <= rad).
Proof.
  intros p rad q0 q1 q2 (A & B & C & D) V. destruct (C70_nearest_point_of_a_triangle p q0 q1 q2 A B C D V) as (x & r0 & r1 & E & X & R0 & R1 & R2 & M). unfold near_tri3. rewrite E. split.
  - intros (y & Y & H). exists x, r0, r1. split; auto. specialize (M y Y). lra.
  - intros (x' & s0 & s1 & H & H'). injection H as <- <- <-. exists r0, r1. rewrite X in H'. auto.
Qed.
Lemma near_on : forall p rad q0 q1 q2, large3 q0 q1 q2 -> Rabs (volume6 p q0 q1 q2) <= 6 * / 10 ^ 10 ->
  near_tri3 p rad q0 q1 q2 <-> exists y, edges q0 q1 q2 y /\ dist3 y p <= rad.
Proof.
  intros p rad q0 q1 q2 (A & B & C & D) V. destruct (C70_nearest_point_of_the_border p q0 q1 q2 A B C V) as (x & r0 & r1 & E & _ & _ & _ & _ & X & M). unfold near_tri3. rewrite E. split.
  - intros (x' & s0 & s1 & H & H'). injection H as <- <- <-. exists x. auto.
  - intros (y & Y & H). exists x, r0, r1. split; auto. specialize (M y Y). lra.
Qed.
Lemma near_by_spec : forall p rad l tri, (forall t, (t < count 3 tri)%nat -> large l tri t) -> near_spec p rad l tri (near_by p rad l tri).
Proof.
  intros p rad l tri L t T q0 q1 q2. split; intros V.
  - destruct (near_off p rad q0 q1 q2 (L t T) V) as (A & B). split; [exact A|]. intros H. destruct (B H) as (a & b & Ha & Hb & Hc & D). exists (comb a b (1 - a - b) q0 q1 q2). split; [exists a, b; auto|auto].
  - exact (near_on p rad q0 q1 q2 (L t T) V).
Qed.
