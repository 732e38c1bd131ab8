(** C75: position based dynamics.  A projection moves points of free bodies without moving their centre, removes its constraints to first order with the
    least motion, and leaves rest shapes alone.  The exceptions are stated as _refuted. *)
From Coq Require Import List Arith Bool Reals Lra Lia.
Import ListNotations.
From Verif Require Import Imp PrModel QuatModel GjkProofs1 MeasSpec MeasProofs2 EnerModel EnerSpec EnerProofs1 EnerProofs4 DtriModel DtriSpec EnerProps PbdModel PbdSpec PbdProofs1 PbdProofs2 PbdProofs3 PbdProofs4 PbdProofs5 PbdProofs6 PbdProofs7 PbdProofs8.
Open Scope R_scope.

(** A step without constraints: free points fall, fixed points stay. *)
Theorem C75_step : forall old dt g x u flag n, length x = (3 * n)%nat -> length u = (3 * n)%nat -> length flag = n -> dt <> 0 ->
  exists t, PBD_Pre3D old dt g x u flag = Some t /\ length t = (3 * n)%nat /\
  (exists x' u', PBD_Post x u dt t flag = Some (x', u') /\
    forall i d, (i < n)%nat -> (d < 3)%nat -> (fixed flag i -> coord x' i d = coord x i d /\ coord u' i d = coord u i d) /\
      (~ fixed flag i -> coord u' i d = coord u i d + dt * nth d [vx g; vy g; vz g] 0 /\ coord x' i d = coord x i d + dt * coord u' i d)) /\
  forall t', length t' = (3 * n)%nat -> exists x' u', PBD_Post x u dt t' flag = Some (x', u') /\ length x' = (3 * n)%nat /\ length u' = (3 * n)%nat /\
    forall i d, (i < n)%nat -> (d < 3)%nat -> (fixed flag i -> coord x' i d = coord x i d /\ coord u' i d = coord u i d) /\
      (~ fixed flag i -> coord x' i d = coord t' i d /\ coord x' i d = coord x i d + dt * coord u' i d).
Proof.
  intros old dt g x u flag n Lx Lu Lf DT. destruct (pre_run old dt g x u flag n Lx Lu Lf) as (t & E & Lt & F & M). exists t. split; [auto|]. split; [auto|]. split.
  - destruct (post_run dt x u t flag n Lx Lu Lt Lf DT) as (x' & u' & E' & _ & _ & F' & M'). exists x', u'. split; [auto|]. intros i d I D. split; [apply F'; auto|].
    intro N. destruct (M' i d I D N) as (P & Q). rewrite P, Q, (M i d I D N). unfold comp. split; field; auto.
  - intros t' Lt'. destruct (post_run dt x u t' flag n Lx Lu Lt' Lf DT) as (x' & u' & E' & Lx' & Lu' & F' & M'). exists x', u'. do 3 (split; [auto|]). intros i d I D. split; [apply F'; auto|].
    intro N. destruct (M' i d I D N) as (P & Q). rewrite P, Q. split; [auto|field; auto].
Qed.
Print Assumptions C75_step.
Example ex_step : let flag := [0; 1]%nat in let x := [0; 0; 0; 1; 0; 0] in let u := [0; 0; 1; 0; 0; 0] in length x = (3 * 2)%nat /\ length u = (3 * 2)%nat /\ length flag = 2%nat /\ ~ fixed flag 0 /\ fixed flag 1.
Proof. cbv zeta. unfold fixed. cbn [length nth]. repeat split; try lia; intro H; try (apply H; reflexivity); lia. Qed.

(** One projection of three constraints. *)
Theorem C75_update : forall a np m C dC aIP ratio, (forall i, (i < np)%nat -> 0 < m i) -> length aIP = np -> NoDup aIP -> (forall i, In i aIP -> has a i) ->
  (~ independent np dC -> PBD_Update_Const3 a np m C dC aIP ratio = None) /\
  (independent np dC -> exists a', PBD_Update_Const3 a np m C dC aIP ratio = Some a' /\ length a' = length a /\ (forall j d, (d < 3)%nat -> ~ In j aIP -> coord a' j d = coord a j d) /\
    let D := moved a a' aIP in
    (forall k, (k < 3)%nat -> power np 3 (dC k) D = - ratio * C k) /\
    (forall e, (forall k, (k < 3)%nat -> power np 3 (dC k) e = - ratio * C k) -> weighted np m D <= weighted np m e) /\
    (forall d, (d < 3)%nat -> (forall k, (k < 3)%nat -> sum np (fun i => dC k i d) = 0) -> sum np (fun i => m i * D i d) = 0) /\
    (forall x, (forall k d, (k < 3)%nat -> (d < 3)%nat -> sum np (fun i => crossp (x i) (dC k i) d) = 0) -> forall d, (d < 3)%nat -> sum np (fun i => m i * crossp (x i) (D i) d) = 0)).
Proof.
  intros a np m C dC aIP ratio HM HL ND HA. split; [intro; apply update_none; auto|]. intro IN. destruct (update_run a np m C dC aIP ratio HM HL HA IN) as (lmd & a' & EL & E & L & F).
  exists a'. split; [auto|]. split; [auto|]. destruct (update_shift a a' np aIP (fun i d => sum 3 (fun k => ratio * (dC k i d * (1 / m i)) * lmd k)) HL ND F) as (MV & O). split; [auto|]. cbv zeta. set (D := moved a a' aIP) in *.
  assert (LN : forall k, (k < 3)%nat -> power np 3 (dC k) D = - ratio * C k) by (apply (lin np m dC ratio lmd D MV C EL)).
  split; [auto|]. split; [intros e He; apply (least np m dC HM ratio lmd D MV); intros k K; rewrite He, LN by auto; auto|].
  split; [intros d K Z; apply (momentum np m dC HM ratio lmd D MV d K Z)|]. intros x Z d K. apply (angular np m dC HM ratio lmd D MV x Z d K).
Qed.
Print Assumptions C75_update.
(** Three coordinates of one point. *)
Example ex_update : independent 1 (fun k i d => if (d =? k)%nat then 1 else 0) /\ NoDup [0%nat] /\ has [1; 2; 3] 0.
Proof.
  split; [|split; [repeat constructor; intros []|unfold has; cbn [length]; lia]]. intros w H k K. pose proof (H 0%nat k ltac:(lia) K) as Q. rewrite sum_3 in Q. cases3 k K; cbn [Nat.eqb] in Q; lra.
Qed.

(** The strain of one triangle, and of a mesh. *)
Theorem C75_strain_one : forall a v i0 i1 i2, NoDup [i0; i1; i2] -> tri_rest a v i0 i1 i2 ->
  let u d := coord a i1 d - coord a i0 d in let w d := coord a i2 d - coord a i0 d in dot u u * dot w w - dot u w * dot u w <> 0 ->
  exists a', PBD_TriStrain a [(i0, i1, i2)] v = Some a' /\ kept a a' /\ (forall j d, (d < 3)%nat -> ~ In j [i0; i1; i2] -> coord a' j d = coord a j d) /\
  (forall i j, In i [i0; i1; i2] -> In j [i0; i1; i2] -> sq3 a i j + 2 * sum 3 (fun d => (coord a i d - coord a j d) * ((coord a' i d - coord a i d) - (coord a' j d - coord a j d))) = sq2 v i j) /\
  (forall d, (d < 3)%nat -> sum 3 (fun k => crossp (fun d => coord a (nth k [i0; i1; i2] 0%nat) d) (moved a a' [i0; i1; i2] k) d) = 0).
Proof. exact strain1_lin. Qed.
Print Assumptions C75_strain_one.
Theorem C75_strain : forall v tri a a', PBD_TriStrain a tri v = Some a' -> kept a a' /\
  forall j d, (d < 3)%nat -> (forall i0 i1 i2, In (i0, i1, i2) tri -> j <> i0 /\ j <> i1 /\ j <> i2) -> coord a' j d = coord a j d.
Proof. exact strain_keeps. Qed.
Print Assumptions C75_strain.
Theorem C75_strain_rest : forall v tri a, (length a mod 3 = 0)%nat ->
  (forall i0 i1 i2, In (i0, i1, i2) tri -> tri_rest a v i0 i1 i2 /\ sq3 a i0 i1 = sq2 v i0 i1 /\ sq3 a i0 i2 = sq2 v i0 i2 /\ sq3 a i1 i2 = sq2 v i1 i2) -> PBD_TriStrain a tri v = Some a.
Proof. exact strain_rest. Qed.
Print Assumptions C75_strain_rest.
Definition vex : list (R * R) := [(0, -1); (0, 1); (0, 0); (1, 0)].
Lemma turn_ex : turn2 vex 1 2 3 = 1 /\ turn2 vex 0 3 2 = 1.
Proof. unfold turn2, vex. cbn [nth fst snd]. split; ring. Qed.
Lemma tiny_1 : tiny < Rabs 1.
Proof. rewrite Rabs_R1. unfold tiny. lra. Qed.
(** A stretched triangle, and a mesh of two triangles turned by a right angle. *)
Example ex_strain_one : let a := [0; -2; 0; 0; 2; 0; 0; 0; 0; 2; 0; 0] in tri_rest a vex 1 2 3 /\ NoDup [1; 2; 3]%nat /\
  let u d := coord a 2 d - coord a 1 d in let w d := coord a 3 d - coord a 1 d in dot u u * dot w w - dot u w * dot u w <> 0.
Proof.
  cbv zeta. split; [|split; [repeat constructor; cbn [In]; lia|]].
  - unfold tri_rest, has. rewrite (proj1 turn_ex). cbn [length vex]. repeat split; try lia. apply tiny_1.
  - unfold dot, coord. rewrite !sum_3. cbn [nth Nat.mul Nat.add]. lra.
Qed.
Example ex_strain_rest : let a := [0; 0; -1; 0; 0; 1; 0; 0; 0; 1; 0; 0] in (length a mod 3 = 0)%nat /\
  forall i0 i1 i2, In (i0, i1, i2) [(1, 2, 3); (0, 3, 2)]%nat -> tri_rest a vex i0 i1 i2 /\ sq3 a i0 i1 = sq2 vex i0 i1 /\ sq3 a i0 i2 = sq2 vex i0 i2 /\ sq3 a i1 i2 = sq2 vex i1 i2.
Proof.
  cbv zeta. split; [reflexivity|]. intros i0 i1 i2 [H|[H|[]]]; injection H as <- <- <-; (split; [unfold tri_rest, has|unfold sq3, sq2, coord, vex; rewrite !sum_3; cbn [nth fst snd Nat.mul Nat.add]; repeat split; ring]).
  - rewrite (proj1 turn_ex). cbn [length vex]. repeat split; try lia. apply tiny_1.
  - rewrite (proj2 turn_ex). cbn [length vex]. repeat split; try lia. apply tiny_1.
Qed.

(** Bending over the edges of a mesh. *)
Theorem C75_bend : forall m v ratio, tri_ok m -> (forall t, (t < length m)%nat -> 0 < turn2 v (V m t 0) (V m t 1) (V m t 2) /\ forall i, (i < 3)%nat -> (V m t i < length v)%nat) ->
  forall a, (forall t i, (t < length m)%nat -> (i < 3)%nat -> has a (V m t i)) -> exists a', PBD_Bend a m v ratio = Some a' /\ kept a a'.
Proof. intros. apply bend_keeps; auto. Qed.
Print Assumptions C75_bend.
Theorem C75_bend_rest : forall m v ratio, tri_ok m -> (forall t, (t < length m)%nat -> 0 < turn2 v (V m t 0) (V m t 1) (V m t 2) /\ forall i, (i < 3)%nat -> (V m t i < length v)%nat) ->
  forall a, (forall t i, (t < length m)%nat -> (i < 3)%nat -> has a (V m t i)) -> forall q fa fb, (length a mod 3 = 0)%nat ->
  (forall t i d, (t < length m)%nat -> (i < 3)%nat -> (d < 3)%nat -> coord a (V m t i) d = q d + fst (nth (V m t i) v (0, 0)) * fa d + snd (nth (V m t i) v (0, 0)) * fb d) -> PBD_Bend a m v ratio = Some a.
Proof. intros. eapply bend_rest; eauto. Qed.
Print Assumptions C75_bend_rest.
(** Two triangles at an edge: the bending vector, the sum of the corners with the cotangent weights of the rest shape, is scaled. *)
Definition two (i0 i1 i2 i3 : nat) : list dtri := [mkT i1 i3 i2 (Some 1%nat) None None; mkT i0 i2 i3 (Some 0%nat) None None].
Definition flat (v : list (R * R)) (l : list nat) : conf := fun i d => nth d [fst (nth (nth i l 0%nat) v (0, 0)); snd (nth (nth i l 0%nat) v (0, 0)); 0] 0.
Lemma bweight_ext : forall P Q, (forall i d, (i < 4)%nat -> (d < 3)%nat -> P i d = Q i d) -> forall i, bweight P i = bweight Q i.
Proof.
  intros P Q H i. assert (CT : forall a b c, (a < 4)%nat -> (b < 4)%nat -> (c < 4)%nat -> cotangent (P a) (P b) (P c) = cotangent (Q a) (Q b) (Q c)).
  { intros a b c A B C. unfold cotangent, norm, dot, crossp, diff. rewrite !sum_3. cbn [nth]. rewrite !(H a), !(H b), !(H c) by lia. reflexivity. }
  unfold bweight. rewrite !CT by lia. reflexivity.
Qed.
Theorem C75_bend_one : forall v i0 i1 i2 i3 a ratio, NoDup [i0; i1; i2; i3] -> 0 < turn2 v i0 i2 i3 -> 0 < turn2 v i1 i3 i2 -> (forall i, In i [i0; i1; i2; i3] -> (i < length v)%nat /\ has a i) ->
  exists a', PBD_Bend a (two i0 i1 i2 i3) v ratio = Some a' /\ kept a a' /\
  forall d, (d < 3)%nat -> sum 4 (fun k => bweight (flat v [i0; i1; i2; i3]) k * coord a' (nth k [i0; i1; i2; i3] 0%nat) d) = (1 - ratio) * sum 4 (fun k => bweight (flat v [i0; i1; i2; i3]) k * coord a (nth k [i0; i1; i2; i3] 0%nat) d).
Proof.
  intros v i0 i1 i2 i3 a ratio ND T0 T1 H. assert (HI : forall i, In i [i0; i1; i2; i3] -> (i < length v)%nat) by (intros i I; apply (H i I)). assert (HA : forall i, In i [i0; i1; i2; i3] -> has a i) by (intros i I; apply (H i I)).
  destruct (bend1_run v i0 i1 i2 i3 T0 T1 HI a HA ratio) as (a' & E & K). exists a'. assert (N23 : (i2 =? i3)%nat = false). { apply Nat.eqb_neq. intros ->. inversion ND as [|? ? _ N1]; subst. inversion N1 as [|? ? _ N2]; subst. inversion N2 as [|? ? N3 _]; subst. apply N3. cbn [In]. auto. }
  split.
  { unfold PBD_Bend, two, FindAdjEdgeIndex. cbv - [Bend1 Nat.eqb]. rewrite N23. rewrite !Nat.eqb_refl. cbn [negb andb]. rewrite E. reflexivity. }
  split; [auto|]. destruct (bend1_lin v i0 i1 i2 i3 T0 T1 HI a HA ratio a' ND E) as (P & p & p' & EP & Ep & Ep' & S). destruct (bend_pre v i0 i1 i2 i3 T0 T1 HI) as (P' & EP' & B & FP). rewrite EP in EP'. injection EP' as <-.
  intros d D. pose proof (S d D) as Q. rewrite !(quad_v P) in Q by auto. set (k := sqrt _) in Q.
  assert (KP : 0 < k) by (apply sqrt_lt_R0; destruct B; apply Rdiv_lt_0_compat; lra).
  apply (Rmult_eq_reg_l k); [|lra]. transitivity (k * sum 4 (fun i => bweight P i * p' i d)).
  - f_equal. apply sum_ext. intros i I. f_equal.
    + apply bweight_ext. intros j e J Ee. destruct (FP j J) as (X & Y & Z). unfold flat. cases3 e Ee; cbn [nth]; auto.
    + destruct (corner_run a' [i0; i1; i2; i3]) as (p2 & Ep2 & Fp2). { intros j J. pose proof (HA j J). pose proof (proj1 K). unfold has in *. lia. } rewrite Ep' in Ep2. injection Ep2 as <-. symmetry. apply Fp2; auto.
  - rewrite Q. transitivity (k * ((1 - ratio) * sum 4 (fun i => bweight P i * p i d))); [ring|]. f_equal. f_equal. apply sum_ext. intros i I. f_equal.
    + symmetry. apply bweight_ext. intros j e J Ee. destruct (FP j J) as (X & Y & Z). unfold flat. cases3 e Ee; cbn [nth]; auto.
    + destruct (corner_run a [i0; i1; i2; i3] HA) as (p2 & Ep2 & Fp2). rewrite Ep in Ep2. injection Ep2 as <-. apply Fp2; auto.
Qed.
Print Assumptions C75_bend_one.
Example ex_bend : let m := two 1 0 2 3 in let a := [0; -1; 1; 0; 1; 0; 0; 0; 0; 1; 0; 0] in tri_ok m /\ (forall t, (t < length m)%nat -> 0 < turn2 vex (V m t 0) (V m t 1) (V m t 2) /\ forall i, (i < 3)%nat -> (V m t i < length vex)%nat) /\
  (forall t i, (t < length m)%nat -> (i < 3)%nat -> has a (V m t i)) /\ NoDup [1; 0; 2; 3]%nat /\ (forall i, In i [1; 0; 2; 3]%nat -> (i < length vex)%nat /\ has a i).
Proof.
  cbv zeta. destruct turn_ex as (T0 & T1). assert (VV : forall t i, (t < 2)%nat -> (i < 3)%nat -> (V (two 1 0 2 3) t i < 4)%nat).
  { intros t i Ht Hi. destruct t as [|[|t]]; [| |lia]; destruct i as [|[|[|i]]]; try lia; vm_compute; lia. }
  split; [|split; [|split; [|split]]].
  - intros t Ht. cbn [length two] in Ht. split; [|split].
    + intros i j I J E. destruct t as [|[|t]]; [| |lia]; destruct i as [|[|[|i]]]; try lia; destruct j as [|[|[|j]]]; try lia; vm_compute in E; lia.
    + intros i j I J E N. destruct t as [|[|t]]; [| |lia]; destruct i as [|[|[|i]]]; try lia; destruct j as [|[|[|j]]]; try lia; vm_compute in E, N; congruence.
    + intros i j I E. destruct t as [|[|t]]; [| |lia]; destruct i as [|[|[|i]]]; try lia; vm_compute in E; try congruence; injection E as <-; (split; [vm_compute; lia|]); exists 0%nat; unfold twin; vm_compute; repeat split; lia.
  - intros t Ht. cbn [length two] in Ht. split; [|intros; apply (VV t i); auto]. destruct t as [|[|t]]; [| |lia].
    + change (0 < turn2 vex 0 3 2). lra.
    + change (0 < turn2 vex 1 2 3). lra.
  - intros t i Ht Hi. pose proof (VV t i Ht Hi). unfold has. cbn [length]. lia.
  - repeat constructor; cbn [In]; lia.
  - intros i [<-|[<-|[<-|[<-|[]]]]]; unfold has, vex; cbn [length]; lia.
Qed.

(** Seams. *)
Theorem C75_seam : forall l a, (forall i j, In (i, j) l -> has a i /\ has a j) -> exists a', PBD_Seam a l = Some a' /\ kept a a'.
Proof. exact seam_keeps. Qed.
Print Assumptions C75_seam.
Theorem C75_seam_one : forall a i j, has a i -> has a j -> i <> j -> exists a', PBD_Seam a [(i, j)] = Some a' /\ length a' = length a /\ gap a' i j = Rmax 0 (gap a i j - 1 / 100) /\
  (forall d, (d < 3)%nat -> coord a' i d + coord a' j d = coord a i d + coord a j d) /\ (forall k d, (d < 3)%nat -> k <> i -> k <> j -> coord a' k d = coord a k d).
Proof.
  intros a i j Hi Hj N. destruct (seam1_run a i j Hi Hj N) as (a' & E & L & EI & EJ & O). exists a'. split; [unfold PBD_Seam; cbn [foldM fst snd]; rewrite E; reflexivity|]. split; [auto|].
  split; [apply seam_gap; auto|]. split; [|auto]. intros d D. rewrite EI, EJ by auto. ring.
Qed.
Print Assumptions C75_seam_one.
Example ex_seam : let a := [0; 0; 0; 1; 0; 0] in has a 0 /\ has a 1 /\ gap a 0 1 = 1.
Proof. cbv zeta. unfold has, gap, sq3, coord. rewrite sum_3. cbn [nth length Nat.mul Nat.add]. split; [lia|]. split; [lia|]. apply sqrt_is; lra. Qed.

(** Clusters in the plane: the sum of all positions stays. *)
Theorem C75_rigid_sum : forall k q n clusters t, (forall l, In l clusters -> l <> [] /\ NoDup l /\ forall i, In i l -> has2 t i /\ has2 q i /\ (i < n)%nat) ->
  exists t', PBD_ConstProj_Rigid2D t k clusters q n = Some t' /\ length t' = length t /\
    sum (length t / 2) (px t') = sum (length t / 2) (px t) /\ sum (length t / 2) (py t') = sum (length t / 2) (py t).
Proof.
  intros k q n clusters t H. apply wp_ex. unfold PBD_ConstProj_Rigid2D.
  apply (wp_foldM _ _ (fun _ b => length b = length t /\ sum (length t / 2) (px b) = sum (length t / 2) (px t) /\ sum (length t / 2) (py b) = sum (length t / 2) (py t))); [auto| |auto].
  intros l1 l l2 b E (L & SX & SY). destruct (H l) as (NE & ND & HH); [rewrite E; apply in_elt|].
  assert (HB : forall i, In i l -> has2 b i /\ has2 q i /\ (i < n)%nat) by (intros i I; destruct (HH i I) as (A & B & C); unfold has2 in *; repeat split; auto; lia).
  assert (HN : forall i, In i l -> (i < length t / 2)%nat). { intros i I. destruct (HH i I) as (A & _). unfold has2 in A. apply Nat.div_le_lower_bound with (a := length t) (q := S i); lia. }
  pose proof (rigid_run k l q n b ND HB) as R. destruct (RotationalComponentOfMatrix2 _) as [[[r0 r1] r2] r3]. destruct R as (b' & Rn & L' & O & I). rewrite Rn. cbn [wp]. split; [lia|]. rewrite <- SX, <- SY. split.
  - apply (rigid_total _ l); auto; [intros i Hi; apply (O i Hi)|]. apply (rigid_sum k r0 r1 (px b) (px b') (px q) (py q) l NE). intros i Hi. apply (I i Hi).
  - apply (rigid_total _ l); auto; [intros i Hi; apply (O i Hi)|]. apply (rigid_sum k r2 r3 (py b) (py b') (px q) (py q) l NE). intros i Hi. apply (I i Hi).
Qed.
Print Assumptions C75_rigid_sum.
(** One cluster: the points go the given part of the way to the best turned copy of the rest shape. *)
Theorem C75_rigid : forall k q n l t, l <> [] -> NoDup l -> (forall i, In i l -> has2 t i /\ has2 q i /\ (i < n)%nat) ->
  regular (moment l (px t) (px q)) (moment l (px t) (py q)) (moment l (py t) (px q)) (moment l (py t) (py q)) ->
  exists t' c s, PBD_ConstProj_Rigid2D t k [l] q n = Some t' /\ length t' = length t /\ c * c + s * s = 1 /\ (forall c' s', c' * c' + s' * s' = 1 -> misfit l t q c s <= misfit l t q c' s') /\
  (forall i, ~ In i l -> px t' i = px t i /\ py t' i = py t i) /\
  (forall i, In i l -> px t' i = (1 - k) * px t i + k * (mean l (px t) + (c * off l (px q) i - s * off l (py q) i)) /\ py t' i = (1 - k) * py t i + k * (mean l (py t) + (s * off l (px q) i + c * off l (py q) i))).
Proof.
  intros k q n l t NE ND HH RG. destruct (rotational _ _ _ _ RG) as (c & s & w & ER & U & W & E1 & E2). pose proof (rigid_run k l q n t ND HH) as R. rewrite ER in R. destruct R as (t' & Rn & L & O & I).
  exists t', c, s. split; [unfold PBD_ConstProj_Rigid2D; cbn [foldM]; rewrite Rn; reflexivity|]. split; [auto|]. split; [auto|]. split; [apply (misfit_least l t q c s w U W E1 E2)|]. split; [auto|].
  intros i Hi. destruct (I i Hi) as (-> & ->). split; ring.
Qed.
Print Assumptions C75_rigid.
(** A turned and shifted copy of the rest shape stays where it is. *)
Theorem C75_rigid_rest : forall k q n l t c0 s0 ox oy, l <> [] -> NoDup l -> (forall i, In i l -> has2 t i /\ has2 q i /\ (i < n)%nat) -> c0 * c0 + s0 * s0 = 1 ->
  (forall i, In i l -> px t i = ox + c0 * px q i - s0 * py q i /\ py t i = oy + s0 * px q i + c0 * py q i) ->
  regular (moment l (px t) (px q)) (moment l (px t) (py q)) (moment l (py t) (px q)) (moment l (py t) (py q)) ->
  exists t', PBD_ConstProj_Rigid2D t k [l] q n = Some t' /\ length t' = length t /\ forall i, px t' i = px t i /\ py t' i = py t i.
Proof.
  intros k q n l t c0 s0 ox oy NE ND HH U0 CP RG. destruct (C75_rigid k q n l t NE ND HH RG) as (t' & c & s & E & L & U & BEST & O & I). exists t'. split; [auto|]. split; [auto|].
  assert (LP : 0 < INR (length l)) by (apply len_pos; auto).
  assert (MX : mean l (px t) = ox + c0 * mean l (px q) - s0 * mean l (py q)).
  { unfold mean. rewrite (lsum_ext l (px t) (fun i => ox + (c0 * px q i + (- s0) * py q i))) by (intros i Hi; rewrite (proj1 (CP i Hi)); ring). rewrite !lsum_plus, !lsum_scale, lsum_const. field. lra. }
  assert (MY : mean l (py t) = oy + s0 * mean l (px q) + c0 * mean l (py q)).
  { unfold mean. rewrite (lsum_ext l (py t) (fun i => oy + (s0 * px q i + c0 * py q i))) by (intros i Hi; rewrite (proj2 (CP i Hi)); ring). rewrite !lsum_plus, !lsum_scale, lsum_const. field. lra. }
  assert (Z0 : misfit l t q c0 s0 = 0).
  { unfold misfit. rewrite (lsum_ext l _ (fun _ => 0)); [rewrite lsum_const; ring|]. intros i Hi. unfold off. rewrite MX, MY. destruct (CP i Hi) as (-> & ->). ring. }
  assert (Z : misfit l t q c s <= 0) by (rewrite <- Z0; apply BEST; auto).
  intros i. destruct (in_dec Nat.eq_dec i l) as [Hi|Hi]; [|apply O; auto]. destruct (I i Hi) as (-> & ->). destruct (misfit_zero l t q c s Z i Hi) as (X & Y). rewrite <- X, <- Y. unfold off. split; ring.
Qed.
Print Assumptions C75_rigid_rest.
(** A rest shape that is higher than wide, turned by a right angle. *)
Definition qex : list R := [-1; -2; 1; -2; 1; 2; -1; 2].
Definition tex : list R := [2; -1; 2; 1; -2; 1; -2; -1].
Definition lex4 : list nat := [0; 1; 2; 3]%nat.
Lemma lex4_ok : lex4 <> [] /\ NoDup lex4 /\ (forall i, In i lex4 -> has2 tex i /\ has2 qex i /\ (i < 4)%nat).
Proof. split; [discriminate|]. split; [unfold lex4; repeat constructor; cbn [In]; lia|]. intros i [<-|[<-|[<-|[<-|[]]]]]; unfold has2, tex, qex; cbn [length]; lia. Qed.
Lemma mean4 : forall f, mean lex4 f = (f 0%nat + f 1%nat + f 2%nat + f 3%nat) / 4.
Proof. intros. unfold mean, lex4, lsum. cbn [fold_right length]. replace (INR 4) with 4 by (cbn [INR]; ring). field. Qed.
Lemma moment4 : forall f g, f 0%nat + f 1%nat + f 2%nat + f 3%nat = 0 -> g 0%nat + g 1%nat + g 2%nat + g 3%nat = 0 -> moment lex4 f g = f 0%nat * g 0%nat + f 1%nat * g 1%nat + f 2%nat * g 2%nat + f 3%nat * g 3%nat.
Proof. intros f g F G. unfold moment, off. rewrite !mean4, F, G. unfold lex4, lsum. cbn [fold_right]. field. Qed.
Ltac xy4 := unfold px, py, tex, qex; cbn [nth Nat.mul Nat.add]; ring.
Example ex_rigid : (forall i, In i lex4 -> px tex i = 0 + 0 * px qex i - 1 * py qex i /\ py tex i = 0 + 1 * px qex i + 0 * py qex i) /\
  regular (moment lex4 (px tex) (px qex)) (moment lex4 (px tex) (py qex)) (moment lex4 (py tex) (px qex)) (moment lex4 (py tex) (py qex)).
Proof.
  split. { intros i [<-|[<-|[<-|[<-|[]]]]]; split; xy4. }
  rewrite !moment4 by xy4. replace (_ + _ + _ + _) with 0 by xy4. 
  replace (px tex 0 * py qex 0 + px tex 1 * py qex 1 + px tex 2 * py qex 2 + px tex 3 * py qex 3) with (-16) by xy4.
  replace (py tex 0 * px qex 0 + py tex 1 * px qex 1 + py tex 2 * px qex 2 + py tex 3 * px qex 3) with 4 by xy4.
  replace (py tex 0 * py qex 0 + py tex 1 * py qex 1 + py tex 2 * py qex 2 + py tex 3 * py qex 3) with 0 by xy4.
  unfold regular, size4. replace (Rabs 0) with 0 by (symmetry; apply Rabs_R0). replace (Rabs (-16)) with 16 by (rewrite Rabs_left; lra). replace (Rabs 4) with 4 by (rewrite Rabs_right; lra). split; [lra|]. split; [lra|]. right. lra.
Qed.
(** A rest shape that is wider than high, at rest: full stiffness moves every point to the centre. *)
Definition wex : list R := [-2; -1; 2; -1; 2; 1; -2; 1].
Ltac zz4 := unfold px, py, wex; cbn [nth Nat.mul Nat.add]; ring.
Theorem C75_rigid_rest_refuted : exists q l n t', l <> [] /\ NoDup l /\ (forall i, In i l -> has2 q i /\ (i < n)%nat) /\ PBD_ConstProj_Rigid2D q 1 [l] q n = Some t' /\
  (exists i, In i l /\ px q i <> mean l (px q)) /\ forall i, In i l -> px t' i = mean l (px q) /\ py t' i = mean l (py q).
Proof.
  assert (OK : forall i, In i lex4 -> has2 wex i /\ has2 wex i /\ (i < 4)%nat) by (intros i [<-|[<-|[<-|[<-|[]]]]]; unfold has2, wex; cbn [length]; lia). destruct lex4_ok as (NE & ND & _).
  pose proof (rigid_run 1 lex4 wex 4 wex ND OK) as R. rewrite !moment4 in R by zz4.
  replace (px wex 0 * px wex 0 + px wex 1 * px wex 1 + px wex 2 * px wex 2 + px wex 3 * px wex 3) with 16 in R by zz4.
  replace (px wex 0 * py wex 0 + px wex 1 * py wex 1 + px wex 2 * py wex 2 + px wex 3 * py wex 3) with 0 in R by zz4.
  replace (py wex 0 * px wex 0 + py wex 1 * px wex 1 + py wex 2 * px wex 2 + py wex 3 * px wex 3) with 0 in R by zz4.
  replace (py wex 0 * py wex 0 + py wex 1 * py wex 1 + py wex 2 * py wex 2 + py wex 3 * py wex 3) with 4 in R by zz4.
  assert (ROT : RotationalComponentOfMatrix2 (16, 0, 0, 4) = (0, 0, 0, 0)).
  { unfold RotationalComponentOfMatrix2. replace (Rabs 16 + Rabs 0 + Rabs 0 + Rabs 4) with 20 by (rewrite Rabs_R0, !Rabs_right; lra). rewrite ltR_f by lra. cbn [gramian2].
    replace (1 / 20 * 16 * (1 / 20 * 16) + 1 / 20 * 0 * (1 / 20 * 0)) with (16 / 25) by field. replace (1 / 20 * 0 * (1 / 20 * 0) + 1 / 20 * 4 * (1 / 20 * 4)) with (1 / 25) by field.
    replace (1 / 20 * 16 * (1 / 20 * 0) + 1 / 20 * 0 * (1 / 20 * 4)) with 0 by field. rewrite ltR_f by (unfold eps20; lra).
    rewrite (sqrt_is ((16 / 25 + 1 / 25) * (16 / 25 + 1 / 25) - 4 * (16 / 25 * (1 / 25) - 0 * 0)) (3 / 5)) by lra. replace (1 / 2 * (16 / 25 + 1 / 25 + 3 / 5)) with (16 / 25) by field. replace (1 / 2 * (16 / 25 + 1 / 25 - 3 / 5)) with (1 / 25) by field.
    replace (1 / 25 - 1 / 25) with 0 by ring. replace (16 / 25 - 16 / 25) with 0 by ring. unfold normal2. rewrite (ltR_f eps20 (0 * 0 + 0 * 0)) by (unfold eps20; assert (0 < / 100000000000000000000) by (apply Rinv_0_lt_compat; lra); lra). cbn [fst snd VLVt2 MatMat2].
    f_equal; [f_equal; [f_equal|]|]; ring. }
  rewrite ROT in R. destruct R as (t' & Rn & L & O & I). exists wex, lex4, 4%nat, t'. split; [auto|]. split; [auto|]. split; [intros i Hi; destruct (OK i Hi) as (A & _ & B); auto|].
  split; [unfold PBD_ConstProj_Rigid2D; cbn [foldM]; rewrite Rn; reflexivity|]. split.
  - exists 0%nat. split; [cbn [lex4 In]; auto|]. rewrite mean4. unfold px, wex. cbn [nth Nat.mul Nat.add]. lra.
  - intros i Hi. destruct (I i Hi) as (-> & ->). split; ring.
Qed.
Print Assumptions C75_rigid_rest_refuted.
(** The rotational component of a matrix: a rotation, times a symmetric matrix, is the matrix; but not for matrices that reverse the orientation. *)
Theorem C75_rotation : forall m0 m1 m2 m3, regular m0 m1 m2 m3 -> exists c s, RotationalComponentOfMatrix2 (m0, m1, m2, m3) = (c, - s, s, c) /\ c * c + s * s = 1 /\
  (c * m1 + s * m3 = - s * m0 + c * m2) /\ 0 < (c * m0 + s * m2) + (- s * m1 + c * m3).
Proof.
  intros m0 m1 m2 m3 RG. destruct (rotational m0 m1 m2 m3 RG) as (c & s & w & E & U & W & E1 & E2). exists c, s. split; [auto|]. split; [auto|]. split.
  - assert (c * (m2 - m1) = s * (m0 + m3)) by (rewrite E1, E2; ring). lra.
  - assert (Q : c * (m0 + m3) + s * (m2 - m1) = w * (c * c + s * s)) by (rewrite E1, E2; ring). rewrite U in Q. lra.
Qed.
Print Assumptions C75_rotation.
Theorem C75_rotation_refuted : RotationalComponentOfMatrix2 (1, 0, 0, -2) = (1, 0, 0, -1).
Proof.
  unfold RotationalComponentOfMatrix2. replace (Rabs 1 + Rabs 0 + Rabs 0 + Rabs (-2)) with 3 by (rewrite Rabs_R0, Rabs_R1, (Rabs_left (-2)); lra). rewrite ltR_f by lra. cbn [gramian2].
  replace (1 / 3 * 1 * (1 / 3 * 1) + 1 / 3 * 0 * (1 / 3 * 0)) with (1 / 9) by field. replace (1 / 3 * 0 * (1 / 3 * 0) + 1 / 3 * -2 * (1 / 3 * -2)) with (4 / 9) by field.
  replace (1 / 3 * 1 * (1 / 3 * 0) + 1 / 3 * 0 * (1 / 3 * -2)) with 0 by field. rewrite ltR_f by (unfold eps20; lra).
  rewrite (sqrt_is ((1 / 9 + 4 / 9) * (1 / 9 + 4 / 9) - 4 * (1 / 9 * (4 / 9) - 0 * 0)) (1 / 3)) by lra. replace (1 / 2 * (1 / 9 + 4 / 9 + 1 / 3)) with (4 / 9) by field. replace (1 / 2 * (1 / 9 + 4 / 9 - 1 / 3)) with (1 / 9) by field.
  unfold normal2. rewrite (ltR_t eps20 (0 * 0 + (4 / 9 - 1 / 9) * (4 / 9 - 1 / 9))), (ltR_t eps20 ((1 / 9 - 4 / 9) * (1 / 9 - 4 / 9) + 0 * 0)) by (unfold eps20; lra). rewrite (sqrt_is (0 * 0 + (4 / 9 - 1 / 9) * (4 / 9 - 1 / 9)) (1 / 3)) by lra. rewrite (sqrt_is ((1 / 9 - 4 / 9) * (1 / 9 - 4 / 9) + 0 * 0) (1 / 3)) by lra. cbn [fst snd].
  rewrite (ltR_f (4 / 9)), (ltR_f (1 / 9)) by (unfold eps20; lra). rewrite (sqrt_is (4 / 9) (2 / 3)) by lra. rewrite (sqrt_is (1 / 9) (1 / 3)) by lra. cbn [VLVt2 MatMat2]. f_equal; [f_equal; [f_equal|]|]; field.
Qed.
Print Assumptions C75_rotation_refuted.
