(** Triangles that resist strain and pairs of triangles that resist bending. *)
From Coq Require Import List Arith Bool Reals Lra Lia.
Import ListNotations.
From Verif Require Import Imp PrModel QuatModel ProxModel IsecModel GjkProofs1 MeasSpec MeasProofs1 MeasProofs2 EditModel EditProofs1 EnerModel EnerSpec EnerProofs1 EnerProofs4 EnerProofs5 PbdModel PbdSpec PbdProofs1 PbdProofs2.
Open Scope R_scope.

Lemma nth_map_lt : forall A B (f : A -> B) l i d0 d, (i < length l)%nat -> nth i (map f l) d = f (nth i l d0).
Proof. intros A B f l. induction l; intros i d0 d I; cbn [length] in I; [lia|]. destruct i; [reflexivity|]. cbn [map nth]. apply IHl. lia. Qed.
(** Reading the corners. *)
Lemma corner_run : forall a aIP, (forall i, In i aIP -> has a i) -> exists p, corner a aIP = Some p /\ forall i d, (i < length aIP)%nat -> (d < 3)%nat -> p i d = coord a (nth i aIP 0%nat) d.
Proof.
  intros a aIP HV. unfold corner.
  assert (W : wp (foldM (fun ip l => p <- xyz a ip ;; Some (l ++ [[vx p; vy p; vz p]])) aIP []) (fun ps => ps = map (fun ip => [coord a ip 0; coord a ip 1; coord a ip 2]) aIP)).
  { apply (wp_foldM _ _ (fun l ps => ps = map (fun ip => [coord a ip 0; coord a ip 1; coord a ip 2]) l)); auto. intros l1 x l2 s E ->. rewrite xyz_pnt by (apply HV; rewrite E; apply in_elt). cbn [bind wp]. rewrite map_app. cbn [map]. unfold pnt, coord. cbn [vx vy vz]. rewrite Nat.add_0_r. reflexivity. }
  apply wp_ex in W. destruct W as (ps & -> & ->). cbn [bind]. eexists. split; [reflexivity|]. intros i d I D.
  cbv beta. rewrite (nth_map_lt _ _ _ aIP i 0%nat) by auto. cases3 d D; reflexivity.
Qed.
Lemma corner_some : forall a aIP p, corner a aIP = Some p -> forall i, In i aIP -> has a i.
Proof.
  intros a aIP p E. unfold corner in E. destruct (foldM _ aIP []) as [ps|] eqn:F; [clear E p|discriminate].
  assert (G : forall l s r, foldM (fun ip l => p <- xyz a ip ;; Some (l ++ [[vx p; vy p; vz p]])) l s = Some r -> forall i, In i l -> has a i); [|exact (G _ _ _ F)].
  clear. induction l as [|x l]; intros s ps F i I; [destruct I|].
  cbn [foldM] in F. destruct (xyz a x) as [p|] eqn:X; [|discriminate]. cbn [bind] in F. destruct I as [<-|I]; [|eapply IHl; eauto].
  unfold xyz in X. destruct (vget a (x * 3 + 0)); [|discriminate]. cbn [bind] in X. destruct (vget a (x * 3 + 1)); [|discriminate]. cbn [bind] in X. destruct (vget a (x * 3 + 2)) eqn:V; [|discriminate]. apply vget_some in V. unfold has. lia.
Qed.
Lemma rest_run : forall (v : list (R * R)) aIP, (forall i, In i aIP -> (i < length v)%nat) -> exists P, rest v aIP = Some P /\
  forall i, (i < length aIP)%nat -> P i 0%nat = fst (nth (nth i aIP 0%nat) v (0, 0)) /\ P i 1%nat = snd (nth (nth i aIP 0%nat) v (0, 0)) /\ P i 2%nat = 0.
Proof.
  intros v aIP HV. unfold rest.
  assert (W : wp (foldM (fun ip l => p <- vget v ip ;; Some (l ++ [[fst p; snd p; 0]])) aIP []) (fun ps => ps = map (fun ip => [fst (nth ip v (0, 0)); snd (nth ip v (0, 0)); 0]) aIP)).
  { apply (wp_foldM _ _ (fun l ps => ps = map (fun ip => [fst (nth ip v (0, 0)); snd (nth ip v (0, 0)); 0]) l)); auto. intros l1 x l2 s E ->. rewrite (vget_nth _ (0, 0)) by (apply HV; rewrite E; apply in_elt). cbn [bind wp]. rewrite map_app. reflexivity. }
  apply wp_ex in W. destruct W as (ps & -> & ->). cbn [bind]. eexists. split; [reflexivity|]. intros i I.
  cbv beta. rewrite (nth_map_lt _ _ _ aIP i 0%nat) by auto. auto.
Qed.

(** Any projection of constraints whose gradients have sum zero keeps the sum of the positions. *)
Lemma update_keeps : forall a np C dC aIP ratio a', length aIP = np -> (forall i, In i aIP -> has a i) -> (forall k d, (k < 3)%nat -> (d < 3)%nat -> sum np (fun i => dC k i d) = 0) ->
  PBD_Update_Const3 a np (fun _ => 1) C dC aIP ratio = Some a' -> length a' = length a /\ (forall d, (d < 3)%nat -> total a' d = total a d) /\ forall j d, (d < 3)%nat -> ~ In j aIP -> coord a' j d = coord a j d.
Proof.
  intros a np C dC aIP ratio a' LI HV Z E.
  assert (IND : independent np dC).
  { assert (H1 : forall i : nat, (i < np)%nat -> 0 < (fun _ : nat => 1) i) by (intros; lra). destruct (Req_dec (det3 (AA np (fun _ => 1) dC)) 0) as [D|D]; [|apply (AA_det np (fun _ => 1) dC H1); auto].
    exfalso. rewrite update_none in E; [discriminate|auto|]. intro Q. apply (AA_det np (fun _ => 1) dC H1) in Q. contradiction. }
  destruct (update_run a np (fun _ => 1) C dC aIP ratio ltac:(intros; lra) LI HV IND) as (lmd & b & S & E' & L & F). rewrite E' in E. injection E as ->. split; [auto|]. split.
  - intros d D. rewrite (update_total a a' np aIP (fun i d => sum 3 (fun k => ratio * (dC k i d * (1 / 1)) * lmd k)) d LI HV L) by (intros; apply F; auto).
    assert (Q : sum np (fun i => sum 3 (fun k => ratio * (dC k i d * (1 / 1)) * lmd k)) = 0); [|rewrite Q; ring]. rewrite sum_swap. apply sum_zero. intros k K.
    transitivity (ratio * lmd k * sum np (fun i => dC k i d)); [|rewrite Z by auto; ring]. rewrite <- sum_scale. apply sum_ext. intros. field.
  - intros j d D NI. rewrite F by auto. rewrite sum_zero; [ring|]. intros i I. destruct (Nat.eqb_spec (nth i aIP 0%nat) j) as [Q|]; auto. exfalso. apply NI. rewrite <- Q. apply nth_In. lia.
Qed.
Lemma update_rest : forall a np C dC aIP ratio, length aIP = np -> (forall i, In i aIP -> has a i) -> (length a mod 3 = 0)%nat -> independent np dC -> (forall k, (k < 3)%nat -> C k = 0) ->
  PBD_Update_Const3 a np (fun _ => 1) C dC aIP ratio = Some a.
Proof.
  intros a np C dC aIP ratio LI HV M3 IND Z. destruct (update_run a np (fun _ => 1) C dC aIP ratio ltac:(intros; lra) LI HV IND) as (lmd & b & S & E' & L & F). rewrite E'. f_equal.
  assert (LZ : forall k, (k < 3)%nat -> lmd k = 0).
  { apply (AA_det np (fun _ => 1) dC ltac:(intros; lra)) in IND. clear - IND S Z. intros k K.
    pose proof (S 0%nat ltac:(lia)) as E0. pose proof (S 1%nat ltac:(lia)) as E1. pose proof (S 2%nat ltac:(lia)) as E2. rewrite Z, sum_3 in E0, E1, E2 by lia.
    apply (Rmult_eq_reg_l (det3 (AA np (fun _ => 1) dC))); [|exact IND]. rewrite Rmult_0_r. unfold det3. revert E0 E1 E2. set (A := AA np (fun _ => 1) dC).
    generalize (A 0%nat 0%nat) (A 0%nat 1%nat) (A 0%nat 2%nat) (A 1%nat 0%nat) (A 1%nat 1%nat) (A 1%nat 2%nat) (A 2%nat 0%nat) (A 2%nat 1%nat) (A 2%nat 2%nat). intros a b c d e f g h i E0 E1 E2.
    cases3 k K.
    + transitivity ((a * lmd 0%nat + b * lmd 1%nat + c * lmd 2%nat) * (e * i - f * h) + (d * lmd 0%nat + e * lmd 1%nat + f * lmd 2%nat) * (c * h - b * i) + (g * lmd 0%nat + h * lmd 1%nat + i * lmd 2%nat) * (b * f - c * e)); [ring|rewrite E0, E1, E2; ring].
    + transitivity ((a * lmd 0%nat + b * lmd 1%nat + c * lmd 2%nat) * (f * g - d * i) + (d * lmd 0%nat + e * lmd 1%nat + f * lmd 2%nat) * (a * i - c * g) + (g * lmd 0%nat + h * lmd 1%nat + i * lmd 2%nat) * (c * d - a * f)); [ring|rewrite E0, E1, E2; ring].
    + transitivity ((a * lmd 0%nat + b * lmd 1%nat + c * lmd 2%nat) * (d * h - e * g) + (d * lmd 0%nat + e * lmd 1%nat + f * lmd 2%nat) * (b * g - a * h) + (g * lmd 0%nat + h * lmd 1%nat + i * lmd 2%nat) * (a * e - b * d)); [ring|rewrite E0, E1, E2; ring]. }
  apply (list_ext _ 0); [auto|]. intros k K. pose proof (Nat.div_mod k 3 ltac:(lia)) as DM. pose proof (Nat.mod_upper_bound k 3 ltac:(lia)) as UB.
  pose proof (F (k / 3)%nat (k mod 3)%nat UB) as Q. unfold coord in Q. rewrite <- DM in Q. rewrite Q. rewrite sum_zero; [ring|]. intros i I. destruct (_ =? _)%nat; auto. apply sum_zero. intros l LL. rewrite LZ by auto. ring.
Qed.

(** Strain: gradients have sum zero and are without linear relation. *)
Lemma stvk_sum : forall P p k d, (k < 3)%nat -> (d < 3)%nat -> sum 3 (fun i => snd (CdC_StVK P p) k i d) = 0.
Proof. intros. unfold CdC_StVK. destruct (flat_rest P) as [[[[Area Gd0] Gd1] Gu0] Gu1]. cbn [snd]. rewrite sum_3. cbn [nth]. ring. Qed.
Lemma stvk_angular : forall P p k d, (k < 3)%nat -> (d < 3)%nat -> sum 3 (fun i => crossp (p i) (snd (CdC_StVK P p) k i) d) = 0.
Proof.
  intros P p k d K D. unfold CdC_StVK. destruct (flat_rest P) as [[[[Area Gd0] Gd1] Gu0] Gu1]. cbn [snd]. rewrite sum_3. set (G := nth k _ _). generalize (G 0%nat) (G 1%nat) (G 2%nat). intros g0 g1 g2. unfold crossp, vsub. cases3 d D; cbn [nth]; ring.
Qed.
Definition rest_det (P : conf) : R := (P 1%nat 0%nat - P 0%nat 0%nat) * (P 2%nat 1%nat - P 0%nat 1%nat) - (P 2%nat 0%nat - P 0%nat 0%nat) * (P 1%nat 1%nat - P 0%nat 1%nat).
Lemma det2_zero : forall a b c d x y, a * d - b * c <> 0 -> a * x + b * y = 0 -> c * x + d * y = 0 -> x = 0 /\ y = 0.
Proof.
  intros a b c d x y D E0 E1. split; apply (Rmult_eq_reg_l (a * d - b * c)); auto; rewrite Rmult_0_r.
  - transitivity (d * (a * x + b * y) - b * (c * x + d * y)); [ring|rewrite E0, E1; ring].
  - transitivity (a * (c * x + d * y) - c * (a * x + b * y)); [ring|rewrite E0, E1; ring].
Qed.
Lemma gram_zero : forall u v : vec, dot u u * dot v v - dot u v * dot u v <> 0 -> forall x y, (forall d, (d < 3)%nat -> x * u d + y * v d = 0) -> x = 0 /\ y = 0.
Proof.
  intros u v D x y E. pose proof (E 0%nat ltac:(lia)). pose proof (E 1%nat ltac:(lia)). pose proof (E 2%nat ltac:(lia)).
  apply (det2_zero (dot u u) (dot u v) (dot u v) (dot v v)); auto; unfold dot; rewrite !sum_3.
  - transitivity (u 0%nat * (x * u 0%nat + y * v 0%nat) + u 1%nat * (x * u 1%nat + y * v 1%nat) + u 2%nat * (x * u 2%nat + y * v 2%nat)); [ring|rewrite H, H0, H1; ring].
  - transitivity (v 0%nat * (x * u 0%nat + y * v 0%nat) + v 1%nat * (x * u 1%nat + y * v 1%nat) + v 2%nat * (x * u 2%nat + y * v 2%nat)); [ring|rewrite H, H0, H1; ring].
Qed.
Lemma stvk_indep : forall P p, tiny < Rabs (rest_det P) -> let u := diff (p 1%nat) (p 0%nat) in let v := diff (p 2%nat) (p 0%nat) in dot u u * dot v v - dot u v * dot u v <> 0 ->
  independent 3 (snd (CdC_StVK P p)).
Proof.
  intros P p T u v ND w Z. pose proof (flat_metric P T) as F. cbv zeta in F. unfold CdC_StVK in Z. destruct (flat_rest P) as [[[[Area Gd0] Gd1] Gu0] Gu1]. destruct F as (_ & _ & _ & U00 & U01 & _ & U10 & U11 & _).
  cbn [snd] in Z. fold (diff (p 1%nat) (p 0%nat)) in Z. change (vsub (p 1%nat) (p 0%nat)) with u in Z. change (vsub (p 2%nat) (p 0%nat)) with v in Z.
  assert (ND' : rest_det P <> 0) by (intro Q; rewrite Q, Rabs_R0 in T; unfold tiny in T; pose proof near_pos; unfold NEARLY_ZERO in *; lra). unfold rest_det in ND'.
  assert (Z1 : forall d, (d < 3)%nat -> sum 3 (fun k => w k * (fun c i d => nth i [0; nth c [Gu0 0%nat * Gu0 0%nat; Gu0 1%nat * Gu0 1%nat; 2 * Gu0 0%nat * Gu0 1%nat] 0 * u d + nth c [Gu0 0%nat * Gu1 0%nat; Gu0 1%nat * Gu1 1%nat; Gu0 0%nat * Gu1 1%nat + Gu0 1%nat * Gu1 0%nat] 0 * v d] 0) k 1%nat d) = 0).
  { intros d D. pose proof (Z 1%nat d ltac:(lia) D) as Q. rewrite sum_3 in *. cbn [nth] in *. exact Q. }
  assert (Z2 : forall d, (d < 3)%nat -> sum 3 (fun k => w k * (fun c i d => nth i [0; 0; nth c [Gu1 0%nat * Gu1 0%nat; Gu1 1%nat * Gu1 1%nat; 2 * Gu1 0%nat * Gu1 1%nat] 0 * v d + nth c [Gu0 0%nat * Gu1 0%nat; Gu0 1%nat * Gu1 1%nat; Gu0 0%nat * Gu1 1%nat + Gu0 1%nat * Gu1 0%nat] 0 * u d] 0) k 2%nat d) = 0).
  { intros d D. pose proof (Z 2%nat d ltac:(lia) D) as Q. rewrite sum_3 in *. cbn [nth] in *. exact Q. }
  clear Z. revert U00 U01 U10 U11 Z1 Z2. generalize (Gu0 0%nat) (Gu0 1%nat) (Gu1 0%nat) (Gu1 1%nat). intros X0 Y0 X1 Y1 U00 U01 U10 U11 Z1 Z2.
  destruct (gram_zero u v ND (w 0%nat * (X0 * X0) + w 1%nat * (Y0 * Y0) + w 2%nat * (2 * X0 * Y0)) (w 0%nat * (X0 * X1) + w 1%nat * (Y0 * Y1) + w 2%nat * (X0 * Y1 + Y0 * X1))) as (A & E).
  { intros d D. pose proof (Z1 d D) as Q. rewrite sum_3 in Q. cbn [nth] in Q. rewrite <- Q. ring. }
  destruct (gram_zero v u ltac:(intro Q; apply ND; rewrite <- Q; unfold dot; rewrite !sum_3; ring) (w 0%nat * (X1 * X1) + w 1%nat * (Y1 * Y1) + w 2%nat * (2 * X1 * Y1)) (w 0%nat * (X0 * X1) + w 1%nat * (Y0 * Y1) + w 2%nat * (X0 * Y1 + Y0 * X1))) as (B & _).
  { intros d D. pose proof (Z2 d D) as Q. rewrite sum_3 in Q. cbn [nth] in Q. rewrite <- Q. ring. }
  assert (DT : X0 * Y1 - Y0 * X1 <> 0).
  { intro Q. rewrite U00, U01, U10, U11 in Q. enough (1 = 0) by lra. rewrite <- (Rmult_0_r ((P 1%nat 0%nat - P 0%nat 0%nat) * (P 2%nat 1%nat - P 0%nat 1%nat) - (P 2%nat 0%nat - P 0%nat 0%nat) * (P 1%nat 1%nat - P 0%nat 1%nat))), <- Q. field. auto. }
  destruct (det2_zero X0 Y0 X1 Y1 (w 0%nat * X0 + w 2%nat * Y0) (w 2%nat * X0 + w 1%nat * Y0) DT) as (C0 & C1); [rewrite <- A; ring|rewrite <- E; ring|].
  destruct (det2_zero X0 Y0 X1 Y1 (w 0%nat * X1 + w 2%nat * Y1) (w 2%nat * X1 + w 1%nat * Y1) DT) as (C2 & C3); [rewrite <- E; ring|rewrite <- B; ring|].
  destruct (det2_zero X0 Y0 X1 Y1 (w 0%nat) (w 2%nat) DT) as (W0 & W2); [rewrite <- C0; ring|rewrite <- C2; ring|].
  destruct (det2_zero X0 Y0 X1 Y1 (w 2%nat) (w 1%nat) DT) as (_ & W1); [rewrite <- C1; ring|rewrite <- C3; ring|].
  intros k K. cases3 k K; auto.
Qed.
(** No strain at rest. *)
Lemma stvk_rest : forall P p, tiny < Rabs (rest_det P) ->
  let x1 := P 1%nat 0%nat - P 0%nat 0%nat in let y1 := P 1%nat 1%nat - P 0%nat 1%nat in let x2 := P 2%nat 0%nat - P 0%nat 0%nat in let y2 := P 2%nat 1%nat - P 0%nat 1%nat in
  let u := diff (p 1%nat) (p 0%nat) in let v := diff (p 2%nat) (p 0%nat) in dot u u = x1 * x1 + y1 * y1 -> dot v v = x2 * x2 + y2 * y2 -> dot u v = x1 * x2 + y1 * y2 ->
  forall k, (k < 3)%nat -> fst (CdC_StVK P p) k = 0.
Proof.
  intros P p T x1 y1 x2 y2 u v E0 E1 E2 k K. pose proof (flat_metric P T) as F. cbv zeta in F. unfold CdC_StVK. destruct (flat_rest P) as [[[[Area Gd0] Gd1] Gu0] Gu1]. destruct F as (_ & -> & -> & _).
  cbn [fst]. fold x1 y1 x2 y2. change (vsub (p 1%nat) (p 0%nat)) with u. change (vsub (p 2%nat) (p 0%nat)) with v. unfold strain2. cbn [nth].
  change (Dot3 u u) with (u 0%nat * u 0%nat + u 1%nat * u 1%nat + u 2%nat * u 2%nat). change (Dot3 v v) with (v 0%nat * v 0%nat + v 1%nat * v 1%nat + v 2%nat * v 2%nat). change (Dot3 u v) with (u 0%nat * v 0%nat + u 1%nat * v 1%nat + u 2%nat * v 2%nat).
  unfold dot in E0, E1, E2. rewrite sum_3 in E0, E1, E2. rewrite E0, E1, E2. unfold Dot3. cbn [nth]. ring.
Qed.

(** Bending. *)
Lemma quad_dC : forall P p k i d, snd (CdC_QuadBend P p) k i d = if (d =? k)%nat then snd (CdC_QuadBend P p) 0%nat i 0%nat else 0.
Proof. intros. unfold CdC_QuadBend. destruct (bend_K P) as [[[A0 A1] L] K]. cbn [snd Nat.eqb]. reflexivity. Qed.
Lemma quad_sum : forall P p k d, sum 4 (fun i => snd (CdC_QuadBend P p) k i d) = 0.
Proof. intros. unfold CdC_QuadBend, bend_K. cbn [snd]. rewrite sum_4. destruct (d =? k)%nat; [|ring]. cbn [nth]. ring. Qed.
Lemma quad_lin : forall P p q k, (k < 3)%nat -> fst (CdC_QuadBend P q) k = fst (CdC_QuadBend P p) k + power 4 3 (snd (CdC_QuadBend P p) k) (fun i d => q i d - p i d).
Proof.
  intros P p q k K. unfold CdC_QuadBend. destruct (bend_K P) as [[[A0 A1] L] K0]. cbn [fst snd]. unfold power. rewrite sum_4, !sum_3. cases3 k K; cbn [Nat.eqb]; ring.
Qed.
Lemma bweight0 : forall P, bok P -> bweight P 0%nat <> 0.
Proof.
  intros P B E. pose proof (bend_K_w P 0 ltac:(lia) B) as W. unfold bend_K in W. destruct W as (_ & _ & PL & W). rewrite E, Rmult_0_r in W. cbn [nth] in W. destruct B as (B0 & B1). rewrite Area_area in W.
  set (L := Distance3 (P 2%nat) (P 3%nat)) in *. set (A := area (P 0%nat) (P 2%nat) (P 3%nat)) in *.
  assert (LL : L * L = Dot3 (vsub (P 3%nat) (P 2%nat)) (vsub (P 3%nat) (P 2%nat))).
  { unfold L, Distance3, Length3, Dot3. rewrite sqrt_sqrt; auto. pose proof (Rle_0_sqr (vsub (P 3%nat) (P 2%nat) 0%nat)). pose proof (Rle_0_sqr (vsub (P 3%nat) (P 2%nat) 1%nat)). pose proof (Rle_0_sqr (vsub (P 3%nat) (P 2%nat) 2%nat)). unfold Rsqr in *. lra. }
  assert (Q : - (- Dot3 (vsub (P 2%nat) (P 0%nat)) (vsub (P 3%nat) (P 2%nat)) / (2 * A / L)) - Dot3 (vsub (P 3%nat) (P 0%nat)) (vsub (P 3%nat) (P 2%nat)) / (2 * A / L) = - (L * L) / (2 * A / L)).
  { rewrite LL. unfold Dot3, vsub. field. split; lra. }
  rewrite Q in W. assert (L * L / (2 * A / L) = 0) by lra. assert (0 < L * L / (2 * A / L)); [|lra]. apply Rdiv_lt_0_compat; [nra|]. apply Rdiv_lt_0_compat; lra.
Qed.
Lemma quad_indep : forall P p, bok P -> independent 4 (snd (CdC_QuadBend P p)).
Proof.
  intros P p B w Z k K. pose proof (Z 0%nat k ltac:(lia) K) as Q. rewrite sum_3 in Q. rewrite !(quad_dC P p _ 0%nat k) in Q.
  assert (NZ : snd (CdC_QuadBend P p) 0%nat 0%nat 0%nat <> 0).
  { pose proof (bweight0 P B) as N. pose proof (bend_K_w P 0 ltac:(lia) B) as W. unfold CdC_QuadBend. destruct (bend_K P) as [[[A0 A1] L] K0]. destruct W as (-> & -> & PL & W). cbn [snd Nat.eqb]. destruct B as (B0 & B1). rewrite W.
    assert (S : 0 < sqrt (area (P 0%nat) (P 2%nat) (P 3%nat) + area (P 1%nat) (P 3%nat) (P 2%nat))) by (apply sqrt_lt_R0; lra). pose proof (sqrt_lt_R0 3 ltac:(lra)).
    apply Rmult_integral_contrapositive_currified; [apply Rmult_integral_contrapositive_currified; auto; lra|]. apply Rgt_not_eq. apply Rdiv_lt_0_compat; auto. apply Rmult_lt_0_compat; auto. }
  assert (E : w k * snd (CdC_QuadBend P p) 0%nat 0%nat 0%nat = 0) by (rewrite <- Q; cases3 k K; cbn [Nat.eqb]; ring). apply Rmult_integral in E. tauto.
Qed.
