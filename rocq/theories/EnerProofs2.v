(** Springs, lengths of edges and the rod in the plane. *)
From Coq Require Import List Arith Bool Reals Lra Lia.
Import ListNotations.
From Verif Require Import PrModel MeasSpec EnerModel EnerSpec EnerProofs1.
Open Scope R_scope.


Lemma rate_edge : forall n (c : R -> conf) t v i j, moves n 3 c t v -> (i < n)%nat -> (j < n)%nat -> 0 < Length3 (vsub (c t i) (c t j)) ->
  derivable_pt_lim (fun s => Length3 (vsub (c s i) (c s j))) t (Dot3 (vsub (c t i) (c t j)) (vsub (v i) (v j)) / Length3 (vsub (c t i) (c t j))).
Proof.
  intros n c t v i j M I J P. apply (rate_len (fun s => vsub (c s i) (c s j)) (vsub (v i) (v j))); auto.
  intros d D. unfold vsub. pose proof (M i d I D). pose proof (M j d J D). rt.
Qed.
Lemma dist_len : forall a b, dist a b = Length3 (vsub a b).
Proof. intros. unfold dist. rewrite norm_eq. auto. Qed.
Lemma dist_sym : forall a b, Length3 (vsub a b) = Length3 (vsub b a).
Proof. intros. unfold Length3, vsub. f_equal. ring. Qed.
Lemma dist_Distance3 : forall a b, dist a b = Distance3 a b.
Proof. intros. rewrite dist_len. unfold Distance3. apply dist_sym. Qed.
Lemma dist_Distance2 : forall a b, dist_plane a b = Distance2 a b.
Proof. intros. unfold dist_plane, Distance2. f_equal. ring. Qed.

Lemma line_W : forall k L p, fst (fst (WdWddW_SquareLengthLineseg3D k p L)) = k / 2 * (dist (p 0%nat) (p 1%nat) - L) ^ 2.
Proof. intros. rewrite dist_len. cbn [fst snd WdWddW_SquareLengthLineseg3D]. unfold Length3, vsub. field. Qed.
Lemma line_g : forall k L p, 0 < dist (p 0%nat) (p 1%nat) ->
  is_gradient 2 3 (fun q => fst (fst (WdWddW_SquareLengthLineseg3D k q L))) p (snd (fst (WdWddW_SquareLengthLineseg3D k p L))).
Proof.
  intros k L p P c t v <- M. rewrite dist_len in P. pose proof (rate_edge _ _ _ _ 0 1 M ltac:(lia) ltac:(lia) P) as D.
  apply (rate_ext (fun s => 1 / 2 * k * (L - Length3 (vsub (c s 0%nat) (c s 1%nat))) * (L - Length3 (vsub (c s 0%nat) (c s 1%nat))))); [reflexivity|].
  eapply rate_eq; [rt|]. rewrite power_2_3. cbn [fst snd WdWddW_SquareLengthLineseg3D nth].
  change (sqrt _) with (Length3 (vsub (c t 0%nat) (c t 1%nat))). unfold vmul, Dot3, vsub.  set (l := Length3 _) in *. clearbody l. field. lra.
Qed.
Lemma line_h : forall k L p, 0 < dist (p 0%nat) (p 1%nat) ->
  is_jacobian 2 3 (fun q => snd (fst (WdWddW_SquareLengthLineseg3D k q L))) p (snd (WdWddW_SquareLengthLineseg3D k p L)).
Proof.
  intros k L p P i d I J c t v <- M. rewrite dist_len in P. pose proof (rate_edge _ _ _ _ 0 1 M ltac:(lia) ltac:(lia) P) as D.
  rewrite power_2_3.
  assert (X0 := M 0%nat d ltac:(lia) J). assert (X1 := M 1%nat d ltac:(lia) J).
  cases2 i I;
    [apply (rate_ext (fun s => - (L - Length3 (vsub (c s 0%nat) (c s 1%nat))) * k / Length3 (vsub (c s 0%nat) (c s 1%nat)) * (c s 0%nat d - c s 1%nat d)))
    |apply (rate_ext (fun s => (L - Length3 (vsub (c s 0%nat) (c s 1%nat))) * k / Length3 (vsub (c s 0%nat) (c s 1%nat)) * (c s 0%nat d - c s 1%nat d)))]; try reflexivity;
    (eapply rate_eq; [rt; lra|]; cbn [fst snd WdWddW_SquareLengthLineseg3D nth]; change (sqrt _) with (Length3 (vsub (c t 0%nat) (c t 1%nat))); cases3 d J; unfold madd, mscale, mneg, ident, op, Dot3; cbn [Nat.eqb]; unfold vsub; set (l := Length3 _) in *; clearbody l; field; lra).
Qed.
Lemma cline_v : forall L p, fst (CdC_SquareLengthLineseg3D p L) = dist (p 0%nat) (p 1%nat) - L.
Proof. intros. rewrite dist_len. reflexivity. Qed.
Lemma cline_g : forall L p, 0 < dist (p 0%nat) (p 1%nat) -> is_gradient 2 3 (fun q => fst (CdC_SquareLengthLineseg3D q L)) p (snd (CdC_SquareLengthLineseg3D p L)).
Proof.
  intros L p P c t v <- M. rewrite dist_len in P. pose proof (rate_edge _ _ _ _ 0 1 M ltac:(lia) ltac:(lia) P) as D.
  apply (rate_ext (fun s => Length3 (vsub (c s 0%nat) (c s 1%nat)) - L)); [reflexivity|].
  eapply rate_eq; [rt|]. rewrite power_2_3. cbn [fst snd CdC_SquareLengthLineseg3D nth].
  change (sqrt _) with (Length3 (vsub (c t 0%nat) (c t 1%nat))). unfold Dot3, vsub. set (l := Length3 _) in *. clearbody l. field. lra.
Qed.

Lemma tri_v : forall P p k, (k < 3)%nat -> let '(i, j) := tri_ends k in fst (CdC_LengthTriEdges23 P p) k = dist (p i) (p j) - dist_plane (P i) (P j).
Proof. intros P p k K. cases3 k K; cbn [tri_ends nth]; rewrite dist_len, dist_Distance2; reflexivity. Qed.
Lemma tet_v : forall P p k, (k < 6)%nat -> let '(i, j) := tet_ends k in fst (CdC_LengthTetEdges P p) k = dist (p i) (p j) - dist (P i) (P j).
Proof. intros P p k K. destruct k as [|[|[|[|[|[|k]]]]]]; [..|lia]; cbn [tet_ends nth]; rewrite dist_len, dist_Distance3; reflexivity. Qed.
Lemma tri_g : forall P p k, (k < 3)%nat -> (let '(i, j) := tri_ends k in NEARLY_ZERO < dist (p i) (p j)) ->
  is_gradient 3 3 (fun q => fst (CdC_LengthTriEdges23 P q) k) p (snd (CdC_LengthTriEdges23 P p) k).
Proof.
  intros P p k K N c t v <- M. pose proof near_pos. rewrite power_3_3.
  cases3 k K; cbn [tri_ends nth] in N; rewrite dist_len in N;
    (match type of N with _ < Length3 (vsub (c t ?i) (c t ?j)) => pose proof (rate_edge _ _ _ _ i j M ltac:(lia) ltac:(lia) ltac:(lra)) as D;
       apply (rate_ext (fun s => Length3 (vsub (c s i) (c s j)) - Distance2 (P i) (P j))); [reflexivity|] end);
    (eapply rate_eq; [rt|]); cbn [fst snd CdC_LengthTriEdges23 nth]; rewrite !sdivi_big by auto; unfold Dot3, vsub; set (l := Length3 _) in *; clearbody l; field; lra.
Qed.
Lemma tet_g : forall P p k, (k < 6)%nat -> (let '(i, j) := tet_ends k in NEARLY_ZERO < dist (p i) (p j)) ->
  is_gradient 4 3 (fun q => fst (CdC_LengthTetEdges P q) k) p (snd (CdC_LengthTetEdges P p) k).
Proof.
  intros P p k K N c t v <- M. pose proof near_pos. rewrite power_4_3.
  destruct k as [|[|[|[|[|[|k]]]]]]; [..|lia]; cbn [tet_ends nth] in N; rewrite dist_len in N;
    (match type of N with _ < Length3 (vsub (c t ?i) (c t ?j)) => pose proof (rate_edge _ _ _ _ i j M ltac:(lia) ltac:(lia) ltac:(lra)) as D;
       apply (rate_ext (fun s => Length3 (vsub (c s i) (c s j)) - Distance3 (P i) (P j))); [reflexivity|] end);
    (eapply rate_eq; [rt|]); cbn [fst snd CdC_LengthTetEdges nth]; rewrite !sdivi_big by auto; unfold Dot3, vsub; set (l := Length3 _) in *; clearbody l; field; lra.
Qed.

(** The rod in the plane. *)
Lemma rate_dist2 : forall (c : R -> conf) t v i j, moves 3 2 c t v -> (i < 3)%nat -> (j < 3)%nat -> 0 < Distance2 (c t i) (c t j) ->
  derivable_pt_lim (fun s => Distance2 (c s i) (c s j)) t
    (((c t j 0%nat - c t i 0%nat) * (1 / Distance2 (c t i) (c t j))) * (v j 0%nat - v i 0%nat) + ((c t j 1%nat - c t i 1%nat) * (1 / Distance2 (c t i) (c t j))) * (v j 1%nat - v i 1%nat)).
Proof.
  intros c t v i j M I J P. pose proof (M i 0%nat I ltac:(lia)). pose proof (M j 0%nat J ltac:(lia)). pose proof (M i 1%nat I ltac:(lia)). pose proof (M j 1%nat J ltac:(lia)).
  assert (Q : 0 < Distance2 (c t i) (c t j) * Distance2 (c t i) (c t j)) by nra.
  assert (S : Distance2 (c t i) (c t j) * Distance2 (c t i) (c t j) = (c t i 0%nat - c t j 0%nat) * (c t i 0%nat - c t j 0%nat) + (c t i 1%nat - c t j 1%nat) * (c t i 1%nat - c t j 1%nat)) by (unfold Distance2; apply sqrt_sqrt; apply Rplus_le_le_0_compat; apply Rle_0_sqr).
  rewrite S in Q. unfold Distance2 in *. eapply rate_eq; [rt; auto|]. set (l := sqrt _) in *. clearbody l. field. lra.
Qed.
Lemma rate_dir2 : forall (c : R -> conf) t v i j d, moves 3 2 c t v -> (i < 3)%nat -> (j < 3)%nat -> (d < 2)%nat -> 0 < Distance2 (c t i) (c t j) ->
  let F := fun d => (c t j d - c t i d) * (1 / Distance2 (c t i) (c t j)) in
  derivable_pt_lim (fun s => (c s j d - c s i d) * (1 / Distance2 (c s i) (c s j))) t
    ((v j d - v i d - F d * (F 0%nat * (v j 0%nat - v i 0%nat) + F 1%nat * (v j 1%nat - v i 1%nat))) * (1 / Distance2 (c t i) (c t j))).
Proof.
  intros c t v i j d M I J D P F. pose proof (rate_dist2 c t v i j M I J P) as L. pose proof (M i d I D). pose proof (M j d J D).
  eapply rate_eq; [rt; lra|]. unfold F. set (l := Distance2 _ _) in *. clearbody l. field. lra.
Qed.
Definition rod2_ok (p : conf) : Prop :=
  0 < Distance2 (p 0%nat) (p 1%nat) /\ 0 < Distance2 (p 1%nat) (p 2%nat) /\
  let F := fun d => (p 1%nat d - p 0%nat d) * (1 / Distance2 (p 0%nat) (p 1%nat)) in
  let G := fun d => (p 2%nat d - p 1%nat d) * (1 / Distance2 (p 1%nat) (p 2%nat)) in 1 + (F 0%nat * G 0%nat + F 1%nat * G 1%nat) <> 0.
Definition rod2_lets (p : conf) (aL : vec) :=
  rod2_T (Distance2 (p 0%nat) (p 1%nat)) (Distance2 (p 1%nat) (p 2%nat)) (fun d => (p 1%nat d - p 0%nat d) * (1 / Distance2 (p 0%nat) (p 1%nat)))
    (fun d => (p 2%nat d - p 1%nat d) * (1 / Distance2 (p 1%nat) (p 2%nat))) aL.
(** Each of the three terms has its derivative. *)
Lemma rod2_Tg : forall aL p k, (k < 3)%nat -> rod2_ok p -> is_gradient 3 2 (fun q => fst (rod2_lets q aL) k) p (snd (rod2_lets p aL) k).
Proof.
  intros aL p k K (P0 & P1 & N) c t v <- M. rewrite power_3_2.
  pose proof (rate_dist2 c t v 0 1 M ltac:(lia) ltac:(lia) P0) as L0. pose proof (rate_dist2 c t v 1 2 M ltac:(lia) ltac:(lia) P1) as L1.
  pose proof (rate_dir2 c t v 0 1 0 M ltac:(lia) ltac:(lia) ltac:(lia) P0) as F0. pose proof (rate_dir2 c t v 0 1 1 M ltac:(lia) ltac:(lia) ltac:(lia) P0) as F1.
  pose proof (rate_dir2 c t v 1 2 0 M ltac:(lia) ltac:(lia) ltac:(lia) P1) as G0. pose proof (rate_dir2 c t v 1 2 1 M ltac:(lia) ltac:(lia) ltac:(lia) P1) as G1.
  cbv zeta beta in *. unfold rod2_lets, rod2_T.
  cases3 k K; cbn [fst snd nth]; (eapply rate_eq; [rt; auto|]).
  - ring.
  - ring.
  - set (f0 := (c t 1%nat 0%nat - c t 0%nat 0%nat) * _) in *. set (f1 := (c t 1%nat 1%nat - c t 0%nat 1%nat) * _) in *.
    set (g0 := (c t 2%nat 0%nat - c t 1%nat 0%nat) * _) in *. set (g1 := (c t 2%nat 1%nat - c t 1%nat 1%nat) * _) in *.
    clearbody f0 f1 g0 g1. clear L0 L1 F0 F1 G0 G1. set (lF := Distance2 (c t 0%nat) (c t 1%nat)) in *. set (lG := Distance2 (c t 1%nat) (c t 2%nat)) in *. clearbody lF lG.
    field. repeat split; lra.
Qed.
Lemma rod2_g : forall aL k01 k12 kb p, rod2_ok p ->
  is_gradient 3 2 (fun q => fst (fst (WdWddW_Rod2 q aL k01 k12 kb))) p (snd (fst (WdWddW_Rod2 p aL k01 k12 kb))).
Proof.
  intros aL k01 k12 kb p O c t v E M. subst p.
  pose proof (rod2_Tg aL _ 0 ltac:(lia) O c t v eq_refl M) as D0. pose proof (rod2_Tg aL _ 1 ltac:(lia) O c t v eq_refl M) as D1. pose proof (rod2_Tg aL _ 2 ltac:(lia) O c t v eq_refl M) as D2.
  rewrite power_3_2 in *.
  apply (rate_ext (fun s => let T := fst (rod2_lets (c s) aL) in 0 + 1 / 2 * k01 * T 0%nat * T 0%nat + 1 / 2 * k12 * T 1%nat * T 1%nat + 1 / 2 * kb * T 2%nat * T 2%nat)); [reflexivity|].
  change (snd (fst (WdWddW_Rod2 (c t) aL k01 k12 kb))) with (fun i d => 0 + k01 * snd (rod2_lets (c t) aL) 0%nat i d * fst (rod2_lets (c t) aL) 0%nat
    + k12 * snd (rod2_lets (c t) aL) 1%nat i d * fst (rod2_lets (c t) aL) 1%nat + kb * snd (rod2_lets (c t) aL) 2%nat i d * fst (rod2_lets (c t) aL) 2%nat).
  cbv zeta. eapply rate_eq; [rt|]. cbv beta. field.
Qed.
(** The second derivatives are those of the energy if the three terms are zero, and are never indefinite. *)
Lemma rod2_h_form : forall aL k01 k12 kb p v, form 3 2 (snd (WdWddW_Rod2 p aL k01 k12 kb)) v =
  k01 * power 3 2 (snd (rod2_lets p aL) 0%nat) v ^ 2 + k12 * power 3 2 (snd (rod2_lets p aL) 1%nat) v ^ 2 + kb * power 3 2 (snd (rod2_lets p aL) 2%nat) v ^ 2.
Proof.
  intros. change (snd (WdWddW_Rod2 p aL k01 k12 kb)) with (fun i j d e => 0 + k01 * snd (rod2_lets p aL) 0%nat i d * snd (rod2_lets p aL) 0%nat j e
    + k12 * snd (rod2_lets p aL) 1%nat i d * snd (rod2_lets p aL) 1%nat j e + kb * snd (rod2_lets p aL) 2%nat i d * snd (rod2_lets p aL) 2%nat j e).
  set (T := snd (rod2_lets p aL)). clearbody T. unfold form, power. rewrite !sum_3, !sum_2, !sum_3, !sum_2. ring.
Qed.
Lemma rod2_psd : forall aL k01 k12 kb p, 0 <= k01 -> 0 <= k12 -> 0 <= kb -> semidefinite 3 2 (snd (WdWddW_Rod2 p aL k01 k12 kb)) /\ symmetric 3 2 (snd (WdWddW_Rod2 p aL k01 k12 kb)).
Proof.
  intros aL k01 k12 kb p A B C. split.
  - intros v. rewrite rod2_h_form. repeat apply Rplus_le_le_0_compat; apply Rmult_le_pos; auto; apply pow2_ge_0.
  - intros i j d e _ _ _ _. cbn [snd WdWddW_Rod2 rod2_T]. ring.
Qed.
Lemma rod2_dT_ex : forall aL c t v k i d, (k < 3)%nat -> (i < 3)%nat -> (d < 2)%nat -> rod2_ok (c t) -> moves 3 2 c t v ->
  exists r, derivable_pt_lim (fun s => snd (rod2_lets (c s) aL) k i d) t r.
Proof.
  intros aL c t v k i d K I D (P0 & P1 & N) M.
  pose proof (rate_dist2 c t v 0 1 M ltac:(lia) ltac:(lia) P0) as L0. pose proof (rate_dist2 c t v 1 2 M ltac:(lia) ltac:(lia) P1) as L1.
  pose proof (rate_dir2 c t v 0 1 0 M ltac:(lia) ltac:(lia) ltac:(lia) P0) as F0. pose proof (rate_dir2 c t v 0 1 1 M ltac:(lia) ltac:(lia) ltac:(lia) P0) as F1.
  pose proof (rate_dir2 c t v 1 2 0 M ltac:(lia) ltac:(lia) ltac:(lia) P1) as G0. pose proof (rate_dir2 c t v 1 2 1 M ltac:(lia) ltac:(lia) ltac:(lia) P1) as G1.
  cbv zeta beta in *. unfold rod2_lets, rod2_T.
  cases3 k K; cases3 i I; cases2 d D; cbn [fst snd nth]; eexists; rt; try lra; try (intros Z; apply N; nra).
Qed.
Lemma rod2_h : forall aL k01 k12 kb p, rod2_ok p -> (forall k, (k < 3)%nat -> fst (rod2_lets p aL) k = 0) ->
  is_jacobian 3 2 (fun q => snd (fst (WdWddW_Rod2 q aL k01 k12 kb))) p (snd (WdWddW_Rod2 p aL k01 k12 kb)).
Proof.
  intros aL k01 k12 kb p O Z i d I J c t v E M. subst p.
  pose proof (rod2_Tg aL _ 0 ltac:(lia) O c t v eq_refl M) as D0. pose proof (rod2_Tg aL _ 1 ltac:(lia) O c t v eq_refl M) as D1. pose proof (rod2_Tg aL _ 2 ltac:(lia) O c t v eq_refl M) as D2.
  destruct (rod2_dT_ex aL c t v 0 i d ltac:(lia) I J O M) as [r0 R0]. destruct (rod2_dT_ex aL c t v 1 i d ltac:(lia) I J O M) as [r1 R1]. destruct (rod2_dT_ex aL c t v 2 i d ltac:(lia) I J O M) as [r2 R2].
  rewrite power_3_2 in *.
  apply (rate_ext (fun s => let T := fst (rod2_lets (c s) aL) in let dT := fun k => snd (rod2_lets (c s) aL) k i d in 0 + k01 * dT 0%nat * T 0%nat + k12 * dT 1%nat * T 1%nat + kb * dT 2%nat * T 2%nat)); [reflexivity|].
  change (snd (WdWddW_Rod2 (c t) aL k01 k12 kb)) with (fun i j d e => 0 + k01 * snd (rod2_lets (c t) aL) 0%nat i d * snd (rod2_lets (c t) aL) 0%nat j e
    + k12 * snd (rod2_lets (c t) aL) 1%nat i d * snd (rod2_lets (c t) aL) 1%nat j e + kb * snd (rod2_lets (c t) aL) 2%nat i d * snd (rod2_lets (c t) aL) 2%nat j e).
  cbv zeta. eapply rate_eq; [rt|]. cbv beta. rewrite (Z 0%nat), (Z 1%nat), (Z 2%nat) by lia. ring.
Qed.
