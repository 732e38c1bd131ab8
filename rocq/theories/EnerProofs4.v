(** Bending of two triangles: the discrete shell and the quadratic bending energy. *)
From Coq Require Import List Arith Bool Reals Lra Lia.
Import ListNotations.
From Verif Require Import PrModel MeasSpec EnerModel EnerSpec EnerProofs1 EnerProofs2 EnerProofs3.
Open Scope R_scope.

Lemma rate_unit : forall (a : R -> vec) x a', has_rate a x a' -> NEARLY_ZERO < Length3 (a x) ->
  has_rate (fun s d => sdiv (a s d) (Length3 (a s))) x (dir_rate (fun d => sdiv (a x d) (Length3 (a x))) a' (Length3 (a x))).
Proof. intros a x a' A P d D. exact (rate_dir a a' x A P d D). Qed.
Lemma rate_vsub : forall n (c : R -> conf) x v i j, moves n 3 c x v -> (i < n)%nat -> (j < n)%nat -> has_rate (fun s => vsub (c s j) (c s i)) x (vsub (v j) (v i)).
Proof. intros n c x v i j M I J d D. unfold vsub. pose proof (M i d I D). pose proof (M j d J D). rt. Qed.
Lemma rate_dot3 : forall (a b : R -> vec) x a' b', has_rate a x a' -> has_rate b x b' -> derivable_pt_lim (fun s => Dot3 (a s) (b s)) x (Dot3 a' (b x) + Dot3 (a x) b').
Proof. intros a b x a' b' A B. three A. three B. unfold Dot3. eapply rate_eq; [rt|]. ring. Qed.
Lemma Cross_crossp : forall a b d, (d < 3)%nat -> Cross a b d = crossp a b d.
Proof. intros a b d D. cases3 d D; reflexivity. Qed.
Lemma Length3_ext : forall a b, (forall d, (d < 3)%nat -> a d = b d) -> Length3 a = Length3 b.
Proof. intros a b E. rewrite <- !norm_eq. unfold norm, dot. rewrite !sum_3. rewrite !E by lia. auto. Qed.
Lemma len_cross : forall a b, norm (crossp a b) = Length3 (Cross a b).
Proof. intros. rewrite norm_eq. apply Length3_ext. intros d D. symmetry. apply Cross_crossp; auto. Qed.

Definition shell_A (p : conf) : vec := Cross (vsub (p 2%nat) (p 0%nat)) (vsub (p 3%nat) (p 0%nat)).
Definition shell_B (p : conf) : vec := Cross (vsub (p 3%nat) (p 1%nat)) (vsub (p 2%nat) (p 1%nat)).
Lemma shell_g : forall p, NEARLY_ZERO < Length3 (shell_A p) -> NEARLY_ZERO < Length3 (shell_B p) ->
  is_gradient 4 3 (fun q => fst (CdC_DiscreteShell q)) p (snd (CdC_DiscreteShell p)).
Proof.
  intros p PA PB c x v E M. subst p. pose proof near_pos as NZ.
  pose proof (rate_cross _ _ _ _ _ (rate_vsub 4 c x v 0 2 M ltac:(lia) ltac:(lia)) (rate_vsub 4 c x v 0 3 M ltac:(lia) ltac:(lia))) as RA.
  pose proof (rate_cross _ _ _ _ _ (rate_vsub 4 c x v 1 3 M ltac:(lia) ltac:(lia)) (rate_vsub 4 c x v 1 2 M ltac:(lia) ltac:(lia))) as RB.
  pose proof (rate_unit _ _ _ RA PA) as UA. pose proof (rate_unit _ _ _ RB PB) as UB.
  pose proof (rate_dot3 _ _ _ _ _ UA UB) as DD. clear UA UB RA RB.
  pose proof (rate_minus _ _ _ _ _ DD (rate_const 1 x)) as G. clear DD.
  eapply rate_eq; [exact G|]. clear G. rewrite power_4_3. cbn [CdC_DiscreteShell fst snd nth].
  change (Cross (vsub (c x 2%nat) (c x 0%nat)) (vsub (c x 3%nat) (c x 0%nat))) with (shell_A (c x)). change (Cross (vsub (c x 3%nat) (c x 1%nat)) (vsub (c x 2%nat) (c x 1%nat))) with (shell_B (c x)).
  set (lA := Length3 (shell_A (c x))) in *. set (lB := Length3 (shell_B (c x))) in *. clearbody lA lB. set (vA := shell_A (c x)). set (vB := shell_B (c x)). clearbody vA vB.
  unfold dir_rate, Dot3, Cross, vsub. cbn [nth]. field. split; lra.
Qed.
Lemma shell_v : forall p, NEARLY_ZERO < Length3 (shell_A p) -> NEARLY_ZERO < Length3 (shell_B p) ->
  let n0 := crossp (diff (p 2%nat) (p 0%nat)) (diff (p 3%nat) (p 0%nat)) in let n1 := crossp (diff (p 3%nat) (p 1%nat)) (diff (p 2%nat) (p 1%nat)) in
  fst (CdC_DiscreteShell p) = dot n0 n1 / (norm n0 * norm n1) - 1.
Proof.
  intros p PA PB n0 n1. pose proof near_pos as NZ. unfold n0, n1. rewrite !len_cross. rewrite dot_eq.
  change (diff ?a ?b) with (vsub a b). cbn [CdC_DiscreteShell fst].
  change (Cross (vsub (p 2%nat) (p 0%nat)) (vsub (p 3%nat) (p 0%nat))) with (shell_A p). change (Cross (vsub (p 3%nat) (p 1%nat)) (vsub (p 2%nat) (p 1%nat))) with (shell_B p).
  unfold Dot3. rewrite <- !Cross_crossp by lia.
  change (Cross (vsub (p 2%nat) (p 0%nat)) (vsub (p 3%nat) (p 0%nat))) with (shell_A p). change (Cross (vsub (p 3%nat) (p 1%nat)) (vsub (p 2%nat) (p 1%nat))) with (shell_B p).
  rewrite !sdiv_big by auto. field. split; lra.
Qed.

(** Quadratic bending.  The weight of vertex i. *)
Definition bok (P : conf) : Prop := 0 < area (P 0%nat) (P 2%nat) (P 3%nat) /\ 0 < area (P 1%nat) (P 3%nat) (P 2%nat).
Lemma Area_len : forall a b c, Area_Tri3 a b c = Length3 (Cross (vsub b a) (vsub c a)) / 2.
Proof. intros. unfold Area_Tri3, Length3, Cross, vsub. cbn [nth]. f_equal. f_equal. ring. Qed.
Lemma Area_area : forall a b c, Area_Tri3 a b c = area a b c.
Proof. intros. rewrite Area_len. unfold area. rewrite len_cross. reflexivity. Qed.
(** Twice the area in terms of the edges at another corner. *)
Lemma cross_turn : forall a b c, norm (crossp (diff a b) (diff c b)) = 2 * area a b c /\ norm (crossp (diff b c) (diff a c)) = 2 * area a b c.
Proof.
  intros. unfold area, norm. split.
  - replace (dot (crossp (diff b a) (diff c a)) (crossp (diff b a) (diff c a))) with (dot (crossp (diff a b) (diff c b)) (crossp (diff a b) (diff c b))); [field|].
    unfold dot, crossp, diff. rewrite !sum_3. ring.
  - replace (dot (crossp (diff b a) (diff c a)) (crossp (diff b a) (diff c a))) with (dot (crossp (diff b c) (diff a c)) (crossp (diff b c) (diff a c))); [field|].
    unfold dot, crossp, diff. rewrite !sum_3. ring.
Qed.
Lemma area_rot : forall a b c, area a b c = area b c a.
Proof. intros. unfold area, norm. f_equal. f_equal. unfold dot, crossp, diff. rewrite !sum_3. ring. Qed.
Lemma area_flip : forall a b c, area a b c = area a c b.
Proof. intros. unfold area, norm. f_equal. f_equal. unfold dot, crossp, diff. rewrite !sum_3. ring. Qed.
Lemma cot_2 : forall a b c, cotangent b a c = dot (diff a b) (diff c b) / (2 * area a b c).
Proof. intros. unfold cotangent. rewrite (proj1 (cross_turn a b c)). reflexivity. Qed.
Lemma cot_3 : forall a b c, cotangent c b a = dot (diff b c) (diff a c) / (2 * area a b c).
Proof. intros. unfold cotangent. rewrite (proj2 (cross_turn a b c)). reflexivity. Qed.
Lemma edge_pos : forall a b c, 0 < area a b c -> 0 < Distance3 b c.
Proof.
  intros a b c H. rewrite area_rot in H. unfold Distance3. destruct (Rle_lt_or_eq_dec _ _ (Length3_ge (vsub c b))) as [|E]; auto. exfalso.
  assert (Z : Dot3 (vsub c b) (vsub c b) = 0) by (rewrite <- Length3_sqr, <- E; ring). unfold Dot3, vsub in Z.
  assert (forall d, (d < 3)%nat -> c d - b d = 0) as Q.
  { pose proof (Rle_0_sqr (c 0%nat - b 0%nat)) as S0. pose proof (Rle_0_sqr (c 1%nat - b 1%nat)) as S1. pose proof (Rle_0_sqr (c 2%nat - b 2%nat)) as S2. unfold Rsqr in *.
    intros d D; cases3 d D; apply Rsqr_0_uniq; unfold Rsqr; lra. }
  assert (ZZ : dot (crossp (diff c b) (diff a b)) (crossp (diff c b) (diff a b)) = 0) by (unfold dot, crossp, diff; rewrite !sum_3, !Q by lia; ring).
  unfold area, norm in H. rewrite ZZ, sqrt_0 in H. lra.
Qed.
Lemma bend_K_w : forall P i, (i < 4)%nat -> bok P -> let '(A0, A1, L, K) := bend_K P in
  A0 = area (P 0%nat) (P 2%nat) (P 3%nat) /\ A1 = area (P 1%nat) (P 3%nat) (P 2%nat) /\ 0 < L /\ K i = L * bweight P i.
Proof.
  intros P i I (B0 & B1). unfold bend_K. rewrite !Area_area. do 2 (split; [reflexivity|]).
  pose proof (edge_pos _ _ _ B0) as L. split; [auto|]. unfold bweight.
  rewrite (cot_2 (P 0%nat)), (cot_3 (P 0%nat)), (cot_2 (P 1%nat)), (cot_3 (P 1%nat)). rewrite (area_flip (P 1%nat) (P 2%nat) (P 3%nat)).
  set (l := Distance3 _ _) in *. set (a0 := area _ _ _) in *. set (a1 := area (P 1%nat) _ _) in *. clearbody l a0 a1.
  rewrite !dot_eq. unfold Dot3, diff, vsub. cases4 i I; cbn [nth]; field; repeat split; lra.
Qed.
Lemma quad_v : forall P p k, bok P -> fst (CdC_QuadBend P p) k =
  sqrt (3 / (area (P 0%nat) (P 2%nat) (P 3%nat) + area (P 1%nat) (P 3%nat) (P 2%nat))) * sum 4 (fun i => bweight P i * p i k).
Proof.
  intros P p k B. pose proof (bend_K_w P 0 ltac:(lia) B) as K0. pose proof (bend_K_w P 1 ltac:(lia) B) as K1. pose proof (bend_K_w P 2 ltac:(lia) B) as K2. pose proof (bend_K_w P 3 ltac:(lia) B) as K3.
  unfold CdC_QuadBend. destruct (bend_K P) as [[[A0 A1] L] K]. destruct K0 as (EA & EB & PL & K0), K1 as (_ & _ & _ & K1), K2 as (_ & _ & _ & K2), K3 as (_ & _ & _ & K3).
  cbn [fst]. rewrite K0, K1, K2, K3, sum_4. destruct B as (B0 & B1). rewrite <- EA, <- EB in *. rewrite sqrt_div_alt by lra.
  assert (0 < sqrt (A0 + A1)) by (apply sqrt_lt_R0; lra). field. split; lra.
Qed.
Lemma quad_g : forall P p k, (k < 3)%nat -> is_gradient 4 3 (fun q => fst (CdC_QuadBend P q) k) p (snd (CdC_QuadBend P p) k).
Proof.
  intros P p k K c x v E M. unfold CdC_QuadBend. destruct (bend_K P) as [[[A0 A1] L] K0]. cbn [fst snd]. rewrite power_4_3.
  pose proof (M 0%nat k ltac:(lia) K). pose proof (M 1%nat k ltac:(lia) K). pose proof (M 2%nat k ltac:(lia) K). pose proof (M 3%nat k ltac:(lia) K).
  eapply rate_eq; [rt|]. cases3 k K; cbn [Nat.eqb]; ring.
Qed.
Lemma bend_v : forall P p stiff, bok P -> fst (fst (WdWddW_Bend P p stiff)) =
  stiff / (area (P 0%nat) (P 2%nat) (P 3%nat) + area (P 1%nat) (P 3%nat) (P 2%nat)) * sum 3 (fun d => sum 4 (fun i => bweight P i * p i d) ^ 2).
Proof.
  intros P p stiff B. pose proof (bend_K_w P 0 ltac:(lia) B) as K0. pose proof (bend_K_w P 1 ltac:(lia) B) as K1. pose proof (bend_K_w P 2 ltac:(lia) B) as K2. pose proof (bend_K_w P 3 ltac:(lia) B) as K3.
  unfold WdWddW_Bend. destruct (bend_K P) as [[[A0 A1] L] K]. destruct K0 as (EA & EB & PL & K0), K1 as (_ & _ & _ & K1), K2 as (_ & _ & _ & K2), K3 as (_ & _ & _ & K3).
  cbn [fst Nat.eqb]. rewrite K0, K1, K2, K3, sum_3, !sum_4. destruct B as (B0 & B1). rewrite <- EA, <- EB in *.
  field. split; lra.
Qed.
Lemma bend_g : forall P p stiff, is_gradient 4 3 (fun q => fst (fst (WdWddW_Bend P q stiff))) p (fun i d => 2 * snd (fst (WdWddW_Bend P p stiff)) i d).
Proof.
  intros P p stiff c x v E M. subst p. unfold WdWddW_Bend. destruct (bend_K P) as [[[A0 A1] L] K]. cbn [fst snd]. rewrite power_4_3. cbn [Nat.eqb].
  set (q := stiff / _). clearbody q.
  three (fun d => M 0%nat d ltac:(lia)). three (fun d => M 1%nat d ltac:(lia)). three (fun d => M 2%nat d ltac:(lia)). three (fun d => M 3%nat d ltac:(lia)).
  eapply rate_eq; [rt|]. ring.
Qed.
Lemma bend_h : forall P p stiff, is_jacobian 4 3 (fun q => snd (fst (WdWddW_Bend P q stiff))) p (snd (WdWddW_Bend P p stiff)).
Proof.
  intros P p stiff i d I D c x v E M. subst p. unfold WdWddW_Bend. destruct (bend_K P) as [[[A0 A1] L] K]. cbn [fst snd]. rewrite power_4_3.
  set (q := stiff / _). clearbody q.
  three (fun d => M 0%nat d ltac:(lia)). three (fun d => M 1%nat d ltac:(lia)). three (fun d => M 2%nat d ltac:(lia)). three (fun d => M 3%nat d ltac:(lia)).
  eapply rate_eq; [rt|]. ring.
Qed.
Lemma bend_sym : forall P p stiff, symmetric 4 3 (snd (WdWddW_Bend P p stiff)).
Proof.
  intros P p stiff i j d e I J D E. unfold WdWddW_Bend. destruct (bend_K P) as [[[A0 A1] L] K]. cbn [snd]. rewrite (Nat.eqb_sym d e). destruct (Nat.eqb e d); ring.
Qed.
(** A flat rest shape with the two corners on opposite sides of the edge: every image under an affine map is free of bending. *)
Lemma bend_flat : forall P a b (x y : nat -> R) o, bok P -> dot a a = 1 -> dot b b = 1 -> dot a b = 0 ->
  (forall i d, (i < 4)%nat -> (d < 3)%nat -> P i d = o d + x i * a d + y i * b d) ->
  let turn i j k := (x j - x i) * (y k - y i) - (x k - x i) * (y j - y i) in turn 0%nat 2%nat 3%nat * turn 1%nat 2%nat 3%nat < 0 ->
  sum 4 (fun i => bweight P i) = 0 /\ sum 4 (fun i => bweight P i * x i) = 0 /\ sum 4 (fun i => bweight P i * y i) = 0.
Proof.
  intros P a b x y o (B0 & B1) AA BB AB E turn T. split; [rewrite sum_4; unfold bweight; cbn [nth]; ring|].
  assert (DD : forall i j k l, (i < 4)%nat -> (j < 4)%nat -> (k < 4)%nat -> (l < 4)%nat -> dot (diff (P i) (P j)) (diff (P k) (P l)) = (x i - x j) * (x k - x l) + (y i - y j) * (y k - y l)).
  { intros i j k l I J K L. transitivity ((x i - x j) * (x k - x l) * dot a a + (y i - y j) * (y k - y l) * dot b b + ((x i - x j) * (y k - y l) + (y i - y j) * (x k - x l)) * dot a b);
      [|rewrite AA, BB, AB; ring]. unfold dot, diff. rewrite !sum_3, !E by lia. ring. }
  assert (AR : forall i j k, (i < 4)%nat -> (j < 4)%nat -> (k < 4)%nat -> 2 * area (P i) (P j) (P k) = Rabs (turn i j k)).
  { intros i j k I J K. unfold area. rewrite <- sqrt_Rsqr_abs. unfold norm.
    replace (dot (crossp (diff (P j) (P i)) (diff (P k) (P i))) (crossp (diff (P j) (P i)) (diff (P k) (P i)))) with (Rsqr (turn i j k)); [field|].
    transitivity (dot (diff (P j) (P i)) (diff (P j) (P i)) * dot (diff (P k) (P i)) (diff (P k) (P i)) - dot (diff (P j) (P i)) (diff (P k) (P i)) * dot (diff (P j) (P i)) (diff (P k) (P i))).
    - rewrite !DD by lia. unfold Rsqr, turn. ring.
    - unfold dot, crossp, diff. rewrite !sum_3. ring. }
  pose proof (AR 0%nat 2%nat 3%nat ltac:(lia) ltac:(lia) ltac:(lia)) as A0. pose proof (AR 1%nat 2%nat 3%nat ltac:(lia) ltac:(lia) ltac:(lia)) as A1.
  rewrite area_flip in B1. unfold bweight. rewrite !sum_4. cbn [nth].
  rewrite (cot_2 (P 0%nat)), (cot_3 (P 0%nat)), (cot_2 (P 1%nat)), (cot_3 (P 1%nat)). rewrite A0, A1. rewrite !DD by lia.
  clear - T. destruct (Rlt_le_dec (turn 0%nat 2%nat 3%nat) 0) as [N|N].
  - assert (0 < turn 1%nat 2%nat 3%nat) by nra. rewrite (Rabs_left (turn 0%nat 2%nat 3%nat)), (Rabs_right (turn 1%nat 2%nat 3%nat)) by lra. unfold turn in *. split; field; split; lra.
  - assert (turn 1%nat 2%nat 3%nat < 0) by nra. rewrite (Rabs_right (turn 0%nat 2%nat 3%nat)), (Rabs_left (turn 1%nat 2%nat 3%nat)) by nra. unfold turn in *. split; field; split; nra.
Qed.
