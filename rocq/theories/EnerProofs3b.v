From Coq Require Import List Arith Bool Reals Lra Lia.
Import ListNotations.
From Verif Require Import PrModel MeasSpec EnerModel EnerSpec EnerProofs1 EnerProofs2 EnerProofs3.
Open Scope R_scope.

Lemma has_rate_ext : forall f t a b, has_rate f t a -> (forall d, (d < 3)%nat -> a d = b d) -> has_rate f t b.
Proof. intros f t a b H E d D. rewrite <- (E d D). apply H; auto. Qed.
Lemma tan_rate_A : forall c u0 u2 t a b d, c <> 0 -> (d < 3)%nat -> tan_rate c u0 u2 t a b d = mv (A0 c u2 t) a d + mv (A2 c u0 t) b d.
Proof. intros c u0 u2 t a b d N D. cases3 d D; open3; field; auto. Qed.
Lemma grow_power : forall A B D E (t : vec) (v : conf), let e0 := vsub (v 1%nat) (v 0%nat) in let e2 := vsub (v 2%nat) (v 1%nat) in
  power 3 3 (fun i => nth i [vmat (vmat t A) D; (fun d => - (vmat (vmat t A) D d + vmat (vmat t B) E d)); vmat (vmat t B) E] (fun _ => 0)) v =
  t 0%nat * (mv A (fun m => - mv D e0 m) 0%nat + mv B (mv E e2) 0%nat) + t 1%nat * (mv A (fun m => - mv D e0 m) 1%nat + mv B (mv E e2) 1%nat) +
  t 2%nat * (mv A (fun m => - mv D e0 m) 2%nat + mv B (mv E e2) 2%nat).
Proof. intros. rewrite power_3_3. cbn [nth]. unfold mv, vmat, e0, e2, vsub. ring. Qed.

Section Motion.
Variables (c : R -> conf) (x : R) (v : conf).
Hypothesis (M : moves 3 3 c x v) (OK : rod3_ok (c x)).
Let l0 := fun s => Length3 (vsub (c s 1%nat) (c s 0%nat)).
Let l2 := fun s => Length3 (vsub (c s 2%nat) (c s 1%nat)).
Let u0 := fun s : R => (fun d => sdiv (c s 1%nat d - c s 0%nat d) (l0 s)) : vec.
Let u2 := fun s : R => (fun d => sdiv (c s 2%nat d - c s 1%nat d) (l2 s)) : vec.
Let k := fun s => 1 + Dot3 (u0 s) (u2 s).
Let t := fun s : R => (fun d => sdiv (Cross (u0 s) (u2 s) d) (k s)) : vec.
Let e0 := vsub (v 1%nat) (v 0%nat).
Let e2 := vsub (v 2%nat) (v 1%nat).
Let a : vec := fun m => - mv (D0 (l0 x) (u0 x)) e0 m.
Let b : vec := mv (D2 (l2 x) (u2 x)) e2.

Lemma mo_facts : l0 x <> 0 /\ l2 x <> 0 /\ k x <> 0 /\ has_rate u0 x (dir_rate (u0 x) e0 (l0 x)) /\ has_rate u2 x (dir_rate (u2 x) e2 (l2 x)) /\
  has_rate u0 x a /\ has_rate u2 x b /\ derivable_pt_lim l0 x (Dot3 (u0 x) e0) /\ derivable_pt_lim l2 x (Dot3 (u2 x) e2) /\
  derivable_pt_lim k x (Dot3 a (u2 x) + Dot3 (u0 x) b) /\ has_rate t x (tan_rate (k x) (u0 x) (u2 x) (t x) a b).
Proof.
  pose proof near_pos as NZ. destruct OK as (P0 & P2 & PC). cbv zeta in PC.
  change (NEARLY_ZERO < l0 x) in P0. change (NEARLY_ZERO < l2 x) in P2. change (NEARLY_ZERO < k x) in PC.
  destruct (rate_segment c x v 0 1 M ltac:(lia) ltac:(lia) P0) as [U0 L0]. destruct (rate_segment c x v 1 2 M ltac:(lia) ltac:(lia) P2) as [U2 L2].
  change (has_rate u0 x (dir_rate (u0 x) e0 (l0 x))) in U0. change (has_rate u2 x (dir_rate (u2 x) e2 (l2 x))) in U2.
  assert (V0 : has_rate u0 x a) by (eapply has_rate_ext; [exact U0|]; intros d D; apply dir_D0; auto; lra).
  assert (V2 : has_rate u2 x b) by (eapply has_rate_ext; [exact U2|]; intros d D; apply dir_D2; auto; lra).
  do 3 (split; [lra|]). do 4 (split; [assumption|]). split; [exact L0|]. split; [exact L2|]. split; [exact (rate_cos _ _ _ _ _ V0 V2)|]. exact (rate_tan _ _ _ _ _ V0 V2 PC).
Qed.
Lemma mo_W : derivable_pt_lim (fun s => fst (fst (rod3_ddW (l0 s) (l2 s) (k s) (u0 s) (u2 s) (t s)))) x (power 3 3 (grow (l0 x) (l2 x) (k x) (u0 x) (u2 x) (t x)) v).
Proof.
  destruct mo_facts as (N0 & N2 & NK & _ & _ & _ & _ & _ & _ & _ & T). unfold rod3_ddW. cbv zeta. cbn [fst snd]. unfold Dot3.
  unfold grow. cbv zeta. rewrite grow_power. cbv zeta. fold e0 e2. change (fun m => - mv (D0 (l0 x) (u0 x)) e0 m) with a. change (mv (D2 (l2 x) (u2 x)) e2) with b.
  rewrite <- !tan_rate_A by (auto; lia). three T. clearbody t. eapply rate_eq; [rt|]. field.
Qed.
Lemma mo_G : forall i d, (i < 3)%nat -> (d < 3)%nat -> derivable_pt_lim (fun s => grow (l0 s) (l2 s) (k s) (u0 s) (u2 s) (t s) i d) x
  (power 3 3 (fun j f => rows (H00 (l0 x) (k x) (u0 x) (u2 x) (t x)) (H20 (l0 x) (l2 x) (k x) (u0 x) (u2 x) (t x)) (H22 (l2 x) (k x) (u0 x) (u2 x) (t x)) i j d f) v).
Proof.
  intros i d I D. destruct mo_facts as (N0 & N2 & NK & U0 & U2 & V0 & V2 & L0 & L2 & K & T).
  pose proof (rate_X0 _ _ _ _ _ _ _ V2 NK K T) as X0. pose proof (rate_X2 _ _ _ _ _ _ _ V0 NK K T) as X2.
  pose proof (rate_D0 _ _ _ _ _ _ X0 N0 L0 U0 d D) as Y0. pose proof (rate_D2 _ _ _ _ _ _ X2 N2 L2 U2 d D) as Y2. cbv beta in Y0, Y2.
  unfold a, b in Y0, Y2. rewrite sand0 in Y0 by auto. rewrite sand2 in Y2 by auto.
  assert (S0 : sym3 (H00 (l0 x) (k x) (u0 x) (u2 x) (t x))) by (apply sym_sand; [apply sym_T00; auto|apply sym_XX]).
  assert (S2 : sym3 (H22 (l2 x) (k x) (u0 x) (u2 x) (t x))) by (apply sym_sand; [apply sym_T22; auto|apply sym_XX]).
  destruct (rows_apply (H00 (l0 x) (k x) (u0 x) (u2 x) (t x)) (H20 (l0 x) (l2 x) (k x) (u0 x) (u2 x) (t x)) (H22 (l2 x) (k x) (u0 x) (u2 x) (t x)) v d D S0 S2) as (R0 & R1 & R2).
  cases3 i I; unfold grow; cbv zeta; cbn [nth].
  - rewrite R0. exact Y0.
  - rewrite R1. apply rate_opp. exact (rate_plus _ _ _ _ _ Y0 Y2).
  - rewrite R2. exact Y2.
Qed.
End Motion.

Lemma rod3_Wg : forall p, rod3_ok p -> is_gradient 3 3 (fun q => fst (fst (WdWddW_Rod3BendStraight q))) p (snd (fst (WdWddW_Rod3BendStraight p))).
Proof. intros p OK c x v E M. subst p. exact (mo_W c x v M OK). Qed.
Lemma rod3_H : forall p, rod3_ok p -> is_jacobian 3 3 (fun q => snd (fst (WdWddW_Rod3BendStraight q))) p (snd (WdWddW_Rod3BendStraight p)).
Proof. intros p OK i d I D c x v E M. subst p. exact (mo_G c x v M OK i d I D). Qed.
Lemma rod3_sym : forall p, rod3_ok p -> symmetric 3 3 (snd (WdWddW_Rod3BendStraight p)).
Proof.
  intros p (P0 & P2 & PC). pose proof near_pos. cbv zeta in PC. unfold WdWddW_Rod3BendStraight. rewrite rod3_rows. apply rows_sym.
  - apply sym_sand; [apply sym_T00; lra|apply sym_XX].
  - apply sym_sand; [apply sym_T22; lra|apply sym_XX].
Qed.

(** The size of the tangent: u0 and u2 at an angle h give |t| = tan (h/2), so W = tan^2 (h/2) / 2. *)
Lemma rod3_tan : forall (u0 u2 : vec) h, Dot3 u0 u0 = 1 -> Dot3 u2 u2 = 1 -> Dot3 u0 u2 = cos h -> NEARLY_ZERO < 1 + cos h ->
  let t := fun d => sdiv (Cross u0 u2 d) (1 + Dot3 u0 u2) in Dot3 t t = tan (h / 2) * tan (h / 2).
Proof.
  intros u0 u2 h A B C P t. pose proof near_pos. unfold t, Dot3 at 1. rewrite C, !sdiv_big by lra.
  assert (X : Cross u0 u2 0%nat * Cross u0 u2 0%nat + Cross u0 u2 1%nat * Cross u0 u2 1%nat + Cross u0 u2 2%nat * Cross u0 u2 2%nat = 1 - cos h * cos h).
  { rewrite <- C. transitivity (Dot3 u0 u0 * Dot3 u2 u2 - Dot3 u0 u2 * Dot3 u0 u2); [unfold Cross, Dot3; cbn [nth]; ring|]. rewrite A, B. ring. }
  assert (HC : cos h = 2 * cos (h / 2) * cos (h / 2) - 1) by (replace h with (2 * (h / 2)) at 1 by field; apply cos_2a_cos).
  assert (HS : sin (h / 2) * sin (h / 2) = 1 - cos (h / 2) * cos (h / 2)) by (pose proof (sin2_cos2 (h / 2)) as S; unfold Rsqr in S; lra).
  transitivity ((1 - cos h * cos h) / ((1 + cos h) * (1 + cos h))); [rewrite <- X; field; lra|].
  unfold tan. set (q := cos (h / 2)) in *. assert (q <> 0) by (intro Z; rewrite Z in HC; lra).
  transitivity ((1 - q * q) / (q * q)); [rewrite HC; field; split; [|lra]; nra|]. rewrite <- HS. field. auto.
Qed.
Lemma unit_dir : forall w : vec, NEARLY_ZERO < Length3 w -> Dot3 (fun d => sdiv (w d) (Length3 w)) (fun d => sdiv (w d) (Length3 w)) = 1.
Proof.
  intros w L. pose proof near_pos. unfold Dot3. rewrite !sdiv_big by auto. pose proof (Length3_sqr w) as S. unfold Dot3 in S. set (l := Length3 w) in *.
  transitivity ((w 0%nat * w 0%nat + w 1%nat * w 1%nat + w 2%nat * w 2%nat) / (l * l)); [field; lra|rewrite <- S; field; lra].
Qed.
Lemma cosine_eq : forall p, NEARLY_ZERO < dist (p 0%nat) (p 1%nat) -> NEARLY_ZERO < dist (p 1%nat) (p 2%nat) ->
  Dot3 (fun d => sdiv (p 1%nat d - p 0%nat d) (Length3 (vsub (p 1%nat) (p 0%nat)))) (fun d => sdiv (p 2%nat d - p 1%nat d) (Length3 (vsub (p 2%nat) (p 1%nat)))) = cosine p.
Proof.
  intros p P0 P2. pose proof near_pos. unfold cosine. rewrite dot_eq. rewrite !dist_len in *. rewrite (dist_sym (p 0%nat)), (dist_sym (p 1%nat) (p 2%nat)) in *.
  unfold Dot3. rewrite !sdiv_big by auto. unfold diff. field. split; lra.
Qed.
Lemma rod3_ok_of : forall p, NEARLY_ZERO < dist (p 0%nat) (p 1%nat) -> NEARLY_ZERO < dist (p 1%nat) (p 2%nat) -> NEARLY_ZERO < 1 + cosine p -> rod3_ok p.
Proof.
  intros p P0 P2 C. pose proof (cosine_eq p P0 P2) as E. rewrite !dist_len in *. rewrite (dist_sym (p 0%nat)), (dist_sym (p 1%nat) (p 2%nat)) in *.
  split; [auto|]. split; [auto|]. cbv zeta. rewrite E. auto.
Qed.
Lemma rod3_value : forall p h, NEARLY_ZERO < dist (p 0%nat) (p 1%nat) -> NEARLY_ZERO < dist (p 1%nat) (p 2%nat) -> NEARLY_ZERO < 1 + cosine p -> cosine p = cos h ->
  dot (fst (CdC_Rod3BendStraight p)) (fst (CdC_Rod3BendStraight p)) = tan (h / 2) ^ 2 /\
  fst (fst (WdWddW_Rod3BendStraight p)) = tan (h / 2) ^ 2 / 2.
Proof.
  intros p h P0 P2 PC E. pose proof near_pos as NZ. pose proof (cosine_eq p P0 P2) as EQ.
  rewrite !dist_len in *. rewrite (dist_sym (p 0%nat)), (dist_sym (p 1%nat) (p 2%nat)) in *.
  pose proof (unit_dir (vsub (p 1%nat) (p 0%nat)) P0) as U0. pose proof (unit_dir (vsub (p 2%nat) (p 1%nat)) P2) as U2.
  change (fun d => sdiv (vsub (p 1%nat) (p 0%nat) d) (Length3 (vsub (p 1%nat) (p 0%nat)))) with (fun d => sdiv (p 1%nat d - p 0%nat d) (Length3 (vsub (p 1%nat) (p 0%nat)))) in U0.
  change (fun d => sdiv (vsub (p 2%nat) (p 1%nat) d) (Length3 (vsub (p 2%nat) (p 1%nat)))) with (fun d => sdiv (p 2%nat d - p 1%nat d) (Length3 (vsub (p 2%nat) (p 1%nat)))) in U2.
  set (u0 := fun d => sdiv (p 1%nat d - p 0%nat d) (Length3 (vsub (p 1%nat) (p 0%nat)))) in *.
  set (u2 := fun d => sdiv (p 2%nat d - p 1%nat d) (Length3 (vsub (p 2%nat) (p 1%nat)))) in *.
  assert (T : Dot3 (fun d => sdiv (Cross u0 u2 d) (1 + Dot3 u0 u2)) (fun d => sdiv (Cross u0 u2 d) (1 + Dot3 u0 u2)) = tan (h / 2) * tan (h / 2)).
  { apply rod3_tan; auto; [congruence|rewrite <- E; auto]. }
  split.
  - rewrite dot_eq. transitivity (tan (h / 2) * tan (h / 2)); [exact T|ring].
  - unfold WdWddW_Rod3BendStraight, rod3_ddW. cbv zeta. cbn [fst snd].
    transitivity (1 / 2 * Dot3 (fun d => sdiv (Cross u0 u2 d) (1 + Dot3 u0 u2)) (fun d => sdiv (Cross u0 u2 d) (1 + Dot3 u0 u2))); [reflexivity|]. rewrite T. field.
Qed.
