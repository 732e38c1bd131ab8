(** Linear elasticity: consequences of the weak forms. *)
From Coq Require Import List Arith ZArith Reals Lia Lra Bool.
Import ListNotations.
From Verif Require Import Imp Alg SpModel SpSpec SpProps FemModel FemSpec FemProofs1 FemProofs2 FemProofs3 FemProofs4 FemProofs5 SolidSpec SolidProofs1 SolidProofs2.
Local Open Scope R_scope.

(** ---- work ---- *)
Lemma work_sym : forall d lambda mu G H, work d lambda mu G H = work d lambda mu H G.
Proof.
  intros. unfold work. f_equal; [ring|]. f_equal. apply rsum_ext. intros. apply rsum_ext. intros; ring.
Qed.
Lemma trace_lin : forall d G H c, trace d (fun a k => G a k + c * H a k) = trace d G + c * trace d H.
Proof. intros. unfold trace. rewrite <- rsum_mull, <- rsum_add. apply rsum_ext. intros; ring. Qed.
Lemma work_lin : forall d lambda mu G H F c, work d lambda mu (fun a k => G a k + c * H a k) F = work d lambda mu G F + c * work d lambda mu H F.
Proof.
  intros. unfold work. rewrite trace_lin.
  rewrite (rsum_ext d (fun a => rsum d (fun b => strain (fun a k => G a k + c * H a k) a b * strain F a b))
    (fun a => rsum d (fun b => strain G a b * strain F a b) + c * rsum d (fun b => strain H a b * strain F a b))).
  - rewrite rsum_add, rsum_mull. ring.
  - intros a Ha. rewrite <- rsum_mull, <- rsum_add. apply rsum_ext. intros b Hb. unfold strain. field.
Qed.
Lemma work_strain0 : forall d lambda mu G H, (forall a b, (a < d)%nat -> (b < d)%nat -> strain G a b = 0) -> work d lambda mu G H = 0.
Proof.
  intros d lambda mu G H Z. unfold work. replace (trace d G) with 0.
  - rewrite rsum_zero; [ring|]. intros a Ha. apply rsum_zero. intros b Hb. rewrite Z by auto. ring.
  - symmetry. unfold trace. apply rsum_zero. intros a Ha. specialize (Z a a Ha Ha). unfold strain in Z. lra.
Qed.
(** The elastic energy is a sum of squares. *)
Lemma work_squares : forall tet lambda mu G, let d := ndim tet in
  work d lambda mu G G = (lambda + 2 * mu / INR d) * (trace d G * trace d G) +
    2 * mu * rsum d (fun a => rsum d (fun b => (strain G a b - (if (a =? b)%nat then trace d G / INR d else 0)) * (strain G a b - (if (a =? b)%nat then trace d G / INR d else 0)))).
Proof.
  intros tet lambda mu G d. unfold d, work, trace, strain. destruct tet; cbn [ndim].
  - replace (INR 3) with 3 by (cbn; ring). rsums. cbn [Nat.eqb]. field.
  - replace (INR 2) with 2 by (cbn; ring). rsums. cbn [Nat.eqb]. field.
Qed.
Lemma sq_nonneg : forall n (f : nat -> nat -> R), 0 <= rsum n (fun a => rsum n (fun b => f a b * f a b)).
Proof. intros. apply rsum_nonneg. intros. apply rsum_nonneg. intros. apply Rle_0_sqr. Qed.
Lemma sq_zero : forall n (f : nat -> nat -> R), rsum n (fun a => rsum n (fun b => f a b * f a b)) = 0 -> forall a b, (a < n)%nat -> (b < n)%nat -> f a b = 0.
Proof.
  intros n f E a b Ha Hb.
  pose proof (rsum_nonneg_zero n (fun a => rsum n (fun b => f a b * f a b)) ltac:(intros; apply rsum_nonneg; intros; apply Rle_0_sqr) E a Ha) as E1. cbv beta in E1.
  pose proof (rsum_nonneg_zero n (fun b => f a b * f a b) ltac:(intros; apply Rle_0_sqr) E1 b Hb) as E2. apply Rsqr_0_uniq. exact E2.
Qed.
Lemma INRd_pos : forall tet, 0 < INR (ndim tet). Proof. intros; apply lt_0_INR; destruct tet; cbn; lia. Qed.
Lemma coef : forall tet lambda mu, lambda + 2 * mu / INR (ndim tet) = (INR (ndim tet) * lambda + 2 * mu) * / INR (ndim tet).
Proof. intros. pose proof (INRd_pos tet). field. lra. Qed.
Lemma work_nonneg : forall tet lambda mu G, 0 <= mu -> 0 <= INR (ndim tet) * lambda + 2 * mu -> 0 <= work (ndim tet) lambda mu G G.
Proof.
  intros tet lambda mu G Hm Hl. rewrite work_squares. pose proof (INRd_pos tet). pose proof (Rinv_0_lt_compat _ H).
  apply Rplus_le_le_0_compat.
  - rewrite coef. apply Rmult_le_pos; [apply Rmult_le_pos; lra|apply Rle_0_sqr].
  - apply Rmult_le_pos; [lra|]. apply (sq_nonneg _ (fun a b => strain G a b - (if (a =? b)%nat then trace (ndim tet) G / INR (ndim tet) else 0))).
Qed.
Lemma work_zero : forall tet lambda mu G, 0 < mu -> 0 < INR (ndim tet) * lambda + 2 * mu -> work (ndim tet) lambda mu G G = 0 ->
  forall a b, (a < ndim tet)%nat -> (b < ndim tet)%nat -> strain G a b = 0.
Proof.
  intros tet lambda mu G Hm Hl E a b Ha Hb. rewrite work_squares in E. pose proof (INRd_pos tet). pose proof (Rinv_0_lt_compat _ H).
  set (f := fun a b => strain G a b - (if (a =? b)%nat then trace (ndim tet) G / INR (ndim tet) else 0)) in *.
  pose proof (sq_nonneg (ndim tet) f) as P2. pose proof (Rle_0_sqr (trace (ndim tet) G)) as P1. unfold Rsqr in P1.
  assert (C : 0 < lambda + 2 * mu / INR (ndim tet)) by (rewrite coef; apply Rmult_lt_0_compat; lra).
  assert (E1 : (lambda + 2 * mu / INR (ndim tet)) * (trace (ndim tet) G * trace (ndim tet) G) = 0).
  { assert (0 <= (lambda + 2 * mu / INR (ndim tet)) * (trace (ndim tet) G * trace (ndim tet) G)) by (apply Rmult_le_pos; lra).
    assert (0 <= 2 * mu * rsum (ndim tet) (fun a => rsum (ndim tet) (fun b => f a b * f a b))) by (apply Rmult_le_pos; lra).
    unfold f in *. lra. }
  assert (E2 : 2 * mu * rsum (ndim tet) (fun a => rsum (ndim tet) (fun b => f a b * f a b)) = 0) by (unfold f in *; lra).
  apply Rmult_integral in E1. destruct E1 as [E1|E1]; [lra|]. apply Rsqr_0_uniq in E1.
  apply Rmult_integral in E2. destruct E2 as [E2|E2]; [lra|].
  pose proof (sq_zero _ f E2 a b Ha Hb) as Z. unfold f in Z. rewrite E1 in Z. destruct (a =? b)%nat; unfold Rdiv in Z; lra.
Qed.

(** ---- gradients ---- *)
Lemma vgrad_ex : forall tet X T nT u, (forall e, (e < nT)%nat -> size tet X T e <> 0) -> exists G, vgradients tet X T nT u G.
Proof.
  intros tet X T nT u H. exists (fun e a k => gr (ncor tet) (DD tet (loc (ncor tet) (ndim tet) X T e)) (restr (ncor tet) T e u) a k). intros a Ha e He.
  apply (is_grad_ext _ _ (loc (ncor tet) (ndim tet) X T e)); [intros; apply loc_cmp; auto|]. specialize (H e He). unfold gr, restr, DD.
  destruct tet; cbn [ncor ndim size] in *.
  - apply tet_grad_ex. rewrite tetV_volume. auto.
  - apply tri_grad_ex. rewrite triA_area. auto.
Qed.
Lemma vgrad_lin : forall tet X T nT u v Gu Gv c, vgradients tet X T nT u Gu -> vgradients tet X T nT v Gv ->
  vgradients tet X T nT (fun p k => u p k + c * v p k) (fun e a k => Gu e a k + c * Gv e a k).
Proof. intros tet X T nT u v Gu Gv c Hu Hv a Ha. apply (gradients_lin tet X T nT (fun p => u p a) (fun p => v p a)); auto. Qed.
Lemma vgrad_uniq : forall tet X T nT u G G', (forall e, (e < nT)%nat -> size tet X T e <> 0) -> vgradients tet X T nT u G -> vgradients tet X T nT u G' ->
  forall e a k, (e < nT)%nat -> (a < ndim tet)%nat -> (k < ndim tet)%nat -> G e a k = G' e a k.
Proof. intros. rewrite (grad_gr tet X T nT u G e), (grad_gr tet X T nT u G' e); auto. Qed.
Lemma vgrad_rigid : forall tet X T nT u, rigid (ndim tet) X u -> exists G, vgradients tet X T nT u G /\ forall e a b, (a < ndim tet)%nat -> (b < ndim tet)%nat -> strain (G e) a b = 0.
Proof.
  intros tet X T nT u (t & Wm & Anti & E). exists (fun _ => Wm). split.
  - intros a Ha e He i j Hi Hj. cbv beta. rewrite !E by auto.
    transitivity (rsum (ndim tet) (fun k => Wm a k * cmp (ndim tet) X (nd (ncor tet) T e j) k) - rsum (ndim tet) (fun k => Wm a k * cmp (ndim tet) X (nd (ncor tet) T e i) k)); [|ring].
    rewrite <- rsum_sub. apply rsum_ext. intros; ring.
  - intros e a b Ha Hb. unfold strain. rewrite (Anti a b). field.
Qed.

(** An element without strain whose corners but one do not move. *)
Lemma hold_elem : forall tet X T nT x G e i, (e < nT)%nat -> size tet X T e <> 0 -> vgradients tet X T nT x G ->
  (forall a b, (a < ndim tet)%nat -> (b < ndim tet)%nat -> strain (G e) a b = 0) -> (i < ncor tet)%nat ->
  (forall j a, (j < ncor tet)%nat -> j <> i -> (a < ndim tet)%nat -> x (nd (ncor tet) T e j) a = 0) ->
  forall a, (a < ndim tet)%nat -> x (nd (ncor tet) T e i) a = 0.
Proof.
  intros tet X T nT x G e i He Hs HG Z Hi Hx.
  set (r := if (i =? 0)%nat then 1%nat else 0%nat).
  assert (Hr : (r < ncor tet)%nat /\ r <> i) by (unfold r; destruct (Nat.eqb_spec i 0); destruct tet; cbn; lia). destruct Hr as (Hr & Nr).
  set (c := loc (ncor tet) (ndim tet) X T e). set (d := ndim tet) in *.
  assert (GG : forall a j l, (a < d)%nat -> (j < ncor tet)%nat -> (l < ncor tet)%nat -> rsum d (fun k => G e a k * (c l k - c j k)) = x (nd (ncor tet) T e l) a - x (nd (ncor tet) T e j) a).
  { intros a j l Ha Hj Hl. apply (grad_loc _ _ _ _ _ _ _ e (HG a Ha) He j l Hj Hl). }
  set (y := fun a => x (nd (ncor tet) T e i) a).
  assert (Ey : forall a, (a < d)%nat -> y a = rsum d (fun k => G e a k * (c i k - c r k))) by (intros a Ha; rewrite GG by auto; rewrite (Hx r) by auto; unfold y; ring).
  assert (P : forall l, (l < ncor tet)%nat -> rsum d (fun k => y k * (c l k - c r k)) = - rsum d (fun m => (c i m - c r m) * (x (nd (ncor tet) T e l) m - x (nd (ncor tet) T e r) m))).
  { intros l Hl. transitivity (rsum d (fun k => rsum d (fun m => G e k m * (c i m - c r m) * (c l k - c r k)))).
    - apply rsum_ext. intros k Hk. rewrite Ey by auto. rewrite rsum_mulr. auto.
    - rewrite rsum_swap, <- rsum_opp. apply rsum_ext. intros m Hm. rewrite <- (GG m r l) by auto. rewrite <- rsum_mull, <- rsum_opp. apply rsum_ext. intros k Hk.
      assert (An : G e k m = - G e m k) by (specialize (Z k m Hk Hm); unfold strain in Z; lra). rewrite An. ring. }
  assert (P0 : forall l, (l < ncor tet)%nat -> rsum d (fun k => y k * (c l k - c r k)) = 0).
  { intros l Hl. destruct (Nat.eq_dec l i) as [->|N].
    - assert (E : rsum d (fun m => (c i m - c r m) * (x (nd (ncor tet) T e i) m - x (nd (ncor tet) T e r) m)) = rsum d (fun k => y k * (c i k - c r k))).
      { apply rsum_ext. intros k Hk. rewrite (Hx r) by auto. unfold y. ring. }
      pose proof (P i Hi). lra.
    - rewrite P by auto. rewrite rsum_zero; [ring|]. intros k Hk. rewrite !Hx by auto. ring. }
  assert (IG : is_grad (ncor tet) d c (fun _ => 0) y).
  { intros j l Hj Hl. transitivity (rsum d (fun k => y k * (c l k - c r k)) - rsum d (fun k => y k * (c j k - c r k))).
    - rewrite <- rsum_sub. apply rsum_ext. intros; ring.
    - rewrite !P0 by auto. ring. }
  intros a Ha. change (y a = 0). unfold d, c in *. destruct tet; cbn [ncor ndim size] in *.
  - rewrite <- tetV_volume in Hs. rewrite (tet_grad _ _ _ Hs IG a Ha). apply rsum_zero. intros; ring.
  - rewrite <- triA_area in Hs. rewrite (tri_grad _ _ _ Hs IG a Ha). apply rsum_zero. intros; ring.
Qed.

(** Fixing degrees of freedom. *)
Lemma fixed_form : forall np d (B C : matsp Rcr) bc x, (0 < np)%nat -> (0 < d)%nat -> wf B -> nrowblk B = np -> ncolblk B = np -> nrowdim B = d -> ncoldim B = d ->
  length bc = (np * d)%nat -> SetFixedBC (K := Rcr) B bc = Some C ->
  (forall I a, (I < np)%nat -> (a < d)%nat -> rsum np (fun J => rsum d (fun c => ent C I a J c * x J c)) = 0) ->
  (forall I a, (I < np)%nat -> (a < d)%nat -> nth (I * d + a) bc 0%Z <> 0%Z -> x I a = 0) /\ bilin np d B x x = 0.
Proof.
  intros np d B C bc x Hn Hd WB N1 N2 N3 N4 Lbc HC Hx.
  assert (V : length (val_dia B) <> 0%nat) by (destruct WB as (_ & _ & _ & _ & _ & w6 & _); rewrite w6, N1, N3, N4; nia).
  destruct (C24_SetFixedBC Rcr B bc WB ltac:(split; congruence) V ltac:(rewrite N1, N3; lia)) as (C' & EC & _ & _ & D).
  rewrite EC in HC. injection HC as ->. rewrite N1, N3 in D.
  set (fl := fun I a => negb (nth (I * d + a) bc 0 =? 0)%Z).
  assert (Fl : forall I a, fl I a = true <-> nth (I * d + a) bc 0%Z <> 0%Z) by (intros; unfold fl; destruct (Z.eqb_spec (nth (I * d + a) bc 0%Z) 0%Z); cbn; split; congruence).
  assert (EC1 : forall I a J c, (I < np)%nat -> (a < d)%nat -> (J < np)%nat -> (c < d)%nat ->
     ent C I a J c = if (fl I a || fl J c)%bool then (if ((J =? I) && (c =? a))%bool%nat then 1 else 0) else ent B I a J c).
  { intros I a J c HI Ha HJ Hc. destruct (D I a J c HI HJ ltac:(lia) ltac:(lia)) as (P1 & P2 & P3).
    destruct (fl I a || fl J c)%bool eqn:EF.
    - assert (FF : nth (I * d + a) bc 0%Z <> 0%Z \/ nth (J * d + c) bc 0%Z <> 0%Z) by (apply orb_true_iff in EF; destruct EF as [EF|EF]; [left|right]; apply Fl; auto).
      destruct (Nat.eqb_spec J I) as [EJ|EJ]; [destruct (Nat.eqb_spec c a) as [Ec|Ec]|]; cbn [andb].
      + apply (P1 FF). congruence.
      + apply (P2 FF). subst J. lia.
      + apply (P2 FF). intros H. apply EJ. symmetry. rewrite !(Nat.mul_comm _ d) in H. apply (Nat.div_mod_unique d I J a c) in H; auto. tauto.
    - apply orb_false_iff in EF. destruct EF as (F1 & F2). apply P3; intros Hf; apply Fl in Hf; congruence. }
  assert (X0 : forall I a, (I < np)%nat -> (a < d)%nat -> fl I a = true -> x I a = 0).
  { intros I a HI Ha HF. rewrite <- (Hx I a HI Ha). symmetry.
    transitivity (rsum np (fun J => if (J =? I)%nat then rsum d (fun c => if (c =? a)%nat then x J c else 0) else 0)).
    - apply rsum_ext. intros J HJ. destruct (Nat.eqb_spec J I) as [EJ|EJ].
      + apply rsum_ext. intros c Hc. rewrite EC1 by auto. rewrite HF. cbn [orb]. subst J. rewrite Nat.eqb_refl. cbn [andb]. destruct (c =? a)%nat; ring.
      + apply rsum_zero. intros c Hc. rewrite EC1 by auto. rewrite HF. cbn [orb]. destruct (Nat.eqb_spec J I); [congruence|]. cbn [andb]. ring.
    - rewrite (rsum_pick np I (fun J => rsum d (fun c => if (c =? a)%nat then x J c else 0))) by auto. apply (rsum_pick d a (fun c => x I c)). auto. }
  split; [intros I a HI Ha HF; apply X0; auto; apply Fl; auto|].
  unfold bilin. apply rsum_zero. intros I HI. apply rsum_zero. intros a Ha.
  destruct (fl I a) eqn:EF.
  - apply rsum_zero. intros J HJ. apply rsum_zero. intros c Hc. rewrite (X0 I a) by auto. ring.
  - transitivity (x I a * rsum np (fun J => rsum d (fun c => ent C I a J c * x J c))); [|rewrite Hx by auto; ring].
    rewrite <- rsum_mull. apply rsum_ext. intros J HJ. rewrite <- rsum_mull. apply rsum_ext. intros c Hc. rewrite EC1 by auto. rewrite EF. cbn [orb].
    destruct (fl J c) eqn:EJ; [rewrite (X0 J c) by auto; ring|ring].
Qed.

Section Sys.
Variables (tet : bool) (X : list R) (T : list nat) (nT np : nat).
Hypothesis M : mesh_ok (ncor tet) np T nT.
Hypothesis HS : forall e, (e < nT)%nat -> size tet X T e <> 0.
Notation d := (ndim tet).
Notation m := (size tet X T).

Section Form.
Variables (mu lambda : R) (A B : matsp Rcr).
Hypothesis W : forall u v Gu Gv, vgradients tet X T nT u Gu -> vgradients tet X T nT v Gv ->
  bilin np d B u v = bilin np d A u v + rsum nT (fun e => m e * work d lambda mu (Gu e) (Gv e)).

Lemma sol_sym : forall I a J c, (I < np)%nat -> (J < np)%nat -> (a < d)%nat -> (c < d)%nat -> ent B I a J c - ent A I a J c = ent B J c I a - ent A J c I a.
Proof.
  intros I a J c HI HJ Ha Hc. destruct (vgrad_ex tet X T nT (dl I a) HS) as (Gi & Hi). destruct (vgrad_ex tet X T nT (dl J c) HS) as (Gj & Hj).
  rewrite <- !(bilin_ent np d) by auto. rewrite (W _ _ _ _ Hj Hi), (W _ _ _ _ Hi Hj).
  rewrite (rsum_ext nT (fun e => m e * work d lambda mu (Gj e) (Gi e)) (fun e => m e * work d lambda mu (Gi e) (Gj e))) by (intros; rewrite work_sym; auto). ring.
Qed.
Lemma sol_rigid : forall u, rigid d X u -> forall I a, (I < np)%nat -> (a < d)%nat ->
  rsum np (fun J => rsum d (fun c => ent B I a J c * u J c)) = rsum np (fun J => rsum d (fun c => ent A I a J c * u J c)).
Proof.
  intros u Hr I a HI Ha. destruct (vgrad_rigid tet X T nT u Hr) as (G & HG & Z). destruct (vgrad_ex tet X T nT (dl I a) HS) as (Gi & Hi).
  rewrite <- !bilin_row by auto. rewrite (W _ _ _ _ HG Hi). rewrite rsum_zero; [ring|]. intros e He. rewrite work_strain0 by auto. ring.
Qed.
Lemma sol_psd : forall u, 0 <= mu -> 0 <= INR d * lambda + 2 * mu -> (forall e, (e < nT)%nat -> 0 < m e) -> bilin np d A u u <= bilin np d B u u.
Proof.
  intros u Hm Hl Hs. destruct (vgrad_ex tet X T nT u HS) as (G & HG). rewrite (W _ _ _ _ HG HG).
  assert (0 <= rsum nT (fun e => m e * work d lambda mu (G e) (G e))); [|lra].
  apply rsum_nonneg. intros e He. apply Rmult_le_pos; [left; auto|apply work_nonneg; auto].
Qed.
Lemma sol_kernel : forall u G, (forall I a J c, (I < np)%nat -> (J < np)%nat -> (a < d)%nat -> (c < d)%nat -> ent A I a J c = 0) ->
  0 < mu -> 0 < INR d * lambda + 2 * mu -> (forall e, (e < nT)%nat -> 0 < m e) -> vgradients tet X T nT u G -> bilin np d B u u = 0 ->
  forall e a b, (e < nT)%nat -> (a < d)%nat -> (b < d)%nat -> strain (G e) a b = 0.
Proof.
  intros u G A0 Hm Hl Hs HG E e a b He Ha Hb. rewrite (W _ _ _ _ HG HG), bilin_zero in E by (intros; apply A0; auto).
  assert (P : forall e, (e < nT)%nat -> 0 <= m e * work d lambda mu (G e) (G e)) by (intros e' He'; apply Rmult_le_pos; [left; auto|apply work_nonneg; lra]).
  pose proof (rsum_nonneg_zero nT _ P ltac:(lra) e He) as Z. cbv beta in Z. specialize (Hs e He). apply Rmult_integral in Z. destruct Z as [Z|Z]; [lra|].
  apply (work_zero tet lambda mu); auto.
Qed.
Lemma held_zero : forall x G (fixed : nat -> Prop), vgradients tet X T nT x G -> (forall e a b, (e < nT)%nat -> (a < d)%nat -> (b < d)%nat -> strain (G e) a b = 0) ->
  (forall p a, fixed p -> (a < d)%nat -> x p a = 0) -> forall p, held (ncor tet) T nT fixed p -> forall a, (a < d)%nat -> x p a = 0.
Proof.
  intros x G fixed HG Z HF p H. induction H as [p Hp|e i He Hi Hj IH]; intros a Ha; [auto|].
  apply (hold_elem tet X T nT x G e i); auto.
Qed.
Lemma sol_solvable : forall bc C x, wf B -> nrowblk B = np -> ncolblk B = np -> nrowdim B = d -> ncoldim B = d ->
  (forall I a J c, (I < np)%nat -> (J < np)%nat -> (a < d)%nat -> (c < d)%nat -> ent A I a J c = 0) ->
  0 < mu -> 0 < INR d * lambda + 2 * mu -> (forall e, (e < nT)%nat -> 0 < m e) -> length bc = (np * d)%nat ->
  (forall p, (p < np)%nat -> held (ncor tet) T nT (fun q => (q < np)%nat /\ forall a, (a < d)%nat -> nth (q * d + a) bc 0%Z <> 0%Z) p) ->
  SetFixedBC (K := Rcr) B bc = Some C ->
  (forall I a, (I < np)%nat -> (a < d)%nat -> rsum np (fun J => rsum d (fun c => ent C I a J c * x J c)) = 0) ->
  forall I a, (I < np)%nat -> (a < d)%nat -> x I a = 0.
Proof.
  intros bc C x WB N1 N2 N3 N4 A0 Hm Hl Hs Lbc HH HC Hx I a HI Ha.
  destruct (fixed_form np d B C bc x ltac:(lia) ltac:(lia) WB N1 N2 N3 N4 Lbc HC Hx) as (F & Q).
  destruct (vgrad_ex tet X T nT x HS) as (G & HG). pose proof (sol_kernel x G A0 Hm Hl Hs HG Q) as Z.
  apply (held_zero x G (fun q => (q < np)%nat /\ forall a, (a < d)%nat -> nth (q * d + a) bc 0%Z <> 0%Z) HG Z); auto.
  intros p k (Hp & Hf) Hk. apply F; auto.
Qed.
End Form.

(** Net force and torque of the residual. *)
Lemma sol_balance : forall mu lambda rho g w A b B b' v, static_weak tet X T nT np mu lambda rho g w A b B b' -> rigid d X v ->
  lin np d b' v = lin np d b v + rsum nT (fun e => rho * gravity tet X T e g v).
Proof.
  intros mu lambda rho g w A b B b' v W Hv. destruct (vgrad_rigid tet X T nT v Hv) as (G & HG & Z). destruct (vgrad_ex tet X T nT w HS) as (Gw & Hw).
  destruct (W v v G G Gw HG HG Hw) as (_ & E). rewrite E. f_equal. apply rsum_ext. intros e He. rewrite work_sym, work_strain0 by auto. ring.
Qed.
Lemma sol_newton : forall mu lambda rho g w w2 A b B b' B2 b2 x (free : nat -> nat -> Prop),
  static_weak tet X T nT np mu lambda rho g w A b B b' -> static_weak tet X T nT np mu lambda rho g w2 A b B2 b2 ->
  (forall I a J c, (I < np)%nat -> (J < np)%nat -> (a < d)%nat -> (c < d)%nat -> ent A I a J c = 0) ->
  (forall I a, (I < np)%nat -> (a < d)%nat -> w2 I a = w I a + x I a) ->
  (forall I a, (I < np)%nat -> (a < d)%nat -> free I a -> rsum np (fun J => rsum d (fun c => ent B I a J c * x J c)) = cmp d b' I a) ->
  forall I a, (I < np)%nat -> (a < d)%nat -> free I a -> cmp d b2 I a = 0.
Proof.
  intros mu lambda rho g w w2 A b B b' B2 b2 x free W W2 A0 Hw Hx I a HI Ha HF.
  destruct (vgrad_ex tet X T nT (dl I a) HS) as (Gi & Hi). destruct (vgrad_ex tet X T nT w HS) as (Gw & Gw1). destruct (vgrad_ex tet X T nT x HS) as (Gx & Gx1).
  assert (Gw2 : vgradients tet X T nT w2 (fun e a k => Gw e a k + 1 * Gx e a k)).
  { apply (vgrad_ext tet X T nT np (fun p k => w p k + 1 * x p k)); auto; [intros; rewrite Hw by auto; ring|]. apply vgrad_lin; auto. }
  destruct (W x (dl I a) Gx Gi Gw Gx1 Hi Gw1) as (E1 & E2). destruct (W2 x (dl I a) Gx Gi _ Gx1 Hi Gw2) as (_ & E3).
  rewrite !lin_row in E2, E3 by auto. rewrite bilin_row, bilin_zero, Hx, E2 in E1 by auto.
  rewrite E3. rewrite (rsum_ext nT _ (fun e => (rho * gravity tet X T e g (dl I a) - m e * work d lambda mu (Gw e) (Gi e)) - m e * work d lambda mu (Gx e) (Gi e))).
  - rewrite rsum_sub. lra.
  - intros e He. rewrite work_lin. ring.
Qed.

(** ---- time steps ---- *)
Lemma vmass_lin : forall e u v x c, vmass tet X T e (fun p k => u p k + c * v p k) x = vmass tet X T e u x + c * vmass tet X T e v x.
Proof. intros. unfold vmass. rewrite <- rsum_mull, <- rsum_add. apply rsum_ext. intros a Ha. apply (mass_lin tet X T e (fun p => u p a) (fun p => v p a)). Qed.
Lemma newmark_step : forall mu lambda rho g dt beta w wv wa A b B b' x I a w' Gw' v Gv,
  newmark_weak tet X T nT np mu lambda rho g dt beta w wv wa A b B b' ->
  (forall I a J c, (I < np)%nat -> (J < np)%nat -> (a < d)%nat -> (c < d)%nat -> ent A I a J c = 0) ->
  (I < np)%nat -> (a < d)%nat -> cmp d b I a = 0 ->
  rsum np (fun J => rsum d (fun c => ent B I a J c * x J c)) = cmp d b' I a ->
  (forall p k, v p k = if ((p =? I) && (k =? a))%bool%nat then 1 else 0) -> vgradients tet X T nT v Gv ->
  (forall p k, w' p k = w p k + dt * wv p k + dt * dt * ((1 / 2 - beta) * wa p k + beta * (wa p k + x p k))) -> vgradients tet X T nT w' Gw' ->
  rsum nT (fun e => rho * vmass tet X T e (fun p k => wa p k + x p k) v + m e * work d lambda mu (Gw' e) (Gv e)) = rsum nT (fun e => rho * gravity tet X T e g v).
Proof.
  intros mu lambda rho g dt beta w wv wa A b B b' x I a w' Gw' v Gv W A0 HI Ha Hb Hx Hv HGv Hw' HG'.
  destruct (vgrad_ex tet X T nT x HS) as (Gx & Gx1). destruct (vgrad_ex tet X T nT (fun p k => w p k + dt * wv p k + / 2 * dt * dt * wa p k) HS) as (Gw & Gw1).
  destruct (W x v Gx Gv Gw Gx1 HGv Gw1) as (E1 & E2).
  assert (Ev : forall p k, (p < np)%nat -> (k < d)%nat -> v p k = dl I a p k) by (intros; rewrite Hv; reflexivity).
  rewrite (bilin_ext np d B x x v (dl I a)), bilin_row, bilin_zero, Hx in E1 by (auto; intros; split; auto).
  rewrite !(lin_ext np d _ v (dl I a)), !lin_row, Hb in E2 by auto. rewrite E2 in E1. clear E2 Hx.
  assert (Eg : forall e, (e < nT)%nat -> work d lambda mu (Gw' e) (Gv e) = work d lambda mu (Gw e) (Gv e) + beta * dt * dt * work d lambda mu (Gx e) (Gv e)).
  { intros e He. rewrite <- work_lin. apply work_ext; auto. intros q k Hq Hk.
    apply (vgrad_uniq tet X T nT w' Gw' (fun e a k => Gw e a k + beta * dt * dt * Gx e a k)); auto.
    apply (vgrad_ext tet X T nT np (fun p k => (w p k + dt * wv p k + / 2 * dt * dt * wa p k) + beta * dt * dt * x p k)); auto.
    - intros. rewrite Hw'. field.
    - apply vgrad_lin; auto. }
  rewrite (rsum_ext nT (fun e => rho * vmass tet X T e _ v + _) (fun e => (rho * vmass tet X T e x v + beta * dt * dt * (m e * work d lambda mu (Gx e) (Gv e)))
     + (rho * vmass tet X T e wa v + m e * work d lambda mu (Gw e) (Gv e)))).
  - rewrite rsum_add. rewrite (rsum_ext nT (fun e => _ - _ - _) (fun e => rho * gravity tet X T e g v - (rho * vmass tet X T e wa v + m e * work d lambda mu (Gw e) (Gv e)))) in E1 by (intros; ring).
    rewrite rsum_sub in E1. lra.
  - intros e He. rewrite Eg by auto. replace (vmass tet X T e (fun p k => wa p k + x p k) v) with (vmass tet X T e wa v + 1 * vmass tet X T e x v); [ring|].
    rewrite <- vmass_lin. unfold vmass, mass. apply rsum_ext. intros q Hq. f_equal. f_equal. f_equal; [f_equal|]; apply rsum_ext; intros; ring.
Qed.
Lemma vmass_pos : forall e u, 0 < m e -> 0 <= vmass tet X T e u u /\
  (vmass tet X T e u u = 0 -> forall i a, (i < ncor tet)%nat -> (a < d)%nat -> u (nd (ncor tet) T e i) a = 0).
Proof.
  intros e u Hs. split.
  - apply rsum_nonneg. intros a Ha. apply (mass_pos tet X T e (fun p => u p a) Hs).
  - intros E i a Hi Ha. pose proof (rsum_nonneg_zero d (fun a => mass tet X T e (fun p => u p a) (fun p => u p a)) ltac:(intros; apply (mass_pos tet X T e (fun p => u p i0) Hs)) E a Ha) as Z.
    apply (proj2 (mass_pos tet X T e (fun p => u p a) Hs) Z i Hi).
Qed.
Lemma lumped_pos : forall e u, 0 < m e -> 0 <= lumped tet X T e u u /\
  (lumped tet X T e u u = 0 -> forall i a, (i < ncor tet)%nat -> (a < d)%nat -> u (nd (ncor tet) T e i) a = 0).
Proof.
  intros e u Hs. assert (P : 0 < m e / INR (ncor tet)) by (apply Rdiv_lt_0_compat; auto; apply lt_0_INR; destruct tet; cbn; lia).
  assert (Q : forall i, 0 <= rsum d (fun a => u (nd (ncor tet) T e i) a * u (nd (ncor tet) T e i) a)) by (intros; apply rsum_nonneg; intros; apply Rle_0_sqr).
  unfold lumped. split.
  - apply Rmult_le_pos; [lra|]. apply rsum_nonneg. intros. apply Q.
  - intros E i a Hi Ha. apply Rmult_integral in E. destruct E as [E|E]; [lra|].
    pose proof (rsum_nonneg_zero _ _ (fun i _ => Q i) E i Hi) as E1. cbv beta in E1.
    pose proof (rsum_nonneg_zero d _ ltac:(intros; apply Rle_0_sqr) E1 a Ha) as E2. apply Rsqr_0_uniq. exact E2.
Qed.
Lemma row_zero : forall (B : matsp Rcr) x, (forall I a, (I < np)%nat -> (a < d)%nat -> rsum np (fun J => rsum d (fun c => ent B I a J c * x J c)) = 0) -> bilin np d B x x = 0.
Proof.
  intros B x Hx. unfold bilin. apply rsum_zero. intros I HI. apply rsum_zero. intros a Ha.
  transitivity (x I a * rsum np (fun J => rsum d (fun c => ent B I a J c * x J c))); [|rewrite Hx by auto; ring].
  rewrite <- rsum_mull. apply rsum_ext. intros J HJ. rewrite <- rsum_mull. apply rsum_ext. intros; ring.
Qed.
Lemma newmark_pd : forall mu lambda rho g dt beta w wv wa A b B b' x,
  newmark_weak tet X T nT np mu lambda rho g dt beta w wv wa A b B b' -> (forall e, (e < nT)%nat -> 0 < m e) ->
  (forall I a J c, (I < np)%nat -> (J < np)%nat -> (a < d)%nat -> (c < d)%nat -> ent A I a J c = 0) ->
  0 < rho -> 0 <= mu -> 0 <= INR d * lambda + 2 * mu -> 0 <= beta ->
  (forall p, (p < np)%nat -> exists e i, (e < nT)%nat /\ (i < ncor tet)%nat /\ nd (ncor tet) T e i = p) ->
  (forall I a, (I < np)%nat -> (a < d)%nat -> rsum np (fun J => rsum d (fun c => ent B I a J c * x J c)) = 0) ->
  forall I a, (I < np)%nat -> (a < d)%nat -> x I a = 0.
Proof.
  intros mu lambda rho g dt beta w wv wa A b B b' x W Hs A0 Hr Hm Hl Hbt Cov Hx I a HI Ha.
  destruct (vgrad_ex tet X T nT x HS) as (Gx & Gx1). destruct (vgrad_ex tet X T nT (fun p k => w p k + dt * wv p k + / 2 * dt * dt * wa p k) HS) as (Gw & Gw1).
  destruct (W x x Gx Gx Gw Gx1 Gx1 Gw1) as (E & _). rewrite (row_zero B x Hx), bilin_zero in E by auto.
  assert (P : forall e, (e < nT)%nat -> 0 <= rho * vmass tet X T e x x /\ 0 <= beta * dt * dt * (m e * work d lambda mu (Gx e) (Gx e))).
  { intros e He. split; [apply Rmult_le_pos; [lra|apply (vmass_pos e x (Hs e He))]|]. apply Rmult_le_pos; [rewrite Rmult_assoc; apply Rmult_le_pos; auto; apply Rle_0_sqr|].
    apply Rmult_le_pos; [left; auto|apply work_nonneg; auto]. }
  destruct (Cov I HI) as (e & i & He & Hi & <-).
  pose proof (rsum_nonneg_zero nT (fun e => rho * vmass tet X T e x x + beta * dt * dt * (m e * work d lambda mu (Gx e) (Gx e))) ltac:(intros e' He'; destruct (P e' He'); lra) ltac:(lra) e He) as Z.
  cbv beta in Z. destruct (P e He). assert (Z1 : rho * vmass tet X T e x x = 0) by lra. apply Rmult_integral in Z1. destruct Z1 as [Z1|Z1]; [lra|].
  apply (proj2 (vmass_pos e x (Hs e He)) Z1 i a Hi Ha).
Qed.
Lemma lumped_lin : forall e u v x c, lumped tet X T e (fun p k => u p k + c * v p k) x = lumped tet X T e u x + c * lumped tet X T e v x.
Proof.
  intros. unfold lumped. rewrite (rsum_ext (ncor tet) _ (fun i => rsum d (fun a => u (nd (ncor tet) T e i) a * x (nd (ncor tet) T e i) a) + c * rsum d (fun a => v (nd (ncor tet) T e i) a * x (nd (ncor tet) T e i) a))).
  - rewrite rsum_add, rsum_mull. ring.
  - intros i Hi. rewrite <- rsum_mull, <- rsum_add. apply rsum_ext. intros; ring.
Qed.
Lemma beuler_step : forall mu lambda rho g dt w wv A b B b' x I a w' Gw' v Gv, dt <> 0 ->
  beuler_weak tet X T nT np mu lambda rho g dt w wv A b B b' ->
  (forall I a J c, (I < np)%nat -> (J < np)%nat -> (a < d)%nat -> (c < d)%nat -> ent A I a J c = 0) ->
  (I < np)%nat -> (a < d)%nat -> cmp d b I a = 0 ->
  rsum np (fun J => rsum d (fun c => ent B I a J c * x J c)) = cmp d b' I a ->
  (forall p k, v p k = if ((p =? I) && (k =? a))%bool%nat then 1 else 0) -> vgradients tet X T nT v Gv ->
  (forall p k, w' p k = w p k + dt * (wv p k + x p k)) -> vgradients tet X T nT w' Gw' ->
  rsum nT (fun e => rho * lumped tet X T e (fun p k => x p k / dt) v + m e * work d lambda mu (Gw' e) (Gv e)) = rsum nT (fun e => rho * gravity tet X T e g v).
Proof.
  intros mu lambda rho g dt w wv A b B b' x I a w' Gw' v Gv Hdt W A0 HI Ha Hb Hx Hv HGv Hw' HG'.
  destruct (vgrad_ex tet X T nT x HS) as (Gx & Gx1). destruct (vgrad_ex tet X T nT (fun p k => w p k + dt * wv p k) HS) as (Gw & Gw1).
  destruct (W x v Gx Gv Gw Gx1 HGv Gw1) as (E1 & E2).
  assert (Ev : forall p k, (p < np)%nat -> (k < d)%nat -> v p k = dl I a p k) by (intros; rewrite Hv; reflexivity).
  rewrite (bilin_ext np d B x x v (dl I a)), bilin_row, bilin_zero, Hx in E1 by (auto; intros; split; auto).
  rewrite !(lin_ext np d _ v (dl I a)), !lin_row, Hb in E2 by auto. rewrite E2 in E1. clear E2 Hx.
  assert (Eg : forall e, (e < nT)%nat -> work d lambda mu (Gw' e) (Gv e) = work d lambda mu (Gw e) (Gv e) + dt * work d lambda mu (Gx e) (Gv e)).
  { intros e He. rewrite <- work_lin. apply work_ext; auto. intros q k Hq Hk.
    apply (vgrad_uniq tet X T nT w' Gw' (fun e a k => Gw e a k + dt * Gx e a k)); auto.
    apply (vgrad_ext tet X T nT np (fun p k => (w p k + dt * wv p k) + dt * x p k)); auto.
    - intros. rewrite Hw'. ring.
    - apply vgrad_lin; auto. }
  apply (f_equal (fun t => dt * t)) in E1. rewrite !Rplus_0_l in E1.
  replace (dt * (rsum nT (fun e => rho * gravity tet X T e g v - m e * work d lambda mu (Gw e) (Gv e)) / dt)) with (rsum nT (fun e => rho * gravity tet X T e g v - m e * work d lambda mu (Gw e) (Gv e))) in E1 by (field; auto).
  rewrite rsum_sub in E1.
  rewrite (rsum_ext nT (fun e => rho * lumped tet X T e _ v + _) (fun e => dt * (rho / (dt * dt) * lumped tet X T e x v + m e * work d lambda mu (Gx e) (Gv e)) + m e * work d lambda mu (Gw e) (Gv e))).
  - rewrite rsum_add, rsum_mull. lra.
  - intros e He. rewrite Eg by auto.
    replace (lumped tet X T e (fun p k => x p k / dt) v) with (/ dt * lumped tet X T e x v); [field; auto|].
    unfold lumped. rewrite <- !rsum_mull. apply rsum_ext. intros i Hi. rewrite <- !rsum_mull. apply rsum_ext. intros k Hk. unfold Rdiv. ring.
Qed.
Lemma beuler_pd : forall mu lambda rho g dt w wv A b B b' x, dt <> 0 ->
  beuler_weak tet X T nT np mu lambda rho g dt w wv A b B b' -> (forall e, (e < nT)%nat -> 0 < m e) ->
  (forall I a J c, (I < np)%nat -> (J < np)%nat -> (a < d)%nat -> (c < d)%nat -> ent A I a J c = 0) ->
  0 < rho -> 0 <= mu -> 0 <= INR d * lambda + 2 * mu ->
  (forall p, (p < np)%nat -> exists e i, (e < nT)%nat /\ (i < ncor tet)%nat /\ nd (ncor tet) T e i = p) ->
  (forall I a, (I < np)%nat -> (a < d)%nat -> rsum np (fun J => rsum d (fun c => ent B I a J c * x J c)) = 0) ->
  forall I a, (I < np)%nat -> (a < d)%nat -> x I a = 0.
Proof.
  intros mu lambda rho g dt w wv A b B b' x Hdt W Hs A0 Hr Hm Hl Cov Hx I a HI Ha.
  destruct (vgrad_ex tet X T nT x HS) as (Gx & Gx1). destruct (vgrad_ex tet X T nT (fun p k => w p k + dt * wv p k) HS) as (Gw & Gw1).
  destruct (W x x Gx Gx Gw Gx1 Gx1 Gw1) as (E & _). rewrite (row_zero B x Hx), bilin_zero in E by auto.
  assert (Rp : 0 < rho / (dt * dt)) by (apply Rdiv_lt_0_compat; auto; apply Rsqr_pos_lt; auto).
  assert (P : forall e, (e < nT)%nat -> 0 <= rho / (dt * dt) * lumped tet X T e x x /\ 0 <= m e * work d lambda mu (Gx e) (Gx e)).
  { intros e He. split; [apply Rmult_le_pos; [lra|apply (lumped_pos e x (Hs e He))]|]. apply Rmult_le_pos; [left; auto|apply work_nonneg; auto]. }
  destruct (Cov I HI) as (e & i & He & Hi & <-).
  pose proof (rsum_nonneg_zero nT (fun e => rho / (dt * dt) * lumped tet X T e x x + m e * work d lambda mu (Gx e) (Gx e)) ltac:(intros e' He'; destruct (P e' He'); lra) ltac:(lra) e He) as Z.
  cbv beta in Z. destruct (P e He). assert (Z1 : rho / (dt * dt) * lumped tet X T e x x = 0) by lra. apply Rmult_integral in Z1. destruct Z1 as [Z1|Z1]; [lra|].
  apply (proj2 (lumped_pos e x (Hs e He)) Z1 i a Hi Ha).
Qed.
End Sys.
