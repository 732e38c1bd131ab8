(** Consequences: symmetry, kernels, solvability, Newton step, patch test. *)
From Coq Require Import List Arith ZArith Reals Lia Lra Bool.
Import ListNotations.
From Verif Require Import Imp Alg SpModel SpSpec SpProps FemModel FemSpec FemProofs1 FemProofs2 FemProofs3.
Local Open Scope R_scope.

(** Unit fields. *)
Definition dl (J b : nat) : nat -> nat -> R := fun p k => if ((p =? J) && (k =? b))%nat%bool then 1 else 0.
Definition d1 (J : nat) : nat -> R := fun p => if (p =? J)%nat then 1 else 0.

Lemma rsum_pick' : forall n i f, (i < n)%nat -> rsum n (fun x => (if (x =? i)%nat then 1 else 0) * f x) = f i.
Proof. intros. rewrite <- (rsum_pick n i f) by auto. apply rsum_ext. intros. destruct (_ =? _)%nat; ring. Qed.
Lemma bilin_row : forall np d A u I a, (I < np)%nat -> (a < d)%nat ->
  bilin np d A u (dl I a) = rsum np (fun J => rsum d (fun b => ent A I a J b * u J b)).
Proof.
  intros np d A u I a HI Ha. unfold bilin.
  rewrite <- (rsum_pick' np I (fun I => rsum np (fun J => rsum d (fun b => ent A I a J b * u J b)))) by auto.
  apply rsum_ext. intros I' HI'. rewrite <- (rsum_pick' d a (fun a => rsum np (fun J => rsum d (fun b => ent A I' a J b * u J b)))) by auto.
  rewrite <- rsum_mull. apply rsum_ext. intros a' Ha'. rewrite <- !rsum_mull. apply rsum_ext. intros J HJ. rewrite <- !rsum_mull.
  apply rsum_ext. intros b Hb. unfold dl. destruct (I' =? I)%nat, (a' =? a)%nat; cbn [andb]; ring.
Qed.
Lemma bilin_ent : forall np d A I a J b, (I < np)%nat -> (a < d)%nat -> (J < np)%nat -> (b < d)%nat ->
  bilin np d A (dl J b) (dl I a) = ent A I a J b.
Proof.
  intros np d A I a J b HI Ha HJ Hb. rewrite bilin_row by auto.
  rewrite <- (rsum_pick' np J (fun J => ent A I a J b)) by auto. apply rsum_ext. intros J' HJ'.
  rewrite <- (rsum_pick' d b (fun b => ent A I a J' b)) by auto. rewrite <- rsum_mull. apply rsum_ext. intros b' Hb'.
  unfold dl. destruct (J' =? J)%nat, (b' =? b)%nat; cbn [andb]; ring.
Qed.
Lemma lin_row : forall np d b I a, (I < np)%nat -> (a < d)%nat -> lin np d b (dl I a) = cmp d b I a.
Proof.
  intros np d b I a HI Ha. unfold lin. rewrite <- (rsum_pick' np I (fun I => cmp d b I a)) by auto. apply rsum_ext. intros I' HI'.
  rewrite <- (rsum_pick' d a (fun a => cmp d b I' a)) by auto. rewrite <- rsum_mull. apply rsum_ext. intros a' Ha'.
  unfold dl. destruct (I' =? I)%nat, (a' =? a)%nat; cbn [andb]; ring.
Qed.
Lemma bilin_ext : forall np d A u u' v v', (forall p k, (p < np)%nat -> (k < d)%nat -> u p k = u' p k /\ v p k = v' p k) ->
  bilin np d A u v = bilin np d A u' v'.
Proof.
  intros. unfold bilin. apply rsum_ext. intros I HI. apply rsum_ext. intros a Ha. apply rsum_ext. intros J HJ. apply rsum_ext. intros b Hb.
  destruct (H I a HI Ha) as (_ & ->). destruct (H J b HJ Hb) as (-> & _). auto.
Qed.
Lemma lin_ext : forall np d b v v', (forall p k, (p < np)%nat -> (k < d)%nat -> v p k = v' p k) -> lin np d b v = lin np d b v'.
Proof. intros. unfold lin. apply rsum_ext. intros I HI. apply rsum_ext. intros a Ha. rewrite H; auto. Qed.
Lemma bilin_zero : forall np d A u v, (forall I a J b, (I < np)%nat -> (J < np)%nat -> (a < d)%nat -> (b < d)%nat -> ent A I a J b = 0) -> bilin np d A u v = 0.
Proof. intros. unfold bilin. apply rsum_zero. intros. apply rsum_zero. intros. apply rsum_zero. intros. apply rsum_zero. intros. rewrite H by auto. ring. Qed.
Lemma sc_dl : forall np J p k, (p < np)%nat -> (k < 1)%nat -> sc (d1 J) p k = dl J 0 p k.
Proof. intros. unfold sc, d1, dl. assert (k = 0)%nat as -> by lia. rewrite andb_true_r. auto. Qed.
Lemma bilin_row1 : forall np A u I, (I < np)%nat -> bilin np 1 A (sc u) (sc (d1 I)) = rsum np (fun J => ent A I 0 J 0 * u J).
Proof.
  intros. rewrite (bilin_ext np 1 A (sc u) (sc u) (sc (d1 I)) (dl I 0)) by (intros; split; auto; apply (sc_dl np); auto).
  rewrite bilin_row by (auto; lia). apply rsum_ext. intros. rewrite rsum_S, rsum_0. unfold sc. ring.
Qed.
Lemma bilin_ent1 : forall np A I J, (I < np)%nat -> (J < np)%nat -> bilin np 1 A (sc (d1 J)) (sc (d1 I)) = ent A I 0 J 0.
Proof.
  intros. rewrite (bilin_ext np 1 A (sc (d1 J)) (dl J 0) (sc (d1 I)) (dl I 0)) by (intros; split; apply (sc_dl np); auto).
  apply bilin_ent; auto; lia.
Qed.
Lemma lin_row1 : forall np b I, (I < np)%nat -> lin np 1 b (sc (d1 I)) = arr b I.
Proof.
  intros. rewrite (lin_ext np 1 b (sc (d1 I)) (dl I 0)) by (intros; apply (sc_dl np); auto).
  rewrite lin_row by (auto; lia). apply arr_cmp.
Qed.

(** Linearity of gradients. *)
Lemma gdot_comm : forall n g h, gdot n g h = gdot n h g. Proof. intros. apply rsum_ext. intros; ring. Qed.
Lemma gdot_nonneg : forall n g, 0 <= gdot n g g.
Proof. intros. apply rsum_nonneg. intros. apply Rle_0_sqr. Qed.
Lemma gdot_zero : forall n g, gdot n g g = 0 -> forall k, (k < n)%nat -> g k = 0.
Proof.
  intros n g H k Hk. pose proof (rsum_nonneg_zero n (fun k => g k * g k) ltac:(intros; apply Rle_0_sqr) H k Hk) as E.
  cbv beta in E. apply Rsqr_0_uniq. exact E.
Qed.
Lemma gdot_addl : forall n f g h, gdot n (fun k => f k + g k) h = gdot n f h + gdot n g h.
Proof. intros. unfold gdot. rewrite <- rsum_add. apply rsum_ext. intros; ring. Qed.
Lemma gdot_mull : forall n c g h, gdot n (fun k => c * g k) h = c * gdot n g h.
Proof. intros. unfold gdot. rewrite <- rsum_mull. apply rsum_ext. intros; ring. Qed.
Lemma gradients_lin : forall tet X T nT u v gu gv c, gradients tet X T nT u gu -> gradients tet X T nT v gv ->
  gradients tet X T nT (fun p => u p + c * v p) (fun e k => gu e k + c * gv e k).
Proof.
  intros tet X T nT u v gu gv c Hu Hv e He i j Hi Hj. pose proof (Hu e He i j Hi Hj) as E1. pose proof (Hv e He i j Hi Hj) as E2. cbv beta in *.
  match goal with |- _ = ?r => transitivity ((u (nd (ncor tet) T e j) - u (nd (ncor tet) T e i)) + c * (v (nd (ncor tet) T e j) - v (nd (ncor tet) T e i))); [|ring] end.
  rewrite <- E1, <- E2, <- rsum_mull, <- rsum_add. apply rsum_ext. intros; ring.
Qed.
Lemma gradients_ext : forall tet X T nT np u u' g, mesh_ok (ncor tet) np T nT -> (forall p, (p < np)%nat -> u p = u' p) ->
  gradients tet X T nT u g -> gradients tet X T nT u' g.
Proof.
  intros tet X T nT np u u' g (_ & M & _) E H e He i j Hi Hj. cbv beta. rewrite <- !E by (apply M; auto). apply H; auto.
Qed.
Lemma gradients_const : forall tet X T nT c, gradients tet X T nT (fun _ => c) (fun _ _ => 0).
Proof. intros tet X T nT c e He i j Hi Hj. cbv beta. rewrite Rminus_diag_eq by auto. apply rsum_zero. intros; ring. Qed.

Section Sys.
Variables (tet : bool) (X : list R) (T : list nat) (nT np : nat) (alpha source : R) (w : nat -> R).
Variables (A B : matsp Rcr) (b b' : list R).
Hypothesis M : mesh_ok (ncor tet) np T nT.
Hypothesis HS : forall e, (e < nT)%nat -> size tet X T e <> 0.
Hypothesis W : poisson_weak tet X T nT np alpha source w A b B b'.

Lemma W1 : forall u v gu gv, gradients tet X T nT u gu -> gradients tet X T nT v gv ->
  bilin np 1 B (sc u) (sc v) = bilin np 1 A (sc u) (sc v) + rsum nT (fun e => alpha * size tet X T e * gdot (ndim tet) (gu e) (gv e)).
Proof. intros u v gu gv Hu Hv. destruct (gradients_ex tet X T nT w HS) as (gw & Hw). apply (W u v gu gv gw Hu Hv Hw). Qed.
Lemma sys_sym : forall I J, (I < np)%nat -> (J < np)%nat -> ent B I 0 J 0 - ent A I 0 J 0 = ent B J 0 I 0 - ent A J 0 I 0.
Proof.
  intros I J HI HJ. destruct (gradients_ex tet X T nT (d1 I) HS) as (gi & Hi). destruct (gradients_ex tet X T nT (d1 J) HS) as (gj & Hj).
  rewrite <- !(bilin_ent1 np) by auto. rewrite (W1 _ _ _ _ Hj Hi), (W1 _ _ _ _ Hi Hj).
  rewrite (rsum_ext nT (fun e => _ * gdot _ (gj e) (gi e)) (fun e => alpha * size tet X T e * gdot (ndim tet) (gi e) (gj e))) by (intros; rewrite gdot_comm; auto).
  ring.
Qed.
Lemma sys_const : forall I, (I < np)%nat -> rsum np (fun J => ent B I 0 J 0) = rsum np (fun J => ent A I 0 J 0).
Proof.
  intros I HI. destruct (gradients_ex tet X T nT (d1 I) HS) as (gi & Hi).
  assert (E : forall Q, rsum np (fun J => ent Q I 0 J 0) = bilin np 1 Q (sc (fun _ => 1)) (sc (d1 I))).
  { intros Q. rewrite bilin_row1 by auto. apply rsum_ext. intros; ring. }
  rewrite !E, (W1 _ _ _ _ (gradients_const tet X T nT 1) Hi). rewrite rsum_zero; [ring|]. intros e He.
  unfold gdot. rewrite rsum_zero; [ring|]. intros; ring.
Qed.
Lemma sys_psd : forall u, 0 <= alpha -> (forall e, (e < nT)%nat -> 0 < size tet X T e) -> bilin np 1 A (sc u) (sc u) <= bilin np 1 B (sc u) (sc u).
Proof.
  intros u Ha Hs. destruct (gradients_ex tet X T nT u HS) as (g & Hg). rewrite (W1 _ _ _ _ Hg Hg).
  assert (0 <= rsum nT (fun e => alpha * size tet X T e * gdot (ndim tet) (g e) (g e))); [|lra].
  apply rsum_nonneg. intros e He. apply Rmult_le_pos; [|apply gdot_nonneg]. apply Rmult_le_pos; [auto|]. left. auto.
Qed.

(** Fields with zero gradient are constant on connected parts. *)
Lemma zero_grad_const : forall u g, gradients tet X T nT u g -> (forall e k, (e < nT)%nat -> (k < ndim tet)%nat -> g e k = 0) ->
  forall p q, joined (ncor tet) T nT p q -> u q = u p.
Proof.
  intros u g Hg Hz p q J. induction J as [|q e i j J IH He Hi Hj E]; [auto|]. rewrite <- IH, <- E.
  pose proof (Hg e He i j Hi Hj) as G. cbv beta in G. rewrite rsum_zero in G; [lra|]. intros k Hk. rewrite Hz by auto. ring.
Qed.

Lemma sys_solvable : forall bc C x, wf B -> nrowblk B = np -> ncolblk B = np -> nrowdim B = 1%nat -> ncoldim B = 1%nat ->
  (forall I J, (I < np)%nat -> (J < np)%nat -> ent A I 0 J 0 = 0) -> 0 < alpha -> (forall e, (e < nT)%nat -> 0 < size tet X T e) ->
  length bc = np -> (forall p, (p < np)%nat -> exists q, (q < np)%nat /\ nth q bc 0%Z <> 0%Z /\ joined (ncor tet) T nT q p) ->
  SetFixedBC (K := Rcr) B bc = Some C ->
  (forall I, (I < np)%nat -> rsum np (fun J => ent C I 0 J 0 * x J) = 0) -> forall I, (I < np)%nat -> x I = 0.
Proof.
  intros bc C x WB N1 N2 N3 N4 A0 Ha Hs Lbc Hj HC Hx I0 HI0.
  assert (V : length (val_dia B) <> 0%nat) by (destruct WB as (_ & _ & _ & _ & _ & w6 & _); rewrite w6, N1, N3, N4; lia).
  destruct (C24_SetFixedBC Rcr B bc WB ltac:(split; congruence) V ltac:(rewrite N1, N3; lia)) as (C' & EC & _ & _ & D).
  rewrite EC in HC. injection HC as ->. rewrite N1, N3 in D.
  set (fl := fun p => negb (nth p bc 0 =? 0)%Z).
  assert (Fl : forall p, fl p = true <-> nth p bc 0%Z <> 0%Z) by (intros p; unfold fl; destruct (Z.eqb_spec (nth p bc 0%Z) 0%Z); cbn; split; congruence).
  set (y := fun p => if fl p then 0 else x p).
  assert (EC1 : forall I J, (I < np)%nat -> (J < np)%nat ->
     ent C I 0 J 0 = if (fl I || fl J)%bool then (if (I =? J)%nat then 1 else 0) else ent B I 0 J 0).
  { intros I J HI HJ. destruct (D I 0%nat J 0%nat HI HJ ltac:(lia) ltac:(lia)) as (P1 & P2 & P3).
    assert (EI : (I * 1 + 0 = I)%nat) by lia. assert (EJ : (J * 1 + 0 = J)%nat) by lia. rewrite !EI, !EJ in *.
    destruct (fl I || fl J)%bool eqn:EF.
    - assert (FF : nth I bc 0%Z <> 0%Z \/ nth J bc 0%Z <> 0%Z) by (apply orb_true_iff in EF; destruct EF as [EF|EF]; [left|right]; apply Fl; auto).
      destruct (Nat.eqb_spec I J) as [E|E]; [apply (P1 FF E)|apply (P2 FF E)].
    - apply orb_false_iff in EF. destruct EF as (F1 & F2). apply P3; intros Hf; apply Fl in Hf; congruence. }
  assert (Q : rsum np (fun I => x I * rsum np (fun J => ent C I 0 J 0 * x J)) =
     rsum np (fun I => (if fl I then x I * x I else 0)) + bilin np 1 B (sc y) (sc y)).
  { assert (Eb : bilin np 1 B (sc y) (sc y) = rsum np (fun I => rsum np (fun J => y I * ent B I 0 J 0 * y J))).
    { unfold bilin. apply rsum_ext. intros I HI. rewrite rsum_S, rsum_0, Rplus_0_l. apply rsum_ext. intros J HJ. rewrite rsum_S, rsum_0. unfold sc. ring. }
    rewrite Eb, <- rsum_add. apply rsum_ext. intros I HI. rewrite <- rsum_mull.
    transitivity (rsum np (fun J => (if (J =? I)%nat then (if fl I then x I * x I else 0) else 0)) + rsum np (fun J => y I * ent B I 0 J 0 * y J)).
    2:{ f_equal. apply (rsum_pick np I (fun _ => if fl I then x I * x I else 0)); auto. }
    rewrite <- rsum_add. apply rsum_ext. intros J HJ. rewrite EC1 by auto. unfold y. rewrite (Nat.eqb_sym J I).
    destruct (Nat.eqb_spec I J) as [<-|E].
    - destruct (fl I); cbn [orb]; ring.
    - destruct (fl I), (fl J); cbn [orb]; ring. }
  rewrite rsum_zero in Q by (intros I HI; rewrite Hx by auto; ring).
  destruct (gradients_ex tet X T nT y HS) as (g & Hg). rewrite (W1 _ _ _ _ Hg Hg) in Q.
  rewrite bilin_zero in Q.
  2:{ intros I a J c HI HJ H1 H2. assert (a = 0)%nat as -> by lia. assert (c = 0)%nat as -> by lia. auto. }
  assert (S1 : 0 <= rsum np (fun I => if fl I then x I * x I else 0)).
  { apply rsum_nonneg. intros I HI. destruct (fl I); [apply Rle_0_sqr|lra]. }
  assert (Pe : forall e, (e < nT)%nat -> 0 <= alpha * size tet X T e * gdot (ndim tet) (g e) (g e)).
  { intros e He. apply Rmult_le_pos; [|apply gdot_nonneg]. apply Rmult_le_pos; [lra|]. left. auto. }
  pose proof (rsum_nonneg nT _ Pe) as S2. cbv beta in S2.
  assert (Z1 : rsum np (fun I => if fl I then x I * x I else 0) = 0) by lra.
  assert (Z2 : rsum nT (fun e => alpha * size tet X T e * gdot (ndim tet) (g e) (g e)) = 0) by lra.
  assert (Xf : forall p, (p < np)%nat -> fl p = true -> x p = 0).
  { intros p Hp Hf. pose proof (rsum_nonneg_zero np (fun I => if fl I then x I * x I else 0)
      ltac:(intros I HI; cbv beta; destruct (fl I); [apply Rle_0_sqr|lra]) Z1 p Hp) as E. cbv beta in E. rewrite Hf in E. apply Rsqr_0_uniq. exact E. }
  assert (Gz : forall e k, (e < nT)%nat -> (k < ndim tet)%nat -> g e k = 0).
  { intros e k He Hk. pose proof (rsum_nonneg_zero nT _ Pe Z2 e He) as E. cbv beta in E. apply (gdot_zero (ndim tet)); auto.
    assert (0 < alpha * size tet X T e) by (apply Rmult_lt_0_compat; auto).
    apply Rmult_integral in E. destruct E as [E|E]; [lra|exact E]. }
  destruct (Hj I0 HI0) as (q & Hq & Fq & Jq). apply Fl in Fq.
  pose proof (zero_grad_const y g Hg Gz q I0 Jq) as E. unfold y in E. rewrite Fq in E.
  destruct (fl I0) eqn:F0; [apply Xf; auto|exact E].
Qed.
End Sys.

(** The Newton step: solving once gives a zero residual. *)
Lemma newton : forall tet X T nT np alpha source w A B b b' B2 b2 w2 x (free : nat -> Prop),
  mesh_ok (ncor tet) np T nT -> (forall e, (e < nT)%nat -> size tet X T e <> 0) ->
  poisson_weak tet X T nT np alpha source w A b B b' -> poisson_weak tet X T nT np alpha source w2 A b B2 b2 ->
  (forall I J, (I < np)%nat -> (J < np)%nat -> ent A I 0 J 0 = 0) ->
  (forall I, (I < np)%nat -> w2 I = w I + x I) ->
  (forall I, (I < np)%nat -> free I -> rsum np (fun J => ent B I 0 J 0 * x J) = arr b' I) ->
  forall I, (I < np)%nat -> free I -> arr b2 I = 0.
Proof.
  intros tet X T nT np alpha source w A B b b' B2 b2 w2 x free M HS W W2 A0 Hw Hx I HI HF.
  destruct (gradients_ex tet X T nT (d1 I) HS) as (gi & Hi). destruct (gradients_ex tet X T nT w HS) as (gw & Gw).
  destruct (gradients_ex tet X T nT x HS) as (gx & Gx).
  assert (Gw2 : gradients tet X T nT w2 (fun e k => gw e k + 1 * gx e k)).
  { apply (gradients_ext tet X T nT np (fun p => w p + 1 * x p)); auto; [intros p Hp; rewrite Hw by auto; ring|]. apply gradients_lin; auto. }
  destruct (W x (d1 I) gx gi gw Gx Hi Gw) as (E1 & E2). destruct (W2 x (d1 I) gx gi _ Gx Hi Gw2) as (_ & E3).
  rewrite bilin_row1 in E1 by auto. rewrite !lin_row1 in E2, E3 by auto.
  specialize (Hx I HI HF). rewrite bilin_zero in E1.
  2:{ intros I' a J c HI' HJ H1 H2. assert (a = 0)%nat as -> by lia. assert (c = 0)%nat as -> by lia. auto. }
  rewrite E3. rewrite (rsum_ext nT _ (fun e => (source * size tet X T e * mean tet T e (d1 I) - alpha * size tet X T e * gdot (ndim tet) (gw e) (gi e))
     - alpha * size tet X T e * gdot (ndim tet) (gx e) (gi e))).
  - rewrite rsum_sub. lra.
  - intros e He. rewrite gdot_addl, gdot_mull. ring.
Qed.
