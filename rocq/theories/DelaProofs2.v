(** Delaunay flips: one flip. *)
From Coq Require Import List Arith Lia Bool Relations Reals Lra.
Import ListNotations.
From Verif Require Import Imp PrModel PolyModel DtriModel DtriSpec CollSpec DelaModel DelaSpec.
From Verif Require Import DtriProofs1 DtriProofs2 DtriProofs3 CollProofs1 FanProofs2 DelaProofs1.

Section Geo.
Variable xy : list pt.
Notation X := (pos2 xy).
Notation ar a b c := (Area_Tri2 (X a) (X b) (X c)).

Lemma tri_area_rot : forall m t i, (i < 3)%nat -> tri_area xy m t = ar (V m t i) (V m t (nx i)) (V m t (pv i)).
Proof.
  intros m t i Hi. unfold tri_area. c3 i.
  - reflexivity.
  - exact (eq_sym (area_rot (X (V m t 0)) (X (V m t 1)) (X (V m t 2)))).
  - exact (area_rot (X (V m t 2)) (X (V m t 0)) (X (V m t 1))).
Qed.

(** the flip of an edge that DetDelaunay rejects is possible *)
Lemma det_flippable : forall m t e u k, tri_ok m -> positive xy m -> (t < length m)%nat -> twin m t e u k ->
  DetDelaunay (X (V m t 0)) (X (V m t 1)) (X (V m t 2)) (X (V m u k)) = 0%nat ->
  V m t e <> V m u k /\ (L m t (pv e) = L m u (nx k) -> L m t (pv e) = None) /\ (L m u (pv k) = L m t (nx e) -> L m u (pv k) = None) /\
  (0 < ar (V m t (nx e)) (V m u k) (V m t e)) /\ (0 < ar (V m u (nx k)) (V m t e) (V m u k)).
Proof.
  intros m t e u k Hm Hp Ht TB HD. apply det0_in in HD. pose proof TB as (He & Hk & EL & EL' & E1 & E2).
  pose proof (proj1 (proj2 (proj2 (Hm t Ht)) e u He EL)) as Hu.
  assert (HI : incircle (X (V m t e)) (X (V m t (nx e))) (X (V m t (pv e))) (X (V m u k))).
  { clear - He HD. c3 e; [exact HD|apply incircle_rot in HD; exact HD|do 2 apply incircle_rot in HD; exact HD]. }
  assert (P1 : 0 < ar (V m t e) (V m t (nx e)) (V m t (pv e))) by (rewrite <- tri_area_rot; auto).
  assert (P2 : 0 < ar (V m t (pv e)) (V m t (nx e)) (V m u k)).
  { rewrite E1, E2. pose proof (Hp u Hu) as Q. rewrite (tri_area_rot m u k) in Q by auto. rewrite <- area_rot in Q. auto. }
  pose proof (flip_pos1 _ _ _ _ P1 P2 HI) as F1. pose proof (flip_pos2 _ _ _ _ P1 P2 HI) as F2.
  assert (N : V m t e <> V m u k). { intros E. apply (proj1 (incircle_ne _ _ _ _ HI)). rewrite E. auto. }
  split; auto. split; [|split; [|split]].
  - intros EQ. destruct (L m t (pv e)) as [c|] eqn:Ec; auto. exfalso. symmetry in EQ.
    destruct (proj2 (proj2 (Hm t Ht)) (pv e) c (pv_lt e) Ec) as (Hc & k1 & (_ & Hk1 & _ & _ & A1 & A2)).
    destruct (proj2 (proj2 (Hm u Hu)) (nx k) c (nx_lt k) EQ) as (_ & k2 & (_ & Hk2 & _ & _ & B1 & B2)).
    rewrite nxpv in A1 by auto. rewrite pvpv in A2 by auto. rewrite nxnx in B1 by auto. rewrite pvnx in B2 by auto.
    assert (K : nx k1 = pv k2). { apply (proj1 (Hm c Hc)); auto using nx_lt, pv_lt. congruence. }
    pose proof (Hp c Hc) as Q. rewrite (tri_area_rot m c (nx k1)) in Q by apply nx_lt.
    rewrite nxnx, pvnx in Q by auto. rewrite <- A2, <- A1 in Q.
    assert (K2 : k1 = nx k2). { rewrite <- (pvnx k1), K, pvpv; auto. }
    rewrite K2, <- B2 in Q. unfold Area_Tri2 in *. lra.
  - intros EQ. destruct (L m u (pv k)) as [c|] eqn:Ec; auto. exfalso. symmetry in EQ.
    destruct (proj2 (proj2 (Hm u Hu)) (pv k) c (pv_lt k) Ec) as (Hc & k1 & (_ & Hk1 & _ & _ & A1 & A2)).
    destruct (proj2 (proj2 (Hm t Ht)) (nx e) c (nx_lt e) EQ) as (_ & k2 & (_ & Hk2 & _ & _ & B1 & B2)).
    rewrite nxpv in A1 by auto. rewrite pvpv in A2 by auto. rewrite nxnx in B1 by auto. rewrite pvnx in B2 by auto.
    assert (K : nx k1 = pv k2). { apply (proj1 (Hm c Hc)); auto using nx_lt, pv_lt. congruence. }
    pose proof (Hp c Hc) as Q. rewrite (tri_area_rot m c (nx k1)) in Q by apply nx_lt.
    rewrite nxnx, pvnx in Q by auto. rewrite <- A2, <- A1 in Q.
    assert (K2 : k1 = nx k2). { rewrite <- (pvnx k1), K, pvpv; auto. }
    rewrite K2, <- B2, <- E2 in Q. unfold Area_Tri2 in *. lra.
  - unfold Area_Tri2 in *. lra.
  - rewrite <- E2. unfold Area_Tri2 in *. lra.
Qed.

(** sums over a list of numbers that change at few places *)
Lemma sum_ext : forall (f g : nat -> R) l, (forall x, In x l -> f x = g x) -> fold_right Rplus 0 (map f l) = fold_right Rplus 0 (map g l).
Proof. induction l as [|a l IH]; intros H; cbn; auto. rewrite (H a), IH; auto. intros; apply H; right; auto. left; auto. Qed.
Lemma sum_one : forall (f g : nat -> R) l x, NoDup l -> In x l -> (forall y, In y l -> y <> x -> f y = g y) ->
  fold_right Rplus 0 (map f l) - f x = fold_right Rplus 0 (map g l) - g x.
Proof.
  induction l as [|a l IH]; intros x Nd Hx H; [destruct Hx|]. inversion Nd; subst. cbn. destruct Hx as [->|Hx].
  - rewrite (sum_ext f g l). lra. intros y Hy. apply H; [right; auto|]. intros ->. auto.
  - assert (a <> x) by (intros ->; auto). rewrite (H a) by (auto; left; auto). rewrite <- (Rplus_assoc) || idtac.
    specialize (IH x H3 Hx (fun y Hy => H y (or_intror Hy))). lra.
Qed.
Lemma sum_two : forall (f g : nat -> R) l x y, NoDup l -> In x l -> In y l -> x <> y -> (forall z, In z l -> z <> x -> z <> y -> f z = g z) ->
  f x + f y = g x + g y -> fold_right Rplus 0 (map f l) = fold_right Rplus 0 (map g l).
Proof.
  intros f g l x y Nd Hx Hy N H E.
  set (h := fun z => if Nat.eq_dec z x then g z else f z).
  pose proof (sum_one f h l x Nd Hx) as S1. pose proof (sum_one h g l y Nd Hy) as S2.
  assert (h x = g x) by (unfold h; destruct Nat.eq_dec; congruence). assert (h y = f y) by (unfold h; destruct Nat.eq_dec; congruence).
  rewrite H0 in S1. rewrite H1 in S2.
  assert (Q1 : fold_right Rplus 0 (map f l) - f x = fold_right Rplus 0 (map h l) - g x).
  { apply S1. intros z Hz Nz. unfold h. destruct Nat.eq_dec; congruence. }
  assert (Q2 : fold_right Rplus 0 (map h l) - f y = fold_right Rplus 0 (map g l) - g y).
  { apply S2. intros z Hz Nz. unfold h. destruct Nat.eq_dec as [->|]; auto. }
  lra.
Qed.

Definition flipped (po : list dpnt) (m : list dtri) (t e u k : nat) (po' : list dpnt) (f : list dtri) : Prop :=
  consistent po' f /\ length po' = length po /\ length f = length m /\ positive xy f /\ total_area xy f = total_area xy m /\
  nth t f dtri0 = mkT (V m t (nx e)) (V m u k) (V m t e) (Some u) (L m t (pv e)) (L m u (nx k)) /\
  nth u f dtri0 = mkT (V m u (nx k)) (V m t e) (V m u k) (Some t) (L m u (pv k)) (L m t (nx e)) /\
  (forall x i, (x < length m)%nat -> x <> t -> x <> u -> V f x i = V m x i) /\
  (forall x i, (x < length m)%nat -> x <> t -> x <> u -> (i < 3)%nat -> (L f x i = None <-> L m x i = None)) /\
  (forall x i, (x < length m)%nat -> x <> t -> x <> u -> (i < 3)%nat -> L m x i <> Some t -> L m x i <> Some u -> L f x i = L m x i) /\
  (forall q, (q < length po)%nat -> pe (nth q po (mkP None 0)) <> None -> pe (nth q po' (mkP None 0)) <> None) /\
  nth (V m t e) po' (mkP None 0) = mkP (Some t) 2.

Lemma flip_ok : forall po m t e u k, consistent po m -> positive xy m -> (t < length m)%nat -> twin m t e u k ->
  DetDelaunay (X (V m t 0)) (X (V m t 1)) (X (V m t 2)) (X (V m u k)) = 0%nat ->
  V m t e <> V m u k /\ wp (FlipEdge t e po m) (fun r => let '(b, (po', f)) := r in flipped po m t e u k po' f).
Proof.
  intros po m t e u k HC Hp Ht TB HD. destruct (det_flippable m t e u k (proj1 HC) Hp Ht TB HD) as (F1 & F2 & F3 & P1 & P2). split; auto.
  eapply wp_mono; [apply (FlipEdge_lem po m t e u k); auto|]. intros (b, (po', f)) (_ & A & B & C & D1 & D2 & F & G & H & LK & PO).
  pose proof TB as (He & Hk & EL & EL' & E1 & E2). pose proof (proj1 (proj2 (proj2 ((proj1 HC) t Ht)) e u He EL)) as Hu.
  assert (Ntu : t <> u). { intros ->. apply (not_twin_self m u e k (proj1 HC)); auto. }
  assert (Vt : tri_area xy f t = ar (V m t (nx e)) (V m u k) (V m t e)) by (unfold tri_area, V at 1 2 3; rewrite D1; reflexivity).
  assert (Vu : tri_area xy f u = ar (V m u (nx k)) (V m t e) (V m u k)) by (unfold tri_area, V at 1 2 3; rewrite D2; reflexivity).
  assert (Vo : forall x, (x < length m)%nat -> x <> t -> x <> u -> tri_area xy f x = tri_area xy m x).
  { intros x Hx N1 N2. unfold tri_area. rewrite !F by auto. auto. }
  split; auto. split; auto. split; auto. split; [|split].
  - intros x Hx. rewrite C in Hx. destruct (Nat.eq_dec x t) as [->|N1]; [rewrite Vt; auto|]. destruct (Nat.eq_dec x u) as [->|N2]; [rewrite Vu; auto|].
    rewrite Vo by auto. auto.
  - unfold total_area. rewrite C. apply (sum_two _ _ _ t u); auto using seq_NoDup.
    + apply in_seq. lia.
    + apply in_seq. lia.
    + intros z Hz N1 N2. apply in_seq in Hz. apply Vo; auto. lia.
    + rewrite Vt, Vu, (tri_area_rot m t e), (tri_area_rot m u k), <- E1, <- E2 by auto. unfold Area_Tri2. lra.
  - split; auto. split; auto. split; auto. split; auto. split; auto. split; auto.
    rewrite PO by (apply HC; auto). destruct Nat.eq_dec as [Q|_]; [congruence|]. destruct Nat.eq_dec as [Q|_].
    + exfalso. rewrite <- E2 in Q. apply (proj1 (proj1 HC t Ht)) in Q; auto using pv_lt. apply (pv_neq e); auto.
    + destruct Nat.eq_dec; [auto|congruence].
Qed.
End Geo.
