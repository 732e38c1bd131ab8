(** Storage of the two banded matrices, assembly and boundary conditions. *)
From Coq Require Import List Arith Bool ZArith Lia Ring.
Import ListNotations.
From Verif Require Import Imp Alg SpProofs1 SpProofs4 MatnModel MatnProofs1 MatnProofs2 MatnProofs3 DtriProofs5.

Lemma slot_apart : forall n s s', s <> s' -> apart n (s * (n * n)) (s' * (n * n)).
Proof. intros n s s' H. unfold apart. destruct (Nat.lt_trichotomy s s') as [L|[E|L]]; [left|contradiction|right]; nia. Qed.
Lemma slot_in : forall n s N, s < N -> s * (n * n) + n * n <= N * (n * n).
Proof. intros. nia. Qed.

Ltac zb := repeat match goal with
  | H : context [(?a <? ?b)%Z] |- _ => destruct (Z.ltb_spec a b)
  | H : context [(?a >=? ?b)%Z] |- _ => rewrite Z.geb_leb in H; destruct (Z.leb_spec b a)
  | H : context [(?a >? ?b)%Z] |- _ => rewrite Z.gtb_ltb in H; destruct (Z.ltb_spec b a)
  | H : context [(?a =? ?b)%Z] |- _ => destruct (Z.eqb_spec a b)
  end; cbn [orb] in *.

Lemma bind_ext' : forall A B (e : option A) (f g : A -> option B), (forall a, f a = g a) -> bind e f = bind e g.
Proof. intros A B [a|] f g H; cbn; auto. Qed.
Lemma ford_ext : forall S hi lo (f g : nat -> S -> option S) s,
  (forall i s, lo < i <= hi -> f i s = g i s) -> ford hi lo f s = ford hi lo g s.
Proof.
  intros S hi lo f g s. unfold ford. remember (hi - lo) as k. revert hi s Heqk.
  induction k as [|k IH]; intros hi s Hk H; cbn [ford_]; auto.
  rewrite H by lia. apply bind_ext'. intros s'. apply IH; [lia|]. intros; apply H; lia.
Qed.

Section Ptr.
Variables (n nblk : nat).
Lemma tri_form : forall i j p, tri_ptr n nblk i j = Some p ->
  (0 <= i < Z.of_nat nblk)%Z /\ (0 <= j < Z.of_nat nblk)%Z /\ (-1 <= i - j <= 1)%Z /\ p = Z.to_nat (i * 2 + j) * (n * n).
Proof.
  intros i j p H. unfold tri_ptr in H. zb; try discriminate. inversion H. repeat split; auto; lia.
Qed.
Lemma tri_ex : forall i j, (0 <= i < Z.of_nat nblk)%Z -> (0 <= j < Z.of_nat nblk)%Z -> (-1 <= i - j <= 1)%Z ->
  tri_ptr n nblk i j = Some (Z.to_nat (i * 2 + j) * (n * n)).
Proof.
  intros i j Hi Hj Hd. destruct (tri_ptr n nblk i j) as [p|] eqn:E.
  - apply tri_form in E. f_equal. apply E.
  - exfalso. unfold tri_ptr in E. zb; try discriminate; lia.
Qed.
Lemma tri_Pin : 1 <= nblk -> forall i j p, tri_ptr n nblk i j = Some p -> inr nblk i /\ inr nblk j /\ (-2 <= i - j <= 2)%Z /\ p + n * n <= tri_size n nblk.
Proof.
  intros Hn i j p H. apply tri_form in H. destruct H as (Hi & Hj & Hd & ->). unfold inr. split; [auto|]. split; [auto|]. split; [lia|].
  unfold tri_size. apply slot_in. lia.
Qed.
Lemma tri_Pex : forall i j, inr nblk i -> inr nblk j -> (-1 <= i - j <= 1)%Z -> tri_ptr n nblk i j <> None.
Proof. intros i j Hi Hj Hd. rewrite tri_ex by auto. discriminate. Qed.
Lemma tri_Pap : forall i j p i' j' p', tri_ptr n nblk i j = Some p -> tri_ptr n nblk i' j' = Some p' -> (i <> i' \/ j <> j') -> apart n p p'.
Proof.
  intros i j p i' j' p' H H' Hne. apply tri_form in H. apply tri_form in H'. destruct H as (? & ? & ? & ->). destruct H' as (? & ? & ? & ->).
  apply slot_apart. lia.
Qed.

Definition pslot (i j : Z) : Z := if (i <? 2)%Z then (i * 3 + j)%Z else if (i =? Z.of_nat nblk - 1)%Z then (i * 4 - 2 + j)%Z else (i * 4 - 1 + j)%Z.
Lemma penta_form : forall i j p, penta_ptr n nblk i j = Some p ->
  (0 <= i < Z.of_nat nblk)%Z /\ (0 <= j < Z.of_nat nblk)%Z /\ (-2 <= i - j <= 2)%Z /\ p = Z.to_nat (pslot i j) * (n * n).
Proof.
  intros i j p H. unfold penta_ptr in H. unfold pslot. zb; try discriminate; inversion H; repeat split; auto; lia.
Qed.
Lemma penta_ex : forall i j, (0 <= i < Z.of_nat nblk)%Z -> (0 <= j < Z.of_nat nblk)%Z -> (-2 <= i - j <= 2)%Z ->
  penta_ptr n nblk i j = Some (Z.to_nat (pslot i j) * (n * n)).
Proof.
  intros i j Hi Hj Hd. destruct (penta_ptr n nblk i j) as [p|] eqn:E.
  - apply penta_form in E. f_equal. apply E.
  - exfalso. unfold penta_ptr in E. zb; try discriminate; lia.
Qed.
Lemma penta_Pin : 4 <= nblk -> forall i j p, penta_ptr n nblk i j = Some p -> inr nblk i /\ inr nblk j /\ (-2 <= i - j <= 2)%Z /\ p + n * n <= penta_size n nblk.
Proof.
  intros Hn i j p H. apply penta_form in H. destruct H as (Hi & Hj & Hd & ->). unfold inr. split; [auto|]. split; [auto|]. split; [lia|].
  unfold penta_size. apply slot_in. unfold pslot. destruct (Z.ltb_spec i 2), (Z.eqb_spec i (Z.of_nat nblk - 1)); lia.
Qed.
Lemma penta_Pex : forall i j, inr nblk i -> inr nblk j -> (-1 <= i - j <= 1)%Z -> penta_ptr n nblk i j <> None.
Proof. intros i j Hi Hj Hd. unfold inr in *. rewrite penta_ex by lia. discriminate. Qed.
Lemma penta_Pap : 4 <= nblk -> forall i j p i' j' p', penta_ptr n nblk i j = Some p -> penta_ptr n nblk i' j' = Some p' -> (i <> i' \/ j <> j') -> apart n p p'.
Proof.
  intros Hn i j p i' j' p' H H' Hne. apply penta_form in H. apply penta_form in H'. destruct H as (? & ? & ? & ->). destruct H' as (? & ? & ? & ->).
  apply slot_apart. unfold pslot.
  destruct (Z.ltb_spec i 2), (Z.eqb_spec i (Z.of_nat nblk - 1)), (Z.ltb_spec i' 2), (Z.eqb_spec i' (Z.of_nat nblk - 1)); lia.
Qed.
End Ptr.

Section P.
Variable F : pfield.
Notation K := (pr F).
Add Ring Kr : (rlaws K).
Local Open Scope K_scope.

(** The tridiagonal routines are the band routines with the tridiagonal pointer function. *)
Lemma tri_Decompose_gen : forall n nblk (v : list K), tri_Decompose n nblk v = gDecompose F n nblk (tri_ptr n nblk) v.
Proof.
  intros n nblk v. unfold tri_Decompose, gDecompose. apply forn_ext. intros iblk [w tr] Hi. cbv zeta. set (i := Z.of_nat iblk).
  assert (N : forall a b, (a - b < -1 \/ a - b > 1 \/ a < 0 \/ b < 0 \/ a >= Z.of_nat nblk \/ b >= Z.of_nat nblk)%Z -> tri_ptr n nblk a b = None).
  { intros a b H. destruct (tri_ptr n nblk a b) eqn:E; auto. apply tri_form in E. lia. }
  assert (U2 : forall w, gUpdateU F n (tri_ptr n nblk) w i (i + 2)%Z = Some w).
  { intros w'. unfold gUpdateU. replace (i <? i + 2)%Z with true by lia. cbn [assertb bind]. rewrite N by lia. auto. }
  assert (D1 : forall w, gDecompIJK F n (tri_ptr n nblk) w i (i - 1)%Z (i - 2)%Z = Some w).
  { intros w'. unfold gDecompIJK. destruct (_ || _ || _)%Z; auto. replace ((i - 2 <? i) && (i - 2 <? i - 1))%Z with true by lia. cbn [assertb bind].
    rewrite N by lia. auto. }
  assert (D2 : forall w, gDecompIJK F n (tri_ptr n nblk) w i i (i - 2)%Z = Some w).
  { intros w'. unfold gDecompIJK. destruct (_ || _ || _)%Z; auto. replace ((i - 2 <? i) && (i - 2 <? i))%Z with true by lia. cbn [assertb bind].
    rewrite N by lia. auto. }
  assert (D4 : forall w, gDecompIJK F n (tri_ptr n nblk) w i (i + 1)%Z (i - 1)%Z = Some w).
  { intros w'. unfold gDecompIJK. destruct (_ || _ || _)%Z; auto. replace ((i - 1 <? i) && (i - 1 <? i + 1))%Z with true by lia. cbn [assertb bind].
    rewrite (N (i - 1)%Z (i + 1)%Z) by lia. destruct (tri_ptr n nblk i (i - 1)%Z); auto. }
  rewrite D1. cbn [bind]. rewrite D2. cbn [bind].
  assert (D3 : (if iblk =? 0 then Some w else
        pik <- deref (tri_ptr n nblk i (i - 1)%Z) ;; pkj <- deref (tri_ptr n nblk (i - 1)%Z i) ;; pij <- deref (tri_ptr n nblk i i) ;;
        Sub_MatMat n w pij pik pkj) = gDecompIJK F n (tri_ptr n nblk) w i i (i - 1)%Z).
  { unfold gDecompIJK, i. destruct (Nat.eqb_spec iblk 0) as [->|Hne]; [auto|].
    replace ((Z.of_nat iblk <? 0) || (Z.of_nat iblk <? 0) || (Z.of_nat iblk - 1 <? 0))%Z with false by lia.
    replace ((Z.of_nat iblk - 1 <? Z.of_nat iblk) && (Z.of_nat iblk - 1 <? Z.of_nat iblk))%Z with true by lia. cbn [assertb bind].
    rewrite !tri_ex by lia. reflexivity. }
  rewrite D3. apply bind_ext'. intros w1. rewrite D4. cbn [bind]. apply bind_ext'. intros pii. apply bind_ext'. intros [w2 ok].
  assert (U1 : (if (i =? Z.of_nat nblk - 1)%Z then Some w2 else
        pij <- deref (tri_ptr n nblk i (i + 1)%Z) ;; pii <- deref (tri_ptr n nblk i i) ;;
        MatMat n w2 pij pii (getblk n w2 pij) 0) = gUpdateU F n (tri_ptr n nblk) w2 i (i + 1)%Z).
  { unfold gUpdateU. replace (i <? i + 1)%Z with true by lia. cbn [assertb bind]. destruct (Z.eqb_spec i (Z.of_nat nblk - 1)).
    - rewrite N by lia. auto.
    - rewrite !tri_ex by (unfold i in *; lia). reflexivity. }
  rewrite U1. apply bind_ext'. intros w3. rewrite U2. reflexivity.
Qed.

Lemma tri_Solve_gen : forall n nblk (v r : list K), tri_Solve n nblk v r = gSolve F n nblk (tri_ptr n nblk) v r.
Proof.
  intros n nblk v r. unfold tri_Solve, gSolve.
  assert (N : forall a b, (a - b < -1 \/ a - b > 1 \/ a < 0 \/ b < 0 \/ a >= Z.of_nat nblk \/ b >= Z.of_nat nblk)%Z -> tri_ptr n nblk a b = None).
  { intros a b H. destruct (tri_ptr n nblk a b) eqn:E; auto. apply tri_form in E. lia. }
  match goal with |- bind ?a ?f = bind ?b ?g => assert (E1 : a = b) end.
  { apply forn_ext. intros iblk res Hi. cbv zeta. apply bind_ext'. intros tmp.
    assert (S2 : gSubst F n (tri_ptr n nblk) tmp v res (Z.of_nat iblk) (Z.of_nat iblk - 2)%Z = Some tmp) by (unfold gSubst; rewrite N by lia; auto).
    rewrite S2. cbn [bind].
    assert (S1 : (if iblk =? 0 then Some tmp else
       pij <- deref (tri_ptr n nblk (Z.of_nat iblk) (Z.of_nat iblk - 1)%Z) ;; Sub_MatVecN n tmp 0 v pij res ((iblk - 1) * n)%nat)
       = gSubst F n (tri_ptr n nblk) tmp v res (Z.of_nat iblk) (Z.of_nat iblk - 1)%Z).
    { unfold gSubst. destruct (Nat.eqb_spec iblk 0) as [->|].
      - rewrite N by lia. auto.
      - rewrite tri_ex by lia. cbn [deref bind]. f_equal. f_equal. lia. }
    rewrite S1. reflexivity. }
  rewrite E1. apply bind_ext'. intros res.
  apply ford_ext. intros i1 s Hi. cbv zeta. rewrite tri_ex by lia. cbn [deref bind].
  assert (S2 : forall r, gSubst_in F n (tri_ptr n nblk) v r (Z.of_nat (i1 - 1)) (Z.of_nat (i1 - 1) + 2)%Z = Some r) by (intros; unfold gSubst_in; rewrite N by lia; auto).
  unfold gSubst_in at 1. rewrite tri_ex by lia. rewrite Nat2Z.id.
  replace (Z.to_nat (Z.of_nat (i1 - 1) + 1)) with (i1 - 1 + 1)%nat by lia.
  destruct (Sub_MatVecN_in n s _ v _ _); cbn [bind]; auto.
Qed.
End P.
