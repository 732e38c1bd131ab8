(** Proofs for IluProps.v: what the substitutions and the factorisation mean for the dense matrices. *)
From Coq Require Import List Arith Bool Lia ZArith Ring.
Import ListNotations.
From Verif Require Import Imp Alg SpModel SpSpec IluModel IluSpec IluProofs1 IluProofs2 IluProofs3 IluProofs4 IluProofs5.
Open Scope nat_scope.

Section A.
Variable K : cring.
Add Ring Kr6 : (rlaws K).
Variable P : ilu K.
Hypothesis HPt : pattern_ok P.
Local Notation nb := (nblk P).
Local Notation d := (ndim P).

(** A sparse row times a function. *)
Lemma spread : forall (B : nat -> nat -> K) (f : nat -> nat -> K) m lo hi, (forall c, lo <= c < hi -> cp P c < nb) ->
  sumn nb (fun k => sumn m (fun e => rmul (bigsum (seq lo (hi - lo)) (fun c => if cp P c =? k then B c e else rO)) (f k e))) =
  bigsum (seq lo (hi - lo)) (fun c => sumn m (fun e => rmul (B c e) (f (cp P c) e))).
Proof.
  intros B f m lo hi Hc.
  transitivity (sumn nb (fun k => bigsum (seq lo (hi - lo)) (fun c => if k =? cp P c then sumn m (fun e => rmul (B c e) (f k e)) else rO))).
  - apply sumn_ext. intros k Hk. transitivity (sumn m (fun e => bigsum (seq lo (hi - lo)) (fun c => rmul (if cp P c =? k then B c e else rO) (f k e)))).
    + apply sumn_ext. intros e He. symmetry. apply bigsum_mulr.
    + unfold sumn at 1. rewrite bigsum_swap. apply bigsum_ext. intros c _. rewrite (Nat.eqb_sym k). destruct (cp P c =? k); auto. apply bigsum_zero. intros. ring.
  - unfold sumn at 1. rewrite bigsum_swap. apply bigsum_ext. intros c Hin. apply in_seq in Hin. apply (sumn_pick K nb (cp P c) (fun k => sumn m (fun e => rmul (B c e) (f k e)))). apply Hc. lia.
Qed.
Lemma low_cols : forall I c, I < nb -> cI P I <= c < dI P I -> cp P c < nb.
Proof. intros I c HI Hc. destruct HPt as (_ & _ & _ & _ & _ & H6 & _). pose proof (H6 I c HI Hc). lia. Qed.
Lemma upp_cols : forall I c, I < nb -> dI P I <= c < cI P (S I) -> cp P c < nb.
Proof. intros I c HI Hc. destruct HPt as (_ & _ & _ & _ & _ & _ & H7 & _). pose proof (H7 I c HI Hc). lia. Qed.

(** The triangular systems that the substitutions solve. *)
Definition Lx (y : list K) (I a : nat) : K := sumn nb (fun J => sumn d (fun b => rmul (Low P I a J b) (nth (J * d + b) y rO))).
Definition Ux (x : list K) (I a : nat) : K := sumn nb (fun J => sumn d (fun b => rmul (Upp P I a J b) (nth (J * d + b) x rO))).
Lemma Lx_row : forall y I a, I < nb -> Lx y I a = rowsub K P d (blk d (valCrs P)) (cI P I) (dI P I) y a.
Proof. intros y I a HI. unfold Lx, Low. apply (spread (fun c b => blk d (valCrs P) c a b) (fun J b => nth (J * d + b) y rO)). intros. apply (low_cols I); auto. Qed.
Lemma Ux_row : forall x I a, I < nb -> Ux x I a = rowsub K P d (blk d (valCrs P)) (dI P I) (cI P (S I)) x a.
Proof. intros x I a HI. unfold Ux, Upp. apply (spread (fun c b => blk d (valCrs P) c a b) (fun J b => nth (J * d + b) x rO)). intros. apply (upp_cols I); auto. Qed.

Hypothesis HV : values_ok P.
Lemma forward_solves : forall D b, inverts P D -> length b = nb * d ->
  wp (ForwardSubstitution K P b) (fun y => length y = nb * d /\ forall I a, I < nb -> a < d -> radd (Lx y I a) (sumn d (fun e => rmul (D I a e) (nth (I * d + e) y rO))) = nth (I * d + a) b rO).
Proof.
  intros D b HD Hb. eapply wp_mono; [apply (ForwardSubstitution_ok K P HPt HV); auto|]. intros y (Hy & H). split; [auto|]. intros I a HI Ha.
  rewrite Lx_row by auto. set (R := rowsub K P d (blk d (valCrs P)) (cI P I) (dI P I) y) in *.
  transitivity (radd (R a) (sumn d (fun q => if q =? a then rsub (nth (I * d + q) b rO) (R q) else rO))); [|rewrite sumn_pick by auto; ring]. f_equal.
  transitivity (sumn d (fun e => sumn d (fun q => rmul (rmul (D I a e) (blk d (valDia P) I e q)) (rsub (nth (I * d + q) b rO) (R q))))).
  - apply sumn_ext. intros e He. rewrite H by auto. rewrite <- sumn_mull. apply sumn_ext. intros. unfold R. ring.
  - rewrite sumn_swap. apply sumn_ext. intros q Hq. rewrite sumn_mulr. rewrite HD by auto. unfold delta. rewrite (Nat.eqb_sym a q). destruct (q =? a); ring.
Qed.
Lemma backward_solves : forall b, length b = nb * d ->
  wp (BackwardSubstitution K P b) (fun x => length x = nb * d /\ forall I a, I < nb -> a < d -> radd (nth (I * d + a) x rO) (Ux x I a) = nth (I * d + a) b rO).
Proof.
  intros b Hb. eapply wp_mono; [apply (BackwardSubstitution_ok K P HPt HV); auto|]. intros y (Hy & H). split; [auto|]. intros I a HI Ha. rewrite Ux_row by auto. rewrite H by auto. ring.
Qed.
Definition LDUx (D : nat -> nat -> nat -> K) (x : list K) (I a : nat) : K := sumn nb (fun J => sumn d (fun b => rmul (LDU P D I a J b) (nth (J * d + b) x rO))).
Lemma OUx : forall x k e, k < nb -> e < d -> sumn nb (fun J => sumn d (fun b => rmul (radd (if k =? J then delta e b else rO) (Upp P k e J b)) (nth (J * d + b) x rO))) = radd (nth (k * d + e) x rO) (Ux x k e).
Proof.
  intros x k e Hk He. unfold Ux.
  transitivity (radd (sumn nb (fun J => if J =? k then sumn d (fun b => rmul (delta e b) (nth (J * d + b) x rO)) else rO)) (sumn nb (fun J => sumn d (fun b => rmul (Upp P k e J b) (nth (J * d + b) x rO))))).
  - rewrite <- sumn_add. apply sumn_ext. intros J HJ. rewrite (Nat.eqb_sym J k). destruct (k =? J).
    + rewrite <- sumn_add. apply sumn_ext. intros. ring.
    + transitivity (sumn d (fun b => rmul (Upp P k e J b) (nth (J * d + b) x rO))); [apply sumn_ext; intros|]; ring.
  - f_equal. rewrite sumn_pick by auto. transitivity (sumn d (fun b => if b =? e then nth (k * d + b) x rO else rO)); [|apply sumn_pick; auto].
    apply sumn_ext. intros b Hb. unfold delta. rewrite Nat.eqb_sym. destruct (b =? e); ring.
Qed.
Lemma LDUx_split : forall D x y I a, I < nb -> a < d -> (forall k e, k < nb -> e < d -> radd (nth (k * d + e) x rO) (Ux x k e) = nth (k * d + e) y rO) ->
  LDUx D x I a = radd (Lx y I a) (sumn d (fun e => rmul (D I a e) (nth (I * d + e) y rO))).
Proof.
  intros D x y I a HI Ha Hxy. unfold LDUx, LDU.
  transitivity (sumn nb (fun k => sumn d (fun e => rmul (radd (Low P I a k e) (if I =? k then D I a e else rO)) (nth (k * d + e) y rO)))).
  - transitivity (sumn nb (fun J => sumn d (fun b => sumn nb (fun k => sumn d (fun e => rmul (radd (Low P I a k e) (if I =? k then D I a e else rO)) (rmul (radd (if k =? J then delta e b else rO) (Upp P k e J b)) (nth (J * d + b) x rO))))))).
    { apply sumn_ext. intros J HJ. apply sumn_ext. intros b Hb. rewrite <- sumn_mulr. apply sumn_ext. intros k Hk. rewrite <- sumn_mulr. apply sumn_ext. intros e He. ring. }
    transitivity (sumn nb (fun k => sumn d (fun e => rmul (radd (Low P I a k e) (if I =? k then D I a e else rO)) (sumn nb (fun J => sumn d (fun b => rmul (radd (if k =? J then delta e b else rO) (Upp P k e J b)) (nth (J * d + b) x rO))))))).
    + rewrite (sumn_ext K nb _ (fun J => sumn nb (fun k => sumn d (fun b => sumn d (fun e => rmul (radd (Low P I a k e) (if I =? k then D I a e else rO)) (rmul (radd (if k =? J then delta e b else rO) (Upp P k e J b)) (nth (J * d + b) x rO))))))) by (intros; apply sumn_swap).
      rewrite sumn_swap. apply sumn_ext. intros k Hk.
      rewrite (sumn_ext K nb _ (fun J => sumn d (fun e => sumn d (fun b => rmul (radd (Low P I a k e) (if I =? k then D I a e else rO)) (rmul (radd (if k =? J then delta e b else rO) (Upp P k e J b)) (nth (J * d + b) x rO)))))) by (intros; apply sumn_swap).
      rewrite sumn_swap. apply sumn_ext. intros e He. rewrite <- sumn_mull. apply sumn_ext. intros J HJ. rewrite <- sumn_mull. apply sumn_ext. auto.
    + apply sumn_ext. intros k Hk. apply sumn_ext. intros e He. rewrite OUx by auto. rewrite Hxy by auto. auto.
  - unfold Lx. transitivity (radd (sumn nb (fun J => sumn d (fun b => rmul (Low P I a J b) (nth (J * d + b) y rO)))) (sumn nb (fun k => if k =? I then sumn d (fun e => rmul (D I a e) (nth (k * d + e) y rO)) else rO))).
    + rewrite <- sumn_add. apply sumn_ext. intros k Hk. rewrite (Nat.eqb_sym k I). destruct (I =? k).
      * rewrite <- sumn_add. apply sumn_ext. intros. ring.
      * transitivity (sumn d (fun e => rmul (Low P I a k e) (nth (k * d + e) y rO))); [apply sumn_ext; intros|]; ring.
    + f_equal. apply (sumn_pick K nb I (fun k => sumn d (fun e => rmul (D I a e) (nth (k * d + e) y rO)))). auto.
Qed.
Lemma precond_solves : forall D b, inverts P D -> length b = nb * d ->
  wp (SolvePrecond K P b) (fun x => length x = nb * d /\ forall I a, I < nb -> a < d -> LDUx D x I a = nth (I * d + a) b rO).
Proof.
  intros D b HD Hb. unfold SolvePrecond. apply wp_bind. eapply wp_mono; [apply (forward_solves D); auto|]. intros y (Ly & Hy).
  eapply wp_mono; [apply backward_solves; auto|]. intros x (Lx' & Hx). split; [auto|]. intros I a HI Ha. rewrite (LDUx_split D x y) by auto. auto.
Qed.

(** The entries of (L + D)(1 + U). *)
Lemma LDU_expand : forall D I a J b, I < nb -> J < nb -> a < d -> b < d ->
  LDU P D I a J b = radd (radd (Low P I a J b) (if I =? J then D I a b else rO))
    (radd (bigsum (seq (cI P I) (dI P I - cI P I)) (fun c => sumn d (fun e => rmul (blk d (valCrs P) c a e) (Upp P (cp P c) e J b)))) (sumn d (fun e => rmul (D I a e) (Upp P I e J b)))).
Proof.
  intros D I a J b HI HJ Ha Hb. unfold LDU.
  transitivity (radd (radd (sumn nb (fun k => if k =? J then sumn d (fun e => if e =? b then radd (Low P I a k e) (if I =? k then D I a e else rO) else rO) else rO))
                           (sumn nb (fun k => sumn d (fun e => rmul (Low P I a k e) (Upp P k e J b)))))
                     (sumn nb (fun k => if k =? I then sumn d (fun e => rmul (D I a e) (Upp P k e J b)) else rO))).
  - rewrite <- !sumn_add. apply sumn_ext. intros k Hk. rewrite (Nat.eqb_sym k I).
    transitivity (radd (radd (sumn d (fun e => if k =? J then if e =? b then radd (Low P I a k e) (if I =? k then D I a e else rO) else rO else rO)) (sumn d (fun e => rmul (Low P I a k e) (Upp P k e J b)))) (sumn d (fun e => if I =? k then rmul (D I a e) (Upp P k e J b) else rO))).
    + rewrite <- !sumn_add. apply sumn_ext. intros e He. unfold delta. destruct (k =? J), (I =? k), (e =? b); ring.
    + f_equal; [f_equal|]; [destruct (k =? J); auto; apply sumn_zero; auto|destruct (I =? k); auto; apply sumn_zero; auto].
  - rewrite (sumn_pick K nb J (fun k => sumn d (fun e => if e =? b then radd (Low P I a k e) (if I =? k then D I a e else rO) else rO))) by auto.
    rewrite (sumn_pick K d b (fun e => radd (Low P I a J e) (if I =? J then D I a e else rO))) by auto.
    rewrite (sumn_pick K nb I (fun k => sumn d (fun e => rmul (D I a e) (Upp P k e J b)))) by auto.
    unfold Low at 2. rewrite (spread (fun c e => blk d (valCrs P) c a e) (fun k e => Upp P k e J b)); [ring|]. intros. apply (low_cols I); auto.
Qed.
Lemma Low_at : forall I c a b, I < nb -> cI P I <= c < dI P I -> Low P I a (cp P c) b = blk d (valCrs P) c a b.
Proof.
  intros I c a b HI Hc. unfold Low. rewrite <- (bigsum_seq_pick K (cI P I) (dI P I - cI P I) c (fun c => blk d (valCrs P) c a b)) by lia.
  apply bigsum_ext. intros q Hq. apply in_seq in Hq. destruct (Nat.eqb_spec (cp P q) (cp P c)) as [E|E], (Nat.eqb_spec q c) as [E'|E']; auto.
  - exfalso. apply E'. destruct HPt as (_ & _ & _ & _ & H5 & _). pose proof (H5 I HI). apply (cp_inj K P HPt I); auto; lia.
  - subst. lia.
Qed.
Lemma Upp_at : forall I c a b, I < nb -> dI P I <= c < cI P (S I) -> Upp P I a (cp P c) b = blk d (valCrs P) c a b.
Proof.
  intros I c a b HI Hc. unfold Upp. rewrite <- (bigsum_seq_pick K (dI P I) (cI P (S I) - dI P I) c (fun c => blk d (valCrs P) c a b)) by lia.
  apply bigsum_ext. intros q Hq. apply in_seq in Hq. destruct (Nat.eqb_spec (cp P q) (cp P c)) as [E|E], (Nat.eqb_spec q c) as [E'|E']; auto.
  - exfalso. apply E'. destruct HPt as (_ & _ & _ & _ & H5 & _). pose proof (H5 I HI). apply (cp_inj K P HPt I); auto; lia.
  - subst. lia.
Qed.
Lemma Low_zero : forall I J a b, (forall c, cI P I <= c < dI P I -> cp P c <> J) -> Low P I a J b = rO.
Proof. intros I J a b H. unfold Low. apply bigsum_zero. intros c Hc. apply in_seq in Hc. rewrite (proj2 (Nat.eqb_neq _ _)); auto. apply H. lia. Qed.
Lemma Upp_zero : forall I J a b, (forall c, dI P I <= c < cI P (S I) -> cp P c <> J) -> Upp P I a J b = rO.
Proof. intros I J a b H. unfold Upp. apply bigsum_zero. intros c Hc. apply in_seq in Hc. rewrite (proj2 (Nat.eqb_neq _ _)); auto. apply H. lia. Qed.
End A.

(** What Decompose promises: the same pattern, and factors whose product has the old values at the stored places. *)
Section B.
Variable F : pfield.
Local Notation K := (pK F).
Add Ring Kr7 : (rlaws K).
Variable P : ilu K.
Hypothesis HPt : pattern_ok P.
Hypothesis HV : values_ok P.
Local Notation nb := (nblk P).
Local Notation d := (ndim P).

Local Notation factors := (factors P).
Lemma rowok_factors : forall P' D, same_shape P P' -> (forall I, I < nb -> rowok F P (valCrs P') (valDia P') D I) -> inverts P' D /\ factors P' D.
Proof.
  intros [nb' d' cI' rP' dI' vc vd] D (E1 & E2 & E3 & E4 & E5) HR. cbn in E1, E2, E3, E4, E5. subst nb' d' cI' rP' dI'. cbn [valCrs valDia] in HR.
  set (P' := mkI (nblk P) (ndim P) (colInd P) (rowPtr P) (diaInd P) vc vd) in *.
  assert (HPt' : pattern_ok P') by exact HPt. pose proof HPt as (Q1 & Q2 & Q3 & Q4 & H5 & H6 & H7 & H8).
  assert (EX : forall I a J b, I < nb -> J < nb -> a < d -> b < d -> LDU P' D I a J b = radd (radd (Low P' I a J b) (if I =? J then D I a b else rO))
    (radd (rowterm F P vc (cI P I) (dI P I) a J b) (sumn d (fun e => rmul (D I a e) (Upp P' I e J b))))) by exact (LDU_expand K P' HPt' D).
  split; [|split; [|split]].
  - intros I a b HI Ha Hb. apply (HR I HI); auto.
  - intros I a b HI Ha Hb. destruct (HR I HI) as (_ & _ & _ & R4). rewrite EX by auto. rewrite R4 by auto. rewrite Nat.eqb_refl.
    rewrite Low_zero. 2:{ intros c Hc. pose proof (H6 I c HI Hc). change (cp P' c) with (cp P c). lia. }
    rewrite (sumn_zero K d (fun e => rmul (D I a e) (Upp P' I e I b))); [ring|]. intros e He. rewrite Upp_zero; [ring|]. intros c Hc. pose proof (H7 I c HI Hc). change (cp P' c) with (cp P c). lia.
  - intros I c a b HI Hc Ha Hb. destruct (HR I HI) as (_ & R2 & R3 & _). destruct (row_cases K P HPt I c HI Hc) as [(Hc1 & Hc2)|(Hc1 & Hc2)].
    + rewrite EX by (auto; lia). rewrite R2 by (auto; lia). change (Low P' I a (cp P c) b) with (Low P' I a (cp P' c) b). rewrite (Low_at K P' HPt') by (auto; change (cI P' I <= c < dI P' I) with (cI P I <= c < dI P I); lia).
      rewrite (proj2 (Nat.eqb_neq I (cp P c))) by lia. rewrite (sumn_zero K d (fun e => rmul (D I a e) (Upp P' I e (cp P c) b))); [cbn [ndim valCrs]; unfold P'; cbn [ndim valCrs]; ring|].
      intros e He. rewrite Upp_zero; [ring|]. intros q Hq. pose proof (H7 I q HI Hq). change (cp P' q) with (cp P q). lia.
    + rewrite EX by (auto; lia). rewrite R3 by (auto; lia). rewrite Low_zero. 2:{ intros q Hq. pose proof (H6 I q HI Hq). change (cp P' q) with (cp P q). lia. }
      rewrite (proj2 (Nat.eqb_neq I (cp P c))) by lia.
      rewrite (sumn_ext K d (fun e => rmul (D I a e) (Upp P' I e (cp P c) b)) (fun e => rmul (D I a e) (blk d vc c e b))); [ring|].
      intros e He. f_equal. apply (Upp_at K P' HPt' I c e b); auto. change (dI P I <= c < cI P (S I)). lia.
  - intros HF I J a b HI HJ Ha Hb Hn Hst. rewrite EX by auto. rewrite (proj2 (Nat.eqb_neq I J) Hn).
    assert (Hno : forall c, cI P I <= c < cI P (S I) -> cp P c <> J) by (intros c Hc Ec; apply Hst; exists c; auto).
    pose proof (H5 I HI) as H5I.
    rewrite Low_zero. 2:{ intros q Hq. apply Hno. change (cI P I <= q < dI P I) in Hq. lia. }
    rewrite (sumn_zero K d (fun e => rmul (D I a e) (Upp P' I e J b))). 2:{ intros e He. rewrite Upp_zero; [ring|]. intros q Hq. apply Hno. change (dI P I <= q < cI P (S I)) in Hq. lia. }
    replace (rowterm F P vc (cI P I) (dI P I) a J b) with (@rO K); [ring|]. symmetry. unfold rowterm. apply bigsum_zero. intros c Hc. apply in_seq in Hc.
    unfold Lterm. apply sumn_zero. intros e He. replace (Uv F P vc (cp P c) e J b) with (@rO K); [ring|]. symmetry. apply (Upp_zero K P' (cp P c) J e b).
    intros q Hq Eq. change (cp P q = J) in Eq. change (dI P (cp P c) <= q < cI P (S (cp P c))) in Hq.
    assert (Hck : cp P c < I) by (apply (H6 I c); auto; lia). assert (Hckn : cp P c < nb) by lia. pose proof (H7 (cp P c) q Hckn Hq). pose proof (H5 (cp P c) Hckn).
    apply Hst. apply (HF I (cp P c) J); auto; try lia.
    + exists c. split; [lia|auto].
    + exists q. split; [lia|auto].
Qed.

Definition dec_post '((ret, ns, P') : bool * nat * ilu K) : Prop :=
  same_shape P P' /\ values_ok P' /\ ret = (ns <=? 10) /\ (ns = 0 -> exists D, inverts P' D /\ factors P' D).
Lemma decompose_gen : forall t L (ld : list K -> nat -> option L) subc subd inv mulc,
  (forall v ik, ik < length (rowPtr P) -> length v = length (rowPtr P) * (d * d) -> exists l, ld v ik = Some l) ->
  subc_ok F (length (rowPtr P)) d ld subc -> subd_ok F (length (rowPtr P)) nb d ld subd -> inv_ok F nb d inv -> (t = true -> inv_tot F nb d inv) -> mulc_ok F (length (rowPtr P)) nb d mulc ->
  wpt t (decompose F ld subc subd inv mulc P) dec_post.
Proof.
  intros t L ld subc subd inv mulc H1 H2 H3 H4 H5 H6. destruct HV as (V1 & V2).
  eapply wpt_mono; [apply (decompose_ok F P L HPt ld subc subd inv mulc H1 H2 H3 H4 t H5 H6 V1 V2)|].
  intros ((ret & ns) & P') (E1 & E2 & E3 & E4 & E5 & L1 & L2 & Er & HD).
  assert (SS : same_shape P P') by (repeat split; auto). split; [auto|]. split; [split; [rewrite E4, E2|rewrite E1, E2]; auto|]. split; [auto|].
  intros Hz. destruct (HD Hz) as (D & HR). exists D. apply rowok_factors; auto.
Qed.
Lemma Decompose_ok : wp (Decompose F P) dec_post.
Proof.
  assert (G : wpt true (Decompose F P) dec_post).
  { unfold Decompose. pose proof decompose_gen as G. revert G.
    destruct d as [|[|[|[|n]]]]; intros G; apply G;
      auto using subc1_ok, subd1_ok, mulc1_ok, subc2_ok, subd2_ok, mulc2_ok, subc3_ok, subd3_ok, mulc3_ok, subcn_ok, subdn_ok, mulcn_ok;
      try (intros v ik Hik Hl; eexists; first [reflexivity | apply (vget_nth _ rO); lia]);
      try apply inv1_ok; try apply inv2_ok; try apply inv3_ok; try apply invn_ok; intros _; try apply inv1_ok; try apply inv2_ok; try apply inv3_ok; try apply invn_ok. }
  destruct (Decompose F P) as [r|]; [exact G|discriminate].
Qed.
Lemma Decompose_complex_ok : (forall x y : K, recip x = Some y -> rmul x y = rI) -> forall r, Decompose_complex F P = Some r -> dec_post r.
Proof.
  intros HR r. assert (G : wpt false (Decompose_complex F P) dec_post).
  { unfold Decompose_complex. pose proof decompose_gen as G. revert G. destruct d as [|[|n]]; intros G; [reflexivity| |reflexivity].
    apply G; auto using subc1_ok, subd1_ok, mulc1_ok, inv1c_ok.
    - intros v ik Hik Hl. eexists. apply (vget_nth _ rO). lia.
    - discriminate. }
  intros E. rewrite E in G. exact G.
Qed.
End B.
