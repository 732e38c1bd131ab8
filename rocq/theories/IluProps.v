(** C52: block incomplete LU factorisation (ls_ilu_block_sparse.h, ls_ilu_block_sparse.cpp). *)
From Coq Require Import List Arith Bool Lia ZArith Ring QArith Qabs Qcanon.
Import ListNotations.
From Verif Require Import Imp Alg SpModel SpSpec IluModel IluSpec IluProofs1 IluProofs2 IluProofs5 IluProofs6 IluProofs7 IluProofs8 IluProofs9.
Open Scope nat_scope.

Section S.
Variable K : cring.
Add Ring Kr10 : (rlaws K).

Lemma mulv_LD : forall (P : ilu K) D y I a, I < nblk P -> mulv P (LplusD P D) y I a = radd (Lx K P y I a) (sumn (ndim P) (fun e => rmul (D I a e) (nth (I * ndim P + e) y rO))).
Proof.
  intros P D y I a HI. unfold mulv, Lx, LplusD.
  transitivity (radd (sumn (nblk P) (fun J => sumn (ndim P) (fun b => rmul (Low P I a J b) (nth (J * ndim P + b) y rO)))) (sumn (nblk P) (fun J => if J =? I then sumn (ndim P) (fun e => rmul (D I a e) (nth (J * ndim P + e) y rO)) else rO))).
  - rewrite <- sumn_add. apply sumn_ext. intros J HJ. rewrite (Nat.eqb_sym J I). destruct (I =? J).
    + rewrite <- sumn_add. apply sumn_ext. intros. ring.
    + transitivity (sumn (ndim P) (fun b => rmul (Low P I a J b) (nth (J * ndim P + b) y rO))); [apply sumn_ext; intros|]; ring.
  - f_equal. apply (sumn_pick K (nblk P) I (fun J => sumn (ndim P) (fun e => rmul (D I a e) (nth (J * ndim P + e) y rO)))). auto.
Qed.

(** Forward substitution solves (L + D) y = b, D the block diagonal whose inverse is stored: every block size, every pattern. *)
Theorem C52_forward_substitution : forall (P : ilu K) D b, pattern_ok P -> values_ok P -> inverts P D -> length b = nblk P * ndim P ->
  exists y, ForwardSubstitution K P b = Some y /\ length y = length b /\
    forall I a, I < nblk P -> a < ndim P -> mulv P (LplusD P D) y I a = nth (I * ndim P + a) b rO.
Proof.
  intros P D b HPt HV HD Hb. apply wp_ex. eapply wp_mono; [apply (forward_solves K P HPt HV D b HD Hb)|]. intros y (L & H). split; [lia|]. intros I a HI Ha. rewrite mulv_LD by auto. auto.
Qed.
(** Backward substitution solves (1 + U) x = b. *)
Theorem C52_backward_substitution : forall (P : ilu K) b, pattern_ok P -> values_ok P -> length b = nblk P * ndim P ->
  exists x, BackwardSubstitution K P b = Some x /\ length x = length b /\
    forall I a, I < nblk P -> a < ndim P -> mulv P (OneplusU P) x I a = nth (I * ndim P + a) b rO.
Proof.
  intros P b HPt HV Hb. apply wp_ex. eapply wp_mono; [apply (backward_solves K P HPt HV b Hb)|]. intros x (L & H). split; [lia|]. intros I a HI Ha. unfold mulv, OneplusU. rewrite (OUx K P x) by auto. auto.
Qed.
(** The preconditioner solves (L + D) (1 + U) x = b. *)
Theorem C52_solve_precond : forall (P : ilu K) D b, pattern_ok P -> values_ok P -> inverts P D -> length b = nblk P * ndim P ->
  exists x, SolvePrecond K P b = Some x /\ length x = length b /\
    forall I a, I < nblk P -> a < ndim P -> mulv P (LDU P D) x I a = nth (I * ndim P + a) b rO.
Proof.
  intros P D b HPt HV HD Hb. apply wp_ex. eapply wp_mono; [apply (precond_solves K P HPt HV D b HD Hb)|]. intros x (L & H). split; [lia|]. exact H.
Qed.

(** The degenerate substitutions: a scalar factorisation applied to N components of every unknown at once. *)
Theorem C52_degenerate : forall (P : ilu K) D N b, pattern_ok P -> values_ok P -> ndim P = 1 -> inverts P D -> length b = nblk P * N ->
  (exists y, ForwardSubstitutionDegenerate K P b N = Some y /\ length y = length b /\
    forall I p, I < nblk P -> p < N -> sumn (nblk P) (fun J => rmul (LplusD P D I 0 J 0) (nth (J * N + p) y rO)) = nth (I * N + p) b rO) /\
  (exists x, BackwardSubstitutionDegenerate K P b N = Some x /\ length x = length b /\
    forall I p, I < nblk P -> p < N -> sumn (nblk P) (fun J => rmul (OneplusU P I 0 J 0) (nth (J * N + p) x rO)) = nth (I * N + p) b rO).
Proof.
  intros P D N b HPt HV H1 HD Hb. destruct HV as (V1 & V2). rewrite H1 in V1, V2.
  assert (V1' : length (valCrs P) = length (rowPtr P)) by lia. assert (V2' : length (valDia P) = nblk P) by lia. clear V1 V2.
  pose proof HPt as (Q1 & Q2 & Q3 & Q4 & H5 & H6 & H7 & H8).
  assert (HB : forall c, blk (ndim P) (valCrs P) c 0 0 = nth c (valCrs P) rO) by (intros c; unfold blk; rewrite H1; f_equal; lia).
  assert (HR : forall lo hi x p, p < N -> (forall c, lo <= c < hi -> cp P c < nblk P) ->
     sumn (nblk P) (fun J => rmul (bigsum (seq lo (hi - lo)) (fun c => if cp P c =? J then blk (ndim P) (valCrs P) c 0 0 else rO)) (nth (J * N + p) x rO)) =
     rowsub K P N (fun c p q => if p =? q then nth c (valCrs P) rO else rO) lo hi x p).
  { intros lo hi x p Hp Hc. unfold rowsub.
    transitivity (sumn (nblk P) (fun J => bigsum (seq lo (hi - lo)) (fun c => if J =? cp P c then rmul (nth c (valCrs P) rO) (nth (J * N + p) x rO) else rO))).
    - apply sumn_ext. intros J HJ. rewrite <- bigsum_mulr. apply bigsum_ext. intros c _. rewrite (Nat.eqb_sym J). destruct (cp P c =? J); [rewrite HB|]; ring.
    - unfold sumn at 1. rewrite bigsum_swap. apply bigsum_ext. intros c Hin. apply in_seq in Hin. assert (Hcp : cp P c < nblk P) by (apply Hc; lia).
      pose proof (sumn_pick K (nblk P) (cp P c) (fun J => rmul (nth c (valCrs P) rO) (nth (J * N + p) x rO)) Hcp) as E1. unfold sumn in E1. rewrite E1.
      symmetry. pose proof (sumn_pick K N p (fun q => rmul (nth c (valCrs P) rO) (nth (cp P c * N + q) x rO)) Hp) as E2. rewrite <- E2. apply sumn_ext. intros q Hq. rewrite (Nat.eqb_sym p q). destruct (q =? p); ring. }
  unfold ForwardSubstitutionDegenerate, BackwardSubstitutionDegenerate. rewrite H1, Nat.eqb_refl. cbn [assertb bind]. split.
  - apply wp_ex. eapply wp_mono; [apply (forward_gen K P HPt N _ _ _ _ _ (loadn_ok K (nblk P) N) (subdeg_ok K (nblk P) (length (rowPtr P)) N (valCrs P) V1') (mstoredeg_ok K (nblk P) N (valDia P) V2') b Hb)|].
    intros y (L & H). split; [lia|]. intros I p HI Hp.
    assert (Hc : forall c, cI P I <= c < dI P I -> cp P c < nblk P) by (intros c Hc; pose proof (H6 I c HI Hc); lia).
    pose proof (HR (cI P I) (dI P I) y p Hp Hc) as E. set (S := rowsub K P N _ (cI P I) (dI P I) y) in *.
    assert (Ey : nth (I * N + p) y rO = rmul (nth I (valDia P) rO) (rsub (nth (I * N + p) b rO) (S p))).
    { rewrite H by auto. pose proof (sumn_pick K N p (fun q => rmul (nth I (valDia P) rO) (rsub (nth (I * N + q) b rO) (S q))) Hp) as E2. rewrite <- E2. apply sumn_ext. intros q Hq. rewrite (Nat.eqb_sym p q). destruct (q =? p); unfold S; ring. }
    assert (ED : rmul (D I 0 0) (nth I (valDia P) rO) = rI).
    { pose proof (HD I 0 0 HI) as G. rewrite H1 in G. specialize (G (Nat.lt_0_succ 0) (Nat.lt_0_succ 0)). unfold sumn in G. cbn [seq] in G. rewrite bigsum_cons, bigsum_nil in G. unfold blk, delta in G. rewrite Nat.eqb_refl in G. replace (I * (1 * 1) + 0 * 1 + 0) with I in G by lia. rewrite <- G. ring. }
    unfold LplusD.
    transitivity (radd (sumn (nblk P) (fun J => rmul (Low P I 0 J 0) (nth (J * N + p) y rO))) (sumn (nblk P) (fun J => if J =? I then rmul (D I 0 0) (nth (J * N + p) y rO) else rO))).
    { rewrite <- sumn_add. apply sumn_ext. intros J HJ. rewrite (Nat.eqb_sym J I). destruct (I =? J); ring. }
    rewrite (sumn_pick K (nblk P) I (fun J => rmul (D I 0 0) (nth (J * N + p) y rO)) HI). unfold Low. rewrite E. rewrite Ey.
    transitivity (radd (S p) (rmul (rmul (D I 0 0) (nth I (valDia P) rO)) (rsub (nth (I * N + p) b rO) (S p)))); [ring|]. rewrite ED. ring.
  - apply wp_ex. eapply wp_mono; [apply (backward_gen K P HPt N _ _ _ _ (loadn_ok K (nblk P) N) (subdeg_ok K (nblk P) (length (rowPtr P)) N (valCrs P) V1') (cstoren_ok K (nblk P) N) b Hb)|].
    intros y (L & H). split; [lia|]. intros I p HI Hp.
    assert (Hc : forall c, dI P I <= c < cI P (S I) -> cp P c < nblk P) by (intros c Hc; pose proof (H7 I c HI Hc); lia).
    pose proof (HR (dI P I) (cI P (S I)) y p Hp Hc) as E. unfold OneplusU.
    transitivity (radd (sumn (nblk P) (fun J => if J =? I then nth (J * N + p) y rO else rO)) (sumn (nblk P) (fun J => rmul (Upp P I 0 J 0) (nth (J * N + p) y rO)))).
    { rewrite <- sumn_add. apply sumn_ext. intros J HJ. rewrite (Nat.eqb_sym J I). unfold delta. rewrite Nat.eqb_refl. destruct (I =? J); ring. }
    rewrite (sumn_pick K (nblk P) I (fun J => nth (J * N + p) y rO) HI). unfold Upp. rewrite E, H by auto. ring.
Qed.

(** Copying a matrix puts its numbers into the pattern: blocks of m, and 0 where m has no block. *)
Lemma msum_dense : forall (m : matsp K) I J a b, I <> J -> msum K m I (ci m (S I)) J a b = dense m I a J b.
Proof. intros m I J a b H. unfold msum, dense, row_range. rewrite (proj2 (Nat.eqb_neq I J) H). ring. Qed.
Lemma stored_off : forall (P : ilu K) I c, pattern_ok P -> I < nblk P -> cI P I <= c < cI P (S I) -> cp P c <> I /\ cp P c < nblk P.
Proof.
  intros P I c (Q1 & Q2 & Q3 & Q4 & H5 & H6 & H7 & H8) HI Hc. destruct (Nat.lt_ge_cases c (dI P I)) as [H|H].
  - pose proof (H6 I c HI). lia.
  - pose proof (H7 I c HI). lia.
Qed.
Theorem C52_copy_value : forall (P : ilu K) m, pattern_ok P -> values_ok P -> wf m -> square m -> simple_rows m -> nrowblk m = nblk P -> nrowdim m = ndim P ->
  exists P', CopyValue K P m = Some P' /\ same_shape P P' /\ values_ok P' /\
    (forall I a b, I < nblk P -> a < ndim P -> b < ndim P -> blk (ndim P) (valDia P') I a b = dense m I a I b) /\
    (forall I c a b, I < nblk P -> cI P I <= c < cI P (S I) -> a < ndim P -> b < ndim P -> blk (ndim P) (valCrs P') c a b = dense m I a (cp P c) b).
Proof.
  intros P m HPt HV Hwf Hsq Hs Hnb Hd. apply wp_ex. eapply wp_mono; [apply (CopyValue_ok K P m HPt HV Hwf Hsq Hs Hnb Hd)|]. intros P' (H1 & H2 & H3 & H4). split; auto. split; auto. split.
  - intros I a b HI Ha Hb. unfold blk, dense. rewrite H3, Nat.eqb_refl. unfold dia. destruct Hsq as (S1 & S2). rewrite <- S2, Hd.
    rewrite bigsum_zero; [ring|]. intros c Hc. destruct (Nat.eqb_spec (rp m c) I) as [E|]; auto. exfalso. destruct (Hs I) as (_ & Hn); [lia|]. apply Hn. apply in_map_iff. eauto.
  - intros I c a b HI Hc Ha Hb. rewrite (H4 I) by auto. apply msum_dense. destruct (stored_off P I c HPt HI Hc). auto.
Qed.

(** Level 0: exactly the blocks of the matrix. *)
Theorem C52_pattern_level0 : forall (P0 : ilu K) m, wf m -> square m -> simple_rows m -> ci m 0 = 0 ->
  exists P, Initialize_ILUk K P0 m (Some 0) = Some P /\ SetPattern0 K P0 m = Some P /\ pattern_ok P /\ values_ok P /\ nblk P = nrowblk m /\ ndim P = nrowdim m /\
    forall I J, I < nrowblk m -> (stored P I J <-> in_pattern m I J).
Proof.
  intros P0 m Hwf Hsq Hs H0. pose proof (SetPattern0_ok K P0 m Hwf Hsq Hs H0) as H. apply wp_ex in H. destruct H as (P & E & H1 & H2 & H3 & H4 & H5). exists P. rewrite <- H3. split; [exact E|]. auto 10.
Qed.
(** Other levels: the stored blocks carry fill levels; the blocks of the matrix are there with level 0, every stored block has a fill level below or at the
    limit, and what two stored blocks below the limit fill in is stored. *)
Theorem C52_pattern_levels : forall (P0 : ilu K) m lev_fill, wf m -> square m -> simple_rows m -> ci m 0 = 0 -> (forall I, I < nrowblk m -> ci m I < ci m (S I)) ->
  nth 0 (colInd P0) 0 = 0 -> 0 < nrowblk m -> 0 < nrowdim m -> lev_fill <> Some 0 ->
  exists P, Initialize_ILUk K P0 m lev_fill = Some P /\ pattern_ok P /\ values_ok P /\ nblk P = nrowblk m /\ ndim P = nrowdim m /\
    exists level : nat -> nat,
      (forall I J, I < nrowblk m -> in_pattern m I J -> exists c, cI P I <= c < cI P (S I) /\ cp P c = J /\ level c = 0) /\
      (forall I c, I < nrowblk m -> cI P I <= c < cI P (S I) -> fill_level m lev_fill I (cp P c) (level c)) /\
      (forall I c c', I < nrowblk m -> cI P I <= c < cI P (S I) -> cp P c < I -> below (level c) lev_fill ->
         cI P (cp P c) <= c' < cI P (S (cp P c)) -> cp P c < cp P c' -> cp P c' <> I -> below (level c') lev_fill -> stored P I (cp P c')).
Proof.
  intros P0 m lf H1 H2 H3 H4 H5 H6 H7 H8 H9. pose proof (Initialize_ok K P0 m lf H1 H2 H3 H4 H5 H6 H7 H8 H9) as H. apply wp_ex in H. exact H.
Qed.
(** The limit holds for the fill levels, and fill of any level lies in every pattern that has the blocks of the matrix and is closed under elimination. *)
Theorem C52_level_limit : forall (m : matsp K) l I J v, fill_level m (Some l) I J v -> v <= l.
Proof. intros m l I J v H. induction H; cbn [below] in *; lia. Qed.
Theorem C52_fill_minimal : forall (m : matsp K) lev_fill (Q : nat -> nat -> Prop), (forall I J, I < nrowblk m -> in_pattern m I J -> Q I J) ->
  (forall I k J, I < nrowblk m -> k < I -> k < J -> J <> I -> Q I k -> Q k J -> Q I J) -> forall I J v, fill_level m lev_fill I J v -> Q I J.
Proof. intros m lf Q H1 H2 I J v H. induction H; eauto. Qed.
(** Level -1 keeps all the fill. *)
Theorem C52_complete_pattern : forall (P0 : ilu K) m, wf m -> square m -> simple_rows m -> ci m 0 = 0 -> (forall I, I < nrowblk m -> ci m I < ci m (S I)) ->
  nth 0 (colInd P0) 0 = 0 -> 0 < nrowblk m -> 0 < nrowdim m ->
  exists P, Initialize_ILUk K P0 m None = Some P /\ pattern_ok P /\ values_ok P /\ nblk P = nrowblk m /\ ndim P = nrowdim m /\
    (forall I J, I < nrowblk m -> in_pattern m I J -> stored P I J) /\ fill_closed P /\
    (forall I J, I < nrowblk m -> (stored P I J <-> exists v, fill_level m None I J v)).
Proof.
  intros P0 m H1 H2 H3 H4 H5 H6 H7 H8. assert (N : @None nat <> Some 0) by discriminate.
  destruct (C52_pattern_levels P0 m None H1 H2 H3 H4 H5 H6 H7 H8 N) as (P & E & A1 & A2 & A3 & A4 & lv & B1 & B2 & B3). exists P.
  assert (Hsup : forall I J, I < nrowblk m -> in_pattern m I J -> stored P I J) by (intros I J HI HJ; destruct (B1 I J HI HJ) as (c & Hc & Ec & _); exists c; auto).
  assert (Hcl : fill_closed P).
  { intros I k J HI Hk HkJ HJI (c & Hc & Ec) (c' & Hc' & Ec'). rewrite A3 in HI. subst k J. apply (B3 I c c'); auto; exact Logic.I. }
  split; auto. split; auto. split; auto. split; auto. split; auto. split; auto. split; auto.
  intros I J HI. split; [intros (c & Hc & <-); exists (lv c); auto|]. intros (v & H). clear HI. induction H; auto. apply (Hcl I k J); auto. lia.
Qed.
End S.

Section F.
Variable F : pfield.
(** The factorisation ends, keeps the pattern, and returns false after more than ten singular pivots.  If no pivot was reported as singular, the
    diagonal array holds the inverses of a block diagonal D, and (L + D) (1 + U) has the numbers of the input on the diagonal and at every stored block. *)
Theorem C52_factorise : forall P : ilu F, pattern_ok P -> values_ok P ->
  exists ret ns P', Decompose F P = Some (ret, ns, P') /\ same_shape P P' /\ values_ok P' /\ ret = (ns <=? 10) /\ (ns = 0 -> exists D, inverts P' D /\ factors P P' D).
Proof.
  intros P HPt HV. pose proof (Decompose_ok F P HPt HV) as H. apply wp_ex in H. destruct H as (((ret & ns) & P') & E & H). exists ret, ns, P'. auto.
Qed.
Theorem C52_factorise_complex : (forall x y : F, recip x = Some y -> rmul x y = rI) -> forall (P : ilu F) ret ns P', pattern_ok P -> values_ok P -> Decompose_complex F P = Some (ret, ns, P') ->
  same_shape P P' /\ values_ok P' /\ (ns = 0 -> exists D, inverts P' D /\ factors P P' D).
Proof. intros HR P ret ns P' HPt HV E. destruct (Decompose_complex_ok F P HPt HV HR _ E) as (A & B & C & G). auto. Qed.

Lemma shape_pattern : forall P P' : ilu F, same_shape P P' -> pattern_ok P -> pattern_ok P'.
Proof. intros [] [] (E1 & E2 & E3 & E4 & E5) H. cbn in *. subst. exact H. Qed.
Lemma shape_stored : forall (P P' : ilu F) I J, same_shape P P' -> stored P I J <-> stored P' I J.
Proof. intros [] [] I J (E1 & E2 & E3 & E4 & E5). cbn in *. subst. reflexivity. Qed.
Lemma shape_closed : forall P P' : ilu F, same_shape P P' -> fill_closed P -> fill_closed P'.
Proof. intros [] [] (E1 & E2 & E3 & E4 & E5) H. cbn in *. subst. exact H. Qed.
Lemma stored_dec : forall (P : ilu F) I J, {stored P I J} + {~ stored P I J}.
Proof.
  intros P I J. destruct (in_dec Nat.eq_dec J (map (cp P) (seq (cI P I) (cI P (S I) - cI P I)))) as [H|H]; [left|right].
  - apply in_map_iff in H. destruct H as (c & E & Hc). apply in_seq in Hc. exists c. split; auto. lia.
  - intros (c & Hc & E). apply H. apply in_map_iff. exists c. split; auto. apply in_seq. lia.
Qed.
(** Copy and factorise: the product agrees with the matrix on the diagonal and on the stored blocks, for every pattern; on the whole matrix
    if the pattern holds the blocks of the matrix and their fill. *)
Lemma copy_factorise : forall (P : ilu F) m P2 ret ns P3, pattern_ok P -> values_ok P -> wf m -> square m -> simple_rows m -> nrowblk m = nblk P -> nrowdim m = ndim P ->
  CopyValue F P m = Some P2 -> Decompose F P2 = Some (ret, ns, P3) -> ns = 0 ->
  same_shape P P3 /\ pattern_ok P3 /\ values_ok P3 /\ exists D, inverts P3 D /\
    (forall I a J b, I < nrowblk m -> a < nrowdim m -> b < nrowdim m -> I = J \/ stored P I J -> LDU P3 D I a J b = dense m I a J b) /\
    (fill_closed P -> (forall I J, I < nrowblk m -> in_pattern m I J -> stored P I J) -> forall I a J b, I < nrowblk m -> J < nrowblk m -> a < nrowdim m -> b < nrowdim m -> LDU P3 D I a J b = dense m I a J b).
Proof.
  intros P m P2 ret ns P3 HPt HV Hwf Hsq Hs Hnb Hd EC ED Hns.
  destruct (C52_copy_value F P m HPt HV Hwf Hsq Hs Hnb Hd) as (P2' & EC' & SS & V2 & C1 & C2). rewrite EC in EC'. injection EC' as <-.
  pose proof (shape_pattern _ _ SS HPt) as HPt2.
  destruct (C52_factorise P2 HPt2 V2) as (ret' & ns' & P3' & ED' & SS3 & V3 & _ & HF). rewrite ED in ED'. injection ED' as <- <- <-. destruct (HF Hns) as (D & HD & F1 & F2 & F3).
  pose proof SS as (E1 & E2 & E3 & E4 & E5). pose proof SS3 as (G1 & G2 & G3 & G4 & G5).
  split; [unfold same_shape; repeat split; congruence|]. split; [apply (shape_pattern _ _ SS3); auto|]. split; auto. exists D. split; auto.
  rewrite E1, E2 in F1, F2, F3. rewrite Hnb, Hd.
  assert (A : forall I a J b, I < nblk P -> a < ndim P -> b < ndim P -> I = J \/ stored P I J -> LDU P3 D I a J b = dense m I a J b).
  { intros I a J b HI Ha Hb [<-|(c & Hc & <-)].
    - rewrite F1 by auto. apply C1; auto.
    - assert (Ecp : cp P2 c = cp P c) by (unfold cp; congruence). rewrite <- Ecp at 1. rewrite F2; auto. unfold cI. rewrite E3. auto. }
  split; auto. intros Hcl Hsup I a J b HI HJ Ha Hb. destruct (Nat.eq_dec I J) as [->|N]; [apply A; auto|]. destruct (stored_dec P I J) as [HS|HS]; [apply A; auto|].
  rewrite F3; auto; [|apply (shape_closed _ _ SS Hcl)|rewrite <- (shape_stored _ _ I J SS); auto].
  unfold dense. rewrite (proj2 (Nat.eqb_neq I J) N). rewrite bigsum_zero.
  - symmetry. apply (Radd_0_l (rlaws F)).
  - intros c Hc. destruct (Nat.eqb_spec (rp m c) J) as [E|]; auto. exfalso. apply HS. apply Hsup; auto. exists c. auto.
Qed.
(** The whole chain at any level of fill: the product of the factors agrees with the matrix on the diagonal and on every block of the matrix. *)
Theorem C52_incomplete_factorisation : forall (P0 : ilu F) m lev_fill P1 P2 ret P3, wf m -> square m -> simple_rows m -> ci m 0 = 0 ->
  (lev_fill <> Some 0 -> (forall I, I < nrowblk m -> ci m I < ci m (S I)) /\ nth 0 (colInd P0) 0 = 0 /\ 0 < nrowblk m /\ 0 < nrowdim m) ->
  Initialize_ILUk F P0 m lev_fill = Some P1 -> CopyValue F P1 m = Some P2 -> Decompose F P2 = Some (ret, 0, P3) ->
  exists D, inverts P3 D /\ (forall I a J b, I < nrowblk m -> a < nrowdim m -> b < nrowdim m -> I = J \/ in_pattern m I J -> LDU P3 D I a J b = dense m I a J b).
Proof.
  intros P0 m lf P1 P2 ret P3 Hwf Hsq Hs H0 Hx E1 E2 E3.
  assert (H : pattern_ok P1 /\ values_ok P1 /\ nblk P1 = nrowblk m /\ ndim P1 = nrowdim m /\ (forall I J, I < nrowblk m -> in_pattern m I J -> stored P1 I J)).
  { assert (Hdec : lf = Some 0 \/ lf <> Some 0) by (destruct lf as [[|]|]; [left|right|right]; congruence). destruct Hdec as [->|N].
    - destruct (C52_pattern_level0 F P0 m Hwf Hsq Hs H0) as (P & EP & _ & A1 & A2 & A3 & A4 & A5). rewrite E1 in EP. injection EP as <-. split; auto. split; auto. split; auto. split; auto. intros I J HI. apply A5. auto.
    - destruct (Hx N) as (X1 & X2 & X3 & X4). destruct (C52_pattern_levels F P0 m lf Hwf Hsq Hs H0 X1 X2 X3 X4 N) as (P & EP & A1 & A2 & A3 & A4 & lv & A5 & _). rewrite E1 in EP. injection EP as <-. split; auto. split; auto. split; auto. split; auto. intros I J HI HJ. destruct (A5 I J HI HJ) as (c & Hc & Ec & _). exists c. auto. }
  destruct H as (A1 & A2 & A3 & A4 & A5).
  destruct (copy_factorise P1 m P2 ret 0 P3 A1 A2 Hwf Hsq Hs (eq_sym A3) (eq_sym A4) E2 E3 eq_refl) as (_ & _ & _ & D & HD & B1 & _).
  exists D. split; auto. intros I a J b HI Ha Hb [HJ|HJ]; apply B1; auto.
Qed.
(** With all the fill kept, the preconditioner is a direct solver: A x = b. *)
Theorem C52_complete_factorisation_solves : forall (P0 : ilu F) m b, wf m -> square m -> simple_rows m -> ci m 0 = 0 -> (forall I, I < nrowblk m -> ci m I < ci m (S I)) ->
  nth 0 (colInd P0) 0 = 0 -> 0 < nrowblk m -> 0 < nrowdim m -> length b = nrowblk m * nrowdim m ->
  exists P1 P2 ret ns P3 x, Initialize_ILUk F P0 m None = Some P1 /\ CopyValue F P1 m = Some P2 /\ Decompose F P2 = Some (ret, ns, P3) /\
    (ns = 0 -> SolvePrecond F P3 b = Some x /\ length x = length b /\ forall I a, I < nrowblk m -> a < nrowdim m -> Ax m x I a = nth (I * nrowdim m + a) b rO).
Proof.
  intros P0 m b Hwf Hsq Hs H0 X1 X2 X3 X4 Hb.
  destruct (C52_complete_pattern F P0 m Hwf Hsq Hs H0 X1 X2 X3 X4) as (P1 & EP & A1 & A2 & A3 & A4 & A5 & A6 & _).
  destruct (C52_copy_value F P1 m A1 A2 Hwf Hsq Hs (eq_sym A3) (eq_sym A4)) as (P2 & EC & SS & V2 & _).
  destruct (C52_factorise P2 (shape_pattern _ _ SS A1) V2) as (ret & ns & P3 & ED & _).
  destruct (Nat.eq_dec ns 0) as [->|Nn]; [|exists P1, P2, ret, ns, P3, []; split; auto; split; auto; split; auto; intros C; congruence].
  destruct (copy_factorise P1 m P2 ret 0 P3 A1 A2 Hwf Hsq Hs (eq_sym A3) (eq_sym A4) EC ED eq_refl) as (SS3 & HP3 & V3 & D & HD & _ & B2).
  pose proof SS3 as (G1 & G2 & _). assert (Hb3 : length b = nblk P3 * ndim P3) by (rewrite G1, G2, A3, A4; auto).
  destruct (C52_solve_precond F P3 D b HP3 V3 HD Hb3) as (x & Ex & Lx & Hx). exists P1, P2, ret, 0, P3, x. split; auto. split; auto. split; auto. intros _. split; auto. split; auto.
  intros I a HI Ha. destruct Hsq as (S1 & S2). unfold Ax. rewrite <- S1, <- S2. specialize (Hx I a). rewrite G1, G2, A3, A4 in Hx. rewrite <- Hx by auto. unfold mulv. rewrite G1, G2, A3, A4.
  apply sumn_ext. intros J HJ. apply sumn_ext. intros c Hc. rewrite B2; auto.
Qed.
End F.

(** ---- concrete instances over the rationals ---- *)
Definition Qcr : cring := mkRing Qc (Q2Qc 0) (Q2Qc 1) Qcplus Qcmult Qcminus Qcopp Qcrt.
Definition eps : Q := 1 # (10 ^ 30).
Definition Qpf : pfield.
Proof.
  refine (mkPF Qcr (fun x => if Qc_eq_dec x (Q2Qc 0) then None else Some (Qcinv x)) (fun x => negb (Qle_bool (Qabs (this x)) eps)) (fun x => negb (Qle_bool eps (Qabs (this x)))) (fun x => negb (Qle_bool 0 (this x))) _ _).
  - intros x H. destruct (Qc_eq_dec x (Q2Qc 0)) as [->|N]; [vm_compute in H; discriminate|]. exists (Qcinv x). split; auto. apply Qcmult_inv_r. auto.
  - intros x H. destruct (Qc_eq_dec x (Q2Qc 0)) as [->|N]; [vm_compute in H; discriminate|]. exists (Qcinv x). split; auto. apply Qcmult_inv_r. auto.
Defined.
Definition q (z : Z) : Qpf := Q2Qc (inject_Z z).
Definition P0 : ilu Qpf := mkI 0 0 [] [] [] [] [].

(** A cycle of four unknowns: eliminating unknown 0 creates the blocks (1, 3) and (3, 1). *)
Definition exM : matsp Qpf := mkM 4 4 1 1 [0; 2; 4; 6; 8] [3; 1; 0; 2; 1; 3; 0; 2] (map q [1; 2; 3; 1; 1; 2; 2; 1]%Z) (map q [7; 8; 9; 10]%Z).
Example ex_wf : wf exM /\ square exM /\ simple_rows exM /\ ci exM 0 = 0 /\ (forall I, I < nrowblk exM -> ci exM I < ci exM (S I)).
Proof.
  split; [|split; [split; reflexivity|split; [|split; [reflexivity|]]]].
  - repeat split; try reflexivity; try (cbn; lia).
    + intros I HI. cbn in HI. do 4 (destruct I as [|I]; [cbn; lia|]). lia.
    + intros c Hc. cbn in Hc. do 8 (destruct c as [|c]; [cbn; lia|]). lia.
  - intros I HI. cbn in HI. do 4 (destruct I as [|I]; [cbn; split; [repeat constructor; cbn; intuition lia|intuition lia]|]). lia.
  - intros I HI. cbn in HI. do 4 (destruct I as [|I]; [cbn; lia|]). lia.
Qed.
Example ex_pattern : option_map (fun P => (colInd P, rowPtr P, diaInd P)) (Initialize_ILUk Qpf P0 exM None) = Some ([0; 2; 5; 7; 10], [1; 3; 0; 2; 3; 1; 3; 0; 1; 2], [0; 3; 6; 10]).
Proof. vm_compute. reflexivity. Qed.
Example ex_pattern0 : option_map (fun P => (colInd P, rowPtr P, diaInd P)) (Initialize_ILUk Qpf P0 exM (Some 0)) = Some ([0; 2; 4; 6; 8], [1; 3; 0; 2; 1; 3; 0; 2], [0; 3; 5; 8]).
Proof. vm_compute. reflexivity. Qed.
(** The chain runs without a singular pivot and solves the system. *)
Definition chain (m : matsp Qpf) (lev : option nat) (b : list Qpf) : option (bool * nat * list Qpf) :=
  P1 <- Initialize_ILUk Qpf P0 m lev ;; P2 <- CopyValue Qpf P1 m ;; '(ret, ns, P3) <- Decompose Qpf P2 ;; x <- SolvePrecond Qpf P3 b ;; Some (ret, ns, x).
Example ex_chain : option_map (fun '(ret, ns, x) => (ret, ns, map (fun I => this (Ax exM x I 0)) (seq 0 4))) (chain exM None (map q [1; 2; 3; 4]%Z)) = Some (true, 0, [1; 2; 3; 4]%Q).
Proof. vm_compute. reflexivity. Qed.
(** 2x2 blocks: a star with centre 0; eliminating the centre creates the blocks (1, 2) and (2, 1). *)
Definition exM2 : matsp Qpf := mkM 3 3 2 2 [0; 2; 3; 4] [2; 1; 0; 0] (map q [1; 2; 0; 1; 2; 1; 1; 0; 1; 0; 3; 1; 1; 1; 2; 2]%Z) (map q [9; 1; 2; 8; 7; 1; 0; 9; 11; 2; 1; 10]%Z).
Example ex_chain2 : option_map (fun '(ret, ns, x) => (ret, ns, map (fun k => this (Ax exM2 x (k / 2) (k mod 2))) (seq 0 6))) (chain exM2 None (map q [1; 2; 3; 4; 5; 6]%Z)) = Some (true, 0, [1; 2; 3; 4; 5; 6]%Q).
Proof. vm_compute. reflexivity. Qed.

(** The return value does not tell whether the factorisation succeeded: with up to ten singular pivots it is true, and the factors are wrong. *)
Theorem C52_return_value_refuted : ~ (forall (F : pfield) (P : ilu F) ns P', pattern_ok P -> values_ok P -> Decompose F P = Some (true, ns, P') -> exists D, inverts P' D).
Proof.
  intros H. set (P := mkI 1 1 [0; 0] [] [0] [] [q 0] : ilu Qpf).
  assert (HP : pattern_ok P). { unfold pattern_ok, cI, dI, cp, P. cbn [nblk colInd diaInd rowPtr length]. repeat split; try reflexivity; intros; destruct I as [|I]; cbn in *; lia. }
  assert (HV : values_ok P) by (split; reflexivity).
  destruct (H Qpf P 1 P HP HV) as (D & HD); [vm_compute; reflexivity|].
  specialize (HD 0 0 0 (Nat.lt_0_succ 0) (Nat.lt_0_succ 0) (Nat.lt_0_succ 0)). unfold sumn, blk, delta in HD. cbn [ndim P seq valDia nth Nat.mul Nat.add Nat.eqb] in HD. rewrite bigsum_cons, bigsum_nil in HD.
  assert (E : radd (rmul (D 0 0 0) (q 0)) rO = (rO : Qpf)) by (change (q 0) with (rO : Qpf); rewrite (Radd_comm (rlaws Qpf)), (Radd_0_l (rlaws Qpf)); exact (Qcmult_0_r (D 0 0 0))).
  assert (E2 : (rO : Qpf) = rI) by (rewrite <- E; exact HD). discriminate (f_equal (fun x : Qc => Qeq_bool (this x) 0) E2).
Qed.
(** A block row without off-diagonal blocks has no result at levels other than 0: the code reads the entry before the first of an empty list. *)
Theorem C52_empty_row_refuted : ~ (forall (F : pfield) (P0 : ilu F) m lev_fill, wf m -> square m -> simple_rows m -> ci m 0 = 0 -> nth 0 (colInd P0) 0 = 0 -> 0 < nrowblk m -> 0 < nrowdim m -> exists P, Initialize_ILUk F P0 m lev_fill = Some P).
Proof.
  intros H. set (m := mkM 1 1 1 1 [0; 0] [] [] [q 1] : matsp Qpf).
  destruct (H Qpf P0 m None) as (P & E); try (cbn; lia); try reflexivity.
  - unfold wf, ci. cbn [m nrowblk ncolblk nrowdim ncoldim col_ind row_ptr val_crs val_dia length]. repeat split; try reflexivity; try lia; intros I HI; try lia. destruct I; [cbn; lia|lia].
  - split; reflexivity.
  - intros I HI. cbn in HI. destruct I; [cbn; split; [constructor|intuition]|lia].
  - vm_compute in E. discriminate.
Qed.

Print Assumptions C52_forward_substitution.
Print Assumptions C52_backward_substitution.
Print Assumptions C52_solve_precond.
Print Assumptions C52_degenerate.
Print Assumptions C52_copy_value.
Print Assumptions C52_pattern_level0.
Print Assumptions C52_pattern_levels.
Print Assumptions C52_level_limit.
Print Assumptions C52_fill_minimal.
Print Assumptions C52_complete_pattern.
Print Assumptions C52_factorise.
Print Assumptions C52_factorise_complex.
Print Assumptions C52_incomplete_factorisation.
Print Assumptions C52_complete_factorisation_solves.
Print Assumptions C52_return_value_refuted.
Print Assumptions C52_empty_row_refuted.
