(** Theorems on block sparse matrices (properties C21 - C25). *)
From Coq Require Import List Arith Bool ZArith Lia Ring.
Import ListNotations.
From Verif Require Import Imp Alg SpModel SpSpec SpProofs1 SpProofs2 SpProofs3 SpProofs4 SpProofs5.

Lemma CP : forall (src dst : list nat) n, n = length src -> length dst = n ->
  forn 0 n (fun i s => c <- vget src i ;; vset s i c) dst = Some src.
Proof.
  intros src dst n -> L.
  assert (W : wp (forn 0 (length src) (fun i s => c <- vget src i ;; vset s i c) dst) (fun s => s = src)).
  { apply (wp_forn _ (fun i s => length s = length src /\ forall k, k < i -> nth k s 0 = nth k src 0)); [lia| | |].
    - split; auto. intros; lia.
    - intros i s Hi (Ls & Hs). rewrite (vget_nth _ 0) by lia. cbn [bind]. apply wp_vset; [lia|]. lens. split; [auto|].
      intros k Hk. rewrite nth_upd by lia. destruct (Nat.eq_dec i k); [congruence|apply Hs; lia].
    - intros s (Ls & Hs). apply (list_ext _ 0); [lia|]. intros; apply Hs; lia. }
  destruct (wp_ex _ _ _ W) as (s & E & ->). auto.
Qed.

Section Props.
Variable K : cring.
Add Ring Kr : (rlaws K).
Local Open Scope K_scope.

(** Reachability: Initialize followed by SetPattern with a valid pattern gives a well-formed zero matrix. *)
Theorem C53_SetPattern : forall nblk len colind rowptr,
  length colind = (nblk + 1)%nat -> (forall I, I < nblk -> nth I colind 0%nat <= nth (S I) colind 0%nat) ->
  nth nblk colind 0%nat = length rowptr -> (forall c, c < length rowptr -> nth c rowptr 0%nat < nblk) ->
  exists A : matsp K, SetPattern (Initialize nblk len true) colind rowptr = Some A /\ wf A /\ square A /\
    nrowblk A = nblk /\ nrowdim A = len /\ col_ind A = colind /\ row_ptr A = rowptr /\
    length (val_dia A) = (nblk * (len * len))%nat /\ (forall I a J b, dense A I a J b = 0).
Proof.
  intros nblk len colind rowptr H1 H2 H3 H4.
  unfold SetPattern, Initialize. cbn [row_ptr nrowblk col_ind ncolblk nrowdim ncoldim val_crs val_dia].
  cbn [length]. rewrite Nat.eqb_refl. cbn [assertb bind]. rewrite H1, Nat.eqb_refl. cbn [assertb bind].
  rewrite CP by (lens; lia). cbn [bind]. rewrite (vget_nth _ 0%nat) by lia. cbn [bind].
  rewrite H3, Nat.eqb_refl. cbn [assertb bind]. rewrite CP by (lens; lia). cbn [bind].
  eexists. split; [reflexivity|]. rewrite vresize_nil.
  set (A := mkM _ _ _ _ _ _ _ _).
  assert (W : wf A).
  { repeat split; cbn; auto; try lia.
    - rewrite repeat_length. lia.
    - rewrite repeat_length. lia. }
  split; auto. split; [split; auto|]. repeat split; cbn; auto; [rewrite repeat_length; lia|].
  intros I a J b. unfold dense, crs, dia. cbn. rewrite !nth_repeat. rewrite bigsum_zero.
  - destruct (I =? J); [|ring]. ring.
  - intros c _. rewrite !nth_repeat. destruct (nth c rowptr 0%nat =? J); auto.
Qed.

(** C21: y := alpha A x + beta y with the dense matrix denoted by the storage. *)
Theorem C21_MatVec : forall (A : matsp K) (x y : list K) alpha beta,
  wf A -> length x = (ncolblk A * ncoldim A)%nat -> length y = (nrowblk A * nrowdim A)%nat ->
  exists y', MatVec A y alpha x beta = Some y' /\ length y' = length y /\
    forall I a, I < nrowblk A -> a < nrowdim A ->
      nth (I * nrowdim A + a) y' 0 =
        alpha * sumn (ncolblk A) (fun J => sumn (ncoldim A) (fun b => dense A I a J b * nth (J * ncoldim A + b) x 0))
        + beta * nth (I * nrowdim A + a) y 0.
Proof. intros A x y alpha beta WF Hx Hy. exact (wp_ex _ _ _ (MatVec_ok K A WF x alpha Hx beta y Hy)). Qed.

(** C22: y := alpha A^T x + beta y. *)
Theorem C22_MatTVec : forall (A : matsp K) (x y : list K) alpha beta,
  wf A -> length x = (nrowblk A * nrowdim A)%nat -> length y = (ncolblk A * ncoldim A)%nat ->
  exists y', MatTVec A y alpha x beta = Some y' /\ length y' = length y /\
    forall J b, J < ncolblk A -> b < ncoldim A ->
      nth (J * ncoldim A + b) y' 0 =
        alpha * sumn (nrowblk A) (fun I => sumn (nrowdim A) (fun a => dense A I a J b * nth (I * nrowdim A + a) x 0))
        + beta * nth (J * ncoldim A + b) y 0.
Proof. intros A x y alpha beta WF Hx Hy. exact (wp_ex _ _ _ (MatTVec_ok K A WF x alpha Hx beta y Hy)). Qed.

Lemma sumn_flat : forall n m (f : nat -> K), sumn (n * m) f = sumn n (fun i => sumn m (fun j => f (i * m + j)%nat)).
Proof.
  induction n; intros m f; [reflexivity|]. rewrite sumn_S, <- IHn. clear IHn.
  replace (S n * m)%nat with (n * m + m)%nat by lia. unfold sumn. rewrite seq_app, bigsum_app. f_equal.
  replace (seq (0 + n * m) m) with (map (fun j => (n * m + j)%nat) (seq 0 m)).
  - apply bigsum_map.
  - rewrite <- (map_id (seq (0 + n * m) m)). generalize m at 2 4 as q. intros q.
    apply (list_ext _ 0%nat); [lens; auto|]. intros i Hi. lens. rewrite nth_map_seq by auto.
    rewrite map_id, seq_nth by auto. lia.
Qed.

(** C22: the two products are adjoint: (A x) . z = x . (A^T z), whatever the previous contents of the result arrays. *)
Theorem C22_adjoint : forall (A : matsp K) (x z y0 w0 : list K),
  wf A -> length x = (ncolblk A * ncoldim A)%nat -> length z = (nrowblk A * nrowdim A)%nat ->
  length y0 = length z -> length w0 = length x ->
  exists y w, MatVec A y0 1 x 0 = Some y /\ MatTVec A w0 1 z 0 = Some w /\
    sumn (length z) (fun k => nth k y 0 * nth k z 0) = sumn (length x) (fun k => nth k x 0 * nth k w 0).
Proof.
  intros A x z y0 w0 WF Hx Hz Hy Hw.
  destruct (C21_MatVec A x y0 1 0 WF Hx ltac:(congruence)) as (y & Ey & _ & Y).
  destruct (C22_MatTVec A z w0 1 0 WF Hz ltac:(congruence)) as (w & Ew & _ & W).
  exists y, w. split; auto. split; auto. rewrite Hz, Hx, !sumn_flat.
  transitivity (sumn (nrowblk A) (fun I => sumn (nrowdim A) (fun a => Ax A x I a * nth (I * nrowdim A + a) z 0))).
  - apply sumn_ext. intros I HI. apply sumn_ext. intros a Ha. rewrite Y by auto. unfold Ax. ring.
  - rewrite adjoint. apply sumn_ext. intros J HJ. apply sumn_ext. intros b Hb. rewrite W by auto. unfold ATx. ring.
Qed.

(** C22: a matrix of 1x1 blocks applied to vectors of [len] components: every component separately, i.e. the product
    with the matrix whose blocks are (entry) * identity. *)
Theorem C22_MatVecDegenerate : forall (A : matsp K) (x y : list K) len alpha beta,
  wf A -> nrowdim A = 1%nat -> ncoldim A = 1%nat ->
  length x = (ncolblk A * len)%nat -> length y = (nrowblk A * len)%nat ->
  exists y', MatVecDegenerate A y len alpha x beta = Some y' /\ length y' = length y /\
    forall I l, I < nrowblk A -> l < len ->
      nth (I * len + l) y' 0 =
        alpha * sumn (ncolblk A) (fun J => sumn len (fun b => (if l =? b then dense A I 0 J 0 else 0) * nth (J * len + b) x 0))
        + beta * nth (I * len + l) y 0.
Proof.
  intros A x y len alpha beta WF H1 H2 Hx Hy.
  destruct (wp_ex _ _ _ (MatVecDegenerate_ok K A WF x alpha len H1 H2 Hx beta y Hy)) as (y' & E & L & H).
  exists y'. split; auto. split; auto. intros I l HI Hl. rewrite H by auto. f_equal. f_equal. apply sumn_ext. intros J HJ.
  rewrite <- (sumn_pick K len l (fun b => dense A I 0 J 0 * nth (J * len + b) x 0)) by auto.
  apply sumn_ext. intros b Hb. rewrite (Nat.eqb_sym b l). destruct (l =? b); ring.
Qed.

(** C23.  The entry (a,b) of block (i,j) of the element matrix. *)
Definition elem (ncol nr nc : nat) (emat : list K) (i j a b : nat) : K :=
  nth ((i * ncol + j) * (nr * nc) + a * nc + b) emat 0.
(** All the pieces that the element matrix contributes to entry (I,a,J,b). *)
Definition contribution (rows cols : list nat) (nr nc : nat) (emat : list K) (I a J b : nat) : K :=
  sumn (length rows) (fun i => sumn (length cols) (fun j =>
    if (nth i rows 0%nat =? I) && (nth j cols 0%nat =? J) then elem (length cols) nr nc emat i j a b else 0)).
Definition valid_elem (A : matsp K) (rows cols : list nat) (emat : list K) : Prop :=
  (forall i, i < length rows -> nth i rows 0%nat < nrowblk A) /\
  (forall j, j < length cols -> nth j cols 0%nat < ncolblk A) /\
  length emat = (length rows * length cols * (nrowdim A * ncoldim A))%nat /\
  (forall i j, i < length rows -> j < length cols -> nth i rows 0%nat = nth j cols 0%nat -> i = j).
Definition all_stored (A : matsp K) (rows cols : list nat) : Prop :=
  forall i j, i < length rows -> j < length cols -> nth i rows 0%nat <> nth j cols 0%nat ->
    in_pattern A (nth i rows 0%nat) (nth j cols 0%nat).
Definition merged (A : matsp K) (rows cols : list nat) (emat : list K) (buf : list (option nat))
    (r : option (bool * (matsp K * list (option nat)))) : Prop :=
  exists B buf', r = Some (true, (B, buf')) /\ same_pattern A B /\ wf B /\
    (forall I a J b, I < nrowblk A -> a < nrowdim A -> b < ncoldim A ->
      dense B I a J b = dense A I a J b + contribution rows cols (nrowdim A) (ncoldim A) emat I a J b) /\
    ((forall J, nth J buf None = None) -> forall J, nth J buf' None = None).

Lemma vresize_nth_none : forall (buf : list (option nat)) n, (forall J, nth J buf None = None) ->
  forall J, nth J (vresize None buf n) None = None.
Proof.
  intros buf n H J. unfold vresize. destruct (le_lt_dec (length (firstn n buf)) J).
  - rewrite app_nth2 by auto. apply nth_repeat.
  - rewrite app_nth1 by auto. rewrite firstn_length in l. rewrite <- (firstn_skipn n buf) in H. specialize (H J).
    rewrite app_nth1 in H; auto. rewrite firstn_length. auto.
Qed.

(** Both values of [dbg]: with and without assertions.  Any buffer contents. *)
Theorem C23_Merge4 : forall dbg (A : matsp K) rows cols emat buf,
  wf A -> length (val_crs A) <> 0%nat -> length (val_dia A) <> 0%nat -> valid_elem A rows cols emat -> all_stored A rows cols ->
  merged A rows cols emat buf (Merge4 dbg (nrowdim A) (ncoldim A) A rows cols emat buf).
Proof.
  intros dbg A rows cols emat buf WF N1 N2 (H1 & H2 & H3 & H4) HS.
  destruct (wp_ex _ _ _ (merge_ok K A WF dbg None rows cols emat H1 H2 H3 H4 buf ltac:(auto) ltac:(left; exact HS)))
    as ((ok & (B & buf')) & E & P1 & _ & P2). cbn [fst snd] in *. rewrite (P1 HS) in *.
  destruct (P2 eq_refl) as (_ & Q1 & Q2 & Q3 & Q4 & Q5). exists B, buf'. split; [exact E|]. split; auto. split; auto. split; auto.
  intros Hn J. destruct (Q5 J) as [->| ->]; auto. apply vresize_nth_none; auto.
Qed.

(** The zero-filling variants (no claim on the buffer if it was too short). *)
Theorem C23_Mearge : forall dbg (A : matsp K) rows cols emat buf,
  wf A -> length (val_crs A) <> 0%nat -> length (val_dia A) <> 0%nat -> valid_elem A rows cols emat -> all_stored A rows cols ->
  exists B buf', Mearge dbg A rows cols (nrowdim A * ncoldim A) emat buf = Some (true, (B, buf')) /\ same_pattern A B /\ wf B /\
    (forall I a J b, I < nrowblk A -> a < nrowdim A -> b < ncoldim A ->
      dense B I a J b = dense A I a J b + contribution rows cols (nrowdim A) (ncoldim A) emat I a J b).
Proof.
  intros dbg A rows cols emat buf WF N1 N2 (H1 & H2 & H3 & H4) HS.
  destruct (wp_ex _ _ _ (merge_ok K A WF dbg (Some 0%nat) rows cols emat H1 H2 H3 H4 buf ltac:(auto) ltac:(left; exact HS)))
    as ((ok & (B & buf')) & E & P1 & _ & P2). cbn [fst snd] in *. rewrite (P1 HS) in *.
  destruct (P2 eq_refl) as (_ & Q1 & Q2 & Q3 & Q4 & Q5). exists B, buf'. split; [|auto].
  unfold Mearge. rewrite Nat.eqb_refl. replace (asrt dbg true) with (Some tt) by (destruct dbg; auto). exact E.
Qed.
Theorem C23_Merge2 : forall dbg (A : matsp K) rows cols emat buf,
  wf A -> nrowdim A = 1%nat -> ncoldim A = 1%nat ->
  length (val_crs A) <> 0%nat -> length (val_dia A) <> 0%nat -> valid_elem A rows cols emat -> all_stored A rows cols ->
  exists B buf', Merge2 dbg A rows cols emat buf = Some (true, (B, buf')) /\ same_pattern A B /\ wf B /\
    (forall I J, I < nrowblk A ->
      dense B I 0 J 0 = dense A I 0 J 0 + contribution rows cols 1 1 emat I 0 J 0).
Proof.
  intros dbg A rows cols emat buf WF D1 D2 N1 N2 HV HS.
  destruct (C23_Mearge dbg A rows cols emat buf WF N1 N2 HV HS) as (B & buf' & E & Q1 & Q2 & Q3).
  exists B, buf'. unfold Mearge in E. rewrite Nat.eqb_refl in E.
  replace (asrt dbg true) with (Some tt) in E by (destruct dbg; auto). cbn [bind] in E.
  rewrite D1, D2 in *. split; [exact E|]. split; [auto|]. split; [auto|]. intros. apply Q3; auto; lia.
Qed.

(** With a clean (in particular a fresh, empty) buffer and no assertions, the 4-index Merge returns true exactly when
    every needed block is stored. *)
Theorem C23_Merge4_detects : forall (A : matsp K) rows cols emat buf,
  wf A -> valid_elem A rows cols emat -> (forall J, nth J buf None = None) ->
  exists r, Merge4 false (nrowdim A) (ncoldim A) A rows cols emat buf = Some r /\
    (fst r = true <-> all_stored A rows cols).
Proof.
  intros A rows cols emat buf WF (H1 & H2 & H3 & H4) HB.
  destruct (wp_ex _ _ _ (merge_ok K A WF false None rows cols emat H1 H2 H3 H4 buf ltac:(discriminate)
     ltac:(right; split; [auto|apply vresize_nth_none; auto]))) as (r & E & P1 & P2 & P3).
  exists r. split; [exact E|]. split; [|apply P1]. intros Ht. apply (P3 Ht).
Qed.

(** C24: rows and columns of flagged unknowns become those of the identity; everything else is unchanged. *)
Theorem C24_SetFixedBC : forall (A : matsp K) (bc : list Z),
  wf A -> square A -> length (val_dia A) <> 0%nat -> length bc = (nrowblk A * nrowdim A)%nat ->
  exists B, SetFixedBC A bc = Some B /\ same_pattern A B /\ wf B /\
    forall I a J b, I < nrowblk A -> J < nrowblk A -> a < nrowdim A -> b < nrowdim A ->
      let flagged i := nth i bc 0%Z <> 0%Z in
      let row := (I * nrowdim A + a)%nat in let col := (J * nrowdim A + b)%nat in
      (flagged row \/ flagged col -> row = col -> dense B I a J b = 1) /\
      (flagged row \/ flagged col -> row <> col -> dense B I a J b = 0) /\
      (~ flagged row -> ~ flagged col -> dense B I a J b = dense A I a J b).
Proof.
  intros A bc WF SQ HD HB. destruct (wp_ex _ _ _ (SetFixedBC_ok K A bc WF SQ HD HB)) as (B & E & H1 & H2 & H3).
  exists B. split; auto. split; auto. split; auto. intros I a J b HI HJ Ha Hb flagged row col.
  rewrite H3 by auto. unfold fl. fold row col.
  assert (F : forall i, negb (nth i bc 0 =? 0)%Z = true <-> flagged i).
  { intros i. unfold flagged. destruct (Z.eqb_spec (nth i bc 0%Z) 0%Z); cbn; split; intros; auto; try discriminate. }
  assert (G : row = col <-> (I =? J) && (a =? b) = true).
  { rewrite andb_true_iff, !Nat.eqb_eq. split.
    - intros X. apply (idx_inj (nrowdim A)); auto.
    - intros (-> & ->). auto. }
  split; [|split].
  - intros Hf He. apply G in He. rewrite He.
    replace (negb (nth row bc 0 =? 0)%Z || negb (nth col bc 0 =? 0)%Z) with true; auto. symmetry. apply orb_true_iff.
    rewrite !F. auto.
  - intros Hf He. replace ((I =? J) && (a =? b)) with false.
    2:{ symmetry. apply not_true_is_false. rewrite <- G. auto. }
    replace (negb (nth row bc 0 =? 0)%Z || negb (nth col bc 0 =? 0)%Z) with true; auto. symmetry. apply orb_true_iff.
    rewrite !F. auto.
  - intros Hr Hc. rewrite <- F in Hr, Hc. apply not_true_is_false in Hr, Hc. rewrite Hr, Hc. auto.
Qed.

(** C25: entry (i,j) is multiplied by scale_i * scale_j. *)
Theorem C25_ScaleBlkLen : forall (A : matsp K) (sc : list K),
  wf A -> square A -> length sc = (nrowblk A * nrowdim A)%nat ->
  exists B, ScaleBlkLen_LeftRight A sc = Some B /\ same_pattern A B /\ wf B /\
    forall I a J b, I < nrowblk A -> J < nrowblk A -> a < nrowdim A -> b < nrowdim A ->
      dense B I a J b = (nth (I * nrowdim A + a) sc 0 * nth (J * nrowdim A + b) sc 0) * dense A I a J b.
Proof. intros A sc WF SQ HL. exact (wp_ex _ _ _ (ScaleBlkLen_ok K A WF SQ sc HL)). Qed.
Theorem C25_ScaleBlk : forall (A : matsp K) (sc : list K),
  wf A -> square A -> length sc = nrowblk A ->
  exists B, ScaleBlk_LeftRight A sc = Some B /\ same_pattern A B /\ wf B /\
    forall I a J b, I < nrowblk A -> J < nrowblk A -> a < nrowdim A -> b < nrowdim A ->
      dense B I a J b = (nth I sc 0 * nth J sc 0) * dense A I a J b.
Proof. intros A sc WF SQ HL. exact (wp_ex _ _ _ (ScaleBlk_ok K A WF SQ sc HL)). Qed.

(** Further operations: AddDia adds eps to the diagonal of the dense matrix, setZero clears it. *)
Theorem C53_AddDia : forall (A : matsp K) eps, wf A -> square A ->
  exists B, AddDia eps A = Some B /\ same_pattern A B /\ wf B /\
    forall I a J b, I < nrowblk A -> J < nrowblk A -> a < nrowdim A -> b < nrowdim A ->
      dense B I a J b = dense A I a J b + (if (I =? J) && (a =? b) then eps else 0).
Proof. intros A eps WF SQ. exact (wp_ex _ _ _ (AddDia_ok K A WF SQ eps)). Qed.
Theorem C53_setZero : forall (A : matsp K), wf A -> square A ->
  exists B, setZero A = Some B /\ same_pattern A B /\ wf B /\ forall I a J b, dense B I a J b = 0.
Proof. intros A WF SQ. exact (wp_ex _ _ _ (setZero_ok K A WF SQ)). Qed.
End Props.
Arguments contribution {K}. Arguments elem {K}. Arguments valid_elem {K}. Arguments all_stored {K}.
Print Assumptions C53_SetPattern.
Print Assumptions C21_MatVec.
Print Assumptions C22_MatTVec.
Print Assumptions C22_adjoint.
Print Assumptions C22_MatVecDegenerate.
Print Assumptions C23_Merge4.
Print Assumptions C23_Mearge.
Print Assumptions C23_Merge2.
Print Assumptions C23_Merge4_detects.
Print Assumptions C24_SetFixedBC.
Print Assumptions C25_ScaleBlkLen.
Print Assumptions C25_ScaleBlk.
Print Assumptions C53_AddDia.
Print Assumptions C53_setZero.

(** ---- A concrete matrix over the integers: 3 block rows of 2x2 blocks; row 0 stores columns 1 and 1 (repeated),
    row 1 stores 0, row 2 is empty. ---- *)
Definition ex : matsp Zcr := mkM (K := Zcr) 3 3 2 2 [0;2;3;3]%nat [1;1;0]%nat
  [1;2;3;4; 5;6;7;8; 9;10;11;12]%Z [1;0;0;1; 2;0;0;2; 3;1;1;3]%Z.
Example ex_wf : wf ex /\ square ex.
Proof.
  split; [|split; auto]. repeat split; cbn; auto.
  - intros I HI. do 3 (destruct I; [cbn; lia|]). lia.
  - intros c Hc. do 3 (destruct c; [cbn; lia|]). lia.
Qed.
Example ex_MatVec : MatVec (K := Zcr) ex [1;1;1;1;1;1]%Z 2%Z [1;2;3;4;5;6]%Z 3%Z = Some [(* 2*(A x) + 3 *) 105; 163; 73; 89; 45; 49]%Z.
Proof. vm_compute. reflexivity. Qed.
(** A mesh-like element on blocks 0 and 1. *)
Example ex_elem : valid_elem (K := Zcr) ex [0;1]%nat [0;1]%nat (repeat 1%Z 16) /\ all_stored ex [0;1]%nat [0;1]%nat.
Proof.
  split.
  - split; [|split; [|split]].
    + intros [|[|i]] Hi; cbn in *; lia.
    + intros [|[|i]] Hi; cbn in *; lia.
    + reflexivity.
    + intros [|[|i]] [|[|j]] Hi Hj; cbn in *; lia.
  - intros [|[|i]] [|[|j]] Hi Hj Hne; cbn in Hi, Hj, Hne; try lia.
    + exists 0%nat. cbn. auto.
    + exists 2%nat. cbn. auto.
Qed.
Example ex_Merge : exists B b, Merge4 (K := Zcr) true 2 2 ex [0;1]%nat [0;1]%nat (repeat 1%Z 16) [] = Some (true, (B, b)) /\
  dense B 0 1 1 1 = (dense ex 0 1 1 1 + 1)%Z.
Proof. eexists. eexists. split; [vm_compute; reflexivity|vm_compute; reflexivity]. Qed.
Example ex_BC : exists B, SetFixedBC ex [0;1;0;0;0;0]%Z = Some B /\ dense B 0 0 1 0 = 6%Z /\ dense B 0 1 1 0 = 0%Z /\ dense B 1 0 0 1 = 0%Z /\ dense B 0 1 0 1 = 1%Z.
Proof. eexists. repeat split; vm_compute; reflexivity. Qed.

(** C23, negative part 1.  Without assertions, the zero-filling variants with a fresh buffer do not detect that block
    (2,1) is not stored: they return true and add the numbers meant for (2,1) to the unrelated block (0,1). *)
Theorem C23_zero_fill_refuted :
  ~ (forall (A : matsp Zcr) rows cols emat, wf A -> valid_elem A rows cols emat ->
      forall B b, Mearge false A rows cols (nrowdim A * ncoldim A) emat [] = Some (true, (B, b)) -> all_stored A rows cols).
Proof.
  intros H.
  assert (V : valid_elem (K := Zcr) ex [2]%nat [1]%nat (repeat 1%Z 4)).
  { split; [|split; [|split]].
    - intros [|i] Hi; cbn in *; lia.
    - intros [|i] Hi; cbn in *; lia.
    - reflexivity.
    - intros [|i] [|j] Hi Hj; cbn in *; lia. }
  destruct (Mearge (K := Zcr) false ex [2]%nat [1]%nat 4 (repeat 1%Z 4) []) as [(ok & (B & b))|] eqn:E; [|vm_compute in E; discriminate].
  assert (ok = true) by (vm_compute in E; congruence). subst ok.
  specialize (H ex _ _ _ (proj1 ex_wf) V _ _ E). destruct (H 0%nat 0%nat) as (c & Hc & _); cbn; try lia. cbn in Hc. auto.
Qed.
Theorem C23_zero_fill_corrupts : exists B b,
  Mearge (K := Zcr) false ex [2]%nat [1]%nat 4 (repeat 1%Z 4) [] = Some (true, (B, b)) /\
  dense B 2 0 1 0 = 0%Z /\ dense B 0 0 1 0 = (dense ex 0 0 1 0 + 1)%Z.
Proof. eexists. eexists. split; [vm_compute; reflexivity|]. split; vm_compute; reflexivity. Qed.

(** C23, negative part 2.  The diagonal hypothesis of [valid_elem] (equal block row and column only at equal positions)
    cannot be dropped: for the element with rows [1] and columns [0; 1] the numbers added to block (1,1) are those of
    element block (0,0), not (0,1). *)
Theorem C23_offset_diagonal_refuted :
  let emat := [10;10;10;10; 20;20;20;20]%Z in
  exists B b, Merge4 (K := Zcr) true 2 2 ex [1]%nat [0;1]%nat emat [] = Some (true, (B, b)) /\
    dense B 1 0 1 0 = (dense ex 1 0 1 0 + 10)%Z /\ contribution (K := Zcr) [1]%nat [0;1]%nat 2 2 emat 1 0 1 0 = (20%Z : Zcr).
Proof. intros emat. eexists. eexists. split; [vm_compute; reflexivity|]. split; vm_compute; reflexivity. Qed.

(** C23, negative part 3.  A merge that returns false leaves the buffer dirty, so a later call with the same buffer
    can silently add to an unrelated block. *)
Theorem C23_failed_merge_leaves_buffer_dirty : exists B b B' b',
  Merge4 (K := Zcr) false 2 2 ex [0]%nat [2]%nat (repeat 1%Z 4) [] = Some (false, (B, b)) /\
  Merge4 (K := Zcr) false 2 2 B [2]%nat [1]%nat (repeat 1%Z 4) b = Some (true, (B', b')) /\
  dense B' 2 0 1 0 = 0%Z /\ dense B' 0 0 1 0 = (dense B 0 0 1 0 + 1)%Z.
Proof. do 4 eexists. split; [vm_compute; reflexivity|]. split; [vm_compute; reflexivity|]. split; vm_compute; reflexivity. Qed.
