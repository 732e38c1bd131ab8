(** Theorems: small dense inverses (C46), block tridiagonal (C26) and pentadiagonal (C27) matrices and the
    pentadiagonal linear system (C54). *)
From Coq Require Import List Arith Bool ZArith Lia Ring QArith Qcanon.
Import ListNotations.
From Verif Require Import Imp Alg SpProofs1 SpProofs4 MatnModel MatnSpec MatnProofs1 MatnProofs2 MatnProofs3 MatnProofs4 MatnProofs5 MatnProofs6.
Close Scope Qc_scope. Close Scope Q_scope. Open Scope nat_scope.

Section Props.
Variable F : pfield.
Notation K := (pr F).
Add Ring Kr : (rlaws K).
Local Open Scope K_scope.

(** C46: the generic Gauss-Jordan routine (also CalcInvMat of the ILU code) never leaves its block, and when it reports
    success the block has become its two-sided inverse. *)
Theorem C46_Inverse_generic : forall n (v : list K) o, (o + n * n <= length v)%nat ->
  exists v' ok, Inverse_gen n v o = Some (v', ok) /\ only_block n v v' o /\
    (ok = true -> inverse_pair n (ent n v o) (ent n v' o)).
Proof.
  intros n v o H. destruct (wp_ex _ _ _ (Inverse_gen_ok F n v o H)) as ((v' & ok) & E & (L & _ & Fr) & I). cbn [fst snd] in *.
  exists v', ok. split; auto. split; [split; auto|]. intros Hok. apply (iff_inverse F). apply I. auto.
Qed.
(** C46: n = 1, 2, 3. *)
Theorem C46_Inverse_1 : forall (v : list K) o, (o + 1 <= length v)%nat -> small (nth o v 0) = false ->
  exists v' ok, Inverse_Matrix 1 v o = Some (v', ok) /\ only_block 1 v v' o /\ inverse_pair 1 (ent 1 v o) (ent 1 v' o).
Proof.
  intros v o H Hs. destruct (wp_ex _ _ _ (Inverse_1_ok F v o H)) as ((v' & ok) & E & (L & _ & Fr) & I). cbn [fst snd] in *.
  exists v', ok. split; auto. split; [split; auto|]. apply I. auto.
Qed.
Theorem C46_Inverse_2 : forall (v : list K) o, (o + 4 <= length v)%nat ->
  exists v' ok, Inverse_Matrix 2 v o = Some (v', ok) /\ only_block 2 v v' o /\
    (ok = true <-> small (ent 2 v o 0 0 * ent 2 v o 1 1 - ent 2 v o 0 1 * ent 2 v o 1 0) = false) /\
    (ok = true -> inverse_pair 2 (ent 2 v o) (ent 2 v' o)) /\ (ok = false -> v' = v).
Proof.
  intros v o H. destruct (wp_ex _ _ _ (Inverse_2_ok F v o H)) as ((v' & ok) & E & (L & _ & Fr) & I & J). cbn [fst snd] in *.
  exists v', ok. split; auto. split; [split; auto|]. split; [|split; auto].
  - rewrite I. unfold ent. rewrite <- !Nat.add_assoc. reflexivity.
  - intros ->. unfold Inverse_2 in E. rewrite !(vget_nth _ 0) in E by lia. cbn [bind] in E. cbv zeta in E.
    destruct (small _); [congruence|].
    destruct (vset v _ _); [cbn [bind] in E|discriminate E]. destruct (vset l _ _); [cbn [bind] in E|discriminate E].
    destruct (vset l0 _ _); [cbn [bind] in E|discriminate E]. destruct (vset l1 _ _); [cbn [bind] in E|discriminate E]. congruence.
Qed.
Theorem C46_Inverse_3 : forall (v : list K) o, (o + 9 <= length v)%nat -> small (det3 (fun i => nth (o + i)%nat v 0)) = false ->
  exists v' ok, Inverse_Matrix 3 v o = Some (v', ok) /\ only_block 3 v v' o /\ inverse_pair 3 (ent 3 v o) (ent 3 v' o).
Proof.
  intros v o H Hs. destruct (wp_ex _ _ _ (Inverse_3_ok F v o H)) as ((v' & ok) & E & (L & _ & Fr) & _ & I). cbn [fst snd] in *.
  exists v', ok. split; auto. split; [split; auto|]. apply I. auto.
Qed.
(** The dispatch of Inverse_Matrix<double,n> for every n. *)
Theorem C46_Inverse_Matrix : forall n (v : list K) o, (o + n * n <= length v)%nat ->
  exists v' ok, Inverse_Matrix n v o = Some (v', ok) /\ only_block n v v' o /\
    (pivot_ok n (skipn o v) ok -> inverse_pair n (ent n v o) (ent n v' o)).
Proof.
  intros n v o H. destruct (wp_ex _ _ _ (Inverse_Matrix_ok F n v o H)) as ((v' & ok) & E & (L & _ & Fr) & I). cbn [fst snd] in *.
  exists v', ok. split; auto. split; [split; auto|]. intros Hp. apply I.
  assert (SK : forall k, nth k (skipn o v) 0 = nth (o + k)%nat v 0).
  { clear. induction o as [|o IH] in v |- *; intros k; auto. destruct v; cbn [skipn]; [destruct k; auto|]. rewrite IH. reflexivity. }
  unfold pivot_ok in Hp. unfold det_ok. destruct n as [|[|[|[|n]]]]; auto.
  - rewrite SK, Nat.add_0_r in Hp. auto.
  - unfold det3 in *. rewrite !SK in Hp. auto.
Qed.

(** C26, storage: GetValuePointer of a tridiagonal matrix points inside the array, to different places for different
    blocks, and is defined exactly on the band. *)
Theorem C26_storage : forall n nblk, 1 <= nblk ->
  (forall i j, (0 <= i < Z.of_nat nblk)%Z -> (0 <= j < Z.of_nat nblk)%Z -> (Z.abs (i - j) <= 1)%Z ->
     exists p, tri_ptr n nblk i j = Some p /\ (p + n * n <= tri_size n nblk)%nat) /\
  (forall i j p, tri_ptr n nblk i j = Some p -> (0 <= i < Z.of_nat nblk)%Z /\ (0 <= j < Z.of_nat nblk)%Z /\ (Z.abs (i - j) <= 1)%Z) /\
  (forall i j p i' j' p', tri_ptr n nblk i j = Some p -> tri_ptr n nblk i' j' = Some p' -> (i, j) <> (i', j') ->
     (p + n * n <= p' \/ p' + n * n <= p)%nat).
Proof.
  intros n nblk Hn. split; [|split].
  - intros i j Hi Hj Hd. eexists. split; [apply tri_ex; auto; lia|]. pose proof (tri_ex n nblk i j Hi Hj ltac:(lia)) as E.
    apply (tri_Pin n nblk Hn) in E. tauto.
  - intros i j p H. apply tri_form in H. lia.
  - intros i j p i' j' p' H H' Hne. apply (tri_Pap n nblk i j p i' j' p' H H').
    destruct (Z.eq_dec i i') as [->|]; [right; congruence|left; auto].
Qed.
(** C26: Decompose runs, and if no pivot block was singular then Solve returns the solution, for every right-hand side. *)
Theorem C26_Decompose_Solve : forall n nblk (A : list K), 1 <= nblk -> length A = tri_size n nblk ->
  exists LU pivots, tri_Decompose n nblk A = Some (LU, pivots) /\ length pivots = nblk /\
    ((forall P ok, In (P, ok) pivots -> pivot_ok n P ok) ->
     forall b, length b = (nblk * n)%nat -> exists x, tri_Solve n nblk LU b = Some x /\ length x = (nblk * n)%nat /\
       forall i a, i < nblk -> a < n -> row_times (tri_entry n nblk A) n nblk x i a = nth (i * n + a)%nat b 0).
Proof.
  intros n nblk A Hn HL. destruct (band_solves F n nblk (tri_size n nblk) (tri_ptr n nblk) (tri_Pin n nblk Hn) (tri_Pex n nblk) (tri_Pap n nblk) A HL)
    as (v & tr & E & Lv & Lt & H). exists v, tr. rewrite tri_Decompose_gen. split; auto. split; auto. intros HP b Hb.
  destruct (H HP b Hb) as (x & Ex & Lx & Hx). exists x. rewrite tri_Solve_gen. split; auto.
Qed.
(** C26: Merge adds the 2x2 element blocks at block rows and columns idiv, idiv+1 and changes nothing else. *)
Theorem C26_Merge : forall n nblk idiv (eM v : list K), S idiv < nblk -> length eM = (4 * n * n)%nat -> length v = tri_size n nblk ->
  exists v', tri_Merge n idiv eM v = Some v' /\ length v' = length v /\
   forall i j a b, a < n -> b < n -> i < nblk -> j < nblk ->
     tri_entry n nblk v' i j a b = tri_entry n nblk v i j a b +
       (if ((i =? idiv) || (i =? S idiv)) && ((j =? idiv) || (j =? S idiv))
        then nth ((((i - idiv) * 2 + (j - idiv)) * n + a) * n + b)%nat eM 0 else 0).
Proof. intros n nblk idiv eM v H1 H2 H3. exact (wp_ex _ _ _ (tri_Merge_ok F n nblk idiv eM v H1 H2 H3)). Qed.
(** C26: FixBC replaces row and column (iblk, idim) by those of the identity matrix. *)
Theorem C26_FixBC : forall n nblk iblk idim (v : list K), iblk < nblk -> idim < n -> length v = tri_size n nblk ->
  exists v', tri_FixBC n nblk iblk idim v = Some v' /\ length v' = length v /\
   forall i j a b, a < n -> b < n ->
     tri_entry n nblk v' i j a b =
       if ((i =? iblk) && (a =? idim)) || ((j =? iblk) && (b =? idim)) then (if (i =? j) && (a =? b) then 1 else 0)
       else tri_entry n nblk v i j a b.
Proof.
  intros n nblk iblk idim v H1 H2 H3.
  assert (ZE : forall i j, (Z.of_nat i =? Z.of_nat j)%Z = (i =? j)%nat).
  { intros i j. destruct (Nat.eqb_spec i j), (Z.eqb_spec (Z.of_nat i) (Z.of_nat j)); auto; lia. }
  destruct (wp_ex _ _ _ (FixBC_ok F n nblk (tri_size n nblk) 1 (tri_ptr n nblk) (tri_Pin n nblk ltac:(lia)) (tri_Pex n nblk) (tri_Pap n nblk)
     ltac:(intros i j p Hp; apply tri_form in Hp; lia) v iblk idim H3 H1 H2)) as (v' & E & L & H).
  exists v'. split; auto. split; [congruence|]. intros i j a b Ha Hb. specialize (H (Z.of_nat i) (Z.of_nat j) a b Ha Hb). rewrite !ZE in H. exact H.
Qed.

(** C27: the same for the pentadiagonal matrix. *)
Theorem C27_storage : forall n nblk, 4 <= nblk ->
  (forall i j, (0 <= i < Z.of_nat nblk)%Z -> (0 <= j < Z.of_nat nblk)%Z -> (Z.abs (i - j) <= 2)%Z ->
     exists p, penta_ptr n nblk i j = Some p /\ (p + n * n <= penta_size n nblk)%nat) /\
  (forall i j p, penta_ptr n nblk i j = Some p -> (0 <= i < Z.of_nat nblk)%Z /\ (0 <= j < Z.of_nat nblk)%Z /\ (Z.abs (i - j) <= 2)%Z) /\
  (forall i j p i' j' p', penta_ptr n nblk i j = Some p -> penta_ptr n nblk i' j' = Some p' -> (i, j) <> (i', j') ->
     (p + n * n <= p' \/ p' + n * n <= p)%nat).
Proof.
  intros n nblk Hn. split; [|split].
  - intros i j Hi Hj Hd. pose proof (penta_ex n nblk i j Hi Hj ltac:(lia)) as E. eexists. split; [exact E|].
    apply (penta_Pin n nblk Hn) in E. tauto.
  - intros i j p H. apply penta_form in H. lia.
  - intros i j p i' j' p' H H' Hne. apply (penta_Pap n nblk Hn i j p i' j' p' H H').
    destruct (Z.eq_dec i i') as [->|]; [right; congruence|left; auto].
Qed.
Theorem C27_Decompose_Solve : forall n nblk (A : list K), 4 <= nblk -> length A = penta_size n nblk ->
  exists LU pivots, penta_Decompose n nblk A = Some (LU, pivots) /\ length pivots = nblk /\
    ((forall P ok, In (P, ok) pivots -> pivot_ok n P ok) ->
     forall b, length b = (nblk * n)%nat -> exists x, penta_Solve n nblk LU b = Some x /\ length x = (nblk * n)%nat /\
       forall i a, i < nblk -> a < n -> row_times (penta_entry n nblk A) n nblk x i a = nth (i * n + a)%nat b 0).
Proof.
  intros n nblk A Hn HL. destruct (band_solves F n nblk (penta_size n nblk) (penta_ptr n nblk) (penta_Pin n nblk Hn) (penta_Pex n nblk) (penta_Pap n nblk Hn) A HL)
    as (v & tr & E & Lv & Lt & H). exists v, tr. split; auto.
Qed.
Theorem C27_Merge : forall n nblk iblk (eM v : list K), 4 <= nblk -> (iblk + 2 < nblk)%nat ->
  length eM = (9 * (n * n))%nat -> length v = penta_size n nblk ->
  exists v', penta_Merge n nblk iblk eM v = Some v' /\ length v' = length v /\ forall i j a b, a < n -> b < n ->
     penta_entry n nblk v' i j a b = penta_entry n nblk v i j a b +
       (if (iblk <=? i) && (i <? iblk + 3) && ((iblk <=? j) && (j <? iblk + 3))
        then nth (((i - iblk) * 3 + (j - iblk)) * (n * n) + (a * n + b))%nat eM 0 else 0).
Proof. intros n nblk iblk eM v H1 H2 H3 H4. exact (wp_ex _ _ _ (penta_Merge_ok F n nblk iblk eM v H1 H2 H3 H4)). Qed.
Theorem C27_MergeBlock : forall n nblk i0 j0 (bl v : list K), 4 <= nblk -> i0 < nblk -> j0 < nblk ->
  (Z.abs (Z.of_nat i0 - Z.of_nat j0) <= 2)%Z -> length bl = (n * n)%nat -> length v = penta_size n nblk ->
  exists v', penta_MergeBlock n nblk i0 j0 bl v = Some v' /\ length v' = length v /\ forall i j a b, a < n -> b < n ->
     penta_entry n nblk v' i j a b = penta_entry n nblk v i j a b + (if (i =? i0) && (j =? j0) then nth (a * n + b)%nat bl 0 else 0).
Proof.
  intros n nblk i j bl v H1 H2 H3 H4 H5 H6.
  destruct (wp_ex _ _ _ (penta_MergeBlock_ok F n nblk i j bl v H1 H2 H3 ltac:(lia) H5 H6)) as (v' & E & L & H). exists v'. split; auto. split; auto.
  intros i' j' a b Ha Hb. specialize (H (Z.of_nat i') (Z.of_nat j') a b Ha Hb).
  replace ((Z.of_nat i' =? Z.of_nat i) && (Z.of_nat j' =? Z.of_nat j))%Z with ((i' =? i) && (j' =? j)) in H.
  - exact H.
  - f_equal; [destruct (Nat.eqb_spec i' i), (Z.eqb_spec (Z.of_nat i') (Z.of_nat i))|destruct (Nat.eqb_spec j' j), (Z.eqb_spec (Z.of_nat j') (Z.of_nat j))]; auto; lia.
Qed.
Theorem C27_FixBC : forall n nblk iblk idim (v : list K), 4 <= nblk -> iblk < nblk -> idim < n -> length v = penta_size n nblk ->
  exists v', penta_FixBC n nblk iblk idim v = Some v' /\ length v' = length v /\
   forall i j a b, a < n -> b < n ->
     penta_entry n nblk v' i j a b =
       if ((i =? iblk) && (a =? idim)) || ((j =? iblk) && (b =? idim)) then (if (i =? j) && (a =? b) then 1 else 0)
       else penta_entry n nblk v i j a b.
Proof.
  intros n nblk iblk idim v Hn H1 H2 H3.
  assert (ZE : forall i j, (Z.of_nat i =? Z.of_nat j)%Z = (i =? j)%nat).
  { intros i j. destruct (Nat.eqb_spec i j), (Z.eqb_spec (Z.of_nat i) (Z.of_nat j)); auto; lia. }
  destruct (wp_ex _ _ _ (FixBC_ok F n nblk (penta_size n nblk) 2 (penta_ptr n nblk) (penta_Pin n nblk Hn) (penta_Pex n nblk) (penta_Pap n nblk Hn)
     ltac:(intros i j p Hp; apply penta_form in Hp; lia) v iblk idim H3 H1 H2)) as (v' & E & L & H).
  exists v'. split; auto. split; [congruence|]. intros i j a b Ha Hb. specialize (H (Z.of_nat i) (Z.of_nat j) a b Ha Hb). rewrite !ZE in H. exact H.
Qed.

(** C54: LinearSystemSolver_BlockPentaDiagonal::Solve.  Flagged degrees of freedom come out zero and every other row of the
    ORIGINAL system is satisfied, provided no pivot of the constrained matrix was singular. *)
Theorem C54_Solve : forall n nblk (bcflag : list nat) (A r : list K), 4 <= nblk -> length bcflag = (nblk * n)%nat ->
  length A = penta_size n nblk -> length r = (nblk * n)%nat ->
  exists A' r' LU pivots, lsp_Fix n nblk bcflag A r = Some (A', r') /\ penta_Decompose n nblk A' = Some (LU, pivots) /\ length pivots = nblk /\
   ((forall P ok, In (P, ok) pivots -> pivot_ok n P ok) ->
    exists x, lsp_Solve n nblk bcflag A r = Some (pivots, r', x) /\ length x = (nblk * n)%nat /\
      forall i a, i < nblk -> a < n ->
        if (nth (i * n + a)%nat bcflag 0%nat =? 0)%nat
        then row_times (penta_entry n nblk A) n nblk x i a = nth (i * n + a)%nat r 0
        else nth (i * n + a)%nat x 0 = 0).
Proof.
  intros n nblk bc A r Hn Hbc HA Hr.
  destruct (wp_ex _ _ _ (lsp_Fix_ok F n nblk bc Hn Hbc A r HA Hr)) as ((A' & r') & E & LA & Lr & HB & HV). cbn [fst snd] in *.
  destruct (C27_Decompose_Solve n nblk A' Hn LA) as (LU & tr & ED & LT & HS).
  exists A', r', LU, tr. split; auto. split; auto. split; auto. intros HP. destruct (HS HP r' Lr) as (x & Ex & Lx & Hx).
  exists x. split. { unfold lsp_Solve. rewrite E. cbn [bind]. rewrite ED. cbn [bind]. rewrite Ex. reflexivity. }
  split; auto.
  assert (ZX : forall i a, i < nblk -> a < n -> flagged n bc i a = true -> nth (i * n + a)%nat x 0 = 0).
  { intros i a Hi Ha Hf. specialize (Hx i a Hi Ha). rewrite HV in Hx by auto. rewrite Hf in Hx. transitivity (row_times (penta_entry n nblk A') n nblk x i a); [|exact Hx]. unfold row_times.
    symmetry. rewrite (sumn_ext _ nblk _ (fun j => if j =? i then nth (j * n + a)%nat x 0 else 0)).
    - apply (sumn_pick K nblk i (fun j => nth (j * n + a)%nat x 0) Hi).
    - intros j Hj. rewrite (sumn_ext _ n _ (fun b => if b =? a then (if j =? i then nth (j * n + b)%nat x 0 else 0) else 0)).
      + rewrite (sumn_pick K n a (fun b => if j =? i then nth (j * n + b)%nat x 0 else 0) Ha). auto.
      + intros b Hb. change (penta_entry n nblk A' i j a b) with (B F n (penta_ptr n nblk) A' (Z.of_nat i) (Z.of_nat j) a b).
        rewrite HB by auto. rewrite Hf. cbn [orb]. rewrite (Nat.eqb_sym i j), (Nat.eqb_sym a b).
        destruct (j =? i), (b =? a); cbn [andb]; ring. }
  intros i a Hi Ha. destruct (nth (i * n + a)%nat bc 0%nat =? 0) eqn:Ef.
  - assert (Hf : flagged n bc i a = false) by (unfold flagged; rewrite Ef; auto).
    specialize (Hx i a Hi Ha). rewrite HV, Hf in Hx by auto. transitivity (row_times (penta_entry n nblk A') n nblk x i a); [|exact Hx]. unfold row_times. apply sumn_ext. intros j Hj. apply sumn_ext. intros b Hb.
    change (penta_entry n nblk A' i j a b) with (B F n (penta_ptr n nblk) A' (Z.of_nat i) (Z.of_nat j) a b). rewrite HB by auto. rewrite Hf. cbn [orb].
    destruct (flagged n bc j b) eqn:Ej.
    + rewrite ZX by auto. ring.
    + reflexivity.
  - apply ZX; auto. unfold flagged. rewrite Ef. auto.
Qed.

(** C54: Merge with square element blocks (ndimrow = ndimcol) accumulates every element block at its block row and column. *)
Theorem C54_Merge : forall n nblk nrow ncol d rows cols (emat v : list K),
  4 <= nblk -> d <= n -> length rows = nrow -> length cols = ncol -> length emat = (nrow * ncol * (d * d))%nat ->
  (forall r c, r < nrow -> c < ncol -> nth r rows 0%nat < nblk /\ nth c cols 0%nat < nblk /\
     (Z.abs (Z.of_nat (nth r rows 0%nat) - Z.of_nat (nth c cols 0%nat)) <= 2)%Z) ->
  length v = penta_size n nblk ->
  exists v', lsp_Merge n nblk nrow ncol d d rows cols emat v = Some v' /\ length v' = length v /\
   forall i j a b, a < n -> b < n -> penta_entry n nblk v' i j a b = penta_entry n nblk v i j a b +
     sumn nrow (fun r => sumn ncol (fun c =>
       if (nth r rows 0%nat =? i) && (nth c cols 0%nat =? j) && ((a <? d) && (b <? d))
       then nth (((r * ncol + c) * d + a) * d + b)%nat emat 0 else 0)).
Proof.
  intros n nblk nrow ncol d rows cols emat v H1 H2 H3 H4 H5 H6 H7.
  refine (wp_ex _ _ _ (lsp_Merge_ok F n nblk nrow ncol d d rows cols emat H1 H2 H2 H3 H4 H5 (le_n d) _ v H7)).
  intros r c Hr Hc. specialize (H6 r c Hr Hc). lia.
Qed.
End Props.

(** ---- concrete instances over the rationals ---- *)
Definition Qcr : cring := mkRing Qc (Q2Qc 0) (Q2Qc 1) Qcplus Qcmult Qcminus Qcopp Qcrt.
Definition Qpf : pfield.
Proof.
  refine (mkPF Qcr Qcinv (fun x => Qc_eq_bool x (Q2Qc 0)) _).
  intros x H. apply Qcmult_inv_r. intros ->. unfold Qc_eq_bool in H. destruct (Qc_eq_dec (Q2Qc 0) (Q2Qc 0)); congruence.
Defined.
Definition q (z : Z) : Qpf := Q2Qc (inject_Z z).

(** A tridiagonal 3-block matrix with 2x2 blocks meets every hypothesis of C26_Decompose_Solve. *)
Definition exA : list Qpf := map q [4;1;0;5; 1;0;0;1;  1;2;0;1; 6;1;1;7; 1;1;0;1;  0;1;1;0; 5;0;2;6]%Z.
Example C26_example : length exA = tri_size 2 3 /\ exists LU piv, tri_Decompose (F := Qpf) 2 3 exA = Some (LU, piv) /\
  forall P ok, In (P, ok) piv -> pivot_ok 2 P ok.
Proof.
  split; [reflexivity|].
  destruct (tri_Decompose (F := Qpf) 2 3 exA) as [(LU & piv)|] eqn:E; [|vm_compute in E; discriminate].
  exists LU, piv. split; auto.
  assert (H : map snd piv = [true; true; true]).
  { transitivity (match tri_Decompose (F := Qpf) 2 3 exA with Some (_, p) => map snd p | None => [] end); [rewrite E; auto|vm_compute; auto]. }
  intros P ok Hin. apply (in_map snd) in Hin. rewrite H in Hin. cbn in *. intuition.
Qed.
(** Pentadiagonal, 5 blocks of size 1. *)
Definition exP : list Qpf := map q [5;1;1; 1;6;1;2; 1;1;7;1;1; 1;2;8;1; 1;1;9]%Z.
Example C27_example : length exP = penta_size 1 5 /\ exists LU piv, penta_Decompose (F := Qpf) 1 5 exP = Some (LU, piv) /\
  forall P ok, In (P, ok) piv -> pivot_ok 1 P ok.
Proof.
  split; [reflexivity|].
  destruct (penta_Decompose (F := Qpf) 1 5 exP) as [(LU & piv)|] eqn:E; [|vm_compute in E; discriminate].
  exists LU, piv. split; auto.
  assert (H : forallb (fun p => negb (small (p := Qpf) (nth 0 (fst p) (rO (c := Qpf))))) piv = true).
  { transitivity (match penta_Decompose (F := Qpf) 1 5 exP with Some (_, p) => forallb (fun p => negb (small (p := Qpf) (nth 0 (fst p) (rO (c := Qpf))))) p | None => false end);
      [rewrite E; auto|vm_compute; auto]. }
  intros P ok Hin. rewrite forallb_forall in H. specialize (H _ Hin). cbn [fst] in H. apply negb_true_iff in H. exact H.
Qed.
Example C54_example : exists A' r' LU piv, lsp_Fix (F := Qpf) 1 5 [0;1;0;0;1] exP (map q [1;2;3;4;5]%Z) = Some (A', r') /\
  penta_Decompose (F := Qpf) 1 5 A' = Some (LU, piv) /\ forall P ok, In (P, ok) piv -> pivot_ok 1 P ok.
Proof.
  destruct (lsp_Fix (F := Qpf) 1 5 [0;1;0;0;1] exP (map q [1;2;3;4;5]%Z)) as [(A' & r')|] eqn:EF; [|vm_compute in EF; discriminate].
  destruct (penta_Decompose (F := Qpf) 1 5 A') as [(LU & piv)|] eqn:E.
  - exists A', r', LU, piv. split; auto. split; auto.
    assert (H : forallb (fun p => negb (small (p := Qpf) (nth 0 (fst p) (rO (c := Qpf))))) piv = true).
    { transitivity (match lsp_Fix (F := Qpf) 1 5 [0;1;0;0;1] exP (map q [1;2;3;4;5]%Z) with Some (A', _) =>
        match penta_Decompose (F := Qpf) 1 5 A' with Some (_, p) => forallb (fun p => negb (small (p := Qpf) (nth 0 (fst p) (rO (c := Qpf))))) p | None => false end | None => false end);
      [rewrite EF, E; auto|vm_compute; auto]. }
    intros P ok Hin. rewrite forallb_forall in H. specialize (H _ Hin). cbn [fst] in H. apply negb_true_iff in H. exact H.
  - exfalso. destruct (C27_Decompose_Solve Qpf 1 5 A' ltac:(lia)) as (? & ? & E' & _); [|congruence].
    transitivity (match lsp_Fix (F := Qpf) 1 5 [0;1;0;0;1] exP (map q [1;2;3;4;5]%Z) with Some (A', _) => length A' | None => 0 end); [rewrite EF; auto|vm_compute; auto].
Qed.
(** A 4x4 matrix on which the generic elimination reports success. *)
Example C46_example : exists v', Inverse_gen (F := Qpf) 4 (map q [2;1;0;0; 1;3;1;0; 0;1;4;1; 0;0;1;5]%Z) 0 = Some (v', true).
Proof.
  destruct (C46_Inverse_generic Qpf 4 (map q [2;1;0;0; 1;3;1;0; 0;1;4;1; 0;0;1;5]%Z) 0) as (v' & ok & E & _); [cbn; lia|].
  exists v'. rewrite E. f_equal. f_equal.
  transitivity (match Inverse_gen (F := Qpf) 4 (map q [2;1;0;0; 1;3;1;0; 0;1;4;1; 0;0;1;5]%Z) 0 with Some (_, b) => b | None => false end); [rewrite E; auto|vm_compute; auto].
Qed.

(** C46, negative part.  There is no pivoting: an invertible matrix with a zero pivot is reported as not invertible
    (the permutation matrix of size 4 exchanging the first two coordinates). *)
Theorem C46_no_pivoting_refuted :
  ~ (forall (v : list Qpf) N, length v = 16 -> inverse_pair 4 (ent 4 v 0) N -> exists v', Inverse_gen 4 v 0 = Some (v', true)).
Proof.
  intros H. set (P := map q [0;1;0;0; 1;0;0;0; 0;0;1;0; 0;0;0;1]%Z : list Qpf).
  destruct (H P (ent 4 P 0)) as (v' & E); [reflexivity| |].
  - split; intros [|[|[|[|a]]]] [|[|[|[|c]]]] Ha Hc; try lia; apply Qc_is_canon; vm_compute; reflexivity.
  - assert (C : match Inverse_gen 4 P 0 with Some (_, b) => b | None => false end = false) by (vm_compute; reflexivity).
    rewrite E in C. discriminate.
Qed.

(** C54, negative part.  Merge runs its inner loop over ndimrow instead of ndimcol: with element blocks of one row and two
    columns the second column is dropped, although the call is accepted. *)
Theorem C54_Merge_rectangular_refuted : exists v', lsp_Merge (F := Qpf) 2 4 1 1 1 2 [0] [0] (map q [3; 7]%Z) (repeat (q 0) (penta_size 2 4)) = Some v' /\
  penta_entry 2 4 v' 0 0 0 0 = q 3 /\ penta_entry 2 4 v' 0 0 0 1 = q 0.
Proof.
  destruct (lsp_Merge (F := Qpf) 2 4 1 1 1 2 [0] [0] (map q [3; 7]%Z) (repeat (q 0) (penta_size 2 4))) as [v'|] eqn:E.
  - exists v'. split; auto.
    assert (G : forall b, penta_entry 2 4 v' 0 0 0 b = match lsp_Merge (F := Qpf) 2 4 1 1 1 2 [0] [0] (map q [3; 7]%Z) (repeat (q 0) (penta_size 2 4)) with
      Some v' => penta_entry 2 4 v' 0 0 0 b | None => q 0 end) by (rewrite E; auto).
    split; rewrite G; apply Qc_is_canon; vm_compute; reflexivity.
  - exfalso. assert (C : match lsp_Merge (F := Qpf) 2 4 1 1 1 2 [0] [0] (map q [3; 7]%Z) (repeat (q 0) (penta_size 2 4)) with Some _ => true | None => false end = true) by (vm_compute; reflexivity).
    rewrite E in C. discriminate.
Qed.

Print Assumptions C46_Inverse_generic. Print Assumptions C46_Inverse_1. Print Assumptions C46_Inverse_2. Print Assumptions C46_Inverse_3.
Print Assumptions C46_Inverse_Matrix. Print Assumptions C46_no_pivoting_refuted.
Print Assumptions C26_storage. Print Assumptions C26_Decompose_Solve. Print Assumptions C26_Merge. Print Assumptions C26_FixBC.
Print Assumptions C27_storage. Print Assumptions C27_Decompose_Solve. Print Assumptions C27_Merge. Print Assumptions C27_MergeBlock. Print Assumptions C27_FixBC.
Print Assumptions C54_Solve. Print Assumptions C54_Merge. Print Assumptions C54_Merge_rectangular_refuted.
