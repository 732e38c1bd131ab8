(** Property C44: the grid search. *)
From Coq Require Import List Arith Bool ZArith Reals Permutation Sorted Lia Lra.
Import ListNotations.
From Verif Require Import Imp SgModel SgSpec SgProofs SgProofs2.
Open Scope nat_scope.

(** PostProcess reads the element one past the end of the object array whenever the objects are in existing cells: with such a read undefined, it is undefined on every such input. *)
Theorem C44_read_refuted : forall srt ini g, (forall l, Permutation l (srt l) /\ StronglySorted (fun a b => fst a <= fst b) (srt l)) ->
  0 < nx g * ny g * nz g -> Forall (fun o => fst o < nx g * ny g * nz g) (aGrid2Obj g) -> PostProcess None srt ini g = None.
Proof. intros. apply PostProcess_none; auto. Qed.

(** If that read gives any number at all, the ranges are exact, with either way of sorting: the objects between two consecutive entries are those of the cell. *)
Theorem C44_ranges : forall junk srt ini g, (forall l, Permutation l (srt l) /\ StronglySorted (fun a b => fst a <= fst b) (srt l)) ->
  exists g', PostProcess (Some junk) srt ini g = Some g' /\ Permutation (aGrid2Obj g) (aGrid2Obj g') /\ length (aGrid2Obj_ind g') = nx g * ny g * nz g + 1 /\
    forall ig, ig < nx g * ny g * nz g -> let b := nth ig (aGrid2Obj_ind g') 0 in let e := nth (ig + 1) (aGrid2Obj_ind g') 0 in
      b <= e <= length (aGrid2Obj g') /\ forall j, b <= j < e <-> j < length (aGrid2Obj g') /\ fst (nth j (aGrid2Obj g') (0, 0)) = ig.
Proof.
  intros junk srt ini g H. destruct (PostProcess_ok junk srt ini g H) as (g' & E & P & R & _ & _ & NX & NY & NZ). exists g'. split; auto. split; auto. assert (R' := R). destruct R as (L & R). split; auto.
  intros ig I. cbv zeta. assert (C0 := R ig ltac:(lia)). assert (C1 := R (ig + 1) ltac:(lia)). assert (LE : nth ig (aGrid2Obj_ind g') 0 <= nth (ig + 1) (aGrid2Obj_ind g') 0) by (eapply cut_le; [|exact C0|exact C1]; lia). split; [split; auto; apply C1|].
  intros j. rewrite <- NX, <- NY, <- NZ in R', I. rewrite <- (positions_in g' ig j R' I). unfold positions. rewrite in_seq. lia.
Qed.

(** End to end: the objects are registered in the cells of their points; the query returns, each once, the objects whose cell touches that of the query point, so among them every object that differs by at most the cell size in each coordinate. *)
Theorem C44_OneRing : forall junk srt ini g ps q, (forall l, Permutation l (srt l) /\ StronglySorted (fun a b => fst a <= fst b) (srt l)) ->
  (0 < gh g)%R -> 0 < nx g -> 0 < ny g -> 0 < nz g -> aGrid2Obj g = map (fun '(i, p) => (GetGridIndex g p, i)) (combine (seq 0 (length ps)) ps) ->
  exists g' l, PostProcess (Some junk) srt ini g = Some g' /\ GetOneRingNeighbor g' q = Some l /\ NoDup l /\
    (forall i, In i l -> i < length ps) /\
    forall i p, nth_error ps i = Some p -> (In i l <-> touching (GridIndex g q) (GridIndex g p)) /\ (near (gh g) q p -> In i l).
Proof.
  intros junk srt ini g ps q H HH X Y Zl OB. destruct (PostProcess_ok junk srt ini g H) as (g' & E & P & R & GH & BB & NX & NY & NZ). exists g'.
  assert (GI : forall p, GridIndex g' p = GridIndex g p) by (intros [[x y] z]; unfold GridIndex; rewrite GH, BB, NX, NY, NZ; auto).
  assert (CE : forall c, cellof g' c = cellof g c) by (intros [[x y] z]; unfold cellof, cell; rewrite NX, NY; auto).
  assert (IB : forall c, inb g' c = inb g c) by (intros [[x y] z]; unfold inb; rewrite NX, NY, NZ; auto).
  rewrite <- NX, <- NY, <- NZ in R. eexists. split; auto. split; [apply Ring_ok; auto|].
  assert (LC : length (aGrid2Obj g) = length ps) by (rewrite OB, map_length, combine_length, seq_length; lia).
  assert (NO : forall i p, nth_error ps i = Some p -> nth_error (aGrid2Obj g) i = Some (GetGridIndex g p, i)).
  { intros i p I. rewrite OB, nth_error_map. assert (Li : i < length ps) by (apply nth_error_Some; rewrite I; discriminate). replace (nth_error (combine (seq 0 (length ps)) ps) i) with (Some (i, p)); auto. symmetry. rewrite (nth_error_nth' _ (0, p)) by (rewrite combine_length, seq_length; lia). rewrite combine_nth by apply seq_length. rewrite seq_nth by auto. rewrite (nth_error_nth _ _ _ I). auto. }
  assert (SN : map snd (aGrid2Obj g) = seq 0 (length ps)).
  { rewrite OB, map_map. transitivity (map fst (combine (seq 0 (length ps)) ps)); [apply map_ext; intros (i, p); auto|]. assert (G : forall (a : list nat), length a = length ps -> map fst (combine a ps) = a); [|apply G; apply seq_length]. clear. induction ps as [|p ps IH]; intros [|x a] L; cbn [length] in L; try discriminate; auto. cbn [combine map fst]. f_equal. apply IH. lia. }
  assert (NDs : NoDup (map snd (aGrid2Obj g'))) by (eapply Permutation_NoDup; [apply Permutation_map; exact P|]; rewrite SN; apply seq_NoDup).
  assert (IN : forall j, j < length (aGrid2Obj g') -> exists i p, nth_error ps i = Some p /\ nth j (aGrid2Obj g') (0, 0) = (GetGridIndex g p, i)).
  { intros j J. assert (I := Permutation_in _ (Permutation_sym P) (nth_In _ (0, 0) J)). destruct (In_nth _ _ (0, 0) I) as (i & Li & Ei). rewrite LC in Li. destruct (nth_error ps i) as [p|] eqn:PI; [|apply nth_error_None in PI; lia]. exists i, p. split; auto. assert (Q := NO i p PI). rewrite <- Ei. apply (nth_error_nth _ _ (0, 0)). auto. }
  assert (KEY : forall i p, nth_error ps i = Some p -> In i (map (fun j => snd (nth j (aGrid2Obj g') (0, 0))) (posl g' q)) <-> touching (GridIndex g q) (GridIndex g p)).
  { intros i p I. rewrite in_map_iff. split.
    - intros (j & S & J). apply posl_in in J; auto. destruct J as (L & c & B & T & F). destruct (IN j L) as (i' & p' & I' & Ej). rewrite Ej in S, F. cbn [fst snd] in S, F. subst i'. rewrite I in I'. injection I' as <-. rewrite GetGridIndex_cellof, CE in F. rewrite IB in B. assert (c = GridIndex g p) by (apply (cellof_inj g); auto; apply GridIndex_in; auto). subst c. rewrite GI in T. auto.
    - intros T. assert (I2 := Permutation_in _ P (nth_error_In _ _ (NO i p I))). destruct (In_nth _ _ (0, 0) I2) as (j & Lj & Ej). exists j. rewrite Ej. split; auto. apply posl_in; auto. split; auto. exists (GridIndex g p). rewrite IB, GI, CE, Ej. split; [apply GridIndex_in; auto|]. split; [auto|]. cbn [fst]. apply GetGridIndex_cellof. }
  split; [|split].
  - assert (LP : forall j, In j (posl g' q) -> j < length (aGrid2Obj g')) by (intros j J; apply posl_in in J; auto; tauto).
    assert (ND := posl_nodup g' q R). revert ND LP. generalize (posl g' q) as l. induction l as [|j l IH]; intros ND LP; cbn [map]; constructor; inversion ND; subst; [|apply IH; auto; intros; apply LP; right; auto].
    intros I. apply in_map_iff in I. destruct I as (k & S & K). assert (k = j); [|subst; contradiction]. apply (proj1 (NoDup_nth (map snd (aGrid2Obj g')) 0) NDs); rewrite ?map_length; [apply LP; right; auto|apply LP; left; auto|]. change 0 with (snd (0, 0)). rewrite !map_nth. auto.
  - intros i I. apply in_map_iff in I. destruct I as (j & <- & J). apply posl_in in J; auto. destruct J as (L & _). destruct (IN j L) as (i & p & I & ->). cbn [snd]. apply nth_error_Some. rewrite I. discriminate.
  - intros i p I. split; [apply KEY; auto|]. intros N. apply KEY with p; auto. apply near_touching; auto.
Qed.

(** Initialize gives at least one cell in each direction when the box is not empty, and takes over the parameters. *)
Theorem C44_Initialize : forall g bmin bmax h n, (0 < h)%R -> let '(x0, y0, z0) := bmin in let '(x1, y1, z1) := bmax in (x0 < x1)%R -> (y0 < y1)%R -> (z0 < z1)%R ->
  let g' := Initialize g bmin bmax h n in 0 < nx g' /\ 0 < ny g' /\ 0 < nz g' /\ gh g' = h /\ bbmin g' = bmin /\ length (aGrid2Obj g') = n /\
    (x1 - x0 <= INR (nx g') * h)%R /\ (y1 - y0 <= INR (ny g') * h)%R /\ (z1 - z0 <= INR (nz g') * h)%R.
Proof.
  intros g [[x0 y0] z0] [[x1 y1] z1] h n H X Y Zl. cbv zeta. unfold Initialize. cbn [nx ny nz gh bbmin aGrid2Obj].
  assert (C : forall d, (0 < d)%R -> 0 < Z.to_nat (ceilR (d / h)) /\ (d <= INR (Z.to_nat (ceilR (d / h))) * h)%R).
  { intros d D. unfold ceilR. destruct (base_Int_part (- (d / h))) as (A & B). set (k := Int_part (- (d / h))) in *. assert (Q : (0 < d / h)%R) by (apply Rdiv_lt_0_compat; auto). assert (K : (k < 0)%Z) by (apply lt_IZR; lra). split; [lia|]. rewrite INR_IZR_INZ, Z2Nat.id by lia. rewrite opp_IZR. apply (Rmult_le_reg_r (/ h)); [apply Rinv_0_lt_compat; auto|]. replace (- IZR k * h * / h)%R with (- IZR k)%R by (field; lra). unfold Rdiv in *. lra. }
  destruct (C (x1 - x0)%R ltac:(lra)), (C (y1 - y0)%R ltac:(lra)), (C (z1 - z0)%R ltac:(lra)). repeat split; auto. rewrite app_length, firstn_length, repeat_length. lia.
Qed.

(** A sorting function exists. *)
Definition isort (l : list (nat * nat)) : list (nat * nat) := match insertion_sort_stl l with Some m => m | None => [] end.
Example C44_sort_exists : forall l, Permutation l (isort l) /\ StronglySorted (fun a b => fst a <= fst b) (isort l).
Proof. intros l. unfold isort. destruct (insertion_ok l) as (m & -> & A & B). auto. Qed.
Example C44_example : exists g', PostProcess (Some 7) isort true (SGrid [(2, 0); (0, 1); (2, 2)] [] 1 (0, 0, 0)%R 3 1 1) = Some g' /\ aGrid2Obj_ind g' = [0; 1; 1; 3] /\ map snd (aGrid2Obj g') = [1; 0; 2].
Proof. eexists. split; [vm_compute; reflexivity|split; reflexivity]. Qed.
Example C44_example_read : PostProcess None isort true (SGrid [(2, 0); (0, 1); (2, 2)] [] 1 (0, 0, 0)%R 3 1 1) = None.
Proof. reflexivity. Qed.
Definition g_ex (ps : list SgModel.vec) : sgrid := let g := SGrid [] [] 1 (0, 0, 0)%R 3 2 2 in SGrid (map (fun '(i, p) => (GetGridIndex g p, i)) (combine (seq 0 (length ps)) ps)) [] 1 (0, 0, 0)%R 3 2 2.
Example C44_OneRing_hypotheses : forall ps q, exists g' l, PostProcess (Some 0) isort true (g_ex ps) = Some g' /\ GetOneRingNeighbor g' q = Some l /\ forall i p, nth_error ps i = Some p -> near 1 q p -> In i l.
Proof.
  intros ps q. destruct (C44_OneRing 0 isort true (g_ex ps) ps q C44_sort_exists) as (g' & l & A & B & _ & _ & C); try (cbn; lia); try (cbn; lra); [reflexivity|]. exists g', l. split; auto. split; auto. intros i p I N. apply (C i p I). exact N.
Qed.

Print Assumptions C44_read_refuted.
Print Assumptions C44_ranges.
Print Assumptions C44_OneRing.
Print Assumptions C44_Initialize.
