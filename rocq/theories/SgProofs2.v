From Coq Require Import List Arith Bool ZArith Reals Permutation Sorted Lia Lra Psatz.
Import ListNotations.
From Verif Require Import Imp SgModel SgSpec SgProofs.
Open Scope nat_scope.

Lemma clamp_range : forall i n, 0 < n -> (0 <= clamp i n < Z.of_nat n)%Z.
Proof. intros. unfold clamp. destruct (Z.ltb_spec i 0); [lia|]. destruct (Z.leb_spec (Z.of_nat n) i); lia. Qed.
Lemma clamp_lip : forall i j n, 0 < n -> (Z.abs (i - j) <= 1 -> Z.abs (clamp i n - clamp j n) <= 1)%Z.
Proof. intros. unfold clamp. destruct (Z.ltb_spec i 0), (Z.ltb_spec j 0), (Z.leb_spec (Z.of_nat n) i), (Z.leb_spec (Z.of_nat n) j); lia. Qed.
Lemma floor_lip1 : forall a b : R, (a <= b + 1)%R -> (Int_part a <= Int_part b + 1)%Z.
Proof.
  intros a b H. destruct (base_Int_part a) as (A1 & A2), (base_Int_part b) as (B1 & B2). apply Z.lt_succ_r. apply lt_IZR. unfold Z.succ. rewrite !plus_IZR. lra.
Qed.
Lemma floor_lip : forall x y x0 h, (0 < h)%R -> (Rabs (x - y) <= h)%R -> (Z.abs (floorR ((x - x0) / h) - floorR ((y - x0) / h)) <= 1)%Z.
Proof.
  intros x y x0 h H D. assert (D2 := D). assert (A : (x - y <= h)%R) by (eapply Rle_trans; [apply Rle_abs|eauto]). assert (B : (y - x <= h)%R) by (rewrite Rabs_minus_sym in D; eapply Rle_trans; [apply Rle_abs|eauto]).
  unfold floorR. assert (I : (0 < / h)%R) by (apply Rinv_0_lt_compat; auto). assert (E1 : ((x - x0) / h <= (y - x0) / h + 1)%R).
  { replace ((y - x0) / h + 1)%R with ((y - x0 + h) / h)%R by (field; lra). unfold Rdiv. apply Rmult_le_compat_r; lra. }
  assert (E2 : ((y - x0) / h <= (x - x0) / h + 1)%R). { replace ((x - x0) / h + 1)%R with ((x - x0 + h) / h)%R by (field; lra). unfold Rdiv. apply Rmult_le_compat_r; lra. }
  apply floor_lip1 in E1, E2. lia.
Qed.
Definition inb (g : sgrid) (c : Z * Z * Z) : bool := let '(i, j, k) := c in ((0 <=? i) && (i <? Z.of_nat (nx g)) && (0 <=? j) && (j <? Z.of_nat (ny g)) && (0 <=? k) && (k <? Z.of_nat (nz g)))%Z.
Definition cellof (g : sgrid) (c : Z * Z * Z) : nat := let '(i, j, k) := c in Z.to_nat (cell g i j k).
Lemma inb_iff : forall g i j k, inb g (i, j, k) = true <-> (0 <= i < Z.of_nat (nx g) /\ 0 <= j < Z.of_nat (ny g) /\ 0 <= k < Z.of_nat (nz g))%Z.
Proof. intros. unfold inb. rewrite !andb_true_iff, !Z.leb_le, !Z.ltb_lt. tauto. Qed.
Lemma cell_nat : forall g i j k, inb g (i, j, k) = true -> cell g i j k = Z.of_nat (Z.to_nat k * (ny g * nx g) + Z.to_nat j * nx g + Z.to_nat i).
Proof. intros g i j k H. apply inb_iff in H. unfold cell. rewrite !Nat2Z.inj_add, !Nat2Z.inj_mul, !Z2Nat.id by lia. ring. Qed.
Lemma cellof_lt : forall g c, inb g c = true -> cellof g c < nx g * ny g * nz g.
Proof.
  intros g [[i j] k] H. unfold cellof. rewrite cell_nat by auto. rewrite Nat2Z.id. apply inb_iff in H. set (a := Z.to_nat i). set (b := Z.to_nat j). set (c := Z.to_nat k). assert (a < nx g) by lia. assert (b < ny g) by lia. assert (c < nz g) by lia.
  assert (b * nx g + a < ny g * nx g) by nia. assert ((c + 1) * (ny g * nx g) <= nz g * (ny g * nx g)) by (apply Nat.mul_le_mono_r; lia). lia.
Qed.
Lemma mixed_inj : forall n a b c d, b < n -> d < n -> a * n + b = c * n + d -> a = c /\ b = d.
Proof. intros. assert (a = c) by nia. subst. lia. Qed.
Lemma cellof_inj : forall g c d, inb g c = true -> inb g d = true -> cellof g c = cellof g d -> c = d.
Proof.
  intros g [[i j] k] [[i' j'] k'] H H' E. unfold cellof in E. rewrite !cell_nat, !Nat2Z.id in E by auto. apply inb_iff in H, H'.
  assert (Z.to_nat j * nx g + Z.to_nat i < ny g * nx g) by nia. assert (Z.to_nat j' * nx g + Z.to_nat i' < ny g * nx g) by nia. rewrite <- !Nat.add_assoc in E. apply mixed_inj in E; auto. destruct E as (E1 & E2). apply mixed_inj in E2; try lia. destruct E2. f_equal; [f_equal|]; lia.
Qed.
Definition offs : list (Z * Z * Z) := let r := [-1; 0; 1]%Z in flat_map (fun i => flat_map (fun j => map (fun k => (i, j, k)) r) r) r.
Lemma offs_nodup : NoDup offs.
Proof. assert (D : forall a b : Z * Z * Z, {a = b} + {a <> b}) by (repeat decide equality). apply (NoDup_count_occ' D). intros x X. cbn [offs flat_map map app] in X. repeat (destruct X as [<-|X]; [unfold offs; cbn [flat_map map app]; repeat (rewrite count_occ_cons_neq by (intros Q; discriminate)); rewrite count_occ_cons_eq by reflexivity; f_equal; apply count_occ_not_In; cbn [In]; intros Q; repeat (destruct Q as [Q|Q]; [discriminate|]); exact Q|]). destruct X. Qed.
Lemma offs_in : forall i j k, In (i, j, k) offs <-> (Z.abs i <= 1 /\ Z.abs j <= 1 /\ Z.abs k <= 1)%Z.
Proof.
  intros. unfold offs. rewrite in_flat_map. split.
  - intros (a & A & H). apply in_flat_map in H. destruct H as (b & B & H). apply in_map_iff in H. destruct H as (c & E & C). injection E as -> -> ->. cbn [In] in A, B, C. lia.
  - intros (A & B & C). exists i. split; [cbn [In]; lia|]. apply in_flat_map. exists j. split; [cbn [In]; lia|]. apply in_map. cbn [In]. lia.
Qed.
Definition around (g : sgrid) (c : Z * Z * Z) : list (Z * Z * Z) := let '(x, y, z) := c in filter (inb g) (map (fun '(i, j, k) => (x + i, y + j, z + k)%Z) offs).
Lemma around_in : forall g c d, In d (around g c) <-> inb g d = true /\ touching c d.
Proof.
  intros g [[x y] z] [[a b] c]. unfold around. rewrite filter_In, in_map_iff. unfold touching. split.
  - intros (([[i j] k] & E & I) & B). injection E as <- <- <-. apply offs_in in I. split; auto. lia.
  - intros (B & T). split; auto. exists ((a - x)%Z, (b - y)%Z, (c - z)%Z). split; [f_equal; [f_equal|]; lia|]. apply offs_in. lia.
Qed.
Lemma around_nodup : forall g c, NoDup (around g c).
Proof.
  intros g [[x y] z]. unfold around. apply NoDup_filter. apply FinFun.Injective_map_NoDup; [|apply offs_nodup]. intros [[i j] k] [[i' j'] k'] E. injection E. intros. f_equal; [f_equal|]; lia.
Qed.
Definition positions (g : sgrid) (ig : nat) : list nat := seq (nth ig (aGrid2Obj_ind g) 0) (nth (ig + 1) (aGrid2Obj_ind g) 0 - nth ig (aGrid2Obj_ind g) 0).
Lemma foldM_app_g : forall {A B} (f : A -> list B -> option (list B)) (h : A -> list B) l s, (forall x s, In x l -> f x s = Some (s ++ h x)) -> foldM f l s = Some (s ++ flat_map h l).
Proof. intros A B f h. induction l as [|x l IH]; intros s H; cbn [foldM flat_map]; [rewrite app_nil_r; auto|]. rewrite H by (left; auto). cbn [bind]. rewrite IH by (intros; apply H; right; auto). rewrite <- app_assoc. auto. Qed.
Lemma forn_app_g : forall {B} (f : nat -> list B -> option (list B)) (h : nat -> B) n lo s, (forall i s, lo <= i < lo + n -> f i s = Some (s ++ [h i])) -> forn_ n lo f s = Some (s ++ map h (seq lo n)).
Proof. intros B f h. induction n as [|n IH]; intros lo s H; cbn [forn_ seq map]; [rewrite app_nil_r; auto|]. rewrite H by lia. cbn [bind]. rewrite IH by (intros; apply H; lia). rewrite <- app_assoc. auto. Qed.
Definition posl (g : sgrid) (p : SgModel.vec) : list nat := flat_map (fun c => positions g (cellof g c)) (around g (GridIndex g p)).
Lemma fm_fm : forall {A B D} (f : B -> list D) (g : A -> list B) l, flat_map f (flat_map g l) = flat_map (fun x => flat_map f (g x)) l.
Proof. intros. induction l as [|x l IH]; cbn [flat_map]; auto. rewrite flat_map_app, IH. auto. Qed.
Lemma fm_map : forall {A B D} (f : B -> list D) (g : A -> B) l, flat_map f (map g l) = flat_map (fun x => f (g x)) l.
Proof. intros. induction l as [|x l IH]; cbn [flat_map map]; auto. rewrite IH. auto. Qed.
Lemma fm_ext : forall {A B} (f g : A -> list B) l, (forall x, f x = g x) -> flat_map f l = flat_map g l.
Proof. intros. induction l as [|x l IH]; cbn [flat_map]; auto. rewrite H, IH. auto. Qed.
Lemma fm_filter_map : forall {A B C D} (h : C -> D) (P : B -> list C) (b : B -> bool) (sh : A -> B) l, map h (flat_map P (filter b (map sh l))) = flat_map (fun o => if b (sh o) then map h (P (sh o)) else []) l.
Proof. intros. induction l as [|x l IH]; cbn [flat_map map filter]; auto. destruct (b (sh x)); cbn [flat_map]; rewrite ?map_app, IH; auto. Qed.
Lemma Ring_ok : forall g p, ranges (aGrid2Obj g) (nx g * ny g * nz g) (aGrid2Obj_ind g) -> GetOneRingNeighbor g p = Some (map (fun j => snd (nth j (aGrid2Obj g) (0, 0))) (posl g p)).
Proof.
  intros g p (LR & R). unfold GetOneRingNeighbor, posl. destruct (GridIndex g p) as [[x y] z]. cbv zeta.
  set (one := fun i j k : Z => if inb g (x + i, y + j, z + k)%Z then map (fun j => snd (nth j (aGrid2Obj g) (0, 0))) (positions g (cellof g (x + i, y + j, z + k)%Z)) else []).
  rewrite (foldM_app_g _ (fun i => flat_map (fun j => flat_map (fun k => one i j k) [-1; 0; 1]%Z) [-1; 0; 1]%Z)).
  - cbn [app]. f_equal. unfold around. rewrite fm_filter_map. unfold offs. cbv zeta. rewrite fm_fm. apply fm_ext. intros i. rewrite fm_fm. apply fm_ext. intros j. rewrite fm_map. apply fm_ext. intros k. reflexivity.
  - intros i s _. apply foldM_app_g. intros j s1 _. apply foldM_app_g. intros k s2 _. unfold one.
    destruct (inb g (x + i, y + j, z + k)%Z) eqn:B.
    + assert (B' := B). apply inb_iff in B'. destruct (Z.ltb_spec (x + i) 0); [lia|]. destruct (Z.leb_spec (Z.of_nat (nx g)) (x + i)); [lia|]. destruct (Z.ltb_spec (y + j) 0); [lia|]. destruct (Z.leb_spec (Z.of_nat (ny g)) (y + j)); [lia|]. destruct (Z.ltb_spec (z + k) 0); [lia|]. destruct (Z.leb_spec (Z.of_nat (nz g)) (z + k)); [lia|]. cbn [orb].
      assert (CL := cellof_lt g _ B). unfold cellof in CL |- *. set (ig := Z.to_nat (cell g (x + i) (y + j) (z + k))) in *. rewrite !(vget_nth _ 0) by lia. cbn [bind]. unfold positions, forn. apply forn_app_g. intros ii s3 I. destruct (R (ig + 1) ltac:(lia)) as (C & _). rewrite (vget_nth _ (0, 0)) by lia. reflexivity.
    + rewrite app_nil_r. assert (B' : ~ (0 <= x + i < Z.of_nat (nx g) /\ 0 <= y + j < Z.of_nat (ny g) /\ 0 <= z + k < Z.of_nat (nz g))%Z) by (intros Q; apply inb_iff in Q; congruence).
      destruct (Z.ltb_spec (x + i) 0); auto. destruct (Z.leb_spec (Z.of_nat (nx g)) (x + i)); auto. cbn [orb]. destruct (Z.ltb_spec (y + j) 0); auto. destruct (Z.leb_spec (Z.of_nat (ny g)) (y + j)); auto. cbn [orb]. destruct (Z.ltb_spec (z + k) 0); auto. destruct (Z.leb_spec (Z.of_nat (nz g)) (z + k)); auto. exfalso. apply B'. lia.
Qed.
Lemma NoDup_fm : forall {A B} (f : A -> list B) l, NoDup l -> (forall x, In x l -> NoDup (f x)) -> (forall x y b, In x l -> In y l -> In b (f x) -> In b (f y) -> x = y) -> NoDup (flat_map f l).
Proof.
  intros A B f. induction l as [|x l IH]; intros N H D; cbn [flat_map]; [constructor|]. inversion N; subst. assert (IH' : NoDup (flat_map f l)) by (apply IH; auto; [intros; apply H; right; auto|intros x0 y b I J; apply (D x0 y b); right; auto]).
  assert (G : forall b, In b (f x) -> ~ In b (flat_map f l)) by (intros b I J; apply in_flat_map in J; destruct J as (y & Y & J); assert (x = y) by (apply (D x y b); auto; [left; auto|right; auto]); subst; contradiction).
  assert (N1 := H x (or_introl eq_refl)). revert N1 G. generalize (f x) as m. induction m as [|b m IHm]; intros N1 G; cbn [app]; auto. inversion N1; subst. constructor; [|apply IHm; auto; intros; apply G; right; auto]. intros I. apply in_app_or in I. destruct I as [I|I]; [contradiction|]. apply (G b (or_introl eq_refl) I).
Qed.
Lemma positions_in : forall g ig j, ranges (aGrid2Obj g) (nx g * ny g * nz g) (aGrid2Obj_ind g) -> ig < nx g * ny g * nz g -> In j (positions g ig) <-> j < length (aGrid2Obj g) /\ fst (nth j (aGrid2Obj g) (0, 0)) = ig.
Proof.
  intros g ig j (L & R) I. unfold positions. rewrite in_seq. destruct (R ig ltac:(lia)) as (A1 & A2 & A3), (R (ig + 1) ltac:(lia)) as (B1 & B2 & B3). split.
  - intros (H1 & H2). assert (j < nth (ig + 1) (aGrid2Obj_ind g) 0) by lia. split; [lia|]. specialize (B2 j H). specialize (A3 j ltac:(lia)). lia.
  - intros (H1 & H2). destruct (Nat.le_gt_cases (nth ig (aGrid2Obj_ind g) 0) j) as [Q|Q]; [|specialize (A2 j Q); lia]. destruct (Nat.le_gt_cases (nth (ig + 1) (aGrid2Obj_ind g) 0) j) as [W|W]; [specialize (B3 j ltac:(lia)); lia|]. lia.
Qed.
Lemma posl_in : forall g p j, ranges (aGrid2Obj g) (nx g * ny g * nz g) (aGrid2Obj_ind g) -> In j (posl g p) <-> j < length (aGrid2Obj g) /\ exists c, inb g c = true /\ touching (GridIndex g p) c /\ fst (nth j (aGrid2Obj g) (0, 0)) = cellof g c.
Proof.
  intros g p j R. unfold posl. rewrite in_flat_map. split.
  - intros (c & C & J). apply around_in in C. destruct C as (B & T). apply positions_in in J; auto; [|apply cellof_lt; auto]. destruct J. split; auto. exists c. auto.
  - intros (L & c & B & T & E). exists c. split; [apply around_in; auto|]. apply positions_in; auto. apply cellof_lt; auto.
Qed.
Lemma posl_nodup : forall g p, ranges (aGrid2Obj g) (nx g * ny g * nz g) (aGrid2Obj_ind g) -> NoDup (posl g p).
Proof.
  intros g p R. unfold posl. apply NoDup_fm; [apply around_nodup|intros; apply seq_NoDup|]. intros c d j C D J K. apply around_in in C, D. destruct C as (C & _), D as (D & _). apply positions_in in J, K; auto; try (apply cellof_lt; auto). destruct J as (_ & J), K as (_ & K). apply (cellof_inj g); auto. congruence.
Qed.
Lemma GridIndex_in : forall g p, 0 < nx g -> 0 < ny g -> 0 < nz g -> inb g (GridIndex g p) = true.
Proof. intros g [[x y] z] X Y Zl. unfold GridIndex. destruct (bbmin g) as [[x0 y0] z0]. apply inb_iff. repeat split; apply clamp_range; auto. Qed.
Lemma GetGridIndex_cellof : forall g p, GetGridIndex g p = cellof g (GridIndex g p).
Proof. intros. unfold GetGridIndex, cellof. destruct (GridIndex g p) as [[x y] z]. auto. Qed.
Lemma near_touching : forall g p q, (0 < gh g)%R -> 0 < nx g -> 0 < ny g -> 0 < nz g -> near (gh g) p q -> touching (GridIndex g p) (GridIndex g q).
Proof.
  intros g [[x y] z] [[u v] w] H X Y Zl (A & B & C). unfold GridIndex. destruct (bbmin g) as [[x0 y0] z0]. unfold touching. repeat split; apply clamp_lip; auto; apply floor_lip; auto.
Qed.
