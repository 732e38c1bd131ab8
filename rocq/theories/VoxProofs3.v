From Coq Require Import List Arith Bool ZArith Lia Psatz.
Import ListNotations.
From Verif Require Import Imp VoxModel VoxSpec VoxProofs1.
Open Scope nat_scope.

Lemma forn_inv : forall {S} (J : nat -> S -> Prop) f n s, (forall i s, i < n -> J i s -> exists s', f i s = Some s' /\ J (i + 1) s') -> J 0 s -> exists s', forn 0 n f s = Some s' /\ J n s'.
Proof.
  intros S J f n s H J0. unfold forn. rewrite Nat.sub_0_r. assert (G : forall k lo s, lo + k <= n -> J lo s -> exists s', forn_ k lo f s = Some s' /\ J (lo + k) s').
  { induction k as [|k IH]; intros lo s1 L JJ; cbn [forn_]; [rewrite Nat.add_0_r; eauto|]. destruct (H lo s1 ltac:(lia) JJ) as (s2 & A & B). rewrite A. cbn [bind]. rewrite Nat.add_1_r in B. destruct (IH (Datatypes.S lo) s2 ltac:(lia) B) as (s3 & C & D). exists s3. split; auto. replace (lo + Datatypes.S k) with (Datatypes.S lo + k) by lia. auto. }
  destruct (G n 0 s ltac:(lia) J0) as (s' & A & B). eauto.
Qed.
Lemma for3_inv : forall {S} (I : nat -> S -> Prop) body n1 n2 n3 s, (forall a b c s, a < n1 -> b < n2 -> c < n3 -> I (a * (n2 * n3) + b * n3 + c) s -> exists s', body a b c s = Some s' /\ I (a * (n2 * n3) + b * n3 + c + 1) s') -> I 0 s -> exists s', for3 n1 n2 n3 body s = Some s' /\ I (n1 * (n2 * n3)) s'.
Proof.
  intros S I body n1 n2 n3 s H I0. unfold for3. apply (forn_inv (fun a s => I (a * (n2 * n3)) s)); auto. intros a s1 A I1.
  destruct (forn_inv (fun b s => I (a * (n2 * n3) + b * n3) s) (fun b s => forn 0 n3 (fun c s => body a b c s) s) n2 s1) as (s2 & E & I2).
  - intros b s2 B I2. destruct (forn_inv (fun c s => I (a * (n2 * n3) + b * n3 + c) s) (fun c s => body a b c s) n3 s2) as (s3 & E & I3).
    + intros c s3 C I3. destruct (H a b c s3 A B C I3) as (s4 & E & I4). exists s4. split; auto. replace (a * (n2 * n3) + b * n3 + (c + 1)) with (a * (n2 * n3) + b * n3 + c + 1) by lia. auto.
    + rewrite Nat.add_0_r. auto.
    + exists s3. split; auto. replace (a * (n2 * n3) + (b + 1) * n3) with (a * (n2 * n3) + b * n3 + n3) by lia. auto.
  - cbn [Nat.mul]. rewrite Nat.add_0_r. auto.
  - exists s2. split; auto. replace ((a + 1) * (n2 * n3)) with (a * (n2 * n3) + n2 * n3) by lia. auto.
Qed.

Section Grid.
Variables (nx ny nz : nat).
Notation N := (nx * ny * nz).
Definition zidx (x y z : nat) := z * (ny * nx) + y * nx + x.
Lemma zidx_lt : forall x y z, x < nx -> y < ny -> z < nz -> zidx x y z < N.
Proof. intros. unfold zidx. assert (X := idx_lt nz ny nx z y x H1 H0 H). lia. Qed.
Definition nb (a : list Z) (x y z : nat) : list Z := map (fun d => look nx ny nz (at_zyx nx ny a) 0%Z (VoxSpec.step (x, y, z) d)) dirs.
Lemma look_in : forall {T} (f : nat -> nat -> nat -> T) out x y z, x < nx -> y < ny -> z < nz -> look nx ny nz f out (Z.of_nat x, Z.of_nat y, Z.of_nat z) = f x y z.
Proof. intros. destruct (look_cases nx ny nz f out (Z.of_nat x, Z.of_nat y, Z.of_nat z)) as [(x2 & y2 & z2 & _ & _ & _ & E & ->)|(NI & _)]; [injection E as E1 E2 E3; f_equal; lia|]. exfalso. apply NI. cbn. lia. Qed.
Lemma look_out : forall {T} (f : nat -> nat -> nat -> T) out p, ~ inside nx ny nz p -> look nx ny nz f out p = out.
Proof. intros T f out p H. destruct (look_cases nx ny nz f out p) as [(x2 & y2 & z2 & H1 & H2 & H3 & -> & _)|(_ & ->)]; auto. exfalso. apply H. cbn. lia. Qed.
Lemma flags_ok : forall a x y z, length a = N -> x < nx -> y < ny -> z < nz -> flags nx ny nz a x y z = Some (nb a x y z).
Proof.
  intros a x y z L X Y Zl. unfold flags. cbv zeta.
  assert (G : forall x y z, x < nx -> y < ny -> z < nz -> vget a (z * ny * nx + y * nx + x) = Some (at_zyx nx ny a x y z)).
  { intros. replace (z0 * ny * nx + y0 * nx + x0) with (zidx x0 y0 z0) by (unfold zidx; ring). unfold at_zyx. apply vget_nth. rewrite L. apply zidx_lt; auto. }
  assert (R : forall i, i < 6 -> nth i (nb a x y z) 0%Z = look nx ny nz (at_zyx nx ny a) 0%Z (VoxSpec.step (x, y, z) (dir i))).
  { intros i I. unfold nb. unfold dir. destruct i as [|[|[|[|[|[|i]]]]]]; try lia; reflexivity. }
  assert (ST : forall i, i < 6 -> VoxSpec.step (x, y, z) (dir i) = match i with 0%nat => (Z.of_nat x - 1, Z.of_nat y, Z.of_nat z) | 1%nat => (Z.of_nat x + 1, Z.of_nat y, Z.of_nat z) | 2%nat => (Z.of_nat x, Z.of_nat y - 1, Z.of_nat z) | 3%nat => (Z.of_nat x, Z.of_nat y + 1, Z.of_nat z) | 4%nat => (Z.of_nat x, Z.of_nat y, Z.of_nat z - 1) | _ => (Z.of_nat x, Z.of_nat y, Z.of_nat z + 1) end%Z).
  { intros i I. unfold VoxSpec.step, dir, dirs. destruct i as [|[|[|[|[|[|i]]]]]]; try lia; cbn [nth]; repeat f_equal; lia. }
  assert (E0 : (if 1 <=? x then vget a (z * ny * nx + y * nx + (x - 1)) else Some 0%Z) = Some (nth 0 (nb a x y z) 0%Z)).
  { rewrite R, ST by lia. destruct (Nat.leb_spec 1 x); [rewrite G by lia; replace (Z.of_nat x - 1)%Z with (Z.of_nat (x - 1)) by lia; rewrite look_in by lia; auto|rewrite look_out by (cbn; lia); auto]. }
  assert (E1 : (if x + 1 <? nx then vget a (z * ny * nx + y * nx + (x + 1)) else Some 0%Z) = Some (nth 1 (nb a x y z) 0%Z)).
  { rewrite R, ST by lia. destruct (Nat.ltb_spec (x + 1) nx); [rewrite G by lia; replace (Z.of_nat x + 1)%Z with (Z.of_nat (x + 1)) by lia; rewrite look_in by lia; auto|rewrite look_out by (cbn; lia); auto]. }
  assert (E2 : (if 1 <=? y then vget a (z * ny * nx + (y - 1) * nx + x) else Some 0%Z) = Some (nth 2 (nb a x y z) 0%Z)).
  { rewrite R, ST by lia. destruct (Nat.leb_spec 1 y); [rewrite G by lia; replace (Z.of_nat y - 1)%Z with (Z.of_nat (y - 1)) by lia; rewrite look_in by lia; auto|rewrite look_out by (cbn; lia); auto]. }
  assert (E3 : (if y + 1 <? ny then vget a (z * ny * nx + (y + 1) * nx + x) else Some 0%Z) = Some (nth 3 (nb a x y z) 0%Z)).
  { rewrite R, ST by lia. destruct (Nat.ltb_spec (y + 1) ny); [rewrite G by lia; replace (Z.of_nat y + 1)%Z with (Z.of_nat (y + 1)) by lia; rewrite look_in by lia; auto|rewrite look_out by (cbn; lia); auto]. }
  assert (E4 : (if 1 <=? z then vget a ((z - 1) * ny * nx + y * nx + x) else Some 0%Z) = Some (nth 4 (nb a x y z) 0%Z)).
  { rewrite R, ST by lia. destruct (Nat.leb_spec 1 z); [rewrite G by lia; replace (Z.of_nat z - 1)%Z with (Z.of_nat (z - 1)) by lia; rewrite look_in by lia; auto|rewrite look_out by (cbn; lia); auto]. }
  assert (E5 : (if z + 1 <? nz then vget a ((z + 1) * ny * nx + y * nx + x) else Some 0%Z) = Some (nth 5 (nb a x y z) 0%Z)).
  { rewrite R, ST by lia. destruct (Nat.ltb_spec (z + 1) nz); [rewrite G by lia; replace (Z.of_nat z + 1)%Z with (Z.of_nat (z + 1)) by lia; rewrite look_in by lia; auto|rewrite look_out by (cbn; lia); auto]. }
  rewrite E0, E1, E2, E3, E4, E5. cbn [bind]. reflexivity.
Qed.
Lemma fold_mark : forall (p : Z -> bool) i (a : list Z) (fl : list Z), i < length a -> foldM (fun f a => if p f then vset a i 2%Z else Some a) fl a = Some (if existsb p fl then upd a i 2%Z else a).
Proof.
  intros p i a fl L. assert (G : forall fl a, i < length a -> nth i a 0%Z = 2%Z -> foldM (fun f a => if p f then vset a i 2%Z else Some a) fl a = Some a).
  { clear. induction fl as [|f fl IH]; intros a L E; cbn [foldM]; auto. destruct (p f); [rewrite vset_upd by auto; cbn [bind]; rewrite IH; [| rewrite (upd_length _ a); auto |apply nth_upd_same; auto]|cbn [bind]; auto]. f_equal. apply (list_ext _ 0%Z); [apply (upd_length _ a)|]. intros k K. destruct (Nat.eq_dec k i) as [->|]; [rewrite nth_upd_same by auto; auto|apply nth_upd_other; auto]. }
  revert a L. induction fl as [|f fl IH]; intros a L; cbn [foldM existsb]; auto. destruct (p f); cbn [orb]; [|cbn [bind]; auto]. rewrite vset_upd by auto. cbn [bind]. apply G; [rewrite (upd_length _ a); auto|apply nth_upd_same; auto].
Qed.
(** both passes, with the marking test [p] (on neighbours), the skip test [sk] (on the voxel) and the final map [g] *)
Section Pass.
Variables (a0 : list Z) (p sk : Z -> bool).
Hypothesis L0 : length a0 = N.
Definition mk (x y z : nat) : Z := let v := at_zyx nx ny a0 x y z in if sk v then v else if existsb p (nb a0 x y z) then 2%Z else v.
Hypothesis stable : forall v, In v a0 -> sk v = false -> p 2%Z = p v.
Lemma pass : exists a1, for3 nz ny nx (fun iz1 iy1 ix1 a =>
    fl <- flags nx ny nz a ix1 iy1 iz1 ;;
    let ivox := iz1 * ny * nx + iy1 * nx + ix1 in
    v <- vget a ivox ;;
    if sk v then Some a else
    foldM (fun f a => if p f then vset a ivox 2%Z else Some a) fl a) a0 = Some a1 /\ length a1 = N /\ forall x y z, x < nx -> y < ny -> z < nz -> at_zyx nx ny a1 x y z = mk x y z.
Proof.
  set (I := fun k (a : list Z) => length a = N /\ (forall x y z, x < nx -> y < ny -> z < nz -> at_zyx nx ny a x y z = if zidx x y z <? k then mk x y z else at_zyx nx ny a0 x y z)).
  destruct (for3_inv I (fun iz1 iy1 ix1 a =>
    fl <- flags nx ny nz a ix1 iy1 iz1 ;;
    let ivox := iz1 * ny * nx + iy1 * nx + ix1 in
    v <- vget a ivox ;;
    if sk v then Some a else
    foldM (fun f a => if p f then vset a ivox 2%Z else Some a) fl a) nz ny nx a0) as (a1 & E & L1 & V).
  - intros z y x a Zl Y X (L & V). rewrite flags_ok by auto. cbn [bind]. cbv zeta. replace (z * ny * nx + y * nx + x) with (zidx x y z) by (unfold zidx; ring). fold (zidx x y z) in V. fold (zidx x y z).
    assert (IL := zidx_lt x y z X Y Zl). rewrite (vget_nth _ 0%Z) by lia. cbn [bind]. assert (VX := V x y z X Y Zl). rewrite Nat.ltb_irrefl in VX. unfold at_zyx in VX at 1. fold (zidx x y z) in VX. rewrite VX.
    assert (PN : existsb p (nb a x y z) = existsb p (nb a0 x y z)).
    { unfold nb. induction dirs as [|d ds IH]; cbn [map existsb]; auto. rewrite IH. f_equal. destruct (look_cases nx ny nz (at_zyx nx ny a) 0%Z (VoxSpec.step (x, y, z) d)) as [(x2 & y2 & z2 & X2 & Y2 & Z2 & -> & ->)|(NI & ->)]; [|rewrite look_out by auto; auto]. rewrite look_in by auto. rewrite V by auto. destruct (_ <? _); auto. unfold mk. destruct (sk (at_zyx nx ny a0 x2 y2 z2)) eqn:SK; auto. clear IH; match goal with |- context [existsb ?p ?l] => destruct (existsb p l) end; auto. apply stable; auto. unfold at_zyx. apply nth_In. rewrite L0. apply zidx_lt; auto. }
    assert (INJ : forall x' y' z', x' < nx -> y' < ny -> z' < nz -> zidx x' y' z' = zidx x y z -> x' = x /\ y' = y /\ z' = z).
    { intros x' y' z' X' Y' Z' E. assert (A := cells_nth nz ny nx z' y' x' Z' Y' X'). assert (B := cells_nth nz ny nx z y x Zl Y X). unfold zidx in E. rewrite E, B in A. injection A as -> -> ->. auto. }
    assert (MX : mk x y z = if sk (at_zyx nx ny a0 x y z) then at_zyx nx ny a0 x y z else if existsb p (nb a0 x y z) then 2%Z else at_zyx nx ny a0 x y z) by reflexivity.
    assert (KEEP : mk x y z = at_zyx nx ny a0 x y z -> I (zidx x y z + 1) a).
    { intros K. split; auto. intros x' y' z' X' Y' Z'. rewrite V by auto. destruct (Nat.ltb_spec (zidx x' y' z') (zidx x y z)), (Nat.ltb_spec (zidx x' y' z') (zidx x y z + 1)); auto; try lia. destruct (INJ x' y' z') as (-> & -> & ->); auto; lia. }
    destruct (sk (at_zyx nx ny a0 x y z)) eqn:SK; [exists a; split; auto|]. rewrite fold_mark by lia. rewrite PN. destruct (existsb p (nb a0 x y z)) eqn:EX; eexists; (split; [reflexivity|]); [|auto].
    split; [rewrite (upd_length _ a); auto|]. intros x' y' z' X' Y' Z'. unfold at_zyx at 1. fold (zidx x' y' z'). destruct (Nat.eq_dec (zidx x' y' z') (zidx x y z)) as [Q|Q].
    + destruct (INJ x' y' z') as (-> & -> & ->); auto. rewrite nth_upd_same by lia. rewrite (proj2 (Nat.ltb_lt _ _)) by lia. rewrite MX. auto.
    + rewrite nth_upd_other by auto. assert (W := V x' y' z' X' Y' Z'). unfold at_zyx in W at 1. fold (zidx x' y' z') in W. rewrite W. destruct (Nat.ltb_spec (zidx x' y' z') (zidx x y z)), (Nat.ltb_spec (zidx x' y' z') (zidx x y z + 1)); auto; lia.
  - split; auto.
  - exists a1. split; auto. split; auto. intros x y z X Y Zl. rewrite V by auto. rewrite (proj2 (Nat.ltb_lt _ _)); auto. assert (Q := zidx_lt x y z X Y Zl). lia.
Qed.
End Pass.
Lemma last_pass : forall (q : Z -> bool) c a, length a = N -> exists b, forn 0 N (fun ivox a => v <- vget a ivox ;; if q v then Some a else vset a ivox c) a = Some b /\ length b = N /\ forall i, i < N -> nth i b 0%Z = if q (nth i a 0%Z) then nth i a 0%Z else c.
Proof.
  intros q c a L. destruct (forn_inv (fun k (b : list Z) => length b = N /\ forall i, i < N -> nth i b 0%Z = if i <? k then if q (nth i a 0%Z) then nth i a 0%Z else c else nth i a 0%Z) (fun ivox a => v <- vget a ivox ;; if q v then Some a else vset a ivox c) N a) as (b & E & LB & V).
  - intros i s Hi (LS & V). rewrite (vget_nth _ 0%Z) by lia. cbn [bind]. assert (VI := V i Hi). rewrite Nat.ltb_irrefl in VI. rewrite VI. destruct (q (nth i a 0%Z)) eqn:Q.
    + exists s. split; auto. split; auto. intros j J. rewrite V by auto. destruct (Nat.ltb_spec j i), (Nat.ltb_spec j (i + 1)); auto; try lia. replace j with i by lia. rewrite Q. auto.
    + rewrite vset_upd by lia. eexists. split; [reflexivity|]. split; [rewrite (upd_length _ s); auto|]. intros j J. destruct (Nat.eq_dec j i) as [->|NE].
      * rewrite nth_upd_same by lia. rewrite (proj2 (Nat.ltb_lt _ _)) by lia. rewrite Q. auto.
      * rewrite nth_upd_other by auto. rewrite V by auto. destruct (Nat.ltb_spec j i), (Nat.ltb_spec j (i + 1)); auto; lia.
  - split; auto.
  - exists b. split; auto. split; auto. intros i Hi. rewrite V by auto. rewrite (proj2 (Nat.ltb_lt _ _)) by auto. auto.
Qed.
End Grid.
Definition binary (a : list Z) : Prop := Forall (fun v => v = 0%Z \/ v = 1%Z) a.
Lemma at01 : forall nx ny a x y z, binary a -> at_zyx nx ny a x y z = 0%Z \/ at_zyx nx ny a x y z = 1%Z.
Proof. intros nx ny a x y z B. unfold at_zyx. destruct (nth_in_or_default (z * (ny * nx) + y * nx + x) a 0%Z) as [I|E]; [unfold binary in B; rewrite Forall_forall in B; apply B; auto|left; auto]. Qed.
Lemma look01 : forall nx ny nz a p, binary a -> look nx ny nz (at_zyx nx ny a) 0%Z p = 0%Z \/ look nx ny nz (at_zyx nx ny a) 0%Z p = 1%Z.
Proof. intros nx ny nz a p B. destruct (look_cases nx ny nz (at_zyx nx ny a) 0%Z p) as [(x2 & y2 & z2 & _ & _ & _ & _ & ->)|(_ & ->)]; auto. apply at01; auto. Qed.
Lemma Dilation_ok : forall nx ny nz a, length a = nx * ny * nz -> binary a -> exists b, Grid3Voxel_Dilation (Grid3 nx ny nz a) = Some (Grid3 nx ny nz b) /\ length b = nx * ny * nz /\
  forall x y z, x < nx -> y < ny -> z < nz -> at_zyx nx ny b x y z = if (at_zyx nx ny a x y z =? 1)%Z || existsb (fun d => look nx ny nz (at_zyx nx ny a) 0 (VoxSpec.step (x, y, z) d) =? 1)%Z dirs then 1%Z else 0%Z.
Proof.
  intros nx ny nz a L B. unfold Grid3Voxel_Dilation. cbn [ndivx ndivy ndivz aVal]. cbv zeta. assert (BB := B). unfold binary in BB. rewrite Forall_forall in BB.
  destruct (pass nx ny nz a (fun f => f =? 1)%Z (fun v => negb (v =? 0)%Z) L) as (a1 & E & L1 & V).
  { intros v I S. destruct (BB v I) as [-> | ->]; [reflexivity|discriminate]. }
  cbv zeta in E. rewrite E. cbn [bind]. destruct (last_pass nx ny nz (fun v => v =? 0)%Z 1%Z a1 L1) as (b & E2 & L2 & V2). rewrite E2. cbn [bind]. exists b. split; auto. split; auto.
  intros x y z X Y Zl. unfold at_zyx at 1. rewrite V2 by (apply (zidx_lt nx ny nz); auto). assert (VX := V x y z X Y Zl). unfold at_zyx in VX at 1. rewrite VX. unfold mk.
  assert (EN : existsb (fun f => f =? 1)%Z (nb nx ny nz a x y z) = existsb (fun d => look nx ny nz (at_zyx nx ny a) 0 (VoxSpec.step (x, y, z) d) =? 1)%Z dirs) by (unfold nb; induction dirs as [|d ds IH]; cbn [map existsb]; auto; rewrite IH; auto). rewrite EN.
  destruct (at01 nx ny a x y z B) as [-> | ->]; cbn [Z.eqb negb orb Pos.eqb]; auto. destruct (existsb _ dirs); reflexivity.
Qed.
Lemma Erosion_ok : forall nx ny nz a, length a = nx * ny * nz -> binary a -> exists b, Grid3Voxel_Erosion (Grid3 nx ny nz a) = Some (Grid3 nx ny nz b) /\ length b = nx * ny * nz /\
  forall x y z, x < nx -> y < ny -> z < nz -> at_zyx nx ny b x y z = if (at_zyx nx ny a x y z =? 1)%Z && forallb (fun d => look nx ny nz (at_zyx nx ny a) 0 (VoxSpec.step (x, y, z) d) =? 1)%Z dirs then 1%Z else 0%Z.
Proof.
  intros nx ny nz a L B. unfold Grid3Voxel_Erosion. cbn [ndivx ndivy ndivz aVal]. cbv zeta. assert (BB := B). unfold binary in BB. rewrite Forall_forall in BB.
  destruct (pass nx ny nz a (fun f => f =? 0)%Z (fun v => v =? 0)%Z L) as (a1 & E & L1 & V).
  { intros v I S. destruct (BB v I) as [-> | ->]; [discriminate|reflexivity]. }
  cbv zeta in E. rewrite E. cbn [bind]. destruct (last_pass nx ny nz (fun v => negb (v =? 2)%Z) 0%Z a1 L1) as (b & E2 & L2 & V2). rewrite E2. cbn [bind]. exists b. split; auto. split; auto.
  intros x y z X Y Zl. unfold at_zyx at 1. rewrite V2 by (apply (zidx_lt nx ny nz); auto). assert (VX := V x y z X Y Zl). unfold at_zyx in VX at 1. rewrite VX. unfold mk.
  assert (EN : existsb (fun f => f =? 0)%Z (nb nx ny nz a x y z) = negb (forallb (fun d => look nx ny nz (at_zyx nx ny a) 0 (VoxSpec.step (x, y, z) d) =? 1)%Z dirs)).
  { unfold nb. induction dirs as [|d ds IH]; cbn [map existsb forallb]; auto. rewrite IH. rewrite negb_andb. f_equal. destruct (look01 nx ny nz a (VoxSpec.step (x, y, z) d) B) as [-> | ->]; auto. }
  rewrite EN. destruct (at01 nx ny a x y z B) as [-> | ->]; cbn [Z.eqb negb orb andb Pos.eqb]; auto. destruct (forallb _ dirs); reflexivity.
Qed.
