(** Writes in blocks. *)
From Coq Require Import List Arith Bool Lia Reals Lra.
Import ListNotations.
From Verif Require Import Imp QuatModel ProxModel UnixModel UnixSpec.
Open Scope nat_scope.

Lemma resize0_len : forall v n, length (resize0 v n) = n.
Proof. intros. unfold resize0. rewrite app_length, firstn_length, repeat_length. lia. Qed.

Lemma vset_at : forall (o : list R) i x, i < length o -> exists o', vset o i x = Some o' /\ length o' = length o /\
  forall p, nth p o' 0%R = if p =? i then x else nth p o 0%R.
Proof.
  intros o i x. revert i. induction o as [|h t IH]; intros i H; simpl in H; [lia|].
  destruct i as [|i].
  - exists (x :: t). split; [reflexivity|]. split; [reflexivity|]. intros [|p]; reflexivity.
  - destruct (IH i ltac:(lia)) as (t' & E & L & N). exists (h :: t'). simpl. rewrite E. simpl. split; [reflexivity|]. split; [lia|]. intros [|p]; simpl; auto.
Qed.

Definition sel3 (x y z : R) (d : nat) : R := match d with 0 => x | 1 => y | _ => z end.

Definition inb (b n p : nat) : bool := (b <=? p) && (p <? b + n).
Lemma inb_t : forall b n p, b <= p < b + n -> inb b n p = true.
Proof. intros. unfold inb. apply andb_true_iff. split; [apply Nat.leb_le|apply Nat.ltb_lt]; lia. Qed.
Lemma inb_f : forall b n p, p < b \/ b + n <= p -> inb b n p = false.
Proof. intros. unfold inb. apply andb_false_iff. destruct H; [left; apply Nat.leb_gt|right; apply Nat.ltb_ge]; lia. Qed.
Lemma inb_cases : forall b n p, (b <= p < b + n /\ inb b n p = true) \/ ((p < b \/ b + n <= p) /\ inb b n p = false).
Proof. intros. destruct (le_lt_dec b p); destruct (lt_dec p (b + n)); [left|right|right|right]; split; try lia; try (apply inb_t; lia); apply inb_f; lia. Qed.

(** o' is o with the numbers g 0 .. g (n-1) written from b on *)
Definition blk (b n : nat) (g : nat -> R) (o o' : list R) : Prop :=
  length o' = length o /\ forall p, nth p o' 0%R = if inb b n p then g (p - b) else nth p o 0%R.

Lemma put3_ok : forall b x y z o, b + 3 <= length o -> exists o', put3 b x y z o = Some o' /\ blk b 3 (sel3 x y z) o o'.
Proof.
  intros b x y z o H. unfold put3.
  destruct (vset_at o (b + 0) x ltac:(lia)) as (o1 & E1 & L1 & N1). rewrite E1. cbn [bind].
  destruct (vset_at o1 (b + 1) y ltac:(lia)) as (o2 & E2 & L2 & N2). rewrite E2. cbn [bind].
  destruct (vset_at o2 (b + 2) z ltac:(lia)) as (o3 & E3 & L3 & N3). rewrite E3.
  exists o3. split; [reflexivity|]. split; [lia|]. intros p. rewrite N3, N2, N1.
  destruct (inb_cases b 3 p) as [(Q & ->)|(Q & ->)].
  - assert (C : p = b + 0 \/ p = b + 1 \/ p = b + 2) by lia. destruct C as [-> | [-> | ->]].
    + rewrite (proj2 (Nat.eqb_neq (b + 0) (b + 2))), (proj2 (Nat.eqb_neq (b + 0) (b + 1))), Nat.eqb_refl by lia. replace (b + 0 - b) with 0 by lia. reflexivity.
    + rewrite (proj2 (Nat.eqb_neq (b + 1) (b + 2))), Nat.eqb_refl by lia. replace (b + 1 - b) with 1 by lia. reflexivity.
    + rewrite Nat.eqb_refl. replace (b + 2 - b) with 2 by lia. reflexivity.
  - rewrite !(proj2 (Nat.eqb_neq _ _)) by lia. reflexivity.
Qed.

Lemma fill_ok : forall k n b body g L, 0 < k -> b + n * k <= L ->
  (forall i o, i < n -> length o = L -> exists o', body i o = Some o' /\ blk (b + i * k) k (g i) o o') ->
  forall o, length o = L -> exists o', forn 0 n body o = Some o' /\ blk b (n * k) (fun q => g (q / k) (q mod k)) o o'.
Proof.
  intros k n b body g L K. induction n as [|n IH]; intros HL HB o HO.
  - exists o. split; [reflexivity|]. split; [reflexivity|]. intros p. rewrite inb_f by lia. reflexivity.
  - destruct (IH ltac:(lia) (fun i o Hi => HB i o (Nat.lt_lt_succ_r _ _ Hi)) o HO) as (o1 & E1 & L1 & N1).
    destruct (HB n o1 ltac:(lia) ltac:(lia)) as (o2 & E2 & L2 & N2).
    exists o2. rewrite forn_S, E1 by lia. split; [exact E2|]. split; [lia|]. intros p. rewrite N2, N1.
    destruct (inb_cases (b + n * k) k p) as [(Q & ->)|(Q & ->)].
    + rewrite inb_t by lia. replace ((p - b) / k) with n by (apply (Nat.div_unique _ _ _ (p - (b + n * k))); lia).
      replace ((p - b) mod k) with (p - (b + n * k)) by (apply (Nat.mod_unique _ _ n); lia). reflexivity.
    + destruct (inb_cases b (n * k) p) as [(Q2 & ->)|(Q2 & ->)].
      * rewrite inb_t by lia. reflexivity.
      * rewrite inb_f by lia. reflexivity.
Qed.

(** three corners of three numbers each *)
Lemma corners_ok : forall it body (g : nat -> nat -> R) L, it * 9 + 9 <= L ->
  (forall c o, c < 3 -> length o = L -> exists o', body c o = Some o' /\ blk (it * 9 + c * 3) 3 (g c) o o') ->
  forall o, length o = L -> exists o', forn 0 3 body o = Some o' /\ blk (0 + it * 9) 9 (fun q => g (q / 3) (q mod 3)) o o'.
Proof. intros it body g L HL HB o HO. exact (fill_ok 3 3 (it * 9) body g L ltac:(lia) ltac:(lia) HB o HO). Qed.

Lemma tris_ok : forall n body (g : nat -> nat -> nat -> R) o,
  (forall t o, t < n -> length o = n * 9 -> exists o', body t o = Some o' /\ blk (0 + t * 9) 9 (fun q => g t (q / 3) (q mod 3)) o o') ->
  exists o', forn 0 n body (resize0 o (n * 9)) = Some o' /\ length o' = n * 9 /\
  forall t c d, t < n -> c < 3 -> d < 3 -> entry o' t c d = g t c d.
Proof.
  intros n body g o HB.
  destruct (fill_ok 9 n 0 body (fun t q => g t (q / 3) (q mod 3)) (n * 9) ltac:(lia) ltac:(lia) HB (resize0 o (n * 9)) (resize0_len _ _)) as (o' & E & LN & N).
  exists o'. split; [exact E|]. rewrite resize0_len in LN. split; [exact LN|]. intros t c d Ht Hc Hd. unfold entry. rewrite N, inb_t by lia.
  replace (t * 9 + c * 3 + d - 0) with (t * 9 + (c * 3 + d)) by lia.
  replace ((t * 9 + (c * 3 + d)) / 9) with t by (apply (Nat.div_unique _ _ _ (c * 3 + d)); lia).
  replace ((t * 9 + (c * 3 + d)) mod 9) with (c * 3 + d) by (apply (Nat.mod_unique _ _ t); lia).
  replace ((c * 3 + d) / 3) with c by (apply (Nat.div_unique _ _ _ d); lia).
  replace ((c * 3 + d) mod 3) with d by (apply (Nat.mod_unique _ _ c); lia). reflexivity.
Qed.

Lemma corner_lt : forall (l : list nat) t c, t < length l / 3 -> c < 3 -> t * 3 + c < length l.
Proof. intros. pose proof (Nat.mul_div_le (length l) 3 ltac:(lia)). lia. Qed.

Lemma mesh_at : forall vtx tri t c d, mesh_in vtx tri -> t < length tri / 3 -> c < 3 -> d < 3 -> corner tri t c * 3 + d < length vtx.
Proof. intros vtx tri t c d M Ht Hc Hd. pose proof (M (corner tri t c) (nth_In tri 0 (corner_lt tri t c Ht Hc))). lia. Qed.

Lemma sel3_coord : forall vtx v d, d < 3 -> sel3 (coord vtx v 0) (coord vtx v 1) (coord vtx v 2) d = coord vtx v d.
Proof. intros vtx v d H. assert (C : d = 0 \/ d = 1 \/ d = 2) by lia. destruct C as [-> | [-> | ->]]; reflexivity. Qed.

Lemma vertex_ok : forall o vtx tri, mesh_in vtx tri -> exists o', UnidexedVertexDataTriMesh o vtx tri = Some o' /\ length o' = length tri / 3 * 9 /\
  forall t c d, t < length tri / 3 -> c < 3 -> d < 3 -> entry o' t c d = coord vtx (corner tri t c) d.
Proof.
  intros o vtx tri M. unfold UnidexedVertexDataTriMesh. cbv zeta.
  set (g := fun t c => sel3 (coord vtx (corner tri t c) 0) (coord vtx (corner tri t c) 1) (coord vtx (corner tri t c) 2)).
  match goal with |- context [forn 0 _ ?b (resize0 _ _)] => destruct (tris_ok (length tri / 3) b g o) as (o' & E & LN & N) end.
  - intros t o1 Ht L1. apply (corners_ok t _ (g t) (length tri / 3 * 9)); [lia| |exact L1].
    intros c o2 Hc L2. cbv beta. rewrite (vget_nth _ 0 tri) by (apply corner_lt; auto). cbn [bind]. change (nth (t * 3 + c) tri 0) with (corner tri t c).
    rewrite !(vget_nth _ 0%R vtx) by (apply mesh_at; auto). cbn [bind]. apply put3_ok. lia.
  - exists o'. split; [exact E|]. split; [exact LN|]. intros t c d Ht Hc Hd. rewrite N by auto. apply sel3_coord. auto.
Qed.

Lemma color_ok : forall o flg_rgb flg tri, length tri / 3 <= length flg -> (forall f, In f flg -> f < length flg_rgb) ->
  exists o', UnindexedColorTriMesh3 o flg_rgb flg tri = Some o' /\ length o' = length tri / 3 * 9 /\
  forall t c, t < length tri / 3 -> c < 3 -> (entry o' t c 0, entry o' t c 1, entry o' t c 2) = nth (nth t flg 0) flg_rgb (0%R, 0%R, 0%R).
Proof.
  intros o flg_rgb flg tri HL HF. unfold UnindexedColorTriMesh3. cbv zeta.
  set (g := fun (t c : nat) => let '(x, y, z) := nth (nth t flg 0) flg_rgb (0%R, 0%R, 0%R) in sel3 x y z).
  match goal with |- context [forn 0 _ ?b (resize0 _ _)] => destruct (tris_ok (length tri / 3) b g o) as (o' & E & LN & N) end.
  - intros t o1 Ht L1. rewrite (vget_nth _ 0 flg) by lia. cbn [bind]. apply (corners_ok t _ (g t) (length tri / 3 * 9)); [lia| |exact L1].
    intros c o2 Hc L2. cbv beta. rewrite (vget_nth _ (0%R, 0%R, 0%R) flg_rgb) by (apply HF, nth_In; lia). cbn [bind]. unfold g.
    destruct (nth (nth t flg 0) flg_rgb (0%R, 0%R, 0%R)) as ((x, y), z). apply put3_ok. lia.
  - exists o'. split; [exact E|]. split; [exact LN|]. intros t c Ht Hc. rewrite !N by lia. unfold g. destruct (nth (nth t flg 0) flg_rgb (0%R, 0%R, 0%R)) as ((x, y), z). reflexivity.
Qed.

Lemma point_at_ok : forall vtx v, v * 3 + 3 <= length vtx -> point_at vtx v = Some (V3 (coord vtx v 0) (coord vtx v 1) (coord vtx v 2)).
Proof. intros. unfold point_at. rewrite !(vget_nth _ 0%R vtx) by lia. reflexivity. Qed.

Definition pt (vtx : list R) (v : nat) : vec3 := V3 (coord vtx v 0) (coord vtx v 1) (coord vtx v 2).

Lemma normal_entry : forall o vtx tri, mesh_in vtx tri -> exists o', UnindexedNormalTriMesh3 o vtx tri = Some o' /\ length o' = length tri / 3 * 9 /\
  forall t c d, t < length tri / 3 -> c < 3 -> d < 3 -> entry o' t c d =
    let n := fst (UnitNormalAreaTri3 (pt vtx (corner tri t 0)) (pt vtx (corner tri t 1)) (pt vtx (corner tri t 2))) in sel3 (vx n) (vy n) (vz n) d.
Proof.
  intros o vtx tri M. unfold UnindexedNormalTriMesh3. cbv zeta.
  set (g := fun (t c : nat) => let n := fst (UnitNormalAreaTri3 (pt vtx (corner tri t 0)) (pt vtx (corner tri t 1)) (pt vtx (corner tri t 2))) in sel3 (vx n) (vy n) (vz n)).
  match goal with |- context [forn 0 _ ?b (resize0 _ _)] => destruct (tris_ok (length tri / 3) b g o) as (o' & E & LN & N) end.
  - intros t o1 Ht L1. rewrite !(vget_nth _ 0 tri) by (apply corner_lt; lia). cbn [bind].
    rewrite !point_at_ok by (apply M, nth_In, corner_lt; lia). cbn [bind].
    apply (corners_ok t _ (g t) (length tri / 3 * 9)); [lia| |exact L1].
    intros c o2 Hc L2. cbv beta. apply put3_ok. lia.
  - exists o'. split; [exact E|]. split; [exact LN|]. intros t c d Ht Hc Hd. rewrite N by lia. reflexivity.
Qed.
