(** Sides of triangles, and normals. *)
From Coq Require Import List Arith Bool Lia Reals Lra.
Import ListNotations.
From Verif Require Import Imp QuatModel ProxModel UnixModel UnixSpec UnixProofs1.
Open Scope nat_scope.

Definition edge_step (b : nat) (x0 x3 x6 : R) (i : nat) (e : list R) : option (list R) :=
  e <- vset e (b + 0 + i) x0 ;;
  e <- vset e (b + 3 + i) x3 ;;
  e <- vset e (b + 6 + i) x3 ;;
  e <- vset e (b + 9 + i) x6 ;;
  e <- vset e (b + 12 + i) x6 ;;
  vset e (b + 15 + i) x0.
Lemma edge_step_ok : forall b x0 x3 x6 i e, i < 3 -> b + 18 <= length e -> exists e', edge_step b x0 x3 x6 i e = Some e' /\ length e' = length e /\
  forall p, nth p e' 0%R = if p =? b + (15 + i) then x0 else if p =? b + (12 + i) then x6 else if p =? b + (9 + i) then x6 else if p =? b + (6 + i) then x3 else if p =? b + (3 + i) then x3 else if p =? b + (0 + i) then x0 else nth p e 0%R.
Proof.
  intros b x0 x3 x6 i e Hi HL. unfold edge_step. rewrite <- !Nat.add_assoc.
  destruct (vset_at e (b + (0 + i)) x0 ltac:(lia)) as (e1 & E1 & L1 & N1). rewrite E1. cbn [bind].
  destruct (vset_at e1 (b + (3 + i)) x3 ltac:(lia)) as (e2 & E2 & L2 & N2). rewrite E2. cbn [bind].
  destruct (vset_at e2 (b + (6 + i)) x3 ltac:(lia)) as (e3 & E3 & L3 & N3). rewrite E3. cbn [bind].
  destruct (vset_at e3 (b + (9 + i)) x6 ltac:(lia)) as (e4 & E4 & L4 & N4). rewrite E4. cbn [bind].
  destruct (vset_at e4 (b + (12 + i)) x6 ltac:(lia)) as (e5 & E5 & L5 & N5). rewrite E5. cbn [bind].
  destruct (vset_at e5 (b + (15 + i)) x0 ltac:(lia)) as (e6 & E6 & L6 & N6). rewrite E6.
  exists e6. split; [reflexivity|]. split; [lia|]. intros p. rewrite N6, N5, N4, N3, N2, N1. reflexivity.
Qed.

Lemma eqb_add : forall b x y, (b + x =? b + y) = (x =? y).
Proof. intros. destruct (x =? y) eqn:E; [apply Nat.eqb_eq in E; subst; apply Nat.eqb_refl|apply Nat.eqb_neq in E; apply Nat.eqb_neq; lia]. Qed.

(** number q of the sides of a triangle whose numbers are f 0 .. f 8 *)
Definition side_of (f : nat -> R) (q : nat) : R := f ((q / 6 + q mod 6 / 3) mod 3 * 3 + q mod 3).

Lemma edges_tri : forall b (f : nat -> R) e, b + 18 <= length e ->
  exists e', forn 0 3 (fun i e => edge_step b (f (0 + i)) (f (3 + i)) (f (6 + i)) i e) e = Some e' /\ blk b 18 (side_of f) e e'.
Proof.
  intros b f e HL.
  destruct (edge_step_ok b (f (0 + 0)) (f (3 + 0)) (f (6 + 0)) 0 e ltac:(lia) ltac:(lia)) as (e1 & E1 & L1 & N1).
  destruct (edge_step_ok b (f (0 + 1)) (f (3 + 1)) (f (6 + 1)) 1 e1 ltac:(lia) ltac:(lia)) as (e2 & E2 & L2 & N2).
  destruct (edge_step_ok b (f (0 + 2)) (f (3 + 2)) (f (6 + 2)) 2 e2 ltac:(lia) ltac:(lia)) as (e3 & E3 & L3 & N3).
  exists e3. split.
  - rewrite !forn_S by lia. change (forn 0 0 _ e) with (Some e). cbn [bind]. rewrite E1. cbn [bind]. rewrite E2. cbn [bind]. exact E3.
  - split; [lia|]. intros p. rewrite N3, N2, N1.
    destruct (inb_cases b 18 p) as [(Q & ->)|(Q & ->)].
    + replace p with (b + (p - b)) by lia. set (q := p - b) in *. replace (b + q - b) with q by lia. rewrite !eqb_add. assert (Hq : q < 18) by (unfold q; lia). clearbody q.
      do 18 (destruct q as [|q]; [reflexivity|]). lia.
    + rewrite !(proj2 (Nat.eqb_neq _ _)) by lia. reflexivity.
Qed.

Lemma edges_ok : forall o tri, exists o', UnindexedEdgeMesh3_UnindexedTrimesh3 o tri = Some o' /\ length o' = length tri / 9 * 18 /\
  forall t e s d, t < length tri / 9 -> e < 3 -> s < 2 -> d < 3 -> side_entry o' t e s d = entry tri t ((e + s) mod 3) d.
Proof.
  intros o tri. unfold UnindexedEdgeMesh3_UnindexedTrimesh3. cbv zeta. set (n := length tri / 9).
  assert (Hn : n * 9 <= length tri) by (pose proof (Nat.mul_div_le (length tri) 9 ltac:(lia)); fold n in H; lia).
  match goal with |- context [forn 0 n ?b (resize0 _ _)] => destruct (fill_ok 18 n 0 b (fun t => side_of (fun j => nth (t * 9 + j) tri 0%R)) (n * 18) ltac:(lia) ltac:(lia)) with (o := resize0 o (n * 18)) as (o' & E & LN & N) end.
  - intros t e Ht LE. destruct (edges_tri (0 + t * 18) (fun j => nth (t * 9 + j) tri 0%R) e ltac:(lia)) as (e' & E & B).
    exists e'. split; [|exact B]. rewrite <- E. apply forn_ext. intros i s Hi.
    rewrite !(vget_nth _ 0%R tri) by lia. cbn [bind]. unfold edge_step. rewrite <- !Nat.add_assoc. reflexivity.
  - apply resize0_len.
  - exists o'. split; [exact E|]. rewrite resize0_len in LN. split; [exact LN|]. intros t e s d Ht He Hs Hd. unfold side_entry. rewrite N, inb_t by lia.
    replace (t * 18 + e * 6 + s * 3 + d - 0) with (t * 18 + (e * 6 + s * 3 + d)) by lia.
    replace ((t * 18 + (e * 6 + s * 3 + d)) / 18) with t by (apply (Nat.div_unique _ _ _ (e * 6 + s * 3 + d)); lia).
    replace ((t * 18 + (e * 6 + s * 3 + d)) mod 18) with (e * 6 + s * 3 + d) by (apply (Nat.mod_unique _ _ t); lia).
    unfold side_of, entry.
    assert (Ce : e = 0 \/ e = 1 \/ e = 2) by lia. assert (Cs : s = 0 \/ s = 1) by lia. assert (Cd : d = 0 \/ d = 1 \/ d = 2) by lia.
    destruct Ce as [-> | [-> | ->]], Cs as [-> | ->], Cd as [-> | [-> | ->]]; f_equal; rewrite <- (Nat.add_assoc (t * 9)); reflexivity.
Qed.

Open Scope R_scope.
Lemma unit_of : forall a b c x y z, let s := sqrt (a * a + b * b + c * c) in 0 < a * a + b * b + c * c -> x = 1 / (s / 2 * 2) * a -> y = 1 / (s / 2 * 2) * b -> z = 1 / (s / 2 * 2) * c ->
  x * x + y * y + z * z = 1 /\ exists k, 0 < k /\ x = k * a /\ y = k * b /\ z = k * c.
Proof.
  intros a b c x y z s P X Y Z. assert (S0 : 0 < s) by (apply sqrt_lt_R0; exact P). assert (SS : s * s = a * a + b * b + c * c) by (apply sqrt_sqrt; lra).
  replace (1 / (s / 2 * 2)) with (/ s) in * by (field; lra). split.
  - subst x y z. replace (/ s * a * (/ s * a) + / s * b * (/ s * b) + / s * c * (/ s * c)) with ((a * a + b * b + c * c) / (s * s)) by (field; lra). rewrite SS. field. lra.
  - exists (/ s). split; [apply Rinv_0_lt_compat; auto|auto].
Qed.

Lemma normal_ok : forall o vtx tri, mesh_in vtx tri -> exists o', UnindexedNormalTriMesh3 o vtx tri = Some o' /\ length o' = (length tri / 3 * 9)%nat /\
  forall t c, (t < length tri / 3)%nat -> (c < 3)%nat ->
    let A := area_vec vtx (corner tri t 0) (corner tri t 1) (corner tri t 2) in
    0 < dotd A A -> dotd (entry o' t c) (entry o' t c) = 1 /\ exists k, 0 < k /\ forall d, (d < 3)%nat -> entry o' t c d = k * A d.
Proof.
  intros o vtx tri M. destruct (normal_entry o vtx tri M) as (o' & E & LN & N). exists o'. split; [exact E|]. split; [exact LN|].
  intros t c Ht Hc A HA. unfold dotd in HA |- *. rewrite !N by lia. cbv zeta. unfold sel3.
  set (n := fst (UnitNormalAreaTri3 (pt vtx (corner tri t 0)) (pt vtx (corner tri t 1)) (pt vtx (corner tri t 2)))).
  assert (S : sqrt (A 0%nat * A 0%nat + A 1%nat * A 1%nat + A 2%nat * A 2%nat) = norm3 (Normal_Tri3 (pt vtx (corner tri t 0)) (pt vtx (corner tri t 1)) (pt vtx (corner tri t 2)))).
  { reflexivity. }
  assert (Q : forall d, (d < 3)%nat -> sel3 (vx n) (vy n) (vz n) d = 1 / (sqrt (A 0%nat * A 0%nat + A 1%nat * A 1%nat + A 2%nat * A 2%nat) / 2 * 2) * A d).
  { intros d Hd. rewrite S. assert (C : (d = 0 \/ d = 1 \/ d = 2)%nat) by lia. unfold n, UnitNormalAreaTri3. cbv zeta. cbn [fst].
    set (w := 1 / (norm3 _ / 2 * 2)). clearbody w. destruct C as [-> | [-> | ->]]; unfold A, area_vec, edge_vec, sel3, mul3, Normal_Tri3, pt; cbn; ring. }
  destruct (unit_of (A 0%nat) (A 1%nat) (A 2%nat) (vx n) (vy n) (vz n) HA (Q 0%nat ltac:(lia)) (Q 1%nat ltac:(lia)) (Q 2%nat ltac:(lia))) as (U & k & K & X & Y & Z).
  split; [exact U|]. exists k. split; [exact K|]. intros d Hd. rewrite N by lia. cbv zeta. fold n. assert (C : (d = 0 \/ d = 1 \/ d = 2)%nat) by lia. destruct C as [-> | [-> | ->]]; assumption.
Qed.
