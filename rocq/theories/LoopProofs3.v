From Coquelicot Require Import Coquelicot.
From Coq Require Import Reals Lra Lia List Arith Bool Psatz.
Import ListNotations.
From Verif Require Import Imp PrModel JagSpec JagProofs BezProofs PolyModel PolySpec PolyProofs LoopSpec LoopProofs LoopProofs2.
Open Scope R_scope.

Definition meet (a b c d : R * R) : Prop := exists q, on_segment q a b /\ on_segment q c d.
Lemma ltR_iff : forall a b, ltR a b = true <-> a < b.
Proof. intros a b. assert (T := ltR_spec a b). destruct (ltR a b); split; auto; try discriminate; lra. Qed.
Lemma ltR_niff : forall a b, ltR a b = false <-> b <= a.
Proof. intros a b. assert (T := ltR_spec a b). destruct (ltR a b); split; auto; try discriminate; lra. Qed.
(** Two closed intervals given by their end points in any order. *)
Definition over (a b c d : R) : Prop := (a <= Rmax c d \/ b <= Rmax c d) /\ (c <= Rmax a b \/ d <= Rmax a b).
Lemma apart_iff : forall a b c d : R * R, boxes_apart a b c d = false <-> over (fst a) (fst b) (fst c) (fst d) /\ over (snd a) (snd b) (snd c) (snd d).
Proof.
  intros (ax, ay) (bx, by_) (cx, cy) (dx, dy). unfold boxes_apart. cbn [fst snd].
  assert (G : forall a b c d, (ltR (if ltR a b then b else a) (if ltR d c then d else c) || ltR (if ltR c d then d else c) (if ltR b a then b else a)) = false <-> over a b c d).
  { clear. intros a b c d. unfold over, Rmax. rewrite orb_false_iff, !ltR_niff. assert (T1 := ltR_spec a b). destruct (ltR a b); assert (T2 := ltR_spec c d); destruct (ltR c d); assert (T3 := ltR_spec d c); destruct (ltR d c); assert (T4 := ltR_spec b a); destruct (ltR b a); destruct (Rle_dec a b), (Rle_dec c d); split; intros; lra. }
  rewrite orb_false_iff, !G. tauto.
Qed.
Definition cr3 (a b c : R * R) : R := (fst b - fst a) * (snd c - snd a) - (fst c - fst a) * (snd b - snd a).
Lemma cross_iff : forall a b c d, IsCrossLines a b c d = true <-> cr3 a b c * cr3 a b d <= 0 /\ cr3 c d a * cr3 c d b <= 0.
Proof.
  intros a b c d. unfold IsCrossLines, Area_Tri2. fold (cr3 a b c) (cr3 a b d) (cr3 c d a) (cr3 c d b). assert (G : forall x y, x / 2 * (y / 2) = x * y / 4) by (intros; field). rewrite !G.
  assert (T1 := ltR_spec 0 (cr3 a b c * cr3 a b d / 4)). destruct (ltR 0 _); [split; [discriminate|intros; lra]|]. assert (T2 := ltR_spec 0 (cr3 c d a * cr3 c d b / 4)). destruct (ltR 0 _); split; auto; try discriminate; intros; lra.
Qed.
Lemma over_pt : forall a b c d u v, 0 <= u <= 1 -> 0 <= v <= 1 -> (1 - u) * a + u * b = (1 - v) * c + v * d -> over a b c d.
Proof.
  intros a b c d u v U V E.
  assert (M : forall p q w, 0 <= w <= 1 -> (1 - w) * p + w * q <= Rmax p q /\ (p <= (1 - w) * p + w * q \/ q <= (1 - w) * p + w * q)). { intros p q w W. unfold Rmax. destruct (Rle_dec p q); split; nra. }
  destruct (M a b u U) as (A1 & A2). destruct (M c d v V) as (B1 & B2). split; [destruct A2; [left|right]; lra|destruct B2; [left|right]; lra].
Qed.
Lemma meet_cross : forall a b c d, meet a b c d -> boxes_apart a b c d = false /\ IsCrossLines a b c d = true.
Proof.
  intros a b c d (q & (u & U & QX & QY) & (v & V & PX & PY)). rewrite apart_iff, cross_iff. rewrite QX in PX. rewrite QY in PY. split; [split; apply over_pt with (u := u) (v := v); auto|].
  destruct a as (ax, ay), b as (bx, by_), c as (cx, cy), d as (dx, dy). unfold cr3. cbn [fst snd] in *.
  set (A1 := (bx - ax) * (cy - ay) - (cx - ax) * (by_ - ay)). set (A2 := (bx - ax) * (dy - ay) - (dx - ax) * (by_ - ay)). set (A3 := (dx - cx) * (ay - cy) - (ax - cx) * (dy - cy)). set (A4 := (dx - cx) * (by_ - cy) - (bx - cx) * (dy - cy)).
  assert (E1 : (1 - v) * A1 + v * A2 = 0). { transitivity ((bx - ax) * (((1 - v) * cy + v * dy) - ay) - (((1 - v) * cx + v * dx) - ax) * (by_ - ay)); [unfold A1, A2; ring|]. rewrite <- PX, <- PY. ring. }
  assert (E2 : (1 - u) * A3 + u * A4 = 0). { transitivity ((dx - cx) * (((1 - u) * ay + u * by_) - cy) - (((1 - u) * ax + u * bx) - cx) * (dy - cy)); [unfold A3, A4; ring|]. rewrite PX, PY. ring. }
  assert (G : forall w p q, 0 <= w <= 1 -> (1 - w) * p + w * q = 0 -> p * q <= 0).
  { clear. intros w p q W E. destruct (Rle_or_lt (p * q) 0) as [|P]; auto. exfalso. assert (S1 : (1 - w) * (p * p) + w * (p * q) = 0) by (transitivity (p * ((1 - w) * p + w * q)); [ring|rewrite E; ring]). assert (p <> 0) by (intros ->; lra). assert (0 < p * p) by nra. destruct (Rle_or_lt w (1 / 2)); nra. }
  split; [apply (G v)|apply (G u)]; auto.
Qed.
(** Collinear segments whose x ranges overlap. *)
Lemma collinear_x : forall a b c d, fst b <> fst a -> cr3 a b c = 0 -> cr3 a b d = 0 -> over (fst a) (fst b) (fst c) (fst d) -> meet a b c d.
Proof.
  intros (ax, ay) (bx, by_) (cx, cy) (dx, dy) NE C1 C2 OV. unfold cr3 in *. cbn [fst snd] in *.
  set (k := (by_ - ay) / (bx - ax)). assert (BX : bx - ax <> 0) by lra. assert (YC : cy = ay + k * (cx - ax)) by (apply (Rmult_eq_reg_l (bx - ax)); auto; unfold k; field_simplify; lra). assert (YD : dy = ay + k * (dx - ax)) by (apply (Rmult_eq_reg_l (bx - ax)); auto; unfold k; field_simplify; lra). assert (YB : by_ = ay + k * (bx - ax)) by (unfold k; field; auto).
  assert (EX : exists x u v, 0 <= u <= 1 /\ 0 <= v <= 1 /\ x = (1 - u) * ax + u * bx /\ x = (1 - v) * cx + v * dx).
  { assert (P : forall p q x, (p <= x \/ q <= x) -> (x <= p \/ x <= q) -> exists u, 0 <= u <= 1 /\ x = (1 - u) * p + u * q).
    { clear. intros p q x L H. destruct (Req_dec p q) as [->|N]; [exists 0; lra|]. exists ((x - p) / (q - p)). assert (q - p <> 0) by lra. split; [|field; auto]. destruct (Rlt_or_le p q).
      - split; [apply Rle_mult_inv_pos; lra|]. apply (Rmult_le_reg_r (q - p)); [lra|]. unfold Rdiv. rewrite Rmult_assoc, Rinv_l by auto. lra.
      - replace ((x - p) / (q - p)) with ((p - x) / (p - q)) by (field; lra). split; [apply Rle_mult_inv_pos; lra|]. apply (Rmult_le_reg_r (p - q)); [lra|]. unfold Rdiv. rewrite Rmult_assoc, Rinv_l by lra. lra. }
    set (x := Rmax (Rmin ax bx) (Rmin cx dx)). destruct (P ax bx x) as (u & U & EU); [| |destruct (P cx dx x) as (v & V & EV); [| |exists x, u, v; auto]]; unfold x, over, Rmax, Rmin in *; destruct (Rle_dec ax bx), (Rle_dec cx dx); try (destruct (Rle_dec ax cx)); try (destruct (Rle_dec ax dx)); try (destruct (Rle_dec bx cx)); try (destruct (Rle_dec bx dx)); lra. }
  destruct EX as (x & u & v & U & V & EU & EV). exists (x, ay + k * (x - ax)). split; [exists u|exists v]; cbn [fst snd]; split; auto; split; auto.
  - rewrite YB, EU. ring.
  - rewrite YC, YD, EV. ring.
Qed.
Definition sw (p : R * R) := (snd p, fst p).
Lemma meet_sw : forall a b c d, meet (sw a) (sw b) (sw c) (sw d) -> meet a b c d.
Proof. intros a b c d (q & (u & U & A & B) & (v & V & C & D)). exists (sw q). split; [exists u|exists v]; auto. Qed.
Lemma meet_sym : forall a b c d, meet c d a b -> meet a b c d.
Proof. intros a b c d (q & A & B). exists q. auto. Qed.
Lemma cross_meet : forall a b c d, boxes_apart a b c d = false -> IsCrossLines a b c d = true -> meet a b c d.
Proof.
  intros a b c d AP CR. apply apart_iff in AP. apply cross_iff in CR. destruct AP as (OX & OY). destruct CR as (C1 & C2).
  set (D := (fst b - fst a) * (snd d - snd c) - (fst d - fst c) * (snd b - snd a)).
  assert (I1 : cr3 a b d - cr3 a b c = D) by (unfold cr3, D; ring). assert (I2 : cr3 c d b - cr3 c d a = - D) by (unfold cr3, D; ring).
  destruct (Req_dec D 0) as [Z|NZ].
  - assert (Z1 : cr3 a b c = 0) by nra. assert (Z2 : cr3 a b d = 0) by nra. assert (Z3 : cr3 c d a = 0) by nra. assert (Z4 : cr3 c d b = 0) by nra.
    assert (SYM : forall p q r s, over p q r s -> over r s p q) by (unfold over; tauto). assert (CS : forall p q r, cr3 p q r = 0 -> cr3 (sw p) (sw q) (sw r) = 0) by (intros p q r H; unfold cr3, sw in *; cbn [fst snd]; lra).
    destruct (Req_dec (fst b) (fst a)) as [E1|N1]; [|apply collinear_x; auto]. destruct (Req_dec (fst d) (fst c)) as [E2|N2]; [|apply meet_sym, collinear_x; auto].
    destruct (Req_dec (snd b) (snd a)) as [E3|N3]; [|apply meet_sw, collinear_x; auto]. destruct (Req_dec (snd d) (snd c)) as [E4|N4]; [|apply meet_sym, meet_sw, collinear_x; auto].
    exists a. unfold over in *. rewrite E1, E2 in OX. rewrite E3, E4 in OY. unfold Rmax in *. assert (H : forall x : R, (if Rle_dec x x then x else x) = x) by (intros x; destruct (Rle_dec x x); auto). rewrite !H in *. split; exists 0; repeat split; try lra.
  - assert (DEN1 : cr3 a b c - cr3 a b d <> 0) by lra. assert (DEN2 : cr3 c d a - cr3 c d b <> 0) by lra.
    assert (F : forall p q, p * q <= 0 -> p - q <> 0 -> 0 <= p / (p - q) <= 1).
    { clear. intros p q H N. destruct (Rlt_or_le 0 (p - q)).
      - assert (0 <= p) by nra. assert (q <= 0) by nra. split; [apply Rle_mult_inv_pos; auto|]. apply (Rmult_le_reg_r (p - q)); auto. unfold Rdiv. rewrite Rmult_assoc, Rinv_l by auto. lra.
      - assert (p <= 0) by nra. assert (0 <= q) by nra. replace (p / (p - q)) with ((- p) / (q - p)) by (field; lra). split; [apply Rle_mult_inv_pos; lra|]. apply (Rmult_le_reg_r (q - p)); [lra|]. unfold Rdiv. rewrite Rmult_assoc, Rinv_l by lra. lra. }
    set (v := cr3 a b c / (cr3 a b c - cr3 a b d)). set (u := cr3 c d a / (cr3 c d a - cr3 c d b)).
    exists ((1 - u) * fst a + u * fst b, (1 - u) * snd a + u * snd b). split; [exists u; cbn [fst snd]; split; [apply F; auto|auto]|]. exists v. cbn [fst snd]. split; [apply F; auto|].
    assert (EV : v = - cr3 a b c / D) by (unfold v; replace (cr3 a b c - cr3 a b d) with (- D) by lra; field; auto). assert (EU : u = cr3 c d a / D) by (unfold u; replace (cr3 c d a - cr3 c d b) with D by lra; auto). rewrite EV, EU. unfold cr3 in *. destruct a as (ax, ay), b as (bx, by_), c as (cx, cy), d as (dx, dy). cbn [fst snd] in *. unfold D in *. split; field; auto.
Qed.
Lemma meet_iff : forall a b c d, meet a b c d <-> boxes_apart a b c d = false /\ IsCrossLines a b c d = true.
Proof. intros. split; [apply meet_cross|intros (A & B); apply cross_meet; auto]. Qed.
