(** Generated meshes: the surface of a cube. *)
From Coq Require Import List Arith Bool Lia Reals.
Import ListNotations.
From Verif Require Import Imp PrimModel PrimSpec SgProofs2 PrimProofs1 PrimProofs2.

Inductive cvtx := Ring (z k : nat) | Cap (t x y : nat).
Section Cube.
Variable n : nat.
Hypothesis Hn : 1 <= n.
(** The vertex at (x, y) of the bottom (t = 0) or the top (t = 1). *)
Definition B (t x y : nat) : cvtx :=
  if y =? 0 then Ring (t * n) x else if x =? n then Ring (t * n) (n + y) else if y =? n then Ring (t * n) (3 * n - x) else if x =? 0 then Ring (t * n) (4 * n - y) else Cap t x y.
Definition cenc (v : cvtx) : nat :=
  match v with Ring z k => k + 4 * n * z | Cap t x y => 4 * n * (n + 1) + t * ((n - 1) * (n - 1)) + (y - 1) * (n - 1) + (x - 1) end.
Definition cok (v : cvtx) : Prop := match v with Ring z k => z <= n /\ k < 4 * n | Cap t x y => t < 2 /\ 1 <= x < n /\ 1 <= y < n end.
Definition cnp : nat := 4 * n * (n + 1) + 2 * ((n - 1) * (n - 1)).

Ltac cs := repeat match goal with H : context [?a =? ?b] |- _ => destruct (Nat.eqb_spec a b) | |- context [?a =? ?b] => destruct (Nat.eqb_spec a b) end.
Lemma B_ok : forall t x y, t < 2 -> x <= n -> y <= n -> cok (B t x y).
Proof. intros t x y Ht Hx Hy. unfold B. cs; simpl; try lia; split; try lia; nia. Qed.
Lemma B_ring : forall t x y z k, x <= n -> y <= n -> B t x y = Ring z k -> z = t * n /\ ((y = 0 /\ k = x) \/ (x = n /\ k = n + y) \/ (y = n /\ k = 3 * n - x) \/ (x = 0 /\ 0 < y /\ k = 4 * n - y)).
Proof. intros t x y z k Hx Hy E. unfold B in E. cs; try discriminate; injection E as <- <-; split; auto; lia. Qed.
Lemma B_inj : forall t x y x' y', x <= n -> y <= n -> x' <= n -> y' <= n -> B t x y = B t x' y' -> x = x' /\ y = y'.
Proof. intros t x y x' y' H1 H2 H3 H4 E. unfold B in E. cs; try discriminate; injection E; intros; lia. Qed.
Lemma B_cross : forall x y x' y', B 0 x y <> B 1 x' y'.
Proof. intros x y x' y' E. unfold B in E. cs; try discriminate; injection E; intros; lia. Qed.
Lemma B_y0 : forall t x, B t x 0 = Ring (t * n) x. Proof. auto. Qed.
Lemma B_xn : forall t y, y <= n -> B t n y = Ring (t * n) (n + y). Proof. intros. unfold B. cs; f_equal; lia. Qed.
Lemma B_yn : forall t x, x <= n -> B t x n = Ring (t * n) (3 * n - x). Proof. intros. unfold B. cs; f_equal; lia. Qed.
Lemma B_x0 : forall t y, 1 <= y <= n -> B t 0 y = Ring (t * n) (4 * n - y). Proof. intros. unfold B. cs; f_equal; lia. Qed.
Lemma B_in : forall t x y, 1 <= x < n -> 1 <= y < n -> B t x y = Cap t x y. Proof. intros. unfold B. cs; try lia. auto. Qed.

Lemma corners : forall t ix iy, t < 2 -> ix < n -> iy < n -> cap_corners n (4 * n * (n + 1) + t * ((n - 1) * (n - 1))) (4 * n * (t * n)) ix iy = (cenc (B t ix iy), cenc (B t (ix + 1) iy), cenc (B t (ix + 1) (iy + 1)), cenc (B t ix (iy + 1))).
Proof.
  intros t ix iy Ht Hx Hy. unfold cap_corners. set (bs := 4 * n * (n + 1) + t * ((n - 1) * (n - 1))). set (f := 4 * n * (t * n)).
  assert (E : forall x y, x <= n -> y <= n -> cenc (B t x y) = if y =? 0 then f + x else if x =? n then f + n + y else if y =? n then f + 3 * n - x else if x =? 0 then f + 4 * n - y else bs + (y - 1) * (n - 1) + (x - 1)).
  { intros x y H1 H2. unfold B. cs; simpl cenc; fold bs; fold f; lia. }
  rewrite !E by lia. clear E. clearbody bs f. rewrite !Nat.add_sub, !Nat.add_0_r. 
  destruct (Nat.eqb_spec ix 0), (Nat.eqb_spec ix (n - 1)), (Nat.eqb_spec iy 0), (Nat.eqb_spec iy (n - 1)); cs; try (exfalso; lia); subst; (apply f_equal2; [apply f_equal2; [apply f_equal2|]|]); lia.
Qed.

Definition side (z k : nat) : list nat := [k + 4 * n * z; sc (4 * n) k + 4 * n * z; sc (4 * n) k + 4 * n * (z + 1); sc (4 * n) k + 4 * n * (z + 1); k + 4 * n * (z + 1); k + 4 * n * z].
Definition bot (x y : nat) : list nat := [cenc (B 0 (x + 1) y); cenc (B 0 x y); cenc (B 0 (x + 1) (y + 1)); cenc (B 0 x (y + 1)); cenc (B 0 (x + 1) (y + 1)); cenc (B 0 x y)].
Definition top (x y : nat) : list nat := [cenc (B 1 x y); cenc (B 1 (x + 1) y); cenc (B 1 (x + 1) (y + 1)); cenc (B 1 (x + 1) (y + 1)); cenc (B 1 x (y + 1)); cenc (B 1 x y)].
Definition cube : list nat := flat_map (fun z => flat_map (side z) (seq 0 (4 * n))) (seq 0 n) ++ flat_map (fun x => flat_map (bot x) (seq 0 n)) (seq 0 n) ++ flat_map (fun x => flat_map (top x) (seq 0 n)) (seq 0 n).
Definition cubeL : list (nat * nat * nat) := gridL [0; 1; 2; 3; 4; 5] n (4 * n) ++ gridL [6; 7; 8; 9; 10; 11] n n ++ gridL [12; 13; 14; 15; 16; 17] n n.
(** The edges of a square of the bottom and of the top. *)
Definition capE (k x y : nat) : (nat * nat) * (nat * nat) :=
  match k with
  | 6 => ((x + 1, y), (x, y)) | 7 => ((x, y), (x + 1, y + 1)) | 8 => ((x + 1, y + 1), (x + 1, y))
  | 9 => ((x, y + 1), (x + 1, y + 1)) | 10 => ((x + 1, y + 1), (x, y)) | 11 => ((x, y), (x, y + 1))
  | 12 => ((x, y), (x + 1, y)) | 13 => ((x + 1, y), (x + 1, y + 1)) | 14 => ((x + 1, y + 1), (x, y))
  | 15 => ((x + 1, y + 1), (x, y + 1)) | 16 => ((x, y + 1), (x, y)) | _ => ((x, y), (x + 1, y + 1))
  end.
Definition sideE (k z c : nat) : cvtx * cvtx :=
  match k with
  | 0 => (Ring z c, Ring z (sc (4 * n) c)) | 1 => (Ring z (sc (4 * n) c), Ring (z + 1) (sc (4 * n) c)) | 2 => (Ring (z + 1) (sc (4 * n) c), Ring z c)
  | 3 => (Ring (z + 1) (sc (4 * n) c), Ring (z + 1) c) | 4 => (Ring (z + 1) c, Ring z c) | _ => (Ring z c, Ring (z + 1) (sc (4 * n) c))
  end.
Definition Bp (t : nat) (e : (nat * nat) * (nat * nat)) : cvtx * cvtx := (B t (fst (fst e)) (snd (fst e)), B t (fst (snd e)) (snd (snd e))).
Definition cubeE (x : nat * nat * nat) : cvtx * cvtx :=
  let '(k, r, c) := x in if k <? 6 then sideE k r c else if k <? 12 then Bp 0 (capE k r c) else Bp 1 (capE k r c).

Lemma cubeL_in : forall k r c, In (k, r, c) cubeL <-> (k < 6 /\ r < n /\ c < 4 * n) \/ (6 <= k < 18 /\ r < n /\ c < n).
Proof. intros. unfold cubeL. rewrite !in_app_iff, !gridL_in. simpl. lia. Qed.
Lemma cubeL_nodup : NoDup cubeL.
Proof.
  unfold cubeL. apply NoDup_app_k. apply gridL_nodup. nd. apply NoDup_app_k. apply gridL_nodup. nd. apply gridL_nodup. nd.
  - intros ((k, r), c) H1 H2. apply gridL_in in H1, H2. simpl in *. lia.
  - intros ((k, r), c) H1 H2. rewrite in_app_iff in H2. rewrite !gridL_in in *. simpl in *. lia.
Qed.
Lemma cube_dedges : dedges cube = map (fun x => (cenc (fst (cubeE x)), cenc (snd (cubeE x)))) cubeL /\ length cube = 3 * (12 * n * n).
Proof.
  destruct (grid_dedges cubeE cenc [0; 1; 2; 3; 4; 5] n (4 * n) side) as (A1 & A2). { intros r c Hr Hc. split; auto. } { exists 2; auto. }
  destruct (grid_dedges cubeE cenc [6; 7; 8; 9; 10; 11] n n bot) as (B1 & B2). { intros r c Hr Hc. split; auto. } { exists 2; auto. }
  destruct (grid_dedges cubeE cenc [12; 13; 14; 15; 16; 17] n n top) as (C1 & C2). { intros r c Hr Hc. split; auto. } { exists 2; auto. }
  unfold cube, cubeL. rewrite (dedges_app (2 * (4 * n) * n)) by (rewrite A2; simpl length; lia). rewrite (dedges_app (2 * n * n)) by (rewrite B2; simpl length; lia). rewrite A1, B1, C1, !map_app, !app_length, A2, B2, C2. split; auto. simpl length. lia.
Qed.

Lemma capE_rng : forall k x y, x < n -> y < n -> fst (fst (capE k x y)) <= n /\ snd (fst (capE k x y)) <= n /\ fst (snd (capE k x y)) <= n /\ snd (snd (capE k x y)) <= n.
Proof. intros k x y Hx Hy. unfold capE. do 18 (destruct k as [|k]; [simpl; lia|]). simpl. lia. Qed.
Ltac k12 k := destruct k as [|[|[|[|[|[|k]]]]]]; [exfalso; lia..|]; destruct k as [|[|[|[|[|[|k]]]]]]; [..|exfalso; lia].
Ltac k18 k := do 12 (destruct k as [|k]; [exfalso; lia|]); destruct k as [|[|[|[|[|[|k]]]]]]; [..|exfalso; lia].
Lemma capE_inj : forall k x y k' x' y', 6 <= k < 12 /\ 6 <= k' < 12 \/ 12 <= k < 18 /\ 12 <= k' < 18 -> capE k x y = capE k' x' y' -> (k, x, y) = (k', x', y').
Proof.
  intros k x y k' x' y' H E. destruct H as [H|H].
  - k12 k; k12 k'; simpl in E; injection E; intros; try (exfalso; lia); (replace x' with x by lia; replace y' with y by lia; reflexivity).
  - k18 k; k18 k'; simpl in E; injection E; intros; try (exfalso; lia); (replace x' with x by lia; replace y' with y by lia; reflexivity).
Qed.
Lemma sideE_inj : forall k z c k' z' c', k < 6 -> k' < 6 -> c < 4 * n -> c' < 4 * n -> sideE k z c = sideE k' z' c' -> (k, z, c) = (k', z', c').
Proof.
  intros k z c k' z' c' H H' Hc Hc' E. assert (4 <= 4 * n) by lia. unfold sideE in E. revert Hc Hc' E. generalize dependent (4 * n). intros w Hw Hc Hc' E.
  destruct k as [|[|[|[|[|[|k]]]]]]; [..|exfalso; lia]; (destruct k' as [|[|[|[|[|[|k']]]]]]; [..|exfalso; lia]); injection E; clear E; intros; scs; try (exfalso; lia); (replace z' with z by lia; replace c' with c by lia; reflexivity).
Qed.
(** An edge of a cap on the ring is no edge of the side in the same direction. *)
Lemma cap_side : forall t k x y k' z c, (t = 0 /\ 6 <= k < 12) \/ (t = 1 /\ 12 <= k < 18) -> x < n -> y < n -> k' < 6 -> z < n -> c < 4 * n -> Bp t (capE k x y) <> sideE k' z c.
Proof.
  intros t k x y k' z c Hk Hx Hy Hk' Hz Hc E. destruct (capE_rng k x y Hx Hy) as (R1 & R2 & R3 & R4).
  assert (F : exists z1 k1 z2 k2, sideE k' z c = (Ring z1 k1, Ring z2 k2)). { unfold sideE. destruct k' as [|[|[|[|[|[|k']]]]]]; eauto. } destruct F as (z1 & k1 & z2 & k2 & F). rewrite F in E. unfold Bp in E. injection E as E1 E2. apply B_ring in E1, E2; auto. destruct E1 as (Z1 & E1), E2 as (Z2 & E2). subst z1 z2.
  assert (T : t * n = 0 /\ t = 0 \/ t * n = n /\ t = 1) by (destruct Hk as [(-> & _)|(-> & _)]; simpl; lia). set (tn := t * n) in *. clearbody tn.
  unfold sideE in F. assert (H4 : 4 <= 4 * n) by lia. destruct k' as [|[|[|[|[|[|k']]]]]]; [..|exfalso; lia]; injection F; clear F; intros; try (exfalso; lia); (destruct Hk as [(-> & Hk)|(-> & Hk)]; [k12 k|k18 k]); simpl in *; unfold sc in *; cs; lia.
Qed.
Lemma Bp_inj : forall t e e', fst (fst e) <= n /\ snd (fst e) <= n /\ fst (snd e) <= n /\ snd (snd e) <= n -> fst (fst e') <= n /\ snd (fst e') <= n /\ fst (snd e') <= n /\ snd (snd e') <= n -> Bp t e = Bp t e' -> e = e'.
Proof.
  intros t ((a, b), (c, d)) ((a', b'), (c', d')) H H' E. simpl in *. unfold Bp in E. simpl in E. injection E as E1 E2. apply B_inj in E1; try lia. apply B_inj in E2; try lia. destruct E1, E2. subst. auto.
Qed.

Ltac rr := apply f_equal2; apply (f_equal2 Ring); lia.
Ltac ev := cbn [cubeE sideE capE fst snd Nat.ltb Nat.leb]; unfold Bp; cbn [fst snd].
Lemma cube_closed : closed_surface cnp cube.
Proof.
  apply surface_mono with (b := fun a b => exists u v, cok u /\ cok v /\ False /\ a = cenc u /\ b = cenc v). 2: { intros. split. intros (u & v & _ & _ & [] & _). tauto. }
  destruct cube_dedges as (D1 & D2). apply (gen_surface cubeL cubeE cenc cok _ (fun _ _ => False)); auto.
  - eauto.
  - apply cubeL_nodup.
  - intros ((k, r), c) ((k', r'), c') H H' E. apply cubeL_in in H, H'. unfold cubeE in E. destruct (Nat.ltb_spec k 6), (Nat.ltb_spec k' 6).
    + apply sideE_inj; auto; lia.
    + exfalso. destruct (Nat.ltb_spec k' 12); symmetry in E; revert E; apply cap_side; lia.
    + exfalso. destruct (Nat.ltb_spec k 12); revert E; apply cap_side; lia.
    + destruct (Nat.ltb_spec k 12), (Nat.ltb_spec k' 12).
      * apply capE_inj. lia. apply (Bp_inj 0); auto; apply capE_rng; lia.
      * exfalso. unfold Bp in E. injection E as E _. revert E. apply B_cross.
      * exfalso. unfold Bp in E. injection E as E _. symmetry in E. revert E. apply B_cross.
      * apply capE_inj. lia. apply (Bp_inj 1); auto; apply capE_rng; lia.
  - intros ((k, r), c) H. apply cubeL_in in H. unfold cubeE. destruct (Nat.ltb_spec k 6).
    + assert (Hc : c < 4 * n) by lia. assert (Hs := sc_lt _ _ Hc). destruct k as [|[|[|[|[|[|k]]]]]]; [..|exfalso; lia]; cbn [fst snd cok sideE]; (split; [|split]); try lia; assert (H4 : 4 <= 4 * n) by lia; generalize dependent (4 * n); intros w Hw1 Hw2 Hw3 Hw4 E; injection E; unfold sc; destruct (Nat.eqb_spec c (w - 1)); intros; lia.
    + assert (Hr : r < n) by lia. assert (Hc : c < n) by lia. destruct (capE_rng k r c Hr Hc) as (R1 & R2 & R3 & R4).
      assert (Nq : fst (capE k r c) <> snd (capE k r c)). { intros E. assert (12 <= k \/ k < 12) by lia. destruct H1; [k18 k|k12 k]; simpl in E; injection E; intros; lia. }
      assert (G : forall t, t < 2 -> cok (fst (Bp t (capE k r c))) /\ cok (snd (Bp t (capE k r c))) /\ fst (Bp t (capE k r c)) <> snd (Bp t (capE k r c))).
      { intros t Ht. unfold Bp. simpl fst. simpl snd. split. apply B_ok; auto. split. apply B_ok; auto. intros E. apply B_inj in E; auto. apply Nq. destruct (capE k r c) as ((a, b), (d, e)). simpl in *. destruct E. subst. auto. }
      destruct (Nat.ltb_spec k 12); apply G; lia.
  - intros ((k, r), c) H. right. apply cubeL_in in H. assert (K : k < 6 \/ 6 <= k < 12 \/ 12 <= k) by lia. destruct K as [K|[K|K]].
    + assert (Hr : r < n) by lia. assert (Hc : c < 4 * n) by lia. destruct (pc_ex _ c Hc) as (d & Hd & Ed). assert (Hs := sc_lt _ _ Hc). clear H.
      assert (S4 : c < n /\ sc (4 * n) c = c + 1 \/ n <= c < 2 * n /\ sc (4 * n) c = c + 1 \/ 2 * n <= c < 3 * n /\ sc (4 * n) c = c + 1 \/ 3 * n <= c < 4 * n - 1 /\ sc (4 * n) c = c + 1 \/ c = 4 * n - 1 /\ sc (4 * n) c = 0) by (unfold sc; destruct (Nat.eqb_spec c (4 * n - 1)); lia).
      destruct k as [|[|[|[|[|[|k]]]]]]; [..|exfalso; lia]; ev.
      * destruct r as [|r]. 2: { exists (3, r, c). split. apply cubeL_in. lia. ev. rewrite Nat.add_1_r. auto. }
        destruct S4 as [(A & ->)|[(A & ->)|[(A & ->)|[(A & ->)|(A & ->)]]]].
        -- exists (6, c, 0). split. apply cubeL_in. lia. ev. rewrite !B_y0. auto.
        -- exists (8, n - 1, c - n). split. apply cubeL_in. lia. ev. replace (n - 1 + 1) with n by lia. rewrite !B_xn by lia. rewrite ?Nat.mul_0_l. rr.
        -- exists (9, 3 * n - c - 1, n - 1). split. apply cubeL_in. lia. ev. replace (n - 1 + 1) with n by lia. rewrite !B_yn by lia. rewrite ?Nat.mul_0_l. rr.
        -- exists (11, 0, 4 * n - c - 1). split. apply cubeL_in. lia. ev. rewrite !B_x0 by lia. rewrite ?Nat.mul_0_l. rr.
        -- exists (11, 0, 0). split. apply cubeL_in. lia. ev. rewrite B_y0, B_x0 by lia. rewrite ?Nat.mul_0_l. rr.
      * exists (4, r, sc (4 * n) c). split. apply cubeL_in. lia. auto.
      * exists (5, r, c). split. apply cubeL_in. lia. auto.
      * destruct (Nat.eq_dec r (n - 1)) as [->|Nr]. 2: { exists (0, r + 1, c). split. apply cubeL_in. lia. auto. } replace (n - 1 + 1) with n by lia.
        destruct S4 as [(A & ->)|[(A & ->)|[(A & ->)|[(A & ->)|(A & ->)]]]].
        -- exists (12, c, 0). split. apply cubeL_in. lia. ev. rewrite !B_y0. rewrite Nat.mul_1_l. auto.
        -- exists (13, n - 1, c - n). split. apply cubeL_in. lia. ev. replace (n - 1 + 1) with n by lia. rewrite !B_xn by lia. rewrite Nat.mul_1_l. rr.
        -- exists (15, 3 * n - c - 1, n - 1). split. apply cubeL_in. lia. ev. replace (n - 1 + 1) with n by lia. rewrite !B_yn by lia. rewrite Nat.mul_1_l. rr.
        -- exists (16, 0, 4 * n - c - 1). split. apply cubeL_in. lia. ev. rewrite !B_x0 by lia. rewrite Nat.mul_1_l. rr.
        -- exists (16, 0, 0). split. apply cubeL_in. lia. ev. rewrite B_y0, B_x0 by lia. rewrite Nat.mul_1_l. rr.
      * exists (1, r, d). split. apply cubeL_in. lia. ev. rewrite Ed. auto.
      * exists (2, r, c). split. apply cubeL_in. lia. auto.
    + assert (Hr : r < n) by lia. assert (Hc : c < n) by lia. clear H. k12 k; ev.
      * destruct c as [|c]. exists (0, 0, r). split. apply cubeL_in. lia. ev. rewrite !B_y0. unfold sc. destruct (Nat.eqb_spec r (4 * n - 1)); [lia|auto]. exists (9, r, c). split. apply cubeL_in. lia. ev. rewrite Nat.add_1_r. auto.
      * exists (10, r, c). split. apply cubeL_in. lia. auto.
      * destruct (Nat.eq_dec r (n - 1)) as [->|]. exists (0, 0, n + c). split. apply cubeL_in. lia. ev. replace (n - 1 + 1) with n by lia. rewrite !B_xn by lia. unfold sc. destruct (Nat.eqb_spec (n + c) (4 * n - 1)); [lia|]. rewrite ?Nat.mul_0_l. rr. exists (11, r + 1, c). split. apply cubeL_in. lia. auto.
      * destruct (Nat.eq_dec c (n - 1)) as [->|]. exists (0, 0, 3 * n - (r + 1)). split. apply cubeL_in. lia. ev. replace (n - 1 + 1) with n by lia. rewrite !B_yn by lia. unfold sc. destruct (Nat.eqb_spec (3 * n - (r + 1)) (4 * n - 1)); [lia|]. rewrite Nat.mul_0_l. rr. exists (6, r, c + 1). split. apply cubeL_in. lia. auto.
      * exists (7, r, c). split. apply cubeL_in. lia. auto.
      * destruct r as [|r]. exists (0, 0, 4 * n - (c + 1)). split. apply cubeL_in. lia. ev. rewrite (B_x0 0 (c + 1)) by lia. unfold sc. destruct (Nat.eqb_spec (4 * n - (c + 1)) (4 * n - 1)). replace c with 0 by lia. rewrite B_y0. auto. rewrite B_x0 by lia. rewrite Nat.mul_0_l. rr. exists (8, r, c). split. apply cubeL_in. lia. ev. rewrite !Nat.add_1_r. auto.
    + assert (Hr : r < n) by lia. assert (Hc : c < n) by lia. assert (K' : k < 18) by lia. clear H. k18 k; ev.
      * destruct c as [|c]. exists (3, n - 1, r). split. apply cubeL_in. lia. ev. rewrite !B_y0. replace (n - 1 + 1) with n by lia. rewrite Nat.mul_1_l. unfold sc. destruct (Nat.eqb_spec r (4 * n - 1)); [lia|auto]. exists (15, r, c). split. apply cubeL_in. lia. ev. rewrite !Nat.add_1_r. auto.
      * destruct (Nat.eq_dec r (n - 1)) as [->|]. exists (3, n - 1, n + c). split. apply cubeL_in. lia. ev. replace (n - 1 + 1) with n by lia. rewrite !B_xn by lia. rewrite Nat.mul_1_l. unfold sc. destruct (Nat.eqb_spec (n + c) (4 * n - 1)); [lia|]. rr. exists (16, r + 1, c). split. apply cubeL_in. lia. auto.
      * exists (17, r, c). split. apply cubeL_in. lia. auto.
      * destruct (Nat.eq_dec c (n - 1)) as [->|]. exists (3, n - 1, 3 * n - (r + 1)). split. apply cubeL_in. lia. ev. replace (n - 1 + 1) with n by lia. rewrite !B_yn by lia. unfold sc. destruct (Nat.eqb_spec (3 * n - (r + 1)) (4 * n - 1)); [lia|]. rewrite Nat.mul_1_l. rr. exists (12, r, c + 1). split. apply cubeL_in. lia. auto.
      * destruct r as [|r]. exists (3, n - 1, 4 * n - (c + 1)). split. apply cubeL_in. lia. ev. replace (n - 1 + 1) with n by lia. rewrite (B_x0 1 (c + 1)) by lia. unfold sc. destruct (Nat.eqb_spec (4 * n - (c + 1)) (4 * n - 1)). replace c with 0 by lia. rewrite B_y0. rewrite Nat.mul_1_l. auto. rewrite B_x0 by lia. rewrite Nat.mul_1_l. rr. exists (13, r, c). split. apply cubeL_in. lia. ev. rewrite !Nat.add_1_r. auto.
      * exists (14, r, c). split. apply cubeL_in. lia. auto.
  - intros u v Hu Hv E. destruct u as [z k|t x y], v as [z' k'|t' x' y']; simpl in *.
    + destruct (row_inj (4 * n) z k z' k'); try lia. subst. auto.
    + exfalso. nia.
    + exfalso. nia.
    + assert (t * ((n - 1) * (n - 1)) + ((y - 1) * (n - 1) + (x - 1)) = t' * ((n - 1) * (n - 1)) + ((y' - 1) * (n - 1) + (x' - 1))) by lia.
      destruct (row_inj ((n - 1) * (n - 1)) t ((y - 1) * (n - 1) + (x - 1)) t' ((y' - 1) * (n - 1) + (x' - 1))) as (-> & E'); [nia|nia|auto|]. destruct (row_inj (n - 1) (y - 1) (x - 1) (y' - 1) (x' - 1)); try lia. f_equal; lia.
  - intros u Hu. unfold cnp. destruct u; simpl in *; nia.
  - intros i Hi. unfold cnp in Hi. destruct (le_lt_dec (4 * n * (n + 1)) i) as [L|L].
    + set (m := n - 1) in *. set (j := i - 4 * n * (n + 1)). assert (Hj : j < 2 * (m * m)) by lia. assert (Hm : 1 <= m) by nia. assert (Ej : i = 4 * n * (n + 1) + j) by lia. clearbody j.
      assert (Ht : exists t j', t < 2 /\ j' < m * m /\ j = t * (m * m) + j'). { destruct (le_lt_dec (m * m) j). exists 1, (j - m * m). lia. exists 0, j. lia. } destruct Ht as (t & j' & Ht & Hj' & ->).
      assert (Hr : j' / m < m) by (apply Nat.div_lt_upper_bound; lia). assert (Hc : j' mod m < m) by (apply Nat.mod_upper_bound; lia). assert (E' : j' = j' / m * m + j' mod m). { pose proof (Nat.div_mod j' m ltac:(lia)). lia. }
      assert (Hb : B t (j' mod m + 1) (j' / m + 1) = Cap t (j' mod m + 1) (j' / m + 1)) by (apply B_in; lia).
      assert (En : cenc (Cap t (j' mod m + 1) (j' / m + 1)) = i). { unfold cenc. change (n - 1) with m. rewrite !Nat.add_sub. rewrite <- Nat.add_assoc, <- E'. lia. }
      destruct t as [|[|t]]; [| |lia].
      * exists (7, j' mod m + 1, j' / m + 1). split. apply cubeL_in. lia. unfold cubeE, Bp. simpl fst. rewrite Hb. auto.
      * exists (12, j' mod m + 1, j' / m + 1). split. apply cubeL_in. lia. unfold cubeE, Bp. simpl fst. rewrite Hb. auto.
    + assert (Hr : i / (4 * n) < n + 1) by (apply Nat.div_lt_upper_bound; lia). assert (Hc : i mod (4 * n) < 4 * n) by (apply Nat.mod_upper_bound; lia). assert (E' : i = i mod (4 * n) + 4 * n * (i / (4 * n))). { pose proof (Nat.div_mod i (4 * n) ltac:(lia)). lia. }
      destruct (Nat.eq_dec (i / (4 * n)) n) as [e|]. exists (4, n - 1, i mod (4 * n)). split. apply cubeL_in. lia. ev. unfold cenc. replace (n - 1 + 1) with n by lia. rewrite e in E'. lia.
      exists (0, i / (4 * n), i mod (4 * n)). split. apply cubeL_in. lia. ev. unfold cenc. lia.
Qed.
Lemma cube_euler : euler cnp cube 2.
Proof. exists (12 * n * n). split. apply cube_dedges. unfold cnp. assert (E : exists p, n = p + 1) by (exists (n - 1); lia). destruct E as (p & ->). rewrite Nat.add_sub. lia. Qed.
End Cube.
