(** Generated meshes: triangles that face outwards. *)
From Coq Require Import List Arith Bool Lia Reals Lra.
Import ListNotations.
From Verif Require Import Imp PrimModel PrimSpec SgProofs2 PrimProofs1 PrimProofs2 PrimProofs3 PrimProofs4 PrimProofs5 PrimPi.

Lemma tris_app : forall k u v, length u = 3 * k -> tris (u ++ v) = tris u ++ tris v.
Proof. induction k; intros u v H. destruct u; [auto|discriminate]. destruct u as [|a [|b [|c u]]]; simpl in H; try lia. simpl. rewrite IHk; auto. lia. Qed.
Lemma tris_fm : forall {A} (f : A -> list nat) k l, (forall x, In x l -> length (f x) = 3 * k) -> tris (flat_map f l) = flat_map (fun x => tris (f x)) l.
Proof. induction l; simpl; intros H; auto. rewrite (tris_app k), IHl; auto. Qed.
Lemma tris_row : forall (f : nat -> list nat) k n t, (forall x, length (f x) = 3 * k) -> In t (tris (flat_map f (seq 0 n))) -> exists c, c < n /\ In t (tris (f c)).
Proof. intros f k n t H Ht. rewrite (tris_fm f k) in Ht by auto. apply in_flat_map in Ht. destruct Ht as (c & Hc & Ht). apply in_seq in Hc. exists c. split; [lia|auto]. Qed.
Lemma tris_grid : forall (f : nat -> nat -> list nat) k m n t, (forall r c, length (f r c) = 3 * k) -> In t (tris (flat_map (fun r => flat_map (f r) (seq 0 n)) (seq 0 m))) -> exists r c, r < m /\ c < n /\ In t (tris (f r c)).
Proof.
  intros f k m n t H Ht. apply (tris_row _ (n * k)) in Ht. 2: { intros r. rewrite (fm_len _ (3 * k)); auto. lia. } destruct Ht as (r & Hr & Ht). apply (tris_row _ k) in Ht; auto. destruct Ht as (c & Hc & Ht). eauto.
Qed.
Lemma tube_tris : forall n m t, In t (tris (tube n m)) -> (exists c, c < n /\ In t (tris (cap_s n c))) \/ (exists r c, r < m - 1 /\ c < n /\ In t (tris (band n 1 r c))) \/ (exists c, c < n /\ In t (tris (cap_n n m c))).
Proof.
  intros n m t H. unfold tube in H. rewrite (tris_app n) in H. 2: { rewrite (fm_len _ 3); auto. lia. } rewrite (tris_app (2 * n * (m - 1))) in H. 2: { rewrite (fm_len _ (n * 6)); [lia|]. intros. apply fm_len. auto. }
  rewrite !in_app_iff in H. destruct H as [H|[H|H]]. left. apply (tris_row _ 1); auto. right. left. apply (tris_grid _ 2); auto. right. right. apply (tris_row _ 1); auto.
Qed.
Local Open Scope R_scope.

(** A surface of revolution about the y axis: rings of radius [rho r] at the height [y r]. *)
Section Rev.
Variables (n m : nat) (ys ye : R) (rho y C S : nat -> R).
Hypothesis Hm : (1 <= m)%nat.
Hypothesis Hys : ys < 0.
Hypothesis Hye : 0 < ye.
Hypothesis Hrho : forall r, (r < m)%nat -> 0 < rho r.
Hypothesis Hstep : forall r, (r + 1 < m)%nat -> 0 < rho r * y (r + 1)%nat - rho (r + 1)%nat * y r.
Hypothesis Hturn : forall c, (c < n)%nat -> 0 < S (sc n c) * C c - C (sc n c) * S c.
Lemma tube_out : faces_outwards (pts3 (revolved (0, ys, 0) (0, ye, 0) (fun r c => (rho r * C c, y r, rho r * S c)) m n)) (tube n m).
Proof.
  intros a b c H. rewrite !P3_pts3. apply tube_tris in H. destruct H as [(k & Hk & H)|[(r & k & Hr & Hk & H)|(k & Hk & H)]]; assert (Hs := sc_lt n k Hk).
  - destruct H as [E|[]]. injection E as <- <- <-. rewrite revolved_s. replace (k + 1)%nat with (0 * n + 1 + k)%nat by lia. replace (sc n k + 1)%nat with (0 * n + 1 + sc n k)%nat by lia. rewrite !revolved_g by lia.
    unfold det3, X, Y, Z. cbn [fst snd]. assert (H0 := Hrho 0 ltac:(lia)). assert (H1 := Hturn k Hk). 
    match goal with |- 0 < ?e => replace e with ((- ys) * (rho 0%nat * rho 0%nat) * (S (sc n k) * C k - C (sc n k) * S k)) by ring end. apply Rmult_lt_0_compat; auto. apply Rmult_lt_0_compat; nra.
  - assert (H0 := Hrho r ltac:(lia)). assert (H0' := Hrho (r + 1)%nat ltac:(lia)). assert (H1 := Hturn k Hk). assert (H2 := Hstep r ltac:(lia)).
    destruct H as [E|[E|[]]]; injection E as <- <- <-; rewrite !revolved_g by lia; unfold det3, X, Y, Z; cbn [fst snd].
    + match goal with |- 0 < ?e => replace e with (rho r * (rho r * y (r + 1)%nat - rho (r + 1)%nat * y r) * (S (sc n k) * C k - C (sc n k) * S k)) by ring end. apply Rmult_lt_0_compat; auto. apply Rmult_lt_0_compat; auto.
    + match goal with |- 0 < ?e => replace e with (rho (r + 1)%nat * (rho r * y (r + 1)%nat - rho (r + 1)%nat * y r) * (S (sc n k) * C k - C (sc n k) * S k)) by ring end. apply Rmult_lt_0_compat; auto. apply Rmult_lt_0_compat; auto.
  - destruct H as [E|[]]. injection E as <- <- <-. rewrite revolved_e. rewrite !revolved_g by lia.
    unfold det3, X, Y, Z. cbn [fst snd]. assert (H0 := Hrho (m - 1)%nat ltac:(lia)). assert (H1 := Hturn k Hk).
    match goal with |- 0 < ?e => replace e with (ye * (rho (m - 1)%nat * rho (m - 1)%nat) * (S (sc n k) * C k - C (sc n k) * S k)) by ring end. apply Rmult_lt_0_compat; auto. apply Rmult_lt_0_compat; nra.
Qed.
End Rev.

(** One step around. *)
Definition ang (n c : nat) : R := 2 * pi10 / INR n * INR c.
Lemma pi_bounds : 3 < pi10 /\ pi10 <= PI <= pi10 + / 10000000000.
Proof. split. unfold pi10. lra. split. apply pi10_le. apply pi10_ge. Qed.
Lemma INR_ge : forall n k, (k <= n)%nat -> INR k <= INR n. Proof. intros. apply le_INR. auto. Qed.
Lemma ang_next : forall n c, (3 <= n)%nat -> (c < n)%nat -> exists D, 0 < D < PI /\ D / 2 <= 11 / 10 /\ sin (ang n (sc n c)) = sin (ang n c + D) /\ cos (ang n (sc n c)) = cos (ang n c + D).
Proof.
  intros n c Hn Hc. destruct pi_bounds as (P1 & P2 & P3). assert (N3 : 3 <= INR n) by (replace 3 with (INR 3) by (simpl; ring); apply INR_ge; auto).
  assert (Q1 : 0 < 2 * pi10 / INR n) by (apply Rdiv_lt_0_compat; lra). assert (Q2 : 2 * pi10 / INR n <= 2 * pi10 / 3) by (apply Rmult_le_compat_l; [lra|]; apply Rinv_le_contravar; lra).
  unfold sc. destruct (Nat.eqb_spec c (n - 1)) as [->|N].
  - exists (2 * PI - ang n (n - 1)). assert (E : ang n (n - 1) = 2 * pi10 - 2 * pi10 / INR n). { unfold ang. rewrite minus_INR by lia. simpl (INR 1). field. lra. }
    assert (U : pi10 <= 315 / 100) by (unfold pi10; lra). rewrite E. split; [lra|]. split; [lra|]. replace (2 * pi10 - 2 * pi10 / INR n + (2 * PI - (2 * pi10 - 2 * pi10 / INR n))) with (2 * PI) by ring. unfold ang. simpl (INR 0). rewrite Rmult_0_r, sin_2PI, cos_2PI, sin_0, cos_0. auto.
  - exists (2 * pi10 / INR n). assert (U : pi10 <= 315 / 100) by (unfold pi10; lra). split; [lra|]. split; [lra|]. replace (ang n c + 2 * pi10 / INR n) with (ang n (c + 1)). auto. unfold ang. rewrite plus_INR. simpl (INR 1). ring.
Qed.
Lemma turn_pos : forall a b D, 0 < D < PI -> sin b = sin (a + D) -> cos b = cos (a + D) -> sin b * cos a - cos b * sin a = sin D /\ 0 < sin D.
Proof. intros a b D HD E1 E2. rewrite E1, E2. rewrite <- sin_minus. replace (a + D - a) with D by ring. split; auto. apply sin_gt_0; lra. Qed.
Lemma ang_turn : forall n c, (3 <= n)%nat -> (c < n)%nat -> 0 < sin (ang n (sc n c)) * cos (ang n c) - cos (ang n (sc n c)) * sin (ang n c).
Proof. intros n c Hn Hc. destruct (ang_next n c Hn Hc) as (D & HD & _ & E1 & E2). destruct (turn_pos _ _ D HD E1 E2) as (-> & H). auto. Qed.
Lemma turn_turn : forall n c, (3 <= n)%nat -> (c < n)%nat -> 0 < sin (turn n (sc n c)) * cos (turn n c) - cos (turn n (sc n c)) * sin (turn n c).
Proof.
  intros n c Hn Hc. assert (N3 : 3 <= INR n) by (replace 3 with (INR 3) by (simpl; ring); apply INR_ge; auto). assert (P0 := PI_RGT_0).
  assert (Q1 : 0 < 2 * PI / INR n) by (apply Rdiv_lt_0_compat; lra). assert (Q2 : 2 * PI / INR n <= 2 * PI / 3) by (apply Rmult_le_compat_l; [lra|]; apply Rinv_le_contravar; lra).
  assert (E : sin (turn n (sc n c)) = sin (turn n c + 2 * PI / INR n) /\ cos (turn n (sc n c)) = cos (turn n c + 2 * PI / INR n)).
  { unfold sc. destruct (Nat.eqb_spec c (n - 1)) as [->|N].
    - replace (turn n (n - 1) + 2 * PI / INR n) with (2 * PI). unfold turn. simpl (INR 0). replace (2 * PI * 0 / INR n) with 0 by (field; lra). rewrite sin_2PI, cos_2PI, sin_0, cos_0. auto. unfold turn. rewrite minus_INR by lia. simpl (INR 1). field. lra.
    - replace (turn n c + 2 * PI / INR n) with (turn n (c + 1)). auto. unfold turn. rewrite plus_INR. simpl (INR 1). field. lra. }
  destruct E as (E1 & E2). destruct (turn_pos _ _ (2 * PI / INR n) ltac:(lra) E1 E2) as (-> & H). auto.
Qed.

Lemma cylinder_out : forall r l nr nl, 0 < r -> 0 < l -> (3 <= nr)%nat -> (1 <= nl)%nat ->
  faces_outwards (pts3 (revolved (0, - l / 2, 0) (0, l / 2, 0) (cyl r l nr nl) (nl + 1) nr)) (tube nr (nl + 1)).
Proof.
  intros r l nr nl Hr Hl Hn Hm. apply (tube_out nr (nl + 1) (- l / 2) (l / 2) (fun _ => r) (fun il => - l / 2 + l / INR nl * INR il) (fun c => cos (ang nr c)) (fun c => sin (ang nr c))).
  - lia.
  - lra.
  - lra.
  - auto.
  - intros i Hi. rewrite plus_INR. simpl (INR 1). assert (1 <= INR nl) by (change 1 with (INR 1); apply INR_ge; auto). assert (0 < l / INR nl) by (apply Rdiv_lt_0_compat; lra). nra.
  - intros c Hc. apply ang_turn; auto.
Qed.

(** Capsule. *)
Definition cap_rho (r : R) (nr nl i : nat) : R := if i <? nr then r * cos (PI * / 2 * INR (nr - 1 - i) / INR nr) else if i <? nr + (nl - 1) then r else r * cos (PI * / 2 * INR (i - (nr + (nl - 1))) / INR nr).
Definition cap_y (r l : R) (nr nl i : nat) : R := if i <? nr then - l * / 2 - r * sin (PI * / 2 * INR (nr - 1 - i) / INR nr) else if i <? nr + (nl - 1) then - l * / 2 + INR (i - nr + 1) * l / INR nl else l * / 2 + r * sin (PI * / 2 * INR (i - (nr + (nl - 1))) / INR nr).
Lemma capf_eq : forall r l nc nr nl i c, capf r l nc nr nl i c = (cap_rho r nr nl i * cos (turn nc c), cap_y r l nr nl i, cap_rho r nr nl i * sin (turn nc c)).
Proof. intros. unfold capf, cap_rho, cap_y. destruct (i <? nr); auto. destruct (i <? nr + (nl - 1)); auto. Qed.
Definition qt (nr k : nat) : R := PI * / 2 * INR k / INR nr.
Lemma qt_rng : forall nr k, (1 <= nr)%nat -> (k < nr)%nat -> 0 <= qt nr k < PI / 2 /\ qt nr (k + 1) = qt nr k + qt nr 1 /\ 0 < qt nr 1 <= PI / 2.
Proof.
  intros nr k Hn Hk. assert (N : 1 <= INR nr) by (change 1 with (INR 1); apply INR_ge; auto). assert (K : INR k < INR nr) by (apply lt_INR; auto). assert (K0 := pos_INR k). assert (P0 := PI_RGT_0). unfold qt. rewrite plus_INR. simpl (INR 1).
  assert (I0 : 0 < / INR nr) by (apply Rinv_0_lt_compat; lra). assert (I1 : INR nr * / INR nr = 1) by (apply Rinv_r; lra). split; [|split].
  - split. unfold Rdiv. apply Rmult_le_pos; [|lra]. apply Rmult_le_pos; [lra|auto]. replace (PI / 2) with (PI * / 2 * INR nr / INR nr) by (field; lra). unfold Rdiv. apply Rmult_lt_compat_r; auto. apply Rmult_lt_compat_l; lra.
  - field. lra.
  - split. unfold Rdiv. apply Rmult_lt_0_compat; lra. replace (PI / 2) with (PI * / 2 * INR nr / INR nr) by (field; lra). unfold Rdiv. apply Rmult_le_compat_r; [lra|]. apply Rmult_le_compat_l; lra.
Qed.
Lemma capsule_out : forall r l nc nr nl, 0 < r -> 0 < l -> (3 <= nc)%nat -> (1 <= nr)%nat -> (1 <= nl)%nat ->
  faces_outwards (pts3 (revolved (0, - l * / 2 - r, 0) (0, l * / 2 + r, 0) (capf r l nc nr nl) (2 * nr + nl - 1) nc)) (tube nc (2 * nr + nl - 1)).
Proof.
  intros r l nc nr nl Hr Hl Hn Hnr Hnl. assert (E : revolved (0, - l * / 2 - r, 0) (0, l * / 2 + r, 0) (capf r l nc nr nl) (2 * nr + nl - 1) nc = revolved (0, - l * / 2 - r, 0) (0, l * / 2 + r, 0) (fun i c => (cap_rho r nr nl i * cos (turn nc c), cap_y r l nr nl i, cap_rho r nr nl i * sin (turn nc c))) (2 * nr + nl - 1) nc). { unfold revolved. do 2 f_equal. apply gridP_ext. intros. apply capf_eq. } rewrite E.
  assert (P0 := PI_RGT_0). assert (L1 : 1 <= INR nl) by (change 1 with (INR 1); apply INR_ge; auto). assert (Il : 0 < l / INR nl) by (apply Rdiv_lt_0_compat; lra).
  apply (tube_out nc (2 * nr + nl - 1) (- l * / 2 - r) (l * / 2 + r) (cap_rho r nr nl) (cap_y r l nr nl) (fun c => cos (turn nc c)) (fun c => sin (turn nc c))).
  - lia.
  - lra.
  - lra.
  - intros i Hi. unfold cap_rho. destruct (Nat.ltb_spec i nr); [|destruct (Nat.ltb_spec i (nr + (nl - 1))); [auto|]].
    + destruct (qt_rng nr (nr - 1 - i)) as (A & _); try lia. unfold qt in A. apply Rmult_lt_0_compat; auto. apply cos_gt_0; lra.
    + destruct (qt_rng nr (i - (nr + (nl - 1)))) as (A & _); try lia. unfold qt in A. apply Rmult_lt_0_compat; auto. apply cos_gt_0; lra.
  - intros i Hi. unfold cap_rho, cap_y. fold (qt nr (nr - 1 - i)) (qt nr (i - (nr + (nl - 1)))) (qt nr (nr - 1 - (i + 1))) (qt nr (i + 1 - (nr + (nl - 1)))).
    destruct (Nat.ltb_spec i nr) as [H1|H1].
    + destruct (Nat.ltb_spec (i + 1) nr) as [H2|H2].
      * replace (nr - 1 - i)%nat with (nr - 1 - (i + 1) + 1)%nat by lia. set (k := (nr - 1 - (i + 1))%nat). destruct (qt_rng nr k) as (A & B & A2); try lia. destruct (qt_rng nr (k + 1)) as (A3 & _); try lia. assert (S1 : 0 < sin (qt nr (k + 1) - qt nr k)) by (apply sin_gt_0; lra). rewrite sin_minus in S1. assert (C1 : cos (qt nr (k + 1)) < cos (qt nr k)) by (apply cos_decreasing_1; lra). set (c1 := cos (qt nr (k + 1))) in *. set (s1 := sin (qt nr (k + 1))) in *. set (c0 := cos (qt nr k)) in *. set (s0 := sin (qt nr k)) in *.
        match goal with |- 0 < ?e => replace e with (r * (l * / 2) * (c0 - c1) + r * r * (s1 * c0 - c1 * s0)) by ring end. apply Rplus_lt_0_compat; repeat apply Rmult_lt_0_compat; lra.
      * replace (nr - 1 - i)%nat with 0%nat by lia. replace (qt nr 0) with 0 by (unfold qt; simpl; field; assert (1 <= INR nr) by (change 1 with (INR 1); apply INR_ge; auto); lra). rewrite cos_0, sin_0. destruct (Nat.ltb_spec (i + 1) (nr + (nl - 1))).
        -- replace (i + 1 - nr + 1)%nat with 1%nat by lia. simpl (INR 1). match goal with |- 0 < ?e => replace e with (r * (l / INR nl)) by (field; lra) end. apply Rmult_lt_0_compat; auto.
        -- replace (i + 1 - (nr + (nl - 1)))%nat with 0%nat by lia. replace (qt nr 0) with 0 by (unfold qt; simpl; field; assert (1 <= INR nr) by (change 1 with (INR 1); apply INR_ge; auto); lra). rewrite cos_0, sin_0. nra.
    + destruct (Nat.ltb_spec (i + 1) nr) as [|_]; [lia|]. destruct (Nat.ltb_spec i (nr + (nl - 1))) as [H2|H2].
      * destruct (Nat.ltb_spec (i + 1) (nr + (nl - 1))) as [H3|H3].
        -- replace (i + 1 - nr + 1)%nat with ((i - nr + 1) + 1)%nat by lia. rewrite (plus_INR (i - nr + 1) 1). simpl (INR 1). match goal with |- 0 < ?e => replace e with (r * (l / INR nl)) by (field; lra) end. apply Rmult_lt_0_compat; auto.
        -- replace (i + 1 - (nr + (nl - 1)))%nat with 0%nat by lia. replace (qt nr 0) with 0 by (unfold qt; simpl; field; assert (1 <= INR nr) by (change 1 with (INR 1); apply INR_ge; auto); lra). rewrite cos_0, sin_0. replace (i - nr + 1)%nat with (nl - 1)%nat by lia. rewrite minus_INR by lia. simpl (INR 1). match goal with |- 0 < ?e => replace e with (r * (l / INR nl)) by (field; lra) end. apply Rmult_lt_0_compat; auto.
      * destruct (Nat.ltb_spec (i + 1) (nr + (nl - 1))) as [|_]; [lia|]. replace (i + 1 - (nr + (nl - 1)))%nat with (i - (nr + (nl - 1)) + 1)%nat by lia. set (k := (i - (nr + (nl - 1)))%nat).
        destruct (qt_rng nr k) as (A & B & A2); try lia. destruct (qt_rng nr (k + 1)) as (A3 & _); try lia. assert (S1 : 0 < sin (qt nr (k + 1) - qt nr k)) by (apply sin_gt_0; lra). rewrite sin_minus in S1. assert (C1 : cos (qt nr (k + 1)) < cos (qt nr k)) by (apply cos_decreasing_1; lra). set (c1 := cos (qt nr (k + 1))) in *. set (s1 := sin (qt nr (k + 1))) in *. set (c0 := cos (qt nr k)) in *. set (s0 := sin (qt nr k)) in *.
        match goal with |- 0 < ?e => replace e with (r * (l * / 2) * (c0 - c1) + r * r * (s1 * c0 - c1 * s0)) by ring end. apply Rplus_lt_0_compat; repeat apply Rmult_lt_0_compat; lra.
  - intros c Hc. apply turn_turn; auto.
Qed.
