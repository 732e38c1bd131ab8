(** Generated meshes: the cube, the disk, the open cylinder, the torus and the icosahedron in space. *)
From Coq Require Import List Arith Bool Lia Reals Lra.
Import ListNotations.
From Verif Require Import Imp PrimModel PrimSpec SgProofs2 PrimProofs1 PrimProofs2 PrimProofs3 PrimProofs4 PrimProofs5 PrimPi PrimProofs6.
Local Open Scope R_scope.

(** The cube: vertices are points of the grid with the step 1 / n. *)
Section CubeS.
Variable n : nat.
Hypothesis Hn : (1 <= n)%nat.
Definition lx (k : nat) : nat := if k <? n then k else if k <? 2 * n then n else if k <? 3 * n then (3 * n - k)%nat else 0%nat.
Definition ly (k : nat) : nat := if k <? n then 0%nat else if k <? 2 * n then (k - n)%nat else if k <? 3 * n then n else (4 * n - k)%nat.
Definition lat (v : cvtx) : nat * nat * nat := match v with Ring z k => (lx k, ly k, z) | Cap t x y => (x, y, (t * n)%nat) end.
Definition lpos (a : nat * nat * nat) : R * R * R := (- / 2 + INR (fst (fst a)) / INR n, - / 2 + INR (snd (fst a)) / INR n, - / 2 + INR (snd a) / INR n).
Lemma Npos : 1 <= INR n. Proof. change 1 with (INR 1). apply INR_ge; auto. Qed.
Lemma pos_eq : forall v, cok n v -> nth (cenc n v) (cubeP n) O3 = lpos (lat v).
Proof.
  assert (N := Npos). intros [z k|t x y] H.
  - simpl in H. rewrite cubeP_ring by lia. unfold cpos, lat, lx, ly, lpos. destruct (k <? n); [|destruct (k <? 2 * n); [|destruct (k <? 3 * n)]]; cbn [fst snd]; f_equal; try f_equal; simpl (INR 0); field; lra.
  - simpl in H. rewrite cubeP_cap by lia. unfold ipos, lat, lpos. cbn [fst snd]. replace (1 + (x - 1))%nat with x by lia. replace (1 + (y - 1))%nat with y by lia. rewrite mult_INR. f_equal; try f_equal; field; lra.
Qed.
Lemma lat_surf : forall v, cok n v -> let '(a, b, c) := lat v in (a <= n /\ b <= n /\ c <= n)%nat /\ (a = 0 \/ a = n \/ b = 0 \/ b = n \/ c = 0 \/ c = n)%nat.
Proof.
  intros [z k|t x y] H; simpl in H; unfold lat, lx, ly.
  - destruct (Nat.ltb_spec k n), (Nat.ltb_spec k (2 * n)), (Nat.ltb_spec k (3 * n)); lia.
  - assert (t = 0 \/ t = 1)%nat by lia. destruct H0; subst; simpl; lia.
Qed.
Lemma lat_inj : forall u v, cok n u -> cok n v -> lat u = lat v -> u = v.
Proof.
  intros [z k|t x y] [z' k'|t' x' y'] H H' E; simpl in H, H'; unfold lat, lx, ly in E; pose proof (f_equal (fun p => fst (fst p)) E) as E1; pose proof (f_equal (fun p => snd (fst p)) E) as E2; pose proof (f_equal snd E) as E3; cbn [fst snd] in E1, E2, E3; clear E.
  - f_equal; auto. destruct (Nat.ltb_spec k n), (Nat.ltb_spec k (2 * n)), (Nat.ltb_spec k (3 * n)), (Nat.ltb_spec k' n), (Nat.ltb_spec k' (2 * n)), (Nat.ltb_spec k' (3 * n)); lia.
  - exfalso. destruct (Nat.ltb_spec k n), (Nat.ltb_spec k (2 * n)), (Nat.ltb_spec k (3 * n)); lia.
  - exfalso. destruct (Nat.ltb_spec k' n), (Nat.ltb_spec k' (2 * n)), (Nat.ltb_spec k' (3 * n)); lia.
  - subst. f_equal. nia.
Qed.
Lemma lpos_inj : forall a b, lpos a = lpos b -> a = b.
Proof.
  assert (N := Npos). intros ((a, b), c) ((a', b'), c') E. unfold lpos in E. cbn [fst snd] in E. injection E as E1 E2 E3.
  assert (G : forall x y, - / 2 + INR x / INR n = - / 2 + INR y / INR n -> x = y). { intros x y Exy. apply INR_eq. apply Rplus_eq_reg_l in Exy. apply Rmult_eq_reg_r in Exy; auto. apply Rinv_neq_0_compat. lra. }
  apply G in E1, E2, E3. subst. auto.
Qed.
Lemma enc_all : forall i, (i < cnp n)%nat -> exists v, cok n v /\ cenc n v = i.
Proof.
  intros i Hi. destruct (cube_closed n Hn) as ((nt & Hl) & A & _). apply A in Hi. apply (in_dedges nt) in Hi; auto. destruct Hi as (j & Hj). destruct (cube_dedges n Hn) as (D & _). rewrite D in Hj. apply in_map_iff in Hj. destruct Hj as (((k, r), c) & E & Hx). injection E as E _. exists (fst (cubeE n (k, r, c))). split; auto.
  apply cubeL_in in Hx; auto. unfold cubeE. destruct (Nat.ltb_spec k 6).
  - destruct k as [|[|[|[|[|[|k]]]]]]; [..|exfalso; lia]; cbn [sideE fst cok]; (split; [lia|]); try apply sc_lt; lia.
  - destruct (capE_rng n Hn k r c) as (R1 & R2 & R3 & R4); try lia. destruct (Nat.ltb_spec k 12); unfold Bp; cbn [fst snd]; apply B_ok; auto.
Qed.
Lemma lat_onto : forall a b c, (a <= n /\ b <= n /\ c <= n)%nat -> (a = 0 \/ a = n \/ b = 0 \/ b = n \/ c = 0 \/ c = n)%nat -> exists v, cok n v /\ lat v = (a, b, c).
Proof.
  intros a b c Hr Hs. assert (Rk : forall z k, (z <= n)%nat -> (k < 4 * n)%nat -> cok n (Ring z k)) by (simpl; auto).
  assert (K : (b = 0 /\ a < n)%nat \/ (a = n /\ b < n)%nat \/ (b = n /\ 0 < a)%nat \/ (a = 0 /\ 0 < b)%nat \/ (0 < a < n /\ 0 < b < n)%nat) by lia.
  destruct K as [(-> & H)|[(-> & H)|[(-> & H)|[(-> & H)|(H & H')]]]].
  - exists (Ring c a). split. apply Rk; lia. simpl. unfold lx, ly. destruct (Nat.ltb_spec a n); [auto|lia].
  - exists (Ring c (n + b)). split. apply Rk; lia. unfold lat, lx, ly. destruct (Nat.ltb_spec (n + b) n); [lia|]. destruct (Nat.ltb_spec (n + b) (2 * n)); [|lia]. do 2 f_equal. lia.
  - exists (Ring c (3 * n - a)). split. apply Rk; lia. unfold lat, lx, ly. destruct (Nat.ltb_spec (3 * n - a) n); [lia|]. destruct (Nat.ltb_spec (3 * n - a) (2 * n)); [lia|]. destruct (Nat.ltb_spec (3 * n - a) (3 * n)); [|lia]. do 2 f_equal. lia.
  - exists (Ring c (4 * n - b)). split. apply Rk; lia. unfold lat, lx, ly. destruct (Nat.ltb_spec (4 * n - b) n); [lia|]. destruct (Nat.ltb_spec (4 * n - b) (2 * n)); [lia|]. destruct (Nat.ltb_spec (4 * n - b) (3 * n)); [lia|]. do 2 f_equal. lia.
  - exists (Cap (if (c =? 0)%nat then 0 else 1) a b). destruct (Nat.eqb_spec c 0); simpl; split; try lia; do 2 f_equal; lia.
Qed.
Lemma B_lat : forall t x y, (t < 2)%nat -> (x <= n)%nat -> (y <= n)%nat -> lat (B n t x y) = (x, y, (t * n)%nat).
Proof.
  intros t x y Ht Hx Hy. unfold B. destruct (Nat.eqb_spec y 0); [|destruct (Nat.eqb_spec x n); [|destruct (Nat.eqb_spec y n); [|destruct (Nat.eqb_spec x 0); [|auto]]]]; unfold lat, lx, ly; repeat match goal with |- context [(?a <? ?b)%nat] => destruct (Nat.ltb_spec a b) end; try lia; f_equal; f_equal; lia.
Qed.
Lemma ring_step : forall k, (k < 4 * n)%nat -> exists a b,
  lx k = a /\ ly k = b /\ ((lx (sc (4 * n) k) = a + 1 /\ ly (sc (4 * n) k) = b /\ b = 0) \/ (lx (sc (4 * n) k) = a /\ ly (sc (4 * n) k) = b + 1 /\ a = n) \/ (lx (sc (4 * n) k) + 1 = a /\ ly (sc (4 * n) k) = b /\ b = n) \/ (lx (sc (4 * n) k) = a /\ ly (sc (4 * n) k) + 1 = b /\ a = 0))%nat.
Proof.
  intros k Hk. exists (lx k), (ly k). split; auto. split; auto. unfold sc, lx, ly. destruct (Nat.eqb_spec k (4 * n - 1)); repeat match goal with |- context [(?a <? ?b)%nat] => destruct (Nat.ltb_spec a b) end; lia.
Qed.
Lemma cube_det : forall a b c, In (a, b, c) (tris (cube n)) -> det3 (nth a (cubeP n) O3) (nth b (cubeP n) O3) (nth c (cubeP n) O3) = / (2 * INR n * INR n).
Proof.
  assert (N := Npos). intros a b c H. unfold cube in H.
  rewrite (tris_app (n * (4 * n * 2))) in H. 2: { rewrite (fm_len _ (4 * n * 6)); [lia|]. intros. apply fm_len. auto. }
  rewrite (tris_app (n * (n * 2))) in H. 2: { rewrite (fm_len _ (n * 6)); [lia|]. intros. apply fm_len. auto. }
  rewrite !in_app_iff in H. destruct H as [H|[H|H]]; apply (tris_grid _ 2) in H; auto; destruct H as (r & k & Hr & Hk & H).
  - assert (Hs := sc_lt _ _ Hk). unfold side in H.
    change (k + 4 * n * r)%nat with (cenc n (Ring r k)) in H. change (sc (4 * n) k + 4 * n * r)%nat with (cenc n (Ring r (sc (4 * n) k))) in H. change (k + 4 * n * (r + 1))%nat with (cenc n (Ring (r + 1) k)) in H. change (sc (4 * n) k + 4 * n * (r + 1))%nat with (cenc n (Ring (r + 1) (sc (4 * n) k))) in H.
    destruct (ring_step k Hk) as (a' & b' & A1 & B1 & S1).
    assert (S2 : (INR (lx (sc (4 * n) k)) = INR a' + 1 /\ INR (ly (sc (4 * n) k)) = INR b' /\ INR b' = 0) \/ (INR (lx (sc (4 * n) k)) = INR a' /\ INR (ly (sc (4 * n) k)) = INR b' + 1 /\ INR a' = INR n) \/ (INR (lx (sc (4 * n) k)) = INR a' - 1 /\ INR (ly (sc (4 * n) k)) = INR b' /\ INR b' = INR n) \/ (INR (lx (sc (4 * n) k)) = INR a' /\ INR (ly (sc (4 * n) k)) = INR b' - 1 /\ INR a' = 0)).
    { destruct S1 as [(E1 & E2 & E3)|[(E1 & E2 & E3)|[(E1 & E2 & E3)|(E1 & E2 & E3)]]].
      - left. rewrite E1, E2, E3, plus_INR. auto.
      - right. left. rewrite E1, E2, E3, plus_INR. auto.
      - right. right. left. rewrite <- E1, E2, E3, plus_INR. simpl (INR 1). split; [ring|auto].
      - right. right. right. rewrite <- E2, E1, E3, plus_INR. simpl (INR 1). split; [auto|split; [ring|auto]]. }
    clear S1. cbn [tris] in H. destruct H as [E|[E|[]]]; apply pair_equal_spec in E; destruct E as (E & <-); apply pair_equal_spec in E; destruct E as (<- & <-); rewrite !pos_eq by (split; lia); unfold lat, lpos, det3, X, Y, Z; cbn [fst snd]; rewrite A1, B1, (plus_INR r 1); simpl (INR 1); destruct S2 as [(E1 & E2 & E3)|[(E1 & E2 & E3)|[(E1 & E2 & E3)|(E1 & E2 & E3)]]]; rewrite ?E1, ?E2, ?E3; field; lra.
  - unfold bot in H. cbn [tris] in H. destruct H as [E|[E|[]]]; apply pair_equal_spec in E; destruct E as (E & <-); apply pair_equal_spec in E; destruct E as (<- & <-); rewrite !pos_eq by (apply B_ok; lia); rewrite !B_lat by lia; unfold lpos, det3, X, Y, Z; cbn [fst snd]; rewrite Nat.mul_0_l, ?(plus_INR r 1), ?(plus_INR k 1); simpl (INR 1); simpl (INR 0); field; lra.
  - unfold top in H. cbn [tris] in H. destruct H as [E|[E|[]]]; apply pair_equal_spec in E; destruct E as (E & <-); apply pair_equal_spec in E; destruct E as (<- & <-); rewrite !pos_eq by (apply B_ok; lia); rewrite !B_lat by lia; unfold lpos, det3, X, Y, Z; cbn [fst snd]; rewrite Nat.mul_1_l, ?(plus_INR r 1), ?(plus_INR k 1); simpl (INR 1); field; lra.
Qed.
End CubeS.

Ltac pp := repeat first [assumption | apply Rmult_lt_0_compat].
(** The open cylinder. *)
Lemma open_out : forall r l nr nl, 0 < r -> 0 < l -> (3 <= nr)%nat -> (1 <= nl)%nat -> faces_outwards (pts3 (gridP (cylo r l nr nl) (nl + 1) nr)) (otube nr nl).
Proof.
  intros r l n nl Hr Hl Hn Hnl a b c H. rewrite !P3_pts3. unfold otube in H. apply (tris_grid _ 2) in H; auto. destruct H as (i & k & Hi & Hk & H). assert (Hs := sc_lt _ _ Hk). assert (T := ang_turn n k Hn Hk).
  assert (L1 : 1 <= INR nl) by (change 1 with (INR 1); apply INR_ge; auto). assert (Il : 0 < l / INR nl) by (apply Rdiv_lt_0_compat; lra).
  unfold band in H. rewrite !Nat.add_0_r in H. cbn [tris] in H. destruct H as [E|[E|[]]]; injection E as <- <- <-; rewrite !gridP_nth by lia; unfold det3, cylo, X, Y, Z; cbn [fst snd]; fold (ang n k) (ang n (sc n k)); rewrite plus_INR; simpl (INR 1).
  - match goal with |- 0 < ?e => replace e with (r * r * (l / INR nl) * (sin (ang n (sc n k)) * cos (ang n k) - cos (ang n (sc n k)) * sin (ang n k))) by ring end. pp.
  - match goal with |- 0 < ?e => replace e with (r * r * (l / INR nl) * (sin (ang n (sc n k)) * cos (ang n k) - cos (ang n (sc n k)) * sin (ang n k))) by ring end. pp.
Qed.
(** The disk. *)
Lemma disk_up : forall r nr nth_, 0 < r -> (1 <= nr)%nat -> (3 <= nth_)%nat -> faces_up (pts3 (O3 :: gridP (dsk r nr nth_) nr nth_)) (disk nth_ nr).
Proof.
  intros r m n Hr Hm Hn a b c H. rewrite !P3_pts3.
  assert (Q : forall i k d, (i < m)%nat -> (k < n)%nat -> nth (i * n + 1 + k) (O3 :: gridP (dsk r m n) m n) d = (r / INR m * INR (1 + i) * cos (ang n k), 0, r / INR m * INR (1 + i) * sin (ang n k))).
  { intros i k d Hi Hk. replace (i * n + 1 + k)%nat with (S (i * n + k)) by lia. cbn [nth]. rewrite gridP_nth by auto. unfold dsk. replace (INR k * (2 * pi10 / INR n)) with (ang n k) by (unfold ang; ring). auto. }
  assert (M1 : 1 <= INR m) by (change 1 with (INR 1); apply INR_ge; auto). assert (Ir : 0 < r / INR m) by (apply Rdiv_lt_0_compat; lra).
  unfold disk in H. rewrite (tris_app n) in H. 2: { rewrite (fm_len _ 3); auto. lia. } apply in_app_iff in H. destruct H as [H|H].
  - apply (tris_row _ 1) in H; auto. destruct H as (k & Hk & H). assert (Hs := sc_lt _ _ Hk). assert (T := ang_turn n k Hn Hk). destruct H as [E|[]]. injection E as <- <- <-.
    replace (k + 1)%nat with (0 * n + 1 + k)%nat by lia. replace (sc n k + 1)%nat with (0 * n + 1 + sc n k)%nat by lia. rewrite !Q by lia. cbn [nth]. unfold O3, X, Y, Z. cbn [fst snd]. simpl (INR (1 + 0)).
    match goal with |- 0 < ?e => replace e with (r / INR m * (r / INR m) * (sin (ang n (sc n k)) * cos (ang n k) - cos (ang n (sc n k)) * sin (ang n k))) by ring end. pp.
  - apply (tris_grid _ 2) in H; auto. destruct H as (i & k & Hi & Hk & H). assert (Hs := sc_lt _ _ Hk). assert (T := ang_turn n k Hn Hk). assert (I0 := pos_INR i).
    destruct H as [E|[E|[]]]; injection E as <- <- <-; rewrite !Q by lia; unfold X, Y, Z; cbn [fst snd]; rewrite !plus_INR; simpl (INR 1).
    + match goal with |- 0 < ?e => replace e with (r / INR m * (r / INR m) * (1 + INR i) * (sin (ang n (sc n k)) * cos (ang n k) - cos (ang n (sc n k)) * sin (ang n k))) by ring end. pp; lra.
    + match goal with |- 0 < ?e => replace e with (r / INR m * (r / INR m) * (1 + (INR i + 1)) * (sin (ang n (sc n k)) * cos (ang n k) - cos (ang n (sc n k)) * sin (ang n k))) by ring end. pp; lra.
Qed.

(** A check of small closed surfaces. *)
Definition closedb (np : nat) (tri : list nat) : bool :=
  forallb (fun i => existsb (Nat.eqb i) tri) (seq 0 np) && forallb (fun i => i <? np) tri &&
  forallb (fun e => negb (fst e =? snd e) && (length (filter (fun f => (fst f =? fst e) && (snd f =? snd e)) (dedges tri)) =? 1) && existsb (fun f => (fst f =? snd e) && (snd f =? fst e)) (dedges tri))%nat (dedges tri).
Lemma count_nodup : forall l : list (nat * nat), (forall e, In e l -> length (filter (fun f => (fst f =? fst e) && (snd f =? snd e))%nat l) = 1%nat) -> NoDup l.
Proof.
  intros l H. assert (G : forall u v, l = u ++ v -> NoDup v).
  { intros u v. revert u. induction v; intros u E. constructor. constructor.
    - intros Hin. specialize (H a). rewrite E in H. rewrite filter_app, app_length in H. simpl in H. rewrite !Nat.eqb_refl in H. simpl in H. assert (In a (filter (fun f => (fst f =? fst a) && (snd f =? snd a))%nat v)). { apply filter_In. split; auto. rewrite !Nat.eqb_refl. auto. }
      destruct (filter (fun f => (fst f =? fst a) && (snd f =? snd a))%nat v). destruct H0. simpl in H. assert (In a (u ++ a :: v)) by (apply in_app_iff; simpl; auto). apply H in H1. lia.
    - apply (IHv (u ++ [a])). rewrite <- app_assoc. auto. }
  apply (G [] l). auto.
Qed.
Lemma closedb_ok : forall np tri nt, length tri = (3 * nt)%nat -> closedb np tri = true -> closed_surface np tri.
Proof.
  intros np tri nt Hl H. unfold closedb in H. rewrite !andb_true_iff, !forallb_forall in H. destruct H as ((H1 & H2) & H3).
  assert (G : forall e, In e (dedges tri) -> fst e <> snd e /\ length (filter (fun f => (fst f =? fst e) && (snd f =? snd e))%nat (dedges tri)) = 1%nat /\ In (snd e, fst e) (dedges tri)).
  { intros e He. specialize (H3 e He). rewrite !andb_true_iff in H3. destruct H3 as ((A & B) & C). apply negb_true_iff, Nat.eqb_neq in A. apply Nat.eqb_eq in B. apply existsb_exists in C. destruct C as (f & Hf & C). rewrite andb_true_iff, !Nat.eqb_eq in C. destruct C as (C1 & C2). split; auto. split; auto. rewrite <- C1, <- C2, <- surjective_pairing. auto. }
  split; [exists nt; auto|]. split; [|split].
  - intros i. split. intros Hi. apply H2 in Hi. apply Nat.ltb_lt; auto. intros Hi. assert (In i (seq 0 np)) by (apply in_seq; lia). apply H1 in H. apply existsb_exists in H. destruct H as (x & Hx & E). apply Nat.eqb_eq in E. subst. auto.
  - apply count_nodup. intros e He. apply G. auto.
  - intros a b Hab. destruct (G (a, b) Hab) as (A & _ & B). simpl in *. tauto.
Qed.
Lemma ico_closed : closed_surface 12 (snd MeshTri3D_Icosahedron) /\ euler 12 (snd MeshTri3D_Icosahedron) 2.
Proof. split. apply (closedb_ok _ _ 20); vm_compute; auto. exists 20%nat. split; auto. Qed.
Lemma gold : let p := (1 + sqrt 5) * / 2 in p * p = p + 1 /\ 1 < p.
Proof. assert (E : sqrt 5 * sqrt 5 = 5) by (apply sqrt_sqrt; lra). assert (0 <= sqrt 5) by apply sqrt_pos. simpl. split; nra. Qed.
Lemma ico_norm : forall i, (i < 12)%nat -> norm2 (P3 (fst MeshTri3D_Icosahedron) i) = 1 + ((1 + sqrt 5) * / 2) * ((1 + sqrt 5) * / 2).
Proof. intros i Hi. unfold MeshTri3D_Icosahedron. set (p := (1 + sqrt 5) * / 2). do 12 (destruct i as [|i]; [unfold P3, norm2, X, Y, Z; simpl; ring|]). lia. Qed.
Lemma ico_out : faces_outwards (fst MeshTri3D_Icosahedron) (snd MeshTri3D_Icosahedron).
Proof.
  destruct gold as (G1 & G2). intros a b c H. unfold MeshTri3D_Icosahedron in *. set (p := (1 + sqrt 5) * / 2) in *. clearbody p. cbn [fst snd tris] in *.
  assert (G3 : p * p * p = 2 * p + 1) by (rewrite G1; lra || nra).
  repeat (destruct H as [H|H]; [injection H as <- <- <-; unfold P3, det3, X, Y, Z; simpl; nra|]). destruct H.
Qed.

(** The torus. *)
Lemma tor_turn : forall rad r m n i k, (0 < m)%nat -> (0 < n)%nat -> tor rad r m n i k = ((rad + r * cos (turn n k)) * sin (turn m i), (rad + r * cos (turn n k)) * cos (turn m i), r * sin (turn n k)).
Proof. intros. unfold tor, turn. replace (INR k * (PI * 2 / INR n)) with (2 * PI * INR k / INR n). replace (INR i * (PI * 2 / INR m)) with (2 * PI * INR i / INR m). auto. field. apply not_0_INR. lia. field. apply not_0_INR. lia. Qed.
Lemma torus_out : forall rad r m n i k b c, 0 < r < rad -> (3 <= m)%nat -> (3 <= n)%nat -> (i < m)%nat -> (k < n)%nat -> In ((i * n + k)%nat, b, c) (tris (torus n m)) ->
  let P i := nth i (gridP (tor rad r m n) m n) O3 in
  faces (P (i * n + k)%nat) (P b) (P c) (X (P (i * n + k)%nat) - rad * sin (turn m i), Y (P (i * n + k)%nat) - rad * cos (turn m i), Z (P (i * n + k)%nat)).
Proof.
  intros rad r m n i k b c Hr Hm Hn Hi Hk H. unfold torus in H. apply (tris_grid _ 2) in H; auto. destruct H as (i' & k' & Hi' & Hk' & H).
  assert (E : (i' * n + k' = i * n + k)%nat) by (destruct H as [E|[E|[]]]; injection E; auto). destruct (row_inj n i' k' i k) as (-> & ->); try lia. clear E Hi' Hk'.
  assert (Hs := sc_lt _ _ Hk). assert (Hs' := sc_lt _ _ Hi). assert (T := turn_turn n k Hn Hk). assert (T' := turn_turn m i Hm Hi).
  assert (CB : forall x, 0 < rad + r * cos x) by (intros x; destruct (COS_bound x); nra).
  destruct H as [E|[E|[]]]; injection E as <- <-; cbv beta zeta; rewrite !gridP_nth by lia; rewrite !tor_turn by lia; unfold faces, det3, X, Y, Z; cbn [fst snd].
  - assert (W := CB (turn n k)). match goal with |- 0 < ?e => replace e with (r * r * (rad + r * cos (turn n k)) * (sin (turn m (sc m i)) * cos (turn m i) - cos (turn m (sc m i)) * sin (turn m i)) * (sin (turn n (sc n k)) * cos (turn n k) - cos (turn n (sc n k)) * sin (turn n k))) by ring end. pp; lra.
  - assert (W := CB (turn n (sc n k))). match goal with |- 0 < ?e => replace e with (r * r * (rad + r * cos (turn n (sc n k))) * (sin (turn m (sc m i)) * cos (turn m i) - cos (turn m (sc m i)) * sin (turn m i)) * (sin (turn n (sc n k)) * cos (turn n k) - cos (turn n (sc n k)) * sin (turn n k))) by ring end. pp; lra.
Qed.
