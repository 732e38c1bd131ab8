(** Generated meshes: the arrays the functions return, as lists of points and of triangles. *)
From Coq Require Import List Arith Bool Lia Reals.
Import ListNotations.
From Verif Require Import Imp PrimModel PrimSpec SgProofs2 PrimProofs1 PrimProofs2 PrimProofs3.

Definition O3 : R * R * R := (0%R, 0%R, 0%R).
Definition p3 (p : R * R * R) : list R := [X p; Y p; Z p].
Definition pts3 (l : list (R * R * R)) : list R := flat_map p3 l.
Lemma pts3_app : forall u v, pts3 (u ++ v) = pts3 u ++ pts3 v. Proof. intros. apply flat_map_app. Qed.
Lemma pts3_len : forall l, length (pts3 l) = 3 * length l.
Proof. induction l. auto. change (pts3 (a :: l)) with (p3 a ++ pts3 l). rewrite app_length, IHl. simpl. lia. Qed.
Lemma P3_pts3 : forall l i, P3 (pts3 l) i = nth i l O3.
Proof.
  induction l; intros i. destruct i; auto. destruct i. simpl. destruct a as ((x, y), z). auto.
  unfold P3 in *. simpl nth at 4. rewrite <- IHl. reflexivity.
Qed.
Definition gridP (f : nat -> nat -> R * R * R) (m n : nat) : list (R * R * R) := flat_map (fun r => map (f r) (seq 0 n)) (seq 0 m).
Lemma map_fm1 : forall {A B C} (f : B -> list C) (g : A -> B) l, flat_map f (map g l) = flat_map (fun x => f (g x)) l.
Proof. induction l; simpl; auto. rewrite IHl. auto. Qed.
Lemma pts3_gridP : forall f m n, pts3 (gridP f m n) = flat_map (fun r => flat_map (fun c => p3 (f r c)) (seq 0 n)) (seq 0 m).
Proof. intros. unfold pts3, gridP. rewrite fm_fm. apply fm_in. intros r _. apply map_fm1. Qed.
Lemma gridP_len : forall f m n, length (gridP f m n) = m * n.
Proof.
  intros f m n. unfold gridP. generalize 0 at 2. induction m; intros s; simpl; auto. rewrite app_length, map_length, seq_length, IHm. auto.
Qed.
Lemma gridP_nth : forall f m n r c d, r < m -> c < n -> nth (r * n + c) (gridP f m n) d = f r c.
Proof.
  intros f m n r c d Hr Hc. unfold gridP. enough (G : forall s, nth (r * n + c) (flat_map (fun r => map (f r) (seq 0 n)) (seq s m)) d = f (s + r) c) by apply G.
  revert r Hr. induction m; intros r Hr s. lia. simpl. destruct r.
  - rewrite app_nth1 by (rewrite map_length, seq_length; lia). simpl. rewrite (nth_indep _ d (f s 0)) by (rewrite map_length, seq_length; lia). rewrite map_nth, seq_nth by lia. rewrite Nat.add_0_r. auto.
  - rewrite app_nth2 by (rewrite map_length, seq_length; simpl; lia). rewrite map_length, seq_length. replace (S r * n + c - n) with (r * n + c) by (simpl; lia). rewrite IHm by lia. f_equal. lia.
Qed.
Lemma fm_seq_shift : forall {A} (f : nat -> list A) k s, flat_map f (seq s k) = flat_map (fun r => f (s + r)) (seq 0 k).
Proof. induction k; intros s; simpl; auto. rewrite Nat.add_0_r. f_equal. rewrite IHk. rewrite (IHk 1) at 1 || idtac. rewrite <- (seq_shift k 0). rewrite flat_map_concat_map, flat_map_concat_map, map_map. f_equal. apply map_ext. intros a. f_equal. lia. Qed.

(** A ring of points about a profile: nothing at the ends but one point. *)
Definition revolved (s e : R * R * R) (f : nat -> nat -> R * R * R) (m n : nat) : list (R * R * R) := [s] ++ gridP f m n ++ [e].
Lemma revolved_len : forall s e f m n, length (revolved s e f m n) = n * m + 2.
Proof. intros. unfold revolved. rewrite !app_length, gridP_len. simpl. lia. Qed.
Lemma revolved_s : forall s e f m n d, nth 0 (revolved s e f m n) d = s. Proof. auto. Qed.
Lemma revolved_e : forall s e f m n d, nth (n * m + 1) (revolved s e f m n) d = e.
Proof. intros. unfold revolved. rewrite app_nth2; simpl length; [|lia]. rewrite app_nth2; rewrite gridP_len; [|lia]. replace (n * m + 1 - 1 - m * n) with 0 by lia. auto. Qed.
Lemma revolved_g : forall s e f m n r c d, r < m -> c < n -> nth (r * n + 1 + c) (revolved s e f m n) d = f r c.
Proof. intros. unfold revolved. rewrite app_nth2; simpl length; [|lia]. assert (r * n + c < m * n) by nia. rewrite app_nth1; [|rewrite gridP_len; lia]. replace (r * n + 1 + c - 1) with (r * n + c) by lia. apply gridP_nth; auto. Qed.
Lemma revolved_all : forall (Q : R * R * R -> Prop) s e f m n i, Q s -> Q e -> (forall r c, r < m -> c < n -> Q (f r c)) -> i < n * m + 2 -> Q (nth i (revolved s e f m n) O3).
Proof.
  intros Q s e f m n i Hs He Hf Hi. assert (Hin : In (nth i (revolved s e f m n) O3) (revolved s e f m n)) by (apply nth_In; rewrite revolved_len; auto).
  unfold revolved at 2 in Hin. apply in_app_iff in Hin. destruct Hin as [[<-|[]]|Hin]; auto. apply in_app_iff in Hin. destruct Hin as [Hin|[<-|[]]]; auto.
  unfold gridP in Hin. apply in_flat_map in Hin. destruct Hin as (r & Hr & Hin). apply in_map_iff in Hin. destruct Hin as (c & <- & Hc). apply in_seq in Hr, Hc. apply Hf; lia.
Qed.

Lemma skipn_sk : forall {A} a b (l : list A), skipn a (skipn b l) = skipn (a + b) l.
Proof. induction b; intros l. rewrite Nat.add_0_r. auto. rewrite Nat.add_succ_r. destruct l. rewrite !skipn_nil. auto. simpl. apply IHb. Qed.
(** Loops that write one block after another into an array. *)
Lemma blocks : forall {A} k base (blk : nat -> list A) body n,
  (forall i pre rest, i < n -> length pre = base + i * k -> k <= length rest -> body i (pre ++ rest) = Some (pre ++ blk i ++ skipn k rest)) -> (forall i, i < n -> length (blk i) = k) ->
  forall pre rest, length pre = base -> n * k <= length rest -> forn 0 n body (pre ++ rest) = Some (pre ++ flat_map blk (seq 0 n) ++ skipn (n * k) rest).
Proof.
  intros A k base blk body n. induction n; intros Hb Hl pre rest Hp Hr. reflexivity.
  rewrite forn_S by lia. rewrite IHn; [|intros; apply Hb; auto; lia|intros; apply Hl; lia|auto|simpl in Hr; lia]. cbn [bind].
  assert (Hf : length (flat_map blk (seq 0 n)) = n * k). { assert (G : forall s, (forall i, s <= i < s + n -> length (blk i) = k) -> length (flat_map blk (seq s n)) = n * k). { clear. induction n; intros s H; simpl; auto. rewrite app_length, H by lia. rewrite IHn. auto. intros. apply H. lia. } apply G. intros. apply Hl. lia. }
  rewrite app_assoc. rewrite Hb; [|lia|rewrite app_length, Hf; lia|rewrite skipn_length; simpl in Hr; lia].
  f_equal. rewrite seq_S, flat_map_app. simpl flat_map. rewrite app_nil_r, <- !app_assoc. do 3 f_equal. apply skipn_sk. 
Qed.
Lemma blocks_all : forall {A} k (blk : nat -> list A) body n a, (forall i pre rest, i < n -> length pre = i * k -> k <= length rest -> body i (pre ++ rest) = Some (pre ++ blk i ++ skipn k rest)) -> (forall i, i < n -> length (blk i) = k) ->
  length a = n * k -> forn 0 n body a = Some (flat_map blk (seq 0 n)).
Proof.
  intros A k blk body n a Hb Hl Ha. rewrite <- (app_nil_l a) at 1. rewrite (blocks k 0 blk); auto; try lia. simpl app. rewrite <- Ha, skipn_all, app_nil_r. auto.
Qed.
Lemma vset_off : forall {A} (pre rest : list A) i x, length pre <= i -> vset (pre ++ rest) i x = bind (vset rest (i - length pre) x) (fun r => Some (pre ++ r)).
Proof.
  induction pre; intros rest i x H; simpl in *. rewrite Nat.sub_0_r. destruct (vset rest i x); auto. destruct i; [lia|]. rewrite IHpre by lia. simpl. destruct (vset rest (i - length pre) x); auto.
Qed.
Lemma set3_blk : forall pre rest ip p, length pre = ip * 3 -> 3 <= length rest -> set3 (pre ++ rest) ip (X p) (Y p) (Z p) = Some (pre ++ p3 p ++ skipn 3 rest).
Proof.
  intros pre rest ip p Hp Hr. destruct rest as [|a [|b [|c rest]]]; simpl in Hr; try lia. unfold set3.
  rewrite vset_off by lia. replace (ip * 3 + 0 - length pre) with 0 by lia. cbn [vset bind]. rewrite vset_off by lia. replace (ip * 3 + 1 - length pre) with 1 by lia. cbn [vset bind]. rewrite vset_off by lia. replace (ip * 3 + 2 - length pre) with 2 by lia. reflexivity.
Qed.
(** A grid of points written row by row from the point number [b] on. *)
Lemma set3_grid : forall b f m n body pre rest,
  (forall r c a, r < m -> c < n -> body r c a = set3 a (b + r * n + c) (X (f r c)) (Y (f r c)) (Z (f r c))) -> length pre = b * 3 -> m * n * 3 <= length rest ->
  forn 0 m (fun r a => forn 0 n (fun c a => body r c a) a) (pre ++ rest) = Some (pre ++ pts3 (gridP f m n) ++ skipn (m * n * 3) rest).
Proof.
  intros b f m n body pre rest Hb Hp Hr. rewrite pts3_gridP. replace (m * n * 3) with (m * (n * 3)) in * by lia.
  assert (L : forall r n', length (flat_map (fun c => p3 (f r c)) (seq 0 n')) = n' * 3). { intros r n'. assert (G : forall s, length (flat_map (fun c => p3 (f r c)) (seq s n')) = n' * 3). { induction n'; intros s; simpl; auto. } apply G. }
  rewrite (blocks (n * 3) (b * 3) (fun r => flat_map (fun c => p3 (f r c)) (seq 0 n))); auto.
  intros r pre' rest' Hr' Hp' Hl'. rewrite (blocks 3 (b * 3 + r * (n * 3)) (fun c => p3 (f r c))); auto.
  intros c pre2 rest2 Hc Hp2 Hr2. rewrite Hb by auto. apply set3_blk; auto. lia.
Qed.

(** Loops with a way out. *)
Lemma forb_flat0 : forall {A} (f : nat -> list A) body hi a, (forall i a, i < hi -> body i a = Some (a ++ f i, false)) -> forb 0 hi body a = Some (a ++ flat_map f (seq 0 hi)).
Proof.
  intros A f body hi a H. unfold forb. rewrite Nat.sub_0_r. assert (G : forall k i a, i + k <= hi -> forb_ k i body a = Some (a ++ flat_map f (seq i k))).
  { induction k; intros i b Hk; simpl. rewrite app_nil_r. auto. rewrite H by lia. simpl. rewrite IHk by lia. rewrite app_assoc. auto. }
  apply G. lia.
Qed.

Ltac tri1 := intros; rewrite ?sc_mod, ?c_mod, ?Nat.add_0_r by auto; reflexivity.
(** MeshTri3D_Sphere *)
Definition sph (radius : R) (n_longitude n_latitude ila ilo : nat) : R * R * R :=
  ((radius * (sin (pi10 / INR n_longitude * INR ila) * sin (2 * pi10 / INR n_latitude * INR ilo)))%R, (radius * cos (pi10 / INR n_longitude * INR ila))%R, (radius * (sin (pi10 / INR n_longitude * INR ila) * cos (2 * pi10 / INR n_latitude * INR ilo)))%R).
Lemma sphere_eq : forall radius n_longitude n_latitude, 2 <= n_longitude -> 3 <= n_latitude ->
  MeshTri3D_Sphere radius n_longitude n_latitude = Some (pts3 (revolved (sph radius n_longitude n_latitude 0 0) (sph radius n_longitude n_latitude n_longitude 0) (fun r c => sph radius n_longitude n_latitude (r + 1) c) (n_longitude - 1) n_latitude), tube n_latitude (n_longitude - 1)).
Proof.
  intros radius k n Hk Hn. unfold MeshTri3D_Sphere. destruct (Nat.leb_spec k 1); [lia|]. destruct (Nat.leb_spec n 2); [lia|]. cbn [orb].
  rewrite (forn_flat0 (fun ila => if (ila =? 0) || (ila =? k) then p3 (sph radius k n ila 0) else flat_map (fun ilo => p3 (sph radius k n ila ilo)) (seq 0 n))).
  2: { intros ila a Hi. destruct ((ila =? 0) || (ila =? k)) eqn:E.
       - unfold forb. destruct n as [|n]; [lia|]. simpl forb_. reflexivity.
       - apply forb_flat0. intros ilo b Hl. reflexivity. }
  cbn [bind app].
  rewrite (forn_flat0 (cap_s n)) by tri1. cbn [bind app].
  rewrite (forn_flat0 (fun r => flat_map (band n 1 r) (seq 0 n))). 2: { intros r a Hr. apply forn_flat0. tri1. } cbn [bind].
  rewrite (forn_flat0 (cap_n n (k - 1))). 2: { intros c a Hc. rewrite sc_mod, c_mod by auto. unfold cap_n. replace (k - 1 - 1) with (k - 2) by lia. auto. } cbn [bind].
  f_equal. f_equal.
  - unfold revolved. rewrite !pts3_app, pts3_gridP. replace (k + 1) with (1 + (k - 1) + 1) by lia. rewrite !seq_app, !flat_map_app. simpl seq at 1. cbn [flat_map Nat.eqb orb app]. rewrite <- !app_assoc. f_equal. f_equal.
    + rewrite fm_seq_shift. apply fm_in. intros r Hr. apply in_seq in Hr. cbn [Nat.add]. replace (S r) with (r + 1) by lia. destruct (Nat.eqb_spec (r + 1) 0); [lia|]. destruct (Nat.eqb_spec (r + 1) k); [lia|]. auto.
    + match goal with |- context [seq ?a 1] => replace a with k by lia end. cbn [seq flat_map]. rewrite app_nil_r. rewrite Nat.eqb_refl, orb_true_r. auto.
  - unfold tube. rewrite <- app_assoc. replace (k - 1 - 1) with (k - 2) by lia. auto.
Qed.

(** MeshTri3D_CylinderClosed *)
Definition cyl (r l : R) (nr nl il ilo : nat) : R * R * R := ((r * cos (2 * pi10 / INR nr * INR ilo))%R, (- l / 2 + l / INR nl * INR il)%R, (r * sin (2 * pi10 / INR nr * INR ilo))%R).
Lemma cylinder_eq : forall r l nr nl, 3 <= nr -> 1 <= nl ->
  MeshTri3D_CylinderClosed r l nr nl = Some (pts3 (revolved (0%R, (- l / 2)%R, 0%R) (0%R, (l / 2)%R, 0%R) (cyl r l nr nl) (nl + 1) nr), tube nr (nl + 1)).
Proof.
  intros r l n nl Hn Hl. unfold MeshTri3D_CylinderClosed. destruct (Nat.ltb_spec nl 1); [lia|]. destruct (Nat.leb_spec n 2); [lia|]. cbn [orb].
  rewrite (forn_flat0 (fun il => flat_map (fun c => p3 (cyl r l n nl il c)) (seq 0 n))). 2: { intros il a Hil. apply forn_flat0. reflexivity. } cbn [bind].
  rewrite (forn_flat0 (cap_s n)) by tri1. cbn [bind app]. replace (nl + 2 - 2) with nl by lia. replace (nl + 2 - 1) with (nl + 1) by lia.
  rewrite (forn_flat0 (fun r => flat_map (band n 1 r) (seq 0 n))). 2: { intros r' a Hr. apply forn_flat0. tri1. } cbn [bind].
  rewrite (forn_flat0 (cap_n n (nl + 1))). 2: { intros c a Hc. rewrite sc_mod, c_mod by auto. unfold cap_n. rewrite Nat.add_sub. auto. } cbn [bind].
  f_equal. f_equal.
  - unfold revolved. rewrite !pts3_app, pts3_gridP. auto.
  - unfold tube. rewrite <- app_assoc, Nat.add_sub. auto.
Qed.

(** MeshTri3D_CylinderOpen, MeshTri3D_Disk *)
Definition cylo (r l : R) (nr nl il ir : nat) : R * R * R := ((r * cos (2 * pi10 / INR nr * INR ir))%R, (- / 2 * l + INR il * (l / INR nl))%R, (r * sin (2 * pi10 / INR nr * INR ir))%R).
Lemma cylinder_open_eq : forall r l nr nl, MeshTri3D_CylinderOpen r l nr nl = Some (pts3 (gridP (cylo r l nr nl) (nl + 1) nr), otube nr nl).
Proof.
  intros r l n nl. unfold MeshTri3D_CylinderOpen.
  rewrite (forn_flat0 (fun il => flat_map (fun c => p3 (cylo r l n nl il c)) (seq 0 n))). 2: { intros il a Hil. apply forn_flat0. reflexivity. } cbn [bind app].
  rewrite (forn_flat0 (fun r => flat_map (band n 0 r) (seq 0 n))). 2: { intros r' a Hr. apply forn_flat0. intros. rewrite ?sc_mod, ?c_mod by auto. unfold band. rewrite !Nat.add_0_r. auto. } cbn [bind app].
  rewrite pts3_gridP. auto.
Qed.
Definition dsk (r : R) (nr nth ir ith : nat) : R * R * R := ((r / INR nr * INR (1 + ir) * cos (INR ith * (2 * pi10 / INR nth)))%R, 0%R, (r / INR nr * INR (1 + ir) * sin (INR ith * (2 * pi10 / INR nth)))%R).
Lemma disk_eq : forall r nr nth, MeshTri3D_Disk r nr nth = Some (pts3 (O3 :: gridP (dsk r nr nth) nr nth), disk nth nr).
Proof.
  intros r m n. unfold MeshTri3D_Disk.
  rewrite (forn_flat (fun ir => flat_map (fun c => p3 (dsk r m n (ir - 1) c)) (seq 0 n))). 2: { intros il a Hil. apply forn_flat0. intros c b Hc. unfold p3, dsk, X, Y, Z. cbn [fst snd]. replace (1 + (il - 1)) with il by lia. reflexivity. } cbn [bind app].
  rewrite (forn_flat0 (dcap n)) by tri1. cbn [bind app].
  rewrite (forn_flat0 (fun r => flat_map (dband n r) (seq 0 n))). 2: { intros r' a Hr. apply forn_flat0. tri1. } cbn [bind].
  f_equal. f_equal. change (pts3 (O3 :: gridP (dsk r m n) m n)) with (p3 O3 ++ pts3 (gridP (dsk r m n) m n)). rewrite pts3_gridP, Nat.add_sub, fm_seq_shift. simpl app. do 3 f_equal. apply fm_in. intros. apply fm_in. intros. do 2 f_equal. lia.
Qed.
