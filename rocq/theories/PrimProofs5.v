(** Generated meshes: cube, capsule, torus and grids as lists. *)
From Coq Require Import List Arith Bool Lia Reals.
Import ListNotations.
From Verif Require Import Imp PrimModel PrimSpec SgProofs2 PrimProofs1 PrimProofs2 PrimProofs3 PrimProofs4.

(** MeshTri3D_Cube *)
Definition cpos (n z k : nat) : R * R * R :=
  let r := (1 / INR n)%R in let zz := (- / 2 + r * INR z)%R in
  if k <? n then ((- / 2 + r * INR k)%R, (- / 2)%R, zz) else if k <? 2 * n then ((/ 2)%R, (- / 2 + r * INR (k - n))%R, zz)
  else if k <? 3 * n then ((- / 2 + r * INR (3 * n - k))%R, (/ 2)%R, zz) else ((- / 2)%R, (- / 2 + r * INR (4 * n - k))%R, zz).
Definition ipos (n : nat) (z : R) (x y : nat) : R * R * R := let r := (1 / INR n)%R in ((- / 2 + r * INR (1 + x))%R, (- / 2 + r * INR (1 + y))%R, z).
Definition cubeP (n : nat) : list (R * R * R) := gridP (cpos n) (n + 1) (4 * n) ++ gridP (fun y x => ipos n (- / 2)%R x y) (n - 1) (n - 1) ++ gridP (fun y x => ipos n (/ 2)%R x y) (n - 1) (n - 1).
Lemma cap_in : forall {A} (f : nat -> list A) n a, forn 1 n (fun i b => Some (b ++ f i)) a = Some (a ++ flat_map (fun i => f (1 + i)) (seq 0 (n - 1))).
Proof. intros. rewrite (forn_flat f) by auto. rewrite fm_seq_shift. auto. Qed.
Lemma forn_flat1 : forall {A} (f : nat -> list A) body n a, (forall i a, body (1 + i) a = Some (a ++ f i)) -> forn 1 n body a = Some (a ++ flat_map f (seq 0 (n - 1))).
Proof. intros A f body n a H. rewrite (forn_flat (fun i => f (i - 1))). 2: { intros i b Hi. replace i with (1 + (i - 1)) at 1 by lia. apply H. } rewrite fm_seq_shift. do 2 f_equal. apply fm_in. intros. f_equal. lia. Qed.
Lemma cube_eq : forall n, 1 <= n -> MeshTri3D_Cube n = Some (pts3 (cubeP n), cube n).
Proof.
  intros n Hn. unfold MeshTri3D_Cube. destruct (Nat.ltb_spec n 1); [lia|].
  rewrite (forn_flat0 (fun z => flat_map (fun k => p3 (cpos n z k)) (seq 0 (4 * n)))).
  2: { intros z a Hz.
       rewrite (forn_flat0 (fun k => p3 (cpos n z k))). 2: { intros i b Hi. unfold cpos. destruct (Nat.ltb_spec i n); [|lia]. reflexivity. } cbn [bind].
       rewrite (forn_flat0 (fun k => p3 (cpos n z (n + k)))). 2: { intros i b Hi. unfold cpos. destruct (Nat.ltb_spec (n + i) n); [lia|]. destruct (Nat.ltb_spec (n + i) (2 * n)); [|lia]. replace (n + i - n) with i by lia. reflexivity. } cbn [bind].
       rewrite (ford_flat (fun k => p3 (cpos n z (2 * n + (n - k))))). 2: { intros i b Hi. unfold cpos. destruct (Nat.ltb_spec (2 * n + (n - i)) n); [lia|]. destruct (Nat.ltb_spec (2 * n + (n - i)) (2 * n)); [lia|]. destruct (Nat.ltb_spec (2 * n + (n - i)) (3 * n)); [|lia]. replace (3 * n - (2 * n + (n - i))) with i by lia. reflexivity. } cbn [bind].
       rewrite (ford_flat (fun k => p3 (cpos n z (3 * n + (n - k))))). 2: { intros i b Hi. unfold cpos. destruct (Nat.ltb_spec (3 * n + (n - i)) n); [lia|]. destruct (Nat.ltb_spec (3 * n + (n - i)) (2 * n)); [lia|]. destruct (Nat.ltb_spec (3 * n + (n - i)) (3 * n)); [lia|]. replace (4 * n - (3 * n + (n - i))) with i by lia. reflexivity. }
       f_equal. rewrite <- !app_assoc. f_equal. replace (4 * n) with (n + (n + (n + n))) by lia. rewrite !seq_app, !flat_map_app. f_equal. f_equal.
       - rewrite (fm_seq_shift _ n (0 + n)). apply fm_in. intros. f_equal.
       - f_equal. rewrite (fm_seq_shift _ n (0 + n + n)). apply fm_in. intros x Hx. apply in_seq in Hx. do 2 f_equal. lia.
         rewrite (fm_seq_shift _ n (0 + n + n + n)). apply fm_in. intros x Hx. apply in_seq in Hx. do 2 f_equal. lia. }
  cbn [bind app].
  rewrite (forn_flat1 (fun y => flat_map (fun x => p3 (ipos n (- / 2)%R x y)) (seq 0 (n - 1)))). 2: { intros y a. apply forn_flat1. reflexivity. } cbn [bind].
  rewrite (forn_flat1 (fun y => flat_map (fun x => p3 (ipos n (/ 2)%R x y)) (seq 0 (n - 1)))). 2: { intros y a. apply forn_flat1. reflexivity. } cbn [bind].
  rewrite (forn_flat0 (fun z => flat_map (side n z) (seq 0 (4 * n)))). 2: { intros z a Hz. apply forn_flat0. intros k b Hk. rewrite sc_mod by auto. reflexivity. } cbn [bind app].
  rewrite (forn_flat0 (fun x => flat_map (bot n x) (seq 0 n))). 2: { intros x a Hx. apply forn_flat0. intros y b Hy. generalize (corners n Hn 0 x y ltac:(lia) Hx Hy). replace (4 * n * (0 * n)) with 0 by lia. replace (4 * n * (n + 1) + 0 * ((n - 1) * (n - 1))) with (4 * n * (n + 1)) by lia. intros ->. reflexivity. } cbn [bind].
  rewrite (forn_flat0 (fun x => flat_map (top n x) (seq 0 n))). 2: { intros x a Hx. apply forn_flat0. intros y b Hy. generalize (corners n Hn 1 x y ltac:(lia) Hx Hy). rewrite !Nat.mul_1_l. intros ->. reflexivity. } cbn [bind].
  unfold cubeP, cube. rewrite !pts3_app, !pts3_gridP, <- !app_assoc. auto.
Qed.
Lemma cubeP_len : forall n, length (cubeP n) = cnp n.
Proof. intros. unfold cubeP, cnp. rewrite !app_length, !gridP_len. set (q := (n - 1) * (n - 1)). clearbody q. ring. Qed.
Lemma cubeP_ring : forall n z k, 1 <= n -> z <= n -> k < 4 * n -> nth (cenc n (Ring z k)) (cubeP n) O3 = cpos n z k.
Proof. intros n z k Hn Hz Hk. unfold cubeP, cenc. rewrite app_nth1 by (rewrite gridP_len; nia). replace (k + 4 * n * z) with (z * (4 * n) + k) by lia. apply gridP_nth; lia. Qed.
Lemma cubeP_cap : forall n t x y, t < 2 -> 1 <= x < n -> 1 <= y < n -> nth (cenc n (Cap t x y)) (cubeP n) O3 = ipos n (- / 2 + INR t)%R (x - 1) (y - 1).
Proof.
  intros n t x y Ht Hx Hy. unfold cubeP, cenc. set (Q := 4 * n * (n + 1)). assert (EQ : (n + 1) * (4 * n) = Q) by (unfold Q; ring). rewrite app_nth2; rewrite gridP_len, EQ; [|rewrite <- !Nat.add_assoc; apply Nat.le_add_r]. clearbody Q. assert ((y - 1) * (n - 1) + (x - 1) < (n - 1) * (n - 1)) by nia.
  destruct t as [|[|t]]; [| |lia].
  - rewrite app_nth1. 2: { rewrite gridP_len. set (p := (n - 1) * (n - 1)) in *. set (q := (y - 1) * (n - 1)) in *. clearbody p q. lia. }
    replace (Q + 0 * ((n - 1) * (n - 1)) + (y - 1) * (n - 1) + (x - 1) - Q) with ((y - 1) * (n - 1) + (x - 1)). 2: { set (p := (n - 1) * (n - 1)). set (q := (y - 1) * (n - 1)). clearbody p q. lia. }
    rewrite gridP_nth by lia. simpl INR. f_equal. ring.
  - rewrite app_nth2; rewrite gridP_len. 2: { set (p := (n - 1) * (n - 1)) in *. set (q := (y - 1) * (n - 1)) in *. clearbody p q. lia. }
    replace (Q + 1 * ((n - 1) * (n - 1)) + (y - 1) * (n - 1) + (x - 1) - Q - (n - 1) * (n - 1)) with ((y - 1) * (n - 1) + (x - 1)). 2: { set (p := (n - 1) * (n - 1)). set (q := (y - 1) * (n - 1)). clearbody p q. lia. }
    rewrite gridP_nth by lia. f_equal. simpl INR. field.
Qed.

Lemma gridP_app : forall f a b n, gridP f (a + b) n = gridP f a n ++ gridP (fun r c => f (a + r) c) b n.
Proof. intros. unfold gridP. rewrite seq_app, flat_map_app. f_equal. apply fm_seq_shift. Qed.
Lemma gridP_ext : forall f g m n, (forall r c, r < m -> c < n -> f r c = g r c) -> gridP f m n = gridP g m n.
Proof. intros f g m n H. unfold gridP. apply fm_in. intros r Hr. apply map_ext_in. intros c Hc. apply in_seq in Hr, Hc. apply H; lia. Qed.

(** MeshTri3_Capsule *)
Definition turn (n c : nat) : R := (2 * PI * INR c / INR n)%R.
Definition cap_bot (r l : R) (nc nr ir ic : nat) : R * R * R := let t0 := (PI * / 2 * INR (nr - 1 - ir) / INR nr)%R in ((r * cos t0 * cos (turn nc ic))%R, (- l * / 2 - r * sin t0)%R, (r * cos t0 * sin (turn nc ic))%R).
Definition cap_mid (r l : R) (nc nl il ic : nat) : R * R * R := ((r * cos (turn nc ic))%R, (- l * / 2 + INR (il + 1) * l / INR nl)%R, (r * sin (turn nc ic))%R).
Definition cap_top (r l : R) (nc nr ir ic : nat) : R * R * R := let t0 := (PI * / 2 * INR ir / INR nr)%R in ((r * cos t0 * cos (turn nc ic))%R, (l * / 2 + r * sin t0)%R, (r * cos t0 * sin (turn nc ic))%R).
Definition capf (r l : R) (nc nr nl i ic : nat) : R * R * R := if i <? nr then cap_bot r l nc nr i ic else if i <? nr + (nl - 1) then cap_mid r l nc nl (i - nr) ic else cap_top r l nc nr (i - (nr + (nl - 1))) ic.
Ltac ll := match goal with H : ?u * ?v = ?x * ?c + (?w * ?c + _) |- _ => set (A1 := x * c) in *; set (B1 := w * c) in *; set (M1 := u * v) in *; clearbody A1 B1 M1; lia end.
Lemma capsule_eq : forall r l nc nr nl, 3 <= nc -> 1 <= nr -> 1 <= nl ->
  MeshTri3_Capsule r l nc nr nl = Some (pts3 (revolved (0%R, (- l * / 2 - r)%R, 0%R) (0%R, (l * / 2 + r)%R, 0%R) (capf r l nc nr nl) (2 * nr + nl - 1) nc), tube nc (2 * nr + nl - 1)).
Proof.
  intros r l nc nr nl Hc Hr Hl. unfold MeshTri3_Capsule. destruct (Nat.leb_spec 2 (2 * nr + nl)); [|lia]. cbn [assertb bind].
  rewrite cylinder_eq by lia. cbn [bind]. set (C0 := pts3 _). replace (2 * nr + nl - 2 + 1) with (2 * nr + nl - 1) in * by lia. set (m := 2 * nr + nl - 1) in *.
  assert (L0 : length C0 = (nc * m + 2) * 3). { unfold C0. rewrite pts3_len, revolved_len. lia. } clearbody C0.
  rewrite L0, Nat.div_mul by lia. rewrite (Nat.mul_comm m nc), Nat.eqb_refl. cbn [assertb bind].
  assert (Hm : m = nr + ((nl - 1) + nr)) by lia. assert (Hmc : nc * m = nr * nc + ((nl - 1) * nc + nr * nc)) by (rewrite Hm; ring). clearbody m.
  set (s := (0%R, (- l * / 2 - r)%R, 0%R)). set (e := (0%R, (l * / 2 + r)%R, 0%R)).
  change (set3 C0 0 0%R (- l * / 2 - r)%R 0%R) with (set3 ([] ++ C0) 0 (X s) (Y s) (Z s)).
  rewrite set3_blk by (simpl; lia). cbn [bind]. rewrite app_nil_l.
  rewrite (set3_grid 1 (cap_bot r l nc nr)); [|intros; reflexivity|reflexivity|rewrite skipn_length; ll]. cbn [bind].
  destruct (Nat.leb_spec 1 nl); [|lia]. cbn [assertb bind]. rewrite skipn_sk, app_assoc.
  rewrite (set3_grid (1 + nr * nc) (cap_mid r l nc nl)); [| |rewrite app_length, pts3_len, gridP_len; change (length (p3 s)) with 3; ll|rewrite skipn_length; ll].
  2: { intros i c a Hi Hic. replace (1 + (i + nr) * nc + c) with (1 + nr * nc + i * nc + c) by lia. reflexivity. } cbn [bind]. rewrite skipn_sk, app_assoc.
  rewrite (set3_grid (1 + nr * nc + (nl - 1) * nc) (cap_top r l nc nr)); [| |rewrite !app_length, !pts3_len, !gridP_len; change (length (p3 s)) with 3; ll|rewrite skipn_length; ll].
  2: { intros i c a Hi Hic. replace (i + nl + nr - 1) with (nr + ((nl - 1) + i)) by lia. replace (1 + (nr + (nl - 1 + i)) * nc + c) with (1 + nr * nc + (nl - 1) * nc + i * nc + c) by lia. reflexivity. } cbn [bind]. rewrite skipn_sk, app_assoc.
  set (pre := (((p3 s ++ _) ++ _) ++ _)). assert (Lp : length pre = (nc * m + 1) * 3). { unfold pre. rewrite !app_length, !pts3_len, !gridP_len. change (length (p3 s)) with 3. ll. }
  set (rest := skipn _ C0). assert (Lr : length rest = 3). { unfold rest. rewrite skipn_length. ll. }
  rewrite app_length, Lp, Lr. replace ((nc * m + 1) * 3 + 3) with ((nc * m + 2) * 3) by lia. rewrite Nat.div_mul by lia. replace (nc * m + 2 - 1) with (nc * m + 1) by lia.
  change (set3 (pre ++ rest) (nc * m + 1) 0%R (l * / 2 + r)%R 0%R) with (set3 (pre ++ rest) (nc * m + 1) (X e) (Y e) (Z e)).
  rewrite set3_blk by lia. cbn [bind]. rewrite skipn_all2, app_nil_r by lia. f_equal. f_equal.
  unfold pre, revolved. rewrite !pts3_app, Hm, !gridP_app, !pts3_app, <- !app_assoc. change (pts3 [s]) with (p3 s). change (pts3 [e]) with (p3 e). f_equal. f_equal; [|f_equal; [|f_equal]]; f_equal; apply gridP_ext; intros i c Hi Hic; unfold capf.
  - destruct (Nat.ltb_spec i nr); [auto|lia].
  - destruct (Nat.ltb_spec (nr + i) nr); [lia|]. destruct (Nat.ltb_spec (nr + i) (nr + (nl - 1))); [|lia]. f_equal. lia.
  - destruct (Nat.ltb_spec (nr + (nl - 1 + i)) nr); [lia|]. destruct (Nat.ltb_spec (nr + (nl - 1 + i)) (nr + (nl - 1))); [lia|]. f_equal. lia.
Qed.

(** MeshTri3_Torus *)
Definition tor (R0 r : R) (nlg nlt ilg ilt : nat) : R * R * R :=
  (((R0 + r * cos (INR ilt * (PI * 2 / INR nlt))) * sin (INR ilg * (PI * 2 / INR nlg)))%R, ((R0 + r * cos (INR ilt * (PI * 2 / INR nlt))) * cos (INR ilg * (PI * 2 / INR nlg)))%R, (r * sin (INR ilt * (PI * 2 / INR nlt)))%R).
(** Blocks of [k] numbers of a grid. *)
Lemma fm_len : forall {A} (f : nat -> list A) k n s, (forall i, s <= i < s + n -> length (f i) = k) -> length (flat_map f (seq s n)) = n * k.
Proof. induction n; intros s H; simpl; auto. rewrite app_length, H, IHn by (intros; try apply H; lia). auto. Qed.
Lemma grid_blocks : forall {A} k (blk : nat -> nat -> list A) body m n pre rest base,
  (forall r c pre rest, r < m -> c < n -> length pre = base + (r * n + c) * k -> k <= length rest -> body r c (pre ++ rest) = Some (pre ++ blk r c ++ skipn k rest)) -> (forall r c, length (blk r c) = k) ->
  length pre = base -> m * n * k <= length rest -> forn 0 m (fun r a => forn 0 n (fun c a => body r c a) a) (pre ++ rest) = Some (pre ++ flat_map (fun r => flat_map (blk r) (seq 0 n)) (seq 0 m) ++ skipn (m * n * k) rest).
Proof.
  intros A k blk body m n pre rest base Hb Hl Hp Hr. replace (m * n * k) with (m * (n * k)) in * by lia.
  apply (blocks (n * k) base (fun r => flat_map (blk r) (seq 0 n))); auto.
  - intros r pre' rest' Hr' Hp' Hl'. apply (blocks k (base + r * (n * k)) (blk r)); auto. intros c pre2 rest2 Hc Hp2 Hr2. apply Hb; auto. lia.
  - intros r Hr'. apply fm_len. auto.
Qed.
Lemma grid_blocks0 : forall {A} k (blk : nat -> nat -> list A) body m n a,
  (forall r c pre rest, r < m -> c < n -> length pre = (r * n + c) * k -> k <= length rest -> body r c (pre ++ rest) = Some (pre ++ blk r c ++ skipn k rest)) -> (forall r c, length (blk r c) = k) ->
  length a = m * n * k -> forn 0 m (fun r a => forn 0 n (fun c a => body r c a) a) a = Some (flat_map (fun r => flat_map (blk r) (seq 0 n)) (seq 0 m)).
Proof.
  intros A k blk body m n a Hb Hl Ha. rewrite <- (app_nil_l a) at 1. rewrite (grid_blocks k blk body m n [] a 0); auto. simpl app. rewrite skipn_all2, app_nil_r; auto. lia. lia.
Qed.
Ltac vs j := rewrite vset_off by lia; match goal with |- context [vset _ (?a - ?b) _] => replace (a - b) with j by lia end; cbn [vset bind].
Lemma torus_eq : forall aXYZ aTri R0 r nlg nlt, MeshTri3_Torus aXYZ aTri R0 r nlg nlt = Some (pts3 (gridP (tor R0 r nlg nlt) nlg nlt), torus nlt nlg).
Proof.
  intros aXYZ aTri R0 r nlg nlt. unfold MeshTri3_Torus.
  rewrite (grid_blocks0 3 (fun a b => p3 (tor R0 r nlg nlt a b))); [| |auto|rewrite vresize_length; auto].
  2: { intros a b pre rest Ha Hb Hp Hr. apply (set3_blk pre rest (a * nlt + b) (tor R0 r nlg nlt a b)); auto. }
  cbn [bind].
  rewrite (grid_blocks0 6 (tquad nlt nlg)); [| |auto|rewrite vresize_length; lia].
  2: { intros a b pre rest Ha Hb Hp Hr. destruct rest as [|x0 [|x1 [|x2 [|x3 [|x4 [|x5 rest]]]]]]; simpl in Hr; try lia.
       vs 0. vs 2. vs 1. vs 3. vs 5. vs 4. reflexivity. }
  cbn [bind]. rewrite pts3_gridP. auto.
Qed.

(** MeshQuad2D_Grid, MeshHex3_Grid *)
Definition quad (nx iy ix : nat) : list nat := [iy * (nx + 1) + ix; iy * (nx + 1) + (ix + 1); (iy + 1) * (nx + 1) + (ix + 1); (iy + 1) * (nx + 1) + ix].
Lemma quad_eq : forall aXYZ aQuad nx ny, MeshQuad2D_Grid aXYZ aQuad nx ny = Some (flat_map (fun iy => flat_map (fun ix => [INR ix; INR iy]) (seq 0 (nx + 1))) (seq 0 (ny + 1)), flat_map (fun iy => flat_map (quad nx iy) (seq 0 nx)) (seq 0 ny)).
Proof.
  intros aXYZ aQuad nx ny. unfold MeshQuad2D_Grid.
  rewrite (grid_blocks0 2 (fun iy ix => [INR ix; INR iy])); [| |auto|rewrite vresize_length; lia].
  2: { intros a b pre rest Ha Hb Hp Hr. destruct rest as [|x0 [|x1 rest]]; simpl in Hr; try lia. vs 0. vs 1. reflexivity. }
  cbn [bind]. rewrite (grid_blocks0 4 (quad nx)); [| |auto|rewrite vresize_length; lia].
  2: { intros a b pre rest Ha Hb Hp Hr. destruct rest as [|x0 [|x1 [|x2 [|x3 rest]]]]; simpl in Hr; try lia. rewrite !Nat.add_0_r. replace (a * nx + b) with (a * nx + b + 0) at 1 by lia. vs 0. vs 1. vs 2. vs 3. reflexivity. }
  reflexivity.
Qed.
Definition hexn (nx ny ix iy iz : nat) : nat := iz * (ny + 1) * (nx + 1) + iy * (nx + 1) + ix.
Definition hex (nx ny iz iy ix : nat) : list nat := [hexn nx ny ix iy iz; hexn nx ny (ix + 1) iy iz; hexn nx ny (ix + 1) (iy + 1) iz; hexn nx ny ix (iy + 1) iz; hexn nx ny ix iy (iz + 1); hexn nx ny (ix + 1) iy (iz + 1); hexn nx ny (ix + 1) (iy + 1) (iz + 1); hexn nx ny ix (iy + 1) (iz + 1)].
Lemma cube_blocks0 : forall {A} k (blk : nat -> nat -> nat -> list A) body l m n a,
  (forall q r c pre rest, q < l -> r < m -> c < n -> length pre = (q * m * n + r * n + c) * k -> k <= length rest -> body q r c (pre ++ rest) = Some (pre ++ blk q r c ++ skipn k rest)) -> (forall q r c, length (blk q r c) = k) ->
  length a = l * m * n * k -> forn 0 l (fun q a => forn 0 m (fun r a => forn 0 n (fun c a => body q r c a) a) a) a = Some (flat_map (fun q => flat_map (fun r => flat_map (blk q r) (seq 0 n)) (seq 0 m)) (seq 0 l)).
Proof.
  intros A k blk body l m n a Hb Hl Ha. apply (blocks_all (m * n * k)).
  - intros q pre rest Hq Hp Hr. apply (grid_blocks k (blk q) (body q) m n pre rest (q * (m * n * k))); auto. intros r c pre2 rest2 Hr2 Hc Hp2 Hl2. apply Hb; auto. rewrite Hp2. ring.
  - intros q Hq. replace (m * n * k) with (m * (n * k)) by lia. apply fm_len. intros. apply fm_len. auto.
  - rewrite Ha. ring.
Qed.
Lemma hex_eq : forall aXYZ aHex nx ny nz elen, MeshHex3_Grid aXYZ aHex nx ny nz elen = Some (flat_map (fun iz => flat_map (fun iy => flat_map (fun ix => [(INR ix * elen)%R; (INR iy * elen)%R; (INR iz * elen)%R]) (seq 0 (nx + 1))) (seq 0 (ny + 1))) (seq 0 (nz + 1)), flat_map (fun iz => flat_map (fun iy => flat_map (hex nx ny iz iy) (seq 0 nx)) (seq 0 ny)) (seq 0 nz)).
Proof.
  intros aXYZ aHex nx ny nz elen. unfold MeshHex3_Grid.
  rewrite (cube_blocks0 3 (fun iz iy ix => [(INR ix * elen)%R; (INR iy * elen)%R; (INR iz * elen)%R])); [| |auto|rewrite vresize_length; auto].
  2: { intros iz iy ix pre rest H1 H2 H3 Hp Hr. apply (set3_blk pre rest _ ((INR ix * elen)%R, (INR iy * elen)%R, (INR iz * elen)%R)); auto. }
  cbn [bind]. rewrite (cube_blocks0 8 (hex nx ny)); [| |auto|rewrite vresize_length; lia].
  2: { intros iz iy ix pre rest H1 H2 H3 Hp Hr. destruct rest as [|x0 [|x1 [|x2 [|x3 [|x4 [|x5 [|x6 [|x7 rest]]]]]]]]; simpl in Hr; try lia.
       set (q := iz * ny * nx + iy * nx + ix) in *. vs 0. vs 1. vs 2. vs 3. vs 4. vs 5. vs 6. vs 7. unfold hex, hexn. rewrite !Nat.add_0_r. reflexivity. }
  reflexivity.
Qed.
(** An entry of the blocks. *)
Lemma nth_blk : forall {A} k (f : nat -> list A) n i j d, (forall i, i < n -> length (f i) = k) -> i < n -> j < k -> nth (i * k + j) (flat_map f (seq 0 n)) d = nth j (f i) d.
Proof.
  intros A k f n i j d H Hi Hj. replace n with (i + (1 + (n - i - 1))) by lia. rewrite !seq_app, !flat_map_app. rewrite app_nth2; rewrite (fm_len f k i 0) by (intros; apply H; lia); [|lia].
  replace (i * k + j - i * k) with j by lia. simpl seq at 1. cbn [flat_map]. rewrite app_nil_r. rewrite app_nth1; auto. rewrite H; auto.
Qed.
