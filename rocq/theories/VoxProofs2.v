From Coq Require Import List Arith Bool ZArith Lia Psatz.
Import ListNotations.
From Verif Require Import Imp VoxModel VoxSpec VoxProofs1.
Open Scope Z_scope.

Fixpoint zs {A} (l : list A) (f : A -> Z) : Z := match l with [] => 0 | x :: l => f x + zs l f end.
Lemma zs_app : forall {A} (l m : list A) f, zs (l ++ m) f = zs l f + zs m f. Proof. induction l; intros; cbn [app zs]; [lia|]. rewrite IHl. lia. Qed.
Lemma zs_ext : forall {A} (l : list A) f g, (forall x, In x l -> f x = g x) -> zs l f = zs l g.
Proof. induction l; intros f g H; cbn [zs]; auto. rewrite H by (left; auto). f_equal. apply IHl. intros; apply H; right; auto. Qed.
Lemma zs_add : forall {A} (l : list A) f g, zs l (fun x => f x + g x) = zs l f + zs l g. Proof. induction l; intros; cbn [zs]; [lia|]. rewrite IHl. lia. Qed.
Lemma zs_0 : forall {A} (l : list A), zs l (fun _ => 0) = 0. Proof. induction l; cbn [zs]; lia. Qed.
Lemma zs_map : forall {A B} (g : A -> B) l f, zs (map g l) f = zs l (fun x => f (g x)). Proof. induction l; intros; cbn [map zs]; auto. rewrite IHl. auto. Qed.
Lemma zs_flat : forall {A B} (g : A -> list B) l f, zs (flat_map g l) f = zs l (fun x => zs (g x) f). Proof. induction l; intros; cbn [flat_map zs]; auto. rewrite zs_app, IHl. auto. Qed.
Lemma zs_filter : forall {A} (p : A -> bool) l f, zs (filter p l) f = zs l (fun x => if p x then f x else 0). Proof. induction l; intros; cbn [filter zs]; auto. destruct (p a); cbn [zs]; rewrite IHl; auto. Qed.
Lemma zs_swap : forall {A B} (l : list A) (m : list B) f, zs l (fun x => zs m (f x)) = zs m (fun y => zs l (fun x => f x y)).
Proof. induction l; intros m f; cbn [zs]; [symmetry; apply zs_0|]. rewrite IHl, <- zs_add. auto. Qed.
Lemma zs_cells : forall n1 n2 n3 f, zs (cells n1 n2 n3) f = zs (seq 0 n1) (fun a => zs (seq 0 n2) (fun b => zs (seq 0 n3) (fun c => f (a, b, c)))).
Proof. intros. unfold cells. rewrite zs_flat. apply zs_ext. intros a _. rewrite zs_flat. apply zs_ext. intros b _. rewrite zs_map. auto. Qed.
Lemma telescope : forall n A B, A 0%nat = 0 -> (forall x, (S x < n)%nat -> A (S x) = - B x) -> (forall x, S x = n -> B x = 0) -> zs (seq 0 n) (fun x => A x + B x) = 0.
Proof.
  intros n A B H0 H1 H2. assert (G : forall k, (k < n)%nat -> zs (seq 0 (S k)) (fun x => A x + B x) = B k).
  { induction k as [|k IH]; intros L; [cbn; lia|]. rewrite seq_S, zs_app, IH by lia. cbn [Nat.add zs]. rewrite H1 by auto. lia. }
  destruct n as [|n]; auto. rewrite G by lia. auto.
Qed.

Section Closed.
Variables (phi : nat -> nat -> Z).
Hypothesis anti : forall u v, phi u v = - phi v u.
Definition chain (q : list nat) : Z := zs (cyc_edges q) (fun e => phi (fst e) (snd e)).
Variables (nx ny nz : nat) (a : list Z).
Hypothesis LA : length a = (nx * ny * nz)%nat.
Hypothesis B01 : Forall (fun v => v = 0 \/ v = 1) a.
Definition qd := quad (ny + 1) (nz + 1).
Lemma at_01 : forall x y z, at_xyz ny nz a x y z = 0 \/ at_xyz ny nz a x y z = 1.
Proof. intros. unfold at_xyz. destruct (nth_in_or_default (x * (ny * nz) + y * nz + z) a 0) as [I|E]; [rewrite Forall_forall in B01; apply B01; auto|left; auto]. Qed.
Definition ind (x y z : nat) : bool := (at_xyz ny nz a x y z =? 1).
Definition w (p : nat * nat * nat) (f : nat) : Z := let '(x, y, z) := p in if ind x y z && (val nx ny nz a (VoxSpec.step p (dir f)) =? 1) then chain (qd p f) else 0.
Lemma cube : forall p, chain (qd p 0) + (chain (qd p 1) + (chain (qd p 2) + (chain (qd p 3) + (chain (qd p 4) + (chain (qd p 5) + 0))))) = 0.
Proof.
  intros [[x y] z]. unfold qd, quad, chain, face_corners. cbn [map cyc_edges app combine zs fst snd].
  generalize (corner (ny + 1) (nz + 1) (x, y, z)) as g0. generalize (corner (ny + 1) (nz + 1) ((x + 1)%nat, y, z)) as g1. generalize (corner (ny + 1) (nz + 1) (x, (y + 1)%nat, z)) as g2. generalize (corner (ny + 1) (nz + 1) ((x + 1)%nat, (y + 1)%nat, z)) as g3.
  generalize (corner (ny + 1) (nz + 1) (x, y, (z + 1)%nat)) as g4. generalize (corner (ny + 1) (nz + 1) ((x + 1)%nat, y, (z + 1)%nat)) as g5. generalize (corner (ny + 1) (nz + 1) (x, (y + 1)%nat, (z + 1)%nat)) as g6. generalize (corner (ny + 1) (nz + 1) ((x + 1)%nat, (y + 1)%nat, (z + 1)%nat)) as g7. intros.
  rewrite (anti g4 g0), (anti g6 g4), (anti g2 g0), (anti g6 g2), (anti g3 g1), (anti g7 g3), (anti g5 g1), (anti g7 g5), (anti g1 g0), (anti g5 g4), (anti g3 g2), (anti g7 g6). lia.
Qed.
Lemma val_in : forall x y z, (x < nx)%nat -> (y < ny)%nat -> (z < nz)%nat -> val nx ny nz a (Z.of_nat x, Z.of_nat y, Z.of_nat z) = at_xyz ny nz a x y z.
Proof. intros. unfold val. destruct (look_cases nx ny nz (at_xyz ny nz a) 0 (Z.of_nat x, Z.of_nat y, Z.of_nat z)) as [(x2 & y2 & z2 & _ & _ & _ & E & ->)|(NI & _)]; [injection E as E1 E2 E3; f_equal; lia|]. exfalso. apply NI. cbn. lia. Qed.
Lemma val_out : forall p, ~ inside nx ny nz p -> val nx ny nz a p = 0.
Proof. intros p H. unfold val. destruct (look_cases nx ny nz (at_xyz ny nz a) 0 p) as [(x2 & y2 & z2 & H1 & H2 & H3 & -> & _)|(_ & ->)]; auto. exfalso. apply H. cbn. lia. Qed.
Lemma chain_flip : forall p0 p1 p2 p3, chain [p0; p3; p2; p1] = - chain [p0; p1; p2; p3].
Proof. intros. unfold chain. cbn [cyc_edges app combine zs fst snd]. rewrite (anti p0 p3), (anti p3 p2), (anti p2 p1), (anti p1 p0). lia. Qed.
Lemma step_dir : forall x y z f, VoxSpec.step (x, y, z) (dir f) = match f with 0%nat => (Z.of_nat x - 1, Z.of_nat y, Z.of_nat z) | 1%nat => (Z.of_nat x + 1, Z.of_nat y, Z.of_nat z) | 2%nat => (Z.of_nat x, Z.of_nat y - 1, Z.of_nat z) | 3%nat => (Z.of_nat x, Z.of_nat y + 1, Z.of_nat z) | 4%nat => (Z.of_nat x, Z.of_nat y, Z.of_nat z - 1) | 5%nat => (Z.of_nat x, Z.of_nat y, Z.of_nat z + 1) | _ => (Z.of_nat x, Z.of_nat y, Z.of_nat z) end.
Proof. intros. unfold VoxSpec.step, dir, dirs. destruct f as [|[|[|[|[|[|[|f]]]]]]]; cbn [nth]; repeat f_equal; lia. Qed.
Ltac shift1 x y z := unfold w; rewrite !step_dir.
Lemma pair_x : forall y z, (y < ny)%nat -> (z < nz)%nat -> zs (seq 0 nx) (fun x => w (x, y, z) 0 + w (x, y, z) 1) = 0.
Proof.
  intros y z Y Zl. apply (telescope nx (fun x => w (x, y, z) 0) (fun x => w (x, y, z) 1)).
  - unfold w. rewrite step_dir, val_out by (cbn; lia). cbn [Z.eqb]. rewrite andb_false_r. auto.
  - intros x X. unfold w. rewrite !step_dir. replace (Z.of_nat (S x) - 1) with (Z.of_nat x) by lia. replace (Z.of_nat x + 1) with (Z.of_nat (S x)) by lia. rewrite !val_in by lia. unfold ind. rewrite andb_comm. destruct (_ && _); [|lia].
    unfold qd, quad, face_corners. cbn [map]. rewrite (Nat.add_1_r x). apply chain_flip.
  - intros x X. unfold w. rewrite step_dir, val_out by (cbn; lia). cbn [Z.eqb]. rewrite andb_false_r. auto.
Qed.
Lemma pair_y : forall x z, (x < nx)%nat -> (z < nz)%nat -> zs (seq 0 ny) (fun y => w (x, y, z) 2 + w (x, y, z) 3) = 0.
Proof.
  intros x z X Zl. apply (telescope ny (fun y => w (x, y, z) 2) (fun y => w (x, y, z) 3)).
  - unfold w. rewrite step_dir, val_out by (cbn; lia). cbn [Z.eqb]. rewrite andb_false_r. auto.
  - intros y Y. unfold w. rewrite !step_dir. replace (Z.of_nat (S y) - 1) with (Z.of_nat y) by lia. replace (Z.of_nat y + 1) with (Z.of_nat (S y)) by lia. rewrite !val_in by lia. unfold ind. rewrite andb_comm. destruct (_ && _); [|lia].
    unfold qd, quad, face_corners. cbn [map]. rewrite (Nat.add_1_r y). apply chain_flip.
  - intros y Y. unfold w. rewrite step_dir, val_out by (cbn; lia). cbn [Z.eqb]. rewrite andb_false_r. auto.
Qed.
Lemma pair_z : forall x y, (x < nx)%nat -> (y < ny)%nat -> zs (seq 0 nz) (fun z => w (x, y, z) 4 + w (x, y, z) 5) = 0.
Proof.
  intros x y X Y. apply (telescope nz (fun z => w (x, y, z) 4) (fun z => w (x, y, z) 5)).
  - unfold w. rewrite step_dir, val_out by (cbn; lia). cbn [Z.eqb]. rewrite andb_false_r. auto.
  - intros z Zl. unfold w. rewrite !step_dir. replace (Z.of_nat (S z) - 1) with (Z.of_nat z) by lia. replace (Z.of_nat z + 1) with (Z.of_nat (S z)) by lia. rewrite !val_in by lia. unfold ind. rewrite andb_comm. destruct (_ && _); [|lia].
    unfold qd, quad, face_corners. cbn [map]. rewrite (Nat.add_1_r z). apply chain_flip.
  - intros z Zl. unfold w. rewrite step_dir, val_out by (cbn; lia). cbn [Z.eqb]. rewrite andb_false_r. auto.
Qed.
Lemma hidden_zero : zs (cells nx ny nz) (fun p => zs (seq 0 6) (w p)) = 0.
Proof.
  rewrite zs_cells. transitivity (zs (seq 0 nx) (fun x => zs (seq 0 ny) (fun y => zs (seq 0 nz) (fun z => (w (x, y, z) 0 + w (x, y, z) 1) + ((w (x, y, z) 2 + w (x, y, z) 3) + (w (x, y, z) 4 + w (x, y, z) 5)))))).
  { apply zs_ext. intros x _. apply zs_ext. intros y _. apply zs_ext. intros z _. cbn [seq zs]. lia. }
  transitivity (zs (seq 0 nx) (fun x => zs (seq 0 ny) (fun y => zs (seq 0 nz) (fun z => w (x, y, z) 0 + w (x, y, z) 1))) + (zs (seq 0 nx) (fun x => zs (seq 0 ny) (fun y => zs (seq 0 nz) (fun z => w (x, y, z) 2 + w (x, y, z) 3))) + zs (seq 0 nx) (fun x => zs (seq 0 ny) (fun y => zs (seq 0 nz) (fun z => w (x, y, z) 4 + w (x, y, z) 5))))).
  { rewrite <- !zs_add. apply zs_ext. intros x _. rewrite <- !zs_add. apply zs_ext. intros y _. rewrite <- !zs_add. auto. }
  assert (E1 : zs (seq 0 nx) (fun x => zs (seq 0 ny) (fun y => zs (seq 0 nz) (fun z => w (x, y, z) 0 + w (x, y, z) 1))) = 0).
  { rewrite (zs_swap (seq 0 nx) (seq 0 ny) (fun x y => zs (seq 0 nz) (fun z => w (x, y, z) 0 + w (x, y, z) 1))). rewrite <- (zs_0 (seq 0 ny)). apply zs_ext. intros y Y. rewrite (zs_swap (seq 0 nx) (seq 0 nz) (fun x z => w (x, y, z) 0 + w (x, y, z) 1)). rewrite <- (zs_0 (seq 0 nz)). apply zs_ext. intros z Zl. apply in_seq in Y, Zl. apply pair_x; lia. }
  assert (E2 : zs (seq 0 nx) (fun x => zs (seq 0 ny) (fun y => zs (seq 0 nz) (fun z => w (x, y, z) 2 + w (x, y, z) 3))) = 0).
  { rewrite <- (zs_0 (seq 0 nx)). apply zs_ext. intros x X. rewrite (zs_swap (seq 0 ny) (seq 0 nz) (fun y z => w (x, y, z) 2 + w (x, y, z) 3)). rewrite <- (zs_0 (seq 0 nz)). apply zs_ext. intros z Zl. apply in_seq in X, Zl. apply pair_y; lia. }
  assert (E3 : zs (seq 0 nx) (fun x => zs (seq 0 ny) (fun y => zs (seq 0 nz) (fun z => w (x, y, z) 4 + w (x, y, z) 5))) = 0).
  { rewrite <- (zs_0 (seq 0 nx)). apply zs_ext. intros x X. rewrite <- (zs_0 (seq 0 ny)). apply zs_ext. intros y Y. apply in_seq in X, Y. apply pair_z; lia. }
  rewrite E1, E2, E3. auto.
Qed.
Lemma closed_chain : zs (map (fun '(p, f) => qd p f) (exposed nx ny nz a)) chain = 0.
Proof.
  rewrite zs_map. unfold exposed. rewrite zs_flat. assert (H : zs (cells nx ny nz) (fun x => zs (cell_faces nx ny nz a x) (fun x0 => chain (let '(p, f) := x0 in qd p f)) + zs (seq 0 6) (w x)) = 0).
  { rewrite <- (zs_0 (cells nx ny nz)). apply zs_ext. intros [[x y] z] _. unfold cell_faces. destruct (at_01 x y z) as [E|E].
    - rewrite E. cbn [Z.eqb zs seq]. unfold w, ind. rewrite E. reflexivity.
    - rewrite E. cbn [Z.eqb]. rewrite zs_map, zs_filter, <- zs_add. transitivity (zs (seq 0 6) (fun f => chain (qd (x, y, z) f))); [|exact (cube (x, y, z))]. apply zs_ext. intros f _. unfold shown, w, ind. rewrite E. cbn [Z.eqb Pos.eqb andb]. destruct (val nx ny nz a (VoxSpec.step (x, y, z) (dir f)) =? 1); cbn [negb]; cbv beta iota; lia. }
  rewrite zs_add, hidden_zero in H. lia.
Qed.
End Closed.
Lemma uses_zs : forall quads a b, Z.of_nat (uses quads a b) = zs quads (fun q => zs (cyc_edges q) (fun e => if ((fst e =? a) && (snd e =? b))%nat then 1 else 0)).
Proof.
  intros. unfold uses. rewrite <- zs_flat. induction (flat_map cyc_edges quads) as [|e l IH]; cbn [filter length zs]; auto. destruct ((fst e =? a) && (snd e =? b))%nat; cbn [length]; lia.
Qed.
Lemma zs_opp : forall {A} (l : list A) f, zs l (fun x => - f x) = - zs l f. Proof. induction l; intros; cbn [zs]; auto. rewrite IHl. lia. Qed.
Lemma closed : forall nx ny nz a, length a = (nx * ny * nz)%nat -> Forall (fun v => v = 0 \/ v = 1) a -> forall u v, uses (map (fun '(p, f) => quad (ny + 1) (nz + 1) p f) (exposed nx ny nz a)) u v = uses (map (fun '(p, f) => quad (ny + 1) (nz + 1) p f) (exposed nx ny nz a)) v u.
Proof.
  intros nx ny nz a L B u v. set (phi := fun s t => (if ((s =? u) && (t =? v))%nat then 1 else 0) - (if ((s =? v) && (t =? u))%nat then 1 else 0)).
  assert (H := closed_chain phi ltac:(intros s t; unfold phi; rewrite (andb_comm (t =? u)%nat), (andb_comm (t =? v)%nat); lia) nx ny nz a L B). unfold qd in H.
  apply Nat2Z.inj. rewrite !uses_zs. set (Q := map _ _) in *. enough (zs Q (chain phi) = zs Q (fun q => zs (cyc_edges q) (fun e => if ((fst e =? u) && (snd e =? v))%nat then 1 else 0)) - zs Q (fun q => zs (cyc_edges q) (fun e => if ((fst e =? v) && (snd e =? u))%nat then 1 else 0))) by lia.
  rewrite <- Z.add_opp_r, <- zs_opp, <- zs_add. apply zs_ext. intros q _. unfold chain. rewrite <- zs_opp, <- zs_add. apply zs_ext. intros e _. unfold phi. lia.
Qed.
Lemma face_corners_ok : forall p f, (f < 6)%nat -> outward_face p (dir f) (face_corners p f).
Proof.
  intros [[x y] z] f F. unfold outward_face, face_corners. destruct f as [|[|[|[|[|[|f]]]]]]; try lia; (eexists; eexists; eexists; eexists; split; [reflexivity|]); unfold dir, dirs, ofnat, minus, plus, cross, inner; cbn [nth]; rewrite !Nat2Z.inj_add; cbn [Z.of_nat Pos.of_succ_nat]; repeat split; repeat match goal with |- (_, _) = (_, _) => f_equal end; ring.
Qed.
