From Coquelicot Require Import Coquelicot.
From Coq Require Import Reals Lra Lia List Arith Bool.
Import ListNotations.
From Verif Require Import Imp PrModel BezSpec BezProofs PolyModel PolySpec.
Open Scope R_scope.

(** * Edges *)
Lemma edges_length : forall A (l : list A), length (edges l) = length l.
Proof. intros A [|a l]; auto. unfold edges. rewrite combine_length, app_length. cbn [tl firstn length]. lia. Qed.
Lemma edges_nth : forall A (l : list A) i d, (i < length l)%nat -> nth i (edges l) (d, d) = (nth i l d, nth ((i + 1) mod length l) l d).
Proof.
  intros A l i d I. unfold edges. destruct l as [|a l]; [cbn in I; lia|]. rewrite combine_nth by (rewrite app_length; cbn [tl firstn length]; lia). f_equal. cbn [tl firstn].
  cbn [length] in I |- *. destruct (Nat.eq_dec (i + 1) (S (length l))) as [E|E].
  - rewrite E, Nat.mod_same by lia. rewrite app_nth2 by lia. replace (i - length l)%nat with 0%nat by lia. reflexivity.
  - rewrite Nat.mod_small by lia. rewrite app_nth1 by lia. replace (i + 1)%nat with (S i) by lia. reflexivity.
Qed.
Lemma edge_loop : forall S (l : list pt) (body : nat -> S -> option S) (F : pt -> pt -> S -> S) s0,
  (forall i s, (i < length l)%nat -> body i s = Some (F (nth i l (0, 0)) (nth ((i + 1) mod length l) l (0, 0)) s)) ->
  forn 0 (length l) body s0 = Some (fold_left (fun s e => F (fst e) (snd e) s) (edges l) s0).
Proof.
  intros S l body F s0 H. assert (W : wp (forn 0 (length l) body s0) (fun s => s = fold_left (fun s e => F (fst e) (snd e) s) (edges l) s0)).
  { apply wp_forn with (I := fun i s => s = fold_left (fun s e => F (fst e) (snd e) s) (firstn i (edges l)) s0).
    - lia.
    - reflexivity.
    - intros i s I ->. rewrite H by lia. apply wp_some. assert (E : firstn (Datatypes.S i) (edges l) = firstn i (edges l) ++ [nth i (edges l) ((0, 0), (0, 0))]).
      { assert (L := edges_length _ l). revert I. rewrite <- L. generalize (edges l). clear. intros m. revert i. induction m as [|x m IH]; intros [|i] I; cbn [length] in I; try lia; cbn [firstn nth app]; [reflexivity|]. rewrite <- IH by lia. reflexivity. }
      rewrite E, fold_left_app. cbn [fold_left]. rewrite edges_nth by (lia). reflexivity.
    - intros s ->. rewrite <- (edges_length _ l), firstn_all. reflexivity. }
  apply wp_iff in W. destruct W as (x & -> & ->). reflexivity.
Qed.
Lemma fold_sum : forall A (g : A -> R) l x, fold_left (fun s e => s + g e) l x = x + sum (map g l).
Proof. intros A g. induction l as [|a l IH]; intros x; cbn [fold_left map sum fold_right]; [lra|]. rewrite IH. unfold sum. lra. Qed.
Lemma fold_sum3 : forall A (g h k : A -> R) l x y z, fold_left (fun s e => let '(a, b, c) := s in (a + g e, b + h e, c + k e)) l (x, y, z) = (x + sum (map g l), y + sum (map h l), z + sum (map k l)).
Proof. intros A g h k. induction l as [|a l IH]; intros x y z; cbn [fold_left map sum fold_right]; [f_equal; [f_equal|]; lra|]. rewrite IH. unfold sum. f_equal; [f_equal|]; lra. Qed.
Lemma sum_app : forall l m, sum (l ++ m) = sum l + sum m.
Proof. unfold sum. induction l; intros; cbn [app fold_right]; [lra|]. rewrite IHl. lra. Qed.
Lemma sum_map_lin : forall A (f g : A -> R) x y l, sum (map (fun a => x * f a + y * g a) l) = x * sum (map f l) + y * sum (map g l).
Proof. unfold sum. induction l; cbn [map fold_right]; [ring|]. rewrite IHl. ring. Qed.
Lemma sum_map_ext : forall A (f g : A -> R) l, (forall a, f a = g a) -> sum (map f l) = sum (map g l).
Proof. intros. f_equal. apply map_ext. auto. Qed.
(** Cyclic telescoping. *)
Lemma combine_app : forall A B (l1 l2 : list A) (m1 m2 : list B), length l1 = length m1 -> combine (l1 ++ l2) (m1 ++ m2) = combine l1 m1 ++ combine l2 m2.
Proof. induction l1 as [|a l1 IH]; intros l2 [|b m1] m2 L; cbn in *; try lia; auto. rewrite IH by lia. reflexivity. Qed.
Lemma sum_combine : forall A (f : A -> R) (l m : list A), length l = length m -> sum (map (fun e => f (fst e)) (combine l m)) = sum (map f l) /\ sum (map (fun e => f (snd e)) (combine l m)) = sum (map f m).
Proof.
  unfold sum. induction l as [|a l IH]; intros [|b m] L; cbn in L; try lia; cbn [combine map fold_right fst snd]; [auto|]. destruct (IH m ltac:(lia)) as (-> & ->). auto.
Qed.
Lemma telescope : forall A (h : A -> R) l, total (fun a b => h a - h b) l = 0.
Proof.
  intros A h l. unfold total. rewrite (sum_map_ext _ _ (fun e => 1 * h (fst e) + (-1) * h (snd e))) by (intros; ring). rewrite (sum_map_lin _ (fun e => h (fst e)) (fun e => h (snd e))).
  unfold edges. destruct l as [|a l]; [cbn; ring|]. destruct (sum_combine _ h (a :: l) (tl (a :: l) ++ firstn 1 (a :: l))) as (-> & ->). { rewrite app_length. cbn [tl firstn length]. lia. }
  cbn [tl firstn]. rewrite map_app, sum_app. unfold sum. cbn [map fold_right]. ring.
Qed.
Lemma total_ext : forall A (f g : A -> A -> R) l, (forall a b, f a b = g a b) -> total f l = total g l.
Proof. intros. unfold total. apply sum_map_ext. auto. Qed.
Lemma total_lin : forall A (f g : A -> A -> R) x y l, total (fun a b => x * f a b + y * g a b) l = x * total f l + y * total g l.
Proof. intros. unfold total. apply (sum_map_lin _ (fun e => f (fst e) (snd e)) (fun e => g (fst e) (snd e))). Qed.
Lemma total_telescope : forall A (f g : A -> A -> R) h l, (forall a b, f a b = g a b + (h a - h b)) -> total f l = total g l.
Proof. intros A f g h l H. rewrite (total_ext _ _ (fun a b => 1 * g a b + 1 * (h a - h b))) by (intros; rewrite H; ring). rewrite (total_lin _ g (fun a b => h a - h b)), telescope. ring. Qed.
Lemma edges_map : forall A B (f : A -> B) l, edges (map f l) = map (fun e => (f (fst e), f (snd e))) (edges l).
Proof.
  intros A B f l. unfold edges. replace (tl (map f l) ++ firstn 1 (map f l)) with (map f (tl l ++ firstn 1 l)) by (destruct l; cbn [map tl firstn app]; auto; rewrite map_app; auto).
  generalize (tl l ++ firstn 1 l). induction l as [|a l IH]; intros [|b m]; cbn [map combine]; auto. rewrite IH. auto.
Qed.
Lemma total_map : forall A B (f : A -> B) g l, total g (map f l) = total (fun a b => g (f a) (f b)) l.
Proof. intros. unfold total. rewrite edges_map, map_map. auto. Qed.
(** Starting elsewhere, going backwards. *)
Lemma edges_snoc : forall A (a b : A) l, edges (a :: l ++ [b]) = combine (a :: l) (l ++ [b]) ++ [(b, a)].
Proof. intros. unfold edges. cbn [tl firstn]. change (a :: l ++ [b]) with ((a :: l) ++ [b]). rewrite combine_app by (rewrite app_length; cbn; lia). reflexivity. Qed.
Lemma edges_rot1 : forall A (a : A) l, Permutation.Permutation (edges (a :: l)) (edges (l ++ [a])).
Proof.
  intros A a [|b l]; [apply Permutation.Permutation_refl|]. cbn [app]. rewrite edges_snoc. unfold edges. cbn [tl firstn app combine]. apply (Permutation.Permutation_cons_append (combine (b :: l) (l ++ [a])) (a, b)).
Qed.
Lemma sum_perm : forall l m, Permutation.Permutation l m -> sum l = sum m.
Proof. unfold sum. induction 1; cbn [fold_right]; lra. Qed.
Lemma total_rot : forall A (f : A -> A -> R) l m, total f (l ++ m) = total f (m ++ l).
Proof.
  intros A f l. induction l as [|a l IH]; intros m; [rewrite app_nil_r; auto|]. change ((a :: l) ++ m) with (a :: (l ++ m)). unfold total. rewrite (sum_perm _ _ (Permutation.Permutation_map _ (edges_rot1 _ a (l ++ m)))). rewrite <- app_assoc. fold (total f (l ++ (m ++ [a]))). rewrite IH, <- app_assoc. auto.
Qed.
Lemma combine_rev : forall A B (l : list A) (m : list B), length l = length m -> combine (rev l) (rev m) = rev (combine l m).
Proof. induction l as [|a l IH]; intros [|b m] L; cbn in L; try lia; auto. cbn [rev combine]. rewrite combine_app by (rewrite !rev_length; lia). rewrite IH by lia. auto. Qed.
Lemma combine_swap : forall A (l m : list A), combine m l = map (fun e => (snd e, fst e)) (combine l m).
Proof. induction l as [|a l IH]; intros [|b m]; cbn [combine map]; auto. rewrite IH. auto. Qed.
Lemma total_rev : forall A (f : A -> A -> R) l, total f (rev l) = total (fun a b => f b a) l.
Proof.
  intros A f l. destruct l as [|a l]; auto. destruct (exists_last (l := a :: l) ltac:(discriminate)) as (m & b & E). destruct m as [|c m].
  { rewrite E. reflexivity. }
  cbn [app] in E. rewrite E. replace (rev (c :: m ++ [b])) with (b :: rev m ++ [c]) by (cbn [rev]; rewrite rev_app_distr; reflexivity). unfold total. rewrite !edges_snoc, !map_app, !sum_app. f_equal.
  - replace (b :: rev m) with (rev (m ++ [b])) by (rewrite rev_app_distr; reflexivity). change (rev m ++ [c]) with (rev (c :: m)). rewrite combine_rev by (rewrite app_length; cbn; lia). rewrite map_rev. rewrite (sum_perm _ _ (Permutation.Permutation_sym (Permutation.Permutation_rev _))). rewrite combine_swap, map_map. auto.
Qed.

(** * Integrals of quadratic polynomials over triangles *)
Definition quad (c0 c1 c2 c3 c4 c5 : R) (x y : R) : R := c0 + c1 * x + c2 * y + c3 * (x * x) + c4 * (x * y) + c5 * (y * y).
Definition tri (f : R -> R -> R) (o a b : pt) : R :=
  ((fst a - fst o) * (snd b - snd o) - (snd a - snd o) * (fst b - fst o)) / 6 * (f ((fst o + fst a) / 2) ((snd o + snd a) / 2) + f ((fst a + fst b) / 2) ((snd a + snd b) / 2) + f ((fst o + fst b) / 2) ((snd o + snd b) / 2)).
Lemma int_poly : forall e0 e1 e2 e3, integral01 (fun t => e0 + t * (e1 + t * (e2 + t * e3))) (e0 + e1 / 2 + e2 / 3 + e3 / 4).
Proof.
  intros. assert (D : derivative (fun t => t * (e0 + t * (e1 / 2 + t * (e2 / 3 + t * (e3 / 4))))) (fun t => e0 + t * (e1 + t * (e2 + t * e3)))) by (intros t; apply is_derive_Reals; auto_derive; [auto|field]).
  apply integral_of in D. match goal with H : integral01 _ ?a |- integral01 _ ?b => replace b with a by field end. exact D.
Qed.
Lemma int_unique : forall f g v w, (forall t, f t = g t) -> integral01 f v -> integral01 g w -> v = w.
Proof. intros f g v w E (F & V) (G & W). destruct F as (F & D). rewrite <- (V F D). apply W. intros t. rewrite <- E. apply D. Qed.
Lemma tri_quad : forall c0 c1 c2 c3 c4 c5 o a b, triangle_integral (quad c0 c1 c2 c3 c4 c5) o a b (tri (quad c0 c1 c2 c3 c4 c5) o a b).
Proof.
  intros c0 c1 c2 c3 c4 c5 (ox, oy) (ax, ay) (bx, by_). unfold triangle_integral, tri. cbn [fst snd].
  set (ux := ax - ox). set (uy := ay - oy). set (vx := bx - ax). set (vy := by_ - ay).
  set (L := fun x y => c1 * x + c2 * y + 2 * c3 * ox * x + c4 * (ox * y + oy * x) + 2 * c5 * oy * y). set (Q := fun x y => c3 * (x * x) + c4 * (x * y) + c5 * (y * y)). set (B := 2 * c3 * ux * vx + c4 * (ux * vy + uy * vx) + 2 * c5 * uy * vy).
  set (f0 := quad c0 c1 c2 c3 c4 c5 ox oy).
  exists (fun s => (f0 + s * L ux uy + s * s * Q ux uy) + (s * L vx vy + s * s * B) / 2 + (s * s * Q vx vy) / 3 + 0 / 4). split.
  - intros s. eapply integral_ext; [|apply int_poly]. intros t. unfold quad, f0, L, Q, B, ux, uy, vx, vy, quad. ring.
  - set (c := ux * (by_ - oy) - uy * (bx - ox)).
    replace (c / 6 * _) with (0 + c * f0 / 2 + c * (L ux uy + L vx vy / 2) / 3 + c * (Q ux uy + B / 2 + Q vx vy / 3) / 4).
    + eapply integral_ext; [|apply int_poly]. intros s. cbv beta. field.
    + unfold c, f0, L, Q, B, ux, uy, vx, vy, quad. field.
Qed.
Lemma triangle_unique : forall f o a b v w, triangle_integral f o a b v -> triangle_integral f o a b w -> v = w.
Proof.
  intros f o a b v w (g & G1 & G2) (h & H1 & H2). eapply int_unique; [|exact G2|exact H2]. intros s. cbv beta. f_equal. eapply int_unique; [|apply G1|apply H1]. auto.
Qed.
Lemma triangle_ext : forall f g o a b v, (forall x y, f x y = g x y) -> triangle_integral f o a b v -> triangle_integral g o a b v.
Proof. intros f g o a b v E (h & H1 & H2). exists h. split; auto. intros s. eapply integral_ext; [|apply H1]. intros t. cbv beta. apply E. Qed.
Lemma region_of : forall f o l, (forall a b, triangle_integral f o a b (tri f o a b)) -> forall v, region_integral f o l v <-> v = total (tri f o) l.
Proof.
  intros f o l H v. unfold region_integral, total in *. split.
  - intros (vs & F & <-). f_equal. induction F as [|e w es ws T F IH]; auto. cbn [map]. f_equal; auto. eapply triangle_unique; [exact T|apply H].
  - intros ->. exists (map (fun e => tri f o (fst e) (snd e)) (edges l)). split; auto. induction (edges l) as [|e es IH]; constructor; auto.
Qed.
Lemma tri_origin : forall c0 c1 c2 c3 c4 c5 o o' a b, tri (quad c0 c1 c2 c3 c4 c5) o a b = tri (quad c0 c1 c2 c3 c4 c5) o' a b + (tri (quad c0 c1 c2 c3 c4 c5) o a o' - tri (quad c0 c1 c2 c3 c4 c5) o b o').
Proof. intros c0 c1 c2 c3 c4 c5 (ox, oy) (px, py) (ax, ay) (bx, by_). unfold tri, quad. cbn [fst snd]. field. Qed.
Lemma region_any : forall c0 c1 c2 c3 c4 c5 o o' l v, v = total (tri (quad c0 c1 c2 c3 c4 c5) o') l -> region_integral (quad c0 c1 c2 c3 c4 c5) o l v.
Proof. intros. apply region_of; [intros; apply tri_quad|]. subst v. symmetry. symmetry. apply (total_telescope _ _ _ (fun a => tri (quad c0 c1 c2 c3 c4 c5) o' a o)). intros. apply tri_origin. Qed.
Lemma region_ext : forall f g o l v, (forall x y, f x y = g x y) -> region_integral f o l v -> region_integral g o l v.
Proof. intros f g o l v E (vs & F & S). exists vs. split; auto. clear S. induction F; constructor; auto. eapply triangle_ext; eauto. Qed.
Lemma region_unique : forall f o l v w, region_integral f o l v -> region_integral f o l w -> v = w.
Proof.
  intros f o l v w (vs & F & <-) (ws & G & <-). f_equal. revert ws G. induction F as [|e x es xs T F IH]; intros ws G; inversion G; subst; auto. f_equal; auto. eapply triangle_unique; eauto.
Qed.
