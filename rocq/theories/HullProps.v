(** C61: the convex hull of points in the plane. *)
From Coq Require Import List Arith Bool Reals Lia Lra Psatz Sorting.Sorted Sorting.Permutation.
Import ListNotations.
From Verif Require Import Imp PrModel PolyModel HullModel HullSpec HullProofs1 HullProofs2 HullProofs3.
Open Scope R_scope.

Theorem C61_convex_hull : forall srt points o, sorts srt -> (3 <= length points)%nat ->
  is_lowest points o -> separated EPSILON points o -> single_extremes points o ->
  exists res, ConvexHull2 srt points = Some res /\ is_hull points o res.
Proof. intros srt points o H1 H2 H3 H4 H5. apply hull_ok; auto. Qed.
Print Assumptions C61_convex_hull.

(** Every function with the property of std::sort gives the same list if the elements are strictly ordered. *)
Lemma sorts_unique : forall A (srt : (A -> A -> bool) -> list A -> list A) c l t, sorts srt -> strict_weak c l -> Permutation l t -> StronglySorted (fun a b => c a b = true) t -> srt c l = t.
Proof.
  intros A srt c l t Hs Hw Hp Ht. destruct (Hs c l Hw) as (P1 & S1). assert (Pt : Permutation t (srt c l)) by (rewrite <- Hp; auto). clear P1 Hs Hw Hp.
  assert (G : forall l t, Permutation t l -> StronglySorted (fun a b => c b a = false) l -> StronglySorted (fun a b => c a b = true) t -> l = t); [|auto].
  clear.
  induction l as [|x l IH]; intros t Pt S1 Ht.
  - apply Permutation_sym, Permutation_nil in Pt. auto.
  - destruct t as [|y t]. apply Permutation_nil in Pt. discriminate. inversion S1 as [|? ? S2 F2]; inversion Ht as [|? ? S3 F3]; subst. rewrite Forall_forall in F2, F3.
    assert (E : x = y). { assert (Hy : In y (x :: l)) by (apply (Permutation_in y Pt); left; auto). destruct Hy as [|Hy]; auto. assert (Hx : In x (y :: t)) by (apply (Permutation_in x (Permutation_sym Pt)); left; auto). destruct Hx as [|Hx]; auto. exfalso. pose proof (F2 y Hy). pose proof (F3 x Hx). congruence. }
    subst y. f_equal. apply IH; auto. apply Permutation_cons_inv in Pt. auto.
Qed.

(** Fewer than three points: the loop over the directions starts behind the end of its list. *)
Theorem C61_two_points_refuted : forall srt points o, sorts srt -> length points = 2%nat -> is_lowest points o -> ConvexHull2 srt points = None.
Proof.
  intros srt points o Hs Hn Hl. unfold ConvexHull2. rewrite (lowest_ok points o Hl). cbn [bind]. rewrite (cosines_ok points o Hl). cbn [bind].
  assert (E : exists a, L0 points o = [a]). { unfold L0. rewrite Hn. destruct Hl as (Ho & _). rewrite Hn in Ho. destruct o as [|[|?]]; [| |lia]; simpl; eauto. } destruct E as (a & E). rewrite E.
  rewrite (sorts_unique _ srt _ [a] [a]); auto. simpl. auto.
  - assert (H : forall x, hull_comp points o x x = false). { intros x. unfold hull_comp. rewrite Rminus_diag_eq, Rabs_R0 by auto. unfold ltR. destruct (Rlt_dec EPSILON 0). pose proof eps_pos. lra. destruct (Rlt_dec _ _) as [X|]; auto. lra. }
    split; [|split].
    + intros x _. auto.
    + intros x y z [<-|[]] [<-|[]] [<-|[]]. auto.
    + intros x y z [<-|[]] [<-|[]] [<-|[]]. auto.
  - repeat constructor.
Qed.
Print Assumptions C61_two_points_refuted.

(** Insertion sort has the property of std::sort. *)
Fixpoint ins {A} (c : A -> A -> bool) (x : A) (l : list A) : list A :=
  match l with [] => [x] | y :: l' => if c y x then y :: ins c x l' else x :: l end.
Definition isort {A} (c : A -> A -> bool) (l : list A) : list A := fold_right (ins c) [] l.
Lemma ins_perm : forall A c (x : A) l, Permutation (x :: l) (ins c x l).
Proof. induction l; simpl; auto. destruct (c a x); auto. rewrite perm_swap. auto. Qed.
Lemma isort_perm : forall A c (l : list A), Permutation l (isort c l).
Proof. induction l; simpl; auto. rewrite <- ins_perm. auto. Qed.
Lemma isort_sorts : forall A, @sorts A isort.
Proof.
  intros A c l (W1 & W2 & W3). split. apply isort_perm.
  assert (Tr : forall a b d, In a l -> In b l -> In d l -> c b a = false -> c d b = false -> c d a = false).
  { intros a b d Ha Hb Hd H1 H2. destruct (c d a) eqn:E; auto. exfalso. destruct (c a b) eqn:E1. rewrite (W2 d a b) in H2; auto; discriminate.
    destruct (c b d) eqn:E2. rewrite (W2 b d a) in H1; auto; discriminate. destruct (W3 a b d); auto. congruence. }
  assert (G : forall l', incl l' l -> StronglySorted (fun a b => c b a = false) (isort c l')); [|apply G; apply incl_refl].
  induction l' as [|x l' IH]; intros Hi; simpl. constructor. assert (Hx : In x l) by (apply Hi; left; auto). assert (Hi' : incl (isort c l') l). { intros y Hy. apply Hi. right. apply (Permutation_in y (Permutation_sym (isort_perm _ c l'))). auto. }
  specialize (IH (fun y Hy => Hi y (or_intror Hy))). induction IH as [|y m Hm IHm Hf]; simpl. repeat constructor. rewrite Forall_forall in Hf. assert (Hy : In y l) by (apply Hi'; left; auto). destruct (c y x) eqn:E.
  - constructor. apply IHm. intros z Hz. apply Hi'. right. auto. apply Forall_forall. intros z Hz. apply (Permutation_in z (Permutation_sym (ins_perm _ c x m))) in Hz. destruct Hz as [<-|Hz]. destruct (c x y) eqn:E2; auto. exfalso. pose proof (W1 x Hx). rewrite (W2 x y x) in H; auto. discriminate. apply Hf; auto.
  - constructor. constructor; auto. apply Forall_forall. auto. apply Forall_forall. intros z [<-|Hz]; auto. apply (Tr x y z); auto. apply Hi'. right. auto.
Qed.

(** Five points, two of them on one ray in the middle. *)
Definition pts5 : list pnt := [(0, 0); (4, 0); (3, 4); (3 / 2, 2); (0, 3)].
Lemma sqrt_is : forall x y, 0 <= y -> x = y * y -> sqrt x = y. Proof. intros x y H ->. apply sqrt_square. auto. Qed.
Ltac five k := destruct k as [|[|[|[|[|k]]]]]; [| | | | |simpl in *; lia].
Lemma dir5 : forall i, (i < 5)%nat -> i <> 0%nat -> direction pts5 0 i = nth i [0; 1; 3 / 5; 3 / 5; 0] 0.
Proof.
  intros i Hi Hne. unfold direction, P, pts5. five i; simpl. lia.
  - rewrite (sqrt_is _ 4); lra.
  - rewrite (sqrt_is _ 5); lra.
  - rewrite (sqrt_is _ (5 / 2)); lra.
  - rewrite (sqrt_is _ 3); lra.
Qed.
Lemma hyps5 : is_lowest pts5 0 /\ separated EPSILON pts5 0 /\ single_extremes pts5 0.
Proof.
  split; [|split].
  - split. simpl; lia. intros k Hk Hne. five k; unfold P; simpl; try lia; lra.
  - intros i j Hi Hj Ni Nj. rewrite !dir5 by auto. unfold orient, P, pts5, EPSILON. five i; five j; try lia; simpl; intros X; try (exfalso; apply X; lra); unfold Rabs; destruct (Rcase_abs _); lra.
  - intros i j Hi Hj Ni Nj Nij. unfold orient, P, pts5. five i; five j; try lia; simpl; intros X; try (exfalso; lra); split; (exists 1%nat + exists 4%nat); split; try (simpl; lia); simpl; lra.
Qed.
Example C61_five_points : exists res, ConvexHull2 isort pts5 = Some res /\ is_hull pts5 0 res.
Proof. destruct hyps5 as (H1 & H2 & H3). apply C61_convex_hull; auto. apply isort_sorts. simpl; lia. Qed.

(** Two points in the first direction (a side of the hull with a point on it): the scan pops the lowest point from the stack and reads below its bottom. *)
Definition ptsA : list pnt := [(0, 0); (2, 0); (1, 0); (0, 2)].
Ltac four k := destruct k as [|[|[|[|k]]]]; [| | | |simpl in *; lia].
Lemma dirA : forall i, (i < 4)%nat -> i <> 0%nat -> direction ptsA 0 i = nth i [0; 1; 1; 0] 0.
Proof.
  intros i Hi Hne. unfold direction, P, ptsA. four i; simpl. lia.
  - rewrite (sqrt_is _ 2); lra.
  - rewrite (sqrt_is _ 1); lra.
  - rewrite (sqrt_is _ 2); lra.
Qed.
Lemma hypsA : is_lowest ptsA 0 /\ separated EPSILON ptsA 0.
Proof.
  split.
  - split. simpl; lia. intros k Hk Hne. four k; unfold P; simpl; try lia; lra.
  - intros i j Hi Hj Ni Nj. rewrite !dirA by auto. unfold orient, P, ptsA, EPSILON. four i; four j; try lia; simpl; intros X; try (exfalso; apply X; lra); unfold Rabs; destruct (Rcase_abs _); lra.
Qed.
Lemma near_no : forall x y, 1 <= Rabs (x - y) -> ltR (Rabs (x - y)) EPSILON = false.
Proof. intros x y H. unfold ltR, EPSILON. destruct (Rlt_dec _ _); auto. lra. Qed.
Lemma near_yes : forall x, ltR (Rabs (x - x)) EPSILON = true.
Proof. intros x. rewrite Rminus_diag_eq, Rabs_R0 by auto. unfold ltR. destruct (Rlt_dec _ _); auto. pose proof eps_pos. lra. Qed.

Theorem C61_point_on_first_side_refuted : exists points o, (3 <= length points)%nat /\ is_lowest points o /\ separated EPSILON points o /\ forall srt, sorts srt -> ConvexHull2 srt points = None.
Proof.
  exists ptsA, 0%nat. destruct hypsA as (H1 & H2). split. simpl; lia. split; auto. split; auto. intros srt Hs.
  unfold ConvexHull2. rewrite (lowest_ok ptsA 0 H1). cbn [bind]. rewrite (cosines_ok ptsA 0 H1). cbn [bind].
  assert (EL : L0 ptsA 0 = [(1%nat, 1); (2%nat, 1); (3%nat, 0)]).
  { unfold L0. simpl filter. cbn [map]. rewrite <- (dir_cos ptsA 0 1), <- (dir_cos ptsA 0 2), <- (dir_cos ptsA 0 3), (dirA 1), (dirA 2), (dirA 3) by lia. reflexivity. }
  rewrite (sorts_unique _ srt _ _ [(1%nat, 1); (2%nat, 1); (3%nat, 0)]); auto.
  2: { apply (comp_swo ptsA 0 H1 H2). intros a Ha. apply L0_elt; auto. }
  2: { rewrite EL. auto. }
  - assert (N : ltR (Rabs (1 - 0)) EPSILON = false) by (apply near_no; rewrite Rabs_right; lra). cbn -[Rabs EPSILON ltR pops Rminus foldM]. rewrite N. cbn -[pops]. 
    cbn. unfold ltR. destruct (Rlt_dec _ _) as [X|X]; auto. exfalso. lra.
  - pose proof (L0_elt ptsA 0 H1) as E. rewrite EL in E. assert (E1 := E _ (or_introl eq_refl)). assert (E2 := E _ (or_intror (or_introl eq_refl))). assert (E3 := E _ (or_intror (or_intror (or_introl eq_refl)))).
    repeat constructor; apply (comp_iff ptsA 0 H1 H2); auto; unfold sq, HullProofs2.q, P, ptsA; simpl; lra.
Qed.
Print Assumptions C61_point_on_first_side_refuted.

(** Two points in the last direction: the loop over the directions erases the last one and steps behind the end of the list. *)
Definition ptsB : list pnt := [(0, 0); (2, 0); (0, 2); (0, 1)].
Lemma dirB : forall i, (i < 4)%nat -> i <> 0%nat -> direction ptsB 0 i = nth i [0; 1; 0; 0] 0.
Proof.
  intros i Hi Hne. unfold direction, P, ptsB. four i; simpl. lia.
  - rewrite (sqrt_is _ 2); lra.
  - rewrite (sqrt_is _ 2); lra.
  - rewrite (sqrt_is _ 1); lra.
Qed.
Lemma hypsB : is_lowest ptsB 0 /\ separated EPSILON ptsB 0.
Proof.
  split.
  - split. simpl; lia. intros k Hk Hne. four k; unfold P; simpl; try lia; lra.
  - intros i j Hi Hj Ni Nj. rewrite !dirB by auto. unfold orient, P, ptsB, EPSILON. four i; four j; try lia; simpl; intros X; try (exfalso; apply X; lra); unfold Rabs; destruct (Rcase_abs _); lra.
Qed.
Theorem C61_point_on_last_side_refuted : exists points o, (3 <= length points)%nat /\ is_lowest points o /\ separated EPSILON points o /\ forall srt, sorts srt -> ConvexHull2 srt points = None.
Proof.
  exists ptsB, 0%nat. destruct hypsB as (H1 & H2). split. simpl; lia. split; auto. split; auto. intros srt Hs.
  unfold ConvexHull2. rewrite (lowest_ok ptsB 0 H1). cbn [bind]. rewrite (cosines_ok ptsB 0 H1). cbn [bind].
  assert (EL : L0 ptsB 0 = [(1%nat, 1); (2%nat, 0); (3%nat, 0)]).
  { unfold L0. simpl filter. cbn [map]. rewrite <- (dir_cos ptsB 0 1), <- (dir_cos ptsB 0 2), <- (dir_cos ptsB 0 3), (dirB 1), (dirB 2), (dirB 3) by lia. reflexivity. }
  rewrite (sorts_unique _ srt _ _ [(1%nat, 1); (2%nat, 0); (3%nat, 0)]); auto.
  2: { apply (comp_swo ptsB 0 H1 H2). intros a Ha. apply L0_elt; auto. }
  2: { rewrite EL. auto. }
  - cbn -[Rabs EPSILON ltR pops Rminus foldM]. rewrite near_yes. reflexivity.
  - pose proof (L0_elt ptsB 0 H1) as E. rewrite EL in E. assert (E1 := E _ (or_introl eq_refl)). assert (E2 := E _ (or_intror (or_introl eq_refl))). assert (E3 := E _ (or_intror (or_intror (or_introl eq_refl)))).
    repeat constructor; apply (comp_iff ptsB 0 H1 H2); auto; unfold sq, HullProofs2.q, P, ptsB; simpl; lra.
Qed.
Print Assumptions C61_point_on_last_side_refuted.
