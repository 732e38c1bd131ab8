(** Specification vocabulary for shortest-path fields. *)
From Coq Require Import List Arith Bool Reals Permutation Sorted.
Import ListNotations.
From Verif Require Import Imp BvModel BvSpec DijkModel.
Open Scope nat_scope.

(** Distances: a total order with an addition that is monotone on the left. *)
Record odist := OD {
  dt :> Type; dle : dt -> dt -> Prop; dadd : dt -> dt -> dt; dz : dt;
  dle_refl : forall a, dle a a; dle_trans : forall a b c, dle a b -> dle b c -> dle a c;
  dle_antisym : forall a b, dle a b -> dle b a -> a = b; dle_total : forall a b, dle a b \/ dle b a;
  dadd_mono : forall a b w, dle a b -> dle (dadd a w) (dadd b w) }.
Arguments dle {o}. Arguments dadd {o}. Arguments dz {o}.
Definition nat_dist : odist.
Proof.
  refine (OD nat le Nat.add 0 _ _ _ _ _); intros; auto using Nat.le_antisymm with arith.
  - eapply Nat.le_trans; eauto.
  - destruct (Nat.le_ge_cases a b); auto.
Defined.
Definition R_dist : odist.
Proof.
  refine (OD R Rle Rplus 0%R _ _ _ _ _); intros.
  - apply Rle_refl.
  - eapply Rle_trans; eauto.
  - apply Rle_antisym; auto.
  - destruct (Rle_or_lt a b); [left; auto|right; left; auto].
  - apply Rplus_le_compat_r; auto.
Defined.

(** A priority queue whose top is an entry of least distance. *)
Definition pq_ok (D : odist) (pq : pqueue D) : Prop :=
  (forall q x, Permutation (pq_push pq q x) (x :: q)) /\
  (forall q, q <> [] -> exists x q', pq_pop pq q = Some (x, q') /\ Permutation q (x :: q') /\ forall y, In y q -> dle (snd x) (snd y)).

(** Walks in a graph with edge relation [E] and weights [w], starting in [S]: end vertex and length. *)
Section Walk.
Variable D : odist.
Variables (S : nat -> Prop) (E : nat -> nat -> Prop) (w : nat -> nat -> D).
Inductive walk : nat -> D -> Prop :=
  | w_src : forall s, S s -> walk s dz
  | w_step : forall u d v, walk u d -> E u v -> walk v (dadd d (w u v)).
(** Walks with at least one edge. *)
Definition walk1 (v : nat) (l : D) : Prop := exists u d, walk u d /\ E u v /\ l = dadd d (w u v).
Definition reachable (v : nat) : Prop := exists d, walk v d.
(** [d] is the least length of a walk to [v]. *)
Definition shortest (v : nat) (d : D) : Prop := walk v d /\ forall d', walk v d' -> dle d d'.
Definition shortest1 (v : nat) (d : D) : Prop := walk1 v d /\ forall d', walk1 v d' -> dle d d'.
(** [vis] lists the reachable vertices, each once, nearest first. *)
Definition visit_order (vis : list nat) : Prop :=
  NoDup vis /\ (forall v, In v vis <-> reachable v) /\
  forall i j u v d e, i <= j -> nth_error vis i = Some u -> nth_error vis j = Some v -> shortest u d -> shortest v e -> dle d e.
End Walk.
Arguments walk {D}. Arguments walk1 {D}. Arguments reachable {D}. Arguments shortest {D}. Arguments shortest1 {D}. Arguments visit_order {D}.

(** Rank table: [ord] gives each vertex its position in [vis]. *)
Definition rank_table (vis : list nat) (ord : list (option nat)) : Prop :=
  forall v k, nth v ord None = Some k <-> nth_error vis k = Some v.

(** Adjacency table with [nedge] slots per element; [None] is no neighbour. *)
Definition slot (tab : list (option nat)) (nedge u k : nat) : option nat := nth (u * nedge + k) tab None.
Definition adjacent (tab : list (option nat)) (nedge u v : nat) : Prop := exists k, k < nedge /\ slot tab nedge u k = Some v.
Definition table_ok (tab : list (option nat)) (nelem nedge : nat) : Prop :=
  0 < nelem /\ length tab = nelem * nedge /\ forall v, In (Some v) tab -> v < nelem.

(** Moving to an adjacent element. *)
Definition step1 (tab : list (option nat)) (n nedge u v : nat) : Prop := u < n /\ adjacent tab nedge u v.

(** ---- clustering by hop distance ---- *)
(** Order of distances; [None] is infinity. *)
Definition ole (a b : option nat) : Prop := match a, b with _, None => True | Some x, Some y => x <= y | None, Some _ => False end.
(** [o] is the least number of steps from an element of [S] to [v]. *)
Definition hops (tab : list (option nat)) (n nedge : nat) (S : nat -> Prop) (v : nat) (o : option nat) : Prop :=
  match o with
  | Some d => shortest (D := nat_dist) S (step1 tab n nedge) (fun _ _ => 1) v d
  | None => ~ reachable (D := nat_dist) S (step1 tab n nedge) (fun _ _ => 1) v
  end.
(** [k] is the first of the elements farthest from the set [S], and not in [S]. *)
Definition farthest (tab : list (option nat)) (n nedge : nat) (S : nat -> Prop) (k : nat) : Prop :=
  k < n /\ ~ S k /\ forall v a b, v < n -> hops tab n nedge S k a -> hops tab n nedge S v b -> ole b a /\ (v < k -> b <> a).
(** [i] is the index of the first kernel that is nearest to [v]. *)
Definition nearest_kernel (tab : list (option nat)) (n nedge : nat) (ks : list nat) (v i : nat) : Prop :=
  i < length ks /\ forall j a b, j < length ks -> hops tab n nedge (fun s => s = nth i ks 0) v a -> hops tab n nedge (fun s => s = nth j ks 0) v b ->
    ole a b /\ (j < i -> b <> a).

(** ---- geometric distances ---- *)
Fixpoint rsum (n : nat) (f : nat -> R) : R := match n with 0 => 0%R | S k => (rsum k f + f k)%R end.
(** Mean of the corners of element [o]. *)
Definition centre (xyz : list R) (elem : list nat) (nnoel o : nat) : v3 :=
  let m f := (rsum nnoel (fun i => f (corner xyz elem nnoel o i)) / INR nnoel)%R in V3 (m vx) (m vy) (m vz).
(** Neighbours in a jagged array. *)
Definition jadj (ind adj : list nat) (u v : nat) : Prop := exists k, nth u ind 0 <= k < nth (u + 1) ind 0 /\ nth k adj 0 = v.
Definition jag_ok (ind adj : list nat) (n : nat) : Prop :=
  length ind = n + 1 /\ nth 0 ind 0 = 0 /\ (forall i, i < n -> nth i ind 0 <= nth (i + 1) ind 0) /\ nth n ind 0 = length adj /\ forall v, In v adj -> v < n.
(** Triangles of the region [flag] that touch its border: no neighbour across some edge, or one of another region. *)
Definition border (tab : list (option nat)) (nedge : nat) (flg : list nat) (f s : nat) : Prop :=
  s < length flg /\ nth s flg 0 = f /\ exists k, k < nedge /\ match slot tab nedge s k with None => True | Some j => nth j flg 0 <> f end.
