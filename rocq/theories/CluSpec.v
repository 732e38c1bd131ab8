(** Specification for clustering of points. *)
From Coq Require Import List Arith Reals Sorted Permutation.
Import ListNotations.
Open Scope nat_scope.

(** A neighbour table: row i lists the neighbours of point i; symmetric, no point is its own neighbour. *)
Definition graph_ok (adj : list (list nat)) : Prop :=
  forall i j, In j (nth i adj []) -> j < length adj /\ i <> j /\ In i (nth j adj []).
(** The groups are a partition of the points below n, and map sends each point to the number of its group. *)
Definition partition_of (n : nat) (groups : list (list nat)) (map01 : list (option nat)) : Prop :=
  Permutation (concat groups) (seq 0 n) /\ length map01 = n /\
  forall c i, In i (nth c groups []) -> nth i map01 None = Some c.
(** The groups: pairs of neighbours, then single points in ascending order. *)
Definition groups_of (pairs : list (nat * nat)) (singles : list nat) : list (list nat) := map (fun p => [fst p; snd p]) pairs ++ map (fun i => [i]) singles.
Definition edge_pairs (adj : list (list nat)) (pairs : list (nat * nat)) : Prop := forall i j, In (i, j) pairs -> i < j /\ In j (nth i adj []).
(** The quotient graph: rows of different groups that contain neighbours. *)
Definition quotient_row (adj groups : list (list nat)) (c : nat) (row : list nat) : Prop :=
  NoDup row /\ forall d, In d row <-> d <> c /\ exists i k, In i (nth c groups []) /\ In k (nth i adj []) /\ In k (nth d groups []).

Open Scope R_scope.
Definition sumL (l : list R) : R := fold_right Rplus 0 l.
(** The score of an edge is the ratio of the smaller and the larger area. *)
Definition ratio (area : nat -> R) (i j : nat) : R := Rmin (area i / area j) (area j / area i).
(** Greedy matching: the pairs come in ascending order of the score, and every edge touches a pair with a score that is not larger. *)
Definition greedy (adj : list (list nat)) (area : nat -> R) (pairs : list (nat * nat)) : Prop :=
  StronglySorted (fun p q => ratio area (fst p) (snd p) < ratio area (fst q) (snd q)) pairs /\
  forall i j, In j (nth i adj []) -> exists p, In p pairs /\ ratio area (fst p) (snd p) <= ratio area i j /\ (fst p = i \/ fst p = j \/ snd p = i \/ snd p = j).
(** No two edges have the same score. *)
Definition distinct_ratios (adj : list (list nat)) (area : nat -> R) : Prop :=
  forall i j k l, In j (nth i adj []) -> In l (nth k adj []) -> (i < j)%nat -> (k < l)%nat -> ratio area i j = ratio area k l -> i = k /\ j = l.
(** Area-weighted mean of a coordinate over a group; scaling a vector to length one. *)
Definition wmean (area : nat -> R) (x : nat -> R) (g : list nat) : R := sumL (map (fun i => area i * x i) g) / sumL (map area g).
Definition unit3 (v : list R) : list R := match v with [x; y; z] => let l := sqrt (x * x + y * y + z * z) in [x / l; y / l; z / l] | _ => v end.
Definition at3 (a : list R) (d i : nat) : R := nth (i * 3 + d) a 0.
