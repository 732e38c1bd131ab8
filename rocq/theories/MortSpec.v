(** Specification vocabulary for Morton codes and bounding-volume trees. *)
From Coq Require Import List Arith NArith QArith.
Import ListNotations.
From Verif Require Import MortModel.
Close Scope Q_scope. Open Scope nat_scope.

(** Cell number of a coordinate of the unit interval cut into 1024 cells; coordinates outside are put in the end cells. *)
Definition is_cell (x : Q) (k : N) : Prop :=
  (k < 1024)%N /\
  ((x <= 0)%Q -> k = 0%N) /\
  ((1 <= x)%Q -> k = 1023%N) /\
  ((0 <= x)%Q -> (x < 1)%Q -> (inject_Z (Z.of_N k) <= x * 1024)%Q /\ (x * 1024 < inject_Z (Z.of_N k + 1))%Q).

(** [n] is the number of zero bits above the highest one bit of a 32-bit word. *)
Definition leading_zeros (x : N) (n : nat) : Prop :=
  n <= 32 /\ (forall i, 32 - n <= i < 32 -> N.testbit x (N.of_nat i) = false) /\
  (n < 32 -> N.testbit x (N.of_nat (31 - n)) = true).

(** A rooted binary tree whose leaves carry objects and whose nodes carry positions in a node array. *)
Inductive btree :=
  | BLeaf (node obj : nat)
  | BNode (node : nat) (l r : btree).
Definition root (t : btree) : nat := match t with BLeaf k _ => k | BNode k _ _ => k end.
Fixpoint objects (t : btree) : list nat := match t with BLeaf _ o => [o] | BNode _ l r => objects l ++ objects r end.
Fixpoint node_ids (t : btree) : list nat := match t with BLeaf k _ => [k] | BNode k l r => k :: node_ids l ++ node_ids r end.

(** The array of nodes stores the tree: each node's record has its children (a leaf: its object and no second child) and its parent. *)
Fixpoint represents (nodes : list bnode) (par : option nat) (t : btree) : Prop :=
  match t with
  | BLeaf k o => nth_error nodes k = Some (mkB par (Some o) None)
  | BNode k l r => nth_error nodes k = Some (mkB par (Some (root l)) (Some (root r))) /\
                   represents nodes (Some k) l /\ represents nodes (Some k) r
  end.

Definition sorted_codes (mc : list N) : Prop := forall i j, i <= j < length mc -> (nth i mc 0 <= nth j mc 0)%N.
Definition words32 (mc : list N) : Prop := forall c, In c mc -> (c < 2 ^ 32)%N.
