(** Degrees of freedom that copy others, without reference to the code. *)
From Coq Require Import List Arith.
Import ListNotations.
From Verif Require Import Imp Alg SpModel SpSpec.

(** Degree of freedom number [k] carries the value of number [carrier ms k]: its master, or itself. *)
Definition carrier (ms : list (option nat)) (k : nat) : nat := match nth k ms None with Some m => m | None => k end.
Definition is_slave (ms : list (option nat)) (k : nat) : bool := match nth k ms None with Some _ => true | None => false end.

(** Flags for [nblk] nodes of [n] components: a master is the same component of some node and is not itself a slave. *)
Definition ms_ok (nblk n : nat) (ms : list (option nat)) : Prop :=
  length ms = nblk * n /\
  forall k m, nth k ms None = Some m -> m < nblk * n /\ m mod n = k mod n /\ nth m ms None = None.

(** Entry (i, j) of the dense matrix, numbered by degrees of freedom. *)
Definition ent {K : cring} (A : matsp K) (i j : nat) : K :=
  dense A (i / nrowdim A) (i mod nrowdim A) (j / nrowdim A) (j mod nrowdim A).

(** The matrix restricted to vectors in which every slave equals its master: entry (i, j) sums everything carried by i and j. *)
Definition condensed {K : cring} (A : matsp K) (ms : list (option nat)) (i j : nat) : K :=
  let N := nrowblk A * nrowdim A in
  sumn N (fun k => sumn N (fun l => if Nat.eqb (carrier ms k) i then (if Nat.eqb (carrier ms l) j then ent A k l else rO) else rO)).
(** The loads carried by i. *)
Definition condensed_rhs {K : cring} (N : nat) (b : nat -> K) (ms : list (option nat)) (i : nat) : K :=
  sumn N (fun k => if Nat.eqb (carrier ms k) i then b k else rO).

(** The stored blocks suffice: for a slave in node s whose master is in node i, the row of i has a block for s and for every
    other block of the row of s, and every row with a block for s (or the row of s itself) has one for i. *)
Definition ms_closed {K : cring} (A : matsp K) (ms : list (option nat)) : Prop :=
  forall k m, nth k ms None = Some m -> let s := k / nrowdim A in let i := m / nrowdim A in
    ~ in_pattern A s s /\ in_pattern A i s /\ in_pattern A s i /\
    (forall j, in_pattern A s j -> j = i \/ in_pattern A i j) /\
    (forall r, r < nrowblk A -> in_pattern A r s -> r = i \/ in_pattern A r i).

(** Node [j] has a component whose master is in node [i]. *)
Definition node_slave (n : nat) (ms : list (option nat)) (j i : nat) : Prop :=
  exists a m, a < n /\ nth (j * n + a) ms None = Some m /\ m / n = i.

(** Vectors in which every slave equals its master. *)
Definition consistent {K : cring} (N : nat) (ms : list (option nat)) (v : nat -> K) : Prop := forall k, k < N -> v k = v (carrier ms k).
(** u is consistent and the residual A u - b does no work on any consistent vector. *)
Definition constrained_solution {K : cring} (A : matsp K) (ms : list (option nat)) (b u : nat -> K) : Prop :=
  let N := nrowblk A * nrowdim A in
  consistent N ms u /\
  forall v, consistent N ms v ->
    sumn N (fun k => rmul (v k) (sumn N (fun l => rmul (ent A k l) (u l)))) = sumn N (fun k => rmul (v k) (b k)).

(** Node [j] is in the extended neighbourhood of node [i]. *)
Definition reach (n : nat) (ms : list (option nat)) (rows : list (list nat)) (i j : nat) : Prop :=
  In j (nth i rows []) \/ node_slave n ms j i \/ (exists s, node_slave n ms s i /\ In j (nth s rows [])) \/
  (exists t, In t (nth i rows []) /\ node_slave n ms t j).
(** For every slave node s of a master node i: s has the master or another slave of it as neighbour; the masters of s and of its
    neighbours are i or in the extended neighbourhood of i; i is not a slave. *)
Definition graph_ok (n : nat) (ms : list (option nat)) (rows : list (list nat)) : Prop :=
  forall s i, node_slave n ms s i ->
    (In i (nth s rows []) \/ exists t, In t (nth s rows []) /\ node_slave n ms t i) /\
    (forall t k, t = s \/ In t (nth s rows []) -> node_slave n ms t k -> k = i \/ reach n ms rows i k) /\
    (forall k, ~ node_slave n ms i k).
