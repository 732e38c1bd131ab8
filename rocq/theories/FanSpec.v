(** Vocabulary for looking around a point and for the holes of a mesh. *)
From Coq Require Import List Arith Relations.
Import ListNotations.
From Verif Require Import Imp DtriModel DtriSpec CollSpec.

(** The corners met when turning counter-clockwise from a corner until the boundary or until one is back, each once, in order. *)
Definition fan_list (m : list dtri) (c : nat * nat) (l : list (nat * nat)) : Prop :=
  hd_error l = Some c /\ NoDup l /\ (forall n, S n < length l -> turn m (nth n l (0, 0)) (nth (S n) l (0, 0))) /\
  (forall x, In x l <-> around m c x).

(** The corner stored at a point. *)
Definition stored (po : list dpnt) (p t i : nat) : Prop := p < length po /\ nth p po (mkP None 0) = mkP (Some t) i.

(** A boundary edge from p to q: an edge with no triangle behind it, in the direction of its triangle. *)
Definition bedge (m : list dtri) (p q : nat) : Prop :=
  exists t i, t < length m /\ i < 3 /\ L m t i = None /\ V m t (nx i) = p /\ V m t (pv i) = q.
(** A list of closed loops: no point is met twice, and the steps along the loops are exactly the given steps. *)
Definition loops (E : nat -> nat -> Prop) (hs : list (list nat)) : Prop :=
  NoDup (concat hs) /\ (forall h, In h hs -> h <> []) /\
  forall p q, E p q <-> exists h n, In h hs /\ n < length h /\ nth n h 0 = p /\ nth ((n + 1) mod length h) h 0 = q.
