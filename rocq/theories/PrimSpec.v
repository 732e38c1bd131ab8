(** Specification vocabulary for generated meshes. *)
From Coq Require Import List Arith Bool Reals.
Import ListNotations.

(** The directed edges of a list of triangles a, b, c: a to b, b to c and c to a. *)
Fixpoint dedges (tri : list nat) : list (nat * nat) :=
  match tri with
  | a :: b :: c :: rest => (a, b) :: (b, c) :: (c, a) :: dedges rest
  | _ => []
  end.

(** The triangles of a list. *)
Fixpoint tris (tri : list nat) : list (nat * nat * nat) :=
  match tri with
  | a :: b :: c :: rest => (a, b, c) :: tris rest
  | _ => []
  end.

(** An oriented surface on the vertices 0, ..., np - 1: whole triangles with different corners, every vertex used, no edge used twice in the same direction,
    and every edge used once in the other direction too, except the edges on the border. *)
Definition oriented_surface (np : nat) (tri : list nat) (border : nat -> nat -> Prop) : Prop :=
  (exists nt, length tri = 3 * nt) /\ (forall i, In i tri <-> i < np) /\ NoDup (dedges tri) /\
  forall a b, In (a, b) (dedges tri) -> a <> b /\ (border a b \/ In (b, a) (dedges tri)) /\ (border a b -> ~ In (b, a) (dedges tri)).
Definition closed_surface (np : nat) (tri : list nat) : Prop := oriented_surface np tri (fun _ _ => False).

(** The Euler characteristic V - E + F of a closed surface of triangles, E = 3 F / 2, is [chi]. *)
Definition euler (np : nat) (tri : list nat) (chi : nat) : Prop := exists nt, length tri = 3 * nt /\ 2 * np = nt + 2 * chi.

(** The point with the number [i] of a coordinate array. *)
Definition P3 (xyz : list R) (i : nat) : R * R * R := (nth (i * 3) xyz 0%R, nth (i * 3 + 1) xyz 0%R, nth (i * 3 + 2) xyz 0%R).
Definition X (p : R * R * R) : R := fst (fst p).
Definition Y (p : R * R * R) : R := snd (fst p).
Definition Z (p : R * R * R) : R := snd p.
Local Open Scope R_scope.
Definition norm2 (p : R * R * R) : R := X p * X p + Y p * Y p + Z p * Z p.
Definition det3 (p q r : R * R * R) : R :=
  X p * (Y q * Z r - Z q * Y r) + Y p * (Z q * X r - X q * Z r) + Z p * (X q * Y r - Y q * X r).
(** Seen from outside, the corners of every triangle run counterclockwise around the origin: the origin lies strictly behind its plane. *)
Definition faces_outwards (xyz : list R) (tri : list nat) : Prop :=
  forall a b c, In (a, b, c) (tris tri) -> 0 < det3 (P3 xyz a) (P3 xyz b) (P3 xyz c).
(** Seen from above, against the y axis, the corners of every triangle run counterclockwise: its normal points along the y axis. *)
Definition faces_up (xyz : list R) (tri : list nat) : Prop :=
  forall a b c, In (a, b, c) (tris tri) ->
  0 < (Z (P3 xyz b) - Z (P3 xyz a)) * (X (P3 xyz c) - X (P3 xyz a)) - (X (P3 xyz b) - X (P3 xyz a)) * (Z (P3 xyz c) - Z (P3 xyz a)).

(** The triangle a, b, c runs counterclockwise seen from where [dir] points to. *)
Definition faces (a b c dir : R * R * R) : Prop :=
  0 < det3 (X b - X a, Y b - Y a, Z b - Z a) (X c - X a, Y c - Y a, Z c - Z a) dir.
