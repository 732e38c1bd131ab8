(** Specification of the CAD topology: faces bounded by vertex cycles, with isolated vertices. *)
From Coq Require Import List Arith Bool.
Import ListNotations.
From Verif Require Import CadModel.

Inductive shape := cycle (vs : list nat) | dot (v : nat).
(** The drawing: number of vertices, for each face its boundary cycles and isolated vertices. *)
Record drawing := Drawing { d_nv : nat; d_faces : list (list shape) }.
Inductive op := OClear | OPolygon (np : nat) | OVtxFace (i : nat) | OVtxEdge (ie : nat).

Fixpoint insert_after (a n : nat) (vs : list nat) : list nat := match vs with [] => [] | v :: vs => if v =? a then v :: n :: vs else v :: insert_after a n vs end.
Definition shape_split (a n : nat) (s : shape) : shape := match s with cycle vs => cycle (insert_after a n vs) | dot v => dot v end.
Fixpoint append_at {T} (F : list (list T)) (i : nat) (x : T) : list (list T) :=
  match F, i with [], _ => [] | f :: F, 0 => (f ++ [x]) :: F | f :: F, S i => f :: append_at F i x end.
(** What an operation does to the drawing.  [ends ie] are the end points of edge ie before the operation. *)
Definition step (ends : nat -> option (nat * nat)) (o : op) (D : drawing) : drawing :=
  match o with
  | OClear => Drawing 0 []
  | OPolygon np => Drawing (d_nv D + np) (d_faces D ++ [[cycle (seq (d_nv D) np)]])
  | OVtxFace i => if i <? length (d_faces D) then Drawing (d_nv D + 1) (append_at (d_faces D) i (dot (d_nv D))) else D
  | OVtxEdge ie => match ends ie with None => D | Some (a, b) => Drawing (d_nv D + 1) (map (map (shape_split a (d_nv D))) (d_faces D)) end
  end.

(** Consecutive pairs around a cycle. *)
Definition rotate (vs : list nat) : list nat := match vs with [] => [] | v :: vs => vs ++ [v] end.
Definition around (vs : list nat) : list (nat * nat) := combine vs (rotate vs).
Definition ends_of (es : list edge) (ie : nat) : option (nat * nat) := match nth_error es ie with Some e => Some (iv0 e, iv1 e) | None => None end.
(** A stored loop describes a shape: all edges forward, their end points go around the cycle. *)
Definition describes (es : list edge) (l : loop) (s : shape) : Prop :=
  match s with
  | dot v => l_iv l = Some v /\ aIE l = []
  | cycle vs => l_iv l = None /\ map (fun p => ends_of es (fst p)) (aIE l) = map Some (around vs) /\ Forall (fun p => snd p = true) (aIE l)
  end.
Definition shape_vertices (s : shape) : list nat := match s with cycle vs => vs | dot v => [v] end.
(** The stored topology represents the drawing, each edge is on exactly one loop, each loop in exactly one face, each vertex in exactly one shape. *)
Record represents (t : topo) (D : drawing) : Prop := {
  rp_nv : num_vertex t = d_nv D;
  rp_faces : Forall2 (Forall2 (fun il s => exists l, nth_error (loops t) il = Some l /\ describes (edges t) l s)) (faces t) (d_faces D);
  rp_edge_once : forall ie, count_occ Nat.eq_dec (concat (map (fun l => map fst (aIE l)) (loops t))) ie = if ie <? length (edges t) then 1 else 0;
  rp_loop_once : forall il, count_occ Nat.eq_dec (concat (faces t)) il = if il <? length (loops t) then 1 else 0;
  rp_edge_range : forall e, In e (edges t) -> iv0 e < d_nv D /\ iv1 e < d_nv D;
  rp_start_once : forall v, count_occ Nat.eq_dec (map iv0 (edges t)) v <= 1;
  rp_end_once : forall v, count_occ Nat.eq_dec (map iv1 (edges t)) v <= 1;
  rp_vertex_once : forall v, count_occ Nat.eq_dec (concat (map shape_vertices (concat (d_faces D)))) v = if v <? d_nv D then 1 else 0 }.

(** Running an operation; the returned flag of the two insertions is dropped here. *)
Definition exec (o : op) (t : topo) : option topo :=
  match o with
  | OClear => Some (Clear t)
  | OPolygon np => AddPolygon t np
  | OVtxFace i => match AddVtx_Face t i with Some (t, _) => Some t | None => None end
  | OVtxEdge ie => match AddVtx_Edge t ie with Some (t, _) => Some t | None => None end
  end.
(** The topologies reached by operations of kind [P] from the empty one, with the drawing that the same operations give. *)
Inductive reached (P : op -> Prop) : topo -> drawing -> Prop :=
  | re_0 : reached P topo0 (Drawing 0 [])
  | re_S : forall t D o t', reached P t D -> P o -> exec o t = Some t' -> reached P t' (step (ends_of (edges t)) o D).
Definition shape_edges (s : shape) : list (nat * nat) := match s with cycle vs => around vs | dot _ => [] end.
