(** Independent vocabulary for jagged arrays and uniform meshes. *)
From Coq Require Import List Arith Sorted Permutation.
Import ListNotations.

(** [(ind, arr)] stores the list of rows [rows]: the array is the concatenation of the rows and the k-th index
    is the total length of the first k rows. *)
Definition jagged {A} (ind : list nat) (arr : list A) (rows : list (list A)) : Prop :=
  arr = concat rows /\
  ind = map (fun k => length (concat (firstn k rows))) (seq 0 (S (length rows))).

(** Vertex indices of element [e] in a uniform mesh with [nno] vertices per element. *)
Definition elem_verts (elem : list nat) (nno e : nat) : list nat :=
  firstn nno (skipn (e * nno) elem).

(** The index array has [nel*nno] entries, all below [nv]. *)
Definition mesh_ok (elem : list nat) (nel nno nv : nat) : Prop :=
  length elem = nel * nno /\ Forall (fun v => v < nv) elem.

(** Two vertices share an element. *)
Definition share_elem (elem : list nat) (nel nno p q : nat) : Prop :=
  exists e, e < nel /\ In p (elem_verts elem nno e) /\ In q (elem_verts elem nno e).
