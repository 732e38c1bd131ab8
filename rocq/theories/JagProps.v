(** Properties C01-C06: jagged arrays and neighbourhood tables. *)
From Coq Require Import List Arith Lia Permutation Sorted.
Import ListNotations.
From Verif Require Import Imp JagModel JagSpec JagProofs4 JagLemmas.

(** C01: row p lists exactly the elements using p, ascending, once per use. *)
Theorem C01_ElSuP_exact : forall elsup_0 elem nel nno nv, mesh_ok elem nel nno nv ->
  exists ind arr, JArray_ElSuP_MeshElem elsup_0 elem nel nno nv = Some (ind, arr) /\
    jagged ind arr (map (fun p =>
       flat_map (fun e => repeat e (count_occ Nat.eq_dec (elem_verts elem nno e) p)) (seq 0 nel)) (seq 0 nv)).
Proof. exact C01_l. Qed.
Print Assumptions C01_ElSuP_exact.

Example C01_hyp : mesh_ok [0;1;2; 2;1;3] 2 3 5.
Proof. split; [reflexivity|]. repeat constructor. Qed.
Example C01_run : JArray_ElSuP_MeshElem [7] [0;1;2; 2;1;3] 2 3 5 = Some ([0;1;3;5;6;6], [0;0;1;0;1;1]).
Proof. reflexivity. Qed.

(** C02: row p lists exactly the vertices other than p sharing an element with p, once each; symmetric. *)
Theorem C02_PSuP_exact : forall psup_0 elem nel nno nv, mesh_ok elem nel nno nv ->
  exists ind arr rows, JArray_PSuP_MeshElem psup_0 elem nel nno nv = Some (ind, arr) /\
    jagged ind arr rows /\ length rows = nv /\
    (forall p, p < nv -> NoDup (nth p rows []) /\
       forall q, In q (nth p rows []) <-> q <> p /\ share_elem elem nel nno p q) /\
    (forall p q, p < nv -> q < nv -> In q (nth p rows []) -> In p (nth q rows [])).
Proof. exact C02_l. Qed.
Print Assumptions C02_PSuP_exact.

Example C02_run : JArray_PSuP_MeshElem [] [0;1;2; 2;1;3] 2 3 5 = Some ([0;2;5;8;10;10], [1;2;0;2;3;0;1;3;2;1]).
Proof. reflexivity. Qed.

(** C03: every row is replaced by its ascending permutation; the index array still describes the result. *)
Theorem C03_Sort_rows : forall ind arr rows, jagged ind arr rows ->
  exists arr' rows', JArray_Sort ind arr = Some arr' /\ jagged ind arr' rows' /\
    Forall2 (fun r r' => Permutation r r' /\ Sorted le r') rows rows'.
Proof. exact Sort_correct. Qed.
Print Assumptions C03_Sort_rows.

Example C03_hyp : jagged [0;3;3;5] [5;1;4;9;2] [[5;1;4];[];[9;2]].
Proof. split; reflexivity. Qed.
Example C03_run : JArray_Sort [0;3;3;5] [5;1;4;9;2] = Some [1;4;5;2;9].
Proof. reflexivity. Qed.

(** C04: the row number is appended exactly when missing; a second application changes nothing. *)
Theorem C04_AddDiagonal : forall psup1_0 psup_ind psup rows,
  jagged psup_ind psup rows -> Forall (Forall (fun x => x < length rows)) rows -> Forall (@NoDup nat) rows ->
  exists ind arr rows', JArray_AddDiagonal psup1_0 psup_ind psup = Some (ind, arr) /\
    jagged ind arr rows' /\ length rows' = length rows /\
    (forall p, p < length rows ->
       (In p (nth p rows []) -> nth p rows' [] = nth p rows []) /\
       (~ In p (nth p rows []) -> nth p rows' [] = nth p rows [] ++ [p])) /\
    (forall psup2_0, JArray_AddDiagonal psup2_0 ind arr = Some (ind, arr)).
Proof. exact C04_l. Qed.
Print Assumptions C04_AddDiagonal.

Example C04_hyp : jagged [0;1;3;3] [1;1;0] [[1];[1;0];[]] /\
  Forall (Forall (fun x => x < 3)) [[1];[1;0];[]] /\ Forall (@NoDup nat) [[1];[1;0];[]].
Proof. repeat split; repeat constructor; simpl; intuition lia. Qed.
Example C04_run : JArray_AddDiagonal [] [0;1;3;3] [1;1;0] = Some ([0;2;4;5], [1;0;1;0;2]).
Proof. reflexivity. Qed.

(** C05: row p of the result is exactly the two-step neighbourhood of p without p. *)
Theorem C05_Extend : forall psup1_0 psup_ind psup rows,
  jagged psup_ind psup rows -> Forall (Forall (fun x => x < length rows)) rows ->
  exists ind arr rows', JArray_Extend psup1_0 psup_ind psup = Some (ind, arr) /\
    jagged ind arr rows' /\ length rows' = length rows /\
    forall p, p < length rows -> NoDup (nth p rows' []) /\
      forall k, In k (nth p rows' []) <-> k <> p /\ exists j, In j (nth p rows []) /\ In k (nth j rows []).
Proof. exact C05_l. Qed.
Print Assumptions C05_Extend.

Example C05_run : JArray_Extend [] [0;1;3;5;6] [1;0;2;1;3;2] = Some ([0;1;2;3;4], [2;3;0;1]).
Proof. reflexivity. Qed.

(** C06: with an empty output index vector, row p lists exactly the neighbours above p, in input order. *)
Theorem C06_EdgeUnidir : forall edge0 psup_ind psup rows, rows <> [] -> jagged psup_ind psup rows ->
  exists ind arr, JArrayEdgeUnidir_PointSurPoint [] edge0 psup_ind psup = Some (ind, arr) /\
    jagged ind arr (map (fun p => filter (fun q => p <? q) (nth p rows [])) (seq 0 (length rows))).
Proof. exact C06_l. Qed.
Print Assumptions C06_EdgeUnidir.

Example C06_run : JArrayEdgeUnidir_PointSurPoint [] [] [0;2;4;6] [1;2;0;2;0;1] = Some ([0;2;3;3], [1;2;2]).
Proof. reflexivity. Qed.

(** C06, negative part: with a non-empty output index vector left over from an earlier call
    (here: the correct output of the very same call), the result is wrong. *)
Theorem C06_EdgeUnidir_reuse_refuted : exists ind0 psup_ind psup rows ind arr,
  rows <> [] /\ jagged psup_ind psup rows /\
  JArrayEdgeUnidir_PointSurPoint [] [] psup_ind psup = Some (ind0, [1]) /\
  JArrayEdgeUnidir_PointSurPoint ind0 [1] psup_ind psup = Some (ind, arr) /\ (ind, arr) <> (ind0, [1]).
Proof.
  exists [0;1;1], [0;1;2], [1;0], [[1];[0]], [0;1;2], [1;0;0].
  repeat split; try reflexivity; discriminate.
Qed.
Print Assumptions C06_EdgeUnidir_reuse_refuted.
