(** C63: master-slave constraints give the constrained problem (ls_masterslave.cpp). *)
From Coq Require Import List Arith Bool ZArith Lia Ring.
Import ListNotations.
From Verif Require Import Imp Alg JagModel JagSpec JagProofs JagProofs2 SpModel SpSpec SpProps MsModel MsSpec MsProofs1 MsProofs2 MsProofs3 MsProofs4 MsProofs5.

(** The extended pattern: the rows of the result are duplicate free and hold exactly the extended neighbourhood. *)
Theorem C63_pattern : forall n ms psup_ind psup rows,
  ms_ok (length rows) n ms -> jagged psup_ind psup rows -> (forall p j, In j (nth p rows []) -> j < length rows) ->
  exists ind arr rows', JArray_AddMasterSlavePattern ms n psup_ind psup = Some (ind, arr) /\ jagged ind arr rows' /\ length rows' = length rows /\
    forall p, p < length rows -> NoDup (nth p rows' []) /\ forall j, In j (nth p rows' []) <-> j <> p /\ reach n ms rows p j.
Proof. intros n ms psup_ind psup rows MS HJ HR. exact (Pattern_ok n (length rows) ms MS psup_ind psup rows HJ eq_refl HR). Qed.

(** The matrix: on the free degrees of freedom it is the matrix restricted to vectors in which slaves equal their masters; slave
    rows and columns are those of the identity. *)
Theorem C63_matrix : forall (K : cring) (A : matsp K) ms, wf A -> square A -> 0 < nrowblk A -> 0 < nrowdim A ->
  ms_ok (nrowblk A) (nrowdim A) ms -> ms_closed A ms ->
  exists B, SetMasterSlave A ms = Some B /\ same_pattern A B /\ wf B /\
    forall i j, i < nrowblk A * nrowdim A -> j < nrowblk A * nrowdim A ->
      ent B i j = (if is_slave ms i || is_slave ms j then (if i =? j then 1 else 0) else condensed A ms i j)%K.
Proof.
  intros K A ms WF SQ H1 H2 MS CL. apply wp_ex. apply SetMasterSlave_ok; auto.
  destruct WF as (_ & _ & _ & _ & _ & E & _). rewrite E. destruct SQ as (_ & E2). rewrite <- E2. nia.
Qed.

(** The load. *)
Theorem C63_load : forall (K : cring) nblk n ms (b : list K), ms_ok nblk n ms -> length b = nblk * n ->
  exists b', setRHS_MasterSlave b (nblk * n) ms = Some b' /\ length b' = length b /\
    forall i, i < nblk * n -> nth i b' 0%K = (if is_slave ms i then 0 else condensed_rhs (nblk * n) (fun k => nth k b 0) ms i)%K.
Proof.
  intros K nblk n ms b MS L. apply wp_ex. exact (setRHS_ok K (mkM nblk nblk n n [] [] [] []) ms MS b L).
Qed.

(** Solving the condensed system and giving every slave the value of its master solves the constrained problem, and every solution of
    the constrained problem arises in this way. *)
Theorem C63_solution : forall (K : cring) (A B : matsp K) ms (b b' : list K), wf A -> square A -> 0 < nrowblk A -> 0 < nrowdim A ->
  ms_ok (nrowblk A) (nrowdim A) ms -> ms_closed A ms -> length b = nrowblk A * nrowdim A ->
  SetMasterSlave A ms = Some B -> setRHS_MasterSlave b (nrowblk A * nrowdim A) ms = Some b' ->
  (forall x : nat -> K,
     (forall i, i < nrowblk A * nrowdim A -> sumn (nrowblk A * nrowdim A) (fun j => ent B i j * x j)%K = nth i b' 0%K) ->
     (forall i, i < nrowblk A * nrowdim A -> is_slave ms i = true -> x i = 0%K) /\
     constrained_solution A ms (fun k => nth k b 0%K) (fun k => x (carrier ms k))) /\
  (forall u : nat -> K, constrained_solution A ms (fun k => nth k b 0%K) u ->
     forall i, i < nrowblk A * nrowdim A ->
       sumn (nrowblk A * nrowdim A) (fun j => ent B i j * (if is_slave ms j then 0 else u j))%K = nth i b' 0%K).
Proof.
  intros K A B ms b b' WF SQ H1 H2 MS CL L EB Eb.
  destruct (C63_matrix K A ms WF SQ H1 H2 MS CL) as (B1 & EB1 & _ & _ & HB). rewrite EB in EB1. injection EB1 as <-.
  destruct (C63_load K _ _ ms b MS L) as (b1 & Eb1 & _ & Hb). rewrite Eb in Eb1. injection Eb1 as <-.
  split.
  - intros x Hx. apply (solution_ok K A B ms MS HB (fun k => nth k b 0%K) (fun k => nth k b' 0%K) x Hb Hx).
  - intros u Hu i Hi. apply (solution_complete K A B ms MS HB (fun k => nth k b 0%K) (fun k => nth k b' 0%K) u Hb Hu i Hi).
Qed.

(** The whole pipeline: pattern of the mesh, extended pattern, matrix on it with any numbers, SetMasterSlave. *)
Theorem C63_pipeline : forall (K : cring) n ms psup_ind psup rows,
  0 < n -> 0 < length rows -> ms_ok (length rows) n ms -> jagged psup_ind psup rows ->
  (forall p j, In j (nth p rows []) -> j < length rows) -> graph_ok n ms rows ->
  exists ind arr (A0 : matsp K), JArray_AddMasterSlavePattern ms n psup_ind psup = Some (ind, arr) /\
    SetPattern (Initialize (length rows) n true) ind arr = Some A0 /\ wf A0 /\
    forall A, same_pattern A0 A -> wf A ->
      exists B, SetMasterSlave A ms = Some B /\ same_pattern A B /\ wf B /\
        forall i j, i < length rows * n -> j < length rows * n ->
          ent B i j = (if is_slave ms i || is_slave ms j then (if i =? j then 1 else 0) else condensed A ms i j)%K.
Proof.
  intros K n ms psup_ind psup rows Hn Hl MS HJ HR HG.
  destruct (C63_pattern n ms psup_ind psup rows MS HJ HR) as (ind & arr & rows' & E & HJ' & HL' & Hrow).
  assert (Hr' : forall p j, In j (nth p rows' []) -> j < length rows).
  { intros p j Hj. destruct (lt_dec p (length rows)) as [Hp|Hp]; [|rewrite nth_overflow in Hj by lia; destruct Hj].
    apply (Hrow p Hp) in Hj. destruct Hj as (_ & [X|[X|[(s & _ & X)|(t & X1 & X2)]]]); eauto.
    - destruct X as (a & m & Ha & X & _). apply (node_facts n (length rows) ms MS j a m Ha X).
    - destruct X2 as (a & m & Ha & X & <-). apply (node_facts n (length rows) ms MS t a m Ha X). }
  destruct HJ' as (Ea & Ei). pose proof Ei as Ei0. fold (offs rows') in Ei. change (ind = offsets rows') in Ei.
  destruct (C53_SetPattern K (length rows) n ind arr) as (A0 & E0 & W0 & S0 & N0 & D0 & C0 & R0' & _).
  - rewrite Ei, offsets_length. lia.
  - intros I HI. rewrite Ei, !offsets_nth by lia. apply offs_mono. lia.
  - rewrite Ei, offsets_nth by lia. rewrite Ea. unfold offs. rewrite <- HL', firstn_all. auto.
  - intros c Hc. rewrite Ea in *. assert (Hin : In (nth c (concat rows') 0) (concat rows')) by (apply nth_In; auto).
    apply in_concat in Hin. destruct Hin as (l & Hl' & Hin). apply (In_nth _ _ []) in Hl'. destruct Hl' as (p & Hp & <-). eapply Hr'; eauto.
  - exists ind, arr, A0. split; auto. split; auto. split; auto. intros A SP WF.
    destruct SP as (P1 & P2 & P3 & P4 & P5 & P6).
    assert (HN : nrowblk A = length rows) by congruence. assert (HD : nrowdim A = n) by congruence.
    assert (SQ : square A) by (destruct S0; split; congruence).
    assert (CL : ms_closed A ms).
    { apply (closed_ok K A ms rows rows').
      - rewrite HN, HD. auto.
      - rewrite HD. auto.
      - rewrite P5, P6, C0, R0'. split; auto.
      - congruence.
      - intros p Hp j. rewrite HD. apply Hrow. lia. }
    rewrite <- HN, <- HD. apply C63_matrix; auto; try lia. rewrite HN, HD. auto.
Qed.

(** A rigid cluster: all slaves follow one node, which is not a slave, and every slave node touches that node or another slave. *)
Theorem C63_rigid_cluster : forall n ms rows i0,
  (forall s i, node_slave n ms s i -> i = i0) -> (forall k, ~ node_slave n ms i0 k) ->
  (forall s, node_slave n ms s i0 -> In i0 (nth s rows []) \/ exists t, In t (nth s rows []) /\ node_slave n ms t i0) ->
  graph_ok n ms rows.
Proof. exact cluster_ok. Qed.

(** --- outside these conditions the pattern does not suffice --- *)
(** A slave none of whose neighbours follows the same master: the extended pattern has no block for the master in the row of the slave. *)
Theorem C63_lone_slave_refuted : exists n ms psup_ind psup rows,
  ms_ok (length rows) n ms /\ jagged psup_ind psup rows /\ (forall p j, In j (nth p rows []) -> j < length rows) /\
  exists ind arr (A0 : matsp Zcr), JArray_AddMasterSlavePattern ms n psup_ind psup = Some (ind, arr) /\
    SetPattern (Initialize (length rows) n true) ind arr = Some A0 /\ wf A0 /\ SetMasterSlave A0 ms = None.
Proof.
  exists 1, [None; None; None; Some 0], [0; 1; 3; 5; 6], [1; 0; 2; 1; 3; 2], [[1]; [0; 2]; [1; 3]; [2]].
  split. { split; [reflexivity|]. intros k m E. do 4 (destruct k as [|k]; [try discriminate; injection E as <-; repeat split; cbn; auto; lia|]). destruct k; discriminate. }
  split; [split; reflexivity|]. split.
  { intros p j Hj. do 4 (destruct p as [|p]; [cbn in *; lia|]). destruct p; cbn in Hj; tauto. }
  do 3 eexists. split; [vm_compute; reflexivity|]. split; [vm_compute; reflexivity|]. split; [|vm_compute; reflexivity].
  repeat split; auto.
  - intros I HI. cbn in HI. do 4 (destruct I as [|I]; [vm_compute; lia|]). lia.
  - intros c Hc. cbn in Hc. do 9 (destruct c as [|c]; [vm_compute; lia|]). lia.
Qed.

(** Two neighbouring slaves with masters that are apart. *)
Theorem C63_adjacent_slaves_refuted : exists n ms psup_ind psup rows,
  ms_ok (length rows) n ms /\ jagged psup_ind psup rows /\ (forall p j, In j (nth p rows []) -> j < length rows) /\
  (forall s i, node_slave n ms s i -> In i (nth s rows [])) /\
  exists ind arr (A0 : matsp Zcr), JArray_AddMasterSlavePattern ms n psup_ind psup = Some (ind, arr) /\
    SetPattern (Initialize (length rows) n true) ind arr = Some A0 /\ wf A0 /\ SetMasterSlave A0 ms = None.
Proof.
  exists 1, [None; Some 0; Some 3; None], [0; 1; 3; 5; 6], [1; 0; 2; 1; 3; 2], [[1]; [0; 2]; [1; 3]; [2]].
  split. { split; [reflexivity|]. intros k m E. do 4 (destruct k as [|k]; [try discriminate; injection E as <-; repeat split; cbn; auto; lia|]). destruct k; discriminate. }
  split; [split; reflexivity|]. split.
  { intros p j Hj. do 4 (destruct p as [|p]; [cbn in *; lia|]). destruct p; cbn in Hj; tauto. }
  split.
  { intros s i (a & m & Ha & E & <-). assert (a = 0) by lia. subst. rewrite Nat.add_0_r, Nat.mul_1_r in E.
    do 4 (destruct s as [|s]; [try discriminate; injection E as <-; cbn; auto|]). destruct s; discriminate. }
  do 3 eexists. split; [vm_compute; reflexivity|]. split; [vm_compute; reflexivity|]. split; [|vm_compute; reflexivity].
  repeat split; auto.
  - intros I HI. cbn in HI. do 4 (destruct I as [|I]; [vm_compute; lia|]). lia.
  - intros c Hc. cbn in Hc. do 13 (destruct c as [|c]; [vm_compute; lia|]). lia.
Qed.

(** --- a case that meets the hypotheses: the end of a chain of springs made rigid --- *)
Definition ex_ms := [None; None; None; Some 2; Some 2].
Definition ex_rows := [[1]; [0; 2]; [1; 3]; [2; 4]; [3]].
Definition ex_psup_ind := [0; 1; 3; 5; 7; 8].
Definition ex_psup := [1; 0; 2; 1; 3; 2; 4; 3].
Example ex_ok : ms_ok 5 1 ex_ms.
Proof. split; [reflexivity|]. intros k m E. do 5 (destruct k as [|k]; [try discriminate; injection E as <-; repeat split; cbn; auto|]). destruct k; discriminate. Qed.
Example ex_graph : graph_ok 1 ex_ms ex_rows.
Proof.
  apply (C63_rigid_cluster 1 ex_ms ex_rows 2).
  - intros s i (a & m & Ha & E & <-). assert (a = 0) by lia. subst. rewrite Nat.add_0_r, Nat.mul_1_r in E.
    do 5 (destruct s as [|s]; [try discriminate; injection E as <-; reflexivity|]). destruct s; discriminate.
  - intros k (a & m & Ha & E & _). assert (a = 0) by lia. subst. discriminate.
  - intros s (a & m & Ha & E & _). assert (a = 0) by lia. subst. rewrite Nat.add_0_r, Nat.mul_1_r in E.
    do 5 (destruct s as [|s]; [try discriminate; cbn; auto|]).
    + right. exists 3. split; auto. exists 0, 2. repeat split; auto.
    + destruct s; discriminate.
Qed.
Example ex_pat : jagged ex_psup_ind ex_psup ex_rows.
Proof. split; reflexivity. Qed.
Example ex_new_pattern : JArray_AddMasterSlavePattern ex_ms 1 ex_psup_ind ex_psup = Some ([0; 1; 3; 6; 8; 10], [1; 0; 2; 1; 3; 4; 2; 4; 3; 2]).
Proof. reflexivity. Qed.
(** springs between consecutive nodes and one to the ground *)
Definition ex_A : matsp Zcr := @mkM Zcr 5 5 1 1 [0; 1; 3; 6; 8; 10] [1; 0; 2; 1; 3; 4; 2; 4; 3; 2] [-1; -1; -1; -1; -1; 0; -1; -1; -1; 0]%Z [2; 2; 2; 2; 1]%Z.
Example ex_run : exists B, SetMasterSlave ex_A ex_ms = Some B /\
  map (fun i => map (fun j => ent B i j : Z) (seq 0 5)) (seq 0 5) =
  [[2; -1; 0; 0; 0]; [-1; 2; -1; 0; 0]; [0; -1; 1; 0; 0]; [0; 0; 0; 1; 0]; [0; 0; 0; 0; 1]]%Z.
Proof. eexists. split; vm_compute; reflexivity. Qed.
Example ex_load : setRHS_MasterSlave (K := Zcr) ([0; 0; 5; 6; 7]%Z : list Zcr) 5 ex_ms = Some ([0; 0; 18; 0; 0]%Z : list Zcr).
Proof. reflexivity. Qed.

Print Assumptions C63_pattern.
Print Assumptions C63_matrix.
Print Assumptions C63_load.
Print Assumptions C63_solution.
Print Assumptions C63_pipeline.
Print Assumptions C63_rigid_cluster.
Print Assumptions C63_lone_slave_refuted.
Print Assumptions C63_adjacent_slaves_refuted.
