(** Properties C29 and C30: Morton codes and the bounding-volume tree built from them. *)
From Coq Require Import List Arith Bool ZArith NArith QArith Lia Permutation.
Import ListNotations.
From Verif Require Import Imp MortModel MortSpec MortProofs1 MortProofs2 MortProofs3.
Close Scope Q_scope. Open Scope nat_scope.

(** Bit k of a ten-bit input becomes bit 3k of the output, and the output has no other bit. *)
Theorem C29_expandBits : forall v, (v < 1024)%N ->
  forall i, N.testbit (expandBits v) i = true <-> exists k, i = (3 * k)%N /\ N.testbit v k = true.
Proof.
  intros v Hv i. rewrite expand_testbit by auto. unfold eb_bit. split.
  - destruct (N.ltb_spec i 30); [|discriminate]. intros HB. apply andb_true_iff in HB. destruct HB as (A & B).
    apply N.eqb_eq in A. exists (i / 3)%N. split; auto. pose proof (N.div_mod i 3 ltac:(lia)). lia.
  - intros (k & -> & T). rewrite N.mul_comm, N.mod_mul, N.div_mul by lia. rewrite T.
    destruct (N.ltb_spec (k * 3) 30) as [|L]; auto. exfalso.
    destruct (N.eq_dec v 0) as [->|V0]; [rewrite N.bits_0 in T; discriminate|].
    rewrite N.bits_above_log2 in T; [discriminate|].
    assert (N.log2 v < 10)%N by (apply N.log2_lt_pow2; lia). lia.
Qed.

(** The Morton code of any point is the interleaving of the ten-bit cell numbers of its three coordinates. *)
Theorem C29_MortonCode : forall x y z, exists kx ky kz,
  is_cell x kx /\ is_cell y ky /\ is_cell z kz /\ (MortonCode x y z < 2 ^ 30)%N /\
  forall i, (i < 10)%N ->
    N.testbit (MortonCode x y z) (3 * i + 2) = N.testbit kx i /\
    N.testbit (MortonCode x y z) (3 * i + 1) = N.testbit ky i /\
    N.testbit (MortonCode x y z) (3 * i) = N.testbit kz i.
Proof.
  intros x y z. exists (quant x), (quant y), (quant z). destruct (MortonCode_bits x y z).
  split; [apply quant_cell|split; [apply quant_cell|split; [apply quant_cell|split; auto]]].
Qed.

(** A point that is at least as large in every coordinate has a code that is at least as large. *)
Theorem C29_dominance : forall x y z x' y' z', (x <= x')%Q -> (y <= y')%Q -> (z <= z')%Q ->
  (MortonCode x y z <= MortonCode x' y' z')%N.
Proof. exact MortonCode_mono. Qed.

(** The leading-zero count terminates and is exact on every 32-bit word. *)
Theorem C29_leading_zeros : forall x, (x < 2 ^ 32)%N -> exists n, nbits_leading_zero x = Some n /\ leading_zeros x n.
Proof. intros. exists (clz x). split; [apply clz_spec; auto|apply leading_zeros_clz; auto]. Qed.

(** For any sorted 32-bit codes, with or without duplicates, and at least two objects, the construction runs without leaving its
    arrays and stores a binary tree: root at node 0 without parent, parent and child links consistent, every node of the array
    used exactly once, the objects at the leaves from left to right being exactly the given ones in their given order. *)
Theorem C30_tree : forall mc objs nodes, sorted_codes mc -> words32 mc -> 2 <= length mc -> length objs = length mc ->
  exists nodes', BVHTopology_Morton nodes objs mc = Some nodes' /\ length nodes' = 2 * length mc - 1 /\
  exists t, represents nodes' None t /\ root t = 0 /\ objects t = objs /\ Permutation (node_ids t) (seq 0 (2 * length mc - 1)).
Proof. intros. apply build_ok; auto. Qed.

(** With a single object the one node created keeps the children 0 and 0: it is its own child, and no tree is stored. *)
Theorem C30_single_refuted : exists nodes', BVHTopology_Morton [] [7] [5%N] = Some nodes' /\ ~ exists t, represents nodes' None t.
Proof.
  eexists. split; [reflexivity|]. intros (t & H). destruct t as [k o|k l r]; cbn [represents] in H.
  - destruct k as [|[|k]]; cbn in H; discriminate.
  - destruct H as (H & _ & HR). destruct k as [|[|k]]; cbn in H; try discriminate. injection H as Hl Hr.
    destruct r as [k o|k l' r']; cbn [represents root] in *; subst; cbn in HR; [discriminate|]. destruct HR as (HR & _). discriminate.
Qed.

Print Assumptions C29_expandBits.
Print Assumptions C29_MortonCode.
Print Assumptions C29_dominance.
Print Assumptions C29_leading_zeros.
Print Assumptions C30_tree.
Print Assumptions C30_single_refuted.

(** The hypotheses are met, with duplicates (three and more equal codes) and gaps. *)
Example C30_example : sorted_codes [1;5;5;5;5;9;20]%N /\ words32 [1;5;5;5;5;9;20]%N /\
  BVHTopology_Morton [] [10;11;12;13;14;15;16] [1;5;5;5;5;9;20]%N <> None.
Proof.
  split; [|split].
  - intros i j Hij. cbn [length] in Hij.
    do 7 (destruct i as [|i]; [do 7 (destruct j as [|j]; [cbn; lia|]); lia|]). lia.
  - intros c Hc. cbn in Hc. repeat (destruct Hc as [<-|Hc]; [reflexivity|]). destruct Hc.
  - vm_compute. discriminate.
Qed.
Example C29_example : MortonCode (1 # 2) (1 # 4) (3 # 1024) = (2 ^ 29 + 2 ^ 25 + 2 ^ 3 + 1)%N /\ expandBits 1023 = 153391689%N.
Proof. split; vm_compute; reflexivity. Qed.
