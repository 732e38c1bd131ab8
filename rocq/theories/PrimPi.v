(** The constant 3.1415926535 of the generated meshes against PI. *)
From Coq Require Import Reals Machin Lra Lia.
From Verif Require Import PrimModel.
Local Open Scope R_scope.
Lemma pi10_le : pi10 <= PI.
Proof.
  destruct (PI_2_3_7_ineq 5) as (H & _). unfold tg_alt, PI_2_3_7_tg, Ratan_seq in H. simpl Nat.mul in H. simpl Nat.add in H.
  cbn [sum_f_R0] in H. rewrite !INR_IZR_INZ in H. cbn [Nat.mul Nat.add pow] in H. cbn [Z.of_nat Pos.of_succ_nat Pos.succ] in H. unfold pi10. lra.
Qed.
Lemma pi10_ge : PI <= pi10 + / 10000000000.
Proof.
  destruct (PI_2_3_7_ineq 6) as (_ & H). unfold tg_alt, PI_2_3_7_tg, Ratan_seq in H. simpl Nat.mul in H. simpl Nat.add in H.
  cbn [sum_f_R0] in H. rewrite !INR_IZR_INZ in H. cbn [Nat.mul Nat.add pow] in H. cbn [Z.of_nat Pos.of_succ_nat Pos.succ] in H. unfold pi10. lra.
Qed.
