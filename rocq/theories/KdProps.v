(** C41: the k-d tree. *)
From Coq Require Import List Arith Bool Reals Permutation Sorted Lia Lra.
Import ListNotations.
From Verif Require Import Imp KdModel KdSpec KdProofs.
Open Scope R_scope.

(** Construction: whatever std::sort does with ties, every point is stored once, in the splitting order, in a balanced tree. *)
Theorem C41_ConstructKDT : forall srt P, sorts srt -> P <> [] ->
  exists t, ConstructKDT srt P = Some t /\ Permutation P (stored t) /\ ordered t 0 /\ (height t <= S (Nat.log2 (length P)))%nat.
Proof. intros srt P H N. destruct (ConstructKDT_ok srt P H N) as (t & A & B & C & _ & D). eauto. Qed.
Print Assumptions C41_ConstructKDT.

(** Search: the answer is a nearest point as soon as one point is closer than the largest number; otherwise it is an unassigned variable. *)
Theorem C41_SearchNearstPoint : forall srt P junk big Q t, sorts srt -> 0 < big -> P <> [] -> ConstructKDT srt P = Some t ->
  exists p, SearchNearstPoint junk big t Q = Some p /\
    ((exists x, In x P /\ distance Q x < big) -> nearest P Q p) /\
    ((forall x, In x P -> big <= distance Q x) -> p = junk).
Proof.
  intros srt P junk big Q t H B N E. destruct (ConstructKDT_ok srt P H N) as (t' & A & PE & O & NN & _). assert (t' = t) by congruence. subst t'.
  destruct (Search_ok junk Q t 0 big NN O B) as (p & r & S1 & S2 & S3 & S4). exists p. unfold SearchNearstPoint. rewrite S1. cbn [bind]. split; auto. split.
  - intros (x & X1 & X2). assert (X3 := S3 x (Permutation_in x PE X1)). rewrite normdiff_distance in X3. specialize (X3 X2). destruct S4 as [(-> & _)|(U & V & ->)]; [lra|]. split; [eapply Permutation_in; [symmetry; exact PE|exact V]|].
    intros y Hy. destruct (Rlt_le_dec (distance Q y) big) as [G|G]; [|rewrite <- normdiff_distance; lra]. assert (Y := S3 y (Permutation_in y PE Hy)). rewrite normdiff_distance in Y. rewrite <- normdiff_distance. auto.
  - intros F. destruct S4 as [(_ & ->)|(U & V & ->)]; auto. exfalso. specialize (F p (Permutation_in p (Permutation_sym PE) V)). rewrite normdiff_distance in U. lra.
Qed.
Print Assumptions C41_SearchNearstPoint.

(** A possible sorting function exists: insertion. *)
Fixpoint ins (k : nat) (x : vec) (l : list vec) : list vec := match l with [] => [x] | y :: l => if ltR (co k x) (co k y) then y :: ins k x l else x :: y :: l end.
Fixpoint isort (k : nat) (l : list vec) : list vec := match l with [] => [] | x :: l => ins k x (isort k l) end.
Lemma ins_perm : forall k x l, Permutation (x :: l) (ins k x l).
Proof. induction l as [|y l IH]; cbn [ins]; auto. destruct (ltR _ _); auto. eapply perm_trans; [apply perm_swap|]. auto. Qed.
Lemma ins_sorted : forall k x l, StronglySorted (fun a b => co k a >= co k b) l -> StronglySorted (fun a b => co k a >= co k b) (ins k x l).
Proof.
  intros k x l H. induction H as [|y l H IH F]; cbn [ins]; [repeat constructor|]. destruct (ltR_spec (co k x) (co k y)) as [G|G].
  - constructor; auto. rewrite Forall_forall in *. intros z Hz. apply (Permutation_in z (Permutation_sym (ins_perm k x l))) in Hz. destruct Hz as [<-|Hz]; [lra|auto].
  - constructor; [constructor; auto|]. constructor; [lra|]. rewrite Forall_forall in *. intros z Hz. specialize (F z Hz). cbn beta in F. lra.
Qed.
Example sorts_exists : sorts isort.
Proof.
  intros k l. induction l as [|x l (IH1 & IH2)]; cbn [isort]; [split; [auto|constructor]|]. split; [|apply ins_sorted; auto]. eapply perm_trans; [|apply ins_perm]. auto.
Qed.
Definition pts : list vec := [(0, 0, 0); (1, 5, 2); (2, 1, 7); (1, 5, 2); (-3, 4, 4)].
Example search_hypotheses : exists t p, ConstructKDT isort pts = Some t /\ SearchNearstPoint (9, 9, 9) 1000 t (1, 4, 2) = Some p /\ nearest pts (1, 4, 2) p /\ distance (1, 4, 2) p <= 1.
Proof.
  destruct (C41_ConstructKDT isort pts sorts_exists ltac:(discriminate)) as (t & T & _). destruct (C41_SearchNearstPoint isort pts (9, 9, 9) 1000 (1, 4, 2) t sorts_exists ltac:(lra) ltac:(discriminate) T) as (p & A & B & _). exists t, p. split; auto. split; auto.
  assert (D : distance (1, 4, 2) (1, 5, 2) = 1) by (unfold distance, Rsqr; replace ((1 - 1) * (1 - 1) + (4 - 5) * (4 - 5) + (2 - 2) * (2 - 2)) with 1 by ring; apply sqrt_1).
  assert (Nn : nearest pts (1, 4, 2) p) by (apply B; exists (1, 5, 2); rewrite D; split; [cbn; auto|lra]). split; auto. apply (Rle_trans _ (distance (1, 4, 2) (1, 5, 2))); [apply Nn; cbn; auto|lra].
Qed.
