(** Exact scalars.  The library computes with float, double or complex<double>; the models below compute in an arbitrary
    commutative ring (or field), i.e. without rounding.  [cring] packs the operations with the ring laws of the Coq
    standard library ([Ring_theory.ring_theory]). *)
From Coq Require Import List Arith Lia Ring Ring_theory ZArith.
Import ListNotations.
From Verif Require Import Imp.

Record cring := mkRing {
  car :> Type; rO : car; rI : car;
  radd : car -> car -> car; rmul : car -> car -> car; rsub : car -> car -> car; ropp : car -> car;
  rlaws : ring_theory rO rI radd rmul rsub ropp (@eq car) }.
Arguments rO {_}. Arguments rI {_}. Arguments radd {_}. Arguments rmul {_}. Arguments rsub {_}. Arguments ropp {_}.
Declare Scope K_scope.
Delimit Scope K_scope with K.
Notation "0" := rO : K_scope.
Notation "1" := rI : K_scope.
Notation "x + y" := (radd x y) : K_scope.
Notation "x * y" := (rmul x y) : K_scope.
Notation "x - y" := (rsub x y) : K_scope.
Notation "- x" := (ropp x) : K_scope.

(** Finite sums. *)
Definition bigsum {K : cring} {A} (l : list A) (f : A -> K) : K := fold_right (fun x s => (f x + s)%K) 0%K l.
Definition sumn {K : cring} (n : nat) (f : nat -> K) : K := bigsum (seq 0 n) f.
Definition dot {K : cring} (n : nat) (u v : nat -> K) : K := sumn n (fun i => (u i * v i)%K).

Arguments bigsum : simpl never.
Arguments sumn : simpl never.

(** Integers as an instance, used by the examples. *)
Definition Zcr : cring := mkRing Z 0%Z 1%Z Z.add Z.mul Z.sub Z.opp InitialRing.Zth.

Section Sums.
Variable K : cring.
Add Ring Kr : (rlaws K).
Local Open Scope K_scope.
Implicit Types f g : nat -> K.

Lemma bigsum_nil : forall A (f : A -> K), bigsum [] f = 0. Proof. reflexivity. Qed.
Lemma bigsum_cons : forall A x l (f : A -> K), bigsum (x :: l) f = f x + bigsum l f. Proof. reflexivity. Qed.
Lemma bigsum_app : forall A l1 l2 (f : A -> K), bigsum (l1 ++ l2) f = bigsum l1 f + bigsum l2 f.
Proof. induction l1; simpl; intros. - rewrite bigsum_nil. ring. - rewrite !bigsum_cons, IHl1. ring. Qed.
Lemma bigsum_ext : forall A l (f g : A -> K), (forall x, In x l -> f x = g x) -> bigsum l f = bigsum l g.
Proof. induction l; simpl; intros; auto. rewrite !bigsum_cons. rewrite H, (IHl f g); auto. Qed.
Lemma bigsum_add : forall A l (f g : A -> K), bigsum l (fun x => f x + g x) = bigsum l f + bigsum l g.
Proof. induction l; intros. - rewrite !bigsum_nil. ring. - rewrite !bigsum_cons, IHl. ring. Qed.
Lemma bigsum_mull : forall A l c (f : A -> K), bigsum l (fun x => c * f x) = c * bigsum l f.
Proof. induction l; intros. - rewrite !bigsum_nil. ring. - rewrite !bigsum_cons, IHl. ring. Qed.
Lemma bigsum_mulr : forall A l c (f : A -> K), bigsum l (fun x => f x * c) = bigsum l f * c.
Proof. induction l; intros. - rewrite !bigsum_nil. ring. - rewrite !bigsum_cons, IHl. ring. Qed.
Lemma bigsum_zero : forall A l (f : A -> K), (forall x, In x l -> f x = 0) -> bigsum l f = 0.
Proof. induction l; simpl; intros. - auto. - rewrite bigsum_cons, H, IHl; auto. ring. Qed.
Lemma bigsum_map : forall A B (e : A -> B) l (f : B -> K), bigsum (map e l) f = bigsum l (fun x => f (e x)).
Proof. induction l; simpl; intros; auto. rewrite !bigsum_cons, IHl; auto. Qed.
Lemma bigsum_concat : forall A B (e : A -> list B) l (f : B -> K),
  bigsum (concat (map e l)) f = bigsum l (fun x => bigsum (e x) f).
Proof. induction l; simpl; intros; auto. rewrite bigsum_app, bigsum_cons, IHl; auto. Qed.
Lemma bigsum_swap : forall A B (l : list A) (l' : list B) (f : A -> B -> K),
  bigsum l (fun x => bigsum l' (f x)) = bigsum l' (fun y => bigsum l (fun x => f x y)).
Proof.
  induction l; intros.
  - rewrite bigsum_nil. symmetry. apply bigsum_zero. auto.
  - rewrite bigsum_cons, IHl, <- bigsum_add. apply bigsum_ext. intros. rewrite bigsum_cons. auto.
Qed.
(** A sum with a single live index. *)
Lemma bigsum_seq_pick : forall lo n i f, lo <= i < lo + n ->
  bigsum (seq lo n) (fun x => if x =? i then f x else 0) = f i.
Proof.
  intros lo n i f H. revert lo H. induction n; intros lo H; [lia|].
  simpl seq. rewrite bigsum_cons. destruct (Nat.eqb_spec lo i) as [->|Hn].
  - rewrite bigsum_zero. ring. intros x Hx. apply in_seq in Hx. destruct (Nat.eqb_spec x i); auto; lia.
  - rewrite IHn by lia. ring.
Qed.
Lemma bigsum_seq_none : forall lo n i f, ~ (lo <= i < lo + n) ->
  bigsum (seq lo n) (fun x => if x =? i then f x else 0) = 0.
Proof.
  intros. apply bigsum_zero. intros x Hx. apply in_seq in Hx. destruct (Nat.eqb_spec x i); auto; lia.
Qed.
Lemma sumn_ext : forall n f g, (forall i, i < n -> f i = g i) -> sumn n f = sumn n g.
Proof. intros. apply bigsum_ext. intros x Hx. apply in_seq in Hx. apply H. lia. Qed.
Lemma sumn_zero : forall n f, (forall i, i < n -> f i = 0) -> sumn n f = 0.
Proof. intros. apply bigsum_zero. intros x Hx. apply in_seq in Hx. apply H. lia. Qed.
Lemma sumn_pick : forall n i f, i < n -> sumn n (fun x => if x =? i then f x else 0) = f i.
Proof. intros. apply bigsum_seq_pick. lia. Qed.
Lemma sumn_S : forall n f, sumn (S n) f = sumn n f + f n.
Proof. intros. unfold sumn. rewrite seq_S, bigsum_app, bigsum_cons, bigsum_nil. simpl. ring. Qed.
Lemma sumn_S_l : forall n f, sumn (S n) f = f 0%nat + sumn n (fun i => f (S i)).
Proof. intros. unfold sumn. simpl seq. rewrite bigsum_cons, <- seq_shift, bigsum_map. auto. Qed.
Lemma sumn_0 : forall f, sumn 0 f = 0. Proof. reflexivity. Qed.
Lemma sumn_add : forall n f g, sumn n (fun x => f x + g x) = sumn n f + sumn n g.
Proof. intros. apply bigsum_add. Qed.
Lemma sumn_mull : forall n c f, sumn n (fun x => c * f x) = c * sumn n f.
Proof. intros. apply bigsum_mull. Qed.
Lemma sumn_mulr : forall n c f, sumn n (fun x => f x * c) = sumn n f * c.
Proof. intros. apply bigsum_mulr. Qed.
Lemma sumn_swap : forall n m (f : nat -> nat -> K),
  sumn n (fun x => sumn m (f x)) = sumn m (fun y => sumn n (fun x => f x y)).
Proof. intros. apply bigsum_swap. Qed.

(** Accumulation loops [y[i] += v]. *)
Definition addto (p : nat * K) (y : list K) : option (list K) := vmod y (fst p) (fun t => t + snd p).
Definition accum (l : list (nat * K)) (y : list K) : option (list K) := foldM addto l y.
Definition at_ (k : nat) (l : list (nat * K)) : K := bigsum l (fun p => if fst p =? k then snd p else 0).

Lemma accum_ok : forall l y, (forall p, In p l -> fst p < length y) ->
  wp (accum l y) (fun y' => length y' = length y /\ forall k, k < length y -> nth k y' 0 = nth k y 0 + at_ k l).
Proof.
  unfold accum. induction l as [|p l IH]; intros y H.
  - apply wp_some. split; auto. intros. unfold at_. rewrite bigsum_nil. ring.
  - cbn [foldM]. apply wp_bind. unfold addto. apply (wp_vmod _ 0); [apply H; left; auto|].
    eapply wp_mono; [apply IH; intros q Hq; lens; apply H; right; auto|].
    intros y' (L & E). lens. split; auto. intros k Hk. rewrite E by auto. unfold at_. rewrite bigsum_cons.
    rewrite nth_upd by (apply H; left; auto).
    destruct (Nat.eq_dec (fst p) k) as [->|Hn].
    + rewrite Nat.eqb_refl. ring.
    + destruct (Nat.eqb_spec (fst p) k); [lia|]. ring.
Qed.
Lemma accum_app : forall l1 l2 y, accum (l1 ++ l2) y = bind (accum l1 y) (accum l2).
Proof. intros. apply foldM_app. Qed.
Lemma accum1 : forall i v y, vmod y i (fun t => t + v) = accum [(i, v)] y.
Proof. intros. unfold accum. simpl. unfold addto. simpl. destruct (vmod y i (fun t => t + v)); auto. Qed.
Lemma forn_accum : forall lo hi (f : nat -> list K -> option (list K)) L y,
  (forall i s, lo <= i < hi -> f i s = accum (L i) s) ->
  forn lo hi f y = accum (concat (map L (seq lo (hi - lo)))) y.
Proof.
  intros. rewrite forn_foldM. unfold accum. rewrite <- foldM_concat. apply foldM_ext.
  intros x s Hx. apply in_seq in Hx. apply H. lia.
Qed.
Lemma at_concat : forall A k (e : A -> list (nat * K)) l, at_ k (concat (map e l)) = bigsum l (fun x => at_ k (e x)).
Proof. intros. apply bigsum_concat. Qed.
Lemma at_app : forall k l1 l2, at_ k (l1 ++ l2) = at_ k l1 + at_ k l2.
Proof. intros. apply bigsum_app. Qed.
Lemma at_map : forall A k (e : A -> nat) (v : A -> K) l,
  at_ k (map (fun x => (e x, v x)) l) = bigsum l (fun x => if e x =? k then v x else 0).
Proof. intros. unfold at_. rewrite bigsum_map. auto. Qed.
Lemma at_cons : forall k p l, at_ k (p :: l) = (if fst p =? k then snd p else 0) + at_ k l.
Proof. reflexivity. Qed.
Lemma at_nil : forall k, at_ k [] = 0. Proof. reflexivity. Qed.
End Sums.
Arguments accum {K}. Arguments at_ {K}. Arguments addto {K}.
