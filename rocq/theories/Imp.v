(** Small imperative layer used by every model file: vectors with checked accesses, counted loops,
    fuelled [while] loops, all in the option monad.  [None] stands for undefined behaviour (index out of
    range, use of a sentinel as an index), a failed [assert], or a loop that ran out of fuel.
    This file models no particular delfem2 function; it models the C++ constructs
    [std::vector::operator[]], [for] and [while]. *)
From Coq Require Import List Arith Lia Permutation Sorted.
Import ListNotations.

Definition bind {A B} (e : option A) (f : A -> option B) : option B :=
  match e with Some x => f x | None => None end.
Notation "x <- e ;; k" := (bind e (fun x => k))
  (at level 61, e at next level, right associativity).
Notation "' p <- e ;; k" := (bind e (fun p => k))
  (at level 61, p pattern, e at next level, right associativity).
Notation "e ;;; k" := (bind e (fun _ => k)) (at level 61, right associativity).

(** C++ [assert(b)]. *)
Definition assertb (b : bool) : option unit := if b then Some tt else None.

(** [v[i]] as an rvalue. *)
Definition vget {A} (v : list A) (i : nat) : option A := nth_error v i.

(** [v[i] = x]. *)
Fixpoint vset {A} (v : list A) (i : nat) (x : A) : option (list A) :=
  match v, i with
  | [], _ => None
  | _ :: t, 0 => Some (x :: t)
  | h :: t, S j => t' <- vset t j x ;; Some (h :: t')
  end.

(** [v[i] = f(v[i])]. *)
Definition vmod {A} (v : list A) (i : nat) (f : A -> A) : option (list A) :=
  x <- vget v i ;; vset v i (f x).

(** [v.resize(n)] with value-initialised fill [d]. *)
Definition vresize {A} (d : A) (v : list A) (n : nat) : list A :=
  firstn n v ++ repeat d (n - length v).

(** [for(i=lo;i<hi;++i) s = f(i,s)]. *)
Fixpoint forn_ {S} (k i : nat) (f : nat -> S -> option S) (s : S) : option S :=
  match k with
  | 0 => Some s
  | Datatypes.S k' => s' <- f i s ;; forn_ k' (Datatypes.S i) f s'
  end.
Definition forn {S} (lo hi : nat) (f : nat -> S -> option S) (s : S) : option S :=
  forn_ (hi - lo) lo f s.

(** [for(i=hi;i>lo;--i) s = f(i,s)]: visits hi, hi-1, ..., lo+1. *)
Fixpoint ford_ {S} (k i : nat) (f : nat -> S -> option S) (s : S) : option S :=
  match k with
  | 0 => Some s
  | Datatypes.S k' => s' <- f i s ;; ford_ k' (i - 1) f s'
  end.
Definition ford {S} (hi lo : nat) (f : nat -> S -> option S) (s : S) : option S :=
  ford_ (hi - lo) hi f s.

(** Range-based [for(x : l)]. *)
Fixpoint foldM {A S} (f : A -> S -> option S) (l : list A) (s : S) : option S :=
  match l with
  | [] => Some s
  | x :: t => s' <- f x s ;; foldM f t s'
  end.

(** [for(i=lo;i<hi;++i){ s = f(i,s); if(stop) break; }]: the body returns the new state and a stop flag. *)
Fixpoint forb_ {S} (k i : nat) (f : nat -> S -> option (S * bool)) (s : S) : option S :=
  match k with
  | 0 => Some s
  | Datatypes.S k' =>
      '(s', stop) <- f i s ;;
      if stop : bool then Some s' else forb_ k' (Datatypes.S i) f s'
  end.
Definition forb {S} (lo hi : nat) (f : nat -> S -> option (S * bool)) (s : S) : option S :=
  forb_ (hi - lo) lo f s.

(** [while(c(s)) s = f(s)], at most [fuel] iterations. *)
Fixpoint whilef {S} (fuel : nat) (c : S -> bool) (f : S -> option S) (s : S) : option S :=
  if c s then
    match fuel with
    | 0 => None
    | Datatypes.S k => s' <- f s ;; whilef k c f s'
    end
  else Some s.

(** [for(;;){ s = f(s); if(stop) break; }], at most [fuel] iterations. *)
Fixpoint loopf {S} (fuel : nat) (f : S -> option (S * bool)) (s : S) : option S :=
  match fuel with
  | 0 => None
  | Datatypes.S k =>
      '(s', stop) <- f s ;;
      if stop : bool then Some s' else loopf k f s'
  end.

(** Total list update used in specifications and proofs. *)
Fixpoint upd {A} (v : list A) (i : nat) (x : A) : list A :=
  match v, i with
  | [], _ => []
  | _ :: t, 0 => x :: t
  | h :: t, S j => h :: upd t j x
  end.

Lemma upd_length : forall A (v : list A) i x, length (upd v i x) = length v.
Proof. induction v; destruct i; simpl; intros; auto. Qed.

Lemma vset_upd : forall A (v : list A) i x, i < length v -> vset v i x = Some (upd v i x).
Proof.
  induction v; simpl; intros; [lia|].
  destruct i; auto. rewrite IHv by lia. reflexivity.
Qed.

Lemma vset_none : forall A (v : list A) i x, length v <= i -> vset v i x = None.
Proof.
  induction v; simpl; intros; auto.
  destruct i; [lia|]. rewrite IHv by lia. reflexivity.
Qed.

Lemma vset_some : forall A (v : list A) i x v', vset v i x = Some v' -> i < length v /\ v' = upd v i x.
Proof.
  intros. destruct (le_lt_dec (length v) i).
  - rewrite vset_none in H by auto. discriminate.
  - rewrite vset_upd in H by auto. inversion H; auto.
Qed.

Lemma vget_nth : forall A (d : A) (v : list A) i, i < length v -> vget v i = Some (nth i v d).
Proof. intros. apply nth_error_nth'. auto. Qed.

Lemma vget_some : forall A (v : list A) i x, vget v i = Some x -> i < length v /\ forall d, nth i v d = x.
Proof.
  unfold vget. intros. split.
  - apply nth_error_Some. congruence.
  - intros. apply nth_error_nth. auto.
Qed.

Lemma nth_upd_same : forall A (d : A) v i x, i < length v -> nth i (upd v i x) d = x.
Proof. induction v; simpl; intros; [lia|]. destruct i; auto. apply IHv. lia. Qed.

Lemma nth_upd_other : forall A (d : A) v i j x, i <> j -> nth j (upd v i x) d = nth j v d.
Proof. induction v; destruct i, j; simpl; intros; auto; try lia. Qed.

Lemma nth_upd : forall A (d : A) v i j x, i < length v ->
  nth j (upd v i x) d = if Nat.eq_dec i j then x else nth j v d.
Proof.
  intros. destruct (Nat.eq_dec i j); subst; [apply nth_upd_same | apply nth_upd_other]; auto.
Qed.

Lemma nth_error_upd_same : forall A (v : list A) i x, i < length v -> nth_error (upd v i x) i = Some x.
Proof. induction v; simpl; intros; [lia|]. destruct i; auto. apply IHv. lia. Qed.

Lemma nth_error_upd_other : forall A (v : list A) i j x, i <> j -> nth_error (upd v i x) j = nth_error v j.
Proof. induction v; destruct i, j; simpl; intros; auto; try lia. Qed.

Lemma upd_app_l : forall A (u v : list A) i x, i < length u -> upd (u ++ v) i x = upd u i x ++ v.
Proof. induction u; simpl; intros; [lia|]. destruct i; simpl; auto. rewrite IHu by lia. auto. Qed.

Lemma upd_app_r : forall A (u v : list A) i x, length u <= i -> upd (u ++ v) i x = u ++ upd v (i - length u) x.
Proof.
  induction u; simpl; intros.
  - f_equal. lia.
  - destruct i; [lia|]. simpl. rewrite IHu by lia. auto.
Qed.

Lemma list_ext : forall A (d : A) u v,
  length u = length v -> (forall i, i < length u -> nth i u d = nth i v d) -> u = v.
Proof. intros. eapply nth_ext; eauto. Qed.

Lemma upd_nth_self : forall A (d : A) v i, upd v i (nth i v d) = v.
Proof. induction v; destruct i; simpl; intros; auto. rewrite IHv. auto. Qed.

(* ------------------------------------------------------------------ *)
(** Weakest-precondition layer. *)

Definition wp {A} (e : option A) (P : A -> Prop) : Prop :=
  match e with Some x => P x | None => False end.

Lemma wp_iff : forall A (e : option A) P, wp e P <-> exists x, e = Some x /\ P x.
Proof.
  intros. destruct e; simpl; split; intros.
  - eauto.
  - destruct H as (x & E & H). inversion E; subst; auto.
  - contradiction.
  - destruct H as (x & E & H). discriminate.
Qed.

Lemma wp_ex : forall A (e : option A) P, wp e P -> exists x, e = Some x /\ P x.
Proof. intros. apply wp_iff. auto. Qed.

Lemma wp_some : forall A (x : A) (P : A -> Prop), P x -> wp (Some x) P.
Proof. auto. Qed.

Lemma wp_bind : forall A B (e : option A) (f : A -> option B) P,
  wp e (fun x => wp (f x) P) -> wp (bind e f) P.
Proof. destruct e; simpl; auto. Qed.

Lemma wp_mono : forall A (e : option A) (P Q : A -> Prop),
  wp e P -> (forall x, P x -> Q x) -> wp e Q.
Proof. destruct e; simpl; auto. Qed.

Lemma wp_use : forall A (e : option A) (P : A -> Prop) x, e = Some x -> wp e P -> P x.
Proof. intros. subst. auto. Qed.

Lemma wp_vget : forall A (d : A) v i (P : A -> Prop),
  i < length v -> P (nth i v d) -> wp (vget v i) P.
Proof. intros. rewrite (vget_nth _ d) by auto. simpl. auto. Qed.

Lemma wp_vget_e : forall A (v : list A) i (P : A -> Prop),
  i < length v -> (forall x, nth_error v i = Some x -> P x) -> wp (vget v i) P.
Proof.
  intros. unfold vget. destruct (nth_error v i) eqn:E; simpl; auto.
  apply nth_error_None in E. lia.
Qed.

Lemma wp_vset : forall A (v : list A) i x (P : list A -> Prop),
  i < length v -> P (upd v i x) -> wp (vset v i x) P.
Proof. intros. rewrite vset_upd by auto. simpl. auto. Qed.

Lemma wp_vmod : forall A (d : A) v i f (P : list A -> Prop),
  i < length v -> P (upd v i (f (nth i v d))) -> wp (vmod v i f) P.
Proof.
  intros. unfold vmod. rewrite (vget_nth _ d) by auto. simpl. rewrite vset_upd by auto. simpl. auto.
Qed.

Lemma wp_assertb : forall b (P : unit -> Prop), b = true -> P tt -> wp (assertb b) P.
Proof. intros. subst. simpl. auto. Qed.

Lemma wp_forn : forall S (I : nat -> S -> Prop) lo hi f s (P : S -> Prop),
  lo <= hi ->
  I lo s ->
  (forall i s', lo <= i < hi -> I i s' -> wp (f i s') (I (Datatypes.S i))) ->
  (forall s', I hi s' -> P s') ->
  wp (forn lo hi f s) P.
Proof.
  intros S I lo hi f s P Hle H0 Hstep HP. unfold forn.
  remember (hi - lo) as k. revert lo s Hle H0 Hstep Heqk.
  induction k; simpl; intros.
  - apply HP. replace hi with lo by lia. auto.
  - apply wp_bind. eapply wp_mono. { apply Hstep; auto. lia. }
    intros. apply IHk; auto; try lia.
    intros. apply Hstep; auto. lia.
Qed.

Lemma wp_ford : forall S (I : nat -> S -> Prop) hi lo f s (P : S -> Prop),
  lo <= hi ->
  I hi s ->
  (forall i s', lo < i <= hi -> I i s' -> wp (f i s') (I (i - 1))) ->
  (forall s', I lo s' -> P s') ->
  wp (ford hi lo f s) P.
Proof.
  intros S I hi lo f s P Hle H0 Hstep HP. unfold ford.
  remember (hi - lo) as k. revert hi s Hle H0 Hstep Heqk.
  induction k; simpl; intros.
  - apply HP. replace lo with hi by lia. auto.
  - apply wp_bind. eapply wp_mono. { apply Hstep; auto. lia. }
    intros. apply IHk; auto; try lia.
    intros. apply Hstep; auto. lia.
Qed.

Lemma wp_foldM : forall A S (I : list A -> S -> Prop) f l s (P : S -> Prop),
  I [] s ->
  (forall l1 x l2 s', l = l1 ++ x :: l2 -> I l1 s' -> wp (f x s') (I (l1 ++ [x]))) ->
  (forall s', I l s' -> P s') ->
  wp (foldM f l s) P.
Proof.
  intros A S I f l s P H0 Hstep HP.
  assert (forall l2 l1 s, l = l1 ++ l2 -> I l1 s -> wp (foldM f l2 s) P).
  { induction l2; simpl; intros.
    - apply HP. rewrite app_nil_r in H. subst. auto.
    - apply wp_bind. eapply wp_mono. { eapply Hstep; eauto. }
      intros. eapply IHl2; eauto. rewrite <- app_assoc. auto. }
  apply (H l [] s); auto.
Qed.

(** Break loops: [I] is the invariant while still running, [Q] holds after a break. *)
Lemma wp_forb : forall S (I : nat -> S -> Prop) (P : S -> Prop) lo hi (f : nat -> S -> option (S * bool)) s,
  lo <= hi ->
  I lo s ->
  (forall i s', lo <= i < hi -> I i s' ->
     wp (f i s') (fun r : S * bool => if snd r then P (fst r) else I (Datatypes.S i) (fst r))) ->
  (forall s', I hi s' -> P s') ->
  wp (forb lo hi f s) P.
Proof.
  intros S I P lo hi f s Hle H0 Hstep HP. unfold forb.
  remember (hi - lo) as k. revert lo s Hle H0 Hstep Heqk.
  induction k; simpl; intros.
  - apply HP. replace hi with lo by lia. auto.
  - apply wp_bind. eapply wp_mono. { apply Hstep; auto. lia. }
    intros [s' b] H. simpl in *. destruct b; auto.
    apply IHk; auto; try lia. intros. apply Hstep; auto. lia.
Qed.

Lemma wp_whilef : forall S (m : S -> nat) (I : S -> Prop) fuel c f s (P : S -> Prop),
  m s <= fuel ->
  I s ->
  (forall s', I s' -> c s' = true -> 0 < m s' /\ wp (f s') (fun s'' => I s'' /\ m s'' < m s')) ->
  (forall s', I s' -> c s' = false -> P s') ->
  wp (whilef fuel c f s) P.
Proof.
  intros S m I fuel c f s P Hm H0 Hstep HP. revert s Hm H0.
  induction fuel; simpl; intros.
  - destruct (c s) eqn:E; auto. destruct (Hstep _ H0 E). lia. apply HP; auto.
  - destruct (c s) eqn:E.
    + apply wp_bind. destruct (Hstep _ H0 E). eapply wp_mono; eauto.
      intros x (HI & Hlt). apply IHfuel; auto. lia.
    + apply HP; auto.
Qed.

Lemma wp_loopf : forall S (m : S -> nat) (I : S -> Prop) fuel (f : S -> option (S * bool)) s (P : S -> Prop),
  m s < fuel ->
  I s ->
  (forall s', I s' -> wp (f s') (fun r => if snd r then P (fst r) else I (fst r) /\ m (fst r) < m s')) ->
  wp (loopf fuel f s) P.
Proof.
  intros S m I fuel f s P Hm H0 Hstep. revert s Hm H0.
  induction fuel; simpl; intros; [lia|].
  apply wp_bind. eapply wp_mono; [apply Hstep; auto|].
  intros [s' b] H. simpl in *. destruct b; auto. destruct H.
  apply IHfuel; auto. lia.
Qed.

(** Loops as folds. *)
Lemma foldM_app : forall A S (f : A -> S -> option S) l1 l2 s,
  foldM f (l1 ++ l2) s = bind (foldM f l1 s) (foldM f l2).
Proof.
  induction l1; simpl; intros; auto.
  destruct (f a s); simpl; auto.
Qed.

Lemma forn_foldM : forall S lo hi (f : nat -> S -> option S) s,
  forn lo hi f s = foldM f (seq lo (hi - lo)) s.
Proof.
  intros. unfold forn. generalize (hi - lo). intros k. revert lo s.
  induction k; simpl; intros; auto. destruct (f lo s); simpl; auto.
Qed.

Lemma foldM_ext : forall A S (f g : A -> S -> option S) l s,
  (forall x s, In x l -> f x s = g x s) -> foldM f l s = foldM g l s.
Proof.
  induction l; simpl; intros; auto.
  rewrite H by auto. destruct (g a s); simpl; auto.
Qed.

Lemma foldM_concat : forall A B S (f : B -> S -> option S) (e : A -> list B) l s,
  foldM (fun x s => foldM f (e x) s) l s = foldM f (concat (map e l)) s.
Proof.
  induction l; simpl; intros; auto.
  rewrite foldM_app. destruct (foldM f (e a) s); simpl; auto.
Qed.

Lemma forn_ext : forall S lo hi (f g : nat -> S -> option S) s,
  (forall i s, lo <= i < hi -> f i s = g i s) -> forn lo hi f s = forn lo hi g s.
Proof.
  intros. rewrite !forn_foldM. apply foldM_ext. intros. apply H. apply in_seq in H0. lia.
Qed.

Lemma forn_S : forall S lo hi (f : nat -> S -> option S) s, lo <= hi ->
  forn lo (Datatypes.S hi) f s = bind (forn lo hi f s) (f hi).
Proof.
  intros. rewrite !forn_foldM. replace (Datatypes.S hi - lo) with ((hi - lo) + 1) by lia.
  rewrite seq_app, foldM_app. simpl. replace (lo + (hi - lo)) with hi by lia.
  destruct (foldM f (seq lo (hi - lo)) s); simpl; auto.
  destruct (f hi s0); simpl; auto.
Qed.

Lemma wp_seq_lt : forall A (e : option A) (P Q : A -> Prop),
  wp e P -> wp e Q -> wp e (fun x => P x /\ Q x).
Proof. destruct e; simpl; auto. Qed.

(** Length of resized vectors. *)
Lemma vresize_length : forall A (d : A) v n, length (vresize d v n) = n.
Proof.
  intros. unfold vresize. rewrite app_length, firstn_length, repeat_length. lia.
Qed.

Lemma vresize_nil : forall A (d : A) n, vresize d [] n = repeat d n.
Proof. intros. unfold vresize. rewrite firstn_nil. simpl. f_equal. lia. Qed.

Lemma nth_repeat' : forall A (d x : A) n i, i < n -> nth i (repeat x n) d = x.
Proof.
  induction n; simpl; intros; [lia|]. destruct i; auto. apply IHn. lia.
Qed.

Lemma nth_map_seq : forall A (f : nat -> A) d lo n i, i < n -> nth i (map f (seq lo n)) d = f (lo + i).
Proof.
  intros. rewrite nth_indep with (d' := f 0) by (rewrite map_length, seq_length; auto).
  rewrite map_nth, seq_nth by auto. auto.
Qed.

Lemma nth_app_l : forall A (d : A) u v i, i < length u -> nth i (u ++ v) d = nth i u d.
Proof. intros. apply app_nth1. auto. Qed.
Lemma nth_app_r : forall A (d : A) u v i, length u <= i -> nth i (u ++ v) d = nth (i - length u) v d.
Proof. intros. apply app_nth2. auto. Qed.

Ltac lens := rewrite ?upd_length, ?map_length, ?seq_length, ?repeat_length, ?app_length, ?vresize_length in *.
