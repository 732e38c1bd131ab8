(** Invariant of Dijkstra's algorithm with lazily deleted queue entries. *)
From Coq Require Import List Arith Bool Lia Permutation.
Import ListNotations.
From Verif Require Import Imp DijkModel DijkSpec.

Section Core.
Variable D : odist.
Variable n : nat.
Variable deg : nat -> nat.
Variable tgt : nat -> nat -> option nat.
Variable wt : nat -> nat -> D.
Variable S : nat -> Prop.
Definition edge (u v : nat) : Prop := u < n /\ exists k, k < deg u /\ tgt u k = Some v.
Hypothesis tgt_lt : forall u k v, u < n -> k < deg u -> tgt u k = Some v -> v < n.
Hypothesis S_lt : forall s, S s -> s < n.
Hypothesis wt_pos : forall u v d, dle d (dadd d (wt u v)).
Notation Walk := (walk S edge wt).

Lemma walk_lt : forall v d, Walk v d -> v < n.
Proof. induction 1; auto. destruct H0 as (A & k & B & C). eauto. Qed.
Lemma walk_pos : forall v d, Walk v d -> dle dz d.
Proof. induction 1; [apply dle_refl|]. eapply dle_trans; eauto. Qed.

Record core (Rx : nat -> nat -> Prop) (done : list nat) (Dv : nat -> option D) (q : list (nat * D)) : Prop := {
  c_nd : NoDup done;
  c_lt : forall u, In u done -> u < n;
  c_q : forall v d, In (v, d) q -> Walk v d;
  c_d : forall v d, Dv v = Some d -> Walk v d;
  c_in : forall v d, Dv v = Some d -> In v done \/ In (v, d) q;
  c_relax : forall u k v, Rx u k -> k < deg u -> tgt u k = Some v -> exists du dv, Dv u = Some du /\ Dv v = Some dv /\ dle dv (dadd du (wt u v));
  c_rx : forall u k, Rx u k -> k < deg u -> In u done;
  c_done : forall u, In u done -> exists du, Dv u = Some du;
  c_min : forall u v d du, In u done -> In (v, d) q -> Dv u = Some du -> dle du d;
  c_mono : forall i j u v du dv, i <= j -> nth_error done i = Some u -> nth_error done j = Some v -> Dv u = Some du -> Dv v = Some dv -> dle du dv;
  c_src : forall s, S s -> Dv s = Some dz;
  c_lab : forall v d, In (v, d) q -> exists dv, Dv v = Some dv /\ dle dv d }.

Lemma core_perm : forall Rx done Dv q q', Permutation q q' -> core Rx done Dv q -> core Rx done Dv q'.
Proof.
  intros Rx done Dv q q' P C. assert (I : forall x, In x q' -> In x q) by (intros x; apply Permutation_in; symmetry; auto).
  destruct C. split; eauto. intros v d H. destruct (c_in0 v d H); auto. right. apply (Permutation_in _ P). auto.
Qed.
Lemma core_weaken : forall (Rx Rx' : nat -> nat -> Prop) done Dv q, (forall u k, k < deg u -> Rx' u k -> Rx u k) -> core Rx done Dv q -> core Rx' done Dv q.
Proof. intros Rx Rx' done Dv q H C. destruct C. split; eauto. Qed.

(** A popped entry of a fixed vertex is dropped. *)
Lemma core_drop : forall Rx done Dv v d q, core Rx done Dv ((v, d) :: q) -> In v done -> core Rx done Dv q.
Proof.
  intros Rx done Dv v d q C Hv. destruct C. split; auto.
  - intros; apply c_q0; right; auto.
  - intros v0 d0 H. destruct (c_in0 v0 d0 H) as [A|[A|A]]; auto. injection A as -> ->. auto.
  - intros u v0 d0 du A B. apply (c_min0 u v0 d0 du A (or_intror B)).
  - intros v0 d0 H. apply c_lab0. right; auto.
Qed.

(** A popped entry of least distance fixes its vertex, and its distance is the recorded one. *)
Lemma core_fix : forall Rx done Dv v d q, core Rx done Dv ((v, d) :: q) -> ~ In v done ->
  (forall y, In y q -> dle d (snd y)) ->
  Dv v = Some d /\ v < n /\ core (fun u k => Rx u k) (done ++ [v]) Dv q /\ (forall u du, In u (done ++ [v]) -> Dv u = Some du -> dle du d).
Proof.
  intros Rx done Dv v d q C Hv Hm.
  assert (Dvv : Dv v = Some d).
  { destruct (c_lab _ _ _ _ C v d) as (dv & A & B); [left; auto|]. destruct (c_in _ _ _ _ C v dv A) as [E|[E|E]]; [contradiction| |].
    - injection E as <-. auto.
    - rewrite (dle_antisym D dv d B (Hm (v, dv) E)) in A. auto. }
  assert (Vn : v < n) by (apply (walk_lt v d); apply (c_q _ _ _ _ C); left; auto).
  assert (Hle : forall u du, In u (done ++ [v]) -> Dv u = Some du -> dle du d).
  { intros u du Hu E. apply in_app_or in Hu. destruct Hu as [Hu|[<-|[]]].
    - apply (c_min _ _ _ _ C u v d du Hu); auto. left; auto.
    - assert (du = d) by congruence. subst. apply dle_refl. }
  split; [auto|split; [auto|split; [|auto]]].
  destruct C. split; auto.
  - apply Permutation_NoDup with (v :: done); [apply Permutation_cons_append|constructor; auto].
  - intros u H. apply in_app_or in H. destruct H as [H|[<-|[]]]; auto.
  - intros; apply c_q0; right; auto.
  - intros v0 d0 H. destruct (c_in0 v0 d0 H) as [A|[A|A]]; auto.
    + left. apply in_or_app; auto.
    + injection A as -> ->. left. apply in_or_app; cbn; auto.
  - intros u k A B. apply in_or_app. left. eauto.
  - intros u H. apply in_app_or in H. destruct H as [H|[<-|[]]]; eauto.
  - intros u v0 d0 du A B E. eapply dle_trans; [apply (Hle u du A E)|apply (Hm _ B)].
  - intros i j u v0 du dv Hij Hi Hj Eu Ev. destruct (Nat.eq_dec j (length done)) as [->|Hne].
    + rewrite nth_error_app2, Nat.sub_diag in Hj by lia. cbn in Hj. injection Hj as <-. rewrite Dvv in Ev. injection Ev as <-.
      apply (Hle u du); auto. eapply nth_error_In; eauto.
    + assert (j < length done).
      { assert (j < length (done ++ [v])) by (apply nth_error_Some; congruence). rewrite app_length in H. cbn in H. lia. }
      rewrite nth_error_app1 in Hi by lia. rewrite nth_error_app1 in Hj by lia. exact (c_mono0 i j u v0 du dv Hij Hi Hj Eu Ev).
  - intros v0 d0 H. apply c_lab0. right; auto.
Qed.

(** Relaxing one slot of a fixed vertex [v] of label [d], not below any fixed label. *)
Lemma core_skip : forall Rx done Dv q v k, core Rx done Dv q -> In v done -> k < deg v -> tgt v k = None -> core (fun u j => Rx u j \/ (u = v /\ j = k)) done Dv q.
Proof.
  intros Rx done Dv q v k C Hin Hk Ht. destruct C. split; auto.
  - intros u j x [A|(-> & ->)]; [intros Hj Hx; exact (c_relax0 u j x A Hj Hx)|intros _ E; congruence].
  - intros u j [A|(-> & ->)]; eauto.
Qed.
Lemma core_noop : forall Rx done Dv q v k d x dx, core Rx done Dv q -> In v done -> tgt v k = Some x -> Dv v = Some d -> Dv x = Some dx -> dle dx (dadd d (wt v x)) ->
  core (fun u j => Rx u j \/ (u = v /\ j = k)) done Dv q.
Proof.
  intros Rx done Dv q v k d x dx C Hin Ht Ev Ex Hle. destruct C. split; auto.
  - intros u j y [A|(-> & ->)] Hj Hy; [eauto|]. assert (x = y) by congruence. subst. exists d, dx. auto.
  - intros u j [A|(-> & ->)]; eauto.
Qed.
(** A superfluous entry may be pushed. *)
Lemma core_extra : forall Rx done Dv q v k d x dx, core Rx done Dv q -> v < n -> k < deg v -> tgt v k = Some x -> Dv v = Some d -> Dv x = Some dx -> dle dx (dadd d (wt v x)) ->
  (forall u du, In u done -> Dv u = Some du -> dle du d) -> core Rx done Dv ((x, dadd d (wt v x)) :: q).
Proof.
  intros Rx done Dv q v k d x dx C Hv Hk Ht Ev Ex Hle Hmax.
  assert (W : Walk x (dadd d (wt v x))).
  { apply w_step; [apply (c_d _ _ _ _ C); auto|]. split; auto. exists k. auto. }
  destruct C. split; auto.
  - intros v0 d0 [E|H]; auto. injection E as <- <-. auto.
  - intros v0 d0 H. destruct (c_in0 v0 d0 H); auto. right; right; auto.
  - intros u v0 d0 du A [B|B] E; [|eauto]. injection B as <- <-. eapply dle_trans; [apply (Hmax u du); auto|apply wt_pos].
  - intros v0 d0 [E|H]; auto. injection E as <- <-. eauto.
Qed.
Lemma core_improve : forall Rx done Dv q v k d x, core Rx done Dv q -> v < n -> k < deg v -> In v done -> tgt v k = Some x -> Dv v = Some d ->
  (forall u du, In u done -> Dv u = Some du -> dle du d) ->
  match Dv x with None => True | Some dx => ~ dle dx (dadd d (wt v x)) end ->
  ~ In x done /\ core (fun u j => Rx u j \/ (u = v /\ j = k)) done (fun y => if y =? x then Some (dadd d (wt v x)) else Dv y) ((x, dadd d (wt v x)) :: q).
Proof.
  intros Rx done Dv q v k d x C Hv Hk Hin Ht Ev Hmax Hx.
  assert (W : Walk x (dadd d (wt v x))).
  { apply w_step; [apply (c_d _ _ _ _ C); auto|]. split; auto. exists k. auto. }
  assert (Nx : ~ In x done).
  { intros I. destruct (c_done _ _ _ _ C x I) as (dx & E). rewrite E in Hx. apply Hx. eapply dle_trans; [apply (Hmax x dx I E)|apply wt_pos]. }
  assert (Sx : ~ S x).
  { intros Hs. rewrite (c_src _ _ _ _ C x Hs) in Hx. apply Hx. eapply walk_pos; eauto. }
  assert (Nv : v <> x) by (intros ->; contradiction).
  assert (Old : forall y, In y done -> (y =? x) = false) by (intros y Hy; apply Nat.eqb_neq; intros ->; contradiction).
  split; auto. destruct C. split; auto.
  - intros v0 d0 [E|H]; auto. injection E as <- <-. auto.
  - intros y dy. destruct (Nat.eqb_spec y x) as [->|Ny]; [intros E; injection E as <-; auto|auto].
  - intros y dy. destruct (Nat.eqb_spec y x) as [->|Ny]; [intros E; injection E as <-; right; left; auto|].
    intros E. destruct (c_in0 y dy E); auto. right; right; auto.
  - intros u j y [A|(-> & ->)] Hj Hy.
    + destruct (c_relax0 u j y A Hj Hy) as (du & dy & E1 & E2 & L).
      rewrite (Old u) by eauto. exists du.
      { destruct (Nat.eqb_spec y x) as [->|Ny]; [|eauto].
        exists (dadd d (wt v x)). split; auto. split; auto. destruct (dle_total D (dadd d (wt v x)) dy) as [T|T]; [eapply dle_trans; eauto|].
        exfalso. rewrite E2 in Hx. contradiction. }
    + assert (x = y) by congruence. subst y. exists d, (dadd d (wt v x)). rewrite (proj2 (Nat.eqb_neq v x)), Nat.eqb_refl by auto.
      split; auto. split; auto. apply dle_refl.
  - intros u j [A|(-> & ->)]; eauto.
  - intros u Hu. rewrite (Old u Hu). auto.
  - intros u y dy du Hu [B|B]; rewrite (Old u Hu); [|eauto]. injection B as <- <-. intros E. eapply dle_trans; [apply (Hmax u du); auto|apply wt_pos].
  - intros i j u y du dy Hij Hi Hj. rewrite (Old u), (Old y) by (eapply nth_error_In; eauto). eauto.
  - intros s Hs. rewrite (proj2 (Nat.eqb_neq s x)); auto. intros ->. contradiction.
  - intros y dy [B|B].
    + injection B as <- <-. rewrite Nat.eqb_refl. eexists. split; [reflexivity|apply dle_refl].
    + destruct (c_lab0 y dy B) as (e & E & L). destruct (Nat.eqb_spec y x) as [->|Ny]; [|eauto]. exists (dadd d (wt v x)). split; auto.
      rewrite E in Hx. destruct (dle_total D (dadd d (wt v x)) e) as [T|T]; [eapply dle_trans; eauto|contradiction].
Qed.

(** When the queue is empty and every fixed vertex is relaxed, labels are least walk lengths. *)
Lemma core_final : forall Rx done Dv, core Rx done Dv [] -> (forall u k, In u done -> k < deg u -> Rx u k) ->
  (forall v d, Dv v = Some d <-> shortest S edge wt v d) /\ (forall v, Dv v = None <-> ~ reachable S edge wt v) /\ visit_order S edge wt done.
Proof.
  intros Rx done Dv C HR.
  assert (A : forall v d, Walk v d -> exists dv, Dv v = Some dv /\ dle dv d).
  { induction 1.
    - exists dz. split; [apply (c_src _ _ _ _ C); auto|apply dle_refl].
    - destruct IHwalk as (du & E1 & L). destruct H0 as (Hu & k & Hk & Ht).
      destruct (c_in _ _ _ _ C u du E1) as [I|[]]. destruct (c_relax _ _ _ _ C u k v (HR u k I Hk) Hk Ht) as (du' & dv & F1 & F2 & L2).
      exists dv. split; auto. assert (du' = du) by congruence. subst. eapply dle_trans; [apply L2|]. apply dadd_mono. auto. }
  assert (B : forall v d, Dv v = Some d <-> shortest S edge wt v d).
  { intros v d. split.
    - intros E. split; [apply (c_d _ _ _ _ C); auto|]. intros d' W. destruct (A v d' W) as (dv & F & L). assert (dv = d) by congruence. subst. auto.
    - intros (W & M). destruct (A v d W) as (dv & F & L). rewrite F. f_equal. apply dle_antisym; auto. apply M. apply (c_d _ _ _ _ C); auto. }
  split; [auto|split].
  - intros v. split.
    + intros E (d & W). destruct (A v d W) as (dv & F & _). congruence.
    + intros N. destruct (Dv v) as [d|] eqn:E; auto. exfalso. apply N. exists d. apply (c_d _ _ _ _ C); auto.
  - split; [apply (c_nd _ _ _ _ C)|split].
    + intros v. split.
      * intros I. destruct (c_done _ _ _ _ C v I) as (d & E). exists d. apply (c_d _ _ _ _ C); auto.
      * intros (d & W). destruct (A v d W) as (dv & F & _). destruct (c_in _ _ _ _ C v dv F) as [I|[]]; auto.
    + intros i j u v d e Hij Hi Hj Su Sv. apply B in Su, Sv. eapply (c_mono _ _ _ _ C); eauto.
Qed.

Lemma core_ext : forall Rx done Dv Dv' q, (forall y, Dv' y = Dv y) -> core Rx done Dv q -> core Rx done Dv' q.
Proof.
  intros Rx done Dv Dv' q X C. destruct C. split.
  - auto.
  - auto.
  - auto.
  - intros v d. rewrite X. auto.
  - intros v d. rewrite X. auto.
  - intros u k v A B E. destruct (c_relax0 u k v A B E) as (du & dv & F). exists du, dv. rewrite !X. auto.
  - auto.
  - intros u A. destruct (c_done0 u A) as (du & F). exists du. rewrite X. auto.
  - intros u v d du. rewrite X. eauto.
  - intros i j u v du dv. rewrite !X. eauto.
  - intros s Hs. rewrite X. auto.
  - intros v d A. destruct (c_lab0 v d A) as (dv & F). exists dv. rewrite X. auto.
Qed.

(** While the slots of the vertex [v], just fixed with label [d], are relaxed; the first [k] are done. *)
Definition inner (v : nat) (d : D) (k : nat) (done : list nat) (Dv : nat -> option D) (q : list (nat * D)) : Prop :=
  core (fun u j => (In u done /\ u <> v) \/ (u = v /\ j < k)) done Dv q /\ In v done /\ v < n /\ Dv v = Some d /\
  forall u du, In u done -> Dv u = Some du -> dle du d.
Definition outer (done : list nat) (Dv : nat -> option D) (q : list (nat * D)) : Prop := core (fun u _ => In u done) done Dv q.

Lemma inner_start : forall done Dv v d q, outer done Dv ((v, d) :: q) -> ~ In v done -> (forall y, In y q -> dle d (snd y)) ->
  inner v d 0 (done ++ [v]) Dv q.
Proof.
  intros done Dv v d q C Hv Hm. destruct (core_fix _ _ _ _ _ _ C Hv Hm) as (A & B & E & F).
  split; [|split; [apply in_or_app; cbn; auto|auto]].
  eapply core_weaken; [|apply E]. intros u k Hk [(X & Y)|(_ & X)]; [|lia]. apply in_app_or in X. destruct X as [X|[X|[]]]; auto. congruence.
Qed.
Lemma inner_end : forall done Dv v d q, inner v d (deg v) done Dv q -> outer done Dv q.
Proof.
  intros done Dv v d q (C & _). eapply core_weaken; [|apply C]. cbn. intros u k Hk Hu. destruct (Nat.eq_dec u v) as [->|]; auto.
Qed.
Lemma inner_skip : forall done Dv v d q k, inner v d k done Dv q -> k < deg v -> tgt v k = None -> inner v d (Datatypes.S k) done Dv q.
Proof.
  intros done Dv v d q k (C & I & R) Hk Ht. split; [|auto]. eapply core_weaken; [|apply (core_skip _ _ _ _ v k C I Hk Ht)].
  cbn. intros u j Hj [X|(-> & X)]; auto. destruct (Nat.eq_dec j k); auto. left. right. split; auto. lia.
Qed.
Lemma inner_noop : forall done Dv v d q k x dx, inner v d k done Dv q -> k < deg v -> tgt v k = Some x -> Dv x = Some dx -> dle dx (dadd d (wt v x)) ->
  inner v d (Datatypes.S k) done Dv q /\ inner v d (Datatypes.S k) done Dv ((x, dadd d (wt v x)) :: q).
Proof.
  intros done Dv v d q k x dx (C & I & Vn & Ev & R) Hk Ht Ex L.
  assert (G : inner v d (Datatypes.S k) done Dv q).
  { split; [|auto]. eapply core_weaken; [|apply (core_noop _ _ _ _ v k d x dx C I Ht Ev Ex L)].
    cbn. intros u j Hj [X|(-> & X)]; auto. destruct (Nat.eq_dec j k); auto. left. right. split; auto. lia. }
  split; auto. destruct G as (C' & G). split; auto. eapply core_extra; eauto.
Qed.
Lemma inner_fixed : forall done Dv v d q k x, inner v d k done Dv q -> k < deg v -> tgt v k = Some x -> In x done ->
  exists dx, Dv x = Some dx /\ dle dx (dadd d (wt v x)).
Proof.
  intros done Dv v d q k x (C & I & Vn & Ev & R) Hk Ht Hx. destruct (c_done _ _ _ _ C x Hx) as (dx & E). exists dx. split; auto.
  eapply dle_trans; [apply (R x dx Hx E)|apply wt_pos].
Qed.
Lemma inner_improve : forall done Dv v d q k x, inner v d k done Dv q -> k < deg v -> tgt v k = Some x ->
  match Dv x with None => True | Some dx => ~ dle dx (dadd d (wt v x)) end ->
  inner v d (Datatypes.S k) done (fun y => if y =? x then Some (dadd d (wt v x)) else Dv y) ((x, dadd d (wt v x)) :: q).
Proof.
  intros done Dv v d q k x (C & I & Vn & Ev & R) Hk Ht Hx.
  destruct (core_improve _ _ _ _ v k d x C Vn Hk I Ht Ev R Hx) as (Nx & C').
  assert (Old : forall y, In y done -> (y =? x) = false) by (intros y Hy; apply Nat.eqb_neq; intros ->; contradiction).
  split; [|split; [auto|split; [auto|split]]].
  - eapply core_weaken; [|apply C']. cbn. intros u j Hj [X|(-> & X)]; auto. destruct (Nat.eq_dec j k); auto. left. right. split; auto. lia.
  - rewrite (Old v I). auto.
  - intros u du Hu. rewrite (Old u Hu). exact (R u du Hu).
Qed.
Lemma inner_perm : forall v d k done Dv q q', Permutation q q' -> inner v d k done Dv q -> inner v d k done Dv q'.
Proof. intros v d k done Dv q q' P (C & R). split; auto. eapply core_perm; eauto. Qed.
Lemma inner_ext : forall v d k done Dv Dv' q, (forall y, Dv' y = Dv y) -> inner v d k done Dv q -> inner v d k done Dv' q.
Proof.
  intros v d k done Dv Dv' q X (C & A & B & E & R). split; [eapply core_ext; eauto|]. split; [auto|split; [auto|split; [rewrite X; auto|]]].
  intros u du. rewrite X. apply R.
Qed.
Lemma outer_start : forall Dv q, (forall s, S s -> Dv s = Some dz) -> (forall v d, Dv v = Some d -> S v /\ d = dz /\ In (v, d) q) ->
  (forall v d, In (v, d) q -> S v /\ d = dz) -> outer [] Dv q.
Proof.
  intros Dv q A B C. split; auto; try (intros; cbn in *; contradiction).
  - constructor.
  - intros v d H. destruct (C v d H) as (X & ->). constructor; auto.
  - intros v d H. destruct (B v d H) as (X & -> & _). constructor; auto.
  - intros v d H. right. apply (B v d H).
  - intros i j u v du dv _ H. destruct i; discriminate.
  - intros v d H. destruct (C v d H) as (X & ->). exists dz. split; auto. apply dle_refl.
Qed.

(** Number of slots not yet scanned. *)
Definition rest (done : list nat) : nat := list_sum (map (fun v => if in_dec Nat.eq_dec v done then 0 else deg v) (seq 0 n)).
Lemma rest_nil : rest [] = list_sum (map deg (seq 0 n)).
Proof. unfold rest. f_equal. Qed.
Lemma sum_change : forall (f g : nat -> nat) l v, NoDup l -> In v l -> (forall u, u <> v -> f u = g u) ->
  list_sum (map f l) + g v = list_sum (map g l) + f v.
Proof.
  unfold list_sum. induction l as [|a l IH]; cbn [map fold_right]; intros v ND Hv H; [contradiction|]. inversion ND; subst. destruct Hv as [->|Hv].
  - assert (E : fold_right Nat.add 0 (map f l) = fold_right Nat.add 0 (map g l)). { f_equal. apply map_ext_in. intros u Hu. apply H. intros ->. contradiction. } lia.
  - rewrite (H a) by (intros ->; contradiction). specialize (IH v H3 Hv H). lia.
Qed.
Lemma rest_fix : forall done v, ~ In v done -> v < n -> rest (done ++ [v]) + deg v = rest done.
Proof.
  intros done v Hv Hn. unfold rest.
  pose proof (sum_change (fun u => if in_dec Nat.eq_dec u (done ++ [v]) then 0 else deg u) (fun u => if in_dec Nat.eq_dec u done then 0 else deg u) (seq 0 n) v (seq_NoDup _ _)) as H.
  cbv beta in H. destruct (in_dec Nat.eq_dec v done); [contradiction|]. destruct (in_dec Nat.eq_dec v (done ++ [v])) as [_|X]; [|exfalso; apply X; apply in_or_app; cbn; auto].
  rewrite H.
  - lia.
  - apply in_seq. lia.
  - intros u Hu. destruct (in_dec Nat.eq_dec u (done ++ [v])) as [X|X], (in_dec Nat.eq_dec u done) as [Y|Y]; auto.
    + apply in_app_or in X. destruct X as [X|[X|[]]]; congruence.
    + exfalso. apply X. apply in_or_app. auto.
Qed.
End Core.

(** Rank tables. *)
Lemma rank_nil : forall n, rank_table [] (repeat None n).
Proof. intros n v k. rewrite nth_repeat. destruct k; split; discriminate. Qed.
Lemma rank_none : forall done ord v, rank_table done ord -> (nth v ord None = None <-> ~ In v done).
Proof.
  intros done ord v H. split.
  - intros E I. apply In_nth_error in I. destruct I as (k & I). apply H in I. congruence.
  - intros N. destruct (nth v ord None) as [k|] eqn:E; auto. apply H in E. apply nth_error_In in E. contradiction.
Qed.
Lemma rank_add : forall done ord v, rank_table done ord -> ~ In v done -> v < length ord -> rank_table (done ++ [v]) (upd ord v (Some (length done))).
Proof.
  intros done ord v H Hv Hl u k. rewrite nth_upd by auto. destruct (Nat.eq_dec v u) as [->|N].
  - split.
    + intros E. injection E as <-. rewrite nth_error_app2, Nat.sub_diag by lia. auto.
    + intros E. destruct (Nat.lt_ge_cases k (length done)).
      * rewrite nth_error_app1 in E by auto. apply nth_error_In in E. contradiction.
      * assert (k < length (done ++ [u])) by (apply nth_error_Some; congruence). rewrite app_length in H1. cbn in H1. f_equal. lia.
  - rewrite (H u k). destruct (Nat.lt_ge_cases k (length done)).
    + rewrite nth_error_app1 by auto. tauto.
    + split; intros E.
      * assert (k < length done) by (apply nth_error_Some; congruence). lia.
      * exfalso. assert (k < length (done ++ [v])) by (apply nth_error_Some; congruence). rewrite app_length in H1. cbn in H1.
        replace k with (length done) in E by lia. rewrite nth_error_app2, Nat.sub_diag in E by lia. cbn in E. congruence.
Qed.
Lemma lt_length : forall n (l : list nat) , NoDup l -> (forall v, In v l -> v < n) -> length l <= n /\ (length l = n <-> forall v, v < n -> In v l).
Proof.
  intros n l ND H. assert (I : incl l (seq 0 n)) by (intros v Hv; apply in_seq; specialize (H v Hv); lia).
  pose proof (NoDup_incl_length ND I) as L. rewrite seq_length in L. split; auto. split.
  - intros E v Hv. assert (incl (seq 0 n) l) by (apply NoDup_length_incl; auto; rewrite seq_length; lia). apply H0. apply in_seq. lia.
  - intros A. assert (incl (seq 0 n) l) by (intros v Hv; apply A; apply in_seq in Hv; lia).
    pose proof (NoDup_incl_length (seq_NoDup n 0) H0). rewrite seq_length in H1. lia.
Qed.
Lemma list_sum_const : forall c l, list_sum (map (fun _ : nat => c) l) = length l * c.
Proof. unfold list_sum. induction l; cbn [map fold_right length Nat.mul]; lia. Qed.
