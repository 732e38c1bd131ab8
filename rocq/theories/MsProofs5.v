(** What solving the condensed system means; when the extended pattern suffices. *)
From Coq Require Import List Arith Bool ZArith Lia Ring.
Import ListNotations.
From Verif Require Import Imp Alg SpModel SpSpec SpProofs1 JagModel JagSpec JagProofs JagProofs2 MsModel MsSpec MsProofs1 MsProofs2 MsProofs3 MsProofs4.

Section P.
Variable K : cring.
Add Ring Kr : (rlaws K).
Local Open Scope K_scope.

Lemma carrier_lt : forall nb n ms k, ms_ok nb n ms -> k < nb * n -> carrier ms k < nb * n /\ is_slave ms (carrier ms k) = false.
Proof.
  intros nb n ms k (L & H) Hk. unfold carrier, is_slave. destruct (nth k ms None) as [m|] eqn:E; [|rewrite E; auto].
  destruct (H k m E) as (H1 & _ & H3). rewrite H3. auto.
Qed.

Lemma regroup_carrier : forall N (c : nat -> nat) (f : nat -> K), (forall k, k < N -> c k < N) ->
  sumn N f = sumn N (fun i => sumn N (fun k => if c k =? i then f k else 0)).
Proof.
  intros N c f Hc. rewrite sumn_swap. apply sumn_ext. intros k Hk.
  rewrite (sumn_ext _ _ _ (fun i => if i =? c k then f k else 0)) by (intros; rewrite Nat.eqb_sym; auto).
  rewrite (sumn_pick K N (c k) (fun _ => f k)); auto.
Qed.

Lemma ifm : forall (b : bool) (x y : K), (if b then x else 0) * y = if b then x * y else 0.
Proof. intros [] x y; ring. Qed.

Section Sol.
Variables (A B : matsp K) (ms : list (option nat)).
Notation N := (nrowblk A * nrowdim A)%nat.
Hypothesis MS : ms_ok (nrowblk A) (nrowdim A) ms.
Hypothesis HB : forall i j, i < N -> j < N ->
  ent B i j = if is_slave ms i || is_slave ms j then (if i =? j then 1 else 0) else condensed A ms i j.
Notation c := (carrier ms).

Lemma no_carrier : forall i k, k < N -> is_slave ms i = true -> (c k =? i) = false.
Proof.
  intros i k Hk Hi. apply Nat.eqb_neq. intros <-. destruct (carrier_lt _ _ _ _ MS Hk) as (_ & E). congruence.
Qed.
Lemma condensed_slave : forall i j, is_slave ms j = true -> condensed A ms i j = 0.
Proof.
  intros i j Hj. unfold condensed. cbv zeta. apply sumn_zero. intros k Hk. apply sumn_zero. intros l Hl.
  rewrite (no_carrier j l) by auto. destruct (c k =? i); auto.
Qed.
(** the condensed row applied to x is the row of A applied to the expanded vector *)
Lemma condensed_row : forall (x : nat -> K) i, i < N -> is_slave ms i = false ->
  sumn N (fun j => ent B i j * x j) = sumn N (fun k => if c k =? i then sumn N (fun l => ent A k l * x (c l)) else 0).
Proof.
  intros x i Hi Hs.
  rewrite (sumn_ext _ N _ (fun j => condensed A ms i j * x j)).
  2:{ intros j Hj. rewrite HB by auto. rewrite Hs. cbn [orb]. destruct (is_slave ms j) eqn:Fj; auto.
      rewrite condensed_slave by auto. destruct (Nat.eqb_spec i j) as [<-|]; [congruence|]. auto. }
  rewrite (sumn_ext _ N _ (fun j => sumn N (fun k => sumn N (fun l => if c k =? i then (if c l =? j then ent A k l * x (c l) else 0) else 0)))).
  2:{ intros j Hj. unfold condensed. cbv zeta. rewrite <- sumn_mulr. apply sumn_ext. intros k Hk. rewrite <- sumn_mulr. apply sumn_ext. intros l Hl.
      destruct (c k =? i); [|ring]. destruct (Nat.eqb_spec (c l) j) as [<-|]; ring. }
  rewrite sumn_swap. apply sumn_ext. intros k Hk. destruct (c k =? i).
  - rewrite (regroup_carrier N c (fun l => ent A k l * x (c l))); auto. intros l Hl. apply (carrier_lt _ _ _ _ MS Hl).
  - apply sumn_zero. intros j Hj. apply sumn_zero. auto.
Qed.

Lemma solution_ok : forall (b b' x : nat -> K),
  (forall i, i < N -> b' i = if is_slave ms i then 0 else condensed_rhs N b ms i) ->
  (forall i, i < N -> sumn N (fun j => ent B i j * x j) = b' i) ->
  (forall i, i < N -> is_slave ms i = true -> x i = 0) /\ constrained_solution A ms b (fun k => x (c k)).
Proof.
  intros b b' x Hb Hx. split.
  - intros i Hi Hs. specialize (Hx i Hi). rewrite Hb, Hs in Hx by auto.
    rewrite (sumn_ext _ N _ (fun j => if j =? i then x j else 0)) in Hx.
    + rewrite sumn_pick in Hx by auto. auto.
    + intros j Hj. rewrite HB by auto. rewrite Hs. cbn [orb]. rewrite Nat.eqb_sym. destruct (j =? i); ring.
  - unfold constrained_solution. cbv zeta. split.
    + intros k Hk. f_equal. destruct (carrier_lt _ _ _ _ MS Hk) as (_ & E). unfold carrier at 2. unfold is_slave in E.
      destruct (nth (c k) ms None); [discriminate|auto].
    + intros v Hv.
      rewrite (regroup_carrier N c) by (intros k Hk; apply (carrier_lt _ _ _ _ MS Hk)).
      rewrite (regroup_carrier N c (fun k => v k * b k)) by (intros k Hk; apply (carrier_lt _ _ _ _ MS Hk)).
      apply sumn_ext. intros i Hi. destruct (is_slave ms i) eqn:Fi.
      * rewrite !sumn_zero; auto; intros k Hk; rewrite no_carrier; auto.
      * rewrite (sumn_ext _ N _ (fun k => v i * (if c k =? i then sumn N (fun l => ent A k l * x (c l)) else 0))).
        2:{ intros k Hk. destruct (Nat.eqb_spec (c k) i) as [<-|]; [rewrite <- Hv by auto; ring|ring]. }
        rewrite sumn_mull, <- condensed_row by auto. rewrite Hx, Hb, Fi by auto. unfold condensed_rhs. rewrite <- sumn_mull.
        apply sumn_ext. intros k Hk. destruct (Nat.eqb_spec (c k) i) as [<-|]; [rewrite <- Hv by auto; ring|ring].
Qed.

Lemma solution_complete : forall (b b' u : nat -> K),
  (forall i, i < N -> b' i = if is_slave ms i then 0 else condensed_rhs N b ms i) ->
  constrained_solution A ms b u ->
  forall i, i < N -> sumn N (fun j => ent B i j * (if is_slave ms j then 0 else u j)) = b' i.
Proof.
  intros b b' u Hb (Hu & Hw) i Hi. cbv zeta in *. rewrite Hb by auto. destruct (is_slave ms i) eqn:Fi.
  - apply sumn_zero. intros j Hj. rewrite HB by auto. rewrite Fi. cbn [orb]. destruct (Nat.eqb_spec i j) as [<-|]; [rewrite Fi; ring|ring].
  - rewrite condensed_row by auto. unfold condensed_rhs.
    assert (Hcons : @consistent K N ms (fun k => if c k =? i then 1 else 0)).
    { intros k Hk. destruct (carrier_lt _ _ _ _ MS Hk) as (_ & E). unfold carrier at 2. unfold is_slave in E.
      destruct (nth (c k) ms None); [discriminate|auto]. }
    specialize (Hw _ Hcons).
    rewrite (sumn_ext _ N _ (fun k => (if c k =? i then 1 else 0) * sumn N (fun l => ent A k l * u l))).
    2:{ intros k Hk. destruct (c k =? i); [|ring].
        rewrite (sumn_ext _ N (fun l => ent A k l * (if is_slave ms (c l) then 0 else u (c l))) (fun l => ent A k l * u l)); [ring|].
        intros l Hl. destruct (carrier_lt _ _ _ _ MS Hl) as (_ & E). rewrite E, <- Hu by auto. auto. }
    rewrite Hw. apply sumn_ext. intros k Hk. destruct (c k =? i); ring.
Qed.
End Sol.

(** the stored blocks of a matrix with a given jagged pattern *)
Lemma jag_pattern : forall (A : matsp K) rows, jagged (col_ind A) (row_ptr A) rows -> forall I J, I < length rows ->
  (in_pattern A I J <-> In J (nth I rows [])).
Proof.
  intros A rows (Ea & Ei) I J HI. fold (offs rows) in Ei. change (col_ind A = offsets rows) in Ei.
  unfold in_pattern, row_range, ci, rp. rewrite Ea, Ei, !offsets_nth by lia. rewrite <- (concat_slice _ rows I HI).
  pose proof (offs_mono _ rows I (S I) ltac:(lia)) as Hm. pose proof (offs_le_total _ rows (S I)) as Ht.
  assert (X : forall k, k < offs rows (S I) - offs rows I ->
     nth k (firstn (offs rows (S I) - offs rows I) (skipn (offs rows I) (concat rows))) 0%nat = nth (offs rows I + k) (concat rows) 0%nat).
  { intros k Hk. rewrite <- nth_skipn'. rewrite <- (firstn_skipn (offs rows (S I) - offs rows I) (skipn (offs rows I) (concat rows))) at 2.
    rewrite nth_app_l; auto. rewrite firstn_length, skipn_length. lia. }
  split.
  - intros (c & Hc & <-). apply in_seq in Hc.
    replace (nth c (concat rows) 0%nat) with (nth (c - offs rows I) (firstn (offs rows (S I) - offs rows I) (skipn (offs rows I) (concat rows))) 0%nat).
    + apply nth_In. rewrite firstn_length, skipn_length. lia.
    + rewrite X by lia. f_equal. lia.
  - intros H. apply (In_nth _ _ 0%nat) in H. destruct H as (k & Hk & <-). rewrite firstn_length, skipn_length in Hk.
    exists (offs rows I + k)%nat. split; [apply in_seq; lia|]. symmetry. apply X. lia.
Qed.

Lemma closed_ok : forall (A : matsp K) ms rows rows', ms_ok (nrowblk A) (nrowdim A) ms -> graph_ok (nrowdim A) ms rows ->
  jagged (col_ind A) (row_ptr A) rows' -> length rows' = nrowblk A ->
  (forall p, p < nrowblk A -> forall j, In j (nth p rows' []) <-> j <> p /\ reach (nrowdim A) ms rows p j) ->
  ms_closed A ms.
Proof.
  intros A ms rows rows' MS HG HJ HL HR k m E s i. destruct (ms_facts _ _ _ MS _ _ E) as (F1 & F2 & F3 & F4 & F5).
  destruct (idx_dof _ A k F1) as (K1 & _ & K3 & K4). destruct (idx_dof _ A m F2) as (M1 & _ & M3 & M4).
  fold s i in F5, K1, K4, M1, M4.
  assert (Hsl : node_slave (nrowdim A) ms s i).
  { exists (k mod nrowdim A), m. repeat split; auto. rewrite <- K4. auto. }
  destruct (HG s i Hsl) as (G1 & G2 & G3).
  assert (P : forall I J, I < nrowblk A -> in_pattern A I J <-> J <> I /\ reach (nrowdim A) ms rows I J).
  { intros I J HI. rewrite (jag_pattern A rows' HJ) by lia. apply HR; auto. }
  split; [rewrite P by auto; tauto|]. split; [rewrite P by auto; split; [auto|]; right; left; auto|]. split.
  { rewrite P by auto. split; [auto|]. destruct G1 as [G1|G1]; [left; auto|right; right; right; auto]. }
  split.
  - intros j Hj. apply P in Hj; auto. destruct Hj as (Hn & [X|[X|[(s' & X & _)|(t & X1 & X2)]]]).
    + destruct (Nat.eq_dec j i) as [->|Hji]; auto. right. apply P; auto. split; auto. right. right. left. exists s. auto.
    + (* a slave of s: s would be both *) exfalso. destruct (HG j s X) as (_ & _ & G). apply (G i Hsl).
    + exfalso. destruct (HG s' s X) as (_ & _ & G). apply (G i Hsl).
    + destruct (G2 t j) as [->|R]; auto. destruct (Nat.eq_dec j i) as [->|Hji]; auto. right. apply P; auto.
  - intros r Hr Hrs. apply P in Hrs; auto. destruct Hrs as (Hn & X). destruct (Nat.eq_dec r i) as [->|Hri]; [auto|]. right. apply P; auto.
    split; [auto|]. destruct X as [X|[X|[(s' & X1 & X2)|(t & X1 & X2)]]].
    + right. right. right. exists s. auto.
    + destruct (HG s r X) as (_ & G & _). destruct (G s i) as [->|R]; auto. contradiction.
    + destruct (HG s' r X1) as (_ & G & _). destruct (G s i) as [->|R]; auto. contradiction.
    + exfalso. destruct (HG t s X2) as (_ & _ & G). apply (G i Hsl).
Qed.

(** one rigid cluster *)
Lemma cluster_ok : forall n ms rows i0,
  (forall s i, node_slave n ms s i -> i = i0) -> (forall k, ~ node_slave n ms i0 k) ->
  (forall s, node_slave n ms s i0 -> In i0 (nth s rows []) \/ exists t, In t (nth s rows []) /\ node_slave n ms t i0) ->
  graph_ok n ms rows.
Proof.
  intros n ms rows i0 H1 H2 H3 s i Hs. assert (i = i0) by eauto. subst. split; auto. split; auto. intros t k _ Ht. left. eauto.
Qed.
End P.
