(** Proofs for CluProps.v: the set of edges, the greedy matching. *)
From Coq Require Import List Arith Bool Reals Lra Lia Sorted Permutation.
Import ListNotations.
From Verif Require Import Imp JagModel JagSpec JagProofs JagProofs2 PrModel CluModel CluSpec.
Open Scope nat_scope.

Lemma ltR_iff : forall a b, ltR a b = true <-> (a < b)%R.
Proof. intros. unfold ltR. destruct (Rlt_dec a b); split; auto; discriminate. Qed.
Lemma ltR_no : forall a b, ltR a b = false <-> (b <= a)%R.
Proof. intros. unfold ltR. destruct (Rlt_dec a b); split; intros; auto; try discriminate; lra. Qed.
Lemma myMin_Rmin : forall a b, myMin a b = Rmin a b.
Proof. intros. unfold myMin, ltR, Rmin. destruct (Rlt_dec a b), (Rle_dec a b); lra. Qed.
Lemma ratio_sym : forall area i j, ratio area i j = ratio area j i.
Proof. intros. unfold ratio. apply Rmin_comm. Qed.

Definition slt (d e : cdata) : Prop := (score d < score e)%R.
Lemma cset_In : forall l d e, In e (cset_insert d l) -> e = d \/ In e l.
Proof.
  induction l as [|a l IH]; intros d e; cbn [cset_insert]; [intros [H|[]]; auto|].
  destruct (ltR (score d) (score a)); [intros [H|H]; auto|].
  destruct (ltR (score a) (score d)); [|auto].
  intros [H|H]; [right; left; auto|]. destruct (IH _ _ H); auto. right. right. auto.
Qed.
Lemma cset_keep : forall l d e, In e l -> In e (cset_insert d l).
Proof.
  induction l as [|a l IH]; intros d e H; [destruct H|]. cbn [cset_insert].
  destruct (ltR (score d) (score a)); [right; auto|].
  destruct (ltR (score a) (score d)); auto. destruct H as [H|H]; [left; auto|right; auto].
Qed.
Lemma cset_has : forall l d, exists e, In e (cset_insert d l) /\ score e = score d.
Proof.
  induction l as [|a l IH]; intros d; cbn [cset_insert]; [exists d; split; [left|]; auto|].
  destruct (ltR (score d) (score a)) eqn:E1; [exists d; split; [left|]; auto|].
  destruct (ltR (score a) (score d)) eqn:E2.
  - destruct (IH d) as (e & He & Es). exists e. split; [right|]; auto.
  - apply ltR_no in E1. apply ltR_no in E2. exists a. split; [left; auto|lra].
Qed.
Lemma cset_sorted : forall l d, StronglySorted slt l -> StronglySorted slt (cset_insert d l).
Proof.
  induction l as [|a l IH]; intros d H; cbn [cset_insert]; [repeat constructor|].
  inversion H as [|? ? H1 H2]; subst. rewrite Forall_forall in H2.
  destruct (ltR (score d) (score a)) eqn:E1.
  - apply ltR_iff in E1. constructor; auto. constructor; auto. apply Forall_forall. intros x Hx. specialize (H2 x Hx). unfold slt in *. lra.
  - destruct (ltR (score a) (score d)) eqn:E2; auto.
    apply ltR_iff in E2. constructor; auto. apply Forall_forall. intros x Hx. destruct (cset_In _ _ _ Hx); subst; auto.
Qed.

Section G.
Variables (adj : list (list nat)) (psup_ind psup : list nat) (area : list R).
Hypothesis HJ : jagged psup_ind psup adj.
Hypothesis HG : graph_ok adj.
Hypothesis HA : length area = length adj.
Hypothesis HP : forall i, i < length adj -> (0 < nth i area 0)%R.
Let n := length adj.
Let ar := fun i => nth i area 0%R.

(** entry k of the table is neighbour j of point i, i < j *)
Definition entry (d : cdata) (i j : nat) : Prop :=
  i < n /\ offs adj i <= ipsup d < offs adj (S i) /\ nth (ipsup d) psup 0 = j /\ In j (nth i adj []) /\ i < j /\ score d = ratio ar i j.
Definition covered (D : list cdata) (i j : nat) : Prop := exists d, In d D /\ score d = ratio ar i j.

Lemma ind_off : psup_ind = offsets adj.
Proof. apply (proj1 (jagged_iff _ _ _ _)) in HJ. apply HJ. Qed.
Lemma arr_cat : psup = concat adj.
Proof. apply (proj1 (jagged_iff _ _ _ _)) in HJ. apply HJ. Qed.
Lemma ind_get : forall i, i <= n -> vget psup_ind i = Some (offs adj i).
Proof. intros. rewrite ind_off. rewrite (vget_nth _ 0) by (rewrite offsets_length; unfold n in *; lia). rewrite offsets_nth by auto. auto. Qed.
Lemma row_at : forall i k, i < n -> k < length (nth i adj []) -> offs adj i + k < offs adj (S i) /\ offs adj i + k < length psup /\ nth (offs adj i + k) psup 0 = nth k (nth i adj []) 0.
Proof.
  intros i k Hi Hk. pose proof (offs_S _ adj i Hi). pose proof (offs_le_total _ adj (S i)). rewrite arr_cat. split; [lia|]. split; [lia|].
  apply (concat_nth _ 0); auto.
Qed.

Lemma edge_set_ok : wp (edge_set n area psup_ind psup) (fun D => StronglySorted slt D /\ (forall d, In d D -> exists i j, entry d i j) /\
  forall i j, i < j -> In j (nth i adj []) -> covered D i j).
Proof.
  unfold edge_set.
  apply (wp_forn _ (fun p D => StronglySorted slt D /\ (forall d, In d D -> exists i j, entry d i j) /\
    forall i j, i < p -> i < j -> In j (nth i adj []) -> covered D i j)); [lia| | |].
  - split; [constructor|]. split; [intros d []|intros; lia].
  - intros p D Hp (H1 & H2 & H3).
    rewrite ind_get by lia. cbn [bind]. rewrite ind_get by lia. cbn [bind].
    replace (p + 1) with (S p) by lia. pose proof (offs_S _ adj p (proj2 Hp)) as Eo.
    apply (wp_forn _ (fun q D => StronglySorted slt D /\ (forall d, In d D -> exists i j, entry d i j) /\
      (forall i j, i < p -> i < j -> In j (nth i adj []) -> covered D i j) /\
      (forall k, offs adj p + k < q -> p < nth k (nth p adj []) 0 -> covered D p (nth k (nth p adj []) 0)))); [lia| | |].
    + repeat split; auto. intros; lia.
    + intros q D' Hq (J1 & J2 & J3 & J4).
      set (k := q - offs adj p). assert (Hk : k < length (nth p adj [])) by (unfold k; lia).
      assert (Eq : q = offs adj p + k) by (unfold k; lia).
      destruct (row_at p k (proj2 Hp) Hk) as (R1 & R2 & R3).
      set (j := nth k (nth p adj []) 0) in *.
      assert (Hin : In j (nth p adj [])) by (apply nth_In; auto).
      destruct (HG _ _ Hin) as (Hj & Hne & Hback).
      rewrite Eq. rewrite (vget_nth _ 0) by auto. cbn [bind]. rewrite R3.
      destruct (j <? p) eqn:Ejp.
      * apply Nat.ltb_lt in Ejp. apply wp_some. split; [auto|]. split; [auto|]. split; [auto|].
        intros k' Hk' Hlt. destruct (Nat.eq_dec k' k); [subst k'; fold j in Hlt; lia|]. apply J4; auto; lia.
      * apply Nat.ltb_ge in Ejp.
        rewrite (vget_nth _ 0%R) by lia. cbn [bind]. rewrite (vget_nth _ 0%R) by lia. cbn [bind].
        pose proof (HP p (proj2 Hp)). pose proof (HP j Hj).
        unfold div, eqR. destruct (Req_EM_T (nth j area 0%R) 0%R); [lra|]. destruct (Req_EM_T (nth p area 0%R) 0%R); [lra|]. cbn [bind].
        rewrite myMin_Rmin. fold (ar p) (ar j). change (Rmin (ar p / ar j) (ar j / ar p)) with (ratio ar p j).
        set (d := CData (ratio ar p j) (offs adj p + k)).
        assert (Hcov : forall a b, covered D' a b -> covered (cset_insert d D') a b).
        { intros a b (e & He & Es). exists e. split; auto. apply cset_keep; auto. }
        apply wp_some. split; [apply cset_sorted; auto|]. split; [|split].
        -- intros e He. destruct (cset_In _ _ _ He) as [->|He']; auto. exists p, j. unfold entry, d. cbn [ipsup score]. repeat split; auto; lia.
        -- intros. apply Hcov. auto.
        -- intros k' Hk' Hlt. destruct (Nat.eq_dec k' k).
           ++ subst k'. destruct (cset_has D' d) as (e & He & Es). exists e. auto.
           ++ apply Hcov. apply J4; auto; lia.
    + intros D' (J1 & J2 & J3 & J4). split; [auto|]. split; [auto|].
      intros i j Hi Hij Hin. destruct (Nat.eq_dec i p); [|apply J3; auto; lia]. subst i.
      apply (In_nth _ _ 0) in Hin. destruct Hin as (k & Hk & <-). apply J4; auto. lia.
  - intros D (H1 & H2 & H3). split; [auto|]. split; [auto|]. intros i j Hij Hin. apply H3; auto.
    destruct (HG _ _ Hin) as (Hj & _ & Hb). destruct (HG _ _ Hb); auto.
Qed.

Lemma edge_ends_ok : forall d i j, entry d i j -> edge_ends d psup_ind psup = Some (i, j).
Proof.
  intros d i j (Hi & Ho & Ej & Hin & Hij & _).
  destruct (HG _ _ Hin) as (Hj & Hne & Hback).
  pose proof (offs_le_total _ adj (S i)) as Ht.
  assert (HL : ipsup d < length psup) by (rewrite arr_cat; lia).
  unfold edge_ends, Find_IndexPoint_From_IndexPsup.
  rewrite (vget_nth _ 0 psup (ipsup d)) by auto. cbn [bind]. rewrite Ej.
  rewrite !ind_get by (unfold n; lia). cbn [bind].
  match goal with |- (bind (forb _ _ ?g _) _) = _ => assert (E : wp (forb (offs adj j) (offs adj (j + 1)) g None) (fun r => r = Some i)) end.
  { replace (j + 1) with (S j) by lia. pose proof (offs_S _ adj j Hj) as Eo.
    apply (wp_forb _ (fun q r => r = None /\ forall k, offs adj j + k < q -> nth k (nth j adj []) 0 <> i)); [lia| | |].
    - split; auto. intros; lia.
    - intros q r Hq (-> & Hno).
      set (k := q - offs adj j). assert (Hk : k < length (nth j adj [])) by (unfold k; lia).
      assert (Eq : q = offs adj j + k) by (unfold k; lia).
      destruct (row_at j k Hj Hk) as (R1 & R2 & R3). rewrite Eq. rewrite (vget_nth _ 0) by auto. cbn [bind]. rewrite R3.
      set (p := nth k (nth j adj []) 0).
      assert (Hp : p < n). { destruct (HG j p) as (? & _); auto. apply nth_In; auto. }
      rewrite ind_get by lia. cbn [bind]. rewrite ind_get by lia. cbn [bind]. replace (p + 1) with (S p) by lia.
      assert (Hneq : p <> i -> ipsup d < offs adj p \/ offs adj (S p) <= ipsup d).
      { intros Hpi. destruct (lt_dec p i).
        - right. pose proof (offs_mono _ adj (S p) i). lia.
        - left. pose proof (offs_mono _ adj (S i) p). lia. }
      destruct (Nat.eq_dec p i) as [->|Hpi].
      + rewrite (proj2 (Nat.ltb_ge _ _)) by lia. rewrite (proj2 (Nat.leb_gt _ _)) by lia. apply wp_some. cbn. auto.
      + assert (Hrest : (None : option nat) = None /\ (forall k0, offs adj j + k0 < S (offs adj j + k) -> nth k0 (nth j adj []) 0 <> i)).
        { split; auto. intros k0 Hk0. destruct (Nat.eq_dec k0 k) as [->|]; auto. apply Hno. lia. }
        destruct (ipsup d <? offs adj p) eqn:E1; [apply wp_some; cbn; exact Hrest|].
        apply Nat.ltb_ge in E1. destruct (Hneq Hpi); [lia|]. rewrite (proj2 (Nat.leb_le _ _)) by lia. apply wp_some. cbn. exact Hrest.
    - intros r (-> & Hno). exfalso. apply (In_nth _ _ 0) in Hback. destruct Hback as (k & Hk & Ek). apply (Hno k); auto. lia. }
  apply wp_ex in E. destruct E as (r & Er & ->). rewrite Er. cbn [bind]. rewrite (proj2 (Nat.ltb_lt _ _)) by auto. reflexivity.
Qed.
End G.

(** map sends exactly the points of the groups to their group *)
Definition mapped (n : nat) (G : list (list nat)) (m : list (option nat)) : Prop :=
  length m = n /\ NoDup (concat G) /\ (forall i, In i (concat G) -> i < n) /\ forall i c, i < n -> nth i m None = Some c <-> In i (nth c G []).
Lemma in_group : forall (G : list (list nat)) i, In i (concat G) <-> exists c, In i (nth c G []).
Proof.
  intros. rewrite in_concat. split.
  - intros (g & Hg & Hi). apply (In_nth _ _ []) in Hg. destruct Hg as (c & _ & <-). eauto.
  - intros (c & Hi). exists (nth c G []). split; auto. destruct (lt_dec c (length G)); [apply nth_In; auto|]. rewrite nth_overflow in Hi by lia. destruct Hi.
Qed.
Lemma mapped_none : forall n G m i, mapped n G m -> i < n -> (nth i m None = None <-> ~ In i (concat G)).
Proof.
  intros n G m i (H1 & H2 & H3 & H4) Hi. rewrite in_group. split.
  - intros E (c & Hc). apply H4 in Hc; auto. congruence.
  - intros H. destruct (nth i m None) as [c|] eqn:E; auto. exfalso. apply H. exists c. apply H4; auto.
Qed.
Lemma nodup_app : forall (a b : list nat), NoDup a -> NoDup b -> (forall x, In x a -> In x b -> False) -> NoDup (a ++ b).
Proof.
  induction a as [|x a IH]; intros b Ha Hb H; auto. inversion Ha; subst. cbn. constructor.
  - rewrite in_app_iff. intros [|]; [auto|]. apply (H x); auto. left; auto.
  - apply IH; auto. intros y Hy. apply H. right; auto.
Qed.
Lemma mapped_snoc : forall n G m g m', mapped n G m -> NoDup g -> (forall i, In i g -> i < n /\ nth i m None = None) ->
  length m' = n -> (forall i, i < n -> (In i g -> nth i m' None = Some (length G)) /\ (~ In i g -> nth i m' None = nth i m None)) ->
  mapped n (G ++ [g]) m'.
Proof.
  intros n G m g m' HM Hg Hi Hl Hm. pose proof HM as (H1 & H2 & H3 & H4). split; [auto|].
  assert (Ec : concat (G ++ [g]) = concat G ++ g) by (rewrite concat_app; cbn; rewrite app_nil_r; auto).
  assert (Hdis : forall x, In x (concat G) -> In x g -> False).
  { intros x Hx Hy. destruct (Hi x Hy) as (Hxn & Hn). apply (mapped_none _ _ _ _ HM Hxn) in Hn. auto. }
  split; [rewrite Ec; apply nodup_app; auto|]. split.
  - rewrite Ec. intros i Hin. apply in_app_or in Hin. destruct Hin; auto. apply Hi; auto.
  - intros i c Hin. destruct (Hm i Hin) as (Ha & Hb). destruct (in_dec Nat.eq_dec i g) as [Hy|Hn].
    + rewrite Ha by auto. split.
      * intros E. injection E as <-. rewrite app_nth2, Nat.sub_diag by lia. auto.
      * intros Hc. destruct (lt_dec c (length G)).
        -- exfalso. rewrite app_nth1 in Hc by auto. apply (Hdis i); auto. apply in_group. eauto.
        -- destruct (Nat.eq_dec c (length G)) as [->|]; auto. rewrite app_nth2 in Hc by lia. destruct (c - length G) as [|[|]] eqn:E; [lia| |]; cbn in Hc; destruct Hc.
    + rewrite Hb, H4 by auto. destruct (lt_dec c (length G)).
      * rewrite app_nth1 by auto. tauto.
      * rewrite nth_overflow by lia. rewrite app_nth2 by lia. destruct (c - length G) as [|[|]]; cbn; tauto.
Qed.
Lemma mapped_nil : forall n, mapped n [] (repeat None n).
Proof.
  intros n. split; [apply repeat_length|]. split; [constructor|]. split; [intros i []|].
  intros i c Hi. rewrite nth_repeat. destruct c; cbn; split; try discriminate; intros [].
Qed.
Lemma mapped_two : forall n G m i j, mapped n G m -> i < n -> j < n -> i <> j -> nth i m None = None -> nth j m None = None ->
  mapped n (G ++ [[i; j]]) (upd (upd m i (Some (length G))) j (Some (length G))).
Proof.
  intros n G m i j HM Hi Hj Hij Ei Ej. pose proof HM as (H1 & _). apply (mapped_snoc n G m); auto.
  - constructor; [intros [|[]]; auto|]. repeat constructor. intros [].
  - intros x [<-|[<-|[]]]; auto.
  - rewrite !upd_length. auto.
  - intros x Hx. rewrite !nth_upd by (rewrite ?upd_length; lia).
    destruct (Nat.eq_dec j x), (Nat.eq_dec i x); split; intros; auto; try congruence.
    + exfalso. apply H. right. left. auto.
    + exfalso. apply H. left. auto.
    + destruct H as [|[|[]]]; lia.
Qed.
Lemma mapped_one : forall n G m i, mapped n G m -> i < n -> nth i m None = None -> mapped n (G ++ [[i]]) (upd m i (Some (length G))).
Proof.
  intros n G m i HM Hi Ei. pose proof HM as (H1 & _). apply (mapped_snoc n G m); auto.
  - repeat constructor. intros [].
  - intros x [<-|[]]; auto.
  - rewrite upd_length. auto.
  - intros x Hx. rewrite nth_upd by lia. destruct (Nat.eq_dec i x); split; intros; auto; try congruence.
    + exfalso. apply H. left. auto.
    + destruct H as [|[]]; lia.
Qed.
Lemma mapped_partition : forall n G m, mapped n G m -> (forall i, i < n -> nth i m None <> None) -> partition_of n G m.
Proof.
  intros n G m HM HA. pose proof HM as (H1 & H2 & H3 & H4). split; [|split; auto].
  - apply NoDup_Permutation; auto using seq_NoDup. intros x. rewrite in_seq. split.
    + intros Hx. specialize (H3 x Hx). lia.
    + intros Hx. destruct (in_dec Nat.eq_dec x (concat G)); auto. exfalso. apply (HA x); [lia|]. apply (mapped_none _ _ _ _ HM); auto. lia.
  - intros c i Hc. apply H4; auto. apply H3. apply in_group. eauto.
Qed.
