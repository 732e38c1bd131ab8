(** The holes of a mesh: the boundary edges. *)
From Coq Require Import List Arith Lia Bool Relations.
Import ListNotations.
From Verif Require Import Imp DtriModel DtriSpec CollModel CollSpec DtriProofs1 CollProofs1 CollProofs7 FanModel FanSpec FanProofs1 FanProofs3.

Section Edges.
Variables (po : list dpnt) (m : list dtri).
Hypothesis HC : consistent po m.
Let Hm := proj1 HC.

Definition be (c : nat * nat) : nat * nat := (V m (fst c) (nx (snd c)), V m (fst c) (pv (snd c))).
Definition isb (c : nat * nat) : bool := match L m (fst c) (snd c) with None => true | _ => false end.
Definition part (n k : nat) : list (nat * nat) :=
  map be (filter isb (list_prod (seq 0 n) (seq 0 3) ++ map (pair n) (seq 0 k))).
Definition all_be : list (nat * nat) := map be (filter isb (list_prod (seq 0 (length m)) (seq 0 3))).

Lemma prod_snoc : forall A B (a : list A) x (b : list B), list_prod (a ++ [x]) b = list_prod a b ++ map (pair x) b.
Proof. induction a as [|y a IH]; intros x b; cbn; [apply app_nil_r|]. rewrite IH, app_assoc. auto. Qed.
Lemma part_S : forall n k, part n (S k) = part n k ++ map be (filter isb [(n, k)]).
Proof.
  intros. unfold part. rewrite (seq_S k 0), (map_app (pair n)). cbn [map Nat.add]. rewrite app_assoc, (filter_app isb (_ ++ _)), (map_app be). auto.
Qed.
Lemma part_row : forall n, part n 3 = part (S n) 0.
Proof. intros. unfold part. rewrite (seq_S n 0), prod_snoc. cbn [map Nat.add seq]. rewrite app_nil_r. auto. Qed.

Definition ends (l : list (nat * nat)) (p : nat) : Prop := In p (map fst l) \/ In p (map snd l).
Definition edges_inv (l : list (nat * nat)) (st : list (nat * nat) * list nat) : Prop :=
  fst st = l /\ length (snd st) = length po /\ (forall p, ends l p -> nth p (snd st) 0 = 1) /\ (forall p, ~ ends l p -> nth p (snd st) 0 = 0).

Lemma edges_ok : wp (hole_edges (length po) m) (edges_inv all_be).
Proof.
  unfold hole_edges. replace all_be with (part (length m) 0) by (unfold part, all_be; cbn [seq map]; rewrite app_nil_r; auto).
  apply (wp_foldM _ _ (fun l1 => edges_inv (part (length l1) 0))).
  - split; auto. split; [apply repeat_length|]. split; intros p Hp.
    + destruct Hp as [[]|[]].
    + apply nth_repeat.
  - intros l1 x l2 st E HI. rewrite app_length. cbn [length]. rewrite Nat.add_1_r, <- part_row.
    assert (Hl : length l1 < length m) by (rewrite E, app_length; cbn; lia).
    assert (Ex : nth (length l1) m dtri0 = x) by (rewrite E; apply nth_middle).
    apply (wp_forn _ (fun k => edges_inv (part (length l1) k))); auto; try lia.
    intros i (mp, flg) Hi (E1 & F1 & F2 & F3). cbn [fst snd] in *. subst mp.
    rewrite gs_lnk by lia. cbn [bind]. rewrite part_S. cbn [filter]. unfold isb at 1. cbn [fst snd]. unfold L. rewrite Ex.
    destruct (lnk x i) as [j|] eqn:El.
    { apply wp_some. cbn [map]. rewrite app_nil_r. repeat split; auto. }
    change ((i + 1) mod 3) with (nx i). change ((i + 2) mod 3) with (pv i).
    rewrite !gv_vtx by (apply nx_lt || apply pv_lt). cbn [bind map]. unfold be. cbn [fst snd]. unfold V. rewrite Ex.
    assert (B1 : vtx x (nx i) < length flg). { rewrite F1, <- Ex. apply HC; auto. }
    assert (B2 : vtx x (pv i) < length flg). { rewrite F1, <- Ex. apply HC; auto. }
    rewrite vset_upd by auto. cbn [bind]. rewrite vset_upd by (rewrite upd_length; auto). cbn [bind]. apply wp_some.
    split; auto. cbn [fst snd]. split; [rewrite !upd_length; auto|].
    unfold ends. rewrite !map_app. cbn [map fst snd]. split; intros p Hp.
    + destruct (Nat.eq_dec (vtx x (pv i)) p) as [<-|N2]; [apply nth_upd_same; rewrite upd_length; auto|]. rewrite nth_upd_other by auto.
      destruct (Nat.eq_dec (vtx x (nx i)) p) as [<-|N1]; [apply nth_upd_same; auto|]. rewrite nth_upd_other by auto.
      apply F2. destruct Hp as [Hp|Hp]; apply in_app_iff in Hp; destruct Hp as [Hp|[Hp|[]]]; try congruence; [left|right]; auto.
    + rewrite nth_upd_other by (intros Q; apply Hp; right; apply in_app_iff; right; left; auto).
      rewrite nth_upd_other by (intros Q; apply Hp; left; apply in_app_iff; right; left; auto).
      apply F3. intros [Q|Q]; apply Hp; [left|right]; apply in_app_iff; auto.
  - auto.
Qed.

Lemma be_bedge : forall p q, In (p, q) all_be <-> bedge m p q.
Proof.
  intros p q. unfold all_be. rewrite in_map_iff. split.
  - intros ((t, i) & E & H). apply filter_In in H. destruct H as (H & B). apply in_prod_iff in H. destruct H as (H1 & H2). apply in_seq in H1, H2.
    unfold be in E. cbn [fst snd] in E. injection E as E1 E2. exists t, i. split; [lia|]. split; [lia|]. split; auto.
    unfold isb in B. cbn in B. destruct (L m t i); auto; discriminate.
  - intros (t & i & Ht & Hi & HL & E1 & E2). exists (t, i). split; [unfold be; cbn; congruence|]. apply filter_In. split.
    + apply in_prod_iff. split; apply in_seq; lia.
    + unfold isb. cbn. rewrite HL. auto.
Qed.

Hypothesis HM : manifold m.

(** the first corner of a fan is unique, and so is the last *)
Lemma first_uni : forall c c', vc m c -> vc m c' -> P m c = P m c' -> L m (fst c) (pv (snd c)) = None -> L m (fst c') (pv (snd c')) = None -> c = c'.
Proof.
  assert (K : forall c c', vc m c -> L m (fst c') (pv (snd c')) = None -> around m c c' -> c = c').
  { intros c c' Vc N H. apply clos_rt_rtn1 in H. destruct H as [|y c' T H]; auto. exfalso.
    destruct T as (k & T & E). rewrite E, pv_nx in N by apply T. destruct T as (_ & _ & _ & T & _). congruence. }
  intros (t, i) (t', i') Vc Vc' E N N'. pose proof Vc as (H1 & H2). pose proof Vc' as (H3 & H4).
  destruct (proj2 HM t i H1 H2 t' i' H3 H4 (eq_sym E)) as [H|H]; [apply K; auto|symmetry; apply K; auto].
Qed.
Lemma last_uni : forall c c', vc m c -> vc m c' -> P m c = P m c' -> L m (fst c) (nx (snd c)) = None -> L m (fst c') (nx (snd c')) = None -> c = c'.
Proof.
  assert (K : forall c c', vc m c -> L m (fst c) (nx (snd c)) = None -> around m c c' -> c = c').
  { intros c c' Vc N H. apply clos_rt_rt1n in H. destruct H as [|y c' T H]; auto. exfalso.
    apply turn_link in T. congruence. }
  intros (t, i) (t', i') Vc Vc' E N N'. pose proof Vc as (H1 & H2). pose proof Vc' as (H3 & H4).
  destruct (proj2 HM t i H1 H2 t' i' H3 H4 (eq_sym E)) as [H|H]; [apply K; auto|symmetry; apply K; auto].
Qed.

Lemma NoDup_map_inj : forall A B (f : A -> B) l, NoDup l -> (forall x y, In x l -> In y l -> f x = f y -> x = y) -> NoDup (map f l).
Proof.
  induction l as [|a l IH]; intros Nd H; cbn; constructor; inversion Nd; subst.
  - intros K. apply in_map_iff in K. destruct K as (y & E & Hy). rewrite <- (H y a) in H2; auto. right; auto. left; auto.
  - apply IH; auto. intros; apply H; auto; right; auto.
Qed.
Lemma prod_nodup : forall A B (a : list A) (b : list B), NoDup a -> NoDup b -> NoDup (list_prod a b).
Proof.
  induction a as [|x a IH]; intros b Ha Hb; cbn; [constructor|]. inversion Ha; subst.
  assert (G : forall l1 l2 : list (A * B), NoDup l1 -> NoDup l2 -> (forall z, In z l1 -> ~ In z l2) -> NoDup (l1 ++ l2)).
  { induction l1 as [|z l1 IH1]; intros l2 N1 N2 D; auto. cbn. inversion N1; subst. constructor.
    - intros K. apply in_app_iff in K. destruct K as [K|K]; auto. apply (D z); auto. left; auto.
    - apply IH1; auto. intros w Hw. apply D. right; auto. }
  apply G; auto.
  - apply NoDup_map_inj; auto. intros y z _ _ E. congruence.
  - intros (u, v) Hu. apply in_map_iff in Hu. destruct Hu as (y & E & _). injection E as <- <-. intros K. apply in_prod_iff in K. tauto.
Qed.
Lemma bc_nodup : NoDup (filter isb (list_prod (seq 0 (length m)) (seq 0 3))).
Proof. apply NoDup_filter, prod_nodup; apply seq_NoDup. Qed.
Lemma bc_in : forall t i, In (t, i) (filter isb (list_prod (seq 0 (length m)) (seq 0 3))) -> t < length m /\ i < 3 /\ L m t i = None.
Proof.
  intros t i H. apply filter_In in H. destruct H as (H & B). apply in_prod_iff in H. destruct H as (H1 & H2). apply in_seq in H1, H2.
  split; [lia|]. split; [lia|]. unfold isb in B. cbn in B. destruct (L m t i); auto; discriminate.
Qed.
Lemma be_fst : NoDup (map fst all_be).
Proof.
  unfold all_be. rewrite map_map. apply NoDup_map_inj; [apply bc_nodup|]. intros (t, i) (t', i') H1 H2 E. apply bc_in in H1, H2. cbn in E.
  destruct H1 as (A1 & A2 & A3), H2 as (B1 & B2 & B3).
  assert ((t, nx i) = (t', nx i')).
  { apply first_uni; try (split; cbn; auto; apply nx_lt); auto; cbn; rewrite pv_nx; auto. }
  injection H as -> H. apply nx_inj in H; auto.
Qed.
Lemma be_snd : NoDup (map snd all_be).
Proof.
  unfold all_be. rewrite map_map. apply NoDup_map_inj; [apply bc_nodup|]. intros (t, i) (t', i') H1 H2 E. apply bc_in in H1, H2. cbn in E.
  destruct H1 as (A1 & A2 & A3), H2 as (B1 & B2 & B3).
  assert ((t, pv i) = (t', pv i')).
  { apply last_uni; try (split; cbn; auto; apply pv_lt); auto; cbn; rewrite nx_pv; auto. }
  injection H as -> H. f_equal. rewrite <- (nx_pv i), <- (nx_pv i'), H; auto.
Qed.
Lemma be_fst_snd : forall p, In p (map fst all_be) -> In p (map snd all_be).
Proof.
  intros p Hp. apply in_map_iff in Hp. destruct Hp as ((p', q) & E & Hp). cbn in E. subst p'. apply be_bedge in Hp.
  destruct Hp as (t & i & Ht & Hi & HL & E1 & E2).
  assert (Vc : vc m (t, nx i)) by (split; cbn; auto; apply nx_lt).
  destruct (orbit m Hm (t, nx i) Vc) as (l & Pl & Nd & [H|H]).
  - destruct (path_vc m Hm l (t, nx i) Vc Pl _ (lastc_in l (t, nx i))) as (Vl & Ql).
    destruct (lastc (t, nx i) l) as (s, j). destruct Vl as (Hs & Hj). cbn [fst snd] in *.
    apply in_map_iff. exists (V m s (nx (nx j)), p). split; auto. apply be_bedge. exists s, (nx j). split; auto. split; [apply nx_lt|]. split; auto.
    split; auto. rewrite pv_nx by auto. unfold P in Ql. cbn in Ql. congruence.
  - exfalso. destruct H as (k & T & E). cbn [fst snd] in *. apply nx_inj in E; auto; [|apply T]. subst k. destruct T as (_ & _ & _ & T & _). congruence.
Qed.
Lemma be_snd_fst : forall p, In p (map snd all_be) -> In p (map fst all_be).
Proof. apply NoDup_length_incl; [apply be_fst|rewrite !map_length; auto|exact be_fst_snd]. Qed.

Theorem extractHoles_ok : exists hs, extractHoles (length po) m = Some hs /\ loops (bedge m) hs.
Proof.
  assert (W : wp (extractHoles (length po) m) (loops (bedge m))).
  { unfold extractHoles. apply wp_bind. eapply wp_mono; [apply edges_ok|]. intros (mp, flg) (E1 & F1 & F2 & F3). cbn [fst snd] in *. subst mp.
    destruct all_be as [|x r] eqn:Ea.
    - apply wp_some. split; [constructor|]. split; [intros h []|]. intros p q. split.
      + intros H. apply be_bedge in H. rewrite Ea in H. destruct H.
      + intros (h & n & [] & _).
    - rewrite <- Ea in *. eapply wp_mono.
      { apply (holes_ok all_be (length po)); [apply be_fst|apply be_snd|apply be_snd_fst| |].
        - intros p Hp. apply in_map_iff in Hp. destruct Hp as ((p', q) & E & Hp). cbn in E. subst p'. apply be_bedge in Hp.
          destruct Hp as (t & i & Ht & Hi & HL & <- & E2). apply HC; auto.
        - split; auto. split; [|split].
          + intros p Hp _. apply F2. left; auto.
          + intros p [].
          + intros p Hp. apply F3. intros [K|K]; auto. apply Hp, be_snd_fst; auto. }
      intros hs (N & R & All). rewrite Forall_forall in R. split; auto. split; [intros h Hh; apply R; auto|].
      assert (ST : forall h n, In h hs -> n < length h -> In (nth n h 0, nth ((n + 1) mod length h) h 0) all_be).
      { intros h n Hh Hn. destruct (R h Hh) as (R1 & R2 & R3 & R4). destruct (Nat.eq_dec (n + 1) (length h)) as [E|E].
        - rewrite E, Nat.mod_same by lia. replace n with (length h - 1) by lia. auto.
        - rewrite Nat.mod_small by lia. rewrite Nat.add_1_r. apply R3. lia. }
      intros p q. rewrite <- be_bedge. split.
      + intros H. assert (Hp : In p (map fst all_be)) by (apply in_map_iff; exists (p, q); auto).
        apply All in Hp. apply in_concat in Hp. destruct Hp as (h & Hh & Hp). destruct (In_nth _ _ 0 Hp) as (n & Hn & En).
        exists h, n. split; auto. split; auto. split; auto. pose proof (ST h n Hh Hn) as K. rewrite En in K.
        eapply fst_fun; [apply be_fst|exact K|exact H].
      + intros (h & n & Hh & Hn & E1 & E2). rewrite <- E1, <- E2. apply ST; auto. }
  destruct (extractHoles (length po) m) as [hs|]; [|destruct W]. exists hs. split; auto.
Qed.
End Edges.
