(** The holes of a mesh: walking along the boundary edges. *)
From Coq Require Import List Arith Lia Bool Relations.
Import ListNotations.
From Verif Require Import Imp DtriModel DtriSpec CollModel CollSpec FanModel FanSpec.

Lemma fst_fun : forall (mp : list (nat * nat)) p q q', NoDup (map fst mp) -> In (p, q) mp -> In (p, q') mp -> q = q'.
Proof.
  induction mp as [|(a, b) mp IH]; intros p q q' Nd H1 H2; [destruct H1|]. inversion Nd as [|? ? N1 N2]; subst.
  destruct H1 as [H1|H1], H2 as [H2|H2]; try congruence.
  - injection H1 as -> ->. destruct N1. apply in_map_iff. exists (p, q'). auto.
  - injection H2 as -> ->. destruct N1. apply in_map_iff. exists (p, q). auto.
  - eapply IH; eauto.
Qed.
Lemma snd_fun : forall (mp : list (nat * nat)) p p' q, NoDup (map snd mp) -> In (p, q) mp -> In (p', q) mp -> p = p'.
Proof.
  induction mp as [|(a, b) mp IH]; intros p q q' Nd H1 H2; [destruct H1|]. inversion Nd as [|? ? N1 N2]; subst.
  destruct H1 as [H1|H1], H2 as [H2|H2]; try congruence.
  - injection H1 as -> ->. destruct N1. apply in_map_iff. exists (q, q'). auto.
  - injection H2 as -> ->. destruct N1. apply in_map_iff. exists (p, q'). auto.
  - eapply IH; eauto.
Qed.
Lemma next_none : forall (mp : list (nat * nat)) p, ~ In p (map fst mp) -> hole_next mp p = [].
Proof.
  intros mp p H. unfold hole_next. replace (filter _ mp) with (@nil (nat * nat)); auto. symmetry.
  induction mp as [|(a, b) mp IH]; auto. cbn [filter fst]. destruct (Nat.eqb_spec a p) as [->|_].
  - destruct H. left. auto.
  - apply IH. intros K. apply H. right. auto.
Qed.
Lemma next_one : forall (mp : list (nat * nat)) p q, NoDup (map fst mp) -> In (p, q) mp -> hole_next mp p = [q].
Proof.
  induction mp as [|(a, b) mp IH]; intros p q Nd H; [destruct H|]. inversion Nd as [|? ? N1 N2]; subst.
  unfold hole_next. cbn [filter fst]. destruct H as [H|H].
  - injection H as -> ->. rewrite Nat.eqb_refl. cbn [map snd]. f_equal. apply next_none. auto.
  - destruct (Nat.eqb_spec a p) as [->|_].
    + destruct N1. apply in_map_iff. exists (p, q). auto.
    + apply IH; auto.
Qed.

Section Graph.
Variables (mp : list (nat * nat)) (npo : nat).
Hypothesis Nf : NoDup (map fst mp).
Hypothesis Ns : NoDup (map snd mp).
Hypothesis Hsf : forall q, In q (map snd mp) -> In q (map fst mp).
Hypothesis Hlt : forall q, In q (map fst mp) -> q < npo.

Definition chain (h : list nat) : Prop := forall n, S n < length h -> In (nth n h 0, nth (S n) h 0) mp.
Definition ringl (h : list nat) : Prop := h <> [] /\ NoDup h /\ chain h /\ In (nth (length h - 1) h 0, nth 0 h 0) mp.
(** the flags: 2 on finished loops, 1 on the other boundary points *)
Definition fl_ok (done : list nat) (flg : list nat) : Prop := length flg = npo /\
  (forall p, In p (map fst mp) -> ~ In p done -> nth p flg 0 = 1) /\ (forall p, In p done -> nth p flg 0 = 2) /\
  (forall p, ~ In p (map fst mp) -> nth p flg 0 = 0).
Definition closed_set (done : list nat) : Prop := forall p q, In (p, q) mp -> (In p done <-> In q done).

Definition walk_inv (seed : nat) (done : list nat) (st : list nat * list nat * list nat) : Prop :=
  let '(stk, hole, flg) := st in
  fl_ok (done ++ hole) flg /\ NoDup hole /\ (forall x, In x hole -> In x (map fst mp) /\ ~ In x done) /\ chain hole /\
  ((hole = [] /\ stk = [seed]) \/
   (hole <> [] /\ nth 0 hole 0 = seed /\ exists q, In (nth (length hole - 1) hole 0, q) mp /\ (stk = [q] \/ (stk = [] /\ q = seed)))).

Lemma hole_len : forall hole, NoDup hole -> (forall x, In x hole -> In x (map fst mp)) -> length hole <= length mp.
Proof. intros h N H. rewrite <- (map_length fst mp). apply NoDup_incl_length; auto. Qed.

Lemma In_dec_nat : forall (x : nat) l, {In x l} + {~ In x l}.
Proof. apply in_dec. apply Nat.eq_dec. Qed.

Lemma walk_ok : forall seed done flg, fl_ok done flg -> closed_set done -> (forall x, In x done -> In x (map fst mp)) ->
  In seed (map fst mp) -> ~ In seed done ->
  wp (hole_walk mp seed flg) (fun r => ringl (fst r) /\ fl_ok (done ++ fst r) (snd r) /\
    (forall x, In x (fst r) -> In x (map fst mp) /\ ~ In x done) /\ closed_set (done ++ fst r)).
Proof.
  intros seed done flg HF HC HD Hseed Nseed. unfold hole_walk. apply wp_bind.
  eapply (wp_whilef _ (fun st => match fst (fst st) with [] => 0 | _ => S (length mp) - length (snd (fst st)) end) (walk_inv seed done)).
  - cbn. lia.
  - cbn. rewrite app_nil_r. split; auto. split; [constructor|]. split; [intros x []|]. split; [intros n Hn; cbn in Hn; lia|]. left; auto.
  - intros ((stk, hole), fl) (F1 & Nd & Hin & Ch & HS) E. cbn [fst snd] in *. destruct stk as [|ip0 stk]; [discriminate|].
    pose proof (hole_len hole Nd (fun x Hx => proj1 (Hin x Hx))) as HL. split; [lia|].
    assert (stk = [] /\ In ip0 (map fst mp) /\ (~ In ip0 done)) as (-> & Hk & Hnd).
    { destruct HS as [(_ & E')|(Hne & H0 & q & Hq & [E'|(E' & _)])]; [injection E' as -> ->; auto| |discriminate].
      injection E' as -> ->. split; auto. split; [apply Hsf; apply in_map_iff; exists (nth (length hole - 1) hole 0, q); auto|].
      intros K. apply (HC _ _ Hq) in K. destruct (Hin (nth (length hole - 1) hole 0)) as (_ & K'); auto. apply nth_In. destruct hole; [congruence|cbn; lia]. }
    pose proof F1 as (Fl & Ff1 & Ff2 & Ff0). rewrite (vget_nth _ 0) by (rewrite Fl; auto). cbn [bind].
    destruct (In_dec_nat ip0 hole) as [Hih|Hih].
    + rewrite (Ff2 ip0) by (apply in_app_iff; auto). cbn [Nat.eqb negb]. apply wp_some. split.
      2:{ cbn [fst snd]. lia. }
      split; auto. split; auto. split; auto. split; auto. right.
      destruct HS as [(-> & _)|(Hne & H0 & q & Hq & [E'|(E' & _)])]; [destruct Hih| |discriminate]. injection E' as <-.
      split; auto. split; auto. exists ip0. split; auto. right. split; auto.
      destruct (In_nth _ _ 0 Hih) as (n & Hn & En). destruct n as [|n]; [congruence|].
      pose proof (Ch n Hn) as K. rewrite En in K. pose proof (snd_fun mp _ _ _ Ns K Hq) as K2.
      assert (n = length hole - 1) by (apply (proj1 (NoDup_nth hole 0) Nd); auto; lia). lia.
    + rewrite (Ff1 ip0); auto. 2:{ intros K. apply in_app_iff in K. tauto. }
      cbn [Nat.eqb negb]. pose proof (Hlt ip0 Hk) as Hl. rewrite vset_upd by lia. cbn [bind].
      apply in_map_iff in Hk. destruct Hk as ((a, q) & Ea & Hq). cbn in Ea. subst a. rewrite (next_one mp ip0 q) by auto. cbn [rev app].
      assert (Hk : In ip0 (map fst mp)) by (apply in_map_iff; exists (ip0, q); auto).
      assert (Nd' : NoDup (hole ++ [ip0])). { apply NoDup_rev in Nd. rewrite <- (rev_involutive (hole ++ [ip0])). apply NoDup_rev. rewrite rev_app_distr. cbn. constructor; auto. rewrite <- in_rev. auto. }
      assert (Hin' : forall x, In x (hole ++ [ip0]) -> In x (map fst mp) /\ ~ In x done).
      { intros x Hx. apply in_app_iff in Hx. destruct Hx as [Hx|[<-|[]]]; auto. }
      apply wp_some. split.
      2:{ cbn [fst snd]. pose proof (hole_len _ Nd' (fun x Hx => proj1 (Hin' x Hx))) as HL'. rewrite !app_length in *. cbn [length] in *. lia. }
      split; [|split; [auto|split; [auto|split]]].
      * unfold fl_ok. split; [rewrite upd_length; auto|]. split; [|split].
        -- intros p Hp Np. rewrite nth_upd_other; [|intros Q; subst ip0; apply Np; rewrite !in_app_iff; cbn; auto]. apply Ff1; auto. intros K. apply Np. rewrite app_assoc. apply in_app_iff; auto.
        -- intros p Hp. destruct (Nat.eq_dec p ip0) as [->|Np]; [apply nth_upd_same; lia|]. rewrite nth_upd_other by auto.
           apply Ff2. rewrite app_assoc in Hp. apply in_app_iff in Hp. destruct Hp as [Hp|[Hp|[]]]; auto; congruence.
        -- intros p Hp. rewrite nth_upd_other; [|intros Q; subst ip0; auto]. apply Ff0; auto.
      * intros n Hn. rewrite app_length in Hn. cbn in Hn. destruct (Nat.eq_dec (S n) (length hole)) as [En|En].
        -- rewrite En, nth_middle, app_nth1 by lia.
           destruct HS as [(-> & _)|(Hne & H0 & q' & Hq' & [E'|(E' & _)])]; [cbn in *; lia| |discriminate]. injection E' as <-.
           replace n with (length hole - 1) by lia. auto.
        -- rewrite !app_nth1 by lia. apply Ch. lia.
      * right. split; [destruct hole; discriminate|]. split.
        -- destruct HS as [(-> & E')|(Hne & H0 & _)]; [injection E' as ->; auto|]. destruct hole; [congruence|auto].
        -- exists q. split; auto. rewrite app_length. cbn. replace (length hole + 1 - 1) with (length hole) by lia. rewrite nth_middle. auto.
  - intros ((stk, hole), fl) (F1 & Nd & Hin & Ch & HS) E. cbn [fst snd] in *. destruct stk as [|]; [|discriminate]. apply wp_some. cbn [fst snd].
    destruct HS as [(_ & E')|(Hne & H0 & q & Hq & [E'|(_ & ->)])]; try discriminate.
    rewrite <- H0 in Hq.
    assert (Hl : length hole <> 0) by (destruct hole; cbn; congruence).
    split; [split; auto|]. split; auto. split; auto.
    intros p q Hpq. rewrite !in_app_iff. rewrite (HC p q Hpq).
    assert (In p hole <-> In q hole); [|tauto]. split; intros K; destruct (In_nth _ _ 0 K) as (n & Hn & En).
    + destruct (Nat.eq_dec (S n) (length hole)) as [El|El].
      * replace n with (length hole - 1) in En by lia. rewrite En in Hq. rewrite (fst_fun mp p q (nth 0 hole 0)); auto. apply nth_In. lia.
      * pose proof (Ch n ltac:(lia)) as K2. rewrite En in K2. rewrite (fst_fun mp p q _ Nf Hpq K2). apply nth_In. lia.
    + destruct n as [|n].
      * rewrite En in Hq. rewrite (snd_fun mp p _ q Ns Hpq Hq). apply nth_In. lia.
      * pose proof (Ch n Hn) as K2. rewrite En in K2. rewrite (snd_fun mp p _ q Ns Hpq K2). apply nth_In. lia.
Qed.

Lemma seed_ok : forall done flg, fl_ok done flg -> wp (hole_seed npo flg) (fun r => match r with
  | Some p => In p (map fst mp) /\ ~ In p done | None => forall p, In p (map fst mp) -> In p done end).
Proof.
  intros done flg (Fl & Ff1 & Ff2 & Ff0). unfold hole_seed.
  apply (wp_forb _ (fun n r => r = None /\ forall p, p < n -> In p (map fst mp) -> In p done)).
  - lia.
  - split; auto. intros; lia.
  - intros i r Hi (-> & H). rewrite (vget_nth _ 0) by lia. cbn [bind]. destruct (Nat.eqb_spec (nth i flg 0) 1) as [E|E]; apply wp_some; cbn [fst snd].
    + split.
      * destruct (In_dec_nat i (map fst mp)) as [K|K]; auto. rewrite (Ff0 i K) in E. discriminate.
      * intros K. rewrite (Ff2 i K) in E. discriminate.
    + split; auto. intros p Hp K. destruct (Nat.eq_dec p i) as [->|N]; [|apply H; auto; lia].
      destruct (In_dec_nat i done) as [K'|K']; auto. destruct E. auto.
  - intros r (-> & H). intros p Hp. apply H; auto.
Qed.

Definition holes_inv (n : nat) (st : list (list nat) * list nat) : Prop :=
  let '(hs, flg) := st in
  n <= length (concat hs) /\ NoDup (concat hs) /\ Forall ringl hs /\ fl_ok (concat hs) flg /\ closed_set (concat hs) /\
  (forall x, In x (concat hs) -> In x (map fst mp)).
Lemma holes_ok : forall flg, fl_ok [] flg ->
  wp ('(holes, _) <- forb 0 npo (fun _ st =>
      let '(holes, flg) := st in
      s <- hole_seed npo flg ;;
      match s with
      | None => Some (st, true)
      | Some ip =>
        '(hole, flg) <- hole_walk mp ip flg ;;
        Some ((holes ++ [hole], flg), false)
      end) ([], flg) ;;
    Some holes) (fun hs => NoDup (concat hs) /\ Forall ringl hs /\ (forall x, In x (concat hs) <-> In x (map fst mp))).
Proof.
  intros flg HF. apply wp_bind. eapply wp_mono.
  { apply (wp_forb _ holes_inv (fun st => NoDup (concat (fst st)) /\ Forall ringl (fst st) /\ (forall x, In x (concat (fst st)) <-> In x (map fst mp)))).
    - lia.
    - cbn. split; auto. split; [constructor|]. split; [constructor|]. split; auto. split; [intros p q _; tauto|intros x []].
    - intros i (hs, fl) Hi (H1 & H2 & H3 & H4 & H5 & H6). apply wp_bind. eapply wp_mono; [apply (seed_ok (concat hs)); auto|].
      intros [ip|]; intros K.
      + destruct K as (K1 & K2). apply wp_bind. eapply wp_mono; [apply (walk_ok ip (concat hs)); auto|].
        intros (hole, fl') (W1 & W2 & W3 & W4). cbn [fst snd] in *. apply wp_some. cbn [fst snd]. unfold holes_inv. rewrite concat_app. cbn [concat]. rewrite app_nil_r.
        split; [rewrite app_length; destruct W1 as (W1 & _); destruct hole; [congruence|cbn; lia]|].
        split.
        { destruct W1 as (_ & W1 & _). clear - H2 W1 W3. induction (concat hs) as [|a l IH]; auto. cbn. inversion H2; subst. constructor.
          - intros K. apply in_app_iff in K. destruct K as [K|K]; auto. apply W3 in K. destruct K as (_ & K). apply K. left; auto.
          - apply IH; auto. intros x Hx. destruct (W3 x Hx). split; auto. intros K. apply H0. right; auto. }
        split; [apply Forall_app; auto|]. split; auto. split; auto. intros x Hx. apply in_app_iff in Hx. destruct Hx as [Hx|Hx]; auto. apply W3; auto.
      + apply wp_some. cbn [fst snd]. split; auto. split; auto. intros x. split; auto.
    - intros (hs, fl) (H1 & H2 & H3 & H4 & H5 & H6). cbn [fst]. split; auto. split; auto. intros x. split; auto. intros Hx.
      assert (incl (seq 0 npo) (concat hs)).
      { apply NoDup_length_incl; auto. rewrite seq_length. auto. intros y Hy. apply in_seq. specialize (Hlt y (H6 y Hy)). lia. }
      apply H. apply in_seq. specialize (Hlt x Hx). lia. }
  intros (hs, fl) H. apply wp_some. exact H.
Qed.
End Graph.
