(** SetMasterSlave condenses the matrix; setRHS_MasterSlave condenses the load. *)
From Coq Require Import List Arith Bool ZArith Lia Ring.
Import ListNotations.
From Verif Require Import Imp Alg SpModel SpSpec SpProofs1 SpProofs4 SpProofs5 MsModel MsSpec MsProofs1 MsProofs2.

Section P.
Variable K : cring.
Add Ring Kr : (rlaws K).
Local Open Scope K_scope.

Lemma vset2 : forall (s : list K) k x y, (s1 <- vset s k x ;; vset s1 k y) = vset s k y.
Proof.
  intros s k x y. destruct (lt_dec k (length s)) as [H|H].
  - rewrite !vset_upd by auto. cbn [bind]. rewrite vset_upd by (rewrite upd_length; auto). f_equal.
    apply (list_ext _ 0); [rewrite !upd_length; auto|]. intros i Hi. rewrite !nth_upd by (rewrite ?upd_length; auto).
    destruct (Nat.eq_dec k i); auto.
  - rewrite !vset_none by lia. reflexivity.
Qed.

Variable A : matsp K.
Hypothesis WF : wf A.
Hypothesis SQ : square A.
Notation nr := (nrowdim A).
Notation nb := (nrowblk A).
Notation p q a b := (q * (nr * nr) + a * nr + b)%nat.
Notation D := (D K A).
Variable ms : list (option nat).
Hypothesis MS : ms_ok nb nr ms.
Hypothesis CL : ms_closed A ms.
Notation shape := (shape K A).
Notation en M i j := (dense M (i / nr) (i mod nr) (j / nr) (j mod nr)).

Lemma wf_D : forall c d, shape c d -> wf (D c d).
Proof. intros c d (H1 & H2). destruct WF as (W1 & W2 & W3 & W4 & W5 & W6 & W7). repeat split; auto; cbn; congruence. Qed.

Definition bcof : list Z := map (fun f => match f with Some _ => 1%Z | None => 0%Z end) ms.
Lemma bcof_len : length bcof = (nb * nr)%nat.
Proof. unfold bcof. rewrite map_length. apply MS. Qed.
Lemma bcof_fl : forall i, fl bcof i = is_slave ms i.
Proof.
  intros i. unfold fl, bcof, is_slave.
  rewrite (map_nth (fun f : option nat => match f with Some _ => 1%Z | None => 0%Z end) ms None i : nth i (map _ ms) 0%Z = _).
  destruct (nth i ms None); reflexivity.
Qed.
Lemma bcof_get : forall i, vget bcof i = option_map (fun f => match f with Some _ => 1%Z | None => 0%Z end) (vget ms i).
Proof. intros i. unfold bcof, vget. apply nth_error_map. Qed.

Lemma dia_ok : forall c d, shape c d -> length (val_dia A) <> 0%nat ->
  wp (ms_dia A ms d) (fun d' => length d' = length d /\ forall I a b, I < nb -> a < nr -> b < nr ->
      nth (p I a b) d' 0 = if is_slave ms (I * nr + a) || is_slave ms (I * nr + b) then (if a =? b then 1 else 0) else nth (p I a b) d 0).
Proof.
  intros c d Hsh H0. destruct SQ as (SQ1 & SQ2).
  assert (H0' : length (val_dia (D c d)) <> 0%nat) by (cbn; destruct Hsh; congruence).
  pose proof (Dia_ok K (D c d) (wf_D c d Hsh) bcof SQ bcof_len 1 H0') as H. apply wp_ex in H.
  destruct H as (B & HB & d' & -> & Ld & Hd). unfold SetFixedBC_Dia in HB. cbn [D val_dia nrowblk ncolblk nrowdim ncoldim col_ind row_ptr val_crs] in HB, Ld, Hd.
  rewrite <- SQ2, <- SQ1, !Nat.eqb_refl in HB. cbn [assertb bind] in HB.
  destruct (Nat.eqb_spec (length d) 0) as [E|_]; [exfalso; apply H0; destruct Hsh; congruence|]. cbn [negb assertb bind] in HB.
  cbv zeta in HB. unfold ms_dia. cbv zeta.
  match goal with |- wp ?e _ => assert (X : e = Some d') end.
  { match type of HB with bind ?e _ = _ => destruct e as [d''|] eqn:E; [|discriminate]; cbn [bind] in HB; injection HB as ->; rewrite <- E end.
    apply forn_ext. intros iblk s _. apply forn_ext. intros ilen s1 _. rewrite bcof_get. destruct (vget ms _) as [[m|]|]; cbn [option_map bind]; reflexivity. }
  rewrite X. apply wp_some. split; auto. intros I a b HI Ha Hb. rewrite <- SQ2 in Hd. rewrite <- !bcof_fl. apply Hd; auto.
Qed.

Lemma wp_rows_n : forall (R : nat -> K -> K -> Prop) (f : nat -> nat -> list K -> option (list K)) (c : list K) (P : list K -> Prop),
  length c = length (val_crs A) ->
  (forall I q s, I < nb -> In q (row_range A I) -> length s = length c ->
     wp (f I q s) (fun s' => length s' = length s /\
       (forall a b, a < nr -> b < nr -> R (p q a b) (nth (p q a b) s 0) (nth (p q a b) s' 0)) /\
       (forall k, (forall a b, a < nr -> b < nr -> k <> p q a b) -> nth k s' 0 = nth k s 0))) ->
  (forall s', length s' = length c ->
     (forall I q a b, I < nb -> In q (row_range A I) -> a < nr -> b < nr ->
        R (p q a b) (nth (p q a b) c 0) (nth (p q a b) s' 0)) -> P s') ->
  wp (forn 0 nb (fun iblk s =>
        lo <- vget (col_ind A) iblk ;; hi <- vget (col_ind A) (iblk + 1) ;;
        forn lo hi (fun icrs s => f iblk icrs s) s) c) P.
Proof.
  intros R f c P L Hb HP.
  assert (WD : wf (D c (val_dia A))) by (apply wf_D; split; auto).
  pose proof (wp_rows K (D c (val_dia A)) WD R f P) as H. destruct SQ as (_ & E).
  cbn [D val_dia nrowblk ncolblk nrowdim ncoldim col_ind row_ptr val_crs] in H. rewrite <- E in H. exact (H Hb HP).
Qed.

Lemma dof_get' : forall t b, t < nb -> b < nr -> vget ms (t * nr + b) = Some (nth (t * nr + b) ms None).
Proof. intros. apply vget_nth. destruct MS as (L & _). rewrite L. apply idx_lt; auto. Qed.

Lemma zrow_ok : forall c : list K, length c = length (val_crs A) ->
  wp (ms_zrow A ms c) (fun c' => length c' = length c /\ forall I q a b, I < nb -> In q (row_range A I) -> a < nr -> b < nr ->
      nth (p q a b) c' 0 = if is_slave ms (I * nr + a) then 0 else nth (p q a b) c 0).
Proof.
  intros c L. unfold ms_zrow. cbv zeta.
  pose (R1 := fun k (o n : K) => forall I q a b, I < nb -> In q (row_range A I) -> a < nr -> b < nr -> k = p q a b ->
     n = if is_slave ms (I * nr + a) then 0 else o).
  apply (wp_rows_n R1 (fun iblk icrs c => forn 0 nr (fun idim c =>
      f <- vget ms (iblk * nr + idim) ;;
      match f with
      | None => Some c
      | Some idof0 =>
        jblk <- vget (row_ptr A) icrs ;;
        forn 0 nr (fun jdim c =>
          c <- vset c (icrs * (nr * nr) + idim * nr + jdim) (if (idof0 =? jblk * nr + jdim)%nat then - (1) else 0) ;;
          vset c (icrs * (nr * nr) + idim * nr + jdim) 0) c
      end) c)); auto.
  - intros I q s HI Hq Ls. destruct (wf_vget_rp _ _ WF _ _ HI Hq) as (Ev & Hr).
    eapply (wp_own _ 0 (fun a k => a < nr /\ is_slave ms (I * nr + a) = true /\ exists b, b < nr /\ k = p q a b) (fun _ _ n => n = 0)).
    + intros a a' k (Ha & _ & b & Hb & ->) (Ha' & _ & b' & Hb' & E). apply idx3_inj in E; tauto.
    + lia.
    + intros a s' Ha Ls'. rewrite dof_get' by lia. cbn [bind]. unfold is_slave.
      destruct (nth (I * nr + a) ms None) as [m|].
      2:{ apply wp_some. split; auto. intros k. split; [intros (_ & E & _); discriminate|auto]. }
      rewrite Ev. cbn [bind].
      eapply (wp_own _ 0 (fun b k => k = p q a b) (fun _ _ n => n = 0)).
      * intros; lia.
      * lia.
      * intros b s'' Hb Ls''. rewrite vset2. apply vset_own. apply (p_crs _ _ WF SQ s'' I); auto; try lia; congruence.
      * intros s'' L' H1 H2. split; auto. intros k. split.
        -- intros (_ & _ & b & Hb & ->). apply (H1 _ b); auto; lia.
        -- intros Hn. apply H2. intros b Hb ->. apply Hn. split; [lia|]. split; auto. exists b. split; [lia|auto].
    + intros s' L' H1 H2. split; auto. split.
      * intros a b Ha Hb I' q' a' b' HI' Hq' Ha' Hb' E. apply idx3_inj in E; auto. destruct E as (<- & <- & <-).
        rewrite (row_disj _ _ WF I' I q) by auto. destruct (is_slave ms (I * nr + a)) eqn:F.
        -- apply (H1 _ a); [lia|]. split; auto. split; auto. exists b. auto.
        -- apply H2. intros a' Hai (_ & F' & b' & Hb'' & E). apply idx3_inj in E; auto; try lia.
           destruct E as (_ & <- & _). congruence.
      * intros k Hk. apply H2. intros a Ha (_ & _ & b & Hb & ->). apply (Hk a b); auto. lia.
  - intros c' Lc Hc. split; auto. intros I q a b HI Hq Ha Hb. apply (Hc I q a b HI Hq Ha Hb I q a b); auto.
Qed.

Lemma zcol_ok : forall c : list K, length c = length (val_crs A) ->
  wp (ms_zcol A ms c) (fun c' => length c' = length c /\ forall I q a b, I < nb -> In q (row_range A I) -> a < nr -> b < nr ->
      nth (p q a b) c' 0 = if is_slave ms (rp A q * nr + b) then 0 else nth (p q a b) c 0).
Proof.
  intros c L. unfold ms_zcol. cbv zeta.
  pose (R1 := fun k (o n : K) => forall q a b, a < nr -> b < nr -> k = p q a b ->
     n = if is_slave ms (rp A q * nr + b) then 0 else o).
  apply (wp_rows_n R1 (fun iblk icrs c =>
      jblk1 <- vget (row_ptr A) icrs ;;
      forn 0 nr (fun jdim c =>
        f <- vget ms (jblk1 * nr + jdim) ;;
        match f with
        | None => Some c
        | Some idof0 =>
          forn 0 nr (fun idim c =>
            c <- vset c (icrs * (nr * nr) + idim * nr + jdim) (if (idof0 =? iblk * nr + idim)%nat then - (1) else 0) ;;
            vset c (icrs * (nr * nr) + idim * nr + jdim) 0) c
        end) c)); auto.
  - intros I q s HI Hq Ls. destruct (wf_vget_rp _ _ WF _ _ HI Hq) as (Ev & Hr). rewrite Ev. cbn [bind].
    assert (Hr' : rp A q < nb) by (destruct SQ; lia).
    eapply (wp_own _ 0 (fun b k => b < nr /\ is_slave ms (rp A q * nr + b) = true /\ exists a, a < nr /\ k = p q a b) (fun _ _ n => n = 0)).
    + intros b b' k (Hb & _ & a & Ha & ->) (Hb' & _ & a' & Ha' & E). apply idx3_inj in E; tauto.
    + lia.
    + intros b s' Hb Ls'. rewrite dof_get' by lia. cbn [bind]. unfold is_slave.
      destruct (nth (rp A q * nr + b) ms None) as [m|].
      2:{ apply wp_some. split; auto. intros k. split; [intros (_ & E & _); discriminate|auto]. }
      eapply (wp_own _ 0 (fun a k => a < nr /\ k = p q a b) (fun _ _ n => n = 0)).
      * intros a a' k (Ha & ->) (Ha' & E). apply idx3_inj in E; lia.
      * lia.
      * intros a s'' Ha Ls''. rewrite vset2. eapply wp_mono; [apply vset_own; apply (p_crs _ _ WF SQ s'' I); auto; try lia; congruence|].
        intros s3 (L3 & H). split; auto. intros k. split; [intros (_ & ->); apply H; auto|].
        intros Hn. apply H. intros ->. apply Hn. split; [lia|auto].
      * intros s'' L' H1 H2. split; auto. intros k. split.
        -- intros (_ & _ & a & Ha & ->). apply (H1 _ a); auto; lia.
        -- intros Hn. apply H2. intros a Ha (_ & ->). apply Hn. split; [lia|]. split; auto. exists a. split; [lia|auto].
    + intros s' L' H1 H2. split; auto. split.
      * intros a b Ha Hb q' a' b' Ha' Hb' E. apply idx3_inj in E; auto. destruct E as (<- & <- & <-).
        destruct (is_slave ms (rp A q * nr + b)) eqn:F.
        -- apply (H1 _ b); [lia|]. split; auto. split; auto. exists a. auto.
        -- apply H2. intros b' Hbi (_ & F' & a' & Ha'' & E). apply idx3_inj in E; auto; try lia.
           destruct E as (_ & _ & <-). congruence.
      * intros k Hk. apply H2. intros b Hb (_ & _ & a & Ha & ->). apply (Hk a b); auto. lia.
  - intros c' Lc Hc. split; auto. intros I q a b HI Hq Ha Hb. apply (Hc I q a b HI Hq Ha Hb q a b); auto.
Qed.

Lemma carrier_sum : forall (f : nat -> K) i, i < nb * nr -> is_slave ms i = false ->
  sumn (nb * nr) (fun k => if carrier ms k =? i then f k else 0) =
  f i + sumn (nb * nr) (fun k => if match nth k ms None with Some m => m =? i | None => false end then f k else 0).
Proof.
  intros f i Hi Hs. rewrite <- (sumn_pick K (nb * nr) i f Hi), <- sumn_add. apply sumn_ext. intros k Hk.
  unfold carrier. unfold is_slave in Hs. destruct (nth k ms None) as [m|] eqn:E.
  - destruct (Nat.eqb_spec k i) as [->|]; [rewrite E in Hs; discriminate|]. ring.
  - destruct (k =? i); ring.
Qed.

Lemma SetMasterSlave_ok : length (val_dia A) <> 0%nat ->
  wp (SetMasterSlave A ms) (fun B => same_pattern A B /\ wf B /\
    forall i j, i < nb * nr -> j < nb * nr ->
      ent B i j = if is_slave ms i || is_slave ms j then (if i =? j then 1 else 0) else condensed A ms i j).
Proof.
  intros H0. unfold SetMasterSlave.
  apply wp_bind, wp_assertb; [apply negb_true_iff, Nat.eqb_neq; auto|].
  apply wp_bind, wp_assertb; [apply Nat.eqb_eq; symmetry; apply SQ|]. apply wp_bind, wp_assertb; [apply Nat.eqb_eq; symmetry; apply SQ|].
  apply wp_bind. eapply wp_mono; [apply (ms_rows_ok K A WF SQ ms MS CL)|]. intros (c1, d1) (Hsh1 & H1).
  apply wp_bind. eapply wp_mono; [apply (ms_cols_ok K A WF SQ ms MS CL c1 d1 Hsh1)|]. intros (c2, d2) (Hsh2 & H2).
  apply wp_bind. eapply wp_mono; [apply (dia_ok c2 d2); auto|]. intros d3 (Ld3 & H3).
  apply wp_bind. eapply wp_mono; [apply (zrow_ok c2); apply Hsh2|]. intros c3 (Lc3 & H4).
  apply wp_bind. eapply wp_mono; [apply (zcol_ok c3); destruct Hsh2; congruence|]. intros c4 (Lc4 & H5).
  apply wp_some. assert (Hsh : shape c4 d3) by (destruct Hsh2; split; congruence).
  split; [repeat split|]. split; [exact (wf_D c4 d3 Hsh)|]. intros i j Hi Hj.
  change (ent _ i j) with (en (D c4 d3) i j).
  destruct (idx_dof _ A i Hi) as (I1 & _ & I3 & I4). destruct (idx_dof _ A j Hj) as (J1 & _ & J3 & J4).
  assert (Eij : (i =? j) = (i / nr =? j / nr) && (i mod nr =? j mod nr)).
  { rewrite <- (idx_eqb nr) by auto. rewrite <- I4, <- J4. auto. }
  assert (X : en (D c4 d3) i j = if is_slave ms i || is_slave ms j then (if i =? j then 1 else 0) else en (D c2 d2) i j).
  { rewrite !(dense_Dn _ _ SQ).
    rewrite (bigsum_ext _ _ _ _ (fun q => if rp A q =? j / nr then (if is_slave ms i || is_slave ms j then 0 else nth (p q (i mod nr) (j mod nr)) c2 0) else 0)).
    2:{ intros q Hq. destruct (Nat.eqb_spec (rp A q) (j / nr)) as [E|]; auto.
        rewrite (H5 (i / nr)), (H4 (i / nr)) by auto. rewrite E, <- I4, <- J4. destruct (is_slave ms i), (is_slave ms j); auto. }
    destruct (is_slave ms i || is_slave ms j) eqn:F.
    - rewrite bigsum_zero by (intros q Hq; cbv beta; destruct (rp A q =? j / nr); reflexivity). rewrite Eij.
      destruct (Nat.eqb_spec (i / nr) (j / nr)) as [E|]; cbn [andb]; [|ring].
      rewrite H3 by auto. rewrite <- I4. rewrite E, <- J4, F. ring.
    - destruct (Nat.eqb_spec (i / nr) (j / nr)) as [E|]; [|ring].
      rewrite H3 by auto. rewrite <- I4. rewrite E, <- J4, F. ring. }
  rewrite X. destruct (is_slave ms i) eqn:Fi; [reflexivity|]. destruct (is_slave ms j) eqn:Fj; [reflexivity|]. cbn [orb].
  unfold condensed. cbv zeta. rewrite H2 by auto.
  rewrite <- (carrier_sum (fun l => en (D c1 d1) i l) j Hj Fj). rewrite sumn_swap. apply sumn_ext. intros l Hl.
  rewrite H1 by auto. rewrite <- (carrier_sum (fun k => en A k l) i Hi Fi).
  destruct (carrier ms l =? j).
  - apply sumn_ext. intros k Hk. destruct (carrier ms k =? i); reflexivity.
  - symmetry. apply sumn_zero. intros k Hk. destruct (carrier ms k =? i); reflexivity.
Qed.

(** the load *)
Lemma setRHS_ok : forall b : list K, length b = (nb * nr)%nat ->
  wp (setRHS_MasterSlave b (nb * nr) ms) (fun b' => length b' = length b /\ forall i, i < nb * nr -> nth i b' 0 = if is_slave ms i then 0 else condensed_rhs (nb * nr) (fun k => nth k b 0) ms i).
Proof.
  intros b L. unfold setRHS_MasterSlave.
  apply (wp_forn _ (fun h b' => length b' = length b /\ forall i, i < nb * nr -> nth i b' 0 =
     if is_slave ms i then (if i <? h then 0 else nth i b 0)
     else nth i b 0 + sumn h (fun k => if match nth k ms None with Some m => m =? i | None => false end then nth k b 0 else 0))); [lia| | |].
  - split; auto. intros i Hi. rewrite sumn_0, (proj2 (Nat.ltb_ge i 0)) by lia. destruct (is_slave ms i); ring.
  - intros h b' Hh (L' & H). rewrite (vget_nth _ None) by (destruct MS; lia). cbn [bind].
    destruct (nth h ms None) as [m|] eqn:E.
    2:{ apply wp_some. split; auto. intros i Hi. rewrite H by auto. rewrite sumn_S, E, ltb_S.
        destruct (is_slave ms i) eqn:F; [|ring]. destruct (Nat.eqb_spec i h) as [->|]; [|rewrite orb_false_r; auto].
        unfold is_slave in F. rewrite E in F. discriminate. }
    destruct (ms_facts _ _ _ MS _ _ E) as (F1 & F2 & F3 & F4 & F5).
    assert (Hmh : m <> h) by (intros ->; congruence).
    rewrite (vget_nth _ 0) by lia. cbn [bind]. apply wp_bind.
    eapply wp_mono; [apply vmod_own; lia|]. intros b1 (L1 & G1).
    eapply wp_mono; [apply vset_own; lia|]. intros b2 (L2 & G2). split; [congruence|]. intros i Hi.
    rewrite sumn_S, E, ltb_S. destruct (Nat.eq_dec i h) as [->|Hn].
    + rewrite (proj1 (G2 h)) by auto. unfold is_slave. rewrite E, Nat.eqb_refl, orb_true_r. auto.
    + rewrite (proj2 (G2 i)) by auto. destruct (Nat.eqb_spec i h) as [|_]; [contradiction|]. rewrite orb_false_r.
      destruct (Nat.eq_dec i m) as [->|Hm].
      * rewrite (proj1 (G1 m)) by auto. rewrite H by auto. rewrite (H h) by auto. unfold is_slave. rewrite F4, E, Nat.eqb_refl.
        rewrite (proj2 (Nat.ltb_ge h h)) by lia. ring.
      * rewrite (proj2 (G1 i)) by auto. rewrite H by auto. destruct (Nat.eqb_spec m i); [congruence|]. destruct (is_slave ms i); ring.
  - intros b' (L' & H). split; auto. intros i Hi. rewrite H by auto. rewrite (proj2 (Nat.ltb_lt i _)) by auto.
    destruct (is_slave ms i) eqn:F; auto. unfold condensed_rhs. rewrite (carrier_sum _ i Hi F). auto.
Qed.
End P.
