From Coq Require Import List Arith Lia Bool.
Import ListNotations.
From Verif Require Import Imp JagModel JagSpec JagProofs JagProofs2 JagProofs3 TopoSpec TopoProofs1 TopoProofs4.
From Verif Require Import DtriModel DtriSpec DtriProofs1 DtriProofs2 DtriProofs3.

Lemma wp_forb' : forall S (I : nat -> S -> Prop) (P : S -> Prop) lo hi (f : nat -> S -> option (S * bool)) s (Q : S -> Prop),
  lo <= hi ->
  I lo s ->
  (forall i s', lo <= i < hi -> I i s' ->
     wp (f i s') (fun r : S * bool => if snd r then P (fst r) else I (Datatypes.S i) (fst r))) ->
  (forall s', I hi s' -> P s') ->
  (forall s', P s' -> Q s') ->
  wp (forb lo hi f s) Q.
Proof. intros. eapply wp_mono; [eapply (wp_forb _ I P); eauto|auto]. Qed.

Section Init.
Variables (tri : list nat) (nt np : nat).
Hypothesis HM : mesh_ok tri nt 3 np.

Lemma it_len : length tri = nt * 3. Proof. apply HM. Qed.
Lemma it_get : forall t i, t < nt -> i < 3 -> vget tri (t * 3 + i) = Some (tv tri t i).
Proof. intros. apply vget_nth. rewrite it_len. lia. Qed.
Lemma it_lt : forall t i, t < nt -> i < 3 -> tv tri t i < np.
Proof.
  intros t i Ht Hi. destruct HM as (Hl & HF). rewrite Forall_forall in HF. apply HF. unfold tv. apply nth_In. lia.
Qed.

Definition verts_ok (m : list dtri) : Prop :=
  length m = nt /\ forall t i, t < nt -> i < 3 -> V m t i = tv tri t i.

Lemma verts_gv : forall m t i, verts_ok m -> t < nt -> i < 3 -> gv (nth t m dtri0) i = Some (tv tri t i).
Proof. intros m t i (Hl & HV) Ht Hi. rewrite gv_vtx by auto. f_equal. apply HV; auto. Qed.

Lemma MakeElSuP_eq : forall e0 m, verts_ok m -> JArray_MakeElSuP e0 m np = JArray_ElSuP_MeshElem e0 tri nt 3 np.
Proof.
  intros e0 m HV. unfold JArray_MakeElSuP, JArray_ElSuP_MeshElem. destruct HV as (Hl & HV). rewrite Hl.
  assert (HV' : verts_ok m) by (split; auto).
  assert (X : forall S (g : nat -> nat -> S -> option S) s,
    forn 0 nt (fun itri s => t <- vget m itri ;; forn 0 3 (fun i s => x <- gv t i ;; g x itri s) s) s =
    forn 0 nt (fun ielem s => forn 0 3 (fun inoel s => ino1 <- vget tri (ielem * 3 + inoel) ;; g ino1 ielem s) s) s).
  { intros S g s. apply forn_ext. intros t s' Ht. rewrite (vget_nth _ dtri0) by lia. cbn [bind].
    apply forn_ext. intros i s'' Hi. rewrite (verts_gv m) by (auto; lia). rewrite it_get by lia. reflexivity. }
  rewrite (X _ (fun x _ => count1 x)).
  apply bind_ext. intro ind. apply bind_ext. intro ind2. apply bind_ext. intro n.
  rewrite (X _ (fun x t => put1 x t)). reflexivity.
Qed.

(** j has an edge whose two ends are both among the ends of edge i of t *)
Definition cover (t i j jed : nat) : Prop :=
  (tv tri j (nx jed) = tv tri t (nx i) \/ tv tri j (nx jed) = tv tri t (pv i)) /\
  (tv tri j (pv jed) = tv tri t (nx i) \/ tv tri j (pv jed) = tv tri t (pv i)).

Definition link_ok (t i : nat) (l : option nat) : Prop :=
  match l with
  | Some j => j < nt /\ j <> t /\ exists jed, jed < 3 /\ cover t i j jed
  | None => forall j jed, j < nt -> j <> t -> jed < 3 -> (exists c, c < 3 /\ tv tri j c = tv tri t (nx i)) -> ~ cover t i j jed
  end.

Lemma MakeInner_lem : forall m ind elsup, verts_ok m ->
  jagged ind elsup (map (elsup_row tri 3 nt) (seq 0 np)) ->
  wp (MakeInnerRelationTri m np ind elsup) (fun f => verts_ok f /\ forall t i, t < nt -> i < 3 -> link_ok t i (L f t i)).
Proof.
  intros m ind elsup HV HJ. unfold MakeInnerRelationTri.
  replace (length m) with nt by (symmetry; apply HV).
  apply wp_bind.
  apply (wp_forn _ (fun t s => verts_ok (fst s) /\ snd s = repeat false np /\
     forall t' i', t' < t -> i' < 3 -> link_ok t' i' (L (fst s) t' i'))).
  - lia.
  - split; auto. split; auto. intros; lia.
  - intros t s00 Ht HI.
    apply (wp_forn _ (fun i s => verts_ok (fst s) /\ snd s = repeat false np /\
     forall t' i', i' < 3 -> t' < t \/ (t' = t /\ i' < i) -> link_ok t' i' (L (fst s) t' i'))).
    + lia.
    + destruct HI as (A1 & A2 & A3). split; auto. split; auto. intros t' i' Hi' [X|X]; auto. lia.
    + intros i [a tmp] Hi (Ha & Htmp & HL). cbn [fst snd] in Ha, Htmp, HL. subst tmp.
      pose proof Ha as (La & Va).
      apply wp_bind. apply (wp_vget _ dtri0); [lia|].
      change ((i + 1) mod 3) with (nx i). change ((i + 2) mod 3) with (pv i).
      rewrite !(verts_gv a) by (auto; lia). cbn [bind].
      set (p0 := tv tri t (nx i)). set (p1 := tv tri t (pv i)).
      assert (Hp0 : p0 < np) by (apply it_lt; auto; lia). assert (Hp1 : p1 < np) by (apply it_lt; auto; lia).
      apply wp_bind, wp_vset; [rewrite repeat_length; auto|].
      apply wp_bind, wp_vset; [lens; auto|].
      set (tmp := upd _ p1 true).
      assert (Ltmp : length tmp = np) by (unfold tmp; lens; auto).
      assert (Ntmp : forall q, q < np -> nth q tmp false = (q =? p0) || (q =? p1)).
      { intros q Hq. unfold tmp. rewrite !nth_upd by (lens; auto). rewrite nth_repeat' by auto.
        destruct (Nat.eq_dec p1 q), (Nat.eq_dec p0 q), (Nat.eqb_spec q p0), (Nat.eqb_spec q p1); auto; lia. }
      assert (Hrow : p0 < length (map (elsup_row tri 3 nt) (seq 0 np))) by (rewrite map_length, seq_length; auto).
      destruct (jag_access _ 0 _ _ _ p0 HJ Hrow) as (lo & hi & E1 & E2 & Hlh & Hhi & Hlen & Hacc).
      rewrite E1, E2. cbn [bind].
      rewrite nth_map_seq in Hlen, Hacc by auto. simpl Nat.add in Hlen, Hacc.
      apply wp_bind.
      set (P := fun s : list dtri * bool =>
         (s = (a, false) /\ forall j jed, j < nt -> j <> t -> jed < 3 -> (exists c, c < 3 /\ tv tri j c = p0) -> ~ cover t i j jed) \/
         (exists j, s = (upd a t (setl (nth t a dtri0) i (Some j)), true) /\ link_ok t i (Some j))).
      apply (wp_forb' _ (fun k s => s = (a, false) /\ forall j jed, In j (firstn (k - lo) (elsup_row tri 3 nt p0)) ->
           j <> t -> jed < 3 -> ~ cover t i j jed) P).
      * lia.
      * split; auto. rewrite Nat.sub_diag. intros j jed [].
      * intros k s Hk (Es & Hno). subst s. rewrite Hacc by lia. cbn [bind].
        set (j := nth (k - lo) (elsup_row tri 3 nt p0) 0).
        assert (Hjin : In j (elsup_row tri 3 nt p0)) by (apply nth_In; lia).
        pose proof (proj1 (elsup_row_In _ _ _ _ _) Hjin) as (Hj & Hjp).
        replace (S k - lo) with (S (k - lo)) by lia. rewrite (firstn_S_snoc _ 0) by lia. fold j.
        destruct (Nat.eqb_spec j t) as [Ejt|Ejt].
        { simpl. split; auto. intros j' jed Hin. apply in_app_or in Hin. destruct Hin as [Hin|[<-|[]]]; [auto|tauto]. }
        apply wp_bind.
        apply (wp_forb' _ (fun jed s => s = (a, false) /\ forall jed', jed' < jed -> ~ cover t i j jed')
          (fun s => (s = (a, false) /\ forall jed', jed' < 3 -> ~ cover t i j jed') \/
             (s = (upd a t (setl (nth t a dtri0) i (Some j)), true) /\ exists jed, jed < 3 /\ cover t i j jed))).
        -- lia.
        -- split; auto. intros; lia.
        -- intros jed s Hjed (Es & Hno'). subst s.
           apply wp_bind. apply (wp_vget _ dtri0); [lia|].
           change ((jed + 1) mod 3) with (nx jed). change ((jed + 2) mod 3) with (pv jed).
           rewrite !(verts_gv a) by (auto; lia). cbn [bind].
           apply wp_bind. apply (wp_vget _ false); [rewrite Ltmp; apply it_lt; auto|].
           rewrite Ntmp by (apply it_lt; auto).
           assert (Fin : forall b1, b1 = true <-> cover t i j jed ->
             wp (if b1 : bool then aTri <- set_s2 a t i (Some j) ;; Some ((aTri, true), true) else Some ((a, false), false))
              (fun r => if snd r then
                 (fst r = (a, false) /\ (forall jed', jed' < 3 -> ~ cover t i j jed')) \/
                 (fst r = (upd a t (setl (nth t a dtri0) i (Some j)), true) /\ exists jed, jed < 3 /\ cover t i j jed)
               else fst r = (a, false) /\ forall jed', jed' < S jed -> ~ cover t i j jed')).
           { intros b1 Hb. destruct b1.
             - rewrite set_s2_ok by lia. cbn [bind]. apply wp_some. cbn [fst snd]. right. split; auto.
               exists jed. split; [lia|]. apply Hb; auto.
             - apply wp_some. cbn [fst snd]. split; auto. intros jed' Hj'. destruct (Nat.eq_dec jed' jed) as [->|].
               + intro X. apply Hb in X. discriminate.
               + apply Hno'. lia. }
           destruct ((tv tri j (nx jed) =? p0) || (tv tri j (nx jed) =? p1)) eqn:Eb.
           ++ cbn [bind]. apply wp_bind. apply (wp_vget _ false); [rewrite Ltmp; apply it_lt; auto|].
              rewrite Ntmp by (apply it_lt; auto).
              apply Fin. apply orb_true_iff in Eb. rewrite !Nat.eqb_eq in Eb.
              rewrite orb_true_iff, !Nat.eqb_eq. unfold cover. fold p0 p1. tauto.
           ++ cbn [bind]. apply (Fin false). split; [discriminate|]. apply orb_false_iff in Eb. rewrite !Nat.eqb_neq in Eb.
              unfold cover. fold p0 p1. tauto.
        -- intros s (Es & Hno'). left. auto.
        -- assert (Hx : forall s, (s = (a, false) /\ (forall jed', jed' < 3 -> ~ cover t i j jed')) \/
              (s = (upd a t (setl (nth t a dtri0) i (Some j)), true) /\ exists jed, jed < 3 /\ cover t i j jed) ->
              wp (let '(aTri, iflg) := s in Some ((aTri, iflg), iflg))
               (fun r => if snd r then P (fst r) else fst r = (a, false) /\ forall j' jed, In j' (firstn (k - lo) (elsup_row tri 3 nt p0) ++ [j]) ->
                   j' <> t -> jed < 3 -> ~ cover t i j' jed)).
           { intros s [(-> & Hn)|(-> & Hy)]; cbn [bind]; apply wp_some; cbn [fst snd].
             - split; auto. intros j' jed Hin. apply in_app_or in Hin. destruct Hin as [Hin|[<-|[]]]; auto.
             - right. exists j. split; auto. simpl. auto. }
           apply Hx.
      * intros s (-> & Hno). left. split; auto. intros j jed Hj Hjt Hjed Hc. apply Hno; auto.
        rewrite firstn_all2 by lia. apply elsup_row_In. split; auto. apply (elem_verts3 tri nt np); auto.
      * intros [a1 flg] HP.
        assert (Hfin : wp (if flg : bool then Some a1 else set_s2 a1 t i None) (fun a2 =>
           exists l, a2 = upd a t (setl (nth t a dtri0) i l) /\ link_ok t i l)).
        { destruct HP as [(E & Hno)|(j & E & Hj)]; injection E as -> ->.
          - rewrite set_s2_ok by lia. apply wp_some. exists None. split; auto.
          - apply wp_some. exists (Some j). split; auto. }
        apply wp_bind. eapply wp_mono; [exact Hfin|]. intros a2 (l & -> & Hl).
        apply wp_bind, wp_vset; [lia|]. apply wp_bind, wp_vset; [lens; lia|]. apply wp_some. cbn [fst snd].
        split; [|split].
        { split; [lens; auto|]. intros t' i' Ht' Hi'. rewrite V_upd by lia. destruct Nat.eq_dec; [|apply Va; auto].
          subst t'. rewrite vtx_setl. apply Va; auto. }
        { apply (list_ext _ false); [lens; auto|].
          intros q Hq. rewrite !upd_length in Hq. rewrite nth_repeat' by lia.
          rewrite !nth_upd by (lens; lia). destruct Nat.eq_dec; auto. destruct Nat.eq_dec; auto. rewrite Ntmp by lia.
          destruct (Nat.eqb_spec q p0), (Nat.eqb_spec q p1); auto; lia. }
        { intros t' i' Hi' Hd. rewrite L_upd by lia. destruct Nat.eq_dec; [|apply HL; auto; lia].
          subst t'. rewrite lnk_setl by lia. destruct Nat.eq_dec; [subst i'; auto|]. apply HL; auto. lia. }
    + intros s (A1 & A2 & A3). split; auto. split; auto. intros t' i' Ht' Hi'. apply A3; auto. lia.
  - intros [f tmp] (A1 & A2 & A3). cbn [fst snd] in *. apply wp_some. split; auto.
Qed.

Lemma ptlink_lem : forall m, verts_ok m ->
  (forall t i j, t < nt -> i < 3 -> j < 3 -> tv tri t i = tv tri t j -> i = j) ->
  wp (forn 0 nt (fun itri aPo =>
      t <- vget m itri ;;
      aPo <- vset aPo (tv0 t) (mkP (Some itri) 0) ;;
      aPo <- vset aPo (tv1 t) (mkP (Some itri) 1) ;;
      vset aPo (tv2 t) (mkP (Some itri) 2)) (repeat (mkP None 0) np))
    (fun po => length po = np /\
      (forall p t, p < np -> pe (nth p po (mkP None 0)) = Some t ->
         t < nt /\ pd (nth p po (mkP None 0)) < 3 /\ tv tri t (pd (nth p po (mkP None 0))) = p) /\
      (forall t i, t < nt -> i < 3 -> pe (nth (tv tri t i) po (mkP None 0)) <> None)).
Proof.
  intros m HV HD.
  apply (wp_forn _ (fun k po => length po = np /\
      (forall p t, p < np -> pe (nth p po (mkP None 0)) = Some t ->
         t < nt /\ pd (nth p po (mkP None 0)) < 3 /\ tv tri t (pd (nth p po (mkP None 0))) = p) /\
      (forall t i, t < k -> i < 3 -> pe (nth (tv tri t i) po (mkP None 0)) <> None))).
  - lia.
  - split; [apply repeat_length|]. split; [|intros; lia]. intros p t Hp. rewrite nth_repeat' by auto. discriminate.
  - intros k po Hk (Hl & H1 & H2). destruct HV as (Lm & Vm).
    apply wp_bind. apply (wp_vget _ dtri0); [lia|].
    change (tv0 (nth k m dtri0)) with (V m k 0). change (tv1 (nth k m dtri0)) with (V m k 1). change (tv2 (nth k m dtri0)) with (V m k 2).
    rewrite !Vm by lia.
    pose proof (it_lt k 0 ltac:(lia) ltac:(lia)). pose proof (it_lt k 1 ltac:(lia) ltac:(lia)). pose proof (it_lt k 2 ltac:(lia) ltac:(lia)).
    apply wp_bind, wp_vset; [lia|]. apply wp_bind, wp_vset; [lens; lia|]. apply wp_vset; [lens; lia|].
    split; [lens; auto|].
    assert (N : forall q, q < np -> nth q (upd (upd (upd po (tv tri k 0) (mkP (Some k) 0)) (tv tri k 1) (mkP (Some k) 1)) (tv tri k 2) (mkP (Some k) 2)) (mkP None 0)
      = if Nat.eq_dec (tv tri k 2) q then mkP (Some k) 2 else if Nat.eq_dec (tv tri k 1) q then mkP (Some k) 1 else
        if Nat.eq_dec (tv tri k 0) q then mkP (Some k) 0 else nth q po (mkP None 0)).
    { intros q Hq. rewrite !nth_upd by (lens; lia). auto. }
    split.
    + intros p t Hp. rewrite N by auto. repeat (destruct Nat.eq_dec; [simpl; intro E; inversion E; subst; split; [lia|split; [lia|auto]]|]).
      apply H1; auto.
    + intros t i Ht Hi. rewrite N by (apply it_lt; lia). repeat (destruct Nat.eq_dec; [simpl; discriminate|]).
      destruct (Nat.eq_dec t k) as [->|]; [|apply H2; lia]. exfalso. c3 i; auto.
  - intros po (H1 & H2 & H3). auto.
Qed.

Hypothesis HO : oriented_manifold tri nt.
(** no two triangles have the same three corners *)
Hypothesis HS : forall t t', t < nt -> t' < nt -> t <> t' -> exists i, i < 3 /\ forall j, j < 3 -> tv tri t i <> tv tri t' j.

Lemma tv_inj : forall t i j, t < nt -> i < 3 -> j < 3 -> tv tri t i = tv tri t j -> i = j.
Proof. apply HO. Qed.

Lemma cover_twin : forall t i j jed, t < nt -> i < 3 -> j < nt -> jed < 3 -> j <> t -> cover t i j jed ->
  tv tri t (nx i) = tv tri j (pv jed) /\ tv tri t (pv i) = tv tri j (nx jed).
Proof.
  intros t i j jed Ht Hi Hj Hjed Hne (C1 & C2). destruct HO as (H1 & H2).
  assert (N1 : tv tri j (nx jed) <> tv tri j (pv jed)).
  { intro E. apply (nxpv_neq jed Hjed). apply (H1 j); auto. }
  destruct C1 as [C1|C1], C2 as [C2|C2]; try congruence.
  - exfalso. apply Hne. destruct (H2 j jed t i) as (X & _); auto. unfold dedge. unfold nx, pv in *. congruence.
  - auto.
Qed.

Lemma InitializeMesh_lem : forall a0,
  wp (InitializeMesh a0 tri nt np) (fun s => let '(po, f) := s in
    consistent po f /\ length po = np /\ verts_ok f /\
    (forall t i t' i', t < nt -> t' < nt -> i < 3 -> i' < 3 ->
       dedge tri t i = (snd (dedge tri t' i'), fst (dedge tri t' i')) -> L f t i = Some t') /\
    (forall t i, t < nt -> i < 3 -> pe (nth (tv tri t i) po (mkP None 0)) <> None)).
Proof.
  intros a0. unfold InitializeMesh. apply wp_bind.
  apply (wp_forn _ (fun k m => length m = nt /\ forall t i, t < k -> i < 3 -> V m t i = tv tri t i)).
  - lia.
  - split; [unfold vresize; lens|intros; lia].
    rewrite firstn_length, repeat_length. lia.
  - intros k m Hk (Hl & HV). rewrite !it_get by lia. cbn [bind].
    apply wp_bind. apply (wp_vget _ dtri0); [lia|]. apply wp_vset; [lia|]. split; [lens; auto|].
    intros t i Ht Hi. rewrite V_upd by lia. destruct Nat.eq_dec; [subst; c3 i; reflexivity|]. apply HV; lia.
  - intros m1 (Hl1 & HV1). assert (V1 : verts_ok m1) by (split; auto).
    apply wp_bind. eapply wp_mono; [apply ptlink_lem; auto; apply HO|].
    intros po (Lpo & Hpo & Hpo2). rewrite Lpo. rewrite (MakeElSuP_eq [] m1 V1).
    destruct (ElSuP_correct [] tri nt 3 np HM) as (ind & arr & E & HJ). rewrite E. cbn [bind].
    apply wp_bind. eapply wp_mono; [apply (MakeInner_lem m1 ind arr); auto|].
    intros f (Vf & Lf). apply wp_some. pose proof Vf as (Hlf & HVf).
    assert (LC : forall t i t' i', t < nt -> t' < nt -> i < 3 -> i' < 3 ->
       dedge tri t i = (snd (dedge tri t' i'), fst (dedge tri t' i')) -> L f t i = Some t').
    { intros t i t' i' Ht Ht' Hi Hi' Ed. unfold dedge in Ed. cbn [fst snd] in Ed.
      change ((i + 1) mod 3) with (nx i) in Ed. change ((i + 2) mod 3) with (pv i) in Ed.
      change ((i' + 1) mod 3) with (nx i') in Ed. change ((i' + 2) mod 3) with (pv i') in Ed.
      inversion Ed as [[Ea Eb]].
      assert (Hne : t' <> t).
      { intros ->. apply tv_inj in Ea; auto. apply tv_inj in Eb; auto. c3 i; c3 i'; discriminate. }
      assert (Cv : cover t i t' i') by (unfold cover; rewrite Ea, Eb; auto).
      specialize (Lf t i Ht Hi). destruct (L f t i) as [j|]; simpl in Lf.
      - destruct Lf as (Hj & Hjt & jed & Hjed & Cj). f_equal.
        destruct (cover_twin t i j jed) as (X1 & X2); auto. destruct HO as (_ & H2).
        destruct (H2 j jed t' i') as (X & _); auto. unfold dedge.
        change ((jed + 1) mod 3) with (nx jed). change ((jed + 2) mod 3) with (pv jed).
        change ((i' + 1) mod 3) with (nx i'). change ((i' + 2) mod 3) with (pv i'). congruence.
      - exfalso. apply (Lf t' i'); auto. exists (pv i'). split; auto. }
    assert (TW : forall t i j, t < nt -> i < 3 -> L f t i = Some j -> j < nt /\ exists k, twin f t i j k).
    { intros t i j Ht Hi E'. pose proof (Lf t i Ht Hi) as X. rewrite E' in X. simpl in X.
      destruct X as (Hj & Hjt & jed & Hjed & Cj). split; auto. exists jed.
      destruct (cover_twin t i j jed) as (X1 & X2); auto. unfold twin. rewrite !HVf by auto.
      repeat split; auto. apply (LC j jed t i); auto. unfold dedge. cbn [fst snd].
      change ((jed + 1) mod 3) with (nx jed). change ((jed + 2) mod 3) with (pv jed).
      change ((i + 1) mod 3) with (nx i). change ((i + 2) mod 3) with (pv i). congruence. }
    split; [split; [|split]|split; [auto|split; auto]].
    + intros t Ht. rewrite Hlf in Ht. split; [|split].
      * intros i j Hi Hj. rewrite !HVf by auto. apply HO; auto.
      * intros i j Hi Hj EL Hn. destruct (L f t i) as [a|] eqn:Ei; [|tauto]. symmetry in EL.
        destruct (Nat.eq_dec i j) as [|Hij]; auto. exfalso.
        destruct (TW t i a Ht Hi Ei) as (Ha & k1 & T1). destruct (TW t j a Ht Hj EL) as (_ & k2 & T2).
        assert (Hta : t <> a).
        { intros ->. pose proof (Lf a i Ha Hi) as X. rewrite Ei in X. destruct X as (_ & X & _). auto. }
        destruct (HS t a Ht Ha Hta) as (c & Hc & Hall).
        destruct T1 as (_ & K1 & _ & _ & X1 & X2). destruct T2 as (_ & K2 & _ & _ & Y1 & Y2).
        rewrite !HVf in X1, X2, Y1, Y2 by auto.
        assert (c = nx i \/ c = pv i \/ c = nx j \/ c = pv j) as [->|[->|[->| ->]]].
        { clear - Hi Hj Hc Hij. c3 i; c3 j; c3 c; cbv; auto; lia. }
        -- apply (Hall (pv k1)); auto.
        -- apply (Hall (nx k1)); auto.
        -- apply (Hall (pv k2)); auto.
        -- apply (Hall (nx k2)); auto.
      * intros i j Hi E'. rewrite Hlf. auto.
    + rewrite Hlf, Lpo. intros t i Ht Hi. rewrite HVf by auto. apply it_lt; auto.
    + rewrite Hlf, Lpo. intros p t Hp E'. destruct (Hpo p t Hp E') as (A1 & A2 & A3). rewrite HVf by auto. auto.
Qed.
End Init.
