From Coq Require Import List Arith Lia Bool.
Import ListNotations.
From Verif Require Import Imp JagModel JagSpec JagProofs JagProofs2 JagProofs3 JagProofs4 TopoSpec TopoProofs1 TopoProofs4.
From Verif Require Import DtriModel DtriSpec DtriProofs1 DtriProofs2 DtriProofs3 DtriProofs4 DtriProofs5.

(* ---------- neighbour table ---------- *)

(** flags equal to [p] mark the points of [seen]; no flag exceeds [p] *)
Definition nflags (np p : nat) (seen aflg : list nat) : Prop :=
  length aflg = np /\ (forall x, x < np -> (nth x aflg 0 = p <-> In x seen)) /\ (forall x, x < np -> nth x aflg 0 <= p).

Definition nvisit {S} (g : nat -> S -> option S) (p x : nat) (s : list nat * S) : option (list nat * S) :=
  let '(aflg, s2) := s in
  f <- vget aflg x ;;
  if f =? p then Some (aflg, s2) else s2 <- g x s2 ;; aflg <- vset aflg x p ;; Some (aflg, s2).

Lemma nflags_mark : forall np p seen aflg x, nflags np p seen aflg -> x < np -> nflags np p (x :: seen) (upd aflg x p).
Proof.
  intros np p seen aflg x (Hl & Hs & Hq) Hx. split; [lens; auto|]. split.
  - intros j Hj. rewrite nth_upd by lia. simpl. destruct (Nat.eq_dec x j); [subst; tauto|].
    rewrite Hs by auto. intuition.
  - intros j Hj. rewrite nth_upd by lia. destruct (Nat.eq_dec x j); auto.
Qed.

Lemma nflags_iff : forall np p s1 s2 aflg, nflags np p s1 aflg -> (forall x, In x s1 <-> In x s2) -> nflags np p s2 aflg.
Proof. intros np p s1 s2 aflg (A & B & C) H. split; auto. split; auto. intros. rewrite B by auto. apply H. Qed.

Lemma nvisit_fold : forall S (g : nat -> S -> option S) np p l seen aflg,
  nflags np p seen aflg -> Forall (fun x => x < np) l ->
  exists aflg', nflags np p (rev l ++ seen) aflg' /\
   forall s, foldM (nvisit g p) l (aflg, s) = bind (foldM g (emit seen l) s) (fun s' => Some (aflg', s')).
Proof.
  induction l; simpl; intros seen aflg HF HL.
  - exists aflg. split; auto.
  - inversion HL; subst. pose proof HF as (Hl & Hs & Hq).
    assert (Eg : vget aflg a = Some (nth a aflg 0)) by (apply vget_nth; lia).
    rewrite Eg. cbn [bind].
    destruct (in_dec Nat.eq_dec a seen) as [Hin|Hni].
    + destruct (IHl seen aflg HF) as (aflg' & HF' & E); auto. exists aflg'. split.
      * eapply nflags_iff; [exact HF'|]. intro x. rewrite !in_app_iff. simpl. intuition. subst. auto.
      * intro s. apply Hs in Hin; auto. rewrite Hin, Nat.eqb_refl. apply E.
    + destruct (IHl (a :: seen) (upd aflg a p)) as (aflg' & HF' & E); [apply nflags_mark; auto|auto|]. exists aflg'. split.
      * eapply nflags_iff; [exact HF'|]. intro x. rewrite !in_app_iff. simpl. intuition.
      * intro s. destruct (Nat.eqb_spec (nth a aflg 0) p) as [X|X]; [apply Hs in X; tauto|].
        simpl foldM. destruct (g a s); cbn [bind]; auto. rewrite vset_upd by lia. cbn [bind]. apply E.
Qed.

Lemma count_fold : forall k l (v : list nat), k < length v ->
  foldM (fun (_ : nat) v => vmod v k S) l v = Some (upd v k (nth k v 0 + length l)).
Proof.
  induction l; simpl; intros v Hk.
  - f_equal. apply (list_ext _ 0); [lens; auto|]. intros i Hi. rewrite nth_upd by auto.
    destruct Nat.eq_dec; auto. subst. lia.
  - unfold vmod. rewrite (vget_nth _ 0) by auto. cbn [bind]. rewrite vset_upd by auto. cbn [bind].
    rewrite IHl by (lens; auto). f_equal. apply (list_ext _ 0); [lens; auto|].
    intros i Hi. rewrite !nth_upd by (lens; auto). destruct Nat.eq_dec; auto. destruct Nat.eq_dec; [lia|tauto].
Qed.

Lemma put_fold : forall l (v : list nat) pos, pos + length l <= length v ->
  exists v', foldM (fun x s => let '(v, i) := s in v <- vset v i x ;; Some (v, i + 1)) l (v, pos) = Some (v', pos + length l) /\
    length v' = length v /\ (forall i, i < length l -> nth (pos + i) v' 0 = nth i l 0) /\
    (forall i, i < pos \/ pos + length l <= i -> nth i v' 0 = nth i v 0).
Proof.
  induction l; intros v pos Hp.
  - exists v. simpl. split; [f_equal; f_equal; lia|]. split; auto. split; auto. intros; lia.
  - simpl in Hp. simpl foldM. rewrite vset_upd by lia. cbn [bind].
    destruct (IHl (upd v pos a) (pos + 1)) as (v' & E & Hl & H1 & H2); [lens; lia|].
    exists v'. split; [rewrite E; simpl; f_equal; f_equal; lia|]. rewrite upd_length in Hl. split; auto. split.
    + intros i Hi. destruct i.
      * rewrite H2 by lia. rewrite nth_upd by lia. destruct Nat.eq_dec; [auto|lia].
      * simpl in Hi. replace (pos + S i) with (pos + 1 + i) by lia. rewrite H1 by lia. reflexivity.
    + intros i Hi. simpl in Hi. rewrite H2 by lia. rewrite nth_upd by lia. destruct Nat.eq_dec; [lia|auto].
Qed.

Section PSuP.
Variables (m : list dtri) (np : nat).
Hypothesis HB : forall t i, t < length m -> i < 3 -> V m t i < np.
Let tri := flat_map (fun t => [tv0 t; tv1 t; tv2 t]) m.
Let nt := length m.

Lemma flat3_len : forall (l : list dtri), length (flat_map (fun t => [tv0 t; tv1 t; tv2 t]) l) = length l * 3.
Proof. induction l; simpl; auto. Qed.
Lemma flat3_nth : forall (l : list dtri) t i, t < length l -> i < 3 ->
  nth (t * 3 + i) (flat_map (fun t => [tv0 t; tv1 t; tv2 t]) l) 0 = vtx (nth t l dtri0) i.
Proof.
  induction l; intros t i Ht Hi; [simpl in Ht; lia|]. destruct t.
  - c3 i; reflexivity.
  - simpl Nat.mul. simpl nth at 2. rewrite <- (IHl t i) by (simpl in Ht; lia || auto).
    replace (S (S (S (t * 3))) + i) with (S (S (S (t * 3 + i)))) by lia. reflexivity.
Qed.
Lemma ps_mesh : mesh_ok tri nt 3 np.
Proof.
  split. apply flat3_len. apply Forall_forall. intros x Hx. unfold tri in Hx. apply in_flat_map in Hx.
  destruct Hx as (t & Ht & Hx). apply (In_nth _ _ dtri0) in Ht. destruct Ht as (k & Hk & <-).
  simpl in Hx. destruct Hx as [<-|[<-|[<-|[]]]]; [apply (HB k 0)|apply (HB k 1)|apply (HB k 2)]; auto.
Qed.
Lemma ps_verts : verts_ok tri nt m.
Proof. split; auto. intros. unfold V, tv, tri. rewrite flat3_nth by auto. auto. Qed.

Let cand p := psup_cand tri 3 nt p.
Let seen0 p := match p with 0 => seq 0 np | _ => [p] end.
Let row p := emit (seen0 p) (cand p).
Let rows := map row (seq 0 np).

Lemma ps_row0 : row 0 = [].
Proof.
  unfold row, seen0, cand. pose proof (psup_cand_lt tri nt 3 np 0 ps_mesh) as H.
  induction (psup_cand tri 3 nt 0) as [|x l IH]; simpl; auto. inversion H; subst.
  destruct in_dec as [|X]; auto. exfalso. apply X. apply in_seq. lia.
Qed.

Lemma ps_pass : forall S (g : nat -> nat -> S -> option S) ind elsup,
  jagged ind elsup (map (elsup_row tri 3 nt) (seq 0 np)) ->
  forall p aflg s, p < np -> length aflg = np ->
    (forall x, x < np -> nth x aflg 0 <= p - 1) ->
    exists aflg', length aflg' = np /\ (forall x, x < np -> nth x aflg' 0 <= p) /\
    (lo <- vget ind p ;; hi <- vget ind (p + 1) ;;
      forn lo hi (fun ielsup s =>
        itri1 <- vget elsup ielsup ;;
        t <- vget m itri1 ;;
        forn 0 3 (fun i s =>
          let '(aflg, s2) := s in
          ino1 <- gv t i ;;
          f <- vget aflg ino1 ;;
          if f =? p then Some (aflg, s2) else
          s2 <- g p ino1 s2 ;;
          aflg <- vset aflg ino1 p ;; Some (aflg, s2)) s) (upd aflg p p, s)) =
    bind (foldM (g p) (row p) s) (fun s' => Some (aflg', s')).
Proof.
  intros S g ind elsup HJ p aflg s Hp Hl Hle.
  assert (HF : nflags np p (seen0 p) (upd aflg p p)).
  { split; [lens; auto|]. split.
    - intros x Hx. rewrite nth_upd by lia. unfold seen0. destruct p.
      + rewrite in_seq. destruct Nat.eq_dec; [lia|]. specialize (Hle x Hx). split; intros; lia.
      + cbn [In]. destruct Nat.eq_dec; [tauto|]. specialize (Hle x Hx). split; [lia|tauto].
    - intros x Hx. rewrite nth_upd by lia. destruct Nat.eq_dec; auto. specialize (Hle x Hx). lia. }
  destruct (nvisit_fold _ (g p) np p (cand p) (seen0 p) _ HF) as (aflg' & HF' & E).
  { apply psup_cand_lt. apply ps_mesh. }
  exists aflg'. destruct HF' as (A1 & A2 & A3). split; auto. split; auto.
  rewrite (jag_row_loop _ _ _ _ _ (fun itri1 s => t <- vget m itri1 ;;
        forn 0 3 (fun i s =>
          let '(aflg, s2) := s in
          ino1 <- gv t i ;;
          f <- vget aflg ino1 ;;
          if f =? p then Some (aflg, s2) else
          s2 <- g p ino1 s2 ;;
          aflg <- vset aflg ino1 p ;; Some (aflg, s2)) s) _ _ HJ) by (rewrite map_length, seq_length; auto).
  rewrite nth_map_seq by auto. simpl Nat.add.
  unfold row. rewrite <- E. unfold cand, psup_cand. rewrite <- foldM_concat.
  apply foldM_ext. intros e s' He. apply elsup_row_In in He. destruct He as (He & _).
  rewrite (vget_nth _ dtri0) by (fold nt; lia). cbn [bind].
  rewrite <- (forn_slice_off _ _ (nvisit (g p) p) tri (e * 3) 3)
    by (eapply elem_slice_ok; [exact ps_mesh|auto]).
  apply forn_ext. intros i [a b] Hi. rewrite (verts_gv tri nt m) by (auto using ps_verts; lia).
  rewrite (it_get tri nt np ps_mesh) by lia. cbn [bind]. unfold nvisit. reflexivity.
Qed.

Lemma rows_len : length rows = np. Proof. unfold rows. rewrite map_length, seq_length. auto. Qed.
Lemma rows_nth : forall p, p < np -> nth p rows [] = row p.
Proof. intros. unfold rows. rewrite nth_map_seq by auto. auto. Qed.

Lemma PSuP_dtri_lem : forall ind elsup psup_ind0 psup0,
  jagged ind elsup (map (elsup_row tri 3 nt) (seq 0 np)) -> length psup_ind0 = np + 1 ->
  wp (JArray_PSuP_dtri psup_ind0 psup0 m np ind elsup) (fun s => let '(pind, psup) := s in jagged pind psup rows).
Proof.
  intros ind elsup psup_ind0 psup0 HJ HL0. unfold JArray_PSuP_dtri. apply wp_bind, wp_vset; [lia|].
  apply wp_bind.
  apply (wp_forn _ (fun p s => length (fst s) = np /\ (forall x, x < np -> nth x (fst s) 0 <= p - 1) /\
     length (snd s) = np + 1 /\ forall k, k <= p -> nth k (snd s) 0 = offs rows k)).
  { lia. }
  { cbn [fst snd]. split; [apply repeat_length|]. split; [intros; rewrite nth_repeat' by auto; lia|]. split; [lens; auto|].
    intros k Hk. assert (k = 0) by lia. subst. rewrite nth_upd_same by lia. reflexivity. }
  { intros p [aflg pind] Hp (A1 & A2 & A3 & A4). cbn [fst snd] in *.
    rewrite (vget_nth _ 0) by lia. cbn [bind]. rewrite vset_upd by lia. cbn [bind]. rewrite vset_upd by lia. cbn [bind].
    set (pi := upd pind (p + 1) _).
    destruct (ps_pass _ (fun p _ v => vmod v (p + 1) S) ind elsup HJ p aflg pi) as (aflg' & B1 & B2 & B3); [lia|auto|auto|].
    rewrite B3. rewrite count_fold by (unfold pi; lens; lia). cbn [bind]. apply wp_some. cbn [fst snd].
    split; auto. split; [intros x Hx; specialize (B2 x Hx); lia|]. split; [unfold pi; lens; auto|].
    intros k Hk. unfold pi. rewrite !nth_upd by (lens; lia). destruct (Nat.eq_dec (p + 1) k) as [<-|].
    - destruct Nat.eq_dec; [|lia]. rewrite A4 by lia. replace (p + 1) with (S p) by lia.
      rewrite offs_S by (rewrite rows_len; lia). rewrite rows_nth by lia. auto.
    - apply A4. lia. }
  intros [aflg pind] (A1 & A2 & A3 & A4). cbn [fst snd] in *.
  assert (Epi : pind = offsets rows).
  { apply (list_ext _ 0). rewrite offsets_length, rows_len. lia. intros i Hi. rewrite A4 by lia.
    rewrite offsets_nth by (rewrite rows_len; lia). auto. }
  rewrite (vget_nth _ 0) by lia. cbn [bind]. rewrite A4 by lia. rewrite offs_all by (rewrite rows_len; lia).
  apply wp_bind.
  apply (wp_forn _ (fun p s => length s = np /\ forall x, x < p -> nth x s 0 = 0)).
  { lia. } { split; auto. intros; lia. }
  { intros p s Hp (B1 & B2). apply wp_vset; [lia|]. split; [lens; auto|]. intros x Hx. rewrite nth_upd by lia.
    destruct Nat.eq_dec; auto. apply B2. lia. }
  intros aflg0 (B1 & B2).
  set (psup := vresize 0 psup0 _).
  assert (Lps : length psup = length (concat rows)).
  { unfold psup, vresize. rewrite app_length, firstn_length, repeat_length. lia. }
  apply wp_bind.
  apply (wp_forn _ (fun p s => length (fst s) = np /\ (forall x, x < np -> nth x (fst s) 0 <= p - 1) /\
     snd (snd s) = offs rows p /\ length (fst (snd s)) = length (concat rows) /\
     forall k i, k < p -> i < length (nth k rows []) -> nth (offs rows k + i) (fst (snd s)) 0 = nth i (nth k rows []) 0)).
  { lia. }
  { cbn [fst snd]. split; auto. split; [intros; rewrite B2 by auto; lia|]. split; auto. split; auto. intros; lia. }
  { intros p [aflg1 [ps ie]] Hp (C1 & C2 & C3 & C4 & C5). cbn [fst snd] in *. subst ie.
    rewrite (vget_nth _ 0) by lia. cbn [bind]. rewrite A4, Nat.eqb_refl by lia. cbn [assertb bind].
    rewrite vset_upd by lia. cbn [bind].
    destruct (ps_pass _ (fun p x s => let '(v, i) := s in v <- vset v i x ;; Some (v, i + 1)) ind elsup HJ p aflg1 (ps, offs rows p))
      as (aflg' & D1 & D2 & D3); [lia|auto|auto|].
    assert (Hfit : offs rows p + length (row p) <= length ps).
    { rewrite C4. rewrite <- rows_nth by lia. rewrite <- offs_S by (rewrite rows_len; lia). apply offs_le_total. }
    destruct (put_fold (row p) ps (offs rows p) Hfit) as (ps' & F1 & F2 & F3 & F4).
    match goal with |- wp ?e _ => assert (EE : e = Some (aflg', (ps', offs rows p + length (row p)))) end.
    { rewrite F1 in D3. cbn [bind] in D3. rewrite <- D3.
      destruct (vget ind p) as [lo|]; cbn [bind]; auto. destruct (vget ind (p + 1)) as [hi|]; cbn [bind]; auto.
      apply forn_ext. intros i s _. destruct (vget elsup i) as [e|]; cbn [bind]; auto.
      destruct (vget m e) as [t|]; cbn [bind]; auto. apply forn_ext. intros c [a [v q]] _.
      destruct (gv t c) as [x|]; cbn [bind]; auto. destruct (vget a x) as [f|]; cbn [bind]; auto.
      destruct (f =? p); auto. destruct (vset v q x); cbn [bind]; auto. }
    rewrite EE. apply wp_some. cbn [fst snd].
    split; auto. split; [intros x Hx; specialize (D2 x Hx); lia|].
    split; [rewrite offs_S by (rewrite rows_len; lia); rewrite rows_nth by lia; auto|]. split; [lia|].
    intros k i Hk Hi. destruct (Nat.eq_dec k p) as [->|].
    - rewrite rows_nth in * by lia. apply F3. auto.
    - rewrite F4. apply C5; auto; lia. left.
      assert (offs rows (S k) <= offs rows p) by (apply offs_mono; lia).
      rewrite offs_S in H by (rewrite rows_len; lia). lia. }
  intros [aflg2 [ps ie]] (C1 & C2 & C3 & C4 & C5). cbn [fst snd] in *. subst ie.
  rewrite offs_all by (rewrite rows_len; lia). rewrite Nat.eqb_refl. cbn [assertb bind]. apply wp_some.
  split; [|exact Epi].
  apply (concat_char _ 0); auto. intros k j Hk Hj. apply C5; auto. rewrite rows_len in Hk. auto.
Qed.

Lemma row_In : forall p q, p < np -> p <> 0 -> (In q (row p) <-> q <> p /\ exists t, t < length m /\ corner_of m t p /\ corner_of m t q).
Proof.
  intros p q Hp H0. unfold row, seen0. destruct p; [tauto|].
  change (emit [S p] (cand (S p))) with (psup_row tri 3 nt (S p)). rewrite psup_row_In. unfold share_elem.
  assert (X : forall t v, t < nt -> (In v (elem_verts tri 3 t) <-> corner_of m t v)).
  { intros t v Ht. rewrite (elem_verts3 tri nt np) by (auto using ps_mesh). unfold corner_of.
    pose proof ps_verts as (_ & HV). split; intros (i & Hi & E); exists i; split; auto; rewrite <- E; [|symmetry]; apply HV; auto. }
  split; intros (A & t & Ht & B & C); split; auto; exists t; (split; [auto|]); rewrite !X in * by auto; auto.
Qed.

Lemma PSuP_dtri_full :
  exists ind elsup, JArray_MakeElSuP [] m np = Some (ind, elsup) /\
  forall psup_ind0 psup0, length psup_ind0 = np + 1 ->
  exists pind psup rows, JArray_PSuP_dtri psup_ind0 psup0 m np ind elsup = Some (pind, psup) /\
    jagged pind psup rows /\ length rows = np /\
    (forall p, p < np -> NoDup (nth p rows [])) /\
    (forall p q, p < np -> p <> 0 ->
      (In q (nth p rows []) <-> q <> p /\ exists t, t < length m /\ corner_of m t p /\ corner_of m t q)) /\
    nth 0 rows [] = [].
Proof.
  destruct (ElSuP_correct [] tri nt 3 np ps_mesh) as (ind & arr & E & HJ). exists ind, arr.
  rewrite (MakeElSuP_eq tri nt np ps_mesh [] m ps_verts). split; auto.
  intros psup_ind0 psup0 HL. destruct (wp_ex _ _ _ (PSuP_dtri_lem ind arr psup_ind0 psup0 HJ HL)) as ((pind & psup) & E2 & J2).
  exists pind, psup, rows. split; auto. split; auto. split; [apply rows_len|].
  split; [intros p Hp; rewrite rows_nth by auto; apply emit_NoDup|].
  split; [intros p q Hp H0; rewrite rows_nth by auto; apply row_In; auto|].
  destruct (Nat.eq_dec np 0) as [X|X]. unfold rows. rewrite X. reflexivity.
  rewrite rows_nth by lia. apply ps_row0.
Qed.
End PSuP.

(* ---------- histories of edits ---------- *)

Lemma run1_ok : forall ed po m, consistent po m -> allowed po m ed ->
  wp (run1 ed (po, m)) (fun s => consistent (fst s) (snd s) /\ length (snd s) = grow ed (length m) /\
    length (fst s) = length po + (match ed with AddPoint => 1 | _ => 0 end)).
Proof.
  intros ed po m HC HA. destruct ed as [|p t|p t e|t e|t]; simpl in HA |- *.
  - split; [|split; [auto|rewrite app_length; auto]]. destruct HC as (H1 & H2 & H3). split; auto. split.
    + intros t i Ht Hi. rewrite app_length. specialize (H2 t i Ht Hi). lia.
    + intros p t Hp. rewrite app_length in Hp. simpl in Hp. destruct (Nat.eq_dec p (length po)) as [->|].
      * rewrite app_nth2, Nat.sub_diag by lia. simpl. discriminate.
      * rewrite app_nth1 by lia. apply H3. lia.
  - destruct HA as (Hp & Ht & Hc). eapply wp_mono; [apply InsertPoint_Elem_lem; auto|].
    + intros i Hi E. apply Hc. exists i. auto.
    + intros (po' & f) (A & B & C & _). simpl. rewrite Nat.add_0_r. auto.
  - destruct HA as (Hp & Ht & He & Hc & j & Ej & Hcj).
    destruct (L_twin m t e j (proj1 HC) Ht He Ej) as (k & HT).
    eapply wp_mono; [apply (InsertPoint_ElemEdge_lem po m t e j k); auto|].
    + intros i Hi E. apply Hc. exists i. auto.
    + intros i Hi E. apply Hcj. exists i. auto.
    + intros (po' & f) (A & B & C & _). simpl. rewrite Nat.add_0_r. auto.
  - destruct HA as (Ht & He & Hf). destruct (L m t e) as [j|] eqn:Ej.
    + destruct (L_twin m t e j (proj1 HC) Ht He Ej) as (k & HT). destruct (Hf j k HT) as (F1 & F2 & F3).
      apply wp_bind. eapply wp_mono; [apply (FlipEdge_lem po m t e j k); auto|].
      intros (b & po' & f) (_ & A & B & C & _). simpl. rewrite Nat.add_0_r. auto.
    + rewrite FlipEdge_boundary by auto. simpl. rewrite Nat.add_0_r. auto.
  - destruct HA as (Ht & Hi & Hp). eapply wp_mono; [apply DeleteTri_lem; auto|].
    intros (po' & f) (A & B & C & _). simpl. rewrite Nat.add_0_r. auto.
Qed.

Lemma run_ok : forall eds po m, consistent po m -> allowed_all eds (po, m) ->
  exists po' m', foldM run1 eds (po, m) = Some (po', m') /\ consistent po' m' /\
    length m' = fold_left (fun n ed => grow ed n) eds (length m).
Proof.
  induction eds as [|ed eds IH]; intros po m HC HA.
  - exists po, m. simpl. auto.
  - destruct HA as (H1 & H2). destruct (wp_ex _ _ _ (run1_ok ed po m HC H1)) as ((po1 & m1) & E & A & B & _).
    simpl in A, B. destruct (IH po1 m1 A (H2 _ E)) as (po' & m' & E' & HC' & HL).
    exists po', m'. split; [|split; auto].
    + change (foldM run1 (ed :: eds) (po, m)) with (bind (run1 ed (po, m)) (foldM run1 eds)). rewrite E. exact E'.
    + simpl. rewrite <- B. auto.
Qed.
