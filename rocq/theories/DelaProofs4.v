(** Delaunay flips around a point: the two loops. *)
From Coq Require Import List Arith Lia Bool Relations Reals Lra.
Import ListNotations.
From Verif Require Import Imp PrModel PolyModel DtriModel DtriSpec CollSpec FanSpec DelaModel DelaSpec.
From Verif Require Import DtriProofs1 DtriProofs2 DtriProofs3 CollProofs1 CollProofs2 CollProofs7 FanProofs1 FanProofs2 DelaProofs1 DelaProofs2 DelaProofs3.
Local Open Scope nat_scope.

Section Loops.
Variables (xy : list pt) (po0 : list dpnt) (m0 : list dtri) (p : nat).
Notation X := (pos2 xy).
Notation good := (good xy po0 m0).
Notation n := (length m0).
Hypothesis Hxy : length xy = length po0.
Hypothesis Hp : p < length po0.

Lemma at_corner_ok : forall m t i, t < length m -> i < 3 -> V m t i = p -> at_corner t i p m = Some tt.
Proof.
  intros m t i Ht Hi E. unfold at_corner. rewrite (proj2 (Nat.ltb_lt _ _) Ht), (proj2 (Nat.ltb_lt _ _) Hi). cbn [andb assertb bind].
  rewrite (vget_nth _ dtri0) by auto. cbn [bind]. rewrite gv_vtx by auto. cbn [bind]. change (vtx (nth t m dtri0) i) with (V m t i).
  rewrite E, Nat.eqb_refl. reflexivity.
Qed.

Lemma flip_good : forall po m t e u k po' f, good po m -> t < length m -> twin m t e u k -> flipped xy po m t e u k po' f -> good po' f.
Proof.
  intros po m t e u k po' f (G1 & G2 & G3 & G4 & G5 & G6 & G7 & G8) Ht TB HF.
  pose proof HF as (A1 & A2 & A3 & A4 & A5 & _ & _ & _ & _ & _ & A6 & _).
  split; auto. split; auto. split; [congruence|]. split; [congruence|]. split; [congruence|]. split.
  - intros q Hq N. apply A6; [congruence|]. apply G6; auto.
  - split.
    + intros a b. rewrite <- G7. apply (fl_bedge xy po m t e u k po' f); auto.
    + intros q Hq. apply G8. apply (fl_used xy po m t e u k po' f); auto.
Qed.

Definition ccw_end (r : (nat * nat) * (list dpnt * list dtri) * bool) : Prop :=
  let '(c, (po, m), wall) := r in good po m /\ exists c0 l, stored po p (fst c0) (snd c0) /\ path m c0 l /\ NoDup (c0 :: l) /\
    (if wall then c = lastc c0 l /\ L m (fst c) (nx (snd c)) = None
     else turn m (lastc c0 l) c0 /\ forall x, In x (c0 :: l) -> edge_fine xy m x).

Lemma dela_ccw_run : forall fuel po m c0 l, good po m -> stored po p (fst c0) (snd c0) -> path m c0 l -> NoDup (c0 :: l) ->
  (forall x, In x (c0 :: l) -> x <> lastc c0 l -> edge_fine xy m x) ->
  (n - cnt m p) * (n + 2) + (n - length l) < fuel ->
  wp (loopf fuel (dela_ccw p xy) (lastc c0 l, (po, m), false)) ccw_end.
Proof.
  induction fuel as [|fuel IH]; intros po m c0 l G Hs Hpa Nd Hfine Hf; [exfalso; exact (Nat.nlt_0_r _ Hf)|].
  pose proof G as (HC & HP & Hl1 & Hl2 & _). assert (Hm : tri_ok m) by apply HC.
  destruct (stored_vc po m HC p (fst c0) (snd c0) Hs) as (V0 & P0). rewrite <- surjective_pairing in V0.
  cbn [loopf]. apply wp_bind. unfold dela_ccw at 1.
  destruct (path_vc m Hm l c0 V0 Hpa _ (lastc_in l c0)) as (Vl & Pl).
  destruct (lastc c0 l) as (t, i) eqn:El. pose proof Vl as (Ht & Hi). cbn [fst snd] in Ht, Hi.
  assert (Pt : V m t i = p) by (rewrite <- P0; exact Pl).
  rewrite at_corner_ok by auto. cbn [bind]. apply wp_bind. eapply wp_mono; [apply (test_ok xy po m t i); auto; congruence|].
  intros [u|] HT.
  - destruct HT as (k & TB & HD). destruct (flip_ok xy po m t i u k HC HP Ht TB HD) as (HN & HW).
    apply wp_bind. eapply wp_mono; [exact HW|]. intros (b, (po', f)) HF.
    pose proof (flip_good po m t i u k po' f G Ht TB HF) as G'. pose proof G' as (_ & _ & _ & Hl3 & _).
    pose proof (fl_Vt xy po m t i u k po' f HF) as (_ & _ & V2).
    rewrite (vget_nth _ dtri0) by (rewrite Hl3; lia). cbn [bind]. change (gv (nth t f dtri0) 2) with (Some (V f t 2)). cbn [bind]. rewrite V2, Pt, Nat.eqb_refl. cbn [assertb bind].
    apply wp_some. cbn [fst snd]. change (t, 2) with (lastc (t, 2) []). apply IH; auto.
    + split; [rewrite (proj1 (proj2 HF)); lia|]. cbn [fst snd]. rewrite <- Pt. apply HF.
    + exact I.
    + constructor; [intros []|constructor].
    + intros x [<-|[]] N. exfalso; apply N; reflexivity.
    + pose proof (fl_cnt xy po m t i u k po' f HC Ht TB HN HF) as Hc. rewrite Pt in Hc. pose proof (cnt_le f p). cbn [length]. nia.
  - assert (Hfine' : forall x, In x (c0 :: l) -> edge_fine xy m x).
    { intros (s, j) Hx. destruct (Nat.eq_dec s t) as [->|N]; [destruct (Nat.eq_dec j i) as [->|N]; [auto|]|]; apply Hfine; auto; congruence. }
    destruct (turn_next m Hm (t, i) Vl) as [((t', i') & T)|N].
    + pose proof (turn_vc m Hm _ _ Vl T) as V'. pose proof (CCW_go po m HC (t, i) (t', i') Vl T) as Z. cbn [fst snd] in Z. rewrite Z. cbn [bind].
      rewrite (vget_nth _ (mkP None 0)) by (rewrite Hl1; auto). cbn [bind]. rewrite (proj2 Hs). cbn [pe].
      apply wp_some. cbn [fst snd]. destruct (onat_eqP (Some t') (Some (fst c0))) as [Et|Et].
      * apply wp_some. unfold ccw_end. split; auto. exists c0, l. split; auto. split; auto. split; auto. split; auto. rewrite El.
        replace c0 with (t', i'); auto. apply (corner_eq m Hm); auto; [|cbn; congruence]. rewrite (turn_P m (t, i) (t', i')) by auto. exact Pl.
      * assert (Et' : t' <> fst c0) by congruence.
        replace (t', i') with (lastc c0 (l ++ [(t', i')])) by (unfold lastc; rewrite app_comm_cons; apply last_last).
        assert (NdS : NoDup (c0 :: (l ++ [(t', i')]))).
        { rewrite app_comm_cons. apply NoDup_snoc; auto. intros [Hin|Hin].
          { apply Et'. rewrite Hin. reflexivity. }
          destruct (path_pred m l c0 (t', i') Hpa Hin) as (y & Hy & Ty).
          assert (y = (t, i)). { apply (turn_inj m Hm y (t, i) (t', i')); auto. apply (path_vc m Hm l c0 V0 Hpa); auto. }
          subst y. clear - Hpa Hin Ty Nd El Hm V0 Vl V'.
          revert c0 V0 Hpa Nd El Hin. induction l as [|a l IH]; intros c Vc Hpa Nd El Hin; [destruct Hin|].
          destruct Hpa as (T & Hpa). rewrite lastc_cons in El. inversion Nd as [|? ? N1 N2]; subst.
          destruct Hin as [->|Hin].
          { apply N1. rewrite <- (turn_inj m Hm (t, i) c (t', i')); auto. rewrite <- El. apply lastc_in. }
          apply (IH a); auto. apply (turn_vc m Hm c a); auto. }
        assert (PaS : path m c0 (l ++ [(t', i')])). { apply path_app. split; auto. rewrite El. split; [auto|exact I]. }
        apply IH; auto.
        -- intros x Hx Nx. rewrite app_comm_cons in Hx. apply in_app_iff in Hx. destruct Hx as [Hx|[<-|[]]]; auto.
           exfalso. apply Nx. unfold lastc. rewrite app_comm_cons. symmetry. apply last_last.
        -- pose proof (path_len m Hm _ c0 V0 PaS NdS) as K. rewrite app_length in *. cbn [length] in *. set (KK := (n - cnt m p) * (n + 2)) in *. clearbody KK. lia.
    + pose proof (MoveCCW_stop m (t, i) None Vl N) as Z. cbn [fst snd] in Z. rewrite Z. cbn [bind]. apply wp_some. cbn [fst snd].
      apply wp_some. unfold ccw_end. split; auto. exists c0, l. split; auto.
Qed.

Definition all_fine (r : list dpnt * list dtri) : Prop :=
  let '(po, m) := r in good po m /\ exists t i, stored po p t i /\ forall x, in_fan m (t, i) x -> edge_fine xy m x.

(** a fan from its first to its last corner *)
Lemma fan_open : forall m c0 cur l, tri_ok m -> vc m cur -> path m cur l -> L m (fst cur) (pv (snd cur)) = None ->
  L m (fst (lastc cur l)) (nx (snd (lastc cur l))) = None -> In c0 (cur :: l) -> forall x, vc m x -> in_fan m c0 x -> In x (cur :: l).
Proof.
  intros m c0 cur l Hm Vc Hpa N1 N2 H0 x Vx [H|H].
  - apply (orbit_open m Hm cur l Vc Hpa N2). apply (around_trans m _ c0); auto. apply (path_around m l); auto.
  - apply clos_rt_rt1n in H. induction H as [|x x1 c T H IH]; auto.
    pose proof (turn_vc m Hm x x1 Vx T) as V1. destruct (IH H0 V1) as [<-|Hi].
    + exfalso. destruct T as (k & T & E). rewrite E, pv_nx in N1 by apply T. destruct T as (_ & _ & _ & Q & _). congruence.
    + destruct (path_pred m l cur x1 Hpa Hi) as (y & Hy & Ty).
      rewrite (turn_inj m Hm x y x1); auto. apply (path_vc m Hm l cur Vc Hpa); auto.
Qed.
Lemma around_pred : forall m c0 cur, tri_ok m -> vc m c0 -> around m c0 cur -> c0 = cur \/ exists y, around m c0 y /\ turn m y cur /\ vc m y.
Proof.
  intros m c0 cur Hm V0 H. apply clos_rt_rtn1 in H. destruct H as [|y z T H]; auto. apply clos_rtn1_rt in H.
  right. exists y. split; auto. split; auto. apply (around_vc m Hm c0 y); auto.
Qed.

Lemma back_lt : forall m x c0, tri_ok m -> fst c0 < length m -> around m x c0 -> fst x < length m.
Proof.
  intros m x c0 Hm V0 H. apply clos_rt_rt1n in H. induction H as [|x y z (k & T & E) H IH]; auto.
  destruct T as (A1 & A2 & A3 & A4 & _). apply (L_lt m (fst y) k); auto.
Qed.

Lemma cw_path : forall po m t e u k po' f l, consistent po m -> t < length m -> twin m t e u k -> V m t e <> V m u k -> flipped xy po m t e u k po' f ->
  path m (t, e) l -> NoDup ((t, e) :: l) ->
  path f (u, 1) l /\ NoDup ((u, 1) :: l) /\ (forall x, In x l -> edge_fine xy m x -> edge_fine xy f x) /\
  (L m (fst (lastc (t, e) l)) (nx (snd (lastc (t, e) l))) = None -> L f (fst (lastc (u, 1) l)) (nx (snd (lastc (u, 1) l))) = None).
Proof.
  intros po m t e u k po' f l HC Ht TB HN HF Hpa Nd. pose proof (proj1 HC) as Hm. pose proof TB as (He & _).
  assert (Vc : vc m (t, e)) by (split; auto).
  assert (K : forall x, In x l -> vc m x /\ V m (fst x) (snd x) = V m t e /\ fst x <> t /\ fst x <> u).
  { intros x Hx. destruct (path_vc m Hm l (t, e) Vc Hpa x (or_intror Hx)) as (Vx & Px). split; auto. split; auto. split.
    - apply (orbit_ne po m HC (t, e) l Vc Hpa Nd x Hx).
    - intros E. destruct x as (s, j). cbn [fst] in E. subst s. apply (fl_nou po m t e u k HC Ht TB HN j); [apply Vx|exact Px]. }
  split; [|split; [|split]].
  - destruct l as [|a l]; [exact I|]. destruct Hpa as (T & Hpa). split; [apply (fl_first xy po m t e u k po' f); auto|].
    assert (Ka : forall x, In x (a :: l) -> vc m x /\ fst x <> t /\ fst x <> u) by (intros x Hx; destruct (K x Hx) as (? & _ & ? & ?); auto).
    clear - HC HF Ka Hpa. revert a Hpa Ka. induction l as [|b l IH]; intros a Hpa Ka; [exact I|]. destruct Hpa as (T & Hpa). split.
    + destruct (Ka a) as (? & ? & ?); [left; auto|]. destruct (Ka b) as (? & ? & ?); [right; left; auto|]. apply (fl_turn xy po m t e u k po' f); auto.
    + apply IH; auto. intros x Hx. apply Ka. right. auto.
  - inversion Nd; subst. constructor; auto. intros Hin. destruct (K _ Hin) as (_ & _ & _ & Q). apply Q. reflexivity.
  - intros (s, j) Hx Hf. destruct (K _ Hx) as ((K1 & K2) & K3 & K4 & K5). cbn [fst snd] in *.
    apply (fl_fine xy po m t e u k po' f HC Ht TB HN HF s j K1 K2 K4 K3 Hf).
  - destruct l as [|a l].
    + unfold lastc. cbn [last fst snd]. change (nx 1) with 2. intros E. rewrite (proj2 (proj2 (fl_Lu xy po m t e u k po' f HF))). exact E.
    + rewrite !lastc_cons. intros E. destruct (K (lastc a l)) as ((K1 & K2) & K3 & K4 & K5); [apply lastc_in|].
      apply HF; auto.
Qed.

Lemma dela_cw_run : forall fuel po m c0 cur l, good po m -> stored po p (fst c0) (snd c0) -> vc m cur -> P m cur = p -> path m cur l -> NoDup (cur :: l) ->
  L m (fst (lastc cur l)) (nx (snd (lastc cur l))) = None -> (In c0 (cur :: l) \/ around m c0 cur) ->
  (forall x, In x l -> edge_fine xy m x) ->
  (n - cnt m p) * (n + 2) + (n - length l) < fuel ->
  wp (loopf fuel (dela_cw p xy) (cur, (po, m))) (fun r => all_fine (snd r)).
Proof.
  induction fuel as [|fuel IH]; intros po m c0 cur l G Hs Vc Pc Hpa Nd HL Hc0 Hfine Hf; [exfalso; exact (Nat.nlt_0_r _ Hf)|].
  pose proof G as (HC & HP & Hl1 & Hl2 & _). assert (Hm : tri_ok m) by apply HC.
  destruct (stored_vc po m HC p (fst c0) (snd c0) Hs) as (V0 & P0). rewrite <- surjective_pairing in V0.
  cbn [loopf]. apply wp_bind. unfold dela_cw at 1. destruct cur as (t, i). pose proof Vc as (Ht & Hi). cbn [fst snd] in Ht, Hi.
  change (V m t i = p) in Pc.
  rewrite at_corner_ok by auto. cbn [bind]. apply wp_bind. eapply wp_mono; [apply (test_ok xy po m t i); auto; congruence|].
  intros [u|] HT.
  - destruct HT as (k & TB & HD). destruct (flip_ok xy po m t i u k HC HP Ht TB HD) as (HN & HW).
    apply wp_bind. eapply wp_mono; [exact HW|]. intros (b, (po', f)) HF.
    pose proof (flip_good po m t i u k po' f G Ht TB HF) as G'. pose proof G' as (_ & _ & _ & Hl3 & _).
    pose proof (fl_Vu xy po m t i u k po' f HF) as (_ & V1 & _).
    pose proof (fl_u po m t i u k HC Ht TB) as Hu.
    rewrite (vget_nth _ dtri0) by (rewrite Hl3; lia). cbn [bind]. change (gv (nth u f dtri0) 1) with (Some (V f u 1)). cbn [bind]. rewrite V1, Pc, Nat.eqb_refl. cbn [assertb bind].
    apply wp_some. cbn [fst snd].
    destruct (cw_path po m t i u k po' f l HC Ht TB HN HF Hpa Nd) as (C1 & C2 & C3 & C4).
    apply (IH po' f (t, 2) (u, 1) l); auto.
    + split; [rewrite (proj1 (proj2 HF)); lia|]. cbn [fst snd]. rewrite <- Pc. apply HF.
    + split; cbn [fst snd]; [lia|auto].
    + unfold P. cbn [fst snd]. congruence.
    + right. apply rt_step. apply (fl_stored xy po m t i u k po' f); auto.
    + pose proof (fl_cnt xy po m t i u k po' f HC Ht TB HN HF) as Hc. rewrite Pc in Hc. pose proof (cnt_le f p). nia.
  - assert (Hfine' : forall x, In x ((t, i) :: l) -> edge_fine xy m x) by (intros x [<-|Hx]; auto).
    destruct (turn_prev m Hm (t, i) Vc) as [((t', i') & T & V')|N].
    + pose proof (MoveCW_go po m HC (t, i) (t', i') Vc V' T) as Z. cbn [fst snd] in Z. rewrite Z. cbn [bind].
      apply wp_some. cbn [fst snd].
      assert (NdS : NoDup ((t', i') :: (t, i) :: l)).
      { constructor; auto. intros Hin. destruct (path_step m l (t, i) (t', i') Hpa Hin) as [Q|(y & Hy & Ty)].
        - rewrite <- Q in HL. apply (turn_link m) in T. cbn [fst snd] in *. congruence.
        - assert (y = (t, i)) by (apply (turn_fun m Hm (t', i')); auto). subst y. inversion Nd; auto. }
      assert (PaS : path m (t', i') ((t, i) :: l)) by (split; auto).
      apply (IH po m c0 (t', i') ((t, i) :: l)); auto.
      * rewrite <- (turn_P m (t', i') (t, i)) by auto. exact Pc.
      * destruct Hc0 as [H|H]; [left; right; auto|]. destruct (around_pred m c0 (t, i) Hm V0 H) as [->|(y & Y1 & Y2 & Y3)].
        -- left. right. left. auto.
        -- right. rewrite (turn_inj m Hm (t', i') y (t, i)); auto.
      * pose proof (path_len m Hm _ _ V' PaS NdS). cbn [length] in *. set (KK := (n - cnt m p) * (n + 2)) in *. clearbody KK. lia.
    + pose proof (MoveCW_stop po m HC (t, i) Vc N) as Z. cbn [fst snd] in Z. rewrite Z. cbn [bind].
      apply wp_some. cbn [fst snd]. apply wp_some. cbn [snd]. split; auto. exists (fst c0), (snd c0). split; auto.
      rewrite <- surjective_pairing. intros x Hx.
      assert (I0 : In c0 ((t, i) :: l)).
      { destruct Hc0 as [H|H]; auto. destruct (around_pred m c0 (t, i) Hm V0 H) as [->|(y & Y1 & (j & Y2 & Y3) & Y4)]; [left; auto|].
        exfalso. cbn [fst snd] in *. subst i. rewrite pv_nx in N by apply Y2. destruct Y2 as (_ & _ & _ & Q & _). congruence. }
      (* corners of the fan *)
      destruct (Nat.ltb_spec (snd x) 3) as [Hx3|Hx3].
      2:{ intros w j (Q & _). exfalso. cbn [fst snd] in Q. lia. }
      destruct Hx as [Hx|Hx].
      * apply Hfine', (fan_open m c0 (t, i) l); auto; [|left; auto]. apply (around_vc m Hm c0 x); auto.
      * apply Hfine', (fan_open m c0 (t, i) l); auto; [|right; auto].
        split; auto. apply (back_lt m x c0); auto. apply V0.
Qed.

Lemma good_refl : consistent po0 m0 -> positive xy m0 -> good po0 m0.
Proof. intros H1 H2. split; auto. split; auto. split; auto. split; auto. split; auto. split; auto. split; [tauto|auto]. Qed.

Lemma dela_ok : consistent po0 m0 -> positive xy m0 -> pe (nth p po0 (mkP None 0)) <> None ->
  wp (DelaunayAroundPoint p po0 m0 xy) all_fine.
Proof.
  intros HC HP HL. unfold DelaunayAroundPoint. apply wp_bind, wp_assertb; [apply Nat.eqb_eq; auto|].
  apply wp_bind, wp_assertb; [apply Nat.ltb_lt; auto|]. rewrite (vget_nth _ (mkP None 0)) by auto. cbn [bind].
  destruct (nth p po0 (mkP None 0)) as [[t|] i] eqn:Ep; cbn [pe pd] in *; [|congruence].
  assert (Hs : stored po0 p t i) by (split; auto). destruct (stored_vc po0 m0 HC p t i Hs) as (V0 & P0).
  apply wp_bind. change (t, i) with (lastc (t, i) []).
  assert (Hn : 0 < n) by (destruct V0 as (Q & _); cbn in Q; lia).
  assert (HM : forall (l : list (nat * nat)) m, (n - cnt m p) * (n + 2) + (n - length l) < dela_fuel m0 \/ False).
  { intros l m. left. unfold dela_fuel. nia. }
  eapply wp_mono; [apply dela_ccw_run; auto using good_refl|].
  - exact I.
  - constructor; [intros []|constructor].
  - intros x [<-|[]] N. exfalso. apply N. reflexivity.
  - destruct (HM (@nil (nat * nat)) m0) as [Q|[]]. exact Q.
  - intros ((c, (po, m)), wall) (G & c0 & l & Hs' & Hpa & Nd & Hw). pose proof (proj1 G) as HC'. pose proof (proj1 HC') as Hm'.
    destruct (stored_vc po m HC' p (fst c0) (snd c0) Hs') as (V1 & P1). rewrite <- surjective_pairing in V1.
    destruct wall; cbn [negb].
    + destruct Hw as (-> & N). destruct (path_vc m Hm' l c0 V1 Hpa _ (lastc_in l c0)) as (Vl & Pl).
      apply wp_bind. eapply wp_mono; [apply (dela_cw_run (dela_fuel m0) po m c0 (lastc c0 l) []); auto|].
      * rewrite Pl. exact P1.
      * exact I.
      * constructor; [intros []|constructor].
      * right. apply (path_around m l); auto. apply lastc_in.
      * intros x [].
      * destruct (HM (@nil (nat * nat)) m) as [Q|[]]. exact Q.
      * intros (c', st) H. apply wp_some. exact H.
    + apply wp_some. split; auto. exists (fst c0), (snd c0). split; auto. rewrite <- surjective_pairing. intros x Hx. destruct Hw as (T & Hfine).
      destruct (Nat.ltb_spec (snd x) 3) as [Hx3|Hx3].
      2:{ intros w j (Q & _). exfalso. cbn [fst snd] in Q. lia. }
      assert (Vx : vc m x).
      { split; auto. destruct Hx as [Hx|Hx]; [apply (around_vc m Hm' c0 x); auto|apply (back_lt m x c0); auto; apply V1]. }
      apply Hfine, (path_loop po m HC' (lastc c0 l) l c0); auto.
      destruct Hx as [Hx|Hx]; [left; apply (around_trans m _ c0); auto; apply rt_step; auto|right].
      apply (around_trans m _ c0); auto. apply (path_around m l); auto. apply lastc_in.
Qed.
Lemma dela_unused : length xy = length po0 -> pe (nth p po0 (mkP None 0)) = None -> DelaunayAroundPoint p po0 m0 xy = Some (po0, m0).
Proof.
  intros _ HL. unfold DelaunayAroundPoint. rewrite Hxy, Nat.eqb_refl, (proj2 (Nat.ltb_lt _ _) Hp). cbn [assertb bind].
  rewrite (vget_nth _ (mkP None 0)) by auto. cbn [bind]. rewrite HL. reflexivity.
Qed.
End Loops.
