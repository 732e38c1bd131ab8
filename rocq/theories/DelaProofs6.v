(** Delaunay meshes: super triangle, the whole insertion loop, smoothing. *)
From Coq Require Import List Arith Lia Bool Relations Reals Lra.
Import ListNotations.
From Verif Require Import Imp PrModel PolyModel DtriModel DtriSpec CollSpec FanSpec DelaModel DelaSpec DtriProps.
From Verif Require Import DtriProofs1 DtriProofs2 DtriProofs3 CollProofs1 CollProofs2 CollProofs7 FanProofs1 FanProofs2 DelaProofs1 DelaProofs2 DelaProofs3 DelaProofs4 DelaProofs5.
Local Open Scope R_scope.

(** the super triangle *)
Definition sup (b0 b1 b2 b3 : R) (i : nat) : pt :=
  let M := if ltR (b3 - b2) (b1 - b0) then b1 - b0 else b3 - b2 in
  let h := M * 4 * sqrt 3 / 6 in
  let c0 := (b1 + b0) * (1 / 2) in let c1 := (b3 + b2) * (1 / 2) in
  match i with
  | 0%nat => (c0, c1 + 2 * h)
  | 1%nat => (c0 - 1 / 2 * (M * 4), c1 - h)
  | _ => (c0 + 1 / 2 * (M * 4), c1 - h)
  end.

Lemma sqrt3 : 17 / 10 < sqrt 3 /\ sqrt 3 * sqrt 3 = 3.
Proof.
  assert (E : sqrt 3 * sqrt 3 = 3) by (apply sqrt_sqrt; lra). pose proof (sqrt_pos 3). split; auto.
  apply Rnot_le_lt. intros H1. assert (sqrt 3 * sqrt 3 <= 17 / 10 * (17 / 10)) by (apply Rmult_le_compat; auto). lra.
Qed.

Lemma sup_area : forall b0 b1 b2 b3 (q : pt) d, b0 <= fst q <= b1 -> b2 <= snd q <= b3 -> 0 < d -> (d <= b1 - b0 \/ d <= b3 - b2) ->
  9 / 10 * (d * d) <= Area_Tri2 q (sup b0 b1 b2 b3 1) (sup b0 b1 b2 b3 2) /\
  9 / 10 * (d * d) <= Area_Tri2 q (sup b0 b1 b2 b3 2) (sup b0 b1 b2 b3 0) /\
  9 / 10 * (d * d) <= Area_Tri2 q (sup b0 b1 b2 b3 0) (sup b0 b1 b2 b3 1).
Proof.
  intros b0 b1 b2 b3 (x, y) d (X1 & X2) (Y1 & Y2) Hd HM. cbn [fst snd] in *. unfold sup.
  pose proof (ltRs (b3 - b2) (b1 - b0)) as HL. set (M := if ltR (b3 - b2) (b1 - b0) then b1 - b0 else b3 - b2) in *.
  assert (M1 : b1 - b0 <= M) by (unfold M; destruct (ltR _ _); lra). assert (M2 : b3 - b2 <= M) by (unfold M; destruct (ltR _ _); lra).
  clearbody M. assert (MP : d <= M) by lra. clear HL HM.
  set (u := (b1 + b0) * (1 / 2)) in *. set (v := (b3 + b2) * (1 / 2)) in *. destruct sqrt3 as (S1 & S2). set (s := sqrt 3) in *.
  assert (DX1 : 0 <= x - u + M / 2) by (unfold u; lra). assert (DX2 : 0 <= M / 2 - (x - u)) by (unfold u; lra).
  assert (DY1 : 0 <= y - v + M / 2) by (unfold v; lra). assert (DY2 : 0 <= M / 2 - (y - v)) by (unfold v; lra).
  clearbody u v s. set (dx := x - u) in *. set (dy := y - v) in *. replace x with (u + dx) by (unfold dx; ring). replace y with (v + dy) by (unfold dy; ring). clearbody dx dy.
  assert (P1 : 0 <= M * (dy + M / 2)) by (apply Rmult_le_pos; lra). assert (P2 : 0 <= M * (M / 2 - dy)) by (apply Rmult_le_pos; lra).
  assert (SM : 0 <= s * M) by (apply Rmult_le_pos; lra).
  assert (P3 : 0 <= (s * M) * (dx + M / 2)) by (apply Rmult_le_pos; lra). assert (P4 : 0 <= (s * M) * (M / 2 - dx)) by (apply Rmult_le_pos; lra).
  assert (MM : d * d <= M * M) by (apply Rmult_le_compat; lra).
  assert (P5 : 0 <= (s - 17 / 10) * (M * M)) by (apply Rmult_le_pos; [lra|apply Rle_0_sqr]).
  assert (P6 : 0 <= d * d) by apply Rle_0_sqr.
  unfold Area_Tri2. cbn [fst snd]. split; [|split]; lra.
Qed.

(** loops that may stop early *)
Lemma forn_inv : forall {S} (I : nat -> S -> Prop) lo hi (f : nat -> S -> option S) s r, (lo <= hi)%nat -> I lo s ->
  (forall i s s', (lo <= i < hi)%nat -> I i s -> f i s = Some s' -> I (i + 1)%nat s') -> forn lo hi f s = Some r -> I hi r.
Proof.
  intros S I lo hi f s r Hle. unfold forn. remember (hi - lo)%nat as k eqn:Ek. revert lo s Hle Ek. induction k as [|k IH]; intros lo s Hle Ek H0 Hst.
  - cbn. intros E. injection E as <-. replace hi with lo by lia. auto.
  - cbn [forn_]. destruct (f lo s) as [s'|] eqn:E; cbn [bind]; [|discriminate]. intros E'.
    apply (IH (Datatypes.S lo) s'); auto; try lia.
    + replace (Datatypes.S lo) with (lo + 1)%nat by lia. apply (Hst lo s); auto. lia.
    + intros i a b Hi. apply Hst. lia.
Qed.

Section Init.
Variable xy0 : list pt.
Notation N := (length xy0).

Definition box (b : R * R * R * R) (j : nat) : Prop :=
  let '(b0, b1, b2, b3) := b in b0 <= fst (pos2 xy0 j) <= b1 /\ b2 <= snd (pos2 xy0 j) <= b3.
Lemma box_loop : forall p0 b, (0 < N)%nat -> nth 0 xy0 (0, 0) = p0 -> forn 1 N (fun ip b =>
    let '(b0, b1, b2, b3) := b in
    v <- vget xy0 ip ;;
    Some (if ltR (fst v) b0 then fst v else b0, if ltR b1 (fst v) then fst v else b1,
          if ltR (snd v) b2 then snd v else b2, if ltR b3 (snd v) then snd v else b3))
    (fst p0, fst p0, snd p0, snd p0) = Some b -> forall j, (j < N)%nat -> box b j.
Proof.
  intros p0 b HN Hp E. refine (forn_inv (fun i b => forall j, (j < i)%nat -> box b j) 1 N _ _ b HN _ _ E).
  - intros j Hj. replace j with 0%nat by lia. unfold box, pos2. rewrite Hp. lra.
  - clear. intros i (((b0, b1), b2), b3) s' Hi HI E j Hj. rewrite (vget_nth _ (0, 0)) in E by lia. cbn [bind] in E. injection E as <-. fold (pos2 xy0 i).
    assert (B : (j < i)%nat -> box (b0, b1, b2, b3) j) by (intros; apply HI; lia). unfold box in *. set (v := pos2 xy0 i) in *.
    pose proof (ltRs (fst v) b0) as Q1. pose proof (ltRs b1 (fst v)) as Q2. pose proof (ltRs (snd v) b2) as Q3. pose proof (ltRs b3 (snd v)) as Q4.
    destruct (Nat.eq_dec j i) as [->|Nj].
    + fold v. destruct (ltR (fst v) b0), (ltR b1 (fst v)), (ltR (snd v) b2), (ltR b3 (snd v)); lra.
    + specialize (B ltac:(lia)). destruct (ltR (fst v) b0), (ltR b1 (fst v)), (ltR (snd v) b2), (ltR b3 (snd v)); lra.
Qed.

Section Run.
Variables (S3 : list pt) (d : R).
Notation xy := (xy0 ++ S3).
Hypothesis HS : length S3 = 3%nat.
Hypothesis Hd : pten 10 < d.
Notation X := (pos2 xy).
Hypothesis Hin : forall q, (q < N)%nat -> d <= Area_Tri2 (X q) (X (N + 1)) (X (N + 2)) /\ d <= Area_Tri2 (X q) (X (N + 2)) (X N) /\ d <= Area_Tri2 (X q) (X N) (X (N + 1)).
Hypothesis Harea : 0 < Area_Tri2 (X N) (X (N + 1)) (X (N + 2)).

Definition base (a b : nat) : Prop := (a = N + 1 /\ b = N + 2 \/ a = N + 2 /\ b = N \/ a = N /\ b = N + 1)%nat.
Definition m_ini : list dtri := [mkT N (N + 1) (N + 2) None None None].
Definition po_ini : list dpnt := repeat (mkP None 0) N ++ [mkP (Some 0%nat) 0; mkP (Some 0%nat) 1; mkP (Some 0%nat) 2].

Definition inv (ip : nat) (st : list dpnt * list dtri) : Prop :=
  let '(po, m) := st in consistent po m /\ positive xy m /\ length po = (N + 3)%nat /\ length m = (2 * ip + 1)%nat /\
  total_area xy m = Area_Tri2 (X N) (X (N + 1)) (X (N + 2)) /\
  (forall a b, bedge m a b <-> base a b) /\
  (forall q, used m q -> (q < ip \/ N <= q)%nat) /\
  (forall q, (q < N + 3)%nat -> (q < ip \/ N <= q)%nat -> has_link po q).

Lemma ini_V : forall i, (i < 3)%nat -> V m_ini 0 i = (N + i)%nat.
Proof. intros i Hi. c3 i; unfold V, m_ini; cbn [nth vtx tv0 tv1 tv2]; lia. Qed.
Lemma ini_L : forall i, L m_ini 0 i = None.
Proof. intros [|[|i]]; reflexivity. Qed.
Lemma ini_po : forall q, nth q po_ini (mkP None 0) = if (q <? N)%nat then mkP None 0 else if (q <? N + 3)%nat then mkP (Some 0%nat) (q - N) else mkP None 0.
Proof.
  intros q. unfold po_ini. destruct (Nat.ltb_spec q N) as [H|H].
  - rewrite app_nth1 by (rewrite repeat_length; auto). apply nth_repeat.
  - rewrite app_nth2 by (rewrite repeat_length; lia). rewrite repeat_length. destruct (Nat.ltb_spec q (N + 3)) as [H1|H1].
    + assert (C : (q - N = 0 \/ q - N = 1 \/ q - N = 2)%nat) by lia. destruct C as [-> | [-> | ->]]; reflexivity.
    + apply nth_overflow. cbn. lia.
Qed.
Lemma inv_ini : inv 0 (po_ini, m_ini).
Proof.
  assert (LP : length po_ini = (N + 3)%nat) by (unfold po_ini; rewrite app_length, repeat_length; reflexivity).
  unfold inv. split; [split; [|split]|].
  - intros t Ht. replace t with 0%nat by (cbn in Ht; lia). split; [|split].
    + intros i j Hi Hj. rewrite !ini_V by auto. lia.
    + intros i j Hi Hj _ Q. rewrite ini_L in Q. congruence.
    + intros i j Hi Q. rewrite ini_L in Q. congruence.
  - intros t i Ht Hi. replace t with 0%nat by (cbn in Ht; lia). rewrite ini_V, LP by auto. lia.
  - intros q t Hq. rewrite ini_po, LP in *. destruct (Nat.ltb_spec q N) as [H|H]; [discriminate|]. rewrite (proj2 (Nat.ltb_lt _ _) Hq). cbn [pe pd].
    intros E. injection E as <-. split; [cbn; lia|]. split; [lia|]. rewrite ini_V; lia.
  - split; [|split; [auto|split; [reflexivity|split; [|split; [|split]]]]].
    + intros t Ht. replace t with 0%nat by (cbn in Ht; lia). exact Harea.
    + unfold total_area. change (length m_ini) with 1%nat. cbn [seq map fold_right]. unfold tri_area. rewrite !ini_V, Nat.add_0_r by auto. lra.
    + intros a b. split.
      * intros (t & i & Ht & Hi & _ & <- & <-). replace t with 0%nat by (cbn in Ht; lia). unfold base. rewrite !ini_V by auto.
        assert (C : (nx i = 1 /\ pv i = 2 \/ nx i = 2 /\ pv i = 0 \/ nx i = 0 /\ pv i = 1)%nat) by (c3 i; auto). lia.
      * intros H. destruct H as [(-> & ->)|[(-> & ->)|(-> & ->)]]; [exists 0%nat, 0%nat|exists 0%nat, 1%nat|exists 0%nat, 2%nat];
          (split; [auto|]); (split; [auto|]); (split; [reflexivity|]); split; rewrite ini_V; auto; cbn; lia.
    + intros q (t & Ht & i & Hi & E). replace t with 0%nat in E by (cbn in Ht; lia). rewrite ini_V in E by auto. lia.
    + intros q Hq [H|H]; [lia|]. unfold has_link. rewrite ini_po. destruct (Nat.ltb_spec q N); [lia|]. rewrite (proj2 (Nat.ltb_lt _ _) Hq). cbn. discriminate.
Qed.

Lemma inv_step : forall ip st st', (ip < N)%nat -> inv ip st ->
  (let '(aPo2D, aTri) := st in '(aPo2D, aTri) <- AddPointsMesh xy aPo2D aTri ip (pten 10) ;; DelaunayAroundPoint ip aPo2D aTri xy) = Some st' -> inv (ip + 1) st'.
Proof.
  intros ip (po, m) st' Hip (I1 & I2 & I3 & I4 & I5 & I6 & I7 & I8) E.
  assert (Hxy : length xy = length po) by (rewrite app_length, HS; lia).
  assert (HE : pe (nth ip po (mkP None 0)) = None).
  { destruct (pe (nth ip po (mkP None 0))) as [t|] eqn:Q; auto. exfalso. destruct I1 as (_ & _ & Hpe).
    destruct (Hpe ip t ltac:(lia) Q) as (A & B & C). destruct (I7 ip); [|lia|lia]. exists t. split; auto. eexists. split; [exact B|auto]. }
  destruct (add_ok xy po m I1 Hxy ip (pten 10) I2 ltac:(lia) (pten_pos 10) HE) as [(E1 & _)|[(E1 & t & e & Ht & He & HL & HA)|(po' & f & E1 & HA)]]; rewrite E1 in E; cbn [bind] in E.
  - discriminate.
  - exfalso. assert (Hb : base (V m t (nx e)) (V m t (pv e))) by (apply I6; exists t, e; auto).
    destruct (Hin ip Hip) as (A1 & A2 & A3). destruct Hb as [(Q1 & Q2)|[(Q1 & Q2)|(Q1 & Q2)]]; rewrite Q1, Q2 in HA; lra.
  - destruct HA as (A1 & A2 & A3 & A4 & A5 & A6 & A7 & A8 & A9).
    destruct (wp_ex _ _ _ (dela_ok xy po' f ip ltac:(lia) ltac:(lia) A1 A2 A7)) as ((po2, f2) & E2 & (B1 & B2 & B3 & B4 & B5 & B6 & B7 & B8) & _).
    rewrite E2 in E. injection E as <-. split; auto. split; auto. split; [lia|]. split; [lia|]. split; [congruence|]. split; [|split].
    + intros a b. rewrite B7, A8. apply I6.
    + intros q Hq. apply B8, A9 in Hq. destruct Hq as [Hq| ->]; [apply I7 in Hq; lia|lia].
    + intros q Hq H. unfold has_link. apply B6; [lia|]. fold (has_link po' q). destruct (Nat.eq_dec q ip) as [->|Nq]; [apply A7|].
      apply A6; [lia|]. apply I8; auto. lia.
Qed.
End Run.
End Init.

Lemma initialize_ok : forall xy0 po m xy d, (0 < length xy0)%nat -> 0 < d -> pten 10 < 9 / 10 * (d * d) ->
  (exists i j, (i < length xy0)%nat /\ (j < length xy0)%nat /\ (d <= fst (pos2 xy0 i) - fst (pos2 xy0 j) \/ d <= snd (pos2 xy0 i) - snd (pos2 xy0 j))) ->
  Meshing_Initialize xy0 = Some (po, m, xy) -> let N := length xy0 in
  (exists S3, xy = xy0 ++ S3 /\ length S3 = 3%nat) /\ inv xy0 (skipn N xy) N (po, m) /\
  (forall q, (q < N)%nat -> 0 < Area_Tri2 (pos2 xy q) (pos2 xy (N + 1)) (pos2 xy (N + 2)) /\
     0 < Area_Tri2 (pos2 xy q) (pos2 xy (N + 2)) (pos2 xy N) /\ 0 < Area_Tri2 (pos2 xy q) (pos2 xy N) (pos2 xy (N + 1))).
Proof.
  intros xy0 po m xy d HN Hd0 Hd (i & j & Hi & Hj & Hij) E N. unfold Meshing_Initialize in E. rewrite (vget_nth _ (0, 0)) in E by auto. cbn [bind] in E.
  rewrite !repeat_length in E. destruct (forn 1 _ _ _) as [b|] eqn:EB in E; cbn [bind] in E; [|discriminate].
  pose proof (box_loop xy0 _ b HN eq_refl EB) as HB. clear EB. destruct b as (((b0, b1), b2), b3).
  unfold MakeSuperTriangle in E. rewrite !repeat_length, Nat.eqb_refl in E. cbn [assertb bind] in E.
  set (S3 := [sup b0 b1 b2 b3 0; sup b0 b1 b2 b3 1; sup b0 b1 b2 b3 2]).
  match type of E with context [forn 0 ?k ?F (?A, ?B)] => set (FF := F) in E; change A with (po_ini xy0) in E; change B with (m_ini xy0) in E end.
  set (K := (length (po_ini xy0) - 3)%nat) in E.
  destruct (forn 0 K FF (po_ini xy0, m_ini xy0)) as [(po', m')|] eqn:EF; cbn [bind] in E; [|discriminate].
  assert (E' : po' = po /\ m' = m /\ xy0 ++ S3 = xy). { injection E as E1 E2 E3. auto. } clear E. destruct E' as (-> & -> & <-).
  assert (HK : K = length xy0). { unfold K, po_ini. rewrite app_length, repeat_length. cbn. lia. }
  assert (XN : forall k, (k < 3)%nat -> pos2 (xy0 ++ S3) (N + k) = sup b0 b1 b2 b3 k).
  { intros k Hk. unfold pos2, N. rewrite app_nth2 by lia. replace (length xy0 + k - length xy0)%nat with k by lia. c3 k; reflexivity. }
  assert (Xq : forall q, (q < N)%nat -> pos2 (xy0 ++ S3) q = pos2 xy0 q) by (intros q Hq; unfold pos2; apply app_nth1; auto).
  pose proof (XN 0%nat ltac:(auto)) as X0. pose proof (XN 1%nat ltac:(auto)) as X1. pose proof (XN 2%nat ltac:(auto)) as X2. rewrite Nat.add_0_r in X0.
  assert (Hspan : d <= b1 - b0 \/ d <= b3 - b2).
  { pose proof (HB i Hi) as Bi. pose proof (HB j Hj) as Bj. unfold box in Bi, Bj. destruct Hij; [left|right]; lra. }
  assert (Hin : forall q, (q < N)%nat -> 9 / 10 * (d * d) <= Area_Tri2 (pos2 (xy0 ++ S3) q) (pos2 (xy0 ++ S3) (N + 1)) (pos2 (xy0 ++ S3) (N + 2)) /\
     9 / 10 * (d * d) <= Area_Tri2 (pos2 (xy0 ++ S3) q) (pos2 (xy0 ++ S3) (N + 2)) (pos2 (xy0 ++ S3) N) /\
     9 / 10 * (d * d) <= Area_Tri2 (pos2 (xy0 ++ S3) q) (pos2 (xy0 ++ S3) N) (pos2 (xy0 ++ S3) (N + 1))).
  { intros q Hq. rewrite X0, X1, X2, Xq by auto. destruct (HB q Hq) as (Q1 & Q2). apply sup_area; auto. }
  assert (Dpos : 0 < 9 / 10 * (d * d)) by (pose proof (pten_pos 10); lra).
  assert (Harea : 0 < Area_Tri2 (pos2 (xy0 ++ S3) N) (pos2 (xy0 ++ S3) (N + 1)) (pos2 (xy0 ++ S3) (N + 2))).
  { destruct (Hin 0%nat HN) as (Q1 & Q2 & Q3).
    pose proof (area_split (pos2 (xy0 ++ S3) N) (pos2 (xy0 ++ S3) (N + 1)) (pos2 (xy0 ++ S3) (N + 2)) (pos2 (xy0 ++ S3) 0)). lra. }
  replace (skipn N (xy0 ++ S3)) with S3 by (unfold N; rewrite skipn_app, skipn_all, Nat.sub_diag; reflexivity).
  split; [exists S3; auto|]. split; [|intros q Hq; destruct (Hin q Hq) as (Q1 & Q2 & Q3); lra].
  rewrite HK in EF. refine (forn_inv (inv xy0 S3) 0 (length xy0) FF _ _ ltac:(lia) _ _ EF).
  - apply (inv_ini xy0 S3); auto.
  - intros ip st st' Hip HI HE. apply (inv_step xy0 S3 (9 / 10 * (d * d))) with (st := st); auto; lia.
Qed.

(** LaplacianArroundPoint *)
Section Lap.
Variables (xy : list pt) (po : list dpnt) (m : list dtri).
Notation X := (pos2 xy).
Hypothesis HC : consistent po m.
Hypothesis Hxy : length xy = length po.
Let Hm : tri_ok m := proj1 HC.
Notation side x := (X (V m (fst x) (nx (snd x)))).

Definition lap_body (ipoin itri_ini : nat) (st : (nat * nat) * (pt * nat * bool)) : option ((nat * nat) * (pt * nat * bool) * bool) :=
    let '((itri0, ino0), (d, n, _)) := st in
    assertb ((itri0 <? length m) && (ino0 <? 3))%nat ;;;
    t <- vget m itri0 ;; x <- gv t ino0 ;; assertb (x =? ipoin)%nat ;;;
    q <- gv t ((ino0 + 1) mod 3)%nat ;; vq <- vget xy q ;;
    let d : pt := (fst d + fst vq, snd d + snd vq) in
    let n := S n in
    c <- MoveCCW itri0 ino0 None m ;;
    match c with
    | None => Some (((itri0, ino0), (d, n, false)), true)
    | Some (it, ino) => Some (((it, ino), (d, n, true)), (it =? itri_ini)%nat)
    end.
Definition add2 (a b : pt) : pt := (fst a + fst b, snd a + snd b).
Lemma lap_step : forall c ipo ini d n b, vc m c -> P m c = ipo ->
  (L m (fst c) (nx (snd c)) = None -> lap_body ipo ini (c, (d, n, b)) = Some ((c, (add2 d (side c), S n, false)), true)) /\
  (forall c', turn m c c' -> lap_body ipo ini (c, (d, n, b)) = Some ((c', (add2 d (side c), S n, true)), (fst c' =? ini)%nat)).
Proof.
  intros (t, i) ipo ini d n b Vc E. pose proof Vc as (Ht & Hi). cbn [fst snd] in *. unfold P in E. cbn [fst snd] in E.
  unfold lap_body. rewrite (proj2 (Nat.ltb_lt _ _) Ht), (proj2 (Nat.ltb_lt _ _) Hi). cbn [andb assertb bind].
  rewrite (vget_nth _ dtri0) by auto. cbn [bind]. rewrite gv_vtx by auto. cbn [bind].
  change (vtx (nth t m dtri0) i) with (V m t i). rewrite E, Nat.eqb_refl. cbn [assertb bind]. rewrite gv_nx by auto. cbn [bind].
  rewrite (vget_nth _ (0, 0)) by (rewrite Hxy; apply HC; auto). cbn [bind]. fold (X (V m t (nx i))). split.
  - intros N. pose proof (MoveCCW_stop m (t, i) None Vc N) as Q. cbn [fst snd] in Q. rewrite Q. reflexivity.
  - intros (t', i') T. pose proof (CCW_go po m HC (t, i) (t', i') Vc T) as Q. cbn [fst snd] in Q. rewrite Q. reflexivity.
Qed.
Lemma lap_run : forall ipo ini l c fuel d n b, vc m c -> P m c = ipo -> path m c l -> (forall x, In x l -> fst x <> ini) -> (length l < fuel)%nat ->
  (L m (fst (lastc c l)) (nx (snd (lastc c l))) = None ->
     exists c' d' n', loopf fuel (lap_body ipo ini) (c, (d, n, b)) = Some (c', (d', n', false))) /\
  ((exists c', turn m (lastc c l) c' /\ fst c' = ini) ->
     exists c', loopf fuel (lap_body ipo ini) (c, (d, n, b)) = Some (c', (fold_left (fun d x => add2 d (side x)) (c :: l) d, (n + S (length l))%nat, true))).
Proof.
  intros ipo ini. induction l as [|a l IH]; intros c fuel d n b Vc EP Hp Hs Hf; (destruct fuel as [|fuel]; [cbn in Hf; lia|]);
    destruct (lap_step c ipo ini d n b Vc EP) as (R1 & R2).
  - unfold lastc. cbn [last]. split.
    + intros N. cbn [loopf]. rewrite (R1 N). cbn [bind]. eauto.
    + intros (c' & T & E). exists c'. cbn [loopf]. rewrite (R2 c' T). cbn [bind]. rewrite E, Nat.eqb_refl. cbn [fold_left length]. rewrite Nat.add_1_r. reflexivity.
  - destruct Hp as (T & Hp). rewrite lastc_cons. pose proof (turn_vc m Hm _ _ Vc T) as Va. specialize (R2 a T).
    assert (Ea : (fst a =? ini)%nat = false) by (apply Nat.eqb_neq; apply Hs; left; auto). rewrite Ea in R2.
    destruct (IH a fuel (add2 d (side c)) (S n) true Va) as (I1 & I2); auto.
    { rewrite (turn_P m c a); auto. }
    { intros x Hx. apply Hs. right; auto. }
    { cbn in Hf. lia. }
    split; intros H; [destruct (I1 H) as (c' & d' & n' & E); exists c', d', n'|destruct (I2 H) as (c' & E); exists c'];
      cbn [loopf]; rewrite R2; cbn [bind]; rewrite E; auto. cbn [fold_left length]. do 4 f_equal. lia.
Qed.
Lemma fold_add2 : forall l d, fold_left (fun d x => add2 d (side x)) l d =
  (fst d + fold_right Rplus 0 (map (fun x => fst (side x)) l), snd d + fold_right Rplus 0 (map (fun x => snd (side x)) l)).
Proof.
  induction l as [|a l IH]; intros (dx, dy); cbn [fold_left map fold_right]; [f_equal; cbn; lra|]. rewrite IH. unfold add2. cbn [fst snd]. f_equal; lra.
Qed.

Lemma laplacian_ok : forall p t i, stored po p t i ->
  (closed_fan m t i -> exists l, fan_list m (t, i) l /\ LaplacianArroundPoint xy p po m = Some (true, upd xy p
      ((fst (X p) + fold_right Rplus 0 (map (fun x => fst (side x)) l)) / INR (S (length l)),
       (snd (X p) + fold_right Rplus 0 (map (fun x => snd (side x)) l)) / INR (S (length l))))) /\
  (~ closed_fan m t i -> LaplacianArroundPoint xy p po m = Some (false, xy)).
Proof.
  intros p t i Hst. destruct (stored_vc po m HC p t i Hst) as (Vc & Ev). destruct Hst as (Hp & Est).
  destruct (orbit m Hm (t, i) Vc) as (l & P1 & P2 & P3). pose proof (orbit_fan po m HC (t, i) l Vc P1 P2 P3) as Hfan.
  assert (E0 : LaplacianArroundPoint xy p po m = ('(_, (d, n, ok)) <- loopf (S (length m)) (lap_body p t) ((t, i), (X p, 1%nat, false)) ;;
    if ok : bool then aVec2 <- vset xy p (fst d / INR n, snd d / INR n) ;; Some (true, aVec2) else Some (false, xy))).
  { unfold LaplacianArroundPoint. rewrite Hxy, Nat.eqb_refl. cbn [assertb bind]. rewrite (vget_nth _ (mkP None 0)) by auto. cbn [bind]. rewrite Est. cbn [pe pd bind].
    rewrite (vget_nth _ (0, 0)) by lia. cbn [bind]. reflexivity. }
  destruct (lap_run p t l (t, i) (S (length m)) (X p) 1 false) as (R1 & R2); auto.
  { exact (orbit_ne po m HC (t, i) l Vc P1 P2). }
  { pose proof (path_len m Hm l (t, i) Vc P1 P2). lia. }
  destruct P3 as [N|T].
  - destruct (R1 N) as (c' & d' & n' & E). rewrite E0, E. cbn [bind]. split; [|auto]. intros H. exfalso.
    destruct (lastc (t, i) l) as (s, j) eqn:El. apply (H s j); auto. apply (proj2 (proj2 (proj2 Hfan))). rewrite <- El. apply lastc_in.
  - destruct R2 as (c' & E); [exists (t, i); auto|]. rewrite E0, E. cbn [bind]. split.
    + intros _. exists ((t, i) :: l). split; auto. rewrite vset_upd by lia. cbn [bind]. rewrite fold_add2. reflexivity.
    + intros H. exfalso. apply H. intros s j Hsj.
      destruct (path_step m l (t, i) (s, j) P1) as [Q|(y & _ & Q)]; [apply (proj2 (proj2 (proj2 Hfan))); auto| |].
      * rewrite <- Q in T. apply (turn_link m) in T. cbn [fst snd] in T. congruence.
      * apply (turn_link m) in Q. cbn [fst snd] in Q. congruence.
Qed.
End Lap.

(** the centre of the circle is unique *)
Lemma center_unique : forall p0 p1 p2 o c : pt, Area_Tri2 p0 p1 p2 <> 0 ->
  SquareDistance o p1 = SquareDistance o p0 -> SquareDistance o p2 = SquareDistance o p0 ->
  SquareDistance c p1 = SquareDistance c p0 -> SquareDistance c p2 = SquareDistance c p0 -> o = c.
Proof.
  intros (ax, ay) (bx, by') (cx, cy) (ox, oy) (ux, uy). unfold Area_Tri2, SquareDistance. cbn [fst snd]. intros HA H1 H2 H3 H4.
  set (K := (bx - ax) * (cy - ay) - (cx - ax) * (by' - ay)) in *. assert (NK : K <> 0) by (intros E; apply HA; rewrite E; lra).
  assert (E1 : (ox - ux) * (bx - ax) + (oy - uy) * (by' - ay) = 0) by lra.
  assert (E2 : (ox - ux) * (cx - ax) + (oy - uy) * (cy - ay) = 0) by lra.
  assert (F1 : (ox - ux) * K = 0).
  { replace ((ox - ux) * K) with (((ox - ux) * (bx - ax) + (oy - uy) * (by' - ay)) * (cy - ay) - ((ox - ux) * (cx - ax) + (oy - uy) * (cy - ay)) * (by' - ay)) by (unfold K; ring).
    rewrite E1, E2. ring. }
  assert (F2 : (oy - uy) * K = 0).
  { replace ((oy - uy) * K) with (((ox - ux) * (cx - ax) + (oy - uy) * (cy - ay)) * (bx - ax) - ((ox - ux) * (bx - ax) + (oy - uy) * (by' - ay)) * (cx - ax)) by (unfold K; ring).
    rewrite E1, E2. ring. }
  apply Rmult_integral in F1, F2. f_equal; [destruct F1|destruct F2]; try lra; contradiction.
Qed.

Lemma fine_delaunay : forall xy m c, edge_fine xy m c -> delaunay_edge xy m c.
Proof.
  intros xy m c H u k T HA o Ho. specialize (H u k T). revert H. rewrite DetDelaunay_eq. fold (tri_area xy m (fst c)).
  pose proof (ltRs (Rabs (tri_area xy m (fst c))) (pten 10)) as Q. destruct (ltR _ _).
  { exfalso. pose proof (Rle_abs (tri_area xy m (fst c))). unfold pten in Q. lra. }
  assert (HN : tri_area xy m (fst c) <> 0). { pose proof (pten_pos 10) as K. unfold pten in K. lra. }
  destruct (center_eq _ _ _ HN) as (C1 & C2).
  set (cc := center (pos2 xy (V m (fst c) 0)) (pos2 xy (V m (fst c) 1)) (pos2 xy (V m (fst c) 2))) in *.
  assert (E : o = cc). { apply (center_unique _ _ _ o cc HN); auto. }
  rewrite E. pose proof (pten_pos 20) as K.
  pose proof (ltRs (SquareDistance cc (pos2 xy (V m (fst c) 0)) * (1 + pten 20)) (SquareDistance cc (pos2 xy (V m u k)))) as Q1. destruct (ltR _ _).
  - intros _. pose proof (sd_pos cc (pos2 xy (V m (fst c) 0))) as Q2. fold (pten 20).
    assert (0 <= SquareDistance cc (pos2 xy (V m (fst c) 0)) * pten 20) by (apply Rmult_le_pos; lra). lra.
  - pose proof (ltRs (SquareDistance cc (pos2 xy (V m u k))) (SquareDistance cc (pos2 xy (V m (fst c) 0)) * (1 - pten 20))) as Q2. destruct (ltR _ _).
    + congruence.
    + intros _. fold (pten 20). lra.
Qed.
