(** Looking around a point: the fan loops. *)
From Coq Require Import List Arith Lia Bool Relations.
Import ListNotations.
From Verif Require Import Imp DtriModel DtriSpec CollModel CollSpec FanModel FanSpec DtriProps DtriProofs1 DtriProofs2 DtriProofs4 CollProofs1 CollProofs2 CollProofs7 FanProofs1.

Section Walk.
Variables (po : list dpnt) (m : list dtri).
Hypothesis HC : consistent po m.
Let Hm : tri_ok m := proj1 HC.

Lemma MoveCW_go : forall c c', vc m c -> vc m c' -> turn m c' c -> MoveCW (fst c) (snd c) None m = Some (Some c').
Proof.
  intros (t, i) (t', i') (Ht & Hi) (Ht' & Hi') T. cbn [fst snd] in *. destruct (C18_moves po m t i HC Ht Hi) as (_ & H).
  destruct T as (k & T & E). cbn [fst snd] in *. subst i. pose proof T as (_ & Hk & L1 & L2 & _).
  rewrite pv_nx in H by auto. rewrite L2 in H. destruct H as (c & H1 & H2 & H3 & H4 & H5). rewrite H1. do 3 f_equal.
  destruct T as (_ & _ & _ & _ & _ & T). rewrite <- T, pv_nx in H4 by auto. destruct (Hm t' Ht') as (Q & _). apply Q; auto.
Qed.
Lemma MoveCW_stop : forall c, vc m c -> L m (fst c) (pv (snd c)) = None -> MoveCW (fst c) (snd c) None m = Some None.
Proof. intros (t, i) (Ht & Hi) E. cbn [fst snd] in *. destruct (C18_moves po m t i HC Ht Hi) as (_ & H). rewrite E in H. auto. Qed.
Lemma CCW_go : forall c c', vc m c -> turn m c c' -> MoveCCW (fst c) (snd c) None m = Some (Some c').
Proof.
  intros c c' Vc T. pose proof (turn_vc m Hm c c' Vc T) as Vc'.
  apply MoveCCW_go; auto; [discriminate| |]; apply (Hm _); [apply Vc|apply Vc'].
Qed.
Lemma stored_vc : forall p t i, stored po p t i -> vc m (t, i) /\ V m t i = p.
Proof.
  intros p t i (Hp & E). pose proof HC as (_ & _ & H). specialize (H p t Hp). rewrite E in H. cbn [pe pd] in H. destruct (H eq_refl) as (H1 & H2 & H3).
  split; auto. split; auto.
Qed.

(** GetTriArrayAroundPoint *)
Definition tri_body (ipoin itri_ini : nat) (s : nat * nat * list (nat * nat)) :=
      let '((itri0, inoel), l) := s in
      t <- vget m itri0 ;; x <- gv t inoel ;; assertb (x =? ipoin) ;;;
      let l := l ++ [(itri0, inoel)] in
      m <- MoveCCW itri0 inoel None m ;;
      match m with
      | None => Some (((itri0, inoel), l), true)
      | Some (it, ino) => if it =? itri_ini then Some (((it, ino), l), true) else Some (((it, ino), l), false)
      end.
Lemma tri_step : forall c ipo ini acc, vc m c -> P m c = ipo ->
  (L m (fst c) (nx (snd c)) = None -> tri_body ipo ini (c, acc) = Some ((c, acc ++ [c]), true)) /\
  (forall c', turn m c c' -> tri_body ipo ini (c, acc) = Some ((c', acc ++ [c]), fst c' =? ini)).
Proof.
  intros (t, i) ipo ini acc Vc E. pose proof Vc as (Ht & Hi). cbn [fst snd] in *. unfold P in E. cbn [fst snd] in E.
  unfold tri_body. rewrite (vget_nth _ dtri0) by auto. cbn [bind]. rewrite gv_vtx by auto. cbn [bind].
  change (vtx (nth t m dtri0) i) with (V m t i). rewrite E, Nat.eqb_refl. cbn [assertb bind]. split.
  - intros N. pose proof (MoveCCW_stop m (t, i) None Vc N) as X. cbn [fst snd] in X. rewrite X. reflexivity.
  - intros (t', i') T. pose proof (CCW_go (t, i) (t', i') Vc T) as X. cbn [fst snd] in X. rewrite X. cbn [bind fst]. destruct (t' =? ini); reflexivity.
Qed.
Lemma tri_run : forall ipo ini l c fuel acc, vc m c -> P m c = ipo -> path m c l -> (forall x, In x l -> fst x <> ini) ->
  length l < fuel ->
  (L m (fst (lastc c l)) (nx (snd (lastc c l))) = None \/ (exists c', turn m (lastc c l) c' /\ fst c' = ini)) ->
  exists c', loopf fuel (tri_body ipo ini) (c, acc) = Some (c', acc ++ c :: l).
Proof.
  intros ipo ini. induction l as [|a l IH]; intros c fuel acc Vc EP Hp Hs Hf He; (destruct fuel as [|fuel]; [cbn in Hf; lia|]);
    destruct (tri_step c ipo ini acc Vc EP) as (R1 & R2).
  - unfold lastc in He. cbn [last] in He. destruct He as [N|(c' & T & E)].
    + exists c. cbn [loopf]. rewrite (R1 N). reflexivity.
    + exists c'. cbn [loopf]. rewrite (R2 c' T). cbn [bind]. rewrite E, Nat.eqb_refl. reflexivity.
  - destruct Hp as (T & Hp). rewrite lastc_cons in He. pose proof (turn_vc m Hm _ _ Vc T) as Va. specialize (R2 a T).
    assert (Ea : (fst a =? ini) = false) by (apply Nat.eqb_neq; apply Hs; left; auto). rewrite Ea in R2.
    destruct (IH a fuel (acc ++ [c]) Va) as (c' & I); auto.
    { rewrite (turn_P m c a); auto. }
    { intros x Hx. apply Hs. right; auto. }
    { cbn in Hf. lia. }
    exists c'. cbn [loopf]. rewrite R2. cbn [bind]. rewrite I, <- app_assoc. reflexivity.
Qed.

(** the orbit as a list *)
Lemma orbit_ne : forall c l, vc m c -> path m c l -> NoDup (c :: l) -> forall x, In x l -> fst x <> fst c.
Proof.
  intros c l Vc Hp Nd x Hx E. inversion Nd as [|? ? N1 N2]; subst. apply N1.
  destruct (path_vc m Hm l c Vc Hp x (or_intror Hx)) as (Vx & Px).
  rewrite (corner_eq m Hm c x); auto.
Qed.
Lemma path_nth : forall l c, path m c l -> forall n, S n < length (c :: l) -> turn m (nth n (c :: l) (0, 0)) (nth (S n) (c :: l) (0, 0)).
Proof.
  induction l as [|a l IH]; intros c Hp n Hn; [cbn in Hn; lia|]. destruct Hp as (T & Hp). destruct n as [|n]; [exact T|].
  apply (IH a Hp n). cbn in *. lia.
Qed.
Lemma orbit_fan : forall c l, vc m c -> path m c l -> NoDup (c :: l) ->
  (L m (fst (lastc c l)) (nx (snd (lastc c l))) = None \/ turn m (lastc c l) c) -> fan_list m c (c :: l).
Proof.
  intros c l Vc Hp Nd He. split; [reflexivity|]. split; [auto|]. split; [apply path_nth; auto|].
  intros x. destruct He as [N|T]; symmetry; [apply orbit_open|apply orbit_around]; auto.
Qed.

Lemma GetTri_ok : forall p t i, stored po p t i -> exists l, GetTriArrayAroundPoint p po m = Some l /\ fan_list m (t, i) l.
Proof.
  intros p t i Hst. destruct (stored_vc p t i Hst) as (Vc & Ev). destruct Hst as (Hp & Est).
  destruct (orbit m Hm (t, i) Vc) as (l & P1 & P2 & P3). exists ((t, i) :: l). split; [|apply orbit_fan; auto].
  unfold GetTriArrayAroundPoint. rewrite (vget_nth _ (mkP None 0)) by auto. cbn [bind]. rewrite Est. cbn [pe pd bind].
  pose proof Vc as (Ht & Hi). cbn [fst snd] in *.
  rewrite (vget_nth _ dtri0) by auto. cbn [bind]. rewrite gv_vtx by auto. cbn [bind]. change (vtx (nth t m dtri0) i) with (V m t i).
  rewrite Ev, Nat.eqb_refl. cbn [assertb bind]. fold (tri_body p t).
  destruct (tri_run p t l (t, i) (S (length m)) []) as (c' & E); auto.
  - exact (orbit_ne (t, i) l Vc P1 P2).
  - pose proof (path_len m Hm l (t, i) Vc P1 P2). lia.
  - destruct P3 as [N|T]; [left; auto|right]. exists (t, i). auto.
  - change (bind (loopf (S (length m)) (tri_body p t) ((t, i), [])) (fun '(_, l) => Some l) = Some ((t, i) :: l)). rewrite E. reflexivity.
Qed.

(** FindPointAroundPoint *)
Definition pnt_body (ipo0 itri_ini : nat) (s : nat * nat * (list nat * bool)) :=
      let '((itri, ino), (l, _)) := s in
      t <- vget m itri ;;
      q <- gv t ((ino + 2) mod 3) ;;
      let l := l ++ [q] in
      x <- gv t ino ;; assertb (x =? ipo0) ;;;
      m <- MoveCCW itri ino None m ;;
      match m with
      | None => Some (((itri, ino), (l, false)), true)
      | Some (it, ino) => if it =? itri_ini then Some (((it, ino), (l, true)), true)
                          else Some (((it, ino), (l, false)), false)
      end.
Lemma pnt_step : forall c ipo ini acc b, vc m c -> P m c = ipo ->
  (L m (fst c) (nx (snd c)) = None -> pnt_body ipo ini (c, (acc, b)) = Some ((c, (acc ++ [far m c], false)), true)) /\
  (forall c', turn m c c' -> pnt_body ipo ini (c, (acc, b)) = Some ((c', (acc ++ [far m c], fst c' =? ini)), fst c' =? ini)).
Proof.
  intros (t, i) ipo ini acc b Vc E. pose proof Vc as (Ht & Hi). cbn [fst snd] in *. unfold P in E. cbn [fst snd] in E.
  unfold pnt_body. rewrite (vget_nth _ dtri0) by auto. cbn [bind]. rewrite gv_pv by auto. rewrite gv_vtx by auto. cbn [bind].
  change (vtx (nth t m dtri0) i) with (V m t i). rewrite E, Nat.eqb_refl. cbn [assertb bind]. split.
  - intros N. pose proof (MoveCCW_stop m (t, i) None Vc N) as X. cbn [fst snd] in X. rewrite X. reflexivity.
  - intros (t', i') T. pose proof (CCW_go (t, i) (t', i') Vc T) as X. cbn [fst snd] in X. rewrite X. cbn [bind fst]. destruct (t' =? ini); reflexivity.
Qed.
Lemma pnt_run : forall ipo ini l c fuel acc b, vc m c -> P m c = ipo -> path m c l -> (forall x, In x l -> fst x <> ini) ->
  length l < fuel ->
  (L m (fst (lastc c l)) (nx (snd (lastc c l))) = None ->
     exists c', loopf fuel (pnt_body ipo ini) (c, (acc, b)) = Some (c', (acc ++ map (far m) (c :: l), false))) /\
  ((exists c', turn m (lastc c l) c' /\ fst c' = ini) ->
     exists c', loopf fuel (pnt_body ipo ini) (c, (acc, b)) = Some (c', (acc ++ map (far m) (c :: l), true))).
Proof.
  intros ipo ini. induction l as [|a l IH]; intros c fuel acc b Vc EP Hp Hs Hf; (destruct fuel as [|fuel]; [cbn in Hf; lia|]);
    destruct (pnt_step c ipo ini acc b Vc EP) as (R1 & R2).
  - unfold lastc. cbn [last]. split.
    + intros N. exists c. cbn [loopf]. rewrite (R1 N). reflexivity.
    + intros (c' & T & E). exists c'. cbn [loopf]. rewrite (R2 c' T). cbn [bind]. rewrite E, Nat.eqb_refl. reflexivity.
  - destruct Hp as (T & Hp). rewrite lastc_cons. pose proof (turn_vc m Hm _ _ Vc T) as Va. specialize (R2 a T).
    assert (Ea : (fst a =? ini) = false) by (apply Nat.eqb_neq; apply Hs; left; auto). rewrite Ea in R2.
    destruct (IH a fuel (acc ++ [far m c]) false Va) as (I1 & I2); auto.
    { rewrite (turn_P m c a); auto. }
    { intros x Hx. apply Hs. right; auto. }
    { cbn in Hf. lia. }
    rewrite <- app_assoc in I1, I2. cbn [app] in I1, I2.
    split; intros H; [destruct (I1 H) as (c' & E)|destruct (I2 H) as (c' & E)]; exists c'; cbn [loopf]; rewrite R2; cbn [bind]; rewrite E; reflexivity.
Qed.

Lemma FindPoint_ok : forall p t i, stored po p t i ->
  (closed_fan m t i -> exists l, fan_list m (t, i) l /\ FindPointAroundPoint p po m = Some (map (far m) l)) /\
  (~ closed_fan m t i -> FindPointAroundPoint p po m = None).
Proof.
  intros p t i Hst. destruct (stored_vc p t i Hst) as (Vc & Ev). destruct Hst as (Hp & Est).
  destruct (orbit m Hm (t, i) Vc) as (l & P1 & P2 & P3). pose proof (orbit_fan (t, i) l Vc P1 P2 P3) as Hfan.
  assert (E0 : FindPointAroundPoint p po m = ('(_, (l, ok)) <- loopf (S (length m)) (pnt_body p t) ((t, i), ([], false)) ;;
    if ok : bool then Some l else None)).
  { unfold FindPointAroundPoint. rewrite (vget_nth _ (mkP None 0)) by auto. cbn [bind]. rewrite Est. cbn [pe pd bind]. reflexivity. }
  destruct (pnt_run p t l (t, i) (S (length m)) [] false) as (R1 & R2); auto.
  { exact (orbit_ne (t, i) l Vc P1 P2). }
  { pose proof (path_len m Hm l (t, i) Vc P1 P2). lia. }
  destruct P3 as [N|T].
  - destruct (R1 N) as (c' & E). rewrite E0, E. cbn [bind]. split; [|auto]. intros H. exfalso.
    destruct (lastc (t, i) l) as (s, j) eqn:El. apply (H s j); auto. apply (proj2 (proj2 (proj2 Hfan))). rewrite <- El. apply lastc_in.
  - destruct R2 as (c' & E); [exists (t, i); auto|]. rewrite E0, E. cbn [bind]. split; [exists ((t, i) :: l); auto|].
    intros H. exfalso. apply H. intros s j Hsj.
    destruct (path_step m l (t, i) (s, j) P1) as [Q|(y & _ & Q)]; [apply (proj2 (proj2 (proj2 Hfan))); auto| |].
    + rewrite <- Q in T. apply (turn_link m) in T. cbn [fst snd] in T. congruence.
    + apply (turn_link m) in Q. cbn [fst snd] in Q. congruence.
Qed.

(** FindEdge_LookAroundPoint: clockwise *)
Definition cw_body (ipo0 ipo1 itri_ini : nat) (s : nat * nat * option (option (nat * nat * nat))) :=
      let '((itc, inc), _) := s in
      t <- vget m itc ;; x <- gv t inc ;; assertb (x =? ipo0) ;;;
      let inotri2 := (inc + 1) mod 3 in
      y <- gv t inotri2 ;;
      if y =? ipo1 then Some (((itc, inc), Some (Some (itc, inc, inotri2))), true) else
      m <- MoveCW itc inc None m ;;
      match m with
      | None => Some (((itc, inc), None), true)
      | Some (it, ino) => if it =? itri_ini then Some (((it, ino), Some None), true)
                          else Some (((it, ino), None), false)
      end.
Definition ccw_body (ipo0 ipo1 itri_ini : nat) (s : nat * nat * option (nat * nat * nat)) :=
        let '((itc, inc), _) := s in
        t <- vget m itc ;; x <- gv t inc ;; assertb (x =? ipo0) ;;;
        m1 <- MoveCCW itc inc None m ;;
        match m1 with
        | None => Some (((itc, inc), None), true)
        | Some (it, ino) =>
          if it =? itri_ini then Some (((it, ino), None), true) else
          t <- vget m it ;;
          y <- gv t ((ino + 1) mod 3) ;;
          if y =? ipo1 then Some (((it, ino), Some (it, ino, (ino + 1) mod 3)), true)
          else Some (((it, ino), None), false)
        end.
Definition near (x : nat * nat) : nat := V m (fst x) (nx (snd x)).

Lemma no_pred : forall c l cur, vc m cur -> path m cur l -> lastc cur l = c -> L m (fst cur) (pv (snd cur)) = None ->
  forall x, vc m x -> around m x c -> In x (cur :: l).
Proof.
  intros c l cur Vc Hp El N x Vx H. apply clos_rt_rt1n in H. induction H as [|x x1 c T H IH].
  - rewrite <- El. apply lastc_in.
  - pose proof (turn_vc m Hm x x1 Vx T) as V1. destruct (IH El V1) as [<-|Hi].
    + exfalso. destruct T as (k & T & E). rewrite E, pv_nx in N by apply T. destruct T as (_ & _ & _ & Q & _). congruence.
    + destruct (path_pred m l cur x1 Hp Hi) as (y & Hy & Ty).
      rewrite (turn_inj m Hm x y x1); auto. apply (path_vc m Hm l cur Vc Hp); auto.
Qed.

Lemma path_loop : forall c l cur, vc m cur -> path m cur l -> lastc cur l = c -> turn m c cur ->
  forall x, vc m x -> in_fan m c x -> In x (cur :: l).
Proof.
  intros c l cur Vcur Hp El T x Vx H. rewrite <- El in T.
  pose proof (orbit_around m Hm cur l Vcur Hp T) as OA. rewrite El in T.
  assert (Vc : vc m c) by (rewrite <- El; apply (path_vc m Hm l cur Vcur Hp); apply lastc_in).
  assert (A1 : around m cur c) by (apply OA; rewrite <- El; apply lastc_in).
  apply OA. apply (around_trans m _ c); auto. apply (closed_around m Hm); auto.
  intros s j Hsj N. assert (In (s, j) (cur :: l)) by (apply OA; apply (around_trans m _ c); auto).
  destruct (path_step m l cur (s, j) Hp H0) as [Q|(y & _ & Q)].
  - rewrite El in Q. rewrite <- Q in T. apply turn_link in T. cbn in T. congruence.
  - apply turn_link in Q. cbn in Q. congruence.
Qed.

Definition cw_post (p1 : nat) (c : nat * nat) (r : nat * nat * option (option (nat * nat * nat))) : Prop :=
  match snd r with
    | Some (Some (t, i0, i1)) => i1 = nx i0 /\ in_fan m c (t, i0) /\ vc m (t, i0) /\ near (t, i0) = p1
    | Some None => forall x, vc m x -> in_fan m c x -> near x <> p1
    | None => forall x, vc m x -> around m x c -> near x <> p1
    end.
Lemma cw_run : forall p0 p1 c, vc m c -> P m c = p0 -> forall fuel cur l b, vc m cur -> path m cur l -> lastc cur l = c ->
  NoDup (cur :: l) -> (forall x, In x l -> near x <> p1) -> length m < fuel + length l ->
  wp (loopf fuel (cw_body p0 p1 (fst c)) (cur, b)) (cw_post p1 c).
Proof.
  intros p0 p1 c Vc Pc. induction fuel as [|fuel IH]; intros cur l b Vcur Hp El Nd Hn Hf.
  - pose proof (path_len m Hm l cur Vcur Hp Nd). lia.
  - cbn [loopf]. apply wp_bind. unfold cw_body at 1. destruct cur as (t, i). pose proof Vcur as (Ht & Hi). cbn [fst snd] in Ht, Hi.
    assert (Ac : around m (t, i) c) by (rewrite <- El; apply (path_around m l); auto; apply lastc_in).
    assert (Pt : V m t i = p0).
    { destruct (around_vc m Hm (t, i) c Vcur Ac) as (_ & Q). rewrite Pc in Q. symmetry. exact Q. }
    rewrite (vget_nth _ dtri0) by auto. cbn [bind]. rewrite gv_vtx by auto. cbn [bind].
    change (vtx (nth t m dtri0) i) with (V m t i). apply wp_bind, wp_assertb; [apply Nat.eqb_eq; auto|].
    rewrite gv_nx by auto. cbn [bind]. destruct (Nat.eqb_spec (V m t (nx i)) p1) as [E1|E1].
    { apply wp_some. cbn [fst snd]. apply wp_some. unfold cw_post. cbn [snd]. split; auto. split; [right; auto|]. auto. }
    assert (Hn' : forall x, In x ((t, i) :: l) -> near x <> p1) by (intros x [<-|Hx]; auto).
    destruct (turn_prev m Hm (t, i) Vcur) as [((t', i') & T & V')|N].
    + pose proof (MoveCW_go (t, i) (t', i') Vcur V' T) as X. cbn [fst snd] in X. rewrite X. cbn [bind].
      destruct (Nat.eqb_spec t' (fst c)) as [Et|Et].
      * apply wp_some. cbn [fst snd]. apply wp_some. unfold cw_post. cbn [snd]. intros x Vx Hx. apply Hn'.
        apply (path_loop c l (t, i)); auto. replace c with (t', i'); auto.
        apply (corner_eq m Hm); auto. rewrite <- (turn_P m (t', i') (t, i)) by auto. rewrite Pc. exact Pt.
      * apply wp_some. cbn [fst snd]. apply (IH (t', i') ((t, i) :: l)); auto.
        -- split; auto.
        -- constructor; auto. intros Hin. destruct (path_step m l (t, i) (t', i') Hp Hin) as [Q|(y & Hy & Ty)].
           ++ apply Et. rewrite <- El, <- Q. reflexivity.
           ++ assert (y = (t, i)) by (apply (turn_fun m Hm (t', i')); auto). subst y. inversion Nd; auto.
        -- cbn [length]. lia.
    + pose proof (MoveCW_stop (t, i) Vcur N) as X. cbn [fst snd] in X. rewrite X. cbn [bind]. apply wp_some. cbn [fst snd].
      apply wp_some. unfold cw_post. cbn [snd]. intros x Vx Hx. apply Hn'. apply (no_pred c l (t, i)); auto.
Qed.

Definition ccw_post (p1 : nat) (c : nat * nat) (r : nat * nat * option (nat * nat * nat)) : Prop :=
  match snd r with
    | Some (t, i0, i1) => i1 = nx i0 /\ around m c (t, i0) /\ vc m (t, i0) /\ near (t, i0) = p1
    | None => forall x, around m c x -> near x <> p1
    end.
Lemma ccw_run : forall p0 p1 c, vc m c -> P m c = p0 -> forall fuel l b, path m c l ->
  NoDup (c :: l) -> (forall x, In x (c :: l) -> near x <> p1) -> length m < fuel + length l ->
  wp (loopf fuel (ccw_body p0 p1 (fst c)) (lastc c l, b)) (ccw_post p1 c).
Proof.
  intros p0 p1 c Vc Pc. induction fuel as [|fuel IH]; intros l b Hp Nd Hn Hf.
  - pose proof (path_len m Hm l c Vc Hp Nd). lia.
  - cbn [loopf]. apply wp_bind. unfold ccw_body at 1. destruct (path_vc m Hm l c Vc Hp _ (lastc_in l c)) as (Vl & Pl).
    destruct (lastc c l) as (t, i) eqn:El. pose proof Vl as (Ht & Hi). cbn [fst snd] in Ht, Hi.
    rewrite (vget_nth _ dtri0) by auto. cbn [bind]. rewrite gv_vtx by auto. cbn [bind].
    change (vtx (nth t m dtri0) i) with (P m (t, i)). apply wp_bind, wp_assertb; [apply Nat.eqb_eq; congruence|].
    destruct (turn_next m Hm (t, i) Vl) as [((t', i') & T)|N].
    + pose proof (turn_vc m Hm _ _ Vl T) as V'. pose proof (CCW_go (t, i) (t', i') Vl T) as X. cbn [fst snd] in X. rewrite X. cbn [bind].
      destruct (Nat.eqb_spec t' (fst c)) as [Et|Et].
      * apply wp_some. cbn [fst snd]. apply wp_some. unfold ccw_post. cbn [snd]. intros x Hx. apply Hn.
        apply (orbit_around m Hm c l Vc Hp); auto. rewrite El. replace c with (t', i'); auto.
        apply (corner_eq m Hm); auto. rewrite (turn_P m (t, i) (t', i')) by auto. exact Pl.
      * rewrite (vget_nth _ dtri0) by apply V'. cbn [bind]. rewrite gv_nx by apply V'. cbn [bind].
        destruct (Nat.eqb_spec (V m t' (nx i')) p1) as [E1|E1]; apply wp_some; cbn [fst snd].
        -- apply wp_some. unfold ccw_post. cbn [snd]. split; auto. split; [|auto].
           apply (around_trans m _ (t, i)); [rewrite <- El; apply (path_around m l); auto; apply lastc_in|]. apply rt_step; auto.
        -- replace (t', i') with (lastc c (l ++ [(t', i')])) by (unfold lastc; rewrite app_comm_cons; apply last_last).
           apply IH.
           ++ apply path_app. split; auto. rewrite El. split; [auto|exact I].
           ++ rewrite app_comm_cons. apply NoDup_snoc; auto. intros [Hin|Hin].
              { apply Et. rewrite Hin. reflexivity. }
              destruct (path_pred m l c (t', i') Hp Hin) as (y & Hy & Ty).
              assert (y = (t, i)). { apply (turn_inj m Hm y (t, i) (t', i')); auto. apply (path_vc m Hm l c Vc Hp); auto. }
              subst y. clear - Hp Hin Ty Nd El Hm Vc Vl V'.
              (* the last element turns to an element of l, whose predecessor in the list is another element *)
              revert c Vc Hp Nd El Hin. induction l as [|a l IH]; intros c Vc Hp Nd El Hin; [destruct Hin|].
              destruct Hp as (T & Hp). rewrite lastc_cons in El. inversion Nd as [|? ? N1 N2]; subst.
              destruct Hin as [->|Hin].
              { apply N1. rewrite <- (turn_inj m Hm (t, i) c (t', i')); auto. rewrite <- El. apply lastc_in. }
              apply (IH a); auto. apply (turn_vc m Hm c a); auto.
           ++ intros x Hx. rewrite app_comm_cons in Hx. apply in_app_iff in Hx. destruct Hx as [Hx|[<-|[]]]; auto.
           ++ rewrite app_length. cbn. lia.
    + pose proof (MoveCCW_stop m (t, i) None Vl N) as X. cbn [fst snd] in X. rewrite X. cbn [bind]. apply wp_some. cbn [fst snd].
      apply wp_some. unfold ccw_post. cbn [snd]. intros x Hx. apply Hn. apply (orbit_open m Hm c l Vc Hp); auto. rewrite El. auto.
Qed.

Lemma FindEdge_ok : forall p0 t i p1, stored po p0 t i -> wp (FindEdge_LookAroundPoint p0 p1 po m) (fun r => match r with
  | Some (s, i0, i1) => i1 = nx i0 /\ s < length m /\ i0 < 3 /\ V m s i0 = p0 /\ V m s i1 = p1 /\ in_fan m (t, i) (s, i0)
  | None => forall s j, s < length m -> j < 3 -> in_fan m (t, i) (s, j) -> V m s (nx j) <> p1
  end).
Proof.
  intros p0 t i p1 Hst. destruct (stored_vc p0 t i Hst) as (Vc & Ev). destruct Hst as (Hp & Est).
  unfold FindEdge_LookAroundPoint. rewrite (vget_nth _ (mkP None 0)) by auto. cbn [bind]. rewrite Est. cbn [pe pd bind].
  assert (FP : forall s j, vc m (s, j) -> in_fan m (t, i) (s, j) -> V m s j = p0).
  { intros s j Vs [H|H]; [destruct (around_vc m Hm _ _ Vc H) as (_ & Q)|destruct (around_vc m Hm _ _ Vs H) as (_ & Q)];
      unfold P in Q; cbn in Q; congruence. }
  apply wp_bind. eapply wp_mono.
  { apply (cw_run p0 p1 (t, i) Vc Ev (S (length m)) (t, i) [] None Vc I eq_refl).
    - apply NoDup_cons; [intros []|apply NoDup_nil].
    - intros x [].
    - cbn. lia. }
  intros (c1, r) H. unfold cw_post in H. cbn [snd] in H. destruct r as [[((s, i0), i1)|]|].
  - apply wp_some. destruct H as (-> & H1 & H2 & H3). pose proof H2 as (Q1 & Q2). repeat (split; auto).
  - apply wp_some. intros s j Hs Hj Hin. apply (H (s, j)); auto. split; auto.
  - apply wp_bind. eapply wp_mono.
    { apply (ccw_run p0 p1 (t, i) Vc Ev (S (length m)) [] None).
      - exact I.
      - apply NoDup_cons; [intros []|apply NoDup_nil].
      - intros x [<-|[]]. apply H; auto. apply rt_refl.
      - cbn. lia. }
    intros (c2, r2) H'. unfold ccw_post in H'. cbn [snd] in H'. apply wp_some. destruct r2 as [((s, i0), i1)|].
    + destruct H' as (-> & H1 & H2 & H3). pose proof H2 as (Q1 & Q2). split; auto. split; auto. split; auto.
      split; [apply FP; auto; left; auto|]. split; auto. left; auto.
    + intros s j Hs Hj [Hin|Hin]; [apply (H' (s, j)); auto|apply (H (s, j)); auto; split; auto].
Qed.
End Walk.
