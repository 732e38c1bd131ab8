(** Scanning for the weakest operator. *)
From Coq Require Import List Arith ZArith Bool Ascii Lia.
Import ListNotations.
From Verif Require Import Imp PexpModel PexpSpec.
Open Scope char_scope. Open Scope nat_scope.

Lemma text_eqb_true : forall a b, text_eqb a b = true <-> a = b.
Proof. intros. unfold text_eqb. destruct (list_eq_dec ascii_dec a b); split; auto; discriminate. Qed.
Lemma text_eqb_refl : forall a, text_eqb a a = true.
Proof. intros. apply text_eqb_true. auto. Qed.
Lemma text_eqb_false : forall a b, a <> b -> text_eqb a b = false.
Proof. intros. unfold text_eqb. destruct (list_eq_dec ascii_dec a b); auto. contradiction. Qed.

(** Structural form of the loop. *)
Definition mdp (c : ascii) : bool := Ascii.eqb c "*" || Ascii.eqb c "/" || Ascii.eqb c "^".
Definition nonnum (c : ascii) : bool := ((nat_of_ascii c <? nat_of_ascii "0") || (nat_of_ascii "9" <? nat_of_ascii c)) && negb (Ascii.eqb c ".").
Definition gcand (pos : nat) (g : gst) (prio : nat) (ty op : option nat) (num : bool) : gst * bool :=
  if prio <? g_prio g then (G None (Some pos) prio ty op num (g_dep g) (g_fb g), false)
  else (G None (g_pos g) (g_prio g) (g_type g) (g_opr g) num (g_dep g) (g_fb g), false).
Definition gs (prev : option ascii) (pos : nat) (c : ascii) (g : gst) : gst * bool :=
  let sign op := match prev with
    | None => gcand pos g 5 (Some 2) (Some op) (g_num g)
    | Some p => if mdp p then (g, false) else (G (Some (pos, pos + 1, 3, Some op)) (g_pos g) (g_prio g) (g_type g) (g_opr g) (g_num g) (g_dep g) (g_fb g), true)
    end in
  if Ascii.eqb c "(" then (G None (g_pos g) (g_prio g) (g_type g) (g_opr g) (g_num g) (g_dep g + 1)%Z (match g_fb g with None => Some pos | f => f end), false)
  else if Ascii.eqb c ")" then (G None (g_pos g) (g_prio g) (g_type g) (g_opr g) (g_num g) (g_dep g - 1)%Z (g_fb g), false)
  else if negb (g_dep g =? 0)%Z then (g, false)
  else if Ascii.eqb c "+" then sign 0
  else if Ascii.eqb c "-" then sign 1
  else if Ascii.eqb c "*" then gcand pos g 3 (Some 3) (Some 2) (g_num g)
  else if Ascii.eqb c "/" then gcand pos g 4 (Some 3) (Some 3) (g_num g)
  else if Ascii.eqb c "^" then gcand pos g 6 (Some 3) (Some 4) (g_num g)
  else gcand pos g 10 None None (if nonnum c then false else g_num g).
Fixpoint scan (prev : option ascii) (pos : nat) (l : text) (g : gst) : gst * bool :=
  match l with
  | [] => (g, false)
  | c :: l => let '(g', st) := gs prev pos c g in if st then (g', true) else scan (Some c) (S pos) l g'
  end.
Definition lastc (l : text) : option ascii := match rev l with [] => None | c :: _ => Some c end.
Lemma lastc_app1 : forall l c, lastc (l ++ [c]) = Some c.
Proof. intros. unfold lastc. rewrite rev_app_distr. auto. Qed.

Lemma g_step_gs : forall pre c l g, g_step (pre ++ c :: l) (length pre) g = Some (gs (lastc pre) (length pre) c g).
Proof.
  intros pre c l g. unfold g_step. rewrite (vget_nth _ "000") by (rewrite app_length; cbn; lia). rewrite app_nth2, Nat.sub_diag by lia. cbn [nth bind].
  assert (S : forall op, (if length pre =? 0 then if 5 <? g_prio g then Some (G None (Some (length pre)) 5 (Some 2) (Some op) (g_num g) (g_dep g) (g_fb g), false) else Some (G None (g_pos g) (g_prio g) (g_type g) (g_opr g) (g_num g) (g_dep g) (g_fb g), false) else
     p <- vget (pre ++ c :: l) (length pre - 1) ;;
    if negb (Ascii.eqb p "*") && negb (Ascii.eqb p "/") && negb (Ascii.eqb p "^") then
      Some (G (Some (length pre, length pre + 1, 3, Some op)) (g_pos g) (g_prio g) (g_type g) (g_opr g) (g_num g) (g_dep g) (g_fb g), true)
    else Some (g, false)) = Some (match lastc pre with
    | None => gcand (length pre) g 5 (Some 2) (Some op) (g_num g)
    | Some p => if mdp p then (g, false) else (G (Some (length pre, length pre + 1, 3, Some op)) (g_pos g) (g_prio g) (g_type g) (g_opr g) (g_num g) (g_dep g) (g_fb g), true)
    end)).
  { intros op. destruct pre as [|x pre' _] using rev_ind.
    - unfold lastc, gcand. cbn [rev length Nat.eqb]. destruct (5 <? g_prio g); auto.
    - rewrite lastc_app1, app_length. cbn [length]. rewrite (proj2 (Nat.eqb_neq _ _)) by lia. rewrite (vget_nth _ "000") by (rewrite !app_length; cbn [length]; lia).
      replace (length pre' + 1 - 1) with (length pre') by lia. rewrite app_nth1 by (rewrite app_length; cbn [length]; lia). rewrite app_nth2, Nat.sub_diag by lia. cbn [nth bind].
      unfold mdp. destruct (Ascii.eqb x "*"), (Ascii.eqb x "/"), (Ascii.eqb x "^"); auto. }
  rewrite !S. unfold gs, gcand, nonnum. destruct (Ascii.eqb c "("); auto. destruct (Ascii.eqb c ")"); auto. destruct (negb _); auto.
  destruct (Ascii.eqb c "+"); auto. destruct (Ascii.eqb c "-"); auto. destruct (Ascii.eqb c "*"); [destruct (3 <? g_prio g); auto|]. destruct (Ascii.eqb c "/"); [destruct (4 <? g_prio g); auto|].
  destruct (Ascii.eqb c "^"); [destruct (6 <? g_prio g); auto|]. destruct (10 <? g_prio g); auto.
Qed.
Lemma forb_scan : forall l pre g, forb_ (length l) (length pre) (g_step (pre ++ l)) g = Some (fst (scan (lastc pre) (length pre) l g)).
Proof.
  induction l as [|c l IH]; intros pre g; [auto|]. cbn [length forb_ scan]. rewrite g_step_gs. cbn [bind].
  destruct (gs (lastc pre) (length pre) c g) as (g' & st). destruct st; [auto|]. specialize (IH (pre ++ [c]) g').
  rewrite <- app_assoc, app_length, lastc_app1 in IH. cbn [app length] in IH. rewrite Nat.add_1_r in IH. exact IH.
Qed.
Lemma loop_scan : forall exp g, forb 0 (length exp) (g_step exp) g = Some (fst (scan None 0 exp g)).
Proof. intros. unfold forb. rewrite Nat.sub_0_r. exact (forb_scan exp [] g). Qed.

Lemma scan_app : forall a b prev pos g, scan prev pos (a ++ b) g =
  let '(g', st) := scan prev pos a g in if st then (g', true) else scan (match rev a with [] => prev | c :: _ => Some c end) (pos + length a) b g'.
Proof.
  induction a as [|c a IH]; intros b prev pos g.
  - cbn. rewrite Nat.add_0_r. auto.
  - cbn [app scan]. destruct (gs prev pos c g) as (g' & st). destruct st; auto. rewrite IH. destruct (scan (Some c) (S pos) a g') as (g'' & st). destruct st; auto.
    f_equal; [|cbn [length]; lia]. cbn [rev]. destruct (rev a); auto.
Qed.

(** Inside brackets nothing is recorded. *)
Definition inert (t : text) : Prop := forall prev pos g, (0 < g_dep g)%Z -> g_fb g <> None -> g_ret g = None -> scan prev pos t g = (g, false).
Lemma inert_app : forall a b, inert a -> inert b -> inert (a ++ b).
Proof. intros a b A B prev pos g D F R. rewrite scan_app, (A prev pos g D F R). apply B; auto. Qed.
Definition bracket (c : ascii) : bool := Ascii.eqb c "(" || Ascii.eqb c ")".
Lemma inert_plain : forall t, (forall c, In c t -> bracket c = false) -> inert t.
Proof.
  induction t as [|c t IH]; intros H prev pos g D F R; [auto|]. cbn [scan]. assert (C := H c (or_introl eq_refl)). apply orb_false_iff in C. destruct C as (C1 & C2).
  unfold gs. rewrite C1, C2. rewrite (proj2 (Z.eqb_neq _ _)) by lia. cbn [negb]. apply IH; auto. intros; apply H; right; auto.
Qed.
Lemma inert_par : forall t, inert t -> inert ("(" :: t ++ [")"]).
Proof.
  intros t H prev pos g D F R. cbn [scan]. unfold gs at 1. cbn [Ascii.eqb Bool.eqb]. rewrite scan_app. rewrite H; [|cbn; lia|cbn; destruct (g_fb g); congruence|auto].
  cbn [scan]. unfold gs. cbn. f_equal. destruct g; cbn in *. subst. f_equal; [lia|]. destruct g_fb; congruence.
Qed.

Lemma digit_ordinary : forall c, digit_or_dot c = true -> ordinary c /\ nonnum c = false.
Proof.
  intros c H. unfold digit_or_dot in H. unfold nonnum. apply orb_true_iff in H. destruct H as [H|H].
  - apply andb_true_iff in H. destruct H as (H1 & H2). apply Nat.leb_le in H1, H2. split.
    + intros I. repeat (destruct I as [<-|I]; [cbn in H1, H2; lia|]). destruct I.
    + rewrite (proj2 (Nat.ltb_ge _ _)) by auto. rewrite (proj2 (Nat.ltb_ge _ _)) by auto. auto.
  - apply Ascii.eqb_eq in H. subst. split; [|auto]. intros I. repeat (destruct I as [I|I]; [discriminate|]). destruct I.
Qed.
Lemma nondigit_nonnum : forall c, digit_or_dot c = false -> nonnum c = true.
Proof.
  intros c H. unfold digit_or_dot in H. unfold nonnum. apply orb_false_iff in H. destruct H as (H & ->). cbn [negb]. rewrite andb_true_r.
  apply andb_false_iff in H. destruct H as [H|H]; apply Nat.leb_gt in H; apply orb_true_iff; [left|right]; apply Nat.ltb_lt; auto.
Qed.
Lemma ordinary_bool : forall c, ordinary c -> Ascii.eqb c "(" = false /\ Ascii.eqb c ")" = false /\ Ascii.eqb c "+" = false /\ Ascii.eqb c "-" = false /\
  Ascii.eqb c "*" = false /\ Ascii.eqb c "/" = false /\ Ascii.eqb c "^" = false.
Proof. intros c H. repeat split; apply Ascii.eqb_neq; intros ->; apply H; cbn; tauto. Qed.
Lemma ordinary_mdp : forall c, ordinary c -> mdp c = false /\ bracket c = false.
Proof. intros c H. destruct (ordinary_bool c H) as (A & B & C & D & E & F & I). unfold mdp, bracket. rewrite A, B, E, F, I. auto. Qed.
Lemma fn_ordinary : forall f c, In c (fn_name f) -> ordinary c /\ digit_or_dot c = false.
Proof. intros f c H. destruct f; cbn in H; repeat (destruct H as [<-|H]; [split; [intros I; cbn in I; repeat (destruct I as [I|I]; [discriminate|]); destruct I|reflexivity]|]); destruct H. Qed.

(** A run of ordinary characters outside brackets. *)
Lemma scan_ordinary : forall s prev pos g, (forall c, In c s -> ordinary c) -> g_dep g = 0%Z -> g_ret g = None -> g_prio g <= 10 ->
  scan prev pos s g = (G None (g_pos g) (g_prio g) (g_type g) (g_opr g) (g_num g && forallb (fun c => negb (nonnum c)) s) (g_dep g) (g_fb g), false).
Proof.
  induction s as [|c s IH]; intros prev pos g H D R P.
  - cbn. rewrite andb_true_r. destruct g; cbn in *; subst; auto.
  - cbn [scan]. destruct (ordinary_bool c (H c (or_introl eq_refl))) as (C1 & C2 & C3 & C4 & C5 & C6 & C7). unfold gs. rewrite C1, C2, C3, C4, C5, C6, C7, D. cbn [Z.eqb negb].
    unfold gcand. rewrite (proj2 (Nat.ltb_ge _ _)) by auto. rewrite IH; auto; [|intros; apply H; right; auto]. cbn [g_pos g_prio g_type g_opr g_num g_dep g_fb forallb]. f_equal. f_equal.
    + destruct (nonnum c); cbn; auto. rewrite andb_false_r. auto.
    + auto.
Qed.
(** A bracketed group outside brackets. *)
Lemma scan_group : forall t prev pos g, inert t -> g_dep g = 0%Z -> g_ret g = None ->
  scan prev pos ("(" :: t ++ [")"]) g = (G None (g_pos g) (g_prio g) (g_type g) (g_opr g) (g_num g) 0%Z (match g_fb g with None => Some pos | f => f end), false).
Proof.
  intros t prev pos g H D R. cbn [scan]. unfold gs at 1. cbn [Ascii.eqb Bool.eqb]. rewrite scan_app. rewrite H; [|cbn; lia|cbn; destruct (g_fb g); congruence|auto].
  cbn [scan]. unfold gs. cbn. rewrite D. auto.
Qed.

(** ---- texts of the grammar ---- *)
Section Gram.
Variable sg : bool.
Lemma spells_inert : forall l e t, spells sg l e t -> inert t.
Proof.
  induction 1.
  - apply inert_plain. intros c Hc. apply ordinary_mdp. apply digit_ordinary. apply H; auto.
  - apply inert_plain. intros c Hc. apply ordinary_mdp. apply H; auto.
  - apply inert_plain. intros c [<-|[<-|[]]]; auto.
  - apply inert_app; [apply inert_plain; intros c Hc; apply ordinary_mdp; apply (fn_ordinary f); auto|apply inert_par; auto].
  - apply inert_par; auto.
  - apply inert_app; auto. change (op_char o :: tb) with ([op_char o] ++ tb). apply inert_app; auto. apply inert_plain. intros c [<-|[]]. destruct o; auto.
  - change ("+" :: t) with (["+"] ++ t). apply inert_app; auto. apply inert_plain. intros c [<-|[]]. auto.
  - change ("-" :: t) with (["-"] ++ t). apply inert_app; auto. apply inert_plain. intros c [<-|[]]. auto.
Qed.
Lemma spells_nonempty : forall l e t, spells sg l e t -> t <> [].
Proof.
  induction 1; try discriminate.
  - apply H.
  - destruct H as (_ & (c & H & _) & _). intros ->. destruct H.
  - destruct f; discriminate.
  - destruct ta; discriminate.
Qed.
(** The last character is never a multiplicative operator. *)
Lemma spells_last : forall l e t, spells sg l e t -> forall prev, exists c, (match rev t with [] => prev | c :: _ => Some c end) = Some c /\ mdp c = false.
Proof.
  assert (X : forall (a b : text) prev, b <> [] -> (match rev (a ++ b) with [] => prev | c :: _ => Some c end) = match rev b with [] => prev | c :: _ => Some c end).
  { intros a b prev H. rewrite rev_app_distr. destruct (rev b) eqn:E; auto. apply (f_equal (@rev _)) in E. rewrite rev_involutive in E. contradiction. }
  assert (O : forall s prev, s <> [] -> (forall c, In c s -> mdp c = false) -> exists c, (match rev s with [] => prev | c :: _ => Some c end) = Some c /\ mdp c = false).
  { intros s prev N H. destruct (rev s) as [|c r] eqn:E; [apply (f_equal (@rev _)) in E; rewrite rev_involutive in E; contradiction|]. exists c. split; auto. apply H. apply in_rev. rewrite E. left; auto. }
  induction 1; intros prev.
  - apply O; [apply H|]. intros c Hc. apply ordinary_mdp, digit_ordinary, H; auto.
  - apply O; [destruct H as (_ & (c & H & _) & _); intros ->; destruct H|]. intros c Hc. apply ordinary_mdp, H; auto.
  - exists "I". auto.
  - exists ")". rewrite X by discriminate. change ("(" :: t ++ [")"]) with (("(" :: t) ++ [")"]). rewrite X by discriminate. auto.
  - exists ")". change ("(" :: t ++ [")"]) with (("(" :: t) ++ [")"]). rewrite X by discriminate. auto.
  - rewrite X by discriminate. change (op_char o :: tb) with ([op_char o] ++ tb). rewrite X by (eapply spells_nonempty; eauto). apply IHspells2.
  - change ("+" :: t) with (["+"] ++ t). rewrite X by (eapply spells_nonempty; eauto). apply IHspells.
  - change ("-" :: t) with (["-"] ++ t). rewrite X by (eapply spells_nonempty; eauto). apply IHspells.
Qed.
Definition signed (t : text) : Prop := exists u, t = "+" :: u \/ t = "-" :: u.
Lemma spells_level : forall l e t, spells sg l e t -> 1 <= l <= 10.
Proof. destruct 1; try lia. destruct o; cbn; lia. Qed.
Lemma unsigned : forall l e t, spells sg l e t -> 6 <= l -> ~ signed t.
Proof.
  induction 1; intros L (u & E); try lia.
  - destruct H as (N & H). destruct s as [|c s]; [congruence|]. destruct (digit_ordinary c) as (O & _); [apply H; left; auto|]. apply ordinary_bool in O. destruct O as (_ & _ & A & B & _).
    destruct E as [E|E]; injection E as -> _; discriminate.
  - destruct H as (O & (c & H & _) & _). destruct x as [|c' x]; [destruct H|]. destruct (ordinary_bool c' (O c' (or_introl eq_refl))) as (_ & _ & A & B & _).
    destruct E as [E|E]; injection E as -> _; discriminate.
  - destruct E; discriminate.
  - destruct f; destruct E; discriminate.
  - destruct E; discriminate.
  - assert (~ signed ta) as NS.
    { apply IHspells1. destruct o; cbn in *; try lia. }
    apply NS. assert (N := spells_nonempty _ _ _ H). destruct ta as [|c ta]; [congruence|]. exists ta. cbn in E. destruct E as [E|E]; injection E as -> _; auto.
Qed.

(** A part all of whose operators are at least as strong as the weakest one seen so far. *)
Definition same_min (g g' : gst) : Prop :=
  g_ret g' = None /\ g_pos g' = g_pos g /\ g_prio g' = g_prio g /\ g_type g' = g_type g /\ g_opr g' = g_opr g /\ g_dep g' = g_dep g.
Lemma same_refl : forall g, g_ret g = None -> same_min g g.
Proof. intros; repeat split; auto. Qed.
Lemma same_trans : forall a b c, same_min a b -> same_min b c -> same_min a c.
Proof. intros a b c (A1 & A2 & A3 & A4 & A5 & A6) (B1 & B2 & B3 & B4 & B5 & B6). repeat split; congruence. Qed.

Lemma scan_keep : forall l e t, spells sg l e t -> forall prev pos g, g_dep g = 0%Z -> g_ret g = None -> 3 <= g_prio g ->
  (g_prio g <= l \/ (l = 5 /\ g_prio g <= 6)) -> (signed t -> exists p, prev = Some p /\ mdp p = true) ->
  exists g', scan prev pos t g = (g', false) /\ same_min g g'.
Proof.
  assert (SG : forall c l e t, spells sg l e t -> 6 <= l -> (c = "+" \/ c = "-") ->
     (forall prev pos g, g_dep g = 0%Z -> g_ret g = None -> 3 <= g_prio g -> (g_prio g <= l \/ (l = 5 /\ g_prio g <= 6)) -> (signed t -> exists p, prev = Some p /\ mdp p = true) -> exists g', scan prev pos t g = (g', false) /\ same_min g g') ->
     forall prev pos g, g_dep g = 0%Z -> g_ret g = None -> 3 <= g_prio g -> (g_prio g <= 5 \/ (5 = 5 /\ g_prio g <= 6)) -> (signed (c :: t) -> exists p, prev = Some p /\ mdp p = true) ->
     exists g', scan prev pos (c :: t) g = (g', false) /\ same_min g g').
  { intros c l e t H L C IH prev pos g D R P M S. destruct S as (p & -> & Hp); [exists t; destruct C as [->| ->]; auto|]. cbn [scan].
    assert (E : gs (Some p) pos c g = (g, false)) by (destruct C as [->| ->]; unfold gs; cbn; rewrite D, Hp; auto). rewrite E.
    apply IH; auto; [left; lia|]. intros S. exfalso. exact (unsigned _ _ _ H L S). }
  induction 1; intros prev pos g D R P M S.
  - rewrite scan_ordinary; [|intros c Hc; apply digit_ordinary, H; auto|auto|auto|lia]. eexists. split; [reflexivity|]. repeat split; auto.
  - rewrite scan_ordinary; [|apply H|auto|auto|lia]. eexists. split; [reflexivity|]. repeat split; auto.
  - rewrite scan_ordinary; [|intros c [<-|[<-|[]]] I; cbn in I; intuition discriminate|auto|auto|lia]. eexists. split; [reflexivity|]. repeat split; auto.
  - rewrite scan_app. rewrite scan_ordinary; [|intros c Hc; apply (fn_ordinary f); auto|auto|auto|lia]. rewrite scan_group; auto; [|eapply spells_inert; eauto].
    eexists. split; [reflexivity|]. repeat split; auto.
  - rewrite scan_group; auto; [|eapply spells_inert; eauto]. eexists. split; [reflexivity|]. repeat split; auto.
  - assert (GM : g_prio g <= strength o) by (destruct M as [M|(M & _)]; [auto|destruct o; discriminate]).
    assert (NA : o = Mul \/ o = Div \/ o = Pow) by (destruct o; cbn in GM; try lia; auto).
    rewrite scan_app. destruct (IHspells1 prev pos g D R P) as (g1 & E1 & S1).
    { left. lia. }
    { intros (u & Hu). apply S. assert (Ne := spells_nonempty _ _ _ H). exists (u ++ op_char o :: tb). destruct Hu as [->| ->]; auto. }
    rewrite E1. destruct S1 as (A1 & A2 & A3 & A4 & A5 & A6). cbn [scan].
    assert (E2 : forall pv ps, gs pv ps (op_char o) g1 = (G None (g_pos g1) (g_prio g1) (g_type g1) (g_opr g1) (g_num g1) (g_dep g1) (g_fb g1), false)).
    { intros pv ps. unfold gs. rewrite A6, D. destruct NA as [->|[->| ->]]; cbn [op_char Ascii.eqb Bool.eqb Z.eqb negb]; unfold gcand; cbn [strength] in GM; rewrite A3;
      rewrite (proj2 (Nat.ltb_ge _ _)) by lia; rewrite A6, D; auto. }
    rewrite E2. edestruct (IHspells2 (Some (op_char o))) as (g2 & E3 & S3); [| | | | |rewrite E3; exists g2; split; [reflexivity|]; eapply same_trans; [|exact S3]; repeat split; auto].
    + cbn. congruence.
    + auto.
    + cbn. lia.
    + cbn [g_prio]. destruct H2 as [H2|(-> & ->)]; [left; lia|]. right. cbn in GM. split; auto. lia.
    + intros _. exists (op_char o). split; auto. destruct NA as [->|[->| ->]]; auto.
  - exact (SG "+" l e t H0 H1 (or_introl eq_refl) IHspells prev pos g D R P M S).
  - exact (SG "-" l e t H0 H1 (or_intror eq_refl) IHspells prev pos g D R P M S).
Qed.

Definition g0 : gst := G None None 10 None None true 0%Z None.
(** Scanning a text without top-level sums from its beginning. *)
Lemma scan_first : forall l e t, spells sg l e t -> 3 <= l -> exists g', scan None 0 t g0 = (g', false) /\ g_ret g' = None /\ g_dep g' = 0%Z /\ l <= g_prio g' <= 10.
Proof.
  assert (SG : forall c l e t, spells sg l e t -> 6 <= l -> (c = "+" \/ c = "-") -> exists g', scan None 0 (c :: t) g0 = (g', false) /\ g_ret g' = None /\ g_dep g' = 0%Z /\ 5 <= g_prio g' <= 10).
  { intros c l e t H L C. cbn [scan]. assert (E : exists op, gs None 0 c g0 = (G None (Some 0) 5 (Some 2) (Some op) true 0%Z None, false)) by (destruct C as [->| ->]; eexists; reflexivity).
    destruct E as (op & E). rewrite E. destruct (scan_keep l e t H (Some c) 1 (G None (Some 0) 5 (Some 2) (Some op) true 0%Z None)) as (g' & E' & (A1 & A2 & A3 & A4 & A5 & A6)); cbn; auto; try lia.
    - intros S. exfalso. exact (unsigned _ _ _ H L S).
    - rewrite E'. exists g'. cbn in A3. repeat split; auto; lia. }
  induction 1; intros L.
  - rewrite scan_ordinary; [|intros c Hc; apply digit_ordinary, H; auto|auto|auto|cbn; lia]. eexists. split; [reflexivity|]. cbn. repeat split; lia.
  - rewrite scan_ordinary; [|apply H|auto|auto|cbn; lia]. eexists. split; [reflexivity|]. cbn. repeat split; lia.
  - eexists. split; [reflexivity|]. cbn. repeat split; lia.
  - rewrite scan_app. rewrite scan_ordinary; [|intros c Hc; apply (fn_ordinary f); auto|auto|auto|cbn; lia]. rewrite scan_group; auto; [|eapply spells_inert; eauto].
    eexists. split; [reflexivity|]. cbn. repeat split; lia.
  - rewrite scan_group; auto; [|eapply spells_inert; eauto]. eexists. split; [reflexivity|]. cbn. repeat split; lia.
  - destruct IHspells1 as (g1 & E1 & R1 & D1 & P1); [lia|]. rewrite scan_app, E1. cbn [scan].
    assert (NA : o = Mul \/ o = Div \/ o = Pow) by (destruct o; cbn in L; try lia; auto).
    assert (E2 : forall pv ps, gs pv ps (op_char o) g1 = (G None (Some ps) (strength o) (Some 3) (Some (match o with Mul => 2 | Div => 3 | _ => 4 end)) (g_num g1) 0%Z (g_fb g1), false)).
    { intros pv ps. unfold gs. rewrite D1. destruct NA as [->|[->| ->]]; cbn [op_char Ascii.eqb Bool.eqb Z.eqb negb]; unfold gcand; cbn [strength] in *;
      rewrite (proj2 (Nat.ltb_lt _ _)) by lia; rewrite D1; auto. }
    rewrite E2. edestruct (scan_keep lb b tb H0) as (g2 & E3 & (A1 & A2 & A3 & A4 & A5 & A6)); [| | | | |rewrite E3; exists g2; split; [reflexivity|]; cbn in *; split; [auto|split; [congruence|rewrite A3]]].
    + auto.
    + auto.
    + cbn. lia.
    + cbn [g_prio]. destruct H2 as [H2|(-> & ->)]; [left; lia|]. right. auto.
    + intros _. exists (op_char o). split; auto. destruct NA as [->|[->| ->]]; auto.
    + split; [lia|]. destruct o; cbn; lia.
  - apply (SG "+" l e t H0 H1); auto.
  - apply (SG "-" l e t H0 H1); auto.
Qed.
End Gram.
