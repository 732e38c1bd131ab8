From Coq Require Import List Arith Bool Lia.
Import ListNotations.
From Verif Require Import Imp ParModel.

Section P.
Context {C : Type} (eqC : forall a b : C, {a = b} + {a <> b}).
Variables (M num : nat) (jobs : nat -> list C).
Notation cnt := (count_occ eqC).
Definition sumw (f : wstate C -> nat) (ws : list (wstate C)) := list_sum (map f ws).
Lemma vset_spec : forall {T} (l : list T) i x y, nth_error l i = Some x -> exists l', vset l i y = Some l' /\ (forall j, nth_error l' j = if j =? i then Some y else nth_error l j) /\ length l' = length l.
Proof.
  induction l as [|a l IH]; intros i x y H; [destruct i; discriminate|]. destruct i as [|i]; cbn [vset].
  - eexists. split; [reflexivity|]. split; auto. intros [|j]; auto.
  - cbn in H. destruct (IH i x y H) as (l' & A & B & D). rewrite A. cbn [bind]. eexists. split; [reflexivity|]. split; [|cbn; lia]. intros [|j]; auto. cbn [nth_error]. rewrite B. reflexivity.
Qed.
Lemma sumw_set : forall f ws w x y ws', nth_error ws w = Some x -> vset ws w y = Some ws' -> sumw f ws' + f x = sumw f ws + f y.
Proof.
  intros f. induction ws as [|a ws IH]; intros w x y ws' H V; [destruct w; discriminate|]. destruct w as [|w]; cbn [vset] in V.
  - injection V as <-. cbn in H. injection H as ->. unfold sumw, list_sum. cbn [map fold_right]. lia.
  - destruct (vset ws w y) as [l'|] eqn:E; cbn [bind] in V; [|discriminate]. injection V as <-. cbn in H. specialize (IH w x y l' H E). unfold sumw, list_sum in *. cbn [map fold_right] in *. lia.
Qed.
Definition over (x : wstate C) : nat := match x with Got idx => if num <=? idx then 1 else 0 | Done => 1 | _ => 0 end.
Definition pend (c : C) (x : wstate C) : nat := match x with Got idx => if num <=? idx then 0 else cnt (jobs idx) c | Check idx => cnt (jobs idx) c | Run l | InCall l => cnt l c | _ => 0 end.
Definition bad (x : wstate C) : nat := match x with Catch | Failed => 1 | _ => 0 end.
Definition total (n : nat) (c : C) : nat := cnt (concat (map jobs (seq 0 (min n num)))) c.
Definition rem (x : wstate C) : nat := match x with Fetch => 0 | Got idx => if num <=? idx then 1 else 2 + (2 * length (jobs idx) + 2) | Check idx => 1 + (2 * length (jobs idx) + 2) | Run l => 2 * length l + 1 | InCall l => 2 * length l + 2 | Catch => 1 | Done => 0 | Failed => 0 end.
Variable K : nat.
Hypothesis JK : forall i, i < num -> length (jobs i) <= K.

Record inv (W steps : nat) (s : pst C) : Prop := {
  i_len : length (workers s) = W;
  i_n : exists n, next_idx s = n mod M /\ n <= num + sumw over (workers s) /\
    (forall c, cnt (calls s) c + sumw (pend c) (workers s) <= total n c) /\
    (has_error s = false -> sumw bad (workers s) = 0 -> forall c, cnt (calls s) c + sumw (pend c) (workers s) = total n c) /\
    (forall w x, nth_error (workers s) w = Some x -> match x with Got idx => idx < n | Check idx => idx < num | Done => num <= n \/ has_error s = true | _ => True end) /\
    steps + sumw rem (workers s) <= n * (2 * K + 5);
  i_err : has_error s = true -> exists w, nth_error (workers s) w = Some Failed }.

Lemma sumw_repeat0 : forall f W, f Fetch = 0 -> sumw f (repeat Fetch W) = 0.
Proof. intros f W H. unfold sumw. induction W; cbn; auto. rewrite H. auto. Qed.
Lemma inv0 : forall W, inv W 0 (pst0 W).
Proof.
  intros W. constructor; cbn [pst0 workers next_idx has_error calls]; [apply repeat_length| |discriminate]. exists 0. rewrite !sumw_repeat0 by auto. split; [destruct (Nat.eq_dec M 0) as [Z|Z]; [rewrite Z; reflexivity|symmetry; apply Nat.mod_0_l; auto]|]. split; [lia|].
  split; [intros c; rewrite sumw_repeat0 by auto; unfold total; cbn; lia|]. split; [intros _ _ c; rewrite sumw_repeat0 by auto; unfold total; cbn; lia|]. split; [|lia]. intros w x H. apply nth_error_In, repeat_spec in H. subst. auto.
Qed.
Lemma sumw_le : forall f ws, (forall x, f x <= 1) -> sumw f ws <= length ws.
Proof. intros f ws H. unfold sumw, list_sum. induction ws as [|x ws IH]; cbn [map fold_right length]; auto. specialize (H x). lia. Qed.
Lemma sumw_lt : forall f ws w x, (forall x, f x <= 1) -> nth_error ws w = Some x -> f x = 0 -> sumw f ws + 1 <= length ws.
Proof. intros f. induction ws as [|y ws IH]; intros w x H N F; [destruct w; discriminate|]. unfold sumw, list_sum in *. cbn [map fold_right length]. destruct w as [|w]; cbn in N; [injection N as ->; rewrite F; assert (X := sumw_le f ws H); unfold sumw, list_sum in X; lia|]. specialize (IH w x H N F). specialize (H y). lia. Qed.
Lemma over_1 : forall x, over x <= 1. Proof. intros []; cbn; auto. destruct (num <=? idx); auto. Qed.
Lemma total_S : forall n c, n < num -> total (S n) c = total n c + cnt (jobs n) c.
Proof. intros. unfold total. rewrite !Nat.min_l by lia. rewrite seq_S, map_app, concat_app, count_occ_app. cbn. rewrite app_nil_r. auto. Qed.
Lemma total_big : forall n c, num <= n -> total n c = total num c.
Proof. intros. unfold total. rewrite !Nat.min_r by lia. auto. Qed.

Ltac sums V N := repeat match goal with |- context [sumw ?f ?ws'] => lazymatch goal with H : sumw f ws' + _ = _ |- _ => fail | _ => let E := fresh "SE" in assert (E := sumw_set f _ _ _ _ ws' N V); cbn [over bad rem] in E end end.
Ltac nths J := intros w2 x2 J; rewrite J; destruct (Nat.eqb_spec w2); auto.

Lemma inv_step : forall W k s w b s', num + W <= M -> inv W k s -> pstep M num jobs s w b = Some s' -> inv W (S k) s'.
Proof.
  intros W k s w b s' R [L (n & N1 & N2 & N3 & N4 & N5 & N6) E] H. unfold pstep, vget in H. destruct (nth_error (workers s) w) as [x|] eqn:X; cbn [bind] in H; [|discriminate].
  assert (XN := N5 w x X).
  assert (GOTO : forall y e cs, exists ws, vset (workers s) w y = Some ws /\ length ws = W /\ (forall j, nth_error ws j = if j =? w then Some y else nth_error (workers s) j) /\
     (forall f, sumw f ws + f x = sumw f (workers s) + f y) /\ (bind (vset (workers s) w y) (fun ws => Some (Pst (next_idx s) e ws cs)) = Some (Pst (next_idx s) e ws cs))).
  { intros y e cs. destruct (vset_spec (workers s) w x y X) as (ws & V & J & LL). exists ws. split; auto. split; [lia|]. split; auto. split; [intros f; eapply sumw_set; eauto|]. rewrite V. reflexivity. }
  (* steps that leave the counter alone *)
  assert (STAY : forall y cs, 
      over x <= over y -> rem y + 1 <= rem x ->
      (forall c, cnt cs c + pend c y <= cnt (calls s) c + pend c x) -> 
      ((bad y = 0 /\ has_error s = false -> forall c, cnt cs c + pend c y = cnt (calls s) c + pend c x)) -> bad x <= bad y -> x <> Failed ->
      (match y with Got idx => idx < n | Check idx => idx < num | Done => num <= n \/ has_error s = true | _ => True end) ->
      forall s', bind (vset (workers s) w y) (fun ws => Some (Pst (next_idx s) (has_error s) ws cs)) = Some s' -> inv W (S k) s').
  { intros y cs H1 H2 H3 H4 H5 H6 H7 s1 HS. destruct (GOTO y (has_error s) cs) as (ws & V & LL & J & SU & BB). rewrite BB in HS. injection HS as <-. constructor; cbn [workers next_idx has_error calls]; auto.
    - exists n. split; auto. split; [specialize (SU over); lia|]. split; [intros c; specialize (SU (pend c)); specialize (H3 c); specialize (N3 c); lia|]. split.
      + intros E0 B0 c. assert (SB := SU bad). assert (SUB : bad y <= sumw bad ws). { clear - J X. assert (Q : nth_error ws w = Some y) by (rewrite J, Nat.eqb_refl; auto). revert w Q X J. induction ws as [|a ws IH]; intros w Q X J; [destruct w; discriminate|]. unfold sumw, list_sum in *. cbn [map fold_right]. destruct w; cbn in Q; [injection Q as ->; lia|]. enough (bad y <= fold_right Nat.add 0 (map bad ws)) by lia. clear - Q. revert w Q. induction ws as [|a0 ws IH]; intros w Q; [destruct w; discriminate|]. cbn [map fold_right]. destruct w; cbn in Q; [injection Q as ->; lia|]. specialize (IH w Q). lia. }
        assert (BY : bad y = 0) by lia. assert (BX : bad x = 0) by lia. specialize (N4 E0 ltac:(lia) c). specialize (H4 (conj BY E0) c). specialize (SU (pend c)). lia.
      + split; [|specialize (SU rem); lia]. intros w2 x2 J2. rewrite J in J2. destruct (Nat.eqb_spec w2 w) as [->|]; [injection J2 as <-; auto|]. apply N5 in J2. auto.
    - intros E0. destruct (E E0) as (w2 & W2). exists w2. rewrite J. destruct (Nat.eqb_spec w2 w) as [->|]; auto. congruence. }
  destruct x as [|idx|idx|l|l| | |].
  - (* Fetch *) destruct (vset_spec (workers s) w Fetch (Got (next_idx s)) X) as (ws & V & J & LL). rewrite V in H. cbn [bind] in H. injection H as <-.
    assert (SU : forall f, sumw f ws + f Fetch = sumw f (workers s) + f (Got (next_idx s))) by (intros f; eapply sumw_set; eauto).
    assert (OV := sumw_lt over _ _ _ over_1 X eq_refl). assert (NM : n < M) by lia. rewrite (Nat.mod_small n M) in N1 by lia. rewrite N1 in *.
    constructor; cbn [workers next_idx has_error calls]; [lia| |].
    + exists (S n). split; [f_equal; lia|]. assert (SO := SU over). cbn [over] in SO. split; [destruct (Nat.leb_spec num n); lia|]. split; [|split; [|split]].
      * intros c. specialize (SU (pend c)). cbn [pend] in SU. specialize (N3 c). destruct (Nat.leb_spec num n) as [G|G]; [rewrite total_big in * by lia; lia|]. rewrite total_S by auto. lia.
      * intros E0 B0 c. assert (SB := SU bad). cbn [bad] in SB. specialize (N4 E0 ltac:(lia) c). specialize (SU (pend c)). cbn [pend] in SU. destruct (Nat.leb_spec num n) as [G|G]; [rewrite total_big in * by lia; lia|]. rewrite total_S by auto. lia.
      * intros w2 x2 J2. rewrite J in J2. destruct (Nat.eqb_spec w2 w) as [->|]; [injection J2 as <-; lia|]. apply N5 in J2. destruct x2; auto; try lia. destruct J2; auto; left; lia.
      * specialize (SU rem). cbn [rem] in SU. destruct (Nat.leb_spec num n) as [G|G]; [lia|]. specialize (JK n G). lia.
    + intros E0. destruct (E E0) as (w2 & W2). exists w2. rewrite J. destruct (Nat.eqb_spec w2 w) as [->|]; auto. congruence.
  - destruct (Nat.leb_spec num idx) as [G|G]; revert H; apply STAY; cbn [over rem pend bad]; try discriminate; rewrite ?(proj2 (Nat.leb_le _ _)), ?(proj2 (Nat.leb_gt _ _)) by auto; auto; try lia.
  - destruct (has_error s) eqn:HE; revert H.
    + apply STAY; cbn [over rem pend bad]; try discriminate; try lia; auto.
    + apply STAY; cbn [over rem pend bad]; try discriminate; try lia; auto.
  - destruct l as [|c l]; revert H; apply STAY; cbn [over rem pend bad length]; try discriminate; try lia; auto; intros; rewrite count_occ_app; cbn; destruct (eqC c c0); lia.
  - destruct b; revert H; apply STAY; cbn [over rem pend bad]; try discriminate; try lia; auto; intros; lia.
  - (* Catch *) destruct (GOTO Failed true (calls s)) as (ws & V & LL & J & SU & BB). rewrite BB in H. injection H as <-. constructor; cbn [workers next_idx has_error calls]; auto.
    + exists n. split; auto. assert (SO := SU over). cbn [over] in SO. split; [lia|]. split; [intros c; specialize (SU (pend c)); cbn [pend] in SU; specialize (N3 c); lia|]. split; [discriminate|]. split; [|specialize (SU rem); cbn [rem] in SU; lia].
      intros w2 x2 J2. rewrite J in J2. destruct (Nat.eqb_spec w2 w) as [->|]; [injection J2 as <-; auto|]. apply N5 in J2. destruct x2; auto.
    + intros _. exists w. rewrite J, Nat.eqb_refl. auto.
  - discriminate.
  - discriminate.
Qed.
Lemma inv_run : forall W, num + W <= M -> forall sched k s s', inv W k s -> prun M num jobs sched s = Some s' -> inv W (length sched + k) s'.
Proof.
  intros W R. induction sched as [|(w, b) sched IH]; intros k s s' I H; unfold prun in *; cbn [foldM] in H; [injection H as <-; auto|]. destruct (pstep M num jobs s w b) as [s1|] eqn:E; cbn [bind] in H; [|discriminate]. cbn [length]. replace (S (length sched) + k) with (length sched + S k) by lia. eapply IH; eauto. eapply inv_step; eauto.
Qed.
Lemma sumw_zero : forall f ws, (forall x, In x ws -> f x = 0) -> sumw f ws = 0.
Proof. intros f ws H. unfold sumw, list_sum. induction ws as [|x ws IH]; cbn [map fold_right]; auto. rewrite H by (left; auto). apply IH. intros; apply H; right; auto. Qed.
Theorem final_counts : forall W sched s, 0 < W -> num + W <= M -> prun M num jobs sched (pst0 W) = Some s -> finished s = true -> raises s = false -> forall c, cnt (calls s) c = cnt (concat (map jobs (seq 0 num))) c.
Proof.
  intros W sched s W0 R H F NR c. destruct (inv_run W R sched 0 _ _ (inv0 W) H) as [L (n & N1 & N2 & N3 & N4 & N5 & N6) E]. unfold finished in F. rewrite forallb_forall in F. unfold raises in NR.
  assert (AD : forall x, In x (workers s) -> x = Done). { intros x Hx. specialize (F x Hx). destruct x; try discriminate; auto. exfalso. rewrite <- not_true_iff_false in NR. apply NR. apply existsb_exists. exists Failed. auto. }
  assert (HE : has_error s = false). { destruct (has_error s) eqn:X; auto. destruct (E eq_refl) as (w & Hw). apply nth_error_In, AD in Hw. discriminate. }
  specialize (N4 HE). rewrite sumw_zero in N4 by (intros x Hx; rewrite (AD x Hx); auto). specialize (N4 eq_refl c). rewrite sumw_zero in N4 by (intros x Hx; rewrite (AD x Hx); auto).
  assert (NN : num <= n). { destruct (workers s) as [|x ws] eqn:Q; [cbn in L; lia|]. specialize (N5 0 x eq_refl). rewrite (AD x) in N5 by (left; auto). destruct N5; auto. congruence. }
  rewrite total_big in N4 by auto. unfold total in N4. rewrite Nat.min_id in N4. lia.
Qed.
Theorem any_counts : forall W sched s, num + W <= M -> prun M num jobs sched (pst0 W) = Some s -> forall c, cnt (calls s) c <= cnt (concat (map jobs (seq 0 num))) c.
Proof.
  intros W sched s R H c. destruct (inv_run W R sched 0 _ _ (inv0 W) H) as [L (n & N1 & N2 & N3 & N4 & N5 & N6) E]. specialize (N3 c). unfold total in N3. assert (X : cnt (concat (map jobs (seq 0 (min n num)))) c <= cnt (concat (map jobs (seq 0 num))) c); [|lia].
  replace num with (min n num + (num - min n num)) at 2 by lia. rewrite seq_app, map_app, concat_app, count_occ_app. lia.
Qed.
Theorem steps_bound : forall W sched s, num + W <= M -> prun M num jobs sched (pst0 W) = Some s -> length sched <= (num + W) * (2 * K + 5).
Proof.
  intros W sched s R H. destruct (inv_run W R sched 0 _ _ (inv0 W) H) as [L (n & N1 & N2 & N3 & N4 & N5 & N6) E]. assert (X := sumw_le over (workers s) over_1). assert (n <= num + W) by lia. assert (n * (2 * K + 5) <= (num + W) * (2 * K + 5)) by (apply Nat.mul_le_mono_r; auto). lia.
Qed.
Theorem err_failed : forall W sched s, num + W <= M -> prun M num jobs sched (pst0 W) = Some s -> has_error s = true -> exists w, nth_error (workers s) w = Some Failed.
Proof. intros W sched s R H. apply (inv_run W R sched 0 _ _ (inv0 W) H). Qed.
Lemma no_deadlock : forall s, finished s = false -> exists w, w < length (workers s) /\ forall b, exists s', pstep M num jobs s w b = Some s'.
Proof.
  intros s F. unfold finished in F. assert (X : exists w x, nth_error (workers s) w = Some x /\ x <> Done /\ x <> Failed).
  { clear - F. induction (workers s) as [|x ws IH]; cbn [forallb] in F; [discriminate|]. destruct x; cbn [andb] in F; try (exists 0; eexists; split; [reflexivity|split; discriminate]); destruct (IH F) as (w & x & A & B); exists (S w), x; auto. }
  destruct X as (w & x & X & N1 & N2). exists w. split; [apply nth_error_Some; congruence|]. intros b. unfold pstep, vget. rewrite X. cbn [bind].
  assert (V : forall y, exists ws, vset (workers s) w y = Some ws) by (intros y; destruct (vset_spec _ _ _ y X) as (l & A & _); eauto).
  destruct x as [|idx|idx|l|l| | |]; try congruence.
  - destruct (V (Got (next_idx s))) as (ws & ->). cbn [bind]. eauto.
  - destruct (num <=? idx); [destruct (V Done) as (ws & ->)|destruct (V (Check idx)) as (ws & ->)]; cbn [bind]; eauto.
  - destruct (has_error s); [destruct (V Done) as (ws & ->)|destruct (V (Run (jobs idx))) as (ws & ->)]; cbn [bind]; eauto.
  - destruct l as [|c l]; [destruct (V Fetch) as (ws & ->)|destruct (V (InCall l)) as (ws & ->)]; cbn [bind]; eauto.
  - destruct b; [destruct (V Catch) as (ws & ->)|destruct (V (Run l)) as (ws & ->)]; cbn [bind]; eauto.
  - destruct (V Failed) as (ws & ->). cbn [bind]. eauto.
Qed.
(** after the error flag is set *)
Definition left_calls (x : wstate C) : nat := match x with Run l | InCall l => length l | _ => 0 end.
Lemma err_step : forall s w b s', has_error s = true -> pstep M num jobs s w b = Some s' -> has_error s' = true /\ length (calls s') + sumw left_calls (workers s') <= length (calls s) + sumw left_calls (workers s).
Proof.
  intros s w b s' E H. unfold pstep, vget in H. destruct (nth_error (workers s) w) as [x|] eqn:X; cbn [bind] in H; [|discriminate]. rewrite E in H.
  assert (V : forall y nx cs, bind (vset (workers s) w y) (fun ws => Some (Pst nx true ws cs)) = Some s' -> length cs + left_calls y <= length (calls s) + left_calls x -> has_error s' = true /\ length (calls s') + sumw left_calls (workers s') <= length (calls s) + sumw left_calls (workers s)).
  { intros y nx cs A B. destruct (vset (workers s) w y) as [ws|] eqn:Q; cbn [bind] in A; [|discriminate]. injection A as <-. cbn [has_error calls workers]. assert (SU := sumw_set left_calls _ _ _ _ _ X Q). split; auto. lia. }
  destruct x as [|idx|idx|l|l| | |]; try discriminate.
  - eapply V; [exact H|]. cbn. lia.
  - destruct (num <=? idx); (eapply V; [exact H|]; cbn; lia).
  - eapply V; [exact H|]. cbn. lia.
  - destruct l as [|c l]; (eapply V; [exact H|]; rewrite ?app_length; cbn; lia).
  - destruct b; (eapply V; [exact H|]; cbn; lia).
  - eapply V; [exact H|]. cbn. lia.
Qed.
Lemma err_run : forall sched s s', has_error s = true -> prun M num jobs sched s = Some s' -> length (calls s') <= length (calls s) + sumw left_calls (workers s).
Proof.
  unfold prun. induction sched as [|(w, b) sched IH]; intros s s' E H; cbn [foldM] in H; [injection H as <-; lia|]. destruct (pstep M num jobs s w b) as [s1|] eqn:P; cbn [bind] in H; [|discriminate]. destruct (err_step s w b s1 E P) as (E1 & L1). specialize (IH s1 s' E1 H). lia.
Qed.
(** no worker holds more than K calls *)
Lemma left_run : forall W, num + W <= M -> forall sched k s s', inv W k s -> (forall x, In x (workers s) -> left_calls x <= K) -> prun M num jobs sched s = Some s' -> forall x, In x (workers s') -> left_calls x <= K.
Proof.
  intros W R. unfold prun. induction sched as [|(w, b) sched IH]; intros k s s' I B H; cbn [foldM] in H; [injection H as <-; auto|]. destruct (pstep M num jobs s w b) as [s1|] eqn:P; cbn [bind] in H; [|discriminate]. apply (IH (S k) s1 s'); [eapply inv_step; eauto| |auto]. clear H IH.
  unfold pstep, vget in P. destruct (nth_error (workers s) w) as [x|] eqn:X; cbn [bind] in P; [|discriminate]. assert (BX := B x (nth_error_In _ _ X)).
  assert (CI : forall idx, x = Check idx -> idx < num) by (intros idx ->; destruct I as [_ (n & _ & _ & _ & _ & N5 & _) _]; apply (N5 w _ X)).
  assert (V : forall y nx e cs, bind (vset (workers s) w y) (fun ws => Some (Pst nx e ws cs)) = Some s1 -> left_calls y <= K -> forall z, In z (workers s1) -> left_calls z <= K).
  { intros y nx e cs A BY z Hz. destruct (vset_spec _ _ _ y X) as (ws & Q & J & _). rewrite Q in A. cbn [bind] in A. injection A as <-. cbn [workers] in Hz. apply In_nth_error in Hz. destruct Hz as (j & Hj). rewrite J in Hj. destruct (j =? w); [injection Hj as <-; auto|]. apply nth_error_In in Hj. auto. }
  destruct x as [|idx|idx|l|l| | |]; try discriminate.
  - eapply V; [exact P|]. cbn. lia.
  - destruct (num <=? idx); (eapply V; [exact P|]; cbn; lia).
  - destruct (has_error s); (eapply V; [exact P|]); cbn; [lia|]. apply JK. auto.
  - destruct l as [|c l]; (eapply V; [exact P|]; cbn in *; lia).
  - destruct b; (eapply V; [exact P|]; cbn in *; lia).
  - eapply V; [exact P|]. cbn. lia.
Qed.
Theorem after_error : forall W sched1 sched2 s1 s2, num + W <= M -> prun M num jobs sched1 (pst0 W) = Some s1 -> has_error s1 = true -> prun M num jobs sched2 s1 = Some s2 -> length (calls s2) <= length (calls s1) + (W - 1) * K.
Proof.
  intros W c1 c2 s1 s2 R H1 E H2. assert (I := inv_run W R c1 0 _ _ (inv0 W) H1). assert (B : forall x, In x (workers s1) -> left_calls x <= K). { eapply left_run; [exact R|apply (inv0 W)| |exact H1]. intros x Hx. apply repeat_spec in Hx. subst x. cbn. lia. }
  assert (X := err_run _ _ _ E H2). destruct I as [L _ IE]. destruct (IE E) as (w & Hw). enough (sumw left_calls (workers s1) <= (W - 1) * K) by lia. rewrite <- L. clear - B Hw. revert w Hw. induction (workers s1) as [|x ws IH]; intros w Hw; [destruct w; discriminate|]. unfold sumw in *. cbn [map list_sum fold_right length Nat.sub]. rewrite Nat.sub_0_r.
  destruct w as [|w]; cbn in Hw.
  - injection Hw as ->. cbn [left_calls]. assert (B' : forall x, In x ws -> left_calls x <= K) by (intros; apply B; right; auto). clear - B'. induction ws as [|x ws IH]; cbn; [lia|]. assert (left_calls x <= K) by (apply B'; left; auto). assert (list_sum (map left_calls ws) <= length ws * K) by (apply IH; intros; apply B'; right; auto). unfold list_sum in *. lia.
  - assert (left_calls x <= K) by (apply B; left; auto). specialize (IH ltac:(intros; apply B; right; auto) w Hw). assert (LW : length ws > 0) by (destruct ws; [destruct w; discriminate|cbn; lia]). unfold list_sum in *. replace (length ws) with (S (length ws - 1)) by lia. cbn [Nat.mul]. lia.
Qed.
End P.
