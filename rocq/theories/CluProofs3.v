(** Proofs for CluProps.v: the neighbour table of the groups. *)
From Coq Require Import List Arith Bool Lia Permutation Reals.
Import ListNotations.
From Verif Require Import Imp JagModel JagSpec JagProofs JagProofs2 CluModel CluSpec CluProofs.
Open Scope nat_scope.

Lemma forb_list : forall S (h : nat -> S -> option S) f l lo hi s, length l <= hi - lo ->
  (forall t x s, nth_error l t = Some x -> f (lo + t) s = bind (h x s) (fun s' => Some (s', false))) ->
  (forall t s, lo + t < hi -> nth_error l t = None -> f (lo + t) s = Some (s, true)) ->
  forb lo hi f s = foldM h l s.
Proof.
  intros S h f l lo hi s. unfold forb. remember (hi - lo) as k. revert l lo s Heqk. induction k as [|k IH]; intros l lo s Ek Hl Hx Hn.
  - destruct l; [reflexivity|cbn in Hl; lia].
  - cbn [forb_]. destruct l as [|x l].
    + pose proof (Hn 0 s) as Hn0. rewrite Nat.add_0_r in Hn0. rewrite Hn0; auto. lia.
    + pose proof (Hx 0 x s eq_refl) as E. rewrite Nat.add_0_r in E. rewrite E. cbn [foldM]. destruct (h x s) as [s'|]; [|reflexivity]. cbn [bind].
      apply IH; [lia|cbn in Hl; lia| |].
      * intros t y s0 Ey. rewrite <- (Hx (Datatypes.S t) y s0 Ey). f_equal. lia.
      * intros t s0 Ht Ey. rewrite <- (Hn (Datatypes.S t) s0); [f_equal; lia|lia|auto].
Qed.
Lemma foldM_map : forall A B S (f : B -> S -> option S) (g : A -> B) l s, foldM f (map g l) s = foldM (fun a s => f (g a) s) l s.
Proof. induction l; cbn; intros; auto. destruct (f (g a) s); cbn; auto. Qed.
Lemma foldM_flat : forall A B S (f : B -> S -> option S) (g : A -> list B) l s, foldM f (flat_map g l) s = foldM (fun a s => foldM f (g a) s) l s.
Proof. induction l; cbn; intros; auto. rewrite foldM_app. destruct (foldM f (g a) s); cbn; auto. Qed.
Lemma foldM_ext_in : forall A S (f g : A -> S -> option S) l s, (forall x s, In x l -> f x s = g x s) -> foldM f l s = foldM g l s.
Proof. induction l; cbn; intros; auto. rewrite H by auto. destruct (g a s); cbn; auto. Qed.
Lemma flags_self : forall np p aflg, flags np p [] aflg -> p < np -> flags np p [p] (upd aflg p (Some p)).
Proof. intros. apply flags_mark; auto. Qed.

Lemma put_last : forall np l rows arr, rows = rows_of np l -> Forall (fun p => fst p < np) l -> length arr = length (concat rows) ->
  wp (foldM put_pair l (offsets rows, arr)) (fun s => nth np (fst s) 0 = offs rows np).
Proof.
  intros np l rows arr Er Hl Ha. pose proof (fill_ok np l rows arr Er Hl Ha) as W. apply wp_ex in W. destruct W as (s & E & Hs).
  assert (Lr : length rows = np) by (subst; apply rows_of_length).
  assert (HK : forall l ind arr s, Forall (fun p => fst p < np) l -> foldM put_pair l (ind, arr) = Some s -> nth np (fst s) 0 = nth np ind 0).
  { clear. induction l as [|[k x] l IH]; intros ind arr s HF E; cbn [foldM] in E; [injection E as <-; auto|].
    inversion HF as [|? ? Hk HF']; subst. cbn [fst] in Hk.
    unfold put_pair in E at 1. unfold put1 in E. cbn [fst snd] in E.
    destruct (vget ind k) as [i|] eqn:E1; [|discriminate]. cbn [bind] in E.
    destruct (vset arr i x) as [a'|] eqn:E2; [|discriminate]. cbn [bind] in E.
    destruct (vmod ind k S) as [ind'|] eqn:E3; [|discriminate]. cbn [bind] in E.
    rewrite (IH _ _ _ HF' E).
    unfold vmod in E3. rewrite E1 in E3. cbn [bind] in E3.
    assert (k < length ind) by (apply nth_error_Some; unfold vget in E1; congruence).
    rewrite vset_upd in E3 by auto. injection E3 as <-. apply nth_upd_other. lia. }
  rewrite E. apply wp_some. rewrite (HK _ _ _ _ Hl E). rewrite offsets_nth by lia. auto.
Qed.
Lemma shift1_ok : forall A (rows : list (list A)) np ind, length rows = np -> length ind = np + 1 ->
  (forall k, k < np -> nth k ind 0 = offs rows (S k)) -> nth np ind 0 = offs rows np ->
  bind (ford (np - 1) 0 (fun i ind => a <- vget ind (i - 1) ;; vset ind i a) ind) (fun ind => vset ind 0 0) = Some (offsets rows).
Proof.
  intros A rows np ind Hr Hl Hk Hlast.
  match goal with |- ?e = _ => assert (W : wp e (fun x => x = offsets rows)) end.
  { apply wp_bind. apply (wp_ford _ (fun i s => length s = np + 1 /\ nth np s 0 = offs rows np /\
       (forall k, k <= i -> k < np -> nth k s 0 = offs rows (S k)) /\ (forall k, i < k -> k < np -> nth k s 0 = offs rows k))); [lia| | |].
    - split; auto. split; auto. split; auto. intros; lia.
    - intros i s Hi (Hs & Hn & Ha & Hb).
      apply wp_bind. apply (wp_vget _ 0); [lia|]. apply wp_vset; [lia|].
      split; [lens; auto|]. split; [rewrite nth_upd_other by lia; auto|]. split.
      + intros. rewrite nth_upd_other by lia. apply Ha; lia.
      + intros. rewrite nth_upd by lia. destruct (Nat.eq_dec i k).
        * subst. rewrite Ha by lia. f_equal. lia.
        * apply Hb; lia.
    - intros s (Hs & Hn & Ha & Hb). apply wp_vset; [lia|].
      apply (list_ext _ 0); lens.
      + rewrite offsets_length. lia.
      + intros. rewrite offsets_nth by lia. rewrite nth_upd by lia.
        destruct (Nat.eq_dec 0 i); subst; [reflexivity|]. destruct (Nat.eq_dec i (length rows)) as [->|]; [auto|]. apply Hb; lia. }
  apply wp_ex in W. destruct W as (x & E & ->). auto.
Qed.

Section Q.
Variables (adj : list (list nat)) (psup_ind psup : list nat) (m : list (option nat)) (np1 : nat).
Let n := length adj.
Hypothesis HJ : jagged psup_ind psup adj.
Hypothesis HL : length m = n.
Hypothesis HM : forall i, i < n -> exists c, nth i m None = Some c /\ c < np1.
Hypothesis HB : forall i k, In k (nth i adj []) -> k < n.

Definition isc (c i : nat) : bool := onat_eqb (nth i m None) c.
Definition clk (k c : nat) : list nat := filter (isc c) (seq 0 k).
Definition cm (i : nat) : nat := match nth i m None with Some c => c | None => 0 end.
Definition nbr (c : nat) : list nat := emit [c] (flat_map (fun i => map cm (nth i adj [])) (clk n c)).

Lemma clk_S : forall k c, clk (S k) c = clk k c ++ (if isc c k then [k] else []).
Proof. intros. unfold clk. rewrite seq_S, filter_app. cbn. destruct (isc c k); auto. Qed.
Lemma isc_cm : forall i c, i < n -> isc c i = true <-> cm i = c.
Proof. intros i c Hi. unfold isc, cm. rewrite onat_eqb_true. destruct (HM i Hi) as (d & -> & _). split; congruence. Qed.
Lemma cm_lt : forall i, i < n -> cm i < np1.
Proof. intros i Hi. unfold cm. destruct (HM i Hi) as (d & -> & H). auto. Qed.
Lemma cm_get : forall i, i < n -> vget m i = Some (Some (cm i)).
Proof. intros i Hi. rewrite (vget_nth _ None) by lia. unfold cm. destruct (HM i Hi) as (d & -> & H). auto. Qed.
Lemma clk_In : forall k c i, k <= n -> In i (clk k c) <-> i < k /\ cm i = c.
Proof. intros k c i Hk. unfold clk. rewrite filter_In, in_seq. split; intros (H1 & H2). split; [lia|]. apply isc_cm; auto; lia. split; [lia|]. apply isc_cm; auto; lia. Qed.
Lemma clk_len : forall k c, k <= n -> length (clk k c) <= length (clk n c).
Proof. intros k c Hk. unfold clk. replace n with (k + (n - k)) by lia. rewrite seq_app, filter_app, app_length. lia. Qed.
Lemma isc_refl : forall k, k < n -> isc (cm k) k = true.
Proof. intros. apply isc_cm; auto. Qed.
Lemma isc_other : forall k c, k < n -> c <> cm k -> isc c k = false.
Proof. intros k c Hk H. destruct (isc c k) eqn:E; auto. apply isc_cm in E; auto. congruence. Qed.

Definition tab (ncnt k : nat) (map10 : list (option nat)) : Prop :=
  length map10 = np1 * ncnt /\ forall c t, c < np1 -> t < ncnt -> nth (c * ncnt + t) map10 None = nth_error (clk k c) t.

Lemma pass_ok : forall S (g : nat -> nat -> S -> option S) ncnt map10 chk s, tab ncnt n map10 -> (forall c, c < np1 -> length (clk n c) <= ncnt) ->
  cluster_pass g np1 ncnt m map10 psup_ind psup chk s = foldM (fun p s => g (fst p) (snd p) s) (concat (map (fun p => map (pair p) (nbr p)) (seq 0 np1))) s.
Proof.
  intros S g ncnt map10 chk s (HT1 & HT2) HC. unfold cluster_pass.
  match goal with |- bind (forn 0 np1 ?body _) _ = _ =>
    destruct (rows_pass S (fun p s => g (fst p) (snd p) s) np1 nbr body (repeat None np1) (flags_init _ _)) as (aflg' & _ & E) end.
  { intros p aflg Hp HF. pose proof (flags_self _ _ _ HF Hp) as HF1.
    destruct (visit_fold S (fun p s => g (fst p) (snd p) s) np1 p (flat_map (fun i => map cm (nth i adj [])) (clk n p)) [p] _ HF1) as (aflg2 & HF2 & E2).
    { apply Forall_forall. intros x Hx. apply in_flat_map in Hx. destruct Hx as (i & _ & Hx). apply in_map_iff in Hx. destruct Hx as (k & <- & Hk). apply cm_lt. eauto. }
    exists (rev (flat_map (fun i => map cm (nth i adj [])) (clk n p)) ++ [p]), aflg2. split; [auto|]. intros s0. unfold nbr. rewrite <- E2.
    destruct HF as (HFl & _). rewrite vset_upd by lia. cbn [bind].
    rewrite foldM_flat.
    assert (Hcl : forall i, In i (clk n p) -> i < n /\ cm i = p) by (intros i Hi; apply clk_In in Hi; auto).
    apply forb_list.
    - rewrite Nat.sub_0_r. auto.
    - intros t x [af s1] Ex. rewrite Nat.add_0_l.
      assert (Ht : t < ncnt). { assert (t < length (clk n p)) by (apply nth_error_Some; congruence). specialize (HC p Hp). lia. }
      assert (Hx : In x (clk n p)) by (eapply nth_error_In; eauto). destruct (Hcl x Hx) as (Hxn & Hxp).
      rewrite (vget_nth _ None) by nia. rewrite HT2, Ex by auto. cbn [bind].
      rewrite (cm_get x Hxn). cbn [bind]. rewrite Hxp. unfold onat_eqb at 1. rewrite Nat.eqb_refl.
      replace (if chk then assertb true else Some tt) with (Some tt) by (destruct chk; auto). cbn [bind].
      rewrite foldM_map.
      rewrite <- (jag_row_loop nat _ psup_ind psup adj (fun a s => visit (fun p s => g (fst p) (snd p) s) p (cm a) s) x (af, s1) HJ Hxn).
      destruct HJ as (Ea & Ei). unfold n in *.
      assert (Gi : forall k, k <= length adj -> vget psup_ind k = Some (offs adj k)).
      { intros k Hk. rewrite (ind_off adj psup_ind psup HJ). rewrite (vget_nth _ 0) by (rewrite offsets_length; lia). rewrite offsets_nth by auto. auto. }
      rewrite !Gi by lia. cbn [bind].
      assert (Hbody : forall s2, forn (offs adj x) (offs adj (x + 1)) (fun ipsup0 '(aflag1, s) =>
            kp0 <- vget psup ipsup0 ;; kp1 <- vget m kp0 ;; kp1 <- kp1 ;; f <- vget aflag1 kp1 ;;
            if onat_eqb f p then Some (aflag1, s) else aflag1 <- vset aflag1 kp1 (Some p) ;; s <- g p kp1 s ;; Some (aflag1, s)) s2
         = forn (offs adj x) (offs adj (x + 1)) (fun i s => a <- vget psup i ;; visit (fun p s => g (fst p) (snd p) s) p (cm a) s) s2).
      { intros s2. apply forn_ext. intros i [af' s3] Hi. 
        replace (x + 1) with (Datatypes.S x) in Hi by lia.
        assert (Hlen : offs adj (Datatypes.S x) <= length psup) by (rewrite (arr_cat adj psup_ind psup HJ); apply offs_le_total).
        rewrite (vget_nth _ 0) by lia. cbn [bind].
        destruct (row_at adj psup_ind psup (repeat 0%R (length adj)) HJ (repeat_length _ _) x (i - offs adj x)) as (_ & _ & R3); [auto|rewrite offs_S in Hi by auto; lia|].
        replace (offs adj x + (i - offs adj x)) with i in R3 by lia. rewrite R3.
        rewrite cm_get; [reflexivity|]. apply (HB x). apply nth_In. rewrite offs_S in Hi by auto. lia. }
      rewrite Hbody. reflexivity.
    - intros t [af s1] Ht En. rewrite Nat.add_0_l in *. rewrite (vget_nth _ None) by nia. rewrite HT2, En by auto. reflexivity. }
  rewrite E. destruct (foldM _ _ s); reflexivity.
Qed.

Lemma psup_ok : forall psup1_0, Clustering_Psup psup1_0 np1 n m psup_ind psup = Some (offsets (map nbr (seq 0 np1)), concat (map nbr (seq 0 np1))).
Proof.
  intros a0. match goal with |- ?e = _ => assert (W : wp e (fun r => r = (offsets (map nbr (seq 0 np1)), concat (map nbr (seq 0 np1))))) end.
  2:{ apply wp_ex in W. destruct W as (x & E & ->). auto. }
  unfold Clustering_Psup.
  apply wp_bind. apply (wp_forn _ (fun k cnt => length cnt = np1 /\ forall c, c < np1 -> nth c cnt 0 = length (clk k c))); [lia| | |].
  { split; [apply repeat_length|]. intros. rewrite nth_repeat. auto. }
  { intros k cnt Hk (L & Hc). rewrite cm_get by lia. cbn [bind]. pose proof (cm_lt k (proj2 Hk)) as Hlt.
    rewrite (proj2 (Nat.ltb_lt _ _) Hlt). cbn [assertb bind]. apply (wp_vmod _ 0); [lia|]. split; [lens; auto|].
    intros c Hcl. rewrite clk_S, app_length. rewrite nth_upd by lia. destruct (Nat.eq_dec (cm k) c) as [<-|Hne].
    - rewrite isc_refl by lia. rewrite Hc by auto. cbn. lia.
    - rewrite isc_other by (auto; lia). rewrite Hc by auto. cbn. lia. }
  intros cnt (Lc & Hcnt).
  apply wp_bind. apply (wp_forn _ (fun k nc => forall c, c < k -> length (clk n c) <= nc)); [lia|intros; lia| |].
  { intros k nc Hk Hn. rewrite (vget_nth _ 0) by lia. cbn [bind]. apply wp_some. rewrite Hcnt by lia.
    intros c Hc. destruct (Nat.eq_dec c k) as [->|]; [|assert (length (clk n c) <= nc) by (apply Hn; lia)]; destruct (nc <? length (clk n k)) eqn:E; [apply Nat.ltb_lt in E|apply Nat.ltb_ge in E|apply Nat.ltb_lt in E|apply Nat.ltb_ge in E]; lia. }
  intros ncnt HC. clear cnt Lc Hcnt.
  apply wp_bind. apply (wp_forn _ (fun k s => length (fst s) = np1 /\ (forall c, c < np1 -> nth c (fst s) 0 = length (clk k c)) /\ tab ncnt k (snd s))); [lia| | |].
  { cbn [fst snd]. split; [apply repeat_length|]. split; [intros; rewrite nth_repeat; auto|]. split; [apply repeat_length|]. intros. rewrite nth_repeat. destruct t; auto. }
  { intros k [cnt map10] Hk (L & Hc & (T1 & T2)). cbn [fst snd] in *. rewrite cm_get by lia. cbn [bind]. pose proof (cm_lt k (proj2 Hk)) as Hlt.
    rewrite (proj2 (Nat.ltb_lt _ _) Hlt). cbn [assertb bind]. rewrite (vget_nth _ 0) by lia. cbn [bind]. rewrite Hc by auto.
    apply wp_bind. apply (wp_vmod _ 0); [lia|].
    assert (Hroom : length (clk k (cm k)) < ncnt).
    { pose proof (clk_len (S k) (cm k)) as H1. rewrite clk_S, isc_refl, app_length in H1 by lia. specialize (HC (cm k) Hlt). cbn in H1. lia. }
    rewrite (proj2 (Nat.ltb_lt _ _) Hroom). cbn [assertb bind].
    assert (Hidx : cm k * ncnt + length (clk k (cm k)) < length map10) by nia.
    rewrite (vget_nth _ None) by auto. cbn [bind]. rewrite T2 by auto.
    rewrite (proj2 (nth_error_None _ _)) by lia. cbn [is_none assertb bind]. rewrite vset_upd by auto. cbn [bind]. apply wp_some. cbn [fst snd].
    split; [lens; auto|]. split.
    - intros c Hcl. rewrite clk_S, app_length. rewrite nth_upd by lia. destruct (Nat.eq_dec (cm k) c) as [<-|Hne].
      + rewrite isc_refl by lia. rewrite Hc by auto. cbn. lia.
      + rewrite isc_other by (auto; lia). rewrite Hc by auto. cbn. lia.
    - split; [lens; auto|]. intros c t Hcl Ht. rewrite clk_S. rewrite nth_upd by auto.
      destruct (Nat.eq_dec (cm k) c) as [<-|Hne].
      + rewrite isc_refl by lia. destruct (Nat.eq_dec (cm k * ncnt + length (clk k (cm k))) (cm k * ncnt + t)) as [E|E].
        * rewrite nth_error_app2 by lia. replace (t - length (clk k (cm k))) with 0 by lia. auto.
        * rewrite T2 by auto. destruct (lt_dec t (length (clk k (cm k)))); [rewrite nth_error_app1 by auto; auto|].
          rewrite nth_error_app2 by lia. rewrite (proj2 (nth_error_None _ _)) by lia. destruct (t - length (clk k (cm k))) as [|u] eqn:Eu; [lia|]. destruct u; auto.
      + rewrite isc_other by (auto; lia). rewrite app_nil_r.
        destruct (Nat.eq_dec (cm k * ncnt + length (clk k (cm k))) (c * ncnt + t)) as [E|E]; [|rewrite T2 by auto; auto].
        exfalso. assert (cm k < c \/ c < cm k) as [|] by lia; nia. }
  intros [cnt map10] (_ & _ & HT). cbn [fst snd] in HT. clear cnt.
  assert (HT' : forall c, c < np1 -> length (clk n c) <= ncnt) by auto.
  rewrite (pass_ok _ _ ncnt map10 true _ HT HT').
  set (l := concat (map (fun p => map (pair p) (nbr p)) (seq 0 np1))).
  assert (Hl : Forall (fun p => fst p < np1) l) by apply rowpairs_lt.
  assert (Er : rows_of np1 l = map nbr (seq 0 np1)) by apply rowpairs_rows_of.
  destruct (bucket_build np1 l a0 Hl) as (c & ind' & E1 & E2 & E3 & E4 & _).
  rewrite Er in *.
  replace (foldM (fun p s => count1 (fst p) s) l (repeat 0 (np1 + 1))) with (foldM cnt_pair l (repeat 0 (np1 + 1))) by (apply foldM_ext_in; intros [? ?] ? _; reflexivity).
  rewrite E1. cbn [bind]. rewrite E2. cbn [bind]. rewrite E3. cbn [bind].
  rewrite (pass_ok _ _ ncnt map10 false _ HT HT'). fold l.
  replace (foldM (fun p s => put1 (fst p) (snd p) s) l (offsets (map nbr (seq 0 np1)), vresize 0 a0 (length (concat (map nbr (seq 0 np1))))))
    with (foldM put_pair l (offsets (map nbr (seq 0 np1)), vresize 0 a0 (length (concat (map nbr (seq 0 np1)))))) by (apply foldM_ext_in; intros [? ?] ? _; reflexivity).
  pose proof (fill_ok np1 l _ (vresize 0 a0 (length (concat (map nbr (seq 0 np1))))) (eq_sym Er) Hl (vresize_length _ _ _ _)) as W1.
  pose proof (put_last np1 l _ (vresize 0 a0 (length (concat (map nbr (seq 0 np1))))) (eq_sym Er) Hl (vresize_length _ _ _ _)) as W2.
  rewrite E4 in *. apply wp_ex in W1. destruct W1 as (? & E5 & _ & HI & HK). injection E5 as <-. apply wp_ex in W2. destruct W2 as (? & E6 & HLa). injection E6 as <-.
  cbn [fst] in *. cbn [bind].
  assert (Lr : length (map nbr (seq 0 np1)) = np1) by (rewrite map_length, seq_length; auto).
  pose proof (shift1_ok nat _ np1 ind' Lr HI HK HLa) as E7.
  destruct (ford (np1 - 1) 0 _ ind') as [i2|]; [|discriminate]. cbn [bind] in *. rewrite E7. cbn [bind]. rewrite E3. cbn [bind]. rewrite Nat.eqb_refl. cbn [assertb bind]. apply wp_some. auto.
Qed.
End Q.
