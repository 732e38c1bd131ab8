(** Element assembly in LinearSystemSolver_BlockPentaDiagonal. *)
From Coq Require Import List Arith Bool ZArith Lia Ring.
Import ListNotations.
From Verif Require Import Imp Alg SpProofs1 SpProofs4 MatnModel MatnProofs1 MatnProofs2 MatnProofs3 MatnProofs4 MatnProofs5 DtriProofs5.

Section P.
Variable F : pfield.
Notation K := (pr F).
Add Ring Kr : (rlaws K).
Local Open Scope K_scope.

Lemma rect_loop : forall n dr dc o (v : list K) (e : nat -> nat -> K) body, dr <= n -> dc <= n -> (o + n * n <= length v)%nat ->
  (forall i j s, i < dr -> j < dc -> length s = length v -> body i j s = vmod s (o + i * n + j)%nat (fun t => t + e i j)) ->
  wp (forn 0 dr (fun i v => forn 0 dc (fun j v => body i j v) v) v)
     (fun v' => blkupd n v v' o (fun a b => nth (o + a * n + b)%nat v 0 + (if (a <? dr) && (b <? dc) then e a b else 0))).
Proof.
  intros n dr dc o v e body Hr Hc Hlen Hb.
  pose (G := fun di dj v' => blkupd n v v' o (fun a b => nth (o + a * n + b)%nat v 0 +
     (if ((a <? di) && (b <? dc)) || ((a =? di) && (b <? dj)) then e a b else 0))).
  apply (wp_forn _ (fun di v' => G di 0%nat v')); [lia| | |].
  - eapply blkupd_ext; [apply blkupd_refl|]. intros a b Ha Hb'. cbn beta.
    replace ((a <? 0) && (b <? dc) || (a =? 0) && (b <? 0)) with false by bdec. ring.
  - intros i s Hi HG. apply (wp_forn _ (fun dj v' => G i dj v')); [lia|exact HG| |].
    + intros j s' Hj HG'. pose proof HG' as (L & H1 & H2). rewrite Hb by (auto; lia).
      pose proof (blk_pos_in n o i j ltac:(lia) ltac:(lia)) as Pij.
      apply (wp_vmod _ 0); [lia|]. split; [lens; auto|]. split.
      * intros a b Ha Hb'. destruct (Nat.eq_dec a i) as [->|Hna]; [destruct (Nat.eq_dec b j) as [->|Hnb]|].
        -- rewrite nth_upd_same by lia. rewrite H1 by auto.
           match goal with |- _ + (if ?c then _ else _) + _ = _ + (if ?d then _ else _) => replace c with false by bdec; replace d with true by bdec end. ring.
        -- rewrite nth_upd_other by (intros E; apply blk_pos_inj in E; auto; lia). rewrite H1 by auto. f_equal. apply if_eq. bdec.
        -- rewrite nth_upd_other by (intros E; apply blk_pos_inj in E; auto; lia). rewrite H1 by auto. f_equal. apply if_eq. bdec.
      * intros k Hk. rewrite nth_upd_other by lia. apply H2. auto.
    + intros s' HG'. eapply blkupd_ext; [exact HG'|]. intros a b Ha Hb'. cbn beta. f_equal. apply if_eq. bdec.
  - intros s HG. eapply blkupd_ext; [exact HG|]. intros a b Ha Hb'. cbn beta. f_equal. apply if_eq. bdec.
Qed.

Section LS.
Variables (n nblk nrow ncol dr dc : nat) (rows cols : list nat) (emat : list K).
Hypothesis Hn : 4 <= nblk.
Hypothesis Hdr : dr <= n.
Hypothesis Hdc : dc <= n.
Hypothesis Hrows : length rows = nrow.
Hypothesis Hcols : length cols = ncol.
Hypothesis Hlen : length emat = (nrow * ncol * (dr * dc))%nat.
Hypothesis Hle : dr <= dc.
Hypothesis Hin : forall r c, r < nrow -> c < ncol -> nth r rows 0%nat < nblk /\ nth c cols 0%nat < nblk /\
  (-2 <= Z.of_nat (nth r rows 0%nat) - Z.of_nat (nth c cols 0%nat) <= 2)%Z.
Notation Bp := (B F n (penta_ptr n nblk)).

Definition hit (i j a b r c : nat) : K :=
  if (nth r rows 0%nat =? i) && (nth c cols 0%nat =? j) && ((a <? dr) && (b <? dr)) then nth ((((r * ncol + c) * dr + a) * dc) + b)%nat emat 0 else 0.

Lemma lsp_Merge_ok : forall v, length v = penta_size n nblk ->
  wp (lsp_Merge n nblk nrow ncol dr dc rows cols emat v) (fun v' => length v' = length v /\
    forall i j a b, a < n -> b < n -> Bp v' (Z.of_nat i) (Z.of_nat j) a b =
      Bp v (Z.of_nat i) (Z.of_nat j) a b + sumn nrow (fun r => sumn ncol (fun c => hit i j a b r c))).
Proof.
  intros v HL. unfold lsp_Merge. apply wp_bind, wp_assertb; [apply andb_true_intro; split; apply Nat.leb_le; auto|].
  pose (G := fun r c (v' : list K) => length v' = length v /\
    forall i j a b, a < n -> b < n -> Bp v' (Z.of_nat i) (Z.of_nat j) a b =
      Bp v (Z.of_nat i) (Z.of_nat j) a b + (sumn r (fun r => sumn ncol (fun c => hit i j a b r c)) + sumn c (fun c => hit i j a b r c))).
  apply (wp_forn _ (fun r v' => G r 0%nat v')); [lia| | |].
  - split; auto. intros. rewrite !sumn_0. ring.
  - intros r s Hr HG. apply (wp_forn _ (fun c v' => G r c v')); [lia|exact HG| |].
    + intros c s' Hc (Ls & Hs). destruct (Hin r c ltac:(lia) ltac:(lia)) as (Hi & Hj & Hd).
      rewrite (vget_nth _ 0%nat) by lia. cbn [bind]. rewrite (vget_nth _ 0%nat) by lia. cbn [bind].
      set (ip := nth r rows 0%nat) in *. set (jp := nth c cols 0%nat) in *.
      apply wp_bind, wp_assertb; [apply andb_true_intro; split; apply Nat.ltb_lt; auto|].
      destruct (penta_ptr n nblk (Z.of_nat ip) (Z.of_nat jp)) as [p|] eqn:Ep; [|rewrite penta_ex in Ep by lia; discriminate].
      cbn [deref bind]. pose proof (penta_Pin n nblk Hn _ _ _ Ep) as (_ & _ & _ & Sp).
      eapply wp_mono; [apply (rect_loop n dr dr p s' (fun a b => nth ((((r * ncol + c) * dr + a) * dc) + b)%nat emat 0) _ Hdr Hdr ltac:(lia))|].
      * intros a b s0 Ha Hb L0. rewrite (vget_nth _ 0); [reflexivity|]. rewrite Hlen.
        assert (r * ncol + c < nrow * ncol)%nat by (apply idx_lt; lia).
        assert ((r * ncol + c) * dr + a < nrow * ncol * dr)%nat by (apply idx_lt; lia).
        assert (((r * ncol + c) * dr + a) * dc + b < nrow * ncol * dr * dc)%nat by (apply idx_lt; lia). lia.
      * intros v' HU.
        assert (HC : chg F n (penta_ptr n nblk) s' v' (Z.of_nat ip) (Z.of_nat jp) (fun a b => Bp s' (Z.of_nat ip) (Z.of_nat jp) a b +
            (if (a <? dr) && (b <? dr) then nth ((((r * ncol + c) * dr + a) * dc) + b)%nat emat 0 else 0))).
        { apply (chg_blk F n (penta_ptr n nblk) (penta_Pap n nblk Hn) _ _ _ _ _ _ Ep). eapply blkupd_ext; [exact HU|].
          intros a b Ha Hb. cbn beta. unfold B. rewrite Ep. auto. }
        destruct HC as (L & C & Fr). split; [lia|]. intros i j a b Ha Hb. rewrite sumn_S.
        replace (hit i j a b r c) with (if (ip =? i) && (jp =? j) && ((a <? dr) && (b <? dr)) then nth ((((r * ncol + c) * dr + a) * dc) + b)%nat emat 0 else 0) by reflexivity.
        destruct (Nat.eqb_spec ip i) as [<-|Hni]; [destruct (Nat.eqb_spec jp j) as [<-|Hnj]|]; cbn [andb].
        -- rewrite C, Hs by auto. ring.
        -- rewrite Fr, Hs by (auto; lia). ring.
        -- rewrite Fr, Hs by (auto; lia). ring.
    + intros s' (Ls & Hs). split; auto. intros i j a b Ha Hb. rewrite Hs by auto. rewrite sumn_S, sumn_0. ring.
  - intros s' (Ls & Hs). split; auto. intros i j a b Ha Hb. rewrite Hs by auto. rewrite sumn_0. ring.
Qed.
End LS.
End P.
