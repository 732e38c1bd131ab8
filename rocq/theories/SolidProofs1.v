(** Linear elasticity: element matrices and assembled systems. *)
From Coq Require Import List Arith ZArith Reals Lia Lra Bool.
Import ListNotations.
From Verif Require Import Imp Alg SpModel SpSpec SpProps FemModel FemSpec FemProofs1 FemProofs2 FemProofs3 FemProofs4 SolidSpec.
Local Open Scope R_scope.

(** Elements: the form of a matrix on local fields. *)
Definition form (nno d : nat) (K : matf) (u v : vecf) : R :=
  rsum nno (fun i => rsum nno (fun j => rsum d (fun a => rsum d (fun b => v i a * K i j a b * u j b)))).
Definition app (nno d : nat) (K : matf) (u : vecf) : vecf := fun i a => rsum nno (fun j => rsum d (fun b => K i j a b * u j b)).
Definition ldot (nno d : nat) (v f : vecf) : R := rsum nno (fun i => rsum d (fun a => v i a * f i a)).
Lemma ldot_app : forall nno d K u v, ldot nno d v (app nno d K u) = form nno d K u v.
Proof.
  intros. unfold ldot, app, form. apply rsum_ext. intros i Hi. rewrite <- rsum_swap. apply rsum_ext. intros a Ha.
  rewrite <- rsum_mull. apply rsum_ext. intros j Hj. rewrite <- rsum_mull. apply rsum_ext. intros; ring.
Qed.
Lemma ldot_add : forall nno d v f g, ldot nno d v (fun i a => f i a + g i a) = ldot nno d v f + ldot nno d v g.
Proof.
  intros. unfold ldot. rewrite <- rsum_add. apply rsum_ext. intros. rewrite <- rsum_add. apply rsum_ext. intros; ring.
Qed.
Lemma ldot_mul : forall nno d v f c, ldot nno d v (fun i a => c * f i a) = c * ldot nno d v f.
Proof.
  intros. unfold ldot. rewrite <- rsum_mull. apply rsum_ext. intros. rewrite <- rsum_mull. apply rsum_ext. intros; ring.
Qed.
Lemma ldot_ext : forall nno d v f g, (forall i a, (i < nno)%nat -> (a < d)%nat -> f i a = g i a) -> ldot nno d v f = ldot nno d v g.
Proof. intros. unfold ldot. apply rsum_ext. intros. apply rsum_ext. intros. rewrite H by auto. auto. Qed.
Lemma form_addK : forall nno d K L c u v, form nno d (fun i j a b => K i j a b + c * L i j a b) u v = form nno d K u v + c * form nno d L u v.
Proof.
  intros. unfold form. rewrite <- rsum_mull, <- rsum_add. apply rsum_ext. intros i Hi. rewrite <- rsum_mull, <- rsum_add. apply rsum_ext. intros j Hj.
  rewrite <- rsum_mull, <- rsum_add. apply rsum_ext. intros a Ha. rewrite <- rsum_mull, <- rsum_add. apply rsum_ext. intros; ring.
Qed.
Lemma form_ext : forall nno d K u u' v v', (forall i a, (i < nno)%nat -> (a < d)%nat -> u i a = u' i a) -> (forall i a, (i < nno)%nat -> (a < d)%nat -> v i a = v' i a) ->
  form nno d K u v = form nno d K u' v'.
Proof.
  intros. unfold form. apply rsum_ext. intros i Hi. apply rsum_ext. intros j Hj. apply rsum_ext. intros a Ha. apply rsum_ext. intros b Hb.
  rewrite H, H0 by auto. auto.
Qed.
Lemma form_extK : forall nno d K K' u v, (forall i j a b, (i < nno)%nat -> (j < nno)%nat -> (a < d)%nat -> (b < d)%nat -> K i j a b = K' i j a b) ->
  form nno d K u v = form nno d K' u v.
Proof.
  intros. unfold form. apply rsum_ext. intros i Hi. apply rsum_ext. intros j Hj. apply rsum_ext. intros a Ha. apply rsum_ext. intros b Hb.
  rewrite H by auto. auto.
Qed.

(** The stiffness matrix of one element. *)
Definition Kf (d : nat) (lambda mu : R) (D : vecf) (w : R) : matf := fun i j a b =>
  w * (lambda * D i a * D j b + mu * D j a * D i b) + (if (a =? b)%nat then w * mu * rsum d (fun k => D i k * D j k) else 0).
Lemma Solid2_Kf : forall lambda mu D w i j a b, (a < 2)%nat -> (b < 2)%nat -> SetEmat_LinearSolid2 lambda mu D w i j a b = Kf 2 lambda mu D w i j a b.
Proof. intros. unfold SetEmat_LinearSolid2, Kf. lt2 a; lt2 b; cbn [Nat.eqb]; rsums; ring. Qed.
Lemma Solid3_Kf : forall lambda mu D w i j a b, (a < 3)%nat -> (b < 3)%nat -> SetEmat_LinearSolid3 lambda mu D w i j a b = Kf 3 lambda mu D w i j a b.
Proof. intros. unfold SetEmat_LinearSolid3, Kf. lt3 a; lt3 b; cbn [Nat.eqb]; rsums; ring. Qed.

Definition gr (nno : nat) (D u : vecf) (a k : nat) : R := rsum nno (fun i => u i a * D i k).
Lemma Kf_form : forall nno d lambda mu D w u v, form nno d (Kf d lambda mu D w) u v = w * work d lambda mu (gr nno D u) (gr nno D v).
Proof.
  intros nno d lambda mu D w u v. set (G := gr nno D u). set (H := gr nno D v).
  assert (E : form nno d (Kf d lambda mu D w) u v =
    w * (lambda * (trace d H * trace d G) + mu * (rsum d (fun a => rsum d (fun b => H a b * G b a)) + rsum d (fun a => rsum d (fun b => H a b * G a b))))).
  { transitivity (w * lambda * form nno d (fun i j a b => D i a * D j b) u v + w * mu * form nno d (fun i j a b => D i b * D j a) u v
       + w * mu * form nno d (fun i j a b => if (a =? b)%nat then rsum d (fun k => D i k * D j k) else 0) u v).
    - unfold form. rewrite <- !rsum_mull, <- !rsum_add. apply rsum_ext. intros i Hi. rewrite <- !rsum_mull, <- !rsum_add. apply rsum_ext. intros j Hj.
      rewrite <- !rsum_mull, <- !rsum_add. apply rsum_ext. intros a Ha. rewrite <- !rsum_mull, <- !rsum_add. apply rsum_ext. intros b Hb.
      unfold Kf. destruct (a =? b)%nat; ring.
    - assert (E1 : form nno d (fun i j a b => D i a * D j b) u v = trace d H * trace d G).
      { unfold trace, H, G, gr, form. rewrite (rsum_swap d nno), (rsum_swap d nno), <- rsum_mulr. apply rsum_ext. intros i Hi.
        rewrite <- rsum_mull. apply rsum_ext. intros j Hj. rewrite <- rsum_mulr. apply rsum_ext. intros a Ha. rewrite <- rsum_mull. apply rsum_ext. intros; ring. }
      assert (E2 : form nno d (fun i j a b => D i b * D j a) u v = rsum d (fun a => rsum d (fun b => H a b * G b a))).
      { unfold H, G, gr, form.
        transitivity (rsum d (fun a => rsum d (fun b => rsum nno (fun i => rsum nno (fun j => v i a * (D i b * D j a) * u j b))))).
        - transitivity (rsum nno (fun i => rsum d (fun a => rsum nno (fun j => rsum d (fun b => v i a * (D i b * D j a) * u j b))))).
          { apply rsum_ext. intros i Hi. apply rsum_swap. }
          rewrite rsum_swap. apply rsum_ext. intros a Ha.
          transitivity (rsum nno (fun i => rsum d (fun b => rsum nno (fun j => v i a * (D i b * D j a) * u j b)))).
          { apply rsum_ext. intros i Hi. apply rsum_swap. }
          apply rsum_swap.
        - apply rsum_ext. intros a Ha. apply rsum_ext. intros b Hb. rewrite <- rsum_mulr. apply rsum_ext. intros i Hi. rewrite <- rsum_mull. apply rsum_ext. intros; ring. }
      assert (E3 : form nno d (fun i j a b => if (a =? b)%nat then rsum d (fun k => D i k * D j k) else 0) u v = rsum d (fun a => rsum d (fun b => H a b * G a b))).
      { unfold H, G, gr, form.
        transitivity (rsum nno (fun i => rsum nno (fun j => rsum d (fun a => rsum d (fun k => v i a * (D i k * D j k) * u j a))))).
        - apply rsum_ext. intros i Hi. apply rsum_ext. intros j Hj. apply rsum_ext. intros a Ha.
          transitivity (rsum d (fun b => if (b =? a)%nat then rsum d (fun k => v i a * (D i k * D j k) * u j a) else 0)).
          + apply rsum_ext. intros b Hb. rewrite (Nat.eqb_sym b a). destruct (Nat.eqb_spec a b) as [<-|N]; [|ring].
            rewrite rsum_mulr, rsum_mull. ring.
          + apply (rsum_pick d a (fun _ => rsum d (fun k => v i a * (D i k * D j k) * u j a))); auto.
        - transitivity (rsum d (fun a => rsum d (fun k => rsum nno (fun i => rsum nno (fun j => v i a * (D i k * D j k) * u j a))))).
          + transitivity (rsum nno (fun i => rsum d (fun a => rsum nno (fun j => rsum d (fun k => v i a * (D i k * D j k) * u j a))))).
            { apply rsum_ext. intros i Hi. apply rsum_swap. }
            rewrite rsum_swap. apply rsum_ext. intros a Ha.
            transitivity (rsum nno (fun i => rsum d (fun k => rsum nno (fun j => v i a * (D i k * D j k) * u j a)))).
            { apply rsum_ext. intros i Hi. apply rsum_swap. }
            apply rsum_swap.
          + apply rsum_ext. intros a Ha. apply rsum_ext. intros b Hb. rewrite <- rsum_mulr. apply rsum_ext. intros i Hi. rewrite <- rsum_mull. apply rsum_ext. intros; ring. }
      rewrite E1, E2, E3. ring. }
  rewrite E. unfold work. f_equal.
  assert (E4 : rsum d (fun a => rsum d (fun b => strain G a b * strain H a b)) =
    / 2 * (rsum d (fun a => rsum d (fun b => H a b * G b a)) + rsum d (fun a => rsum d (fun b => H a b * G a b)))).
  { set (P := rsum d (fun a => rsum d (fun b => H a b * G b a))). set (Q := rsum d (fun a => rsum d (fun b => H a b * G a b))).
    assert (P' : rsum d (fun a => rsum d (fun b => H b a * G a b)) = P) by (unfold P; apply rsum_swap).
    assert (Q' : rsum d (fun a => rsum d (fun b => H b a * G b a)) = Q) by (unfold Q; apply rsum_swap).
    transitivity (/ 4 * P + / 4 * Q + / 4 * rsum d (fun a => rsum d (fun b => H b a * G a b)) + / 4 * rsum d (fun a => rsum d (fun b => H b a * G b a))).
    - unfold P, Q. rewrite <- !rsum_mull, <- !rsum_add. apply rsum_ext. intros a Ha. rewrite <- !rsum_mull, <- !rsum_add. apply rsum_ext. intros b Hb. unfold strain. field.
    - rewrite P', Q'. field. }
  rewrite E4. field.
Qed.
Lemma work_ext : forall d lambda mu G G' H H', (forall a k, (a < d)%nat -> (k < d)%nat -> G a k = G' a k) -> (forall a k, (a < d)%nat -> (k < d)%nat -> H a k = H' a k) ->
  work d lambda mu G H = work d lambda mu G' H'.
Proof.
  intros d lambda mu G G' H H' E1 E2. unfold work, trace, strain. rewrite (rsum_ext d (fun a => G a a) (fun a => G' a a)) by auto.
  rewrite (rsum_ext d (fun a => H a a) (fun a => H' a a)) by auto. f_equal. f_equal. apply rsum_ext. intros a Ha. apply rsum_ext. intros b Hb. rewrite !E1, !E2 by auto. auto.
Qed.

(** On an element of the mesh. *)
Definition DD (tet : bool) (c : vecf) : vecf := if tet then tetD c else triD c.
Notation lc tet X T e := (loc (ncor tet) (ndim tet) X T e).
Definition restr (nno : nat) (T : list nat) (e : nat) (u : nat -> nat -> R) : vecf := fun i a => u (nd nno T e i) a.
Lemma grad_gr : forall tet X T nT u G e, vgradients tet X T nT u G -> (e < nT)%nat -> size tet X T e <> 0 ->
  forall a k, (a < ndim tet)%nat -> (k < ndim tet)%nat -> G e a k = gr (ncor tet) (DD tet (lc tet X T e)) (restr (ncor tet) T e u) a k.
Proof.
  intros tet X T nT u G e HG He Hs a k Ha Hk. pose proof (grad_loc _ _ _ _ _ _ _ e (HG a Ha) He) as H. unfold gr, restr, DD.
  destruct tet; cbn [ncor ndim size] in *.
  - rewrite <- tetV_volume in Hs. apply (tet_grad _ _ _ Hs H k Hk).
  - rewrite <- triA_area in Hs. apply (tri_grad _ _ _ Hs H k Hk).
Qed.
Lemma elem_work : forall tet X T nT lambda mu u v Gu Gv e, vgradients tet X T nT u Gu -> vgradients tet X T nT v Gv -> (e < nT)%nat -> size tet X T e <> 0 ->
  form (ncor tet) (ndim tet) (Kf (ndim tet) lambda mu (DD tet (lc tet X T e)) (size tet X T e)) (restr (ncor tet) T e u) (restr (ncor tet) T e v)
  = size tet X T e * work (ndim tet) lambda mu (Gu e) (Gv e).
Proof.
  intros tet X T nT lambda mu u v Gu Gv e Hu Hv He Hs. rewrite Kf_form. f_equal. apply work_ext; intros a k Ha Hk; symmetry; eapply grad_gr; eauto.
Qed.
(** The consistent mass matrix. *)
Definition Mf (nno : nat) (w : R) : matf := fun i j a b => if (a =? b)%nat then w / (INR nno * INR (S nno)) * (if (i =? j)%nat then 2 else 1) else 0.
Lemma elem_mass : forall tet X T rho e u v,
  form (ncor tet) (ndim tet) (Mf (ncor tet) (rho * size tet X T e)) (restr (ncor tet) T e u) (restr (ncor tet) T e v) = rho * vmass tet X T e u v.
Proof.
  intros tet X T rho e u v. unfold vmass, mass, form, Mf. set (s := size tet X T e). clearbody s. unfold restr.
  transitivity (rsum (ndim tet) (fun a => rsum (ncor tet) (fun i => rsum (ncor tet) (fun j => v (nd (ncor tet) T e i) a * (rho * s / (INR (ncor tet) * INR (S (ncor tet))) * (if (i =? j)%nat then 2 else 1)) * u (nd (ncor tet) T e j) a)))).
  - transitivity (rsum (ncor tet) (fun i => rsum (ndim tet) (fun a => rsum (ncor tet) (fun j => v (nd (ncor tet) T e i) a * (rho * s / (INR (ncor tet) * INR (S (ncor tet))) * (if (i =? j)%nat then 2 else 1)) * u (nd (ncor tet) T e j) a)))); [|apply rsum_swap].
    apply rsum_ext. intros i Hi. rewrite rsum_swap. apply rsum_ext. intros a Ha. apply rsum_ext. intros j Hj.
    rewrite <- (rsum_pick (ndim tet) a (fun b => v (nd (ncor tet) T e i) a * (rho * s / (INR (ncor tet) * INR (S (ncor tet))) * (if (i =? j)%nat then 2 else 1)) * u (nd (ncor tet) T e j) b)) by auto.
    apply rsum_ext. intros b Hb. rewrite (Nat.eqb_sym b a). destruct (a =? b)%nat; ring.
  - rewrite <- rsum_mull. apply rsum_ext. intros a Ha. set (q := INR (ncor tet) * INR (S (ncor tet))).
    assert (q <> 0) by (unfold q; apply Rmult_integral_contrapositive_currified; apply not_0_INR; destruct tet; cbn; lia). clearbody q.
    destruct tet; cbn [ncor]; rsums; cbn [Nat.eqb]; field; auto.
Qed.
Lemma elem_lump : forall tet X T c e u v,
  form (ncor tet) (ndim tet) (fun i j a b => if ((i =? j) && (a =? b))%bool%nat then c * size tet X T e / INR (ncor tet) else 0) (restr (ncor tet) T e u) (restr (ncor tet) T e v)
  = c * lumped tet X T e u v.
Proof.
  intros tet X T c e u v. unfold lumped, form, restr. rewrite <- !rsum_mull. apply rsum_ext. intros i Hi. rewrite rsum_swap, <- !rsum_mull. apply rsum_ext. intros a Ha.
  rewrite <- (rsum_pick (ncor tet) i (fun j => c * (size tet X T e / INR (ncor tet) * (u (nd (ncor tet) T e j) a * v (nd (ncor tet) T e j) a)))) by auto.
  apply rsum_ext. intros j Hj. rewrite (Nat.eqb_sym j i). destruct (Nat.eqb_spec i j) as [<-|N]; cbn [andb].
  - rewrite <- (rsum_pick (ndim tet) a (fun b => c * (size tet X T e / INR (ncor tet) * (u (nd (ncor tet) T e i) b * v (nd (ncor tet) T e i) b)))) by auto.
    apply rsum_ext. intros b Hb. rewrite (Nat.eqb_sym b a). destruct (Nat.eqb_spec a b) as [<-|N]; [unfold Rdiv; ring|ring].
  - apply rsum_zero. intros; ring.
Qed.
Lemma elem_gravity : forall tet X T rho g e v,
  ldot (ncor tet) (ndim tet) (restr (ncor tet) T e v) (fun i a => rho * size tet X T e * g a / INR (ncor tet)) = rho * gravity tet X T e g v.
Proof.
  intros tet X T rho g e v. unfold ldot, gravity, mean, restr. rewrite rsum_swap, <- !rsum_mull. apply rsum_ext. intros a Ha.
  rewrite rsum_mulr. unfold Rdiv. ring.
Qed.
Lemma restr_vec : forall nno d l T e i a, (i < nno)%nat -> (a < d)%nat -> loc nno d l T e i a = restr nno T e (vec d l) i a.
Proof. intros. rewrite loc_cmp by auto. reflexivity. Qed.
