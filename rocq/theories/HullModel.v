(** Model of /repo/include/delfem2/geo_convhull2.h: ConvexHull2.  Real numbers stand for double.
    [srt] is std::sort: its result for a comparison that is no strict weak ordering is not specified. *)
From Coq Require Import List Arith Bool Reals.
Import ListNotations.
From Verif Require Import Imp PrModel PolyModel.
Open Scope R_scope.

(** geo_convhull2.h:32 *)
Definition EPSILON : R := / 100000000.

(** geo_convhull2.h:34-45, the point with the smallest y coordinate, the smallest x coordinate among these, the last one among equal points (None: the empty array is read) *)
Definition lowest (points : list pt) : option nat :=
  p <- vget points 0 ;;
  '(i, _) <- forn 1 (length points) (fun i '(p0_idx, p0) =>
    p <- vget points i ;;
    if ltR (snd p0) (snd p) then Some (p0_idx, p0) else
    if eqR (snd p) (snd p0) && ltR (fst p0) (fst p) then Some (p0_idx, p0) else
    Some (i, p)) (0%nat, p) ;;
  Some i.

(** geo_convhull2.h:48-56, the cosine of every other point (None: a point at the same place, 0/0) *)
Definition cosines (points : list pt) (p0_idx : nat) : option (list (nat * R)) :=
  forn 0 (length points) (fun i idxcos =>
    if (i =? p0_idx)%nat then Some idxcos else
    p <- vget points i ;;
    p0 <- vget points p0_idx ;;
    let dir := subp p p0 in
    assertb (negb (eqR (normp dir) 0)) ;;;
    Some (idxcos ++ [(i, dotp (1, 0) dir / normp dir)])) [].

(** geo_convhull2.h:59-70, the comparison.  The assertion on the indices is left out: they come from [cosines] *)
Definition hull_comp (points : list pt) (p0_idx : nat) (a b : nat * R) : bool :=
  if ltR EPSILON (Rabs (snd a - snd b)) then ltR (snd b) (snd a) else
  let d k := subp (nth k points (0, 0)) (nth p0_idx points (0, 0)) in
  ltR (dotp (d (fst b)) (d (fst b))) (dotp (d (fst a)) (d (fst a))).

(** geo_convhull2.h:75-79, the points on one ray.  [i] is the position of the iterator; std::next of an iterator at the end is undefined (None).  The iterator advances in every step, so that the length of the list bounds the steps *)
Fixpoint collinear (fuel i : nat) (l : list (nat * R)) : option (list (nat * R)) :=
  match fuel with
  | O => None
  | S fuel =>
      if (length l <=? i)%nat then None else
      if (i + 1 =? length l)%nat then Some l else
      a <- vget l i ;;
      b <- vget l (i + 1) ;;
      collinear fuel (i + 1) (if ltR (Rabs (snd a - snd b)) EPSILON then firstn (i + 1) l ++ skipn (i + 2) l else l)
  end.

(** geo_convhull2.h:89-99, the inner loop for the point [p3]; the stack has its top first.  None: point_idxs[stack_top-1] below the bottom *)
Fixpoint pops (points : list pt) (p3 : nat) (stack : list nat) : option (list nat) :=
  match stack with
  | p2 :: ((p1 :: _) as rest) =>
      x1 <- vget points p1 ;;
      x2 <- vget points p2 ;;
      x3 <- vget points p3 ;;
      let p1p2 := subp x2 x1 in
      let p1p3 := subp x3 x1 in
      if negb (ltR 0 (fst p1p2 * snd p1p3 - snd p1p2 * fst p1p3)) then pops points p3 rest else Some stack
  | _ => None
  end.

(** geo_convhull2.h:27-103 *)
Definition ConvexHull2 (srt : (nat * R -> nat * R -> bool) -> list (nat * R) -> list (nat * R)) (points : list pt) : option (list nat) :=
  p0_idx <- lowest points ;;
  idxcos <- cosines points p0_idx ;;
  let idxcos := srt (hull_comp points p0_idx) idxcos in
  idxcos <- collinear (S (length idxcos)) 1 idxcos ;;
  let idxcos := idxcos ++ [(p0_idx, 0)] in
  first <- vget idxcos 0 ;;
  stack <- foldM (fun p3 stack => s <- pops points (fst p3) stack ;; Some (fst p3 :: s)) (tl idxcos) [fst first; p0_idx] ;;
  Some (rev stack).
