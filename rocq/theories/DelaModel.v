(** Model of the Delaunay part of /repo/include/delfem2/dtri2_v2dtri.cpp (and DetDelaunay of vec2.cpp).  Real numbers stand for
    double; triangle and point links as in DtriModel; a failed assertion, abort or out-of-range access is [None]. *)
From Coq Require Import List Arith Bool Reals.
Import ListNotations.
From Verif Require Import Imp PrModel PolyModel DtriModel.
Open Scope R_scope.

(** vec2.cpp:316-321 *)
Definition SquareDistance (a b : pt) : R := (fst a - fst b) * (fst a - fst b) + (snd a - snd b) * (snd a - snd b).
Definition pten (n : nat) : R := / (10 ^ n).

(** vec2.cpp:386-421 *)
Definition DetDelaunay (p0 p1 p2 p3 : pt) : nat :=
  let area := Area_Tri2 p0 p1 p2 in
  if ltR (Rabs area) (pten 10) then 3%nat else
  let tmp_val := 1 / (area * area * 16) in
  let dtmp0 := SquareDistance p1 p2 in
  let dtmp1 := SquareDistance p0 p2 in
  let dtmp2 := SquareDistance p0 p1 in
  let etmp0 := tmp_val * dtmp0 * (dtmp1 + dtmp2 - dtmp0) in
  let etmp1 := tmp_val * dtmp1 * (dtmp0 + dtmp2 - dtmp1) in
  let etmp2 := tmp_val * dtmp2 * (dtmp0 + dtmp1 - dtmp2) in
  let out_center : pt := (etmp0 * fst p0 + etmp1 * fst p1 + etmp2 * fst p2, etmp0 * snd p0 + etmp1 * snd p1 + etmp2 * snd p2) in
  let qradius := SquareDistance out_center p0 in
  let qdistance := SquareDistance out_center p3 in
  if ltR (qradius * (1 + pten 20)) qdistance then 2%nat
  else if ltR qdistance (qradius * (1 - pten 20)) then 0%nat else 1%nat.

(** dtri2_v2dtri.cpp:190-201 (the same lines again at 220-231): the triangle behind the edge opposite to the corner, if the edge
    has to be flipped *)
Definition delaunay_test (itri0 ino0 : nat) (aTri : list dtri) (aVec2 : list pt) : option (option nat) :=
  t <- vget aTri itri0 ;;
  s <- gs t ino0 ;;
  match s with
  | None => Some None
  | Some jtri0 =>
    if negb (jtri0 <? length aTri)%nat then Some None else
    jno0 <- FindAdjEdgeIndex t ino0 aTri ;;
    tj <- vget aTri jtri0 ;;
    b <- gs tj jno0 ;; assertb (onat_eq b (Some itri0)) ;;;
    jpo0 <- gv tj jno0 ;;
    p0 <- vget aVec2 (tv0 t) ;; p1 <- vget aVec2 (tv1 t) ;; p2 <- vget aVec2 (tv2 t) ;; p3 <- vget aVec2 jpo0 ;;
    if (DetDelaunay p0 p1 p2 p3 =? 0)%nat then Some (Some jtri0) else Some None
  end.

(** the assertion at the head of both loops, dtri2_v2dtri.cpp:189 and 219 *)
Definition at_corner (itri0 ino0 ipo0 : nat) (aTri : list dtri) : option unit :=
  assertb ((itri0 <? length aTri) && (ino0 <? 3))%nat ;;;
  t <- vget aTri itri0 ;; x <- gv t ino0 ;; assertb (x =? ipo0)%nat.

(** dtri2_v2dtri.cpp:166-242.  Fuel: (n+1)(n+2) turns of each loop for n triangles. *)
Definition dela_ccw (ipo0 : nat) (aVec2 : list pt) (st : (nat * nat) * (list dpnt * list dtri) * bool)
    : option ((nat * nat) * (list dpnt * list dtri) * bool * bool) :=
  let '((itri0, ino0), (aPo, aTri), wall) := st in
  at_corner itri0 ino0 ipo0 aTri ;;;
  r <- delaunay_test itri0 ino0 aTri aVec2 ;;
  match r with
  | Some _ =>
    '(_, (aPo, aTri)) <- FlipEdge itri0 ino0 aPo aTri ;;
    t <- vget aTri itri0 ;; x <- gv t 2 ;; assertb (x =? ipo0)%nat ;;;
    Some ((itri0, 2%nat), (aPo, aTri), wall, false)
  | None =>
    c <- MoveCCW itri0 ino0 None aTri ;;
    match c with
    | None => Some ((itri0, ino0), (aPo, aTri), true, true)
    | Some (it, ino) =>
      p <- vget aPo ipo0 ;;
      Some ((it, ino), (aPo, aTri), wall, onat_eq (Some it) (pe p))
    end
  end.
Definition dela_cw (ipo0 : nat) (aVec2 : list pt) (st : (nat * nat) * (list dpnt * list dtri))
    : option ((nat * nat) * (list dpnt * list dtri) * bool) :=
  let '((itri0, ino0), (aPo, aTri)) := st in
  at_corner itri0 ino0 ipo0 aTri ;;;
  r <- delaunay_test itri0 ino0 aTri aVec2 ;;
  match r with
  | Some jtri0 =>
    '(_, (aPo, aTri)) <- FlipEdge itri0 ino0 aPo aTri ;;
    t <- vget aTri jtri0 ;; x <- gv t 1 ;; assertb (x =? ipo0)%nat ;;;
    Some ((jtri0, 1%nat), (aPo, aTri), false)
  | None =>
    c <- MoveCW itri0 ino0 None aTri ;;
    match c with
    | None => Some ((itri0, ino0), (aPo, aTri), true)
    | Some c => Some (c, (aPo, aTri), false)
    end
  end.
Definition dela_fuel (aTri : list dtri) : nat := (S (length aTri) * S (S (length aTri)))%nat.
Definition DelaunayAroundPoint (ipo0 : nat) (aPo : list dpnt) (aTri : list dtri) (aVec2 : list pt) : option (list dpnt * list dtri) :=
  assertb (length aVec2 =? length aPo)%nat ;;;
  assertb (ipo0 <? length aPo)%nat ;;;
  p <- vget aPo ipo0 ;;
  match pe p with
  | None => Some (aPo, aTri)
  | Some itri0 =>
    '(c, st, wall) <- loopf (dela_fuel aTri) (dela_ccw ipo0 aVec2) ((itri0, pd p), (aPo, aTri), false) ;;
    if negb wall then Some st else
    '(_, st) <- loopf (dela_fuel aTri) (dela_cw ipo0 aVec2) (c, st) ;;
    Some st
  end.

(** dtri2_v2dtri.cpp:21-41.  Returns the Boolean and the new coordinates.  Fuel: number of triangles plus one. *)
Definition LaplacianArroundPoint (aVec2 : list pt) (ipoin : nat) (aPo : list dpnt) (aTri : list dtri) : option (bool * list pt) :=
  assertb (length aVec2 =? length aPo)%nat ;;;
  p <- vget aPo ipoin ;;
  itri_ini <- pe p ;;
  v0 <- vget aVec2 ipoin ;;
  '(_, (d, n, ok)) <- loopf (S (length aTri)) (fun st =>
    let '((itri0, ino0), (d, n, _)) := st in
    assertb ((itri0 <? length aTri) && (ino0 <? 3))%nat ;;;
    t <- vget aTri itri0 ;; x <- gv t ino0 ;; assertb (x =? ipoin)%nat ;;;
    q <- gv t ((ino0 + 1) mod 3)%nat ;; vq <- vget aVec2 q ;;
    let d : pt := (fst d + fst vq, snd d + snd vq) in
    let n := S n in
    c <- MoveCCW itri0 ino0 None aTri ;;
    match c with
    | None => Some (((itri0, ino0), (d, n, false)), true)
    | Some (it, ino) => Some (((it, ino), (d, n, true)), (it =? itri_ini)%nat)
    end) ((itri_ini, pd p), (v0, 1%nat, false)) ;;
  if ok : bool then
    aVec2 <- vset aVec2 ipoin (fst d / INR n, snd d / INR n) ;; Some (true, aVec2)
  else Some (false, aVec2).

(** dtri2_v2dtri.cpp:306-351.  [resize] leaves new entries to be overwritten. *)
Definition MakeSuperTriangle (aVec2 : list pt) (aPo2D : list dpnt) (b0 b1 b2 b3 : R) : option (list pt * list dpnt * list dtri) :=
  assertb (length aVec2 =? length aPo2D)%nat ;;;
  let max_len := if ltR (b3 - b2) (b1 - b0) then b1 - b0 else b3 - b2 in
  let center0 := (b1 + b0) * (1 / 2) in
  let center1 := (b3 + b2) * (1 / 2) in
  let tri_len := max_len * 4 in
  let tmp_len := tri_len * sqrt 3 / 6 in
  let npo := length aPo2D in
  Some (aVec2 ++ [(center0, center1 + 2 * tmp_len); (center0 - 1 / 2 * tri_len, center1 - tmp_len); (center0 + 1 / 2 * tri_len, center1 - tmp_len)],
        aPo2D ++ [mkP (Some 0%nat) 0; mkP (Some 0%nat) 1; mkP (Some 0%nat) 2],
        [mkT npo (npo + 1) (npo + 2) None None None]).

(** dtri2_v2dtri.cpp:366-412: what the loop decides for one triangle *)
Inductive verdict := VNext | VReturn | VInside | VEdge (ied : nat).
Definition add_try (aVec2 : list pt) (aTri : list dtri) (po_add : pt) (mn : R) (itri : nat) : option verdict :=
  t <- vget aTri itri ;;
  v0 <- vget aVec2 (tv0 t) ;; v1 <- vget aVec2 (tv1 t) ;; v2 <- vget aVec2 (tv2 t) ;;
  let '(f1, f2) := (0, 0)%nat in
  let '(f1, f2) := if ltR mn (Area_Tri2 po_add v1 v2) then (f1 + 1, f2 + 0)%nat else (f1, f2) in
  let '(f1, f2) := if ltR mn (Area_Tri2 po_add v2 v0) then (f1 + 1, f2 + 1)%nat else (f1, f2) in
  let '(f1, f2) := if ltR mn (Area_Tri2 po_add v0 v1) then (f1 + 1, f2 + 2)%nat else (f1, f2) in
  if (f1 =? 3)%nat then Some VInside
  else if (f1 =? 2)%nat then
    let ied0 := (3 - f2)%nat in
    ipo_e0 <- gv t ((ied0 + 1) mod 3)%nat ;;
    ipo_e1 <- gv t ((ied0 + 2) mod 3)%nat ;;
    s <- gs t ied0 ;;
    match s with
    | None => Some VReturn
    | Some itri_s =>
      jno0 <- FindAdjEdgeIndex t ied0 aTri ;;
      ts <- vget aTri itri_s ;;
      a <- gv ts ((jno0 + 2) mod 3)%nat ;; assertb (a =? ipo_e0)%nat ;;;
      b <- gv ts ((jno0 + 1) mod 3)%nat ;; assertb (b =? ipo_e1)%nat ;;;
      l <- gs ts jno0 ;; assertb (onat_eq l (Some itri)) ;;;
      ipo_d <- gv ts jno0 ;;
      va <- gv t ied0 ;;
      e0 <- vget aVec2 ipo_e0 ;; e1 <- vget aVec2 ipo_e1 ;; d <- vget aVec2 ipo_d ;; a <- vget aVec2 va ;;
      assertb (ltR mn (Area_Tri2 po_add e1 a)) ;;;
      assertb (ltR mn (Area_Tri2 po_add a e0)) ;;;
      if ltR (Area_Tri2 po_add e0 d) mn then Some VNext else
      if ltR (Area_Tri2 po_add d e1) mn then Some VNext else
      let det_d := DetDelaunay po_add e0 e1 d in
      if ((det_d =? 2) || (det_d =? 1))%nat then Some VNext else Some (VEdge ied0)
    end
  else Some VNext.
(** dtri2_v2dtri.cpp:353-423 *)
Definition AddPointsMesh (aVec2 : list pt) (aPo2D : list dpnt) (aTri : list dtri) (ipoin : nat) (mn : R) : option (list dpnt * list dtri) :=
  assertb (length aPo2D =? length aVec2)%nat ;;;
  p <- vget aPo2D ipoin ;;
  match pe p with
  | Some _ => Some (aPo2D, aTri)
  | None =>
    po_add <- vget aVec2 ipoin ;;
    '(it, v) <- forb 0 (length aTri) (fun itri _ =>
      v <- add_try aVec2 aTri po_add mn itri ;;
      Some ((itri, v), match v with VNext => false | _ => true end)) (0%nat, VNext) ;;
    match v with
    | VNext => None          (* abort *)
    | VReturn => Some (aPo2D, aTri)
    | VInside => InsertPoint_Elem ipoin it aPo2D aTri
    | VEdge ied => InsertPoint_ElemEdge ipoin it ied aPo2D aTri
    end
  end.

(** dtri2_v2dtri.cpp:636-672.  [minmax] is the running bounding box. *)
Definition Meshing_Initialize (aVec2 : list pt) : option (list dpnt * list dtri * list pt) :=
  let aPo2D := repeat (mkP None 0) (length aVec2) in
  p0 <- vget aVec2 0 ;;
  '(b0, b1, b2, b3) <- forn 1 (length aPo2D) (fun ip b =>
    let '(b0, b1, b2, b3) := b in
    v <- vget aVec2 ip ;;
    Some (if ltR (fst v) b0 then fst v else b0, if ltR b1 (fst v) then fst v else b1,
          if ltR (snd v) b2 then snd v else b2, if ltR b3 (snd v) then snd v else b3))
    (fst p0, fst p0, snd p0, snd p0) ;;
  '(aVec2, aPo2D, aTri) <- MakeSuperTriangle aVec2 aPo2D b0 b1 b2 b3 ;;
  '(aPo2D, aTri) <- forn 0 (length aPo2D - 3) (fun ip st =>
    let '(aPo2D, aTri) := st in
    '(aPo2D, aTri) <- AddPointsMesh aVec2 aPo2D aTri ip (pten 10) ;;
    DelaunayAroundPoint ip aPo2D aTri aVec2) (aPo2D, aTri) ;;
  Some (aPo2D, aTri, aVec2).
