(** Model of AssertDTri, AssertMeshDTri and extractHoles (/repo/include/delfem2/dtri_topology.cpp), with assertions on.  Same
    conventions as DtriModel. *)
From Coq Require Import List Arith Bool.
Import ListNotations.
From Verif Require Import Imp DtriModel.

(** dtri_topology.cpp:517-528: one edge of one triangle *)
Definition AssertDTri_edge (aTri : list dtri) (itri iedtri : nat) : option unit :=
  tri <- vget aTri itri ;;
  s <- gs tri iedtri ;;
  match s with
  | None => Some tt
  | Some jtri =>
    assertb (jtri <? length aTri) ;;;
    jno <- FindAdjEdgeIndex tri iedtri aTri ;;
    tj <- vget aTri jtri ;;
    l <- gs tj jno ;; assertb (onat_eq l (Some itri)) ;;;
    a <- gv tri ((iedtri + 1) mod 3) ;; b <- gv tj ((jno + 2) mod 3) ;; assertb (a =? b) ;;;
    a <- gv tri ((iedtri + 2) mod 3) ;; b <- gv tj ((jno + 1) mod 3) ;; assertb (a =? b) ;;;
    Some tt
  end.
(** dtri_topology.cpp:503-531.  The exemption for triangles whose corners are UINT_MAX is left out: corners are numbers. *)
Definition AssertDTri (aTri : list dtri) : option unit :=
  forn 0 (length aTri) (fun itri _ =>
    tri <- vget aTri itri ;;
    assertb (negb (tv0 tri =? tv1 tri)) ;;;
    assertb (negb (tv1 tri =? tv2 tri)) ;;;
    assertb (negb (tv2 tri =? tv0 tri)) ;;;
    assertb (negb (onat_eq (ts0 tri) (ts1 tri)) || onat_eq (ts0 tri) None) ;;;
    assertb (negb (onat_eq (ts1 tri) (ts2 tri)) || onat_eq (ts1 tri) None) ;;;
    assertb (negb (onat_eq (ts2 tri) (ts0 tri)) || onat_eq (ts0 tri) None) ;;;
    forn 0 3 (fun iedtri _ => AssertDTri_edge aTri itri iedtri) tt) tt.

(** dtri_topology.cpp:533-553.  The three assertions of the first loop all look at corner 0. *)
Definition AssertMeshDTri (aPo : list dpnt) (aTri : list dtri) : option unit :=
  _ <- forn 0 (length aTri) (fun itri _ =>
    tri <- vget aTri itri ;;
    assertb (tv0 tri <? length aPo) ;;; assertb (tv0 tri <? length aPo) ;;; assertb (tv0 tri <? length aPo) ;;; Some tt) tt ;;
  forn 0 (length aPo) (fun ipoin _ =>
    p <- vget aPo ipoin ;;
    match pe p with
    | None => Some tt
    | Some itri0 =>
      assertb (itri0 <? length aTri) ;;; assertb (pd p <? 3) ;;;
      t <- vget aTri itri0 ;; v <- gv t (pd p) ;; assertb (v =? ipoin) ;;; Some tt
    end) tt.

(** dtri_topology.cpp:885-896: the multimap of boundary edges, in insertion order, and the marks.  The C++ flags are ints, with
    0 = not on the boundary, 1 = on the boundary, 2 = already in a hole. *)
Definition hole_edges (npo : nat) (aTri : list dtri) : option (list (nat * nat) * list nat) :=
  foldM (fun tri st => forn 0 3 (fun ino st =>
    let '(mp, flg) := st in
    s <- gs tri ino ;;
    match s with
    | Some _ => Some (mp, flg)
    | None =>
      ip0 <- gv tri ((ino + 1) mod 3) ;;
      ip1 <- gv tri ((ino + 2) mod 3) ;;
      flg <- vset flg ip0 1 ;; flg <- vset flg ip1 1 ;;
      Some (mp ++ [(ip0, ip1)], flg)
    end) st) aTri ([], repeat 0 npo).

(** [mapConnection.equal_range(ip)]: the values of a key, in insertion order *)
Definition hole_next (mp : list (nat * nat)) (ip : nat) : list nat := map snd (filter (fun e => fst e =? ip) mp).

(** dtri_topology.cpp:900-906: the first point with flag 1 *)
Definition hole_seed (npo : nat) (flg : list nat) : option (option nat) :=
  forb 0 npo (fun ipo r => f <- vget flg ipo ;; if f =? 1 then Some (Some ipo, true) else Some (r, false)) None.

(** dtri_topology.cpp:907-926: one hole.  The stack is a list with the top first.  Fuel: one step per stack entry; entries are
    the seed and one per boundary edge. *)
Definition hole_walk (mp : list (nat * nat)) (seed : nat) (flg : list nat) : option (list nat * list nat) :=
  '(_, hole, flg) <- whilef (S (length mp)) (fun st => match fst (fst st) with [] => false | _ => true end) (fun st =>
    let '(stk, hole, flg) := st in
    match stk with
    | [] => None
    | ip0 :: stk =>
      f <- vget flg ip0 ;;
      if negb (f =? 1) then Some (stk, hole, flg) else
      flg <- vset flg ip0 2 ;;
      Some (rev (hole_next mp ip0) ++ stk, hole ++ [ip0], flg)
    end) ([seed], [], flg) ;;
  Some (hole, flg).

(** dtri_topology.cpp:876-929 *)
Definition extractHoles (npo : nat) (aTri : list dtri) : option (list (list nat)) :=
  '(mp, flg) <- hole_edges npo aTri ;;
  match mp with
  | [] => Some []
  | _ =>
    '(holes, _) <- forb 0 npo (fun _ st =>
      let '(holes, flg) := st in
      s <- hole_seed npo flg ;;
      match s with
      | None => Some (st, true)
      | Some ip =>
        '(hole, flg) <- hole_walk mp ip flg ;;
        Some ((holes ++ [hole], flg), false)
      end) ([], flg) ;;
    Some holes
  end.
