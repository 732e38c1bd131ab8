(** Model of /repo/include/delfem2/dtri_topology.{h,cpp}: dynamic triangle meshes.
    UINT_MAX links are [None]; indices are [nat]. *)
From Coq Require Import List Arith Bool.
Import ListNotations.
From Verif Require Import Imp JagModel.

(** dtri_topology.h:24-42, class CDynTri: three vertex numbers [v[3]] and three links [s2[3]]. *)
Record dtri := mkT { tv0 : nat; tv1 : nat; tv2 : nat; ts0 : option nat; ts1 : option nat; ts2 : option nat }.

(** dtri_topology.h:44-60, class CDynPntSur. *)
Record dpnt := mkP { pe : option nat; pd : nat }.

(** Array accesses [t.v[i]], [t.s2[i]] with 3 <= i undefined. *)
Definition gv (t : dtri) (i : nat) : option nat :=
  match i with 0 => Some (tv0 t) | 1 => Some (tv1 t) | 2 => Some (tv2 t) | _ => None end.
Definition gs (t : dtri) (i : nat) : option (option nat) :=
  match i with 0 => Some (ts0 t) | 1 => Some (ts1 t) | 2 => Some (ts2 t) | _ => None end.
Definition ss (t : dtri) (i : nat) (w : option nat) : option dtri :=
  match i with
  | 0 => Some (mkT (tv0 t) (tv1 t) (tv2 t) w (ts1 t) (ts2 t))
  | 1 => Some (mkT (tv0 t) (tv1 t) (tv2 t) (ts0 t) w (ts2 t))
  | 2 => Some (mkT (tv0 t) (tv1 t) (tv2 t) (ts0 t) (ts1 t) w)
  | _ => None
  end.
(** [aTri[j].s2[i] = w] *)
Definition set_s2 (aTri : list dtri) (j i : nat) (w : option nat) : option (list dtri) :=
  t <- vget aTri j ;; t <- ss t i w ;; vset aTri j t.
(** A freshly value-initialised element created by [aTri.resize]. *)
Definition dtri0 := mkT 0 0 0 (Some 0) (Some 0) (Some 0).

Definition onat_eq (a b : option nat) : bool :=
  match a, b with Some x, Some y => x =? y | None, None => true | _, _ => false end.

(** dtri_topology.cpp:663-677. *)
Definition FindAdjEdgeIndex (t0 : dtri) (ied0 : nat) (aTri : list dtri) : option nat :=
  iv0 <- gv t0 ((ied0 + 1) mod 3) ;;
  iv1 <- gv t0 ((ied0 + 2) mod 3) ;;
  assertb (negb (iv0 =? iv1)) ;;;
  l <- gs t0 ied0 ;;
  it1 <- l ;;                                     (* assert(it1 != UINT_MAX) *)
  t1 <- vget aTri it1 ;;
  if (tv1 t1 =? iv1) && (tv2 t1 =? iv0) then Some 0 else
  if (tv2 t1 =? iv1) && (tv0 t1 =? iv0) then Some 1 else
  if (tv0 t1 =? iv1) && (tv1 t1 =? iv0) then Some 2 else
  None.                                           (* assert(false) *)

(** The recurring statement
    [if (old.s2[i] != UINT_MAX) { jt0 = old.s2[i]; assert(jt0 < aTri.size());
       jno0 = FindAdjEdgeIndex(old,i,aTri); aTri[jt0].s2[jno0] = w; }]
    (dtri_topology.cpp:198-203, 214-219, 230-235, 246-251, 286-291, 302-307, 318-323, 394-399, 400-405). *)
Definition relink (old : dtri) (i w : nat) (aTri : list dtri) : option (list dtri) :=
  l <- gs old i ;;
  match l with
  | None => Some aTri
  | Some jt0 =>
    assertb (jt0 <? length aTri) ;;;
    jno0 <- FindAdjEdgeIndex old i aTri ;;
    set_s2 aTri jt0 jno0 (Some w)
  end.

(** dtri_topology.cpp:142-254. *)
Definition InsertPoint_ElemEdge (ipo_ins itri_ins ied_ins : nat) (aPo : list dpnt) (aTri : list dtri)
    : option (list dpnt * list dtri) :=
  assertb (itri_ins <? length aTri) ;;;
  assertb (ipo_ins <? length aPo) ;;;
  tA <- vget aTri itri_ins ;;
  l <- gs tA ied_ins ;;
  itri_adj <- l ;;                                (* assert(s2 != UINT_MAX) *)
  ied_adj <- FindAdjEdgeIndex tA ied_ins aTri ;;
  assertb (itri_adj <? length aTri) ;;;
  let itri0 := itri_ins in
  let itri1 := itri_adj in
  let itri2 := length aTri in
  let itri3 := length aTri + 1 in
  let aTri := aTri ++ [dtri0; dtri0] in
  oldA <- vget aTri itri_ins ;;
  oldB <- vget aTri itri_adj ;;
  let inoA0 := ied_ins in
  let inoA1 := (ied_ins + 1) mod 3 in
  let inoA2 := (ied_ins + 2) mod 3 in
  let inoB0 := ied_adj in
  let inoB1 := (ied_adj + 1) mod 3 in
  let inoB2 := (ied_adj + 2) mod 3 in
  a0 <- gv oldA inoA0 ;; a1 <- gv oldA inoA1 ;; a2 <- gv oldA inoA2 ;;
  b0 <- gv oldB inoB0 ;; b1 <- gv oldB inoB1 ;; b2 <- gv oldB inoB2 ;;
  sa0 <- gs oldA inoA0 ;; sa1 <- gs oldA inoA1 ;; sa2 <- gs oldA inoA2 ;;
  sb0 <- gs oldB inoB0 ;; sb1 <- gs oldB inoB1 ;; sb2 <- gs oldB inoB2 ;;
  assertb (a1 =? b2) ;;;
  assertb (a2 =? b1) ;;;
  assertb (onat_eq sa0 (Some itri1)) ;;;
  assertb (onat_eq sb0 (Some itri0)) ;;;
  aPo <- vset aPo ipo_ins (mkP (Some itri0) 0) ;;
  aPo <- vset aPo a2 (mkP (Some itri0) 1) ;;
  aPo <- vset aPo a0 (mkP (Some itri1) 1) ;;
  aPo <- vset aPo b2 (mkP (Some itri2) 1) ;;
  aPo <- vset aPo b0 (mkP (Some itri3) 1) ;;
  aTri <- vset aTri itri0 (mkT ipo_ins a2 a0 sa1 (Some itri1) (Some itri3)) ;;
  aTri <- relink oldA inoA1 itri0 aTri ;;
  aTri <- vset aTri itri1 (mkT ipo_ins a0 a1 sa2 (Some itri2) (Some itri0)) ;;
  aTri <- relink oldA inoA2 itri1 aTri ;;
  aTri <- vset aTri itri2 (mkT ipo_ins b2 b0 sb1 (Some itri3) (Some itri1)) ;;
  aTri <- relink oldB inoB1 itri2 aTri ;;
  aTri <- vset aTri itri3 (mkT ipo_ins b0 b1 sb2 (Some itri0) (Some itri2)) ;;
  aTri <- relink oldB inoB2 itri3 aTri ;;
  Some (aPo, aTri).

(** dtri_topology.cpp:256-329. *)
Definition InsertPoint_Elem (ipo_ins itri_ins : nat) (aPo : list dpnt) (aTri : list dtri)
    : option (list dpnt * list dtri) :=
  assertb (itri_ins <? length aTri) ;;;
  assertb (ipo_ins <? length aPo) ;;;
  let itA := itri_ins in
  let itB := length aTri in
  let itC := length aTri + 1 in
  let aTri := aTri ++ [dtri0; dtri0] in
  old <- vget aTri itri_ins ;;
  aPo <- vset aPo ipo_ins (mkP (Some itA) 0) ;;
  aPo <- vset aPo (tv0 old) (mkP (Some itB) 2) ;;
  aPo <- vset aPo (tv1 old) (mkP (Some itC) 2) ;;
  aPo <- vset aPo (tv2 old) (mkP (Some itA) 2) ;;
  aTri <- vset aTri itA (mkT ipo_ins (tv1 old) (tv2 old) (ts0 old) (Some itB) (Some itC)) ;;
  aTri <- relink old 0 itA aTri ;;
  aTri <- vset aTri itB (mkT ipo_ins (tv2 old) (tv0 old) (ts1 old) (Some itC) (Some itA)) ;;
  aTri <- relink old 1 itB aTri ;;
  aTri <- vset aTri itC (mkT ipo_ins (tv0 old) (tv1 old) (ts2 old) (Some itA) (Some itB)) ;;
  aTri <- relink old 2 itC aTri ;;
  Some (aPo, aTri).

(** dtri_topology.cpp:331-412.  The Boolean is the C++ return value. *)
Definition FlipEdge (itriA ied0 : nat) (aPo : list dpnt) (aTri : list dtri)
    : option (bool * (list dpnt * list dtri)) :=
  assertb ((itriA <? length aTri) && (ied0 <? 3)) ;;;
  oldA <- vget aTri itriA ;;
  l <- gs oldA ied0 ;;
  match l with
  | None => Some (false, (aPo, aTri))
  | Some itriB =>
    assertb (itriB <? length aTri) ;;;
    ied1 <- FindAdjEdgeIndex oldA ied0 aTri ;;
    assertb (ied1 <? 3) ;;;
    oldB <- vget aTri itriB ;;
    lb <- gs oldB ied1 ;;
    assertb (onat_eq lb (Some itriA)) ;;;
    let noA0 := ied0 in
    let noA1 := (ied0 + 1) mod 3 in
    let noA2 := (ied0 + 2) mod 3 in
    let noB0 := ied1 in
    let noB1 := (ied1 + 1) mod 3 in
    let noB2 := (ied1 + 2) mod 3 in
    a0 <- gv oldA noA0 ;; a1 <- gv oldA noA1 ;; a2 <- gv oldA noA2 ;;
    b0 <- gv oldB noB0 ;; b1 <- gv oldB noB1 ;; b2 <- gv oldB noB2 ;;
    sa1 <- gs oldA noA1 ;; sa2 <- gs oldA noA2 ;;
    sb1 <- gs oldB noB1 ;; sb2 <- gs oldB noB2 ;;
    assertb (a1 =? b2) ;;;
    assertb (a2 =? b1) ;;;
    aPo <- vset aPo a1 (mkP (Some itriA) 0) ;;
    aPo <- vset aPo a0 (mkP (Some itriA) 2) ;;
    aPo <- vset aPo b1 (mkP (Some itriB) 0) ;;
    aPo <- vset aPo b0 (mkP (Some itriB) 2) ;;
    aTri <- vset aTri itriA (mkT a1 b0 a0 (Some itriB) sa2 sb1) ;;
    assertb (negb (onat_eq sa2 (Some itriB)) && negb (onat_eq sa2 (Some itriA))) ;;;
    aTri <- relink oldA noA2 itriA aTri ;;
    assertb (negb (onat_eq sb1 (Some itriB)) && negb (onat_eq sb1 (Some itriA))) ;;;
    aTri <- relink oldB noB1 itriA aTri ;;
    aTri <- vset aTri itriB (mkT b1 a0 b0 (Some itriA) sb2 sa1) ;;
    aTri <- relink oldB noB2 itriB aTri ;;
    aTri <- relink oldA noA1 itriB aTri ;;
    Some (true, (aPo, aTri))
  end.

(** dtri_topology.cpp:596-611.  [None]: undefined; [Some None]: returns false; [itri_adj] is the sentinel tested for. *)
Definition MoveCCW (itri_cur inotri_cur : nat) (itri_adj : option nat) (aTri : list dtri) : option (option (nat * nat)) :=
  t <- vget aTri itri_cur ;;
  let inotri1 := (inotri_cur + 1) mod 3 in
  l <- gs t inotri1 ;;
  if onat_eq l itri_adj then Some None else
  itri_nex <- l ;;                                (* assert(itri_nex < aTri.size()) *)
  tn <- vget aTri itri_nex ;;
  ino2 <- FindAdjEdgeIndex t inotri1 aTri ;;
  let inotri_nex := (ino2 + 1) mod 3 in
  a <- gv t inotri_cur ;; b <- gv tn inotri_nex ;;
  assertb (a =? b) ;;;
  Some (Some (itri_nex, inotri_nex)).

(** dtri_topology.cpp:613-628. *)
Definition MoveCW (itri_cur inotri_cur : nat) (itri_adj : option nat) (aTri : list dtri) : option (option (nat * nat)) :=
  t <- vget aTri itri_cur ;;
  let inotri1 := (inotri_cur + 2) mod 3 in
  l <- gs t inotri1 ;;
  if onat_eq l itri_adj then Some None else
  itri_nex <- l ;;
  tn <- vget aTri itri_nex ;;
  ino2 <- FindAdjEdgeIndex t inotri1 aTri ;;
  let inotri_nex := (ino2 + 2) mod 3 in
  a <- gv t inotri_cur ;; b <- gv tn inotri_nex ;;
  assertb (a =? b) ;;;
  Some (Some (itri_nex, inotri_nex)).

(** dtri_topology.cpp:630-661. *)
Definition DeleteTri (itri_to : nat) (aPo : list dpnt) (aTri : list dtri) : option (list dpnt * list dtri) :=
  if length aTri <=? itri_to then Some (aPo, aTri) else
  td <- vget aTri itri_to ;;
  assertb (onat_eq (ts0 td) None && onat_eq (ts1 td) None && onat_eq (ts2 td) None) ;;;
  let itri_from := length aTri - 1 in
  if itri_to =? itri_from then Some (aPo, removelast aTri) else
  tf <- vget aTri itri_from ;;
  aTri <- vset aTri itri_to tf ;;
  let aTri := removelast aTri in
  aTri <- forn 0 3 (fun iedtri aTri =>
      t <- vget aTri itri_to ;;
      l <- gs t iedtri ;;
      match l with
      | None => Some aTri
      | Some itri_adj =>
        iedtri_adj <- FindAdjEdgeIndex t iedtri aTri ;;
        assertb (itri_adj <? length aTri) ;;;
        ta <- vget aTri itri_adj ;;
        la <- gs ta iedtri_adj ;;
        assertb (onat_eq la (Some itri_from)) ;;;
        set_s2 aTri itri_adj iedtri_adj (Some itri_to)
      end) aTri ;;
  t <- vget aTri itri_to ;;
  aPo <- forn 0 3 (fun inotri aPo => ipo0 <- gv t inotri ;; vset aPo ipo0 (mkP (Some itri_to) inotri)) aPo ;;
  Some (aPo, aTri).

(** dtri_topology.cpp:67-95 ([int] indices; none is negative). *)
Definition JArray_MakeElSuP (elsup_0 : list nat) (aTri : list dtri) (npoin : nat) : option (list nat * list nat) :=
  let ind := repeat 0 (npoin + 1) in
  ind <- forn 0 (length aTri) (fun itri ind =>
      t <- vget aTri itri ;;
      forn 0 3 (fun i ind => x <- gv t i ;; count1 x ind) ind) ind ;;
  ind <- prefix_sum npoin ind ;;
  nelsup <- vget ind npoin ;;
  let elsup := vresize 0 elsup_0 nelsup in
  '(ind, elsup) <- forn 0 (length aTri) (fun itri s =>
      t <- vget aTri itri ;;
      forn 0 3 (fun i s => x <- gv t i ;; put1 x itri s) s) (ind, elsup) ;;
  ind <- shift_down npoin ind ;;
  Some (ind, elsup).

(** dtri_topology.cpp:20-65; [tmp_poin] holds 0/1, here [bool]. *)
Definition MakeInnerRelationTri (aTri : list dtri) (npoin : nat) (elsup_ind elsup : list nat) : option (list dtri) :=
  let tmp := repeat false npoin in
  '(aTri, tmp) <- forn 0 (length aTri) (fun itri s =>
    forn 0 3 (fun iedtri s =>
      let '(aTri, tmp) := s in
      ti <- vget aTri itri ;;
      p0 <- gv ti ((iedtri + 1) mod 3) ;;
      tmp <- vset tmp p0 true ;;
      p1 <- gv ti ((iedtri + 2) mod 3) ;;
      tmp <- vset tmp p1 true ;;
      lo <- vget elsup_ind p0 ;; hi <- vget elsup_ind (p0 + 1) ;;
      '(aTri, iflg) <- forb lo hi (fun ielsup s =>
          let '(aTri, iflg) := s in
          jtri0 <- vget elsup ielsup ;;
          if jtri0 =? itri then Some ((aTri, iflg), false) else
          '(aTri, iflg) <- forb 0 3 (fun jedtri s =>
              let '(aTri, _) := s in
              tj <- vget aTri jtri0 ;;
              q0 <- gv tj ((jedtri + 1) mod 3) ;; b0 <- vget tmp q0 ;;
              b1 <- (if b0 : bool then q1 <- gv tj ((jedtri + 2) mod 3) ;; vget tmp q1 else Some false) ;;
              if b1 : bool then
                aTri <- set_s2 aTri itri iedtri (Some jtri0) ;; Some ((aTri, true), true)
              else Some ((aTri, false), false)) (aTri, iflg) ;;
          Some ((aTri, iflg), iflg)) (aTri, false) ;;
      aTri <- (if iflg : bool then Some aTri else set_s2 aTri itri iedtri None) ;;
      tmp <- vset tmp p0 false ;;
      tmp <- vset tmp p1 false ;;
      Some (aTri, tmp)) s) (aTri, tmp) ;;
  Some aTri.

(** dtri_topology.cpp:555-591.  [aPo0], [aTri0] are the caller's vectors ([resize] keeps old content, all of whose
    vertex and point fields are then overwritten; old links s2 survive until MakeInnerRelationTri sets them). *)
Definition InitializeMesh (aTri0 : list dtri) (tri : list nat) (nTri nXYZ : nat)
    : option (list dpnt * list dtri) :=
  let aPo := repeat (mkP None 0) nXYZ in
  let aTri := vresize dtri0 aTri0 nTri in
  aTri <- forn 0 nTri (fun itri aTri =>
      a <- vget tri (itri * 3 + 0) ;; b <- vget tri (itri * 3 + 1) ;; c <- vget tri (itri * 3 + 2) ;;
      t <- vget aTri itri ;;
      vset aTri itri (mkT a b c (ts0 t) (ts1 t) (ts2 t))) aTri ;;
  aPo <- forn 0 nTri (fun itri aPo =>
      t <- vget aTri itri ;;
      aPo <- vset aPo (tv0 t) (mkP (Some itri) 0) ;;
      aPo <- vset aPo (tv1 t) (mkP (Some itri) 1) ;;
      vset aPo (tv2 t) (mkP (Some itri) 2)) aPo ;;
  '(ind, elsup) <- JArray_MakeElSuP [] aTri (length aPo) ;;
  aTri <- MakeInnerRelationTri aTri (length aPo) ind elsup ;;
  Some (aPo, aTri).

(** dtri_topology.cpp:97-136.  [psup_ind0]: caller's index vector (not resized by the function). *)
Definition JArray_PSuP_dtri (psup_ind0 psup0 : list nat) (aTri : list dtri) (npoin : nat) (elsup_ind elsup : list nat)
    : option (list nat * list nat) :=
  let aflg := repeat 0 npoin in
  psup_ind <- vset psup_ind0 0 0 ;;
  '(aflg, psup_ind) <- forn 0 npoin (fun ino s =>
      let '(aflg, psup_ind) := s in
      x <- vget psup_ind ino ;; psup_ind <- vset psup_ind (ino + 1) x ;;
      aflg <- vset aflg ino ino ;;
      lo <- vget elsup_ind ino ;; hi <- vget elsup_ind (ino + 1) ;;
      forn lo hi (fun ielsup s =>
        itri1 <- vget elsup ielsup ;;
        t <- vget aTri itri1 ;;
        forn 0 3 (fun i s =>
          let '(aflg, psup_ind) := s in
          ino1 <- gv t i ;;
          f <- vget aflg ino1 ;;
          if f =? ino then Some (aflg, psup_ind) else
          psup_ind <- vmod psup_ind (ino + 1) S ;;
          aflg <- vset aflg ino1 ino ;; Some (aflg, psup_ind)) s) (aflg, psup_ind)) (aflg, psup_ind) ;;
  npsup <- vget psup_ind npoin ;;
  let psup := vresize 0 psup0 npsup in
  aflg <- forn 0 npoin (fun ino aflg => vset aflg ino 0) aflg ;;
  '(aflg, (psup, iedge)) <- forn 0 npoin (fun ino s =>
      let '(aflg, (psup, iedge)) := s in
      x <- vget psup_ind ino ;; assertb (x =? iedge) ;;;
      aflg <- vset aflg ino ino ;;
      lo <- vget elsup_ind ino ;; hi <- vget elsup_ind (ino + 1) ;;
      forn lo hi (fun ielsup s =>
        itri1 <- vget elsup ielsup ;;
        t <- vget aTri itri1 ;;
        forn 0 3 (fun i s =>
          let '(aflg, (psup, iedge)) := s in
          ino1 <- gv t i ;;
          f <- vget aflg ino1 ;;
          if f =? ino then Some s else
          psup <- vset psup iedge ino1 ;;
          aflg <- vset aflg ino1 ino ;; Some (aflg, (psup, iedge + 1))) s) (aflg, (psup, iedge))) (aflg, (psup, 0)) ;;
  assertb (iedge =? npsup) ;;;
  Some (psup_ind, psup).

(** dtri_topology.cpp:859-874.  Fuel: number of triangles plus one. *)
Definition GetTriArrayAroundPoint (ipoin : nat) (aPo : list dpnt) (aTri : list dtri) : option (list (nat * nat)) :=
  p <- vget aPo ipoin ;;
  itri_ini <- pe p ;;
  t <- vget aTri itri_ini ;;
  x <- gv t (pd p) ;; assertb (x =? ipoin) ;;;
  '(_, l) <- loopf (S (length aTri)) (fun s =>
      let '((itri0, inoel), l) := s in
      t <- vget aTri itri0 ;; x <- gv t inoel ;; assertb (x =? ipoin) ;;;
      let l := l ++ [(itri0, inoel)] in
      m <- MoveCCW itri0 inoel None aTri ;;
      match m with
      | None => Some (((itri0, inoel), l), true)
      | Some (it, ino) => if it =? itri_ini then Some (((it, ino), l), true) else Some (((it, ino), l), false)
      end) ((itri_ini, pd p), []) ;;
  Some l.

(** dtri_topology.cpp:414-431: boundary points reach assert(0). *)
Definition FindPointAroundPoint (ipo0 : nat) (aPo : list dpnt) (aTri : list dtri) : option (list nat) :=
  p <- vget aPo ipo0 ;;
  itri_ini <- pe p ;;
  '(_, (l, ok)) <- loopf (S (length aTri)) (fun s =>
      let '((itri, ino), (l, _)) := s in
      t <- vget aTri itri ;;
      q <- gv t ((ino + 2) mod 3) ;;
      let l := l ++ [q] in
      x <- gv t ino ;; assertb (x =? ipo0) ;;;
      m <- MoveCCW itri ino None aTri ;;
      match m with
      | None => Some (((itri, ino), (l, false)), true)
      | Some (it, ino) => if it =? itri_ini then Some (((it, ino), (l, true)), true)
                          else Some (((it, ino), (l, false)), false)
      end) ((itri_ini, pd p), ([], false)) ;;
  if ok : bool then Some l else None.             (* assert(0) *)

(** dtri_topology.cpp:433-481.  Result: [None] = returns false; [Some (itri0, inotri0, inotri1)] = returns true. *)
Definition FindEdge_LookAroundPoint (ipo0 ipo1 : nat) (aPo : list dpnt) (aTri : list dtri)
    : option (option (nat * nat * nat)) :=
  p <- vget aPo ipo0 ;;
  itri_ini <- pe p ;;
  (* first loop: clockwise; result Some r = decided, None = hit the boundary *)
  '(_, r) <- loopf (S (length aTri)) (fun s =>
      let '((itc, inc), _) := s in
      t <- vget aTri itc ;; x <- gv t inc ;; assertb (x =? ipo0) ;;;
      let inotri2 := (inc + 1) mod 3 in
      y <- gv t inotri2 ;;
      if y =? ipo1 then Some (((itc, inc), Some (Some (itc, inc, inotri2))), true) else
      m <- MoveCW itc inc None aTri ;;
      match m with
      | None => Some (((itc, inc), None), true)
      | Some (it, ino) => if it =? itri_ini then Some (((it, ino), Some None), true)
                          else Some (((it, ino), None), false)
      end) ((itri_ini, pd p), @None (option (nat * nat * nat))) ;;
  match r with
  | Some r => Some r
  | None =>
    '(_, r) <- loopf (S (length aTri)) (fun s =>
        let '((itc, inc), _) := s in
        t <- vget aTri itc ;; x <- gv t inc ;; assertb (x =? ipo0) ;;;
        m <- MoveCCW itc inc None aTri ;;
        match m with
        | None => Some (((itc, inc), None), true)
        | Some (it, ino) =>
          if it =? itri_ini then Some (((it, ino), None), true) else
          t <- vget aTri it ;;
          y <- gv t ((ino + 1) mod 3) ;;
          if y =? ipo1 then Some (((it, ino), Some (it, ino, (ino + 1) mod 3)), true)
          else Some (((it, ino), None), false)
        end) ((itri_ini, pd p), @None (nat * nat * nat)) ;;
    Some r
  end.
