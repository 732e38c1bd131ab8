(** Model of CollapseEdge_MeshDTri and FindEdge_LookAllTriangles (/repo/include/delfem2/dtri_topology.cpp).  Same
    conventions as DtriModel: UINT_MAX links are [None], a failed assertion or an out-of-range access is [None]. *)
From Coq Require Import List Arith Bool.
Import ListNotations.
From Verif Require Import Imp DtriModel.

(** dtri_topology.cpp:483-501.  The two reference arguments are the state; they are left alone when nothing is found. *)
Definition FindEdge_LookAllTriangles (ipo0 ipo1 : nat) (aTri : list dtri) (res0 : nat * nat) : option (nat * nat) :=
  '(res, _) <- forb 0 (length aTri) (fun itri st =>
    '(res, found) <- forb 0 3 (fun iedtri st =>
      let '(res, _) := st in
      t <- vget aTri itri ;;
      jpo0 <- gv t ((iedtri + 0) mod 3) ;;
      jpo1 <- gv t ((iedtri + 1) mod 3) ;;
      if (jpo0 =? ipo0) && (jpo1 =? ipo1) then Some (((itri, iedtri), true), true) else Some ((res, false), false)) st ;;
    Some ((res, found), found)) (res0, false) ;;
  Some res.

(** [aTri[j].v[i] = w] *)
Definition sv (t : dtri) (i : nat) (w : nat) : option dtri :=
  match i with
  | 0 => Some (mkT w (tv1 t) (tv2 t) (ts0 t) (ts1 t) (ts2 t))
  | 1 => Some (mkT (tv0 t) w (tv2 t) (ts0 t) (ts1 t) (ts2 t))
  | 2 => Some (mkT (tv0 t) (tv1 t) w (ts0 t) (ts1 t) (ts2 t))
  | _ => None
  end.
Definition set_v (aTri : list dtri) (j i : nat) (w : nat) : option (list dtri) :=
  t <- vget aTri j ;; t <- sv t i w ;; vset aTri j t.

(** [aTri[j].v[i]] and [aTri[j].s2[i]] *)
Definition get_v (aTri : list dtri) (j i : nat) : option nat := t <- vget aTri j ;; gv t i.
Definition get_s2 (aTri : list dtri) (j i : nat) : option (option nat) := t <- vget aTri j ;; gs t i.
(** FindAdjEdgeIndex(aTri[j], i, aTri) *)
Definition adj_edge (aTri : list dtri) (j i : nat) : option nat := t <- vget aTri j ;; FindAdjEdgeIndex t i aTri.

(** dtri_topology.cpp:758-768 and 769-779: the points around [ipo] from triangle [jt] to triangle [stop]; the inner [None]
    is "return false".  Fuel: number of triangles plus one. *)
Definition coll_ring (ipo jt jn stop : nat) (aTri : list dtri) : option (option (list nat)) :=
  '(_, ring, ok) <- loopf (S (length aTri)) (fun st =>
    let '((jtri, jnoel), ring, _) := st in
    x <- get_v aTri jtri jnoel ;; assertb (x =? ipo) ;;;
    y <- get_v aTri jtri ((jnoel + 2) mod 3) ;;
    let ring := ring ++ [y] in
    mv <- MoveCCW jtri jnoel None aTri ;;
    match mv with
    | None => Some (((jtri, jnoel), ring, false), true)
    | Some (jtri, jnoel) => Some (((jtri, jnoel), ring, true), jtri =? stop)
    end) ((jt, jn), [], false) ;;
  Some (if ok : bool then Some ring else None).

(** dtri_topology.cpp:780-786: std::sort and std::set_intersection are replaced by "is there a common element" *)
Definition coll_common (ring1 ring2 : list nat) : bool := existsb (fun x => existsb (Nat.eqb x) ring2) ring1.

(** dtri_topology.cpp:828-845: the corners at [ipoZ] from triangle [jt] on, and the change of their vertex to [ipoX].
    Fuel: number of triangles plus one. *)
Definition coll_fan (ipoZ jt jn itD : nat) (aTri : list dtri) : option (list (nat * nat)) :=
  '(_, l) <- loopf (S (length aTri)) (fun st =>
    let '((jtri, jnoel), l) := st in
    let l := l ++ [(jtri, jnoel)] in
    x <- get_v aTri jtri jnoel ;; assertb (x =? ipoZ) ;;;
    mv <- MoveCCW jtri jnoel (Some itD) aTri ;;
    match mv with
    | None => Some (((jtri, jnoel), l), true)
    | Some c => Some ((c, l), false)
    end) ((jt, jn), []) ;;
  Some l.
Definition coll_rename (ipoZ ipoX : nat) (l : list (nat * nat)) (aTri : list dtri) : option (list dtri) :=
  foldM (fun c aTri => x <- get_v aTri (fst c) (snd c) ;; assertb (x =? ipoZ) ;;; set_v aTri (fst c) (snd c) ipoX) l aTri.

(** dtri_topology.cpp:806-827: one of the four link statements
    [aTri[it].s2[ino] = l; if( l != UINT_MAX ){ assert(l < aTri.size()); aTri[jt].s2[jno] = it; }] *)
Definition coll_glue (it ino : nat) (l : option nat) (jt jno : nat) (aTri : list dtri) : option (list dtri) :=
  aTri <- set_s2 aTri it ino l ;;
  match l with
  | None => Some aTri
  | Some k => assertb (k <? length aTri) ;;; set_s2 aTri jt jno (Some it)
  end.

(** dtri_topology.cpp:846-851: a triangle loses its links *)
Definition coll_isolate (it : nat) (aTri : list dtri) : option (list dtri) :=
  aTri <- set_s2 aTri it 0 None ;; aTri <- set_s2 aTri it 1 None ;; set_s2 aTri it 2 None.

(** dtri_topology.cpp:679-857.  The Boolean is the C++ return value.  An edge without neighbour reaches assert(0). *)
Definition CollapseEdge_MeshDTri (itri_del ied_del : nat) (aPo : list dpnt) (aTri : list dtri)
    : option (bool * (list dpnt * list dtri)) :=
  let no := Some (false, (aPo, aTri)) in
  assertb ((itri_del <? length aTri) && (ied_del <? 3)) ;;;
  l <- get_s2 aTri itri_del ied_del ;;
  itri_adj <- l ;;
  ied_adj <- adj_edge aTri itri_del ied_del ;;
  assertb ((itri_adj <? length aTri) && (ied_adj <? 3)) ;;;
  l <- get_s2 aTri itri_adj ied_adj ;;
  assertb (onat_eq l (Some itri_del)) ;;;
  let itA := itri_del in
  let itB := itri_adj in
  let inoA0 := ied_del in
  let inoA1 := (inoA0 + 1) mod 3 in
  let inoA2 := (inoA0 + 2) mod 3 in
  let inoB0 := ied_adj in
  let inoB1 := (inoB0 + 1) mod 3 in
  let inoB2 := (inoB0 + 2) mod 3 in
  lC <- get_s2 aTri itA inoA1 ;;
  match lC with None => no | Some itC =>
  lD <- get_s2 aTri itA inoA2 ;;
  match lD with None => no | Some itD =>
  lE <- get_s2 aTri itB inoB1 ;;
  match lE with None => no | Some itE =>
  lF <- get_s2 aTri itB inoB2 ;;
  match lF with None => no | Some itF =>
  inoC0 <- adj_edge aTri itA inoA1 ;;
  let inoC1 := (inoC0 + 1) mod 3 in
  let inoC2 := (inoC0 + 2) mod 3 in
  inoD0 <- adj_edge aTri itA inoA2 ;;
  let inoD1 := (inoD0 + 1) mod 3 in
  inoE0 <- adj_edge aTri itB inoB1 ;;
  let inoE1 := (inoE0 + 1) mod 3 in
  let inoE2 := (inoE0 + 2) mod 3 in
  inoF0 <- adj_edge aTri itB inoB2 ;;
  let inoF1 := (inoF0 + 1) mod 3 in
  l <- get_s2 aTri itC inoC2 ;;
  if onat_eq l (Some itD) then (l <- get_s2 aTri itD inoD1 ;; assertb (onat_eq l (Some itC)) ;;; no) else
  l <- get_s2 aTri itE inoE2 ;;
  if onat_eq l (Some itF) then (l <- get_s2 aTri itF inoF1 ;; assertb (onat_eq l (Some itE)) ;;; no) else
  if (itC =? itF) && (itD =? itE) then no else
  oldA <- vget aTri itA ;;
  oldB <- vget aTri itB ;;
  ipoW <- gv oldA inoA0 ;;
  ipoX <- gv oldA inoA1 ;;
  ipoY <- gv oldB inoB0 ;;
  ipoZ <- gv oldB inoB1 ;;
  x <- get_v aTri itD inoD1 ;; assertb (x =? ipoX) ;;;
  x <- get_v aTri itF inoF1 ;; assertb (x =? ipoZ) ;;;
  r1 <- coll_ring ipoZ itF inoF1 itC aTri ;;
  match r1 with None => no | Some ring1 =>
  r2 <- coll_ring ipoX itD inoD1 itE aTri ;;
  match r2 with None => no | Some ring2 =>
  if coll_common ring1 ring2 then no else
  x <- gv oldB inoB2 ;; assertb (ipoX =? x) ;;;
  x <- gv oldA inoA2 ;; assertb (x =? ipoZ) ;;;
  sA0 <- gs oldA inoA0 ;; assertb (onat_eq sA0 (Some itB)) ;;;
  sB0 <- gs oldB inoB0 ;; assertb (onat_eq sB0 (Some itA)) ;;;
  aPo <- vset aPo ipoW (mkP (Some itC) inoC1) ;;
  aPo <- vset aPo ipoY (mkP (Some itE) inoE1) ;;
  aPo <- vset aPo ipoX (mkP (Some itD) inoD1) ;;
  aPo <- vmod aPo ipoZ (fun p => mkP None (pd p)) ;;
  sA1 <- gs oldA inoA1 ;; sA2 <- gs oldA inoA2 ;; sB1 <- gs oldB inoB1 ;; sB2 <- gs oldB inoB2 ;;
  aTri <- coll_glue itC inoC0 sA2 itD inoD0 aTri ;;
  aTri <- coll_glue itD inoD0 sA1 itC inoC0 aTri ;;
  aTri <- coll_glue itE inoE0 sB2 itF inoF0 aTri ;;
  aTri <- coll_glue itF inoF0 sB1 itE inoE0 aTri ;;
  fan <- coll_fan ipoZ itF inoF1 itD aTri ;;
  aTri <- coll_rename ipoZ ipoX fan aTri ;;
  aTri <- coll_isolate itA aTri ;;
  aTri <- coll_isolate itB aTri ;;
  let itri_1st := if itB <? itA then itA else itB in
  let itri_2nd := if itA <? itB then itA else itB in
  '(aPo, aTri) <- DeleteTri itri_1st aPo aTri ;;
  '(aPo, aTri) <- DeleteTri itri_2nd aPo aTri ;;
  Some (true, (aPo, aTri))
  end end end end end end.
