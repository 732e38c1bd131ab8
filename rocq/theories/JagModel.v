(** Model of the jagged-array functions of /repo/include/delfem2/jagarray.cpp and of the two
    neighbourhood builders of /repo/include/delfem2/msh_topology_uniform.cpp.
    A jagged array is a pair of vectors (index, array); all indices are [nat] (no 2^32 wrap), the sentinel
    UINT_MAX is [None]. *)
From Coq Require Import List Arith.
Import ListNotations.
From Verif Require Import Imp.

(** jagarray.cpp:35-37 and the identical loops at 141-143, 193-195; msh_topology_uniform.cpp:33-35, 272-274:
    [for(i<np) ind[i+1] += ind[i]]. *)
Definition prefix_sum (np : nat) (ind : list nat) : option (list nat) :=
  forn 0 np (fun i ind => a <- vget ind i ;; vmod ind (i + 1) (fun b => b + a)) ind.

(** jagarray.cpp:49-52, 162-165, 214-217; msh_topology_uniform.cpp:46-49, 295-298:
    [for(ip=np;ip>0;ip--) ind[ip] = ind[ip-1]; ind[0] = 0;].
    (162-165 is written with ip+1/ip for ip=np-1..0, the same accesses in the same order.) *)
Definition shift_down (np : nat) (ind : list nat) : option (list nat) :=
  ind <- ford np 0 (fun i ind => a <- vget ind (i - 1) ;; vset ind i a) ind ;;
  vset ind 0 0.

(** [ind[k+1] += 1] *)
Definition count1 (k : nat) (ind : list nat) : option (list nat) := vmod ind (k + 1) S.
(** [arr[ind[k]] = x; ind[k] += 1] *)
Definition put1 (k x : nat) (s : list nat * list nat) : option (list nat * list nat) :=
  let '(ind, arr) := s in
  i <- vget ind k ;; arr <- vset arr i x ;; ind <- vmod ind k S ;; Some (ind, arr).

(** jagarray.cpp:16-53.  [edge_ind0], [edge0] are the caller's vectors on entry;
    [edge_ind.resize(np+1)] keeps their old contents (line 24), only [edge_ind[0]] is reset (line 25). *)
Definition JArrayEdgeUnidir_PointSurPoint
    (edge_ind0 edge0 psup_ind psup : list nat) : option (list nat * list nat) :=
  assertb (2 <=? length psup_ind) ;;;
  let np := length psup_ind - 1 in
  let edge_ind := vresize 0 edge_ind0 (np + 1) in
  edge_ind <- vset edge_ind 0 0 ;;
  let edge := @nil nat in
  edge_ind <- forn 0 np (fun ip edge_ind =>
      lo <- vget psup_ind ip ;; hi <- vget psup_ind (ip + 1) ;;
      forn lo hi (fun ipsup edge_ind =>
        ip0 <- vget psup ipsup ;;
        if ip0 <=? ip then Some edge_ind else count1 ip edge_ind) edge_ind) edge_ind ;;
  edge_ind <- prefix_sum np edge_ind ;;
  nedge <- vget edge_ind np ;;
  let edge := vresize 0 edge nedge in
  '(edge_ind, edge) <- forn 0 np (fun ip s =>
      lo <- vget psup_ind ip ;; hi <- vget psup_ind (ip + 1) ;;
      forn lo hi (fun ipsup s =>
        ip0 <- vget psup ipsup ;;
        if ip0 <=? ip then Some s else put1 ip ip0 s) s) (edge_ind, edge) ;;
  edge_ind <- shift_down np edge_ind ;;
  Some (edge_ind, edge).

(** jagarray.cpp:82-90: one compare-and-swap of neighbours [array[j-1]], [array[j]]. *)
Definition cmpswap (j : nat) (array : list nat) : option (list nat) :=
  a <- vget array j ;; b <- vget array (j - 1) ;;
  if a <? b then array <- vset array j b ;; vset array (j - 1) a else Some array.

(** jagarray.cpp:72-93 (and the pointer variant 95-116, which performs the same accesses). *)
Definition JArray_Sort (index array : list nat) : option (list nat) :=
  match index with
  | [] => Some array
  | _ =>
    let size := length index - 1 in
    forn 0 size (fun ipoin array =>
      is_ <- vget index ipoin ;; ie <- vget index (ipoin + 1) ;;
      if is_ =? ie then Some array else
      assertb (is_ <? ie) ;;;
      forn is_ (ie - 1) (fun i array =>
        ford (ie - 1) i (fun j array => cmpswap j array) array) array) array
  end.

(** Comparison of an unsigned vector entry (possibly UINT_MAX, i.e. [None]) with an index. *)
Definition onat_eqb (o : option nat) (n : nat) : bool :=
  match o with Some m => m =? n | None => false end.

(** jagarray.cpp:118-166.  [psup1_0] is the caller's array on entry ([psup1.resize]). *)
Definition JArray_AddDiagonal (psup1_0 psup_ind0 psup0 : list nat) : option (list nat * list nat) :=
  assertb (0 <? length psup_ind0) ;;;
  let np := length psup_ind0 - 1 in
  let tmp := repeat (@None nat) np in
  let ind1 := repeat 0 (np + 1) in
  '(tmp, ind1) <- forn 0 np (fun ip s =>
      lo <- vget psup_ind0 ip ;; hi <- vget psup_ind0 (ip + 1) ;;
      '(tmp, ind1) <- forn lo hi (fun ipsup s =>
          let '(tmp, ind1) := s in
          jp <- vget psup0 ipsup ;;
          t <- vget tmp jp ;;
          assertb (negb (onat_eqb t ip)) ;;;
          tmp <- vset tmp jp (Some ip) ;;
          ind1 <- count1 ip ind1 ;; Some (tmp, ind1)) s ;;
      t <- vget tmp ip ;;
      if onat_eqb t ip then Some (tmp, ind1)
      else tmp <- vset tmp ip (Some ip) ;; ind1 <- count1 ip ind1 ;; Some (tmp, ind1)) (tmp, ind1) ;;
  ind1 <- prefix_sum np ind1 ;;
  npsup <- vget ind1 np ;;
  let psup1 := vresize 0 psup1_0 npsup in
  let tmp := repeat (@None nat) np in
  '(tmp, (ind1, psup1)) <- forn 0 np (fun ip s =>
      lo <- vget psup_ind0 ip ;; hi <- vget psup_ind0 (ip + 1) ;;
      '(tmp, s2) <- forn lo hi (fun ipsup s =>
          let '(tmp, s2) := s in
          jp <- vget psup0 ipsup ;;
          t <- vget tmp jp ;;
          assertb (negb (onat_eqb t ip)) ;;;
          tmp <- vset tmp jp (Some ip) ;;
          s2 <- put1 ip jp s2 ;; Some (tmp, s2)) s ;;
      t <- vget tmp ip ;;
      if onat_eqb t ip then Some (tmp, s2)
      else s2 <- put1 ip ip s2 ;; Some (tmp, s2)) (tmp, (ind1, psup1)) ;;
  ind1 <- shift_down np ind1 ;;
  Some (ind1, psup1).

(** jagarray.cpp:174-218. *)
Definition JArray_Extend (psup1_0 psup_ind0 psup0 : list nat) : option (list nat * list nat) :=
  let np := length psup_ind0 - 1 in
  let ind1 := repeat 0 (np + 1) in
  let aflg := repeat (@None nat) np in
  '(aflg, ind1) <- forn 0 np (fun ip s =>
      lo <- vget psup_ind0 ip ;; hi <- vget psup_ind0 (ip + 1) ;;
      forn lo hi (fun ipsup s =>
        jp0 <- vget psup0 ipsup ;;
        lo <- vget psup_ind0 jp0 ;; hi <- vget psup_ind0 (jp0 + 1) ;;
        forn lo hi (fun jpsup s =>
          let '(aflg, ind1) := s in
          kp0 <- vget psup0 jpsup ;;
          t <- vget aflg kp0 ;;
          if (onat_eqb t ip || (kp0 =? ip))%bool then Some (aflg, ind1) else
          ind1 <- count1 ip ind1 ;;
          aflg <- vset aflg kp0 (Some ip) ;; Some (aflg, ind1)) s) s) (aflg, ind1) ;;
  ind1 <- prefix_sum np ind1 ;;
  n1 <- vget ind1 np ;;
  let psup1 := vresize 0 psup1_0 n1 in
  let aflg := repeat (@None nat) np in
  '(aflg, (ind1, psup1)) <- forn 0 np (fun ip s =>
      lo <- vget psup_ind0 ip ;; hi <- vget psup_ind0 (ip + 1) ;;
      forn lo hi (fun ipsup s =>
        jp0 <- vget psup0 ipsup ;;
        lo <- vget psup_ind0 jp0 ;; hi <- vget psup_ind0 (jp0 + 1) ;;
        forn lo hi (fun jpsup s =>
          let '(aflg, s2) := s in
          kp0 <- vget psup0 jpsup ;;
          t <- vget aflg kp0 ;;
          if (onat_eqb t ip || (kp0 =? ip))%bool then Some (aflg, s2) else
          s2 <- put1 ip kp0 s2 ;;
          aflg <- vset aflg kp0 (Some ip) ;; Some (aflg, s2)) s) s) (aflg, (ind1, psup1)) ;;
  ind1 <- shift_down np ind1 ;;
  Some (ind1, psup1).

(** msh_topology_uniform.cpp:19-51. *)
Definition JArray_ElSuP_MeshElem (elsup_0 elem_vtx : list nat) (num_elem nno num_vtx : nat)
    : option (list nat * list nat) :=
  let ind := repeat 0 (num_vtx + 1) in
  ind <- forn 0 num_elem (fun ielem ind =>
      forn 0 nno (fun inoel ind =>
        ino1 <- vget elem_vtx (ielem * nno + inoel) ;;
        count1 ino1 ind) ind) ind ;;
  ind <- prefix_sum num_vtx ind ;;
  nelsup <- vget ind num_vtx ;;
  let elsup := vresize 0 elsup_0 nelsup in
  '(ind, elsup) <- forn 0 num_elem (fun ielem s =>
      forn 0 nno (fun inoel s =>
        ino1 <- vget elem_vtx (ielem * nno + inoel) ;;
        put1 ino1 ielem s) s) (ind, elsup) ;;
  ind <- shift_down num_vtx ind ;;
  Some (ind, elsup).

(** msh_topology_uniform.cpp:250-299. *)
Definition JArrayPointSurPoint_MeshOneRingNeighborhood
    (psup_0 elem_vtx elsup_ind elsup : list nat) (nno num_vtx : nat) : option (list nat * list nat) :=
  let aflg := repeat (@None nat) num_vtx in
  let ind := repeat 0 (num_vtx + 1) in
  '(aflg, ind) <- forn 0 num_vtx (fun ipoint s =>
      let '(aflg, ind) := s in
      aflg <- vset aflg ipoint (Some ipoint) ;;
      lo <- vget elsup_ind ipoint ;; hi <- vget elsup_ind (ipoint + 1) ;;
      forn lo hi (fun ielsup s =>
        jelem <- vget elsup ielsup ;;
        forn 0 nno (fun jnoel s =>
          let '(aflg, ind) := s in
          jnode <- vget elem_vtx (jelem * nno + jnoel) ;;
          t <- vget aflg jnode ;;
          if onat_eqb t ipoint then Some (aflg, ind) else
          aflg <- vset aflg jnode (Some ipoint) ;;
          ind <- count1 ipoint ind ;; Some (aflg, ind)) s) (aflg, ind)) (aflg, ind) ;;
  ind <- prefix_sum num_vtx ind ;;
  npsup <- vget ind num_vtx ;;
  let psup := vresize 0 psup_0 npsup in
  aflg <- forn 0 num_vtx (fun ipoint aflg => vset aflg ipoint None) aflg ;;
  '(aflg, (ind, psup)) <- forn 0 num_vtx (fun ipoint s =>
      let '(aflg, s2) := s in
      aflg <- vset aflg ipoint (Some ipoint) ;;
      lo <- vget elsup_ind ipoint ;; hi <- vget elsup_ind (ipoint + 1) ;;
      forn lo hi (fun ielsup s =>
        jelem <- vget elsup ielsup ;;
        forn 0 nno (fun jnoel s =>
          let '(aflg, s2) := s in
          jnode <- vget elem_vtx (jelem * nno + jnoel) ;;
          t <- vget aflg jnode ;;
          if onat_eqb t ipoint then Some (aflg, s2) else
          aflg <- vset aflg jnode (Some ipoint) ;;
          s2 <- put1 ipoint jnode s2 ;; Some (aflg, s2)) s) (aflg, s2)) (aflg, (ind, psup)) ;;
  ind <- shift_down num_vtx ind ;;
  Some (ind, psup).

(** msh_topology_uniform.cpp:301-316.  The local [elsup_ind], [elsup] start empty. *)
Definition JArray_PSuP_MeshElem (psup_0 elem_vtx : list nat) (num_elm nno num_vtx : nat)
    : option (list nat * list nat) :=
  '(elsup_ind, elsup) <- JArray_ElSuP_MeshElem [] elem_vtx num_elm nno num_vtx ;;
  JArrayPointSurPoint_MeshOneRingNeighborhood psup_0 elem_vtx elsup_ind elsup nno num_vtx.
