(** Model of /repo/include/delfem2/msh_topology_uniform.cpp (element adjacency, edges, groups, conversions) and of
    the element tables in /repo/include/delfem2/mshelm.h.  UINT_MAX is [None]; indices are [nat]. *)
From Coq Require Import List Arith Bool.
Import ListNotations.
From Verif Require Import Imp JagModel.

(** mshelm.h:81-131: local vertex numbers on each face (entries -1 beyond the face's vertex count omitted). *)
Definition noelElemFace_Line := [[0];[1]].
Definition noelElemFace_Tri := [[1;2];[2;0];[0;1]].
Definition noelElemFace_Tet := [[1;2;3];[0;3;2];[0;1;3];[0;2;1]].
Definition noelElemFace_Quad := [[0;1];[1;2];[2;3];[3;0]].
Definition noelElemFace_Vox := [[0;4;6;2];[1;3;7;5];[0;1;5;4];[2;6;7;3];[0;2;3;1];[4;5;7;6]].
Definition noelElemFace_Hex := [[0;4;7;3];[1;2;6;5];[0;1;5;4];[3;7;6;2];[0;3;2;1];[4;5;6;7]].

(** mshelm.h:142-170: local vertex numbers of each edge.  The last entry of the tetrahedron table is {2,2} in the source. *)
Definition noelElemEdge_Tri := [(0,1);(1,2);(2,0)].
Definition noelElemEdge_Tet := [(0,1);(0,2);(0,3);(1,2);(1,3);(2,2)].
Definition noelElemEdge_Quad := [(0,1);(1,2);(2,3);(3,0)].
Definition noelElemEdge_Hex := [(0,1);(1,2);(2,3);(3,0);(4,5);(5,6);(6,7);(7,4);(0,4);(1,5);(2,6);(3,7)].

(** msh_topology_uniform.cpp:175-183: are all [nnofa] vertices of face [jfael] of element [jelem] flagged? *)
Definition face_flagged (elem : list nat) (nno nnofa : nat) (face : list (list nat))
    (flg : list bool) (jelem jfael : nat) : option bool :=
  forb 0 nnofa (fun jpofa (iflg : bool) =>
    fc <- vget face jfael ;; jnt0 <- vget fc jpofa ;;
    jpoin0 <- vget elem (jelem * nno + jnt0) ;;
    b <- vget flg jpoin0 ;;
    if negb b then Some (false, true) else Some (iflg, false)) true.

(** msh_topology_uniform.cpp:148-206. *)
Definition ElSuEl_core (elem : list nat) (nel nno : nat) (elsup_ind elsup : list nat)
    (nfael nnofa : nat) (face : list (list nat)) : option (list (option nat)) :=
  assertb (0 <? length elsup_ind) ;;;
  let np := length elsup_ind - 1 in
  let elsuel := repeat (@None nat) (nel * nfael) in
  let flg := repeat false np in
  let inpofa := repeat 0 nnofa in
  '(elsuel, flg, inpofa) <- forn 0 nel (fun iel s =>
    forn 0 nfael (fun ifael s =>
      let '(elsuel, flg, inpofa) := s in
      '(flg, inpofa) <- forn 0 nnofa (fun ipofa s =>
          let '(flg, inpofa) := s in
          fc <- vget face ifael ;; int0 <- vget fc ipofa ;;
          ip <- vget elem (iel * nno + int0) ;;
          assertb (ip <? np) ;;;
          inpofa <- vset inpofa ipofa ip ;;
          flg <- vset flg ip true ;;
          Some (flg, inpofa)) (flg, inpofa) ;;
      ipoin0 <- vget inpofa 0 ;;
      lo <- vget elsup_ind ipoin0 ;; hi <- vget elsup_ind (ipoin0 + 1) ;;
      '(elsuel, iflg) <- forb lo hi (fun ielsup s =>
          let '(elsuel, iflg) := s in
          jelem0 <- vget elsup ielsup ;;
          if jelem0 =? iel then Some ((elsuel, iflg), false) else
          '(elsuel, iflg) <- forb 0 nfael (fun jfael s =>
              let '(elsuel, _) := s in
              iflg <- face_flagged elem nno nnofa face flg jelem0 jfael ;;
              if iflg : bool then
                elsuel <- vset elsuel (iel * nfael + ifael) (Some jelem0) ;;
                Some ((elsuel, iflg), true)
              else Some ((elsuel, iflg), false)) (elsuel, iflg) ;;
          Some ((elsuel, iflg), iflg)) (elsuel, false) ;;
      elsuel <- (if iflg : bool then Some elsuel else vset elsuel (iel * nfael + ifael) None) ;;
      flg <- forn 0 nnofa (fun ipofa flg => ip <- vget inpofa ipofa ;; vset flg ip false) flg ;;
      Some (elsuel, flg, inpofa)) s) (elsuel, flg, inpofa) ;;
  Some elsuel.

(** msh_topology_uniform.cpp:226-245; [face] is the face table of the element type; all faces of the
    types used here have the same vertex count, which the source reads from face 0. *)
Definition ElSuEl_MeshElem (elem : list nat) (nel nno : nat) (face : list (list nat)) (nv : nat)
    : option (list (option nat)) :=
  '(elsup_ind, elsup) <- JArray_ElSuP_MeshElem [] elem nel nno nv ;;
  nnofa <- option_map (@length nat) (vget face 0) ;;
  elsuel <- ElSuEl_core elem nel nno elsup_ind elsup (length face) nnofa face ;;
  assertb (length elsuel =? nel * length face) ;;;
  Some elsuel.

(** [std::set<unsigned int>::insert] on the ascending list of members. *)
Fixpoint set_insert (x : nat) (s : list nat) : list nat :=
  match s with
  | [] => [x]
  | y :: t => if x <? y then x :: s else if x =? y then s else y :: set_insert x t
  end.

(** msh_topology_uniform.cpp:361-398.  [edge_ind0], [edge0]: caller's vectors on entry ([edge] is not cleared). *)
Definition JArrayEdge_MeshElem (edge_ind0 edge0 elem : list nat) (nno : nat) (etab : list (nat * nat))
    (elsup_ind elsup : list nat) (is_bidirectional : bool) : option (list nat * list nat) :=
  let nPoint0 := length elsup_ind - 1 in
  let edge_ind := vresize 0 edge_ind0 (nPoint0 + 1) in
  edge_ind <- vset edge_ind 0 0 ;;
  forn 0 nPoint0 (fun ip s =>
    let '(edge_ind, edge) := s in
    lo <- vget elsup_ind ip ;; hi <- vget elsup_ind (ip + 1) ;;
    setIP <- forn lo hi (fun ielsup setIP =>
      iq0 <- vget elsup ielsup ;;
      forn 0 (length etab) (fun ie setIP =>
        '(inoel0, inoel1) <- vget etab ie ;;
        ip0 <- vget elem (iq0 * nno + inoel0) ;;
        ip1 <- vget elem (iq0 * nno + inoel1) ;;
        if negb (ip0 =? ip) && negb (ip1 =? ip) then Some setIP else
        if ip0 =? ip then
          if is_bidirectional || (ip <? ip1) then Some (set_insert ip1 setIP) else Some setIP
        else
          if is_bidirectional || (ip <? ip0) then Some (set_insert ip0 setIP) else Some setIP) setIP) [] ;;
    let edge := edge ++ setIP in
    e0 <- vget edge_ind ip ;;
    edge_ind <- vset edge_ind (ip + 1) (e0 + length setIP) ;;
    Some (edge_ind, edge)) (edge_ind, edge0).

(** msh_topology_uniform.cpp:400-414 ([line_vtx] is appended to; [line0] is its content on entry). *)
Definition MeshLine_JArrayEdge (line0 psup_ind psup : list nat) : option (list nat) :=
  let np := length psup_ind - 1 in
  forn 0 np (fun ip line =>
    lo <- vget psup_ind ip ;; hi <- vget psup_ind (ip + 1) ;;
    forn lo hi (fun ipsup line => jp <- vget psup ipsup ;; Some (line ++ [ip; jp])) line) line0.

(** msh_topology_uniform.cpp:416-436. *)
Definition MeshLine_MeshElem (line0 elem : list nat) (nel nno : nat) (etab : list (nat * nat)) (nv : nat)
    : option (list nat) :=
  '(elsup_ind, elsup) <- JArray_ElSuP_MeshElem [] elem nel nno nv ;;
  '(edge_ind, edge) <- JArrayEdge_MeshElem [] [] elem nno etab elsup_ind elsup false ;;
  MeshLine_JArrayEdge line0 edge_ind edge.

(** msh_topology_uniform.cpp:440-462.  The stack is a list, top first.  Fuel: one more than the
    number of elements (each element is pushed at most once). *)
Definition MarkConnectedElements (elem_flag : list (option nat)) (ker flag : nat) (adj : list (option nat))
    : option (list (option nat)) :=
  let nel := length elem_flag in
  assertb (negb (nel =? 0)) ;;;      (* division by elem_flag.size() *)
  let nfael := length adj / nel in
  elem_flag <- vset elem_flag ker (Some flag) ;;
  '(elem_flag, _) <- whilef (S nel) (fun s => negb (length (snd s) =? 0)) (fun s =>
      let '(elem_flag, next) := s in
      match next with
      | [] => None
      | itri0 :: next =>
        forn 0 nfael (fun ie s =>
          let '(elem_flag, next) := s in
          ita <- vget adj (itri0 * nfael + ie) ;;
          match ita with
          | None => Some (elem_flag, next)
          | Some ita =>
            f <- vget elem_flag ita ;;
            if onat_eqb f flag then Some (elem_flag, next) else
            elem_flag <- vset elem_flag ita (Some flag) ;;
            Some (elem_flag, ita :: next)
          end) (elem_flag, next)
      end) (elem_flag, [ker]) ;;
  Some elem_flag.

(** msh_topology_uniform.cpp:475-478: first element whose flag is UINT_MAX, or [nelem]. *)
Definition find_unflagged (nelem : nat) (elem_flag : list (option nat)) : option nat :=
  forb 0 nelem (fun itri r =>
    f <- vget elem_flag itri ;;
    match f with None => Some (itri, true) | Some _ => Some (S itri, false) end) 0.

(** msh_topology_uniform.cpp:466-488; [nelem] = elem_vtx.size()/num_vtx_par_elem.
    The loop counter [igroup] (starting at -1) is represented by [num_group] = igroup+1. *)
Definition MakeGroupElem (nelem : nat) (adj : list (option nat)) : option (nat * list (option nat)) :=
  let elem_flag := repeat (@None nat) nelem in
  loopf (S nelem) (fun s =>
    let '(num_group, elem_flag) := s in
    itri_ker <- find_unflagged nelem elem_flag ;;
    if itri_ker =? nelem then Some ((num_group, elem_flag), true) else
    elem_flag <- MarkConnectedElements elem_flag itri_ker num_group adj ;;
    Some ((S num_group, elem_flag), false)) (0, elem_flag).

(** msh_topology_uniform.cpp:53-66. *)
Definition FindAdjEdgeIndex (itri0 ied0 jtri0 : nat) (aTri : list nat) : option (option nat) :=
  iv0 <- vget aTri (itri0 * 3 + (ied0 + 1) mod 3) ;;
  iv1 <- vget aTri (itri0 * 3 + (ied0 + 2) mod 3) ;;
  assertb (negb (iv0 =? iv1)) ;;;
  j0 <- vget aTri (jtri0 * 3 + 0) ;; j1 <- vget aTri (jtri0 * 3 + 1) ;; j2 <- vget aTri (jtri0 * 3 + 2) ;;
  if (j1 =? iv1) && (j2 =? iv0) then Some (Some 0) else
  if (j2 =? iv1) && (j0 =? iv0) then Some (Some 1) else
  if (j0 =? iv1) && (j1 =? iv0) then Some (Some 2) else
  Some None.

(** msh_topology_uniform.cpp:68-98 (appends to [quad0]). *)
Definition ElemQuad_DihedralTri (quad0 tri : list nat) (ntri nv : nat) : option (list nat) :=
  aElSuEl <- ElSuEl_MeshElem tri ntri 3 noelElemFace_Tri nv ;;
  assertb (length aElSuEl =? ntri * 3) ;;;
  forn 0 ntri (fun itri q =>
    forn 0 3 (fun ied q =>
      j <- vget aElSuEl (itri * 3 + ied) ;;
      match j with
      | None => Some q
      | Some jtri =>
        if jtri <? itri then Some q else
        je <- FindAdjEdgeIndex itri ied jtri tri ;;
        jed <- je ;;
        ipo0 <- vget tri (itri * 3 + ied) ;;
        ipo1 <- vget tri (jtri * 3 + jed) ;;
        ipo2 <- vget tri (itri * 3 + (ied + 1) mod 3) ;;
        ipo3 <- vget tri (itri * 3 + (ied + 2) mod 3) ;;
        jp2 <- vget tri (jtri * 3 + (jed + 2) mod 3) ;;
        jp3 <- vget tri (jtri * 3 + (jed + 1) mod 3) ;;
        assertb (jp2 =? ipo2) ;;;
        assertb (jp3 =? ipo3) ;;;
        Some (q ++ [ipo0; ipo1; ipo2; ipo3])
      end) q) quad0.

(** msh_topology_uniform.cpp:102-119. *)
Definition convert2Tri_Quad (tri0 quad : list nat) : option (list nat) :=
  let nq := length quad / 4 in
  let tri := vresize 0 tri0 (nq * 6) in
  forn 0 nq (fun iq tri =>
    i0 <- vget quad (iq * 4 + 0) ;; i1 <- vget quad (iq * 4 + 1) ;;
    i2 <- vget quad (iq * 4 + 2) ;; i3 <- vget quad (iq * 4 + 3) ;;
    tri <- vset tri (iq * 6 + 0) i0 ;; tri <- vset tri (iq * 6 + 1) i1 ;;
    tri <- vset tri (iq * 6 + 2) i2 ;; tri <- vset tri (iq * 6 + 3) i2 ;;
    tri <- vset tri (iq * 6 + 4) i3 ;; vset tri (iq * 6 + 5) i0) tri.

(** msh_topology_uniform.cpp:121-130. *)
Definition FlipElement_Tri (tri : list nat) : option (list nat) :=
  forn 0 (length tri / 3) (fun itri tri =>
    i1 <- vget tri (itri * 3 + 1) ;; i2 <- vget tri (itri * 3 + 2) ;;
    tri <- vset tri (itri * 3 + 1) i2 ;; vset tri (itri * 3 + 2) i1) tri.

(** msh_topology_uniform.cpp:492-500. *)
Definition FindIndexTri (tri : list nat) (jtri ixyz : nat) : option nat :=
  a <- vget tri (jtri * 3 + 0) ;; if a =? ixyz then Some 0 else
  b <- vget tri (jtri * 3 + 1) ;; if b =? ixyz then Some 1 else
  c <- vget tri (jtri * 3 + 2) ;; if c =? ixyz then Some 2 else None.

(** [std::set<unsigned>(first,last)]: ascending list of the distinct values. *)
Definition set_of (l : list nat) : list nat := fold_left (fun s x => set_insert x s) l [].

(** msh_topology_uniform.cpp:503-547: the index tables of UnifySeparateIndexing_PosTex (the copying of
    coordinates, 548-565, is [uni_xyz0[3k+c] = vtx_xyz[3*uni_xyz[k]+c]] and is not modelled).
    [nxyz], [ntex]: numbers of position and texture vertices; the output vectors start empty.
    [std::set_intersection] of two sets is [filter]. *)
Definition UnifySeparateIndexing (nxyz ntex : nat) (exyz etex : list nat)
    : option (list (option nat) * list nat * list nat) :=
  assertb (length exyz / 3 =? length etex / 3) ;;;
  '(ind0, elsup0) <- JArray_ElSuP_MeshElem [] exyz (length exyz / 3) 3 nxyz ;;
  '(ind1, elsup1) <- JArray_ElSuP_MeshElem [] etex (length etex / 3) 3 ntex ;;
  let tri_uni := repeat (@None nat) (length exyz) in
  forn 0 (length exyz / 3) (fun itri s =>
    forn 0 3 (fun ino s =>
      let '(tri_uni, uni_xyz, uni_tex) := s in
      t <- vget tri_uni (itri * 3 + ino) ;;
      match t with
      | Some _ => Some s
      | None =>
        ixyz <- vget exyz (itri * 3 + ino) ;;
        itex <- vget etex (itri * 3 + ino) ;;
        l0 <- vget ind0 ixyz ;; h0 <- vget ind0 (ixyz + 1) ;;
        l1 <- vget ind1 itex ;; h1 <- vget ind1 (itex + 1) ;;
        let s0 := set_of (firstn (h0 - l0) (skipn l0 elsup0)) in
        let s1 := set_of (firstn (h1 - l1) (skipn l1 elsup1)) in
        let tris := filter (fun x => existsb (Nat.eqb x) s1) s0 in
        match tris with
        | [] => Some s
        | _ =>
          let iuni := length uni_tex in
          let uni_xyz := uni_xyz ++ [ixyz] in
          let uni_tex := uni_tex ++ [itex] in
          tri_uni <- foldM (fun jtri tri_uni =>
              jno <- FindIndexTri exyz jtri ixyz ;;
              a <- vget exyz (jtri * 3 + jno) ;; assertb (a =? ixyz) ;;;
              b <- vget etex (jtri * 3 + jno) ;; assertb (b =? itex) ;;;
              c <- vget tri_uni (jtri * 3 + jno) ;;
              assertb (match c with None => true | Some _ => false end) ;;;
              vset tri_uni (jtri * 3 + jno) (Some iuni)) tris tri_uni ;;
          Some (tri_uni, uni_xyz, uni_tex)
        end
      end) s) (tri_uni, [], []).

(** msh_topology_uniform.cpp:569-588: rod elements of hairs and their one-ring.
    [aIP[ihair+1] - ip0 - 2] is unsigned in the source; a hair with fewer than two points makes it wrap to about
    2^32, modelled here as [None] (the loop would push ~4e9 elements). *)
Definition JArray_PSuP_Hair (psup_0 aIP : list nat) : option (list nat * list nat) :=
  assertb (negb (length aIP =? 0)) ;;;
  a0 <- vget aIP 0 ;; assertb (a0 =? 0) ;;;
  np <- vget aIP (length aIP - 1) ;;
  rods <- forn 0 (length aIP - 1) (fun ihair rods =>
      ip0 <- vget aIP ihair ;; ip1 <- vget aIP (ihair + 1) ;;
      assertb (ip0 + 2 <=? ip1) ;;;
      forn 0 (ip1 - ip0 - 2) (fun ir rods => Some (rods ++ [ip0 + ir + 0; ip0 + ir + 1; ip0 + ir + 2])) rods) [] ;;
  JArray_PSuP_MeshElem psup_0 rods (length rods / 3) 3 np.
