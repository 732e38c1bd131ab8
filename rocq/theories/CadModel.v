(** Model of /repo/include/delfem2/cadtopo.h.  UINT_MAX of CadTopo_Loop::iv is [None].  The assert statements are part of the model (None when they fail). *)
From Coq Require Import List Arith Bool.
Import ListNotations.
From Verif Require Import Imp.

(** cadtopo.h:19-24 CadTopo_Edge, 28-82 CadTopo_Loop, 86-108 CadTopo_Face, 112-118 and 236-240 CadTopo. *)
Record edge := Edge { iv0 : nat; iv1 : nat }.
Record loop := Loop { l_iv : option nat; aIE : list (nat * bool) }.
Notation face := (list nat).
Record topo := Topo { num_vertex : nat; edges : list edge; loops : list loop; faces : list face }.
Definition topo0 := Topo 0 [] [] [].
(** cadtopo.h:21 *)
Definition IndexVertex (e : edge) (is_root : bool) : nat := if is_root then iv0 e else iv1 e.

(** cadtopo.h:32-40 *)
Definition GetArray_IdVertex (es : list edge) (l : loop) : option (list nat) :=
  foldM (fun '(ie0, dir) res => e <- vget es ie0 ;; Some (res ++ [IndexVertex e dir])) (aIE l) [].
(** cadtopo.h:42-55 *)
Definition LoopAssert (es : list edge) (l : loop) : option unit :=
  assertb (match l_iv l with None => true | Some _ => length (aIE l) =? 0 end) ;;;
  let ne := length (aIE l) in
  forn 0 ne (fun iie _ =>
    '(ie0, flg0) <- vget (aIE l) ((iie + 0) mod ne) ;;
    '(ie1, flg1) <- vget (aIE l) ((iie + 1) mod ne) ;;
    e0 <- vget es ie0 ;; e1 <- vget es ie1 ;;
    assertb (IndexVertex e0 (negb flg0) =? IndexVertex e1 flg1)) tt.
(** cadtopo.h:57-69.  The loop returns at the first hit. *)
Definition LoopIsIncludeVertex (ivtx : nat) (es : list edge) (l : loop) : option bool :=
  match l_iv l with
  | Some _ => assertb (length (aIE l) =? 0) ;;; Some true
  | None => forb 0 (length (aIE l)) (fun i r => '(ie0, dir) <- vget (aIE l) i ;; e <- vget es ie0 ;; if ivtx =? IndexVertex e dir then Some (true, true) else Some (r, false)) false
  end.
(** cadtopo.h:71-77 *)
Definition LoopIsIncludeEdge (iedge : nat) (l : loop) : option bool :=
  forb 0 (length (aIE l)) (fun i r => '(ie0, dir) <- vget (aIE l) i ;; if ie0 =? iedge then Some (true, true) else Some (r, false)) false.
(** cadtopo.h:88-97 *)
Definition FaceIsIncludeVertex (ivtx : nat) (es : list edge) (ls : list loop) (f : face) : option bool :=
  forb 0 (length f) (fun i r => il <- vget f i ;; l <- vget ls il ;; b <- LoopIsIncludeVertex ivtx es l ;; if b : bool then Some (true, true) else Some (r, false)) false.
(** cadtopo.h:99-107 *)
Definition FaceIsIncludeEdge (iedge : nat) (ls : list loop) (f : face) : option bool :=
  forb 0 (length f) (fun i r => il <- vget f i ;; l <- vget ls il ;; b <- LoopIsIncludeEdge iedge l ;; if b : bool then Some (true, true) else Some (r, false)) false.

(** cadtopo.h:120-125 *)
Definition Clear (t : topo) : topo := topo0.
(** cadtopo.h:127-145 *)
Definition AddPolygon (t : topo) (np : nat) : option topo :=
  let iv0_ := num_vertex t in
  let ie0 := length (edges t) in
  es <- forn 0 np (fun iie es => Some (es ++ [Edge (iv0_ + (iie + 0) mod np) (iv0_ + (iie + 1) mod np)])) (edges t) ;;
  l <- forn 0 np (fun iie l => Some (l ++ [(ie0 + iie, true)])) [] ;;
  let ls := loops t ++ [Loop None l] in
  Some (Topo (num_vertex t + np) es ls (faces t ++ [[length ls - 1]])).
(** cadtopo.h:147-157 *)
Definition AddVtx_Face (t : topo) (ifc : nat) : option (topo * bool) :=
  if length (faces t) <=? ifc then Some (t, false) else
  let ivn := num_vertex t in
  let ls := loops t ++ [Loop (Some ivn) []] in
  let il0 := length ls - 1 in
  fs <- vmod (faces t) ifc (fun f => f ++ [il0]) ;;
  Some (Topo (num_vertex t + 1) (edges t) ls fs, true).
(** cadtopo.h:159-187.  A backward edge is left alone (the program prints a TODO message). *)
Definition AddVtx_Edge (t : topo) (ieo : nat) : option (topo * bool) :=
  if length (edges t) <=? ieo then Some (t, false) else
  let ivn := num_vertex t in
  e <- vget (edges t) ieo ;;
  let v0 := iv0 e in let v1 := iv1 e in
  let ien := length (edges t) in
  let es := edges t ++ [Edge 0 0] in
  es <- vset es ieo (Edge v0 ivn) ;;
  es <- vset es ien (Edge ivn v1) ;;
  ls <- forn 0 (length (loops t)) (fun il ls =>
    l <- vget ls il ;;
    let ne := length (aIE l) in
    iie <- forb 0 ne (fun i _ => '(ie, _) <- vget (aIE l) i ;; if ie =? ieo then Some (i, true) else Some (S i, false)) 0 ;;
    if iie =? ne then Some ls else
    '(_, dir) <- vget (aIE l) iie ;;
    if dir : bool then vset ls il (Loop (l_iv l) (firstn (iie + 1) (aIE l) ++ (ien, true) :: skipn (iie + 1) (aIE l))) else Some ls) (loops t) ;;
  Some (Topo (num_vertex t + 1) es ls (faces t), true).

(** cadtopo.h:189-193 *)
Definition Assert (t : topo) : option unit := foldM (fun l _ => LoopAssert (edges t) l) (loops t) tt.
(** cadtopo.h:195-198 *)
Definition VertexIndexs_EdgeEndPoints (t : topo) (ie : nat) : option (nat * nat) := e <- vget (edges t) ie ;; Some (iv0 e, iv1 e).
(** cadtopo.h:200-205: the face index is used as a loop index. *)
Definition VertexIndexs_Face (t : topo) (iface : nat) : option (list nat) :=
  assertb (iface <? length (faces t)) ;;; l <- vget (loops t) iface ;; GetArray_IdVertex (edges t) l.
(** cadtopo.h:207-214 *)
Definition EdgeIndexes_Face (t : topo) (iface : nat) : option (list (nat * bool)) :=
  f <- vget (faces t) iface ;; foldM (fun il r => l <- vget (loops t) il ;; Some (r ++ aIE l)) f [].
(** cadtopo.h:216-224 *)
Definition FindFaceIndexes_IncludeVeretx (t : topo) (ivtx : nat) : option (list nat) :=
  assertb (ivtx <? num_vertex t) ;;;
  forn 0 (length (faces t)) (fun ifc res => f <- vget (faces t) ifc ;; b <- FaceIsIncludeVertex ivtx (edges t) (loops t) f ;; if b : bool then Some (res ++ [ifc]) else Some res) [].
(** cadtopo.h:226-234 *)
Definition FindFaceIndexes_IncludeEdge (t : topo) (iedge : nat) : option (list nat) :=
  assertb (iedge <? length (edges t)) ;;;
  forn 0 (length (faces t)) (fun ifc res => f <- vget (faces t) ifc ;; b <- FaceIsIncludeEdge iedge (loops t) f ;; if b : bool then Some (res ++ [ifc]) else Some res) [].
