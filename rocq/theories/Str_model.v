(** Model of the structured spline and Lagrange patches: element connectivity,
    node and element numbering, boundary node and element sets, Dirichlet
    boundaries and patch connection.

    Sources: src/ASM/ASMs1D.C, ASMs2D.C, ASMs3D.C, ASMs2DLag.C, ASMs3DLag.C,
    ASMs3Dmx.C.

    Modelling choices.  [int] and [size_t] are Z without overflow.  Knots are
    integers: the code only compares them (knotSpan > 0.0), and every finite
    list of doubles embeds into Z with its order.  A spline direction is the
    number of coefficients, the order and the knot vector as a function of the
    0-based knot index.  Global counters (gEl, gNod) are arguments.  Not
    modelled: shared patches (shareFE), getSize failures other than a basis
    that does not exist, the debug output, reserve() calls. *)
From Coq Require Import ZArith List Bool Lia.
Import ListNotations.
Local Open Scope Z_scope.

(** One parameter direction of a spline object (GoTools numCoefs, order and
    knot access, used at src/ASM/ASMs2D.C:3344-3347 and ASMs3D.C:3901-3906). *)
Record sdir := mkDir { ncf : Z; ord : Z; knot : Z -> Z }.

(** Go::SplineSurface::knotSpan(dir,i) and the test of ASMs1D.C:1971
    (src/ASM/ASMs2D.C:3353): knot i+1 minus knot i. *)
Definition knotSpan (d : sdir) (i : Z) : Z := knot d (i + 1) - knot d i.

(** for (int i = lo; i < lo+cnt; i++) as the list of the values of i. *)
Definition zrange (lo cnt : Z) : list Z :=
  map (fun k => lo + Z.of_nat k) (seq 0 (Z.to_nat cnt)).

(** for (int i = hi; i >= 0; i--): the values of i
    (e.g. src/ASM/ASMs2D.C:3357-3358). *)
Definition zdown (hi : Z) : list Z := rev (zrange 0 (hi + 1)).

(** A loop "for (...; i <= cnt; i++, node += inc)" whose body appends to the
    output vector, with the running node number as state
    (the shape of the loops of src/ASM/ASMs2D.C:1518-1530). *)
Fixpoint loop {A} (cnt : nat) (node inc : Z) (body : Z -> list A) : list A :=
  match cnt with
  | O => []
  | S c => body node ++ loop c (node + inc) inc body
  end.

(* ------------------------------------------------------------------ *)
(** * Element connectivity *)

(** src/ASM/ASMs1D.C:1963-1979, ASMs1D::createMNPC. *)
Definition createMNPC1 (d1 : sdir) : list (list Z) :=
  map (fun i1 =>
         if knot d1 (i1 - 1) <? knot d1 i1 then
           map (fun j1 => (i1 - 1) - j1) (zdown (ord d1 - 1))
         else [])
      (zrange (ord d1) (ncf d1 - ord d1 + 1)).

(** src/ASM/ASMs2D.C:3342-3361, ASMs2D::createMNPC. *)
Definition createMNPC2 (d1 d2 : sdir) : list (list Z) :=
  flat_map (fun i2 =>
    map (fun i1 =>
      if (0 <? knotSpan d1 (i1 - 1)) && (0 <? knotSpan d2 (i2 - 1)) then
        let inod := (i2 - 1) * ncf d1 + i1 - 1 in
        flat_map (fun j2 => map (fun j1 => inod - ncf d1 * j2 - j1)
                                (zdown (ord d1 - 1)))
                 (zdown (ord d2 - 1))
      else [])
      (zrange (ord d1) (ncf d1 - ord d1 + 1)))
    (zrange (ord d2) (ncf d2 - ord d2 + 1)).

(** src/ASM/ASMs3D.C:3899-3924, ASMs3D::createMNPC. *)
Definition createMNPC3 (d1 d2 d3 : sdir) : list (list Z) :=
  flat_map (fun i3 =>
    flat_map (fun i2 =>
      map (fun i1 =>
        if (0 <? knotSpan d1 (i1 - 1)) && (0 <? knotSpan d2 (i2 - 1))
           && (0 <? knotSpan d3 (i3 - 1)) then
          let inod := ((i3 - 1) * ncf d2 + (i2 - 1)) * ncf d1 + i1 - 1 in
          flat_map (fun j3 =>
            flat_map (fun j2 =>
              map (fun j1 => inod - ncf d1 * ncf d2 * j3 - ncf d1 * j2 - j1)
                  (zdown (ord d1 - 1)))
              (zdown (ord d2 - 1)))
            (zdown (ord d3 - 1))
        else [])
        (zrange (ord d1) (ncf d1 - ord d1 + 1)))
      (zrange (ord d2) (ncf d2 - ord d2 + 1)))
    (zrange (ord d3) (ncf d3 - ord d3 + 1)).

(** The numbering state of generateFEMTopology: myMLGE (in element order),
    gEl, myMLGN, gNod and myNodeInd.  Vectors that the code sizes in advance
    and fills by index nel++ / nnod++ are built by appending. *)
Record topo := mkTopo { t_mlge : list Z; t_gEl : Z;
                        t_mlgn : list Z; t_gNod : Z;
                        t_ind  : list (Z * Z * Z) }.

(** The body of the innermost loop, src/ASM/ASMs2D.C:561-575 and
    ASMs3D.C:492-508: [inel] is the test i1 >= p1 && i2 >= p2 (&& i3 >= p3),
    [pos] the knot span test. *)
Definition topo_step (ijk : Z * Z * Z) (inel pos : bool) (s : topo) : topo :=
  let s1 :=
    if inel then
      if pos then
        mkTopo (t_mlge s ++ [t_gEl s + 1]) (t_gEl s + 1)
               (t_mlgn s) (t_gNod s) (t_ind s ++ [ijk])
      else mkTopo (t_mlge s ++ [0]) (t_gEl s)
                  (t_mlgn s) (t_gNod s) (t_ind s ++ [ijk])
    else mkTopo (t_mlge s) (t_gEl s) (t_mlgn s) (t_gNod s) (t_ind s ++ [ijk]) in
  mkTopo (t_mlge s1) (t_gEl s1)
         (t_mlgn s1 ++ [t_gNod s1 + 1]) (t_gNod s1 + 1) (t_ind s1).

(** src/ASM/ASMs2D.C:501-583, ASMs2D::generateFEMTopology on a new patch
    (nodeInd empty, not shared); None: the consistency checks of 546-548
    return false.  The result also carries myMNPC. *)
Definition generateFEMTopology2 (d1 d2 : sdir) (gEl gNod : Z)
  : option (topo * list (list Z)) :=
  if (ncf d1 <? 2) || (ncf d2 <? 2) then None
  else if (ord d1 <? 1) || (ord d2 <? 1) then None
  else if (ncf d1 <? ord d1) || (ncf d2 <? ord d2) then None
  else
    Some (fold_left (fun s i2 =>
            fold_left (fun s i1 =>
              topo_step (i1 - 1, i2 - 1, 0)
                        ((ord d1 <=? i1) && (ord d2 <=? i2))
                        ((0 <? knotSpan d1 (i1 - 1)) &&
                         (0 <? knotSpan d2 (i2 - 1))) s)
              (zrange 1 (ncf d1)) s)
            (zrange 1 (ncf d2)) (mkTopo [] gEl [] gNod []),
          createMNPC2 d1 d2).

(** src/ASM/ASMs3D.C:433-517, ASMs3D::generateFEMTopology on a new patch. *)
Definition generateFEMTopology3 (d1 d2 d3 : sdir) (gEl gNod : Z)
  : option (topo * list (list Z)) :=
  if (ncf d1 <? 2) || (ncf d2 <? 2) || (ncf d3 <? 2) then None
  else if (ord d1 <? 1) || (ord d2 <? 1) || (ord d3 <? 1) then None
  else if (ncf d1 <? ord d1) || (ncf d2 <? ord d2) || (ncf d3 <? ord d3) then None
  else
    Some (fold_left (fun s i3 =>
            fold_left (fun s i2 =>
              fold_left (fun s i1 =>
                topo_step (i1 - 1, i2 - 1, i3 - 1)
                          ((ord d1 <=? i1) && (ord d2 <=? i2) && (ord d3 <=? i3))
                          ((0 <? knotSpan d1 (i1 - 1)) &&
                           (0 <? knotSpan d2 (i2 - 1)) &&
                           (0 <? knotSpan d3 (i3 - 1))) s)
                (zrange 1 (ncf d1)) s)
              (zrange 1 (ncf d2)) s)
            (zrange 1 (ncf d3)) (mkTopo [] gEl [] gNod []),
          createMNPC3 d1 d2 d3).

(** src/ASM/ASMs2DLag.C:970-994, ASMs2DLag::createMNPC; the element's vector
    is filled by index facenod = b*p1, facenod+a in increasing order. *)
Definition createMNPC2Lag (nx ny p1 p2 : Z) : list (list Z) :=
  let nelx := (nx - 1) / (p1 - 1) in
  let nely := (ny - 1) / (p2 - 1) in
  flat_map (fun j =>
    map (fun i =>
      let corner := (p2 - 1) * nx * j + (p1 - 1) * i in
      flat_map (fun b =>
        let first := corner + b * nx in
        first :: map (fun a => first + a) (zrange 1 (p1 - 1)))
        (zrange 0 p2))
      (zrange 0 nelx))
    (zrange 0 nely).

(** src/ASM/ASMs3DLag.C:1269-1308, ASMs3DLag::createMNPC, for p2 >= 2 (the
    division by p2-1 is by zero otherwise): row 0 of a layer starts at cornod
    and is completed inside the loop over b, rows b >= 1 at cornod + b*p1. *)
Definition createMNPC3Lag (nx ny nz p1 p2 p3 : Z) : list (list Z) :=
  let nelx := (nx - 1) / (p1 - 1) in
  let nely := (ny - 1) / (p2 - 1) in
  let nelz := (nz - 1) / (p3 - 1) in
  flat_map (fun k =>
    flat_map (fun j =>
      map (fun i =>
        let corner := (p3 - 1) * (nx * ny) * k + (p2 - 1) * nx * j
                      + (p1 - 1) * i in
        flat_map (fun c =>
          let cor := corner + c * nx * ny in
          (cor :: map (fun a => cor + a) (zrange 1 (p1 - 1))) ++
          flat_map (fun b =>
            let face := cor + b * nx in
            face :: map (fun a => face + a) (zrange 1 (p1 - 1)))
            (zrange 1 (p2 - 1)))
          (zrange 0 p3))
        (zrange 0 nelx))
      (zrange 0 nely))
    (zrange 0 nelz).

(* ------------------------------------------------------------------ *)
(** * Boundary node sets *)

(** A 2D patch: the size (n1,n2) of every basis (getSize), the global node
    numbers MLGN and the flag swapV (src/ASM/ASMs2D.h). *)
Record patch2 := mkP2 { sz2 : list (Z * Z); mlgn2 : list Z; swapV : bool }.

(** A 3D patch: the size (n1,n2,n3) of every basis, MLGN and swapW. *)
Record patch3 := mkP3 { sz3 : list (Z * Z * Z); mlgn3 : list Z; swapW : bool }.

(** MLGN[inod-1], 0 outside the table: src/ASM/ASMs2D.C:355-367 and the 3D
    counterpart, without the map of added nodes. *)
Definition getNodeID (mlgn : list Z) (inod : Z) : Z :=
  if (inod <? 1) || (Z.of_nat (length mlgn) <? inod) then 0
  else nth (Z.to_nat (inod - 1)) mlgn 0.

(** src/ASM/ASMs2D.C:1505-1510 (also 843-848, 3246-3251): the sizes of the
    requested basis and the first node number of it; [offs] is false for local
    numbering.  None: getSize failed, there is no such basis. *)
Fixpoint start2 (sz : list (Z * Z)) (basis : nat) (offs : bool) (node : Z)
  : option (Z * Z * Z) :=
  match sz, basis with
  | _, O => None
  | [], _ => None
  | (n1, n2) :: _, S O => Some (n1, n2, node)
  | (n1, n2) :: sz', S b => start2 sz' b offs (if offs then node + n1 * n2 else node)
  end.

(** src/ASM/ASMs3D.C:1005-1015, ASMs3D::findStartNode. *)
Fixpoint start3 (sz : list (Z * Z * Z)) (basis : nat) (node : Z)
  : option (Z * Z * Z * Z) :=
  match sz, basis with
  | _, O => None
  | [], _ => None
  | (n1, n2, n3) :: _, S O => Some (n1, n2, n3, node)
  | (n1, n2, n3) :: sz', S b => start3 sz' b (node + n1 * n2 * n3)
  end.

(** src/ASM/ASMs2D.C:1497-1541, ASMs2D::getBoundaryNodes; the nodes appended
    for one edge.  [basis] = 0 means 1 (line 1500). *)
Definition getBoundaryNodes2 (p : patch2) (lIndex : Z) (basis : nat) (thick : Z)
  (local : bool) : list Z :=
  match start2 (sz2 p) (Nat.max 1 basis) (negb local) 1 with
  | None => []
  | Some (n1, n2, node) =>
      let id inod := if local then inod else getNodeID (mlgn2 p) inod in
      if (lIndex =? 1) || (lIndex =? 2) then
        let node := if lIndex =? 2 then node + (n1 - thick) else node in
        loop (Z.to_nat n2) node n1
             (fun node => map (fun t => id (node + t)) (zrange 0 thick))
      else if (lIndex =? 3) || (lIndex =? 4) then
        let node := if lIndex =? 4 then node + n1 * (n2 - thick) else node in
        loop (Z.to_nat n1) node 1
             (fun node => map (fun t => id (node + t * n1)) (zrange 0 thick))
      else []
  end.

(** src/ASM/ASMs3D.C:1770-1827, ASMs3D::getBoundaryNodes. *)
Definition getBoundaryNodes3 (p : patch3) (lIndex0 : Z) (basis : nat) (thick : Z)
  (local : bool) : list Z :=
  match start3 (sz3 p) (Nat.max 1 basis) 1 with
  | None => []
  | Some (n1, n2, n3, node0) =>
      if node0 <? 1 then [] else
      let node := if local then 1 else node0 in
      let lIndex := if swapW p && (4 <? lIndex0) then 11 - lIndex0 else lIndex0 in
      let id inod := if local then inod else getNodeID (mlgn3 p) inod in
      if (lIndex =? 1) || (lIndex =? 2) then
        let node := if lIndex =? 2 then node + (n1 - thick) else node in
        loop (Z.to_nat n3) node (n2 * n1) (fun node =>
          loop (Z.to_nat n2) node n1 (fun node =>
            loop (Z.to_nat thick) node 1 (fun inod => [id inod])))
      else if (lIndex =? 3) || (lIndex =? 4) then
        let node := if lIndex =? 4 then node + n1 * (n2 - thick) else node in
        loop (Z.to_nat n3) node (n1 + n1 * (n2 - 1)) (fun node =>
          loop (Z.to_nat n1) node 1 (fun node =>
            loop (Z.to_nat thick) node n1 (fun inod => [id inod])))
      else if (lIndex =? 5) || (lIndex =? 6) then
        let node := if lIndex =? 6 then node + n1 * n2 * (n3 - thick) else node in
        loop (Z.to_nat n2) node n1 (fun node =>
          loop (Z.to_nat n1) node 1 (fun node =>
            loop (Z.to_nat thick) node (n1 * n2) (fun inod => [id inod])))
      else []
  end.

(** src/ASM/ASMs3D.C:1830-1893, ASMs3D::getBoundary1Nodes. *)
Definition getBoundary1Nodes3 (p : patch3) (lEdge0 : Z) (basis : nat)
  (local open : bool) : list Z :=
  match start3 (sz3 p) (Nat.max 1 basis) 1 with
  | None => []
  | Some (n1, n2, n3, node0) =>
      if node0 <? 1 then [] else
      let node := if local then 1 else node0 in
      let lEdge :=
        if swapW p && (lEdge0 <=? 8)
        then lEdge0 + (if (lEdge0 - 1) mod 4 <? 2 then 2 else -2)
        else lEdge0 in
      let '(r0, r1) := if 8 <? lEdge then (n1 * n2, n3)
                       else if 4 <? lEdge then (n1, n2)
                       else (1, n1) in
      let node :=
        if (lEdge =? 6) || (lEdge =? 10) then node + (n1 - 1)
        else if (lEdge =? 2) || (lEdge =? 11) then node + n1 * (n2 - 1)
        else if lEdge =? 12 then node + (n1 * n2 - 1)
        else if (lEdge =? 3) || (lEdge =? 7) then node + n1 * n2 * (n3 - 1)
        else if lEdge =? 8 then node + (n1 * (n2 * (n3 - 1) + 1) - 1)
        else if lEdge =? 4 then node + n1 * (n2 * n3 - 1)
        else node in
      let id inod := if local then inod else getNodeID (mlgn3 p) inod in
      flat_map (fun i =>
        if negb open || ((1 <? i) && (i <? r1))
        then [id (node + r0 * (i - 1))] else [])
        (zrange 1 r1)
  end.

(** src/ASM/ASMs2D.C:3244-3260, ASMs2D::getCorner. *)
Definition getCorner2 (p : patch2) (I J : Z) (basis : nat) : Z :=
  match start2 (sz2 p) basis true 1 with
  | None => -1
  | Some (n1, n2, node) =>
      let J := if swapV p then - J else J in
      let node := if 0 <? I then node + (n1 - 1) else node in
      if 0 <? J then node + n1 * (n2 - 1) else node
  end.

(** src/ASM/ASMs3D.C:3779-3793, ASMs3D::getCorner. *)
Definition getCorner3 (p : patch3) (I J K : Z) (basis : nat) : Z :=
  match start3 (sz3 p) basis 1 with
  | None => -1
  | Some (n1, n2, n3, node) =>
      if node <? 1 then -1 else
      let K := if swapW p then - K else K in
      let node := if 0 <? I then node + (n1 - 1) else node in
      let node := if 0 <? J then node + n1 * (n2 - 1) else node in
      if 0 <? K then node + n1 * n2 * (n3 - 1) else node
  end.

(** src/ASM/ASMs2D.C:3364-3384, ASMs2D::findBoundaryElms. *)
Definition findBoundaryElms2 (d1 d2 : sdir) (lIndex : Z) : list Z :=
  let N1m := ncf d1 - ord d1 + 1 in
  let N2m := ncf d2 - ord d2 + 1 in
  if (lIndex =? 1) || (lIndex =? 2) then
    map (fun i => i * N1m + (lIndex - 1) * (N1m - 1)) (zrange 0 N2m)
  else if (lIndex =? 3) || (lIndex =? 4) then
    map (fun i => i + (lIndex - 3) * N1m * (N2m - 1)) (zrange 0 N1m)
  else [].

(** src/ASM/ASMs3D.C:3927-3957, ASMs3D::findBoundaryElms. *)
Definition findBoundaryElms3 (d1 d2 d3 : sdir) (lIndex : Z) : list Z :=
  let N1m := ncf d1 - ord d1 + 1 in
  let N2m := ncf d2 - ord d2 + 1 in
  let N3m := ncf d3 - ord d3 + 1 in
  if (lIndex =? 1) || (lIndex =? 2) then
    flat_map (fun k => map (fun j => j * N1m + k * N1m * N2m
                                     + (lIndex - 1) * (N1m - 1))
                           (zrange 0 N2m)) (zrange 0 N3m)
  else if (lIndex =? 3) || (lIndex =? 4) then
    flat_map (fun k => map (fun i => i + k * N1m * N2m
                                     + (lIndex - 3) * (N1m * (N2m - 1)))
                           (zrange 0 N1m)) (zrange 0 N3m)
  else if (lIndex =? 5) || (lIndex =? 6) then
    flat_map (fun j => map (fun i => i + j * N1m
                                     + (lIndex - 5) * (N1m * N2m * (N3m - 1)))
                           (zrange 0 N1m)) (zrange 0 N2m)
  else [].

(** src/ASM/ASMs1D.C:775-791, ASMs1D::getBoundaryNodes on the curve d1 whose
    elements are numbered by [mlge]; None: an access outside MNPC[iel]. *)
Definition getBoundaryNodes1 (d1 : sdir) (mlge mlgn : list Z) (lIndex thick : Z)
  (local : bool) : option (list Z) :=
  let mnpc := createMNPC1 d1 in
  let iel := if lIndex =? 1 then 0%nat else Nat.pred (length mnpc) in
  if (0 <? nth iel mlge 0) && ((lIndex =? 1) || (lIndex =? 2)) then
    let offset := if lIndex =? 1 then 0 else ord d1 - thick in
    fold_right (fun i acc =>
        match acc with
        | None => None
        | Some l =>
            if offset + i <? 0 then None else
            match nth_error (nth iel mnpc []) (Z.to_nat (offset + i)) with
            | None => None
            | Some node => Some ((if local then node + 1
                                  else nth (Z.to_nat node) mlgn 0) :: l)
            end
        end) (Some []) (zrange 0 thick)
  else Some [].

(* ------------------------------------------------------------------ *)
(** * Dirichlet boundaries *)

(** src/ASM/ASMs2D.C:841-893, ASMs2D::constrainEdge: the calls
    prescribe(node,dof,code), as (node, code), in order. *)
Definition constrainEdge2 (p : patch2) (dir0 : Z) (open : bool) (code : Z)
  (basis : nat) : list (Z * Z) :=
  match start2 (sz2 p) (Nat.max 1 basis) true 1 with
  | None => []
  | Some (n1, n2, node) =>
      let dir := if swapV p then
                   if (dir0 =? 2) || (dir0 =? -2) then - dir0 else dir0
                 else dir0 in
      let bcode := if 0 <? code then code
                   else if code <? 0 then - code else code in
      if (dir =? 1) || (dir =? -1) then
        let node := if dir =? 1 then node + (n1 - 1) else node in
        (if open then [] else [(node, bcode)]) ++
        loop (Z.to_nat (n2 - 2)) (node + n1) n1 (fun node => [(node, - code)]) ++
        (if open then [] else
           [(node + n1 + n1 * Z.max 0 (n2 - 2), bcode)])
      else if (dir =? 2) || (dir =? -2) then
        let node := if dir =? 2 then node + n1 * (n2 - 1) else node in
        (if open then [] else [(node, bcode)]) ++
        loop (Z.to_nat (n1 - 2)) (node + 1) 1 (fun node => [(node, - code)]) ++
        (if open then [] else
           [(node + 1 + Z.max 0 (n1 - 2), bcode)])
      else []
  end.

(** The inner body of constrainFace, src/ASM/ASMs3D.C:1054-1066 (and 1074-1086,
    1094-1106): [ea] and [eb] say that the first and second in-face index is at
    an end. *)
Definition face_body (open ea eb : bool) (code bcode node : Z) : list (Z * Z) :=
  if open && (ea || eb) then []
  else if ea && eb then [(node, bcode)]
  else [(node, - code)].

(** src/ASM/ASMs3D.C:1025-1107, ASMs3D::constrainFace: the calls of
    prescribe as (node, code), in order.  The running node number of the
    loops is written as a function of the loop indices. *)
Definition constrainFace3 (p : patch3) (dir0 : Z) (open : bool) (code : Z)
  (basis : nat) : list (Z * Z) :=
  match start3 (sz3 p) (Nat.max 1 basis) 1 with
  | None => []
  | Some (n1, n2, n3, node) =>
      if node <? 1 then [] else
      let dir := if swapW p && (Z.abs dir0 =? 3) then - dir0 else dir0 in
      let bcode := if 0 <? code then code
                   else if code <? 0 then - code else code in
      let isend i n := (i =? 1) || (i =? n) in
      if (dir =? 1) || (dir =? -1) then
        let node := if dir =? 1 then node + (n1 - 1) else node in
        flat_map (fun i3 => flat_map (fun i2 =>
          face_body open (isend i2 n2) (isend i3 n3) code bcode
                    (node + n2 * n1 * (i3 - 1) + n1 * (i2 - 1)))
          (zrange 1 n2)) (zrange 1 n3)
      else if (dir =? 2) || (dir =? -2) then
        let node := if dir =? 2 then node + n1 * (n2 - 1) else node in
        flat_map (fun i3 => flat_map (fun i1 =>
          face_body open (isend i1 n1) (isend i3 n3) code bcode
                    (node + (n1 + n1 * (n2 - 1)) * (i3 - 1) + (i1 - 1)))
          (zrange 1 n1)) (zrange 1 n3)
      else if (dir =? 3) || (dir =? -3) then
        let node := if dir =? 3 then node + n1 * n2 * (n3 - 1) else node in
        flat_map (fun i2 => flat_map (fun i1 =>
          face_body open (isend i1 n1) (isend i2 n2) code bcode
                    (node + n1 * (i2 - 1) + (i1 - 1)))
          (zrange 1 n1)) (zrange 1 n2)
      else []
  end.

(* ------------------------------------------------------------------ *)
(** * Renumbering a swapped patch *)

(** std::swap(v[a],v[b]) on a vector. *)
Definition vswap (v : list Z) (a b : Z) : list Z :=
  let x := nth (Z.to_nat a) v 0 in
  let y := nth (Z.to_nat b) v 0 in
  map (fun i => if Z.of_nat i =? a then y else if Z.of_nat i =? b then x
                else nth i v 0) (seq 0 (length v)).

(** src/ASM/ASMs2D.C:1174-1186, ASMs2D::setNodeNumbers and ASMs3D.C:1435-1447
    (with n1 = n1*n2 of the volume): the new MLGN.  ASMbase::setNodeNumbers
    copies the given numbers. *)
Definition setNodeNumbers (swap : bool) (n1 n2 : Z) (nodes : list Z) : list Z :=
  if swap then
    fold_left (fun v j =>
      fold_left (fun v i => vswap v (i + n1 * j) (i + n1 * (n2 - j - 1)))
                (zrange 0 n1) v)
      (zrange 0 (n2 / 2)) nodes
  else nodes.

(* ------------------------------------------------------------------ *)
(** * Patch connection *)

(** The result of a connection: the value returned and the calls
    collapseNodes(neighbor,mnode,*this,snode) made, as (mnode, snode). *)
Definition conn := (bool * list (Z * Z))%type.

(** The loop of src/ASM/ASMs2D.C:731-748: stop at the first pair whose
    coordinates differ ([eqc], when [check] is set). *)
Fixpoint collapse_stop (check : bool) (eqc : Z -> Z -> bool)
  (l : list (Z * Z)) : conn :=
  match l with
  | [] => (true, [])
  | (m, s) :: l' =>
      if negb check || eqc m s then
        let '(ok, r) := collapse_stop check eqc l' in (ok, (m, s) :: r)
      else (false, [])
  end.

(** The calls of src/ASM/ASMs3D.C:789-807: pairs with different coordinates
    are counted as failures and skipped. *)
Definition collapse_skip (check : bool) (eqc : Z -> Z -> bool)
  (l : list (Z * Z)) : conn :=
  let good := filter (fun ms => negb check || eqc (fst ms) (snd ms)) l in
  (Nat.eqb (length good) (length l), good).

(** src/ASM/ASMs2D.C:697-751, ASMs2D::connectBasis. *)
Definition connectBasis2 (me nb : patch2) (edge nedge : Z) (revers : bool)
  (basis : nat) (slave master : Z) (check : bool) (eqc : Z -> Z -> bool)
  (thick : Z) : conn :=
  let slaveNodes := map (fun x => x + slave)
                        (getBoundaryNodes2 me edge basis thick true) in
  let masterNodes := map (fun x => x + master)
                         (getBoundaryNodes2 nb nedge basis thick true) in
  let ns := length slaveNodes in
  if Nat.eqb (length masterNodes) 0 || negb (Nat.eqb (length masterNodes) ns)
  then (false, [])
  else collapse_stop check eqc
         (map (fun i => (nth i masterNodes 0,
                         nth (if revers then (ns - i - 1)%nat else i) slaveNodes 0))
              (seq 0 (length masterNodes))).

(** src/ASM/ASMs2D.C:676-694, ASMs2D::connectPatch. *)
Definition connectPatch2 (me nb : patch2) (edge0 nedge0 : Z) (revers : bool)
  (check : bool) (eqc : Z -> Z -> bool) (thick : Z) : conn :=
  let edge := if swapV me && (2 <? edge0) then 7 - edge0 else edge0 in
  let nedge := if swapV nb && (2 <? nedge0) then 7 - nedge0 else nedge0 in
  connectBasis2 me nb edge nedge revers 1 0 0 check eqc thick.

(** src/ASM/ASMs3D.C:3796-3810, ASMs3D::getFaceSize. *)
Definition getFaceSize (p : patch3) (basis : nat) (face : Z) : option (Z * Z) :=
  match start3 (sz3 p) (Nat.max 1 basis) 1 with
  | None => None
  | Some (n1, n2, n3, _) =>
      Some (if (face =? 1) || (face =? 2) then (n2, n3)
            else if (face =? 3) || (face =? 4) then (n1, n3)
            else if negb (face =? 5) && negb (face =? 6) then (0, 0)
            else (n1, n2))
  end.

(** src/ASM/ASMs3D.C:776-787, the switch on the orientation flag: the position
    (k,l) on this face of the node (i,j) of the neighbour face. *)
Definition orient_kl (norient i j n1 n2 m1 m2 : Z) : Z * Z :=
  if norient =? 0 then (i, j)
  else if norient =? 1 then (i, n2 - j - 1)
  else if norient =? 2 then (n1 - i - 1, j)
  else if norient =? 3 then (n1 - i - 1, n2 - j - 1)
  else if norient =? 4 then (j, i)
  else if norient =? 5 then (j, m2 - i - 1)
  else if norient =? 6 then (m1 - j - 1, i)
  else (m1 - j - 1, m2 - i - 1).

(** src/ASM/ASMs3D.C:724-811, ASMs3D::connectBasis.  Positions are vector
    indices, computed with the loop indices (node = j*n1 + i + 1). *)
Definition connectBasis3 (me nb : patch3) (face nface norient : Z) (basis : nat)
  (slave master : Z) (check : bool) (eqc : Z -> Z -> bool) (thick : Z) : conn :=
  if (norient <? 0) || (7 <? norient) then (false, []) else
  match getFaceSize me basis face with
  | None => (false, [])
  | Some (m1, m2) =>
    match getFaceSize nb basis nface with
    | None => (false, [])
    | Some (a1, a2) =>
      let '(n1, n2) := if 3 <? norient then (a2, a1) else (a1, a2) in
      let slaveNodes := map (fun x => x + slave)
                            (getBoundaryNodes3 me face basis thick true) in
      let masterNodes := map (fun x => x + master)
                             (getBoundaryNodes3 nb nface basis thick true) in
      if (n1 =? 0) || (n2 =? 0) || negb (n1 =? m1) || negb (n2 =? m2)
      then (false, [])
      else
        let '(n1, n2) := if 3 <? norient then (n2, n1) else (n1, n2) in
        collapse_skip check eqc
          (flat_map (fun j => flat_map (fun i =>
             let '(k, l) := orient_kl norient i j n1 n2 m1 m2 in
             map (fun t => (nth (Z.to_nat ((j * n1 + i) * thick + t)) masterNodes 0,
                            nth (Z.to_nat ((l * m1 + k) * thick + t)) slaveNodes 0))
                 (zrange 0 thick))
             (zrange 0 n1)) (zrange 0 n2))
    end
  end.

(** src/ASM/ASMs3D.C:702-721, ASMs3D::connectPatch. *)
Definition connectPatch3 (me nb : patch3) (face0 nface0 norient : Z)
  (check : bool) (eqc : Z -> Z -> bool) (thick : Z) : conn :=
  let face := if swapW me && (4 <? face0) then 11 - face0 else face0 in
  let nface := if swapW nb && (4 <? nface0) then 11 - nface0 else nface0 in
  connectBasis3 me nb face nface norient 1 0 0 check eqc thick.

(** src/ASM/ASMs3Dmx.C:391-415 (and ASMs3DmxLag.C:213-238), the face indices
    that connectPatch of a mixed patch hands to connectBasis. *)
Definition connectFaces3mx (me nb : patch3) (face0 nface0 : Z) : Z * Z :=
  let face := if swapW me && (4 <? face0) then 11 - face0 else face0 in
  let nface := if swapW nb && (4 <? face) then 11 - nface0 else nface0 in
  (face, nface).

(** src/ASM/ASMs1D.C:441-484, connectPatch and connectBasis of a curve; [m],
    [n] are the numbers of nodes of this patch and of the neighbour. *)
Definition connectPatch1 (m n vertex nvertex thick : Z) (eqc : Z -> Z -> bool)
  : conn :=
  let slave := if vertex =? 1 then 1 else 1 + m - thick in
  let master := if nvertex =? 1 then 1 else 1 + n - thick in
  collapse_stop true eqc
    (map (fun i => (master + i, slave + i)) (zrange 0 thick)).
