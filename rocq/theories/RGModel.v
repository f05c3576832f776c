(** Model of regions of the complex plane, /repo/src/sys/classes/rg, in exact real
    arithmetic.  A point is the pair (real part, imaginary part). *)
From Coq Require Import Reals ZArith List Bool.
From Verif Require Import Prelude RealBool.
Import ListNotations.
Open Scope R_scope.

Notation point := (R * R)%type.

(** Type-specific data: rginterval.c:18-21 RG_INTERVAL, rgellipse.c:17-21 RG_ELLIPSE,
    rgring.c:18-25 RG_RING, rgpolygon.c:19-22 RG_POLYGON.  The centre is a pair, its second
    component is 0 in real scalars. *)
Inductive shape :=
| Interval (a b c d : R)
| Ellipse (center : point) (radius vscale : R)
| Ring (center : point) (radius vscale start_ang end_ang width : R)
| Polygon (vs : list point).

(** include/slepc/private/rgimpl.h _p_RG: data, complement, sfactor, osfactor. *)
Record rg := RG { data : shape; complement : bool; sfactor : R; osfactor : R }.

(** Output arrays of contours, one entry per point, None if not written. *)
Notation contour_array := (list (option point)).

Section RG.
Variable cplx : bool.       (* PETSC_USE_COMPLEX *)
Variable MAXR : R.          (* PETSC_MAX_REAL *)

(** Values of PETSC_DETERMINE=PETSC_DECIDE and PETSC_CURRENT=PETSC_DEFAULT in PETSc headers. *)
Definition DETERMINE : R := -1.
Definition CURRENT : R := -2.

(** rgbasic.c:RGCreate with RGSetType: initial scale 1, no complement, no pushed scale;
    default parameters of each type (rginterval.c:368-371, rgellipse.c:RGCreate_Ellipse,
    rgring.c:RGCreate_Ring). *)
Definition rg_create_interval : rg := RG (Interval (-MAXR) MAXR (-MAXR) MAXR) false 1 0.
Definition rg_create_ellipse : rg := RG (Ellipse (0,0) MAXR 1) false 1 0.
Definition rg_create_ring : rg := RG (Ring (0,0) MAXR 1 0 1 (1/10)) false 1 0.
Definition rg_create_polygon : rg := RG (Polygon []) false 1 0.

Definition set_data (r : rg) (s : shape) : rg := RG s (complement r) (sfactor r) (osfactor r).
Definition nz (x : R) : bool := negb (Reqb x 0).

(** rginterval.c:23-41 RGIntervalSetEndpoints_Interval *)
Definition interval_set_endpoints (r : rg) (a b c d : R) : res rg :=
  match data r with
  | Interval _ _ _ _ =>
    check (nz a || nz b || nz c || nz d)
    (check (negb (Reqb a b) || negb (nz a))
    (check (Rleb a b)
    (check (negb (Reqb c d) || negb (nz c))
    (check (Rleb c d)
    (check (cplx || Reqb c (-d))
      (Ok (set_data r (Interval a b c d))))))))
  | _ => Ok r   (* PetscTryMethod: ignored for other types *)
  end.

(** Parameter handling of rgellipse.c:29-34 and similar: DETERMINE gives the default,
    CURRENT keeps the value, otherwise the value must satisfy [ok]. *)
Definition set_param (new old dflt : R) (ok : R -> bool) : res R :=
  if Reqb new DETERMINE then Ok dflt
  else if Reqb new CURRENT then Ok old
  else check (ok new) (Ok new).
Definition positive (x : R) : bool := Rltb 0 x.
Definition in01 (x : R) : bool := Rleb 0 x && Rleb x 1.

(** The PetscScalar argument center: real in real scalars. *)
Definition scalar_arg (z : point) : point := if cplx then z else (fst z, 0).

(** rgellipse.c:23-42 RGEllipseSetParameters_Ellipse *)
Definition ellipse_set_parameters (r : rg) (center : point) (radius vscale : R) : res rg :=
  match data r with
  | Ellipse _ radius0 vscale0 =>
    do ra <- set_param radius radius0 1 positive;
    do vs <- set_param vscale vscale0 1 positive;
    Ok (set_data r (Ellipse (scalar_arg center) ra vs))
  | _ => Ok r
  end.

(** rgring.c:27-69 RGRingSetParameters_Ring *)
Definition ring_set_parameters (r : rg) (center : point) (radius vscale start_ang end_ang width : R) : res rg :=
  match data r with
  | Ring _ radius0 vscale0 s0 e0 w0 =>
    do ra <- set_param radius radius0 1 positive;
    do vs <- set_param vscale vscale0 1 positive;
    do sa <- set_param start_ang s0 0 in01;
    do ea <- set_param end_ang e0 1 in01;
    check (cplx || Reqb (sa + ea) 1)
    (do wi <- set_param width w0 (1/10) positive;
     Ok (set_data r (Ring (scalar_arg center) ra vs sa ea wi)))
  | _ => Ok r
  end.

(** rgpolygon.c:32-37, the loop of CheckSymmetry looking for a change of sign; [fuel]
    iterations remain, result (k,j). *)
Fixpoint sym_scan (fuel : nat) (vs : list point) (k j : Z) : res (Z * Z) :=
  match fuel with
  | O => Ok (k, j)
  | S fuel' =>
    do vk <- aget vs k;
    if nz (snd vk) then
      do vj <- aget vs j;
      if Rltb (snd vk * snd vj) 0 then Ok (k, j)
      else sym_scan fuel' vs (k + 1) (j + 1)
    else sym_scan fuel' vs (k + 1) j
  end.

(** rgpolygon.c:40-45, pairing of the vertices; [fuel] pairs remain. *)
Fixpoint sym_pair (fuel : nat) (vs : list point) (k j : Z) : res bool :=
  match fuel with
  | O => Ok true
  | S fuel' =>
    do vk <- aget vs k;
    do vj <- aget vs j;
    if negb (Reqb (fst vk) (fst vj)) || negb (Reqb (snd vk) (- snd vj)) then Ok false
    else sym_pair fuel' vs ((k + 1) mod zlen vs) ((j - 1 + zlen vs) mod zlen vs)
  end.

(** rgpolygon.c:27-46 CheckSymmetry *)
Definition check_symmetry (vs : list point) : res bool :=
  do v0 <- aget vs 0;
  let j0 := if nz (snd v0) then 0%Z else 1%Z in
  do ' (k, j) <- sym_scan (Z.to_nat (zlen vs - (j0 + 1))) vs (j0 + 1) j0;
  if (k =? zlen vs)%Z then Ok (j =? 1)%Z
  else sym_pair (Z.to_nat (zlen vs / 2)) vs k j.

(** rgpolygon.c:49-78 RGPolygonSetVertices_Polygon; VERTMAX=30 *)
Definition polygon_set_vertices (r : rg) (vs : list point) : res rg :=
  match data r with
  | Polygon _ =>
    check (2 <? zlen vs)%Z
    (check (zlen vs <=? 30)%Z
    (do sym <- (if cplx then Ok true else check_symmetry vs);
     check sym (Ok (set_data r (Polygon vs)))))
  | _ => Ok r
  end.

(** rgbasic.c:676-683 RGSetComplement *)
Definition rg_set_complement (r : rg) (flg : bool) : rg := RG (data r) flg (sfactor r) (osfactor r).

(** rgbasic.c:727-736 RGSetScale *)
Definition rg_set_scale (r : rg) (s : R) : res rg :=
  let s := if Reqb s CURRENT || Reqb s DETERMINE then 1 else s in
  check (Rltb 0 s) (Ok (RG (data r) (complement r) s (osfactor r))).

(** rgbasic.c:782-792 RGPushScale *)
Definition rg_push_scale (r : rg) (s : R) : res rg :=
  check (Rltb 0 s)
  (check (negb (nz (osfactor r)))
  (Ok (RG (data r) (complement r) (sfactor r * s) (sfactor r)))).

(** rgbasic.c:806-814 RGPopScale *)
Definition rg_pop_scale (r : rg) : res rg :=
  check (nz (osfactor r)) (Ok (RG (data r) (complement r) (osfactor r) 0)).

(** rginterval.c:292-306 RGCheckInside_Interval *)
Definition check_interval (a b c d dx dy : R) : Z :=
  let inside :=
    if Rltb a dx && Rltb dx b then 1%Z
    else if Reqb dx a || Reqb dx b then 0%Z
    else (-1)%Z in
  if (0 <=? inside)%Z then
    (if Rltb c dy && Rltb dy d then inside
     else if Reqb dy c || Reqb dy d then 0%Z
     else (-1)%Z)
  else inside.

(** px - Re(center) and py - Im(center) (in real scalars py itself), rgellipse.c:233-239. *)
Definition rel (p center : point) : point :=
  (fst p - fst center, if cplx then snd p - snd center else snd p).

(** rgellipse.c:227-243 RGCheckInside_Ellipse *)
Definition check_ellipse (center : point) (radius vscale : R) (p : point) : res Z :=
  let q := rel p center in
  do dx <- rdiv (fst q) radius;
  do dy <- rdiv (snd q) radius;
  do e <- rdiv (dy * dy) (vscale * vscale);
  Ok (rsign (1 - dx * dx - e)).

(** rgring.c:364-372, the angle of a point in turns. *)
Definition ring_angle (dx dy vscale : R) : res R :=
  if Reqb dx 0 then
    Ok (if Reqb dy 0 then -1 else if Rltb 0 dy then / 4 else 3 / 4)
  else
    do t <- rdiv dy vscale;
    do t' <- rdiv t dx;
    if Rltb 0 dx then
      Ok (if Rleb 0 dy then atan t' / (2 * PI) else atan t' / (2 * PI) + 1)
    else Ok (atan t' / (2 * PI) + / 2).

(** rgring.c:373-377 *)
Definition angle_out (start_ang end_ang r : R) : bool :=
  if Rltb end_ang start_ang then Rltb end_ang r && Rltb r start_ang
  else Rltb r start_ang || Rltb end_ang r.

(** rgring.c:330-380 RGCheckInside_Ring *)
Definition check_ring (center : point) (radius vscale start_ang end_ang width : R) (p : point) : res Z :=
  let q := rel p center in
  do dx <- rdiv (fst q) (radius + width / 2);
  do dy <- rdiv (snd q) (radius + width / 2);
  do e <- rdiv (dy * dy) (vscale * vscale);
  let ins := rsign (1 - dx * dx - e) in
  do dx <- rdiv (fst q) (radius - width / 2);
  do dy <- rdiv (snd q) (radius - width / 2);
  do e <- rdiv (dy * dy) (vscale * vscale);
  let ins := (ins * rsign (-1 + dx * dx + e))%Z in
  if (ins =? 1)%Z then
    do r <- ring_angle (fst q) (snd q) vscale;
    Ok (if angle_out start_ang end_ang r then (-1)%Z else ins)
  else Ok ins.

(** rgpolygon.c:358-394 RGCheckInside_Polygon; [tol] is 10*PETSC_MACHINE_EPSILON.
    [es] are the edges (v_i, v_{(i+1)%n}) relative to the point, in order.
    The division on line 387 never has a zero divisor since x[i],x[j] have different signs
    there; it is still checked. *)
Fixpoint poly_loop (tol : R) (es : list (point * point)) (inout : Z) : res Z :=
  match es with
  | [] => Ok inout
  | ((xi, yi), (xj, yj)) :: es' =>
    let mx := negb (Rltb xi 0) in
    let nx := negb (Rltb xj 0) in
    let my := negb (Rltb yi 0) in
    let ny := negb (Rltb yj 0) in
    if negb ((my || ny) && (mx || nx)) || (mx && nx) then poly_loop tol es' inout
    else if (my && ny && (mx || nx)) && negb (mx && nx) then poly_loop tol es' (- inout)%Z
    else
      do val <- rdiv (yi * xj - xi * yj) (xj - xi);
      if Rltb (Rabs val) tol then Ok 0%Z
      else if Rltb 0 val then poly_loop tol es' (- inout)%Z
      else poly_loop tol es' inout
  end.

Definition shift_point (p v : point) : point := (fst v - fst p, snd v - snd p).
Definition edges {A} (vs : list A) : list (A * A) :=
  match vs with [] => [] | v :: r => combine vs (r ++ [v]) end.
Definition check_polygon (tol : R) (vs : list point) (p : point) : res Z :=
  poly_loop tol (edges (map (shift_point p) vs)) (-1)%Z.

Variable tol : R.           (* 10*PETSC_MACHINE_EPSILON *)

(** ops->checkinside *)
Definition check_shape (s : shape) (p : point) : res Z :=
  match s with
  | Interval a b c d => Ok (check_interval a b c d (fst p) (snd p))
  | Ellipse ce ra vs => check_ellipse ce ra vs p
  | Ring ce ra vs sa ea w => check_ring ce ra vs sa ea w p
  | Polygon vs => check_polygon tol vs p
  end.

(** rgbasic.c:417-447 RGCheckInside for one point *)
Definition rg_check_inside (r : rg) (p : point) : res Z :=
  do p' <- (if negb (Reqb (sfactor r) 1)
            then (do x <- rdiv (fst p) (sfactor r); do y <- rdiv (snd p) (sfactor r); Ok (x, y))
            else Ok p);
  do ins <- check_shape (data r) p';
  Ok (if complement r then (- ins)%Z else ins).

(** rginterval.c:161-169, rgellipse.c:164-172, rgring.c:240-248, rgpolygon.c:253-260 *)
Definition rg_is_trivial (r : rg) : bool :=
  match data r with
  | Interval a b c d =>
      if complement r then Reqb a b && Reqb c d
      else Rleb a (-MAXR) && Rleb MAXR b && Rleb c (-MAXR) && Rleb MAXR d
  | Ellipse _ ra _ | Ring _ ra _ _ _ _ =>
      if complement r then Reqb ra 0 else negb (Rltb ra MAXR)
  | Polygon vs => match vs with [] => true | _ => false end
  end.

(** rginterval.c:308-316, rgellipse.c:245-253, rgring.c:382-390; not implemented for
    polygons, rgbasic.c:470-479 then answers FALSE. *)
Definition rg_is_axisymmetric (r : rg) (vertical : bool) : bool :=
  match data r with
  | Interval a b c d => if vertical then Reqb a (-b) else Reqb c (-d)
  | Ellipse ce _ _ => if vertical then Reqb (fst ce) 0 else Reqb (snd ce) 0
  | Ring ce _ _ sa ea _ =>
      if vertical then Reqb (fst ce) 0 && Reqb (Rabs (sa + ea - 1)) (/ 2)
      else Reqb (snd ce) 0 && Reqb (sa + ea) 1
  | Polygon _ => false
  end.

(** rginterval.c:235-245, rgellipse.c:193-203, rgring.c:280-291, rgpolygon.c:332-356 *)
Definition bbox_shape (s : shape) : R * R * R * R :=
  match s with
  | Interval a b c d => (a, b, c, d)
  | Ellipse ce ra vs =>
      (fst ce - ra, fst ce + ra, snd ce - ra * vs, snd ce + ra * vs)
  | Ring ce ra vs _ _ w =>
      let q := ra + w / 2 in (fst ce - q, fst ce + q, snd ce - q * vs, snd ce + q * vs)
  | Polygon vs =>
      fold_left (fun acc v => let '(a, b, c, d) := acc in
          (Rmin a (fst v), Rmax b (fst v), Rmin c (snd v), Rmax d (snd v)))
        vs (MAXR, - MAXR, MAXR, - MAXR)
  end.

(** rgbasic.c:597-616 RGComputeBoundingBox (all four output arguments given) *)
Definition rg_bbox (r : rg) : R * R * R * R :=
  if complement r then (- MAXR, MAXR, - MAXR, MAXR)
  else
    let '(a, b, c, d) := bbox_shape (data r) in
    (if Reqb a (- MAXR) then a else a * sfactor r,
     if Reqb b MAXR then b else b * sfactor r,
     if Reqb c (- MAXR) then c else c * sfactor r,
     if Reqb d MAXR then d else d * sfactor r).

(** rgbasic.c:505-527 RGCanUseConjugates *)
Definition rg_can_use_conjugates (r : rg) (realmats : bool) : bool :=
  if cplx && realmats && rg_is_axisymmetric r false then
    let '(_, _, c, d) := rg_bbox r in negb (Reqb c d)
  else false.

(** Contours.  The output arrays cr, ci are one array of points, initially unwritten
    (None); both output arguments are assumed given in real scalars. *)
Definition unwritten (n : Z) : contour_array := repeat None (Z.to_nat n).

(** PetscFloorReal, PetscCeilReal *)
Definition rfloor (t : R) : Z := Int_part t.
Definition rceil (t : R) : Z := (- Int_part (- t))%Z.

(** rginterval.c:193-196: number of points on a vertical side *)
Definition interval_nv (a b c d : R) (N : Z) : res Z :=
  do t0 <- rdiv (d - c) (d - c + b - a);
  let t := t0 * IZR N in
  let Nv := if Rltb (/ 2) (t - IZR (rfloor t)) then rceil t else rfloor t in
  Ok (if (Nv =? 0)%Z then (Nv + 1)%Z else if (Nv =? N)%Z then (Nv - 1)%Z else Nv).

(** rginterval.c:171-233 RGComputeContour_Interval *)
Definition contour_interval (a b c d : R) (n : Z) (cr : contour_array) : res contour_array :=
  check (Rltb (- MAXR) a && Rltb b MAXR && Rltb (- MAXR) c && Rltb d MAXR)
  (if Reqb a b || Reqb c d then
    do ' (hh, hv) <- (if Reqb a b then do hv <- rdiv (d - c) (IZR (n - 1)); Ok (0, hv)
                      else do hh <- rdiv (b - a) (IZR (n - 1)); Ok (hh, 0));
    forz 0 n (fun i cr => aset cr i (Some (a + hh * IZR i, c + hv * IZR i))) cr
  else
    check (3 <? n)%Z
    (let N := (n / 2)%Z in
     do Nv <- interval_nv a b c d N;
     let Nh := (N - Nv)%Z in
     do hh <- rdiv (b - a) (IZR Nh);
     do hv <- rdiv (d - c) (IZR Nv);
     let k1 := (Nv / 2 + 1)%Z in
     let k0 := (Nv - k1)%Z in
     do cr <- forz k1 Nv (fun i cr =>
        do cr <- aset cr (i - k1) (Some (b, c + IZR i * hv));
        aset cr (i - k1 + N) (Some (a, d - IZR i * hv))) cr;
     do cr <- forz 0 Nh (fun i cr =>
        do cr <- aset cr (i + k0) (Some (b - IZR i * hh, d));
        aset cr (i + k0 + N) (Some (a + IZR i * hh, c))) cr;
     forz 0 k1 (fun i cr =>
        if cplx then
          do cr <- aset cr (i + k0 + Nh) (Some (a, d - IZR i * hv));
          aset cr (i + k0 + Nh + N) (Some (b, c + IZR i * hv))
        else
          do cr <- aset cr (i + k0 + Nh) (Some (a, d + IZR i * hv));
          aset cr (i + k0 + Nh + N) (Some (b, c - IZR i * hv))) cr)).

(** rgellipse.c:174-191 RGComputeContour_Ellipse *)
Definition contour_ellipse (ce : point) (ra vs : R) (n : Z) (cr : contour_array) : res contour_array :=
  forz 0 n (fun i cr =>
    do theta <- rdiv (2 * PI * (IZR i + / 2)) (IZR n);
    aset cr i (Some (fst ce + ra * cos theta,
                     (if cplx then snd ce else 0) + ra * vs * sin theta))) cr.

(** rgring.c:250-278 RGComputeContour_Ring *)
Definition contour_ring (ce : point) (ra vs sa ea w : R) (n : Z) (cr : contour_array) : res contour_array :=
  let n2 := (n / 2)%Z in
  let st := if Rltb ea sa then sa - 1 else sa in
  forz 0 n (fun i cr =>
    if (i <? n2)%Z then
      do t <- rdiv ((ea - st) * IZR i) (IZR n2);
      let theta := (t + st) * 2 * PI in
      aset cr i (Some (fst ce + (ra + w / 2) * cos theta,
                       (if cplx then snd ce else 0) + (ra + w / 2) * vs * sin theta))
    else
      do t <- rdiv ((ea - st) * IZR (n - i)) (IZR n2);
      let theta := (t + st) * 2 * PI in
      aset cr i (Some (fst ce + (ra - w / 2) * cos theta,
                       (if cplx then snd ce else 0) + (ra - w / 2) * vs * sin theta))) cr.

(** SlepcAbsEigenvalue, include/slepcmath.h:92-96 (exact modulus, see C29). *)
Definition modulus (x y : R) : R := sqrt (x * x + y * y).

(** incr /= d, inci /= d; with d==0 the result is NaN (None). *)
Definition direction (dx dy d : R) : option point :=
  if Reqb d 0 then None else Some (dx / d, dy / d).

(** rgpolygon.c:293-326, the while loop.  [incr] is the unit direction of the current
    edge; using it when it is NaN is UB.  One unit of fuel per iteration. *)
Fixpoint poly_walk (fuel : nat) (vs : list point) (n : Z) (h : R)
    (k idx : Z) (ini : bool) (rem : R) (incr : option point) (cr : contour_array) : res contour_array :=
  match fuel with
  | O => Loop
  | S fuel' =>
    if (k <? n)%Z then
      if ini then
        do v0 <- aget vs idx;
        do v1 <- aget vs (idx + 1);
        let dx := fst v0 - fst v1 in
        let dy := snd v0 - snd v1 in
        let d := modulus dx dy in
        let incr := direction dx dy d in
        if Rltb h (rem + d) then
          match incr with
          | None => UB
          | Some u =>
            do cr <- aset cr k (Some (fst v1 + fst u * (h - rem), snd v1 + snd u * (h - rem)));
            poly_walk fuel' vs n h (k + 1) idx false rem incr cr
          end
        else poly_walk fuel' vs n h k (idx - 1) true (rem + d) incr cr
      else
        do v0 <- aget vs idx;
        do o <- aget cr (k - 1);
        match o with
        | None => UB
        | Some q =>
          let rem := modulus (fst v0 - fst q) (snd v0 - snd q) in
          if Rltb h rem then
            match incr with
            | None => UB
            | Some u =>
              do cr <- aset cr k (Some (fst q + fst u * h, snd q + snd u * h));
              poly_walk fuel' vs n h (k + 1) idx false rem incr cr
            end
          else poly_walk fuel' vs n h k (idx - 1) true rem incr cr
        end
    else Ok cr
  end.

(** rgpolygon.c:262-330 RGComputeContour_Polygon; n=0 would write cr[0] out of bounds. *)
Definition contour_polygon (vs : list point) (n : Z) (cr : contour_array) : res contour_array :=
  check (negb (zlen vs =? 0)%Z)
  (do v0 <- aget vs 0;
   do vl <- aget vs (zlen vs - 1);
   do length <- forz 0 (zlen vs - 1) (fun i len =>
       do v <- aget vs i; do w <- aget vs (i + 1);
       Ok (len + modulus (fst v - fst w) (snd v - snd w)))
     (modulus (fst v0 - fst vl) (snd v0 - snd vl));
   do h <- rdiv length (IZR n);
   do cr <- aset cr 0 (Some v0);
   let dx := fst vl - fst v0 in
   let dy := snd vl - snd v0 in
   poly_walk (Z.to_nat n + List.length vs + 2) vs n h 1 (zlen vs - 1) false 0
     (direction dx dy (modulus dx dy)) cr).

(** rgbasic.c:552-571 RGComputeContour; scaling an entry that was not written reads
    uninitialized memory (the entry stays None here). *)
Definition rg_contour (r : rg) (n : Z) : res contour_array :=
  check (negb (complement r))
  (do cr <- match data r with
            | Interval a b c d => contour_interval a b c d n (unwritten n)
            | Ellipse ce ra vs => contour_ellipse ce ra vs n (unwritten n)
            | Ring ce ra vs sa ea w => contour_ring ce ra vs sa ea w n (unwritten n)
            | Polygon vs => contour_polygon vs n (unwritten n)
            end;
   Ok (map (option_map (fun z : point => (fst z * sfactor r, snd z * sfactor r))) cr)).
End RG.
