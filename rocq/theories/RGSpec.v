(** Specification of regions: point sets, positions and histories of calls. *)
From Coq Require Import Reals ZArith List Bool.
From Verif Require Import Prelude RGModel.
Import ListNotations.
Open Scope R_scope.

(** Regions that can be obtained through the public interface. *)
Inductive reachable (cplx : bool) (MAXR : R) : rg -> Prop :=
| r_interval : reachable cplx MAXR (rg_create_interval MAXR)
| r_ellipse : reachable cplx MAXR (rg_create_ellipse MAXR)
| r_ring : reachable cplx MAXR (rg_create_ring MAXR)
| r_polygon : reachable cplx MAXR rg_create_polygon
| r_set_interval r a b c d r' : reachable cplx MAXR r ->
    interval_set_endpoints cplx r a b c d = Ok r' -> reachable cplx MAXR r'
| r_set_ellipse r ce ra vs r' : reachable cplx MAXR r ->
    ellipse_set_parameters cplx r ce ra vs = Ok r' -> reachable cplx MAXR r'
| r_set_ring r ce ra vs sa ea w r' : reachable cplx MAXR r ->
    ring_set_parameters cplx r ce ra vs sa ea w = Ok r' -> reachable cplx MAXR r'
| r_set_polygon r vs r' : reachable cplx MAXR r ->
    polygon_set_vertices cplx r vs = Ok r' -> reachable cplx MAXR r'
| r_complement r b : reachable cplx MAXR r -> reachable cplx MAXR (rg_set_complement r b)
| r_scale r s r' : reachable cplx MAXR r -> rg_set_scale r s = Ok r' -> reachable cplx MAXR r'
| r_push r s r' : reachable cplx MAXR r -> rg_push_scale r s = Ok r' -> reachable cplx MAXR r'
| r_pop r r' : reachable cplx MAXR r -> rg_pop_scale r = Ok r' -> reachable cplx MAXR r'.

(** Point sets *)
Definition pset := point -> Prop.
Definition scaled (s : R) (P : pset) : pset :=
  fun p => exists q, P q /\ p = (s * fst q, s * snd q).
Definition conj (p : point) : point := (fst p, - snd p).
Definition mirror (p : point) : point := (- fst p, snd p).

(** [z] says where [p] is: 1 interior, 0 boundary, -1 exterior. *)
Definition position (interior boundary : pset) (p : point) (z : Z) : Prop :=
  (z = 1%Z /\ interior p) \/ (z = 0%Z /\ boundary p)
  \/ (z = (-1)%Z /\ ~ interior p /\ ~ boundary p).

(** Rectangle [a,b] x [c,d] *)
Definition rect_in (a b c d : R) : pset := fun p => a < fst p < b /\ c < snd p < d.
Definition rect_bd (a b c d : R) : pset := fun p =>
  (a <= fst p <= b /\ c <= snd p <= d) /\ (fst p = a \/ fst p = b \/ snd p = c \/ snd p = d).

(** Ellipse with horizontal semiaxis [ra] and vertical semiaxis [ra*vs]: quadratic form. *)
Definition ell_q (ce : point) (ra vs : R) (p : point) : R :=
  ((fst p - fst ce) / ra)^2 + ((snd p - snd ce) / (ra * vs))^2.
Definition ell_in ce ra vs : pset := fun p => ell_q ce ra vs p < 1.
Definition ell_bd ce ra vs : pset := fun p => ell_q ce ra vs p = 1.

(** Elliptic polar coordinates around [ce]: distance [rho], angle [t] in turns. *)
Definition polar (ce : point) (vs rho t : R) : point :=
  (fst ce + rho * cos (2 * PI * t), snd ce + vs * (rho * sin (2 * PI * t))).
(** Angular sector of a ring, which may contain angle 0 in its interior. *)
Definition sector (sa ea t : R) : Prop :=
  (sa <= ea /\ sa <= t <= ea) \/ (ea < sa /\ (t <= ea \/ sa <= t)).

(** Polygons: edge crossings of the vertical ray going up from [p], even-odd rule. *)
Definition straddles (p : point) (e : point * point) : Prop :=
  fst (fst e) < fst p <= fst (snd e) \/ fst (snd e) < fst p <= fst (fst e).
(** Height of the line through the edge at the abscissa of [p]. *)
Definition height_at (p : point) (e : point * point) : R :=
  snd (fst e) + (fst p - fst (fst e)) * (snd (snd e) - snd (fst e)) / (fst (snd e) - fst (fst e)).
Definition crosses_above (p : point) (e : point * point) : Prop :=
  straddles p e /\ snd p < height_at p e.
(** Parity of the number of elements satisfying a predicate. *)
Inductive parity {A} (P : A -> Prop) : list A -> bool -> Prop :=
| par_nil : parity P [] false
| par_yes x l b : P x -> parity P l b -> parity P (x :: l) (negb b)
| par_no x l b : ~ P x -> parity P l b -> parity P (x :: l) b.
(** The edges of the polygon with vertices [vs]. *)
Definition is_edge (vs : list point) (u w : point) : Prop :=
  exists i, nth_error vs i = Some u /\ nth_error vs (S i mod length vs) = Some w.
Definition on_segment (u w q : point) : Prop :=
  exists s, 0 <= s <= 1 /\ q = (fst u + s * (fst w - fst u), snd u + s * (snd w - snd u)).
Definition on_polygon (vs : list point) (q : point) : Prop :=
  exists u w, is_edge vs u w /\ on_segment u w q.

(** Cyclic list of edges (v_i, v_{i+1 mod n}). *)
Definition edge_list (vs : list point) : list (point * point) :=
  map (fun i => (nth i vs (0, 0), nth (S i mod length vs) vs (0, 0))) (seq 0 (length vs)).
(** Interior and boundary of the rectangle or ellipse held by a region, before scaling. *)
Definition interior_boundary (s : shape) : option (pset * pset) :=
  match s with
  | Interval a b c d => Some (rect_in a b c d, rect_bd a b c d)
  | Ellipse ce ra vs => Some (ell_in ce ra vs, ell_bd ce ra vs)
  | _ => None
  end.
(** All the n entries of a contour have been written with points satisfying [good]. *)
Definition full_contour (n : Z) (cr : contour_array) (good : point -> Prop) : Prop :=
  zlen cr = n /\ forall i, (0 <= i < n)%Z -> exists q, aget cr i = Ok (Some q) /\ good q.
Definition is_ring (s : shape) : Prop := match s with Ring _ _ _ _ _ _ => True | _ => False end.
Definition is_polygon (s : shape) : Prop := match s with Polygon _ => True | _ => False end.
Definition reflect_point (vertical : bool) : point -> point := if vertical then mirror else conj.
