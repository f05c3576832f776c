(** Properties of regions: C07-C12 and C30. *)
From Coq Require Import Reals ZArith List Bool Lra Lia Psatz.
From Verif Require Import Prelude RealBool RGModel RGSpec RGProofs RGProofs2 RGProofs3 RGProofs4 RGProofs5 RGProofs6.
Import ListNotations.
Open Scope R_scope.

(** Evaluation of tests on concrete real numbers. *)
Ltac noif a := lazymatch a with context [if _ then _ else _] => fail | _ => idtac end.
Ltac reval := repeat (cbn [andb orb negb check bind fst snd complement data sfactor osfactor set_data]; match goal with
  | |- context [Rltb ?a ?b] => noif a; noif b; destruct (RltbP a b); try (exfalso; lra)
  | |- context [Rleb ?a ?b] => noif a; noif b; destruct (RlebP a b); try (exfalso; lra)
  | |- context [Reqb ?a ?b] => noif a; noif b; let H := fresh in destruct (ReqbP a b) as [H|H]; [try (exfalso; lra)|try (exfalso; apply H; lra)]
  end); cbn [andb orb negb check bind fst snd].

Ltac nats := repeat (cbn; match goal with |- context [Pos.to_nat ?p] =>
  let n := eval compute in (Pos.to_nat p) in change (Pos.to_nat p) with n end); cbn.

(** * C07: membership *)
Theorem C07_membership_interval_ellipse : forall cplx MAXR tol r p I B,
  0 < MAXR -> reachable cplx MAXR r -> interior_boundary (data r) = Some (I, B) ->
  exists z, rg_check_inside cplx tol r p = Ok z /\
    position (scaled (sfactor r) I) (scaled (sfactor r) B) p (if complement r then - z else z)%Z.
Proof. exact membership. Qed.
Print Assumptions C07_membership_interval_ellipse.

(** The region tested is the one requested: parameters given to the setters are those of
    the region (special values of radius and vscale aside). *)
Theorem C07_setters_define_region : forall cplx r r',
  (forall a b c d, (exists a0 b0 c0 d0, data r = Interval a0 b0 c0 d0) ->
     interval_set_endpoints cplx r a b c d = Ok r' ->
     data r' = Interval a b c d /\ sfactor r' = sfactor r /\ complement r' = complement r) /\
  (forall ce ra vs, (exists ce0 ra0 vs0, data r = Ellipse ce0 ra0 vs0) ->
     0 < ra -> 0 < vs -> (cplx = false -> snd ce = 0) ->
     ellipse_set_parameters cplx r ce ra vs = Ok r' ->
     data r' = Ellipse ce ra vs /\ sfactor r' = sfactor r /\ complement r' = complement r).
Proof.
  intros cplx r r'. split.
  - intros a b c d (a0 & b0 & c0 & d0 & HD) H. unfold interval_set_endpoints in H. rewrite HD in H.
    repeat apply check_ok in H as (_ & H). injection H as <-. auto.
  - intros ce ra vs (ce0 & ra0 & vs0 & HD) Hra Hvs Hce H. unfold ellipse_set_parameters in H. rewrite HD in H.
    unfold set_param, DETERMINE, CURRENT, positive in H.
    destruct (ReqbP ra (-1)), (ReqbP ra (-2)), (ReqbP vs (-1)), (ReqbP vs (-2)); try (exfalso; lra).
    destruct (RltbP 0 ra); [|lra]. destruct (RltbP 0 vs); [|lra]. cbn [check bind] in H. injection H as <-.
    cbn [data sfactor complement set_data]. repeat split; auto. f_equal. unfold scalar_arg. destruct cplx; auto.
    destruct ce; cbn [fst snd] in *. f_equal. symmetry; auto.
Qed.
Print Assumptions C07_setters_define_region.

(** Ring in elliptic polar coordinates (every point other than the centre has them). *)
Theorem C07_ring_polar : forall cplx MAXR tol r ce ra vs sa ea w,
  0 < MAXR -> reachable cplx MAXR r -> data r = Ring ce ra vs sa ea w -> w / 2 < ra ->
  (forall q, q <> ce -> exists rho t, 0 < rho /\ 0 <= t < 1 /\ q = polar ce vs rho t) /\
  forall rho t, 0 < rho -> 0 <= t < 1 ->
  exists z,
    rg_check_inside cplx tol r (sfactor r * fst (polar ce vs rho t), sfactor r * snd (polar ce vs rho t))
      = Ok (if complement r then - z else z)%Z /\
    (z = 1%Z <-> ra - w / 2 < rho < ra + w / 2 /\ sector sa ea t) /\
    (z = 0%Z <-> rho = ra - w / 2 \/ rho = ra + w / 2) /\ (z = 1%Z \/ z = 0%Z \/ z = (-1)%Z).
Proof.
  intros cplx MAXR tol r ce ra vs sa ea w HM HR HD Hw.
  destruct (reachable_ok _ _ _ HM HR) as (HS & Hs & _). rewrite HD in HS. simpl in HS.
  split; [intros q; apply polar_exists; tauto|].
  intros rho t Hrho Ht.
  destruct (check_ring_polar cplx ce ra vs sa ea w rho t) as (z & E & H); try tauto.
  exists z. split; auto. rewrite check_inside_scaled by auto. rewrite HD. cbn [check_shape fst snd].
  replace (sfactor r * fst (polar ce vs rho t) / sfactor r) with (fst (polar ce vs rho t)) by (field; lra).
  replace (sfactor r * snd (polar ce vs rho t) / sfactor r) with (snd (polar ce vs rho t)) by (field; lra).
  rewrite <- surjective_pairing, E. reflexivity.
Qed.
Print Assumptions C07_ring_polar.

(** For rings 0 does not mean boundary: a point of the circle whose angle is outside the
    sector is reported 0, and a point on a straight side is reported 1. *)
Definition half_ring : rg := RG (Ring (0, 0) 1 1 0 (/ 2) 1) false 1 0.
Lemma half_ring_reachable : reachable true 10 half_ring.
Proof.
  apply r_set_ring with (rg_create_ring 10) (0,0) 1 1 0 (/2) 1; [constructor|].
  unfold ring_set_parameters, rg_create_ring, set_param, positive, in01, DETERMINE, CURRENT. reval.
  unfold scalar_arg, half_ring. reflexivity.
Qed.
Theorem C07_ring_boundary_refuted :
  reachable true 10 half_ring /\
  (exists p, rg_check_inside true (/ 1000) half_ring p = Ok 0%Z /\
     forall rho t, 0 < rho -> 0 <= t < 1 -> sector 0 (/ 2) t -> p <> polar (0, 0) 1 rho t) /\
  rg_check_inside true (/ 1000) half_ring (1, 0) = Ok 1%Z.
Proof.
  split; [exact half_ring_reachable|]. split.
  - exists (polar (0, 0) 1 (3 / 2) (3 / 4)).
    destruct (C07_ring_polar true 10 (/ 1000) half_ring (0,0) 1 1 0 (/2) 1) as (_ & H);
      [lra|exact half_ring_reachable|reflexivity|lra|].
    destruct (H (3 / 2) (3 / 4)) as (z & E & _ & Z0 & _); [lra|lra|].
    rewrite (proj2 Z0) in E by (right; lra). cbn [half_ring complement sfactor] in E.
    rewrite !Rmult_1_l, <- surjective_pairing in E. split; [exact E|].
    intros rho t Hr Ht Hs. unfold polar. cbn [fst snd]. intros EQ. injection EQ as _ EQ.
    replace (2 * PI * (3 / 4)) with (3 * (PI / 2)) in EQ by field. rewrite sin_3PI2 in EQ.
    assert (0 <= sin (2 * PI * t)).
    { pose proof PI_RGT_0. destruct Hs as [Hs|Hs]; [|lra]. apply sin_ge_0; nra. }
    nra.
  - destruct (C07_ring_polar true 10 (/ 1000) half_ring (0,0) 1 1 0 (/2) 1) as (_ & H);
      [lra|exact half_ring_reachable|reflexivity|lra|].
    destruct (H 1 0) as (z & E & Z1 & _); [lra|lra|].
    rewrite (proj2 Z1) in E by (split; [lra|left; lra]). cbn [half_ring complement sfactor] in E.
    unfold polar in E. rewrite Rmult_0_r, cos_0, sin_0 in E. cbn [fst snd] in E.
    replace (1 * (0 + 1 * 1)) with 1 in E by ring. replace (1 * (0 + 1 * (1 * 0))) with 0 in E by ring. exact E.
Qed.
Print Assumptions C07_ring_boundary_refuted.

Definition ex_box : rg := RG (Interval (-1) 3 (-2) 2) false 2 0.
Lemma ex_box_reachable : reachable true 10 ex_box.
Proof.
  apply r_scale with (RG (Interval (-1) 3 (-2) 2) false 1 0) 2.
  - apply r_set_interval with (rg_create_interval 10) (-1) 3 (-2) 2; [constructor|].
    unfold interval_set_endpoints, rg_create_interval, nz. reval. reflexivity.
  - unfold rg_set_scale, CURRENT, DETERMINE. reval. reflexivity.
Qed.
Example ex_C07 : reachable true 10 ex_box /\ rg_check_inside true 0 ex_box (5, 1) = Ok 1%Z /\
  rg_check_inside true 0 ex_box (6, 1) = Ok 0%Z /\ rg_check_inside true 0 ex_box (7, 1) = Ok (-1)%Z.
Proof.
  split; [exact ex_box_reachable|].
  repeat split; rewrite check_inside_scaled by (simpl; lra); cbn [ex_box data sfactor complement check_shape fst snd];
    unfold check_interval; reval; reflexivity.
Qed.

(** * C08: bounding box *)
Theorem C08_bounding_box_contains : forall cplx MAXR tol r p z a b c d,
  0 < MAXR -> reachable cplx MAXR r -> Rabs (fst p) <= MAXR -> Rabs (snd p) <= MAXR ->
  rg_check_inside cplx tol r p = Ok z -> (0 <= z)%Z -> rg_bbox MAXR r = (a, b, c, d) ->
  a <= fst p <= b /\ c <= snd p <= d.
Proof. exact bbox_contains. Qed.
Print Assumptions C08_bounding_box_contains.

(** Each side of the box of a bounded rectangle or ellipse touches the region. *)
Theorem C08_bounding_box_tight : forall cplx MAXR r I B a b c d,
  0 < MAXR -> reachable cplx MAXR r -> complement r = false ->
  interior_boundary (data r) = Some (I, B) ->
  (forall a0 b0 c0 d0, bbox_shape MAXR (data r) = (a0, b0, c0, d0) ->
     a0 <> - MAXR /\ b0 <> MAXR /\ c0 <> - MAXR /\ d0 <> MAXR) ->
  rg_bbox MAXR r = (a, b, c, d) ->
  let BD := scaled (sfactor r) B in
  (exists p, BD p /\ fst p = a) /\ (exists p, BD p /\ fst p = b) /\
  (exists p, BD p /\ snd p = c) /\ (exists p, BD p /\ snd p = d).
Proof.
  intros cplx MAXR r I B a b c d HM HR HC HIB HU HB BD.
  destruct (reachable_ok _ _ _ HM HR) as (HS & Hs & _).
  unfold rg_bbox in HB. rewrite HC in HB.
  destruct (bbox_shape MAXR (data r)) as [[[a0 b0] c0] d0] eqn:EB.
  destruct (HU _ _ _ _ eq_refl) as (U1 & U2 & U3 & U4).
  destruct (ReqbP a0 (- MAXR)); [contradiction|]. destruct (ReqbP b0 MAXR); [contradiction|].
  destruct (ReqbP c0 (- MAXR)); [contradiction|]. destruct (ReqbP d0 MAXR); [contradiction|].
  injection HB as <- <- <- <-.
  assert (G : (exists p, B p /\ fst p = a0) /\ (exists p, B p /\ fst p = b0) /\
              (exists p, B p /\ snd p = c0) /\ (exists p, B p /\ snd p = d0)).
  { destruct (data r) as [x1 x2 y1 y2|ce ra vs| |]; try discriminate; injection HIB as <- <-;
      simpl in EB, HS; injection EB as <- <- <- <-.
    - unfold rect_bd. repeat split; [exists (x1, y1)|exists (x2, y1)|exists (x1, y1)|exists (x1, y2)]; simpl; lra.
    - unfold ell_bd, ell_q. destruct HS as (H1 & H2 & _).
      repeat split; [exists (fst ce - ra, snd ce)|exists (fst ce + ra, snd ce)|exists (fst ce, snd ce - ra * vs)|exists (fst ce, snd ce + ra * vs)];
        (split; [cbn [fst snd]; field; lra|reflexivity]). }
  destruct G as ((p1 & P1 & <-) & (p2 & P2 & <-) & (p3 & P3 & <-) & (p4 & P4 & <-)). unfold BD.
  repeat split; [exists (fst p1 * sfactor r, snd p1 * sfactor r)|exists (fst p2 * sfactor r, snd p2 * sfactor r)
    |exists (fst p3 * sfactor r, snd p3 * sfactor r)|exists (fst p4 * sfactor r, snd p4 * sfactor r)];
    (split; [now apply scaled_mul|reflexivity]).
Qed.
Print Assumptions C08_bounding_box_tight.
Example ex_C08 : rg_bbox 10 ex_box = (-2, 6, -4, 4).
Proof. unfold rg_bbox, ex_box. cbn [complement data bbox_shape sfactor]. reval. repeat f_equal; lra. Qed.

(** * C09: contours *)
Theorem C09_contour_ellipse : forall cplx MAXR tol r ce ra vs n,
  0 < MAXR -> reachable cplx MAXR r -> data r = Ellipse ce ra vs -> complement r = false -> (0 <= n)%Z ->
  exists cr, rg_contour cplx MAXR r n = Ok cr /\
    full_contour n cr (fun q => scaled (sfactor r) (ell_bd ce ra vs) q /\ rg_check_inside cplx tol r q = Ok 0%Z).
Proof.
  intros cplx MAXR tol r ce ra vs n HM HR HD HC Hn.
  destruct (contour_ellipse_full cplx MAXR r ce ra vs n) as (cr & E & HL & F); auto.
  exists cr. split; auto. split; auto. intros i Hi. destruct (F i Hi) as (q & Eq & B). exists q. split; auto. split; auto.
  destruct (reachable_ok _ _ _ HM HR) as (HS & Hs & _). rewrite HD in HS. simpl in HS.
  rewrite check_inside_scaled by auto. rewrite HD. cbn [check_shape]. rewrite check_ellipse_eq by tauto.
  apply scaled_point in B; [|lra]. unfold ell_bd in B. rewrite B, HC, (proj2 (rsign_zero (1 - 1))) by lra. reflexivity.
Qed.
Print Assumptions C09_contour_ellipse.

Theorem C09_contour_interval : forall MAXR tol r a b c d n,
  0 < MAXR -> reachable true MAXR r -> data r = Interval a b c d -> complement r = false ->
  - MAXR < a -> b < MAXR -> - MAXR < c -> d < MAXR -> a < b -> c < d -> (4 <= n)%Z -> Z.even n = true ->
  exists cr, rg_contour true MAXR r n = Ok cr /\
    full_contour n cr (fun q => scaled (sfactor r) (rect_bd a b c d) q /\ rg_check_inside true tol r q = Ok 0%Z).
Proof.
  intros MAXR tol r a b c d n HM HR HD HC A B C D AB CD Hn Ev.
  destruct (contour_interval_full MAXR r a b c d n) as (cr & E & HL & F); auto.
  exists cr. split; auto. split; auto. intros i Hi. destruct (F i Hi) as (q & Eq & Bq). exists q. split; auto. split; auto.
  destruct (membership true MAXR tol r q (rect_in a b c d) (rect_bd a b c d) HM HR) as (z & Ez & P); [now rewrite HD|].
  rewrite Ez, HC in *. f_equal. destruct (reachable_ok _ _ _ HM HR) as (HS & Hs & _).
  destruct P as [(-> & (q1 & P1 & Q1))|[(-> & P)|(-> & P1 & P2)]]; [exfalso|auto|contradiction].
  apply scaled_point in Bq; [|lra]. rewrite Q1 in Bq. cbn [fst snd] in Bq.
  replace (sfactor r * fst q1 / sfactor r) with (fst q1) in Bq by (field; lra).
  replace (sfactor r * snd q1 / sfactor r) with (snd q1) in Bq by (field; lra).
  unfold rect_in, rect_bd in *. cbn [fst snd] in Bq. lra.
Qed.
Print Assumptions C09_contour_interval.

(** Segments (a=b or c=d), both scalar types. *)
Theorem C09_contour_segment : forall cplx MAXR r a b c d n,
  0 < MAXR -> reachable cplx MAXR r -> data r = Interval a b c d -> complement r = false ->
  - MAXR < a -> b < MAXR -> - MAXR < c -> d < MAXR -> a = b \/ c = d -> (2 <= n)%Z ->
  exists cr, rg_contour cplx MAXR r n = Ok cr /\ full_contour n cr (scaled (sfactor r) (rect_bd a b c d)).
Proof. exact contour_segment_full. Qed.
Print Assumptions C09_contour_segment.

Theorem C09_contour_polygon : forall cplx MAXR r vs n,
  data r = Polygon vs -> complement r = false -> (exists u w, In u vs /\ In w vs /\ u <> w) -> (1 <= n)%Z ->
  exists cr, rg_contour cplx MAXR r n = Ok cr /\ full_contour n cr (scaled (sfactor r) (on_polygon vs)).
Proof. exact contour_polygon_full. Qed.
Print Assumptions C09_contour_polygon.

Theorem C09_contour_ring : forall cplx MAXR tol r ce ra vs sa ea w n,
  0 < MAXR -> reachable cplx MAXR r -> data r = Ring ce ra vs sa ea w -> complement r = false ->
  ra <> w / 2 -> (2 <= n)%Z -> Z.even n = true ->
  exists cr, rg_contour cplx MAXR r n = Ok cr /\
    full_contour n cr (fun q => rg_check_inside cplx tol r q = Ok 0%Z /\
      exists rho t, (rho = ra + w / 2 \/ rho = ra - w / 2) /\ 0 <= t <= 1 /\ sector sa ea t /\
        q = (sfactor r * fst (polar ce vs rho t), sfactor r * snd (polar ce vs rho t))).
Proof.
  intros cplx MAXR tol r ce ra vs sa ea w n HM HR HD HC Hne Hn Ev.
  destruct (contour_ring_full cplx MAXR r ce ra vs sa ea w n) as (cr & E & HL & F); auto.
  exists cr. split; auto. split; auto. intros i Hi. destruct (F i Hi) as (q & Eq & B). exists q. split; auto.
  destruct (reachable_ok _ _ _ HM HR) as (HS & Hs & _). rewrite HD in HS. simpl in HS. split.
  - rewrite check_inside_scaled by auto. rewrite HD. cbn [check_shape].
    apply scaled_point in B; [|lra]. rewrite (ring_arcs_zero cplx ce ra vs sa ea w _) by (tauto || lra).
    rewrite HC. reflexivity.
  - destruct B as (q0 & (rho & t & H1 & H2 & H3 & ->) & ->). eauto 8.
Qed.
Print Assumptions C09_contour_ring.

Example ex_C09 : Z.even 8 = true /\ (4 <= 8)%Z /\ reachable true 10 ex_box /\ data ex_box = Interval (-1) 3 (-2) 2
  /\ rg_contour true 10 ex_box 4 = Ok [Some (6, 4); Some (-2, 4); Some (-2, -4); Some (6, -4)].
Proof.
  repeat split; try lia. { exact ex_box_reachable. }
  unfold rg_contour, ex_box. cbn [complement negb check data sfactor]. unfold contour_interval. reval.
  change (3 <? 4)%Z with true. cbn [check]. change (4 / 2)%Z with 2%Z.
  assert (NV : interval_nv (-1) 3 (-2) 2 2 = Ok 1%Z).
  { unfold interval_nv. rewrite rdiv_ok by lra. cbn [bind].
    replace ((2 - -2) / (2 - -2 + 3 - -1) * 2) with 1 by lra.
    rewrite (rfloor_eq 1 1) by lra. reval. reflexivity. }
  rewrite NV. cbn [bind]. change (2 - 1)%Z with 1%Z. rewrite !rdiv_ok by lra. cbn [bind].
  nats. repeat f_equal; lra.
Qed.

(** ** Where the contour of a region fails to be what is documented *)
(** Odd n in complex scalars: the last entry is never written. *)
Theorem C09_odd_n_refuted : forall MAXR r a b c d n,
  0 < MAXR -> reachable true MAXR r -> data r = Interval a b c d -> complement r = false ->
  - MAXR < a -> b < MAXR -> - MAXR < c -> d < MAXR -> a < b -> c < d -> (4 <= n)%Z -> Z.odd n = true ->
  exists cr, rg_contour true MAXR r n = Ok cr /\ zlen cr = n /\ aget cr (n - 1) = Ok None.
Proof.
  intros MAXR r a b c d n HM HR HD HC A B C D AB CD Hn Od.
  unfold rg_contour. rewrite HC, HD. cbn [negb check].
  destruct (contour_interval_points MAXR a b c d n (unwritten n)) as (Nv & cr & E & HNv & RNv & F); auto; try lia.
  { apply zlen_unwritten; lia. }
  assert (L : aget cr (n - 1) = Ok None).
  { assert (E2 : (n - 1 = 2 * (n / 2))%Z).
    { apply Z.odd_spec in Od as (k & ->). replace (2 * k + 1)%Z with (1 + k * 2)%Z by ring.
      rewrite Z.div_add by lia. change (1 / 2)%Z with 0%Z. lia. }
    rewrite (contour_interval_frame MAXR a b c d n (unwritten n) cr Nv (n - 1)); auto; try lia.
    unfold aget, unwritten. destruct (Z.ltb_spec (n - 1) 0); [lia|].
    rewrite nth_error_repeat by lia. reflexivity. }
  rewrite E. cbn [bind]. eexists; split; [reflexivity|]. split.
  - unfold zlen. rewrite map_length. apply (proj1 F).
  - unfold aget in *. destruct (Z.ltb_spec (n - 1) 0); [lia|]. rewrite nth_error_map.
    destruct (nth_error cr (Z.to_nat (n - 1))); [|discriminate]. injection L as ->. reflexivity.
Qed.
Print Assumptions C09_odd_n_refuted.

(** Real scalars: some points are outside the region. *)
Definition sq : rg := RG (Interval (-1) 1 (-1) 1) false 1 0.
Lemma sq_reachable cplx : reachable cplx 10 sq.
Proof.
  apply r_set_interval with (rg_create_interval 10) (-1) 1 (-1) 1; [constructor|].
  unfold interval_set_endpoints, rg_create_interval, nz.
  destruct cplx; reval; reflexivity.
Qed.
Lemma sq_nv : interval_nv (-1) 1 (-1) 1 4 = Ok 2%Z.
Proof.
  unfold interval_nv. rewrite rdiv_ok by lra. cbn [bind].
  replace ((1 - -1) / (1 - -1 + 1 - -1) * 4) with 2 by lra. rewrite (rfloor_eq 2 2) by lra. reval. reflexivity.
Qed.
Theorem C09_real_scalars_refuted : exists r cr q tol,
  reachable false 10 r /\ rg_contour false 10 r 8 = Ok cr /\ aget cr 3 = Ok (Some q) /\
  rg_check_inside false tol r q = Ok (-1)%Z.
Proof.
  exists sq. eexists. exists (-1, 2), 0. split; [apply sq_reachable|].
  assert (E : rg_contour false 10 sq 8 = Ok [Some (1, 1); Some (0, 1); Some (-1, 1); Some (-1, 2);
              Some (-1, -1); Some (0, -1); Some (1, -1); Some (1, -2)]).
  { unfold rg_contour, sq. cbn [complement negb check data sfactor]. unfold contour_interval. reval.
    change (3 <? 8)%Z with true. cbn [check]. change (8 / 2)%Z with 4%Z. rewrite sq_nv. cbn [bind].
    change (4 - 2)%Z with 2%Z. rewrite !rdiv_ok by lra. cbn [bind].
    nats. repeat f_equal; lra. }
  split; [exact E|]. split; [reflexivity|].
  rewrite check_inside_scaled by (simpl; lra). cbn [sq data sfactor complement check_shape fst snd].
  unfold check_interval. reval; reflexivity.
Qed.
Print Assumptions C09_real_scalars_refuted.

(** One contour point on a segment, or on a ring: division by zero. *)
Theorem C09_single_point_refuted : forall cplx MAXR,
  (forall r a b, data r = Interval a b 0 0 -> complement r = false -> - MAXR < a -> a < b -> b < MAXR -> 0 < MAXR ->
     rg_contour cplx MAXR r 1 = UB) /\
  (forall r ce ra vs sa ea w, data r = Ring ce ra vs sa ea w -> complement r = false -> rg_contour cplx MAXR r 1 = UB).
Proof.
  intros cplx MAXR. split.
  - intros r a b HD HC A AB B M. unfold rg_contour. rewrite HD, HC. cbn [negb check]. unfold contour_interval. change (1 - 1)%Z with 0%Z. reval.
    unfold rdiv. reval. reflexivity.
  - intros r ce ra vs sa ea w HD HC. unfold rg_contour. rewrite HD, HC. cbn [negb check]. unfold contour_ring.
    change (1 / 2)%Z with 0%Z. unfold forz. change (Z.to_nat (1 - 0)) with 1%nat. cbn [for_nat].
    change (0 <? 0)%Z with false. cbv iota. unfold rdiv. destruct (ReqbP (IZR 0) 0) as [|H]; [reflexivity|].
    exfalso. now apply H.
Qed.
Print Assumptions C09_single_point_refuted.

(** * C10: symmetry *)
Theorem C10_axisymmetric_sound : forall cplx MAXR tol r vertical p,
  0 < MAXR -> reachable cplx MAXR r -> rg_is_axisymmetric r vertical = true ->
  (vertical = true -> forall ce ra vs w, data r <> Ring ce ra vs (/ 2) 1 w) ->
  rg_check_inside cplx tol r (reflect_point vertical p) = rg_check_inside cplx tol r p.
Proof. exact axisymmetric_sound. Qed.
Print Assumptions C10_axisymmetric_sound.
Example ex_C10 : reachable true 10 sq /\ rg_is_axisymmetric sq true = true /\ rg_is_axisymmetric sq false = true
  /\ rg_is_axisymmetric ex_box true = false /\ rg_is_axisymmetric ex_box false = true.
Proof.
  split; [apply sq_reachable|]. unfold rg_is_axisymmetric, sq, ex_box. reval. auto.
Qed.

(** The excluded ring: lower half plane angles [1/2,1]; the flag is set but (-1,0) is
    inside and (1,0) is not. *)
Definition low_ring : rg := RG (Ring (0, 0) 1 1 (/ 2) 1 1) false 1 0.
Theorem C10_vertical_ring_refuted :
  reachable true 10 low_ring /\ rg_is_axisymmetric low_ring true = true /\
  forall tol, rg_check_inside true tol low_ring (-1, 0) = Ok 1%Z /\
              rg_check_inside true tol low_ring (mirror (-1, 0)) = Ok (-1)%Z.
Proof.
  assert (R : reachable true 10 low_ring).
  { apply r_set_ring with (rg_create_ring 10) (0,0) 1 1 (/2) 1 1; [constructor|].
    unfold ring_set_parameters, rg_create_ring, set_param, positive, in01, DETERMINE, CURRENT. reval.
    unfold scalar_arg, low_ring. reflexivity. }
  split; auto. split.
  { unfold rg_is_axisymmetric, low_ring. cbn [data fst snd].
    replace (/ 2 + 1 - 1) with (/ 2) by lra. rewrite Rabs_pos_eq by lra. reval. reflexivity. }
  intros tol.
  destruct (C07_ring_polar true 10 tol low_ring (0,0) 1 1 (/2) 1 1) as (_ & H); [lra|exact R|reflexivity|lra|].
  split.
  - destruct (H 1 (/ 2)) as (z & E & Z1 & _); [lra|lra|].
    rewrite (proj2 Z1) in E by (split; [lra|left; lra]). cbn [low_ring complement sfactor] in E.
    unfold polar in E. replace (2 * PI * / 2) with PI in E by field. rewrite cos_PI, sin_PI in E. cbn [fst snd] in E.
    replace (1 * (0 + 1 * -1)) with (-1) in E by ring. replace (1 * (0 + 1 * (1 * 0))) with 0 in E by ring. exact E.
  - destruct (H 1 0) as (z & E & Z1 & Z0 & ZZ); [lra|lra|].
    assert (z = (-1)%Z).
    { destruct ZZ as [->|[->| ->]]; auto; exfalso.
      - destruct (proj1 Z1 eq_refl) as (_ & [S|S]); lra.
      - destruct (proj1 Z0 eq_refl); lra. }
    subst z. cbn [low_ring complement sfactor] in E.
    unfold polar in E. rewrite Rmult_0_r, cos_0, sin_0 in E. cbn [fst snd] in E.
    unfold mirror. cbn [fst snd]. replace (- -1) with 1 by ring.
    replace (1 * (0 + 1 * 1)) with 1 in E by ring. replace (1 * (0 + 1 * (1 * 0))) with 0 in E by ring. exact E.
Qed.
Print Assumptions C10_vertical_ring_refuted.

(** With an ellipse, using only half of the points is sound: point i and point n-1-i are
    conjugate. *)
Theorem C10_conjugate_halves_ellipse : forall cplx MAXR r ce ra vs n,
  0 < MAXR -> reachable cplx MAXR r -> data r = Ellipse ce ra vs ->
  rg_can_use_conjugates cplx MAXR r true = true -> complement r = false -> (0 < n)%Z ->
  exists cr, rg_contour cplx MAXR r n = Ok cr /\
    forall i, (0 <= i < n)%Z -> exists q, aget cr i = Ok (Some q) /\ aget cr (n - 1 - i) = Ok (Some (conj q)).
Proof. exact conj_halves_ellipse. Qed.
Print Assumptions C10_conjugate_halves_ellipse.

(** Not so for a rectangle: here the discarded point (1,0) has no conjugate among the first
    half. *)
Theorem C10_conjugate_halves_interval_refuted : exists r cr q,
  reachable true 10 r /\ rg_can_use_conjugates true 10 r true = true /\ rg_contour true 10 r 8 = Ok cr /\
  aget cr 7 = Ok (Some q) /\ forall i, (0 <= i < 4)%Z -> aget cr i <> Ok (Some (conj q)).
Proof.
  exists sq. eexists. exists (1, 0). split; [apply sq_reachable|]. split.
  { unfold rg_can_use_conjugates, rg_is_axisymmetric, rg_bbox, sq. cbn [complement data sfactor bbox_shape]. reval. reflexivity. }
  assert (E : rg_contour true 10 sq 8 = Ok [Some (1, 1); Some (0, 1); Some (-1, 1); Some (-1, 0);
              Some (-1, -1); Some (0, -1); Some (1, -1); Some (1, 0)]).
  { unfold rg_contour, sq. cbn [complement negb check data sfactor]. unfold contour_interval. reval.
    change (3 <? 8)%Z with true. cbn [check]. change (8 / 2)%Z with 4%Z. rewrite sq_nv. cbn [bind].
    change (4 - 2)%Z with 2%Z. rewrite !rdiv_ok by lra. cbn [bind].
    nats. repeat f_equal; lra. }
  split; [exact E|]. split; [reflexivity|].
  intros i Hi. assert (C : (i = 0 \/ i = 1 \/ i = 2 \/ i = 3)%Z) by lia. unfold conj. cbn [fst snd].
  destruct C as [->|[->|[->| ->]]]; cbn; intros H; injection H; intros; lra.
Qed.
Print Assumptions C10_conjugate_halves_interval_refuted.

(** * C11: scaling *)
Theorem C11_push_pop : forall cplx MAXR r s, 0 < MAXR -> reachable cplx MAXR r ->
  (forall r1, rg_push_scale r s = Ok r1 ->
     sfactor r1 = sfactor r * s /\ rg_pop_scale r1 = Ok r /\
     (forall s', rg_push_scale r1 s' = Err)) /\
  (forall r1, rg_pop_scale r = Ok r1 -> rg_pop_scale r1 = Err) /\
  (rg_push_scale r s = Err <-> ~ (0 < s /\ osfactor r = 0)) /\
  0 < sfactor r.
Proof.
  intros cplx MAXR r s HM HR. destruct (reachable_ok _ _ _ HM HR) as (_ & Hs & Ho).
  unfold rg_push_scale, rg_pop_scale, nz. repeat split; auto.
  - repeat apply check_ok in H as (_ & H). now injection H as <-.
  - apply check_ok in H as (P & H). apply check_ok in H as (Q & H). injection H as <-. cbn [osfactor data complement].
    destruct (ReqbP (osfactor r) 0); [|discriminate]. destruct (ReqbP (sfactor r) 0); [lra|]. cbn [negb check].
    destruct r; cbn in *. subst. reflexivity.
  - intros s'.
    apply check_ok in H as (P & H). apply check_ok in H as (Q & H). injection H as <-. cbn [osfactor].
    destruct (Rltb 0 s'); cbn [check]; auto. destruct (ReqbP (sfactor r) 0); [lra|]. reflexivity.
  - intros r1 H. apply check_ok in H as (P & H). injection H as <-. cbn [osfactor].
    destruct (ReqbP 0 0); [reflexivity|]. lra.
  - intros H (P & Q). rewrite Q in H. destruct (RltbP 0 s); [|lra]. destruct (ReqbP 0 0); [discriminate|lra].
  - intros H. destruct (RltbP 0 s); [|reflexivity]. cbn [check]. destruct (ReqbP (osfactor r) 0); [tauto|reflexivity].
Qed.
Print Assumptions C11_push_pop.
(** A region that has just been created has no pushed scale, and popping one is an error;
    the saved scale is nonzero exactly between a push and the next pop. *)
Theorem C11_osfactor_tracks_push : forall r s r1,
  (rg_push_scale r s = Ok r1 -> osfactor r = 0 /\ osfactor r1 = sfactor r) /\
  (rg_pop_scale r = Ok r1 -> osfactor r <> 0 /\ osfactor r1 = 0 /\ sfactor r1 = osfactor r) /\
  (rg_set_scale r s = Ok r1 -> osfactor r1 = osfactor r).
Proof.
  intros r s r1. unfold rg_push_scale, rg_pop_scale, rg_set_scale, nz. split; [|split]; intros H.
  - apply check_ok in H as (_ & H). apply check_ok in H as (Q & H). injection H as <-.
    destruct (ReqbP (osfactor r) 0); [auto|discriminate].
  - apply check_ok in H as (Q & H). injection H as <-.
    destruct (ReqbP (osfactor r) 0); [discriminate|auto].
  - apply check_ok in H as (_ & H). injection H as <-. reflexivity.
Qed.
Print Assumptions C11_osfactor_tracks_push.
Example ex_C11 : exists r1, rg_push_scale sq 3 = Ok r1 /\ sfactor r1 = 1 * 3 /\ rg_push_scale r1 2 = Err.
Proof.
  eexists. unfold rg_push_scale, nz, sq. split; [reval; reflexivity|]. split; [reflexivity|]. reval. reflexivity.
Qed.

(** * C12: polygons *)
Theorem C12_polygon_parity : forall cplx MAXR tol r vs p,
  0 < MAXR -> 0 < tol -> reachable cplx MAXR r -> data r = Polygon vs ->
  let p' := (fst p / sfactor r, snd p / sfactor r) in
  (forall e, In e (edge_list vs) -> straddles p' e -> tol <= Rabs (height_at p' e - snd p')) ->
  exists b, parity (crosses_above p') (edge_list vs) b /\
    rg_check_inside cplx tol r p = Ok (if xorb b (complement r) then 1 else -1)%Z.
Proof. exact polygon_parity. Qed.
Print Assumptions C12_polygon_parity.
Theorem C12_polygon_zero_near_edge : forall cplx MAXR tol r vs p,
  0 < MAXR -> 0 < tol -> reachable cplx MAXR r -> data r = Polygon vs -> rg_check_inside cplx tol r p = Ok 0%Z ->
  let p' := (fst p / sfactor r, snd p / sfactor r) in
  exists e, In e (edge_list vs) /\ straddles p' e /\ Rabs (height_at p' e - snd p') < tol.
Proof. exact polygon_zero. Qed.
Print Assumptions C12_polygon_zero_near_edge.

Definition unit_square : rg := RG (Polygon [(0,0);(1,0);(1,1);(0,1)]) false 1 0.
Lemma unit_square_reachable : reachable true 10 unit_square.
Proof.
  apply r_set_polygon with rg_create_polygon [(0,0);(1,0);(1,1);(0,1)]; [constructor|]. reflexivity.
Qed.
(** The midpoint of an edge is reported as exterior. *)
Theorem C12_boundary_refuted : forall tol, reachable true 10 unit_square /\
  on_polygon [(0,0);(1,0);(1,1);(0,1)] (/ 2, 0) /\ rg_check_inside true tol unit_square (/ 2, 0) = Ok (-1)%Z.
Proof.
  intros tol. split; [exact unit_square_reachable|]. split.
  - exists (0,0), (1,0). split; [exists 0%nat; auto|]. exists (/ 2). split; [lra|]. cbn [fst snd]. f_equal; lra.
  - rewrite check_inside_scaled by (simpl; lra).
    cbn [unit_square data sfactor complement check_shape fst snd]. unfold check_polygon, shift_point.
    cbn [map edges combine app fst snd poly_loop]. reval. reflexivity.
Qed.
Print Assumptions C12_boundary_refuted.
Example ex_C12 : forall tol, 0 < tol < / 2 ->
  (forall e, In e (edge_list [(0,0);(1,0);(1,1);(0,1)]) -> straddles (/ 2, / 2) e ->
      tol <= Rabs (height_at (/ 2, / 2) e - / 2)) /\
  rg_check_inside true tol unit_square (/ 2, / 2) = Ok 1%Z.
Proof.
  intros tol Ht. split.
  - intros e He S. cbn in He. unfold height_at. unfold straddles in S.
    destruct He as [<-|[<-|[<-|[<-|[]]]]]; cbn [fst snd] in *; try (exfalso; lra); unfold Rabs;
      match goal with |- context [Rcase_abs ?x] => destruct (Rcase_abs x) end; lra.
  - rewrite check_inside_scaled by (simpl; lra).
    cbn [unit_square data sfactor complement check_shape fst snd]. unfold check_polygon, shift_point.
    cbn [map edges combine app fst snd poly_loop]. reval. reflexivity.
Qed.

(** * C30: in real scalars the region is symmetric with respect to the real axis *)
Theorem C30_real_scalars_symmetric : forall MAXR tol r p,
  0 < MAXR -> reachable false MAXR r -> ~ is_polygon (data r) ->
  rg_check_inside false tol r (conj p) = rg_check_inside false tol r p.
Proof.
  intros MAXR tol r p HM HR NP. destruct (reachable_ok _ _ _ HM HR) as (HS & Hs & _).
  apply (axisymmetric_sound false MAXR tol r false p); auto; [|discriminate].
  unfold rg_is_axisymmetric. destruct (data r) as [a b c d|ce ra vs|ce ra vs sa ea w|vs]; simpl in *; try tauto.
  - destruct (ReqbP c (- d)); auto. tauto.
  - destruct (ReqbP (snd ce) 0); auto. tauto.
  - destruct HS as (_ & _ & _ & _ & _ & H). destruct (H eq_refl) as (-> & ->). reval. reflexivity.
Qed.
Print Assumptions C30_real_scalars_symmetric.
(** The symmetry check of polygons accepts a triangle that is not symmetric. *)
Definition skew : list point := [(0, 1); (0, -1); (2, 5)].
Theorem C30_polygon_refuted : exists r,
  polygon_set_vertices false rg_create_polygon skew = Ok r /\
  forall tol, tol <= / 2 -> 0 < tol -> rg_check_inside false tol r (1, 5 / 2) = Ok 1%Z /\
    rg_check_inside false tol r (conj (1, 5 / 2)) = Ok (-1)%Z.
Proof.
  exists (RG (Polygon skew) false 1 0). split.
  - unfold polygon_set_vertices, rg_create_polygon, skew. cbn [data zlen length Z.of_nat].
    change (2 <? _)%Z with true. change (_ <=? 30)%Z with true. cbn [check].
    assert (SC : sym_scan 2 skew 1 0 = Ok (1, 0)%Z).
    { unfold skew. nats. unfold nz. reval. reflexivity. }
    assert (SP : sym_pair 1 skew 1 0 = Ok true).
    { unfold skew. nats. reval. reflexivity. }
    unfold check_symmetry. fold skew.
    change (aget skew 0) with (@Ok point (0, 1)). cbn [bind fst snd]. unfold nz. reval.
    change (Z.to_nat (zlen skew - (0 + 1))) with 2%nat. change (0 + 1)%Z with 1%Z. rewrite SC. cbn [bind].
    change (1 =? zlen skew)%Z with false. cbv iota.
    change (Z.to_nat (zlen skew / 2)) with 1%nat. rewrite SP. reflexivity.
  - intros tol T1 T2. split; rewrite check_inside_scaled by (simpl; lra);
      cbn [skew data sfactor complement check_shape fst snd conj]; unfold check_polygon, shift_point, skew;
      cbn [map edges combine app fst snd poly_loop]; unfold rdiv; reval; try reflexivity; try lra.
    all: exfalso; match goal with H : Rabs ?x < _ |- _ => unfold Rabs in H; destruct (Rcase_abs x) end; lra.
Qed.
Print Assumptions C30_polygon_refuted.
