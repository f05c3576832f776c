(** Lemmas assembling the region properties at the level of RG objects. *)
From Coq Require Import Reals ZArith List Bool Lra Lia Psatz.
From Verif Require Import Prelude RealBool RGModel RGSpec RGProofs RGProofs2 RGProofs3 RGProofs4 RGProofs5.
Import ListNotations.
Open Scope R_scope.

Lemma negneg (b : bool) z : (if b then (- (if b then - z else z))%Z else (if b then - z else z)%Z) = z.
Proof. destruct b; lia. Qed.

Lemma membership cplx MAXR tol r p I B : 0 < MAXR -> reachable cplx MAXR r ->
  interior_boundary (data r) = Some (I, B) ->
  exists z, rg_check_inside cplx tol r p = Ok z /\
    position (scaled (sfactor r) I) (scaled (sfactor r) B) p (if complement r then - z else z)%Z.
Proof.
  intros HM HR HIB. destruct (reachable_ok _ _ _ HM HR) as (HS & Hs & _).
  rewrite check_inside_scaled by auto.
  destruct (data r) as [a b c d|ce ra vs| |]; try discriminate; injection HIB as <- <-; simpl in HS; cbn [check_shape].
  - cbn [bind]. eexists; split; [reflexivity|].
    rewrite negneg.
    apply position_scaled; [lra|].
    apply (check_interval_position a b c d (fst p / sfactor r, snd p / sfactor r)); tauto.
  - rewrite check_ellipse_eq by tauto. cbn [bind]. eexists; split; [reflexivity|].
    rewrite negneg.
    apply position_scaled; [lra|]. apply rsign_ell_position.
Qed.

Lemma polar_exists ce vs p : 0 < vs -> p <> ce ->
  exists rho t, 0 < rho /\ 0 <= t < 1 /\ p = polar ce vs rho t.
Proof.
  intros Hv Hne. set (X := fst p - fst ce). set (Y := (snd p - snd ce) / vs).
  assert (HQ : 0 < X * X + Y * Y).
  { destruct (Req_dec X 0) as [HX|HX]; [destruct (Req_dec Y 0) as [HY|HY]|].
    - exfalso. apply Hne. unfold X in HX. unfold Y in HY.
      assert (snd p - snd ce = 0).
      { replace (snd p - snd ce) with ((snd p - snd ce) / vs * vs) by (field; lra). rewrite HY. ring. }
      destruct p, ce; simpl in *; f_equal; lra.
    - pose proof (Rsqr_pos_lt Y HY). pose proof (Rle_0_sqr X). unfold Rsqr in *. lra.
    - pose proof (Rsqr_pos_lt X HX). pose proof (Rle_0_sqr Y). unfold Rsqr in *. lra. }
  set (rho := sqrt (X * X + Y * Y)).
  assert (Hr : 0 < rho) by (apply sqrt_lt_R0; auto).
  assert (Hr2 : rho * rho = X * X + Y * Y) by (apply sqrt_sqrt; lra).
  set (x := X / rho). set (y := Y / rho).
  assert (H1 : x * x + y * y = 1).
  { unfold x, y. replace (X / rho * (X / rho) + Y / rho * (Y / rho)) with ((X * X + Y * Y) / (rho * rho)) by (field; lra).
    rewrite <- Hr2. field. lra. }
  assert (Hx : -1 <= x <= 1).
  { pose proof (Rle_0_sqr y). unfold Rsqr in *. split; apply Rnot_lt_le; intro; nra. }
  pose proof (acos_bound x) as AB. pose proof PI_RGT_0.
  assert (Hs : sin (acos x) = sqrt (y * y)).
  { rewrite sin_acos by lra. f_equal. unfold Rsqr. lra. }
  assert (EX : fst p = fst ce + rho * x) by (unfold x, X; field; lra).
  assert (EY : snd p = snd ce + vs * (rho * y)) by (unfold y, Y; field; lra).
  destruct (Rle_dec 0 y) as [Hy|Hy].
  - exists rho, (acos x / (2 * PI)). split; [auto|]. split.
    + split; [apply Rmult_le_pos; [lra|left; apply Rinv_0_lt_compat; lra]|].
      apply Rmult_lt_reg_r with (2 * PI); [lra|]. unfold Rdiv. rewrite Rmult_assoc, Rinv_l by lra. lra.
    + unfold polar. replace (2 * PI * (acos x / (2 * PI))) with (acos x) by (field; lra).
      rewrite cos_acos, Hs, sqrt_square, <- EX, <- EY by lra. apply surjective_pairing.
  - exists rho, (1 - acos x / (2 * PI)). split; [auto|].
    assert (A0 : 0 < acos x).
    { destruct AB as [[A|A] _]; auto. exfalso.
      assert (x = 1). { rewrite <- (cos_acos x) by lra. rewrite <- A. apply cos_0. }
      assert (y * y = 0) by nra. nra. }
    split.
    + assert (0 < acos x / (2 * PI)) by (apply Rmult_lt_0_compat; [lra|apply Rinv_0_lt_compat; lra]).
      assert (acos x / (2 * PI) <= 1).
      { apply Rmult_le_reg_r with (2 * PI); [lra|]. unfold Rdiv. rewrite Rmult_assoc, Rinv_l by lra. lra. }
      lra.
    + unfold polar. replace (2 * PI * (1 - acos x / (2 * PI))) with (- acos x + 2 * PI) by (field; lra).
      assert (P : forall u, cos (u + 2 * PI) = cos u /\ sin (u + 2 * PI) = sin u).
      { intros u. rewrite cos_plus, sin_plus, cos_2PI, sin_2PI. split; ring. }
      rewrite (proj1 (P _)), (proj2 (P _)), cos_neg, sin_neg, cos_acos, Hs by lra.
      replace (y * y) with ((- y) * (- y)) by ring. rewrite sqrt_square by lra.
      replace (- - y) with y by ring. rewrite <- EX, <- EY. apply surjective_pairing.
Qed.

(** Bounding box *)
Lemma bbox_contains cplx MAXR tol r p z a b c d : 0 < MAXR -> reachable cplx MAXR r ->
  Rabs (fst p) <= MAXR -> Rabs (snd p) <= MAXR ->
  rg_check_inside cplx tol r p = Ok z -> (0 <= z)%Z -> rg_bbox MAXR r = (a, b, c, d) ->
  a <= fst p <= b /\ c <= snd p <= d.
Proof.
  intros HM HR Hx Hy HC Hz HB. destruct (reachable_ok _ _ _ HM HR) as (HS & Hs & _).
  assert (Hx' : - MAXR <= fst p <= MAXR) by (unfold Rabs in Hx; destruct (Rcase_abs (fst p)); lra).
  assert (Hy' : - MAXR <= snd p <= MAXR) by (unfold Rabs in Hy; destruct (Rcase_abs (snd p)); lra).
  rewrite check_inside_scaled in HC by auto. unfold rg_bbox in HB.
  destruct (complement r); [injection HB as <- <- <- <-; auto|].
  apply bind_ok in HC as (z' & HC & E). injection E as ->.
  destruct (bbox_shape MAXR (data r)) as [[[a0 b0] c0] d0] eqn:EB.
  injection HB as <- <- <- <-.
  destruct (bbox_shape_contains _ _ _ _ _ _ _ _ _ _ HS HC Hz EB) as (X & Y).
  cbn [fst snd] in X, Y.
  assert (SX : fst p / sfactor r * sfactor r = fst p) by (field; lra).
  assert (SY : snd p / sfactor r * sfactor r = snd p) by (field; lra).
  destruct (ReqbP a0 (- MAXR)), (ReqbP b0 MAXR), (ReqbP c0 (- MAXR)), (ReqbP d0 MAXR);
    repeat split; try lra; (rewrite <- SX || rewrite <- SY); apply Rmult_le_compat_r; lra.
Qed.

(** Contours *)
Lemma contour_scaled s n cr (good good' : point -> Prop) :
  full_contour n cr good -> (forall q, good q -> good' (fst q * s, snd q * s)) ->
  full_contour n (map (option_map (fun z : point => (fst z * s, snd z * s))) cr) good'.
Proof.
  intros [HL HG] H. split; [unfold zlen in *; now rewrite map_length|].
  intros i Hi. destruct (HG i Hi) as (q & E & G). exists (fst q * s, snd q * s). split; auto.
  unfold aget in *. destruct (i <? 0)%Z; [discriminate|]. rewrite nth_error_map.
  destruct (nth_error cr (Z.to_nat i)); [|discriminate]. injection E as ->. reflexivity.
Qed.
Lemma filled_full good n cr (P : point -> Prop) :
  filled good n (fun j => (0 <= j < n)%Z) cr -> (forall i q, (0 <= i < n)%Z -> good i q -> P q) -> full_contour n cr P.
Proof.
  intros [HL HF] H. split; auto. intros i Hi. destruct (HF i Hi) as (q & E & G). exists q. split; eauto.
Qed.
Lemma zlen_unwritten n : (0 <= n)%Z -> zlen (unwritten n) = n.
Proof. intros. unfold zlen, unwritten. rewrite repeat_length. lia. Qed.
Lemma scaled_mul s (P : pset) q : P q -> scaled s P (fst q * s, snd q * s).
Proof. intros H. exists q. split; auto. f_equal; ring. Qed.

Lemma contour_ellipse_full cplx MAXR r ce ra vs n : 0 < MAXR -> reachable cplx MAXR r ->
  data r = Ellipse ce ra vs -> complement r = false -> (0 <= n)%Z ->
  exists cr, rg_contour cplx MAXR r n = Ok cr /\ full_contour n cr (scaled (sfactor r) (ell_bd ce ra vs)).
Proof.
  intros HM HR HD HC Hn. destruct (reachable_ok _ _ _ HM HR) as (HS & Hs & _).
  unfold rg_contour. rewrite HC, HD in *. simpl in HS. cbn [negb check].
  destruct (contour_ellipse_points cplx ce ra vs n (unwritten n) Hn (zlen_unwritten n Hn)) as (cr & -> & F); [tauto|].
  cbn [bind]. eexists; split; [reflexivity|].
  apply contour_scaled with (good := ell_bd ce ra vs).
  - eapply filled_full; eauto. intros i q _ Hq. apply (ell_point_bd ce ra vs n i q); tauto.
  - intros q. apply scaled_mul.
Qed.

Lemma contour_interval_full MAXR r a b c d n : 0 < MAXR -> reachable true MAXR r ->
  data r = Interval a b c d -> complement r = false ->
  - MAXR < a -> b < MAXR -> - MAXR < c -> d < MAXR -> a < b -> c < d -> (4 <= n)%Z -> Z.even n = true ->
  exists cr, rg_contour true MAXR r n = Ok cr /\ full_contour n cr (scaled (sfactor r) (rect_bd a b c d)).
Proof.
  intros HM HR HD HC A B C D AB CD Hn Ev.
  unfold rg_contour. rewrite HC, HD. cbn [negb check].
  destruct (contour_interval_points MAXR a b c d n (unwritten n)) as (Nv & cr & -> & _ & HNv & F); auto; try lia.
  { apply zlen_unwritten; lia. }
  cbn [bind]. eexists; split; [reflexivity|].
  assert (E2 : (2 * (n / 2) = n)%Z).
  { apply Z.even_spec in Ev as (k & ->). rewrite (Z.mul_comm 2 k), Z.div_mul by lia. lia. }
  apply contour_scaled with (good := rect_bd a b c d).
  - rewrite E2 in F. eapply filled_full; eauto. intros i q Hi Hq.
    apply (rect_point_bd a b c d (n / 2) Nv i q); auto. lia.
  - intros q. apply scaled_mul.
Qed.

Lemma contour_segment_full cplx MAXR r a b c d n : 0 < MAXR -> reachable cplx MAXR r ->
  data r = Interval a b c d -> complement r = false ->
  - MAXR < a -> b < MAXR -> - MAXR < c -> d < MAXR -> a = b \/ c = d -> (2 <= n)%Z ->
  exists cr, rg_contour cplx MAXR r n = Ok cr /\ full_contour n cr (scaled (sfactor r) (rect_bd a b c d)).
Proof.
  intros HM HR HD HC A B C D AB Hn. destruct (reachable_ok _ _ _ HM HR) as (HS & Hs & _).
  unfold rg_contour. rewrite HC, HD in *. simpl in HS. cbn [negb check].
  destruct (contour_segment cplx MAXR a b c d n (unwritten n)) as (cr & -> & F); auto; try tauto.
  { apply zlen_unwritten; lia. }
  cbn [bind]. eexists; split; [reflexivity|].
  apply contour_scaled with (good := rect_bd a b c d); [eapply filled_full; eauto; auto|].
  intros q. apply scaled_mul.
Qed.

Lemma contour_polygon_full cplx MAXR r vs n :
  data r = Polygon vs -> complement r = false ->
  (exists u w, In u vs /\ In w vs /\ u <> w) -> (1 <= n)%Z ->
  exists cr, rg_contour cplx MAXR r n = Ok cr /\ full_contour n cr (scaled (sfactor r) (on_polygon vs)).
Proof.
  intros HD HC HU Hn. unfold rg_contour. rewrite HC, HD. cbn [negb check].
  destruct (contour_polygon_ok vs n (unwritten n)) as (cr & -> & F); auto; try lia.
  { destruct HU as (u & _ & H & _). intros ->. contradiction. }
  { apply zlen_unwritten; lia. }
  cbn [bind]. eexists; split; [reflexivity|].
  apply contour_scaled with (good := on_polygon vs); [eapply filled_full; eauto; auto|].
  intros q. apply scaled_mul.
Qed.

(** Points of the two arcs of a ring. *)
Definition ring_arcs (ce : point) (ra vs sa ea w : R) : pset := fun q =>
  exists rho t, (rho = ra + w / 2 \/ rho = ra - w / 2) /\ 0 <= t <= 1 /\ sector sa ea t /\ q = polar ce vs rho t.

Lemma contour_ring_full cplx MAXR r ce ra vs sa ea w n : 0 < MAXR -> reachable cplx MAXR r ->
  data r = Ring ce ra vs sa ea w -> complement r = false -> (2 <= n)%Z -> Z.even n = true ->
  exists cr, rg_contour cplx MAXR r n = Ok cr /\ full_contour n cr (scaled (sfactor r) (ring_arcs ce ra vs sa ea w)).
Proof.
  intros HM HR HD HC Hn Ev. destruct (reachable_ok _ _ _ HM HR) as (HS & Hs & _).
  unfold rg_contour. rewrite HC, HD in *. simpl in HS. cbn [negb check].
  destruct (contour_ring_points cplx ce ra vs sa ea w n (unwritten n) Hn) as (cr & -> & F).
  { apply zlen_unwritten; lia. } { tauto. }
  cbn [bind]. eexists; split; [reflexivity|].
  assert (E2 : (2 * (n / 2) = n)%Z).
  { apply Z.even_spec in Ev as (k & ->). rewrite (Z.mul_comm 2 k), Z.div_mul by lia. lia. }
  apply contour_scaled with (good := ring_arcs ce ra vs sa ea w); [|intros q; apply scaled_mul].
  eapply filled_full; eauto. intros i q Hi (t & Hq & Ht).
  set (st := if Rltb ea sa then sa - 1 else sa) in *.
  set (rho := if (i <? n / 2)%Z then ra + w / 2 else ra - w / 2) in *.
  assert (Hrho : rho = ra + w / 2 \/ rho = ra - w / 2) by (unfold rho; destruct (i <? n / 2)%Z; auto).
  set (j := if (i <? n / 2)%Z then i else (n - i)%Z) in *.
  assert (Hj : (0 <= j <= n / 2)%Z) by (unfold j; destruct (Z.ltb_spec i (n / 2)); lia).
  assert (Hn2 : 0 < IZR (n / 2)) by (apply (IZR_lt 0); lia).
  assert (Hl : 0 <= IZR j / IZR (n / 2) <= 1).
  { assert (0 <= IZR j) by (apply (IZR_le 0); lia). assert (IZR j <= IZR (n / 2)) by (apply IZR_le; lia).
    split; [apply Rmult_le_pos; [lra|left; now apply Rinv_0_lt_compat]|].
    apply Rmult_le_reg_r with (IZR (n / 2)); [lra|]. unfold Rdiv. rewrite Rmult_assoc, Rinv_l by lra. lra. }
  set (l := IZR j / IZR (n / 2)) in *.
  assert (Ht' : t = (ea - st) * l) by (rewrite Ht; unfold l; field; lra).
  assert (Hst : st <= ea) by (unfold st; destruct (RltbP ea sa); lra).
  assert (Hu : st <= t + st <= ea) by (rewrite Ht'; nra).
  set (u := t + st) in *.
  assert (Hq' : q = polar ce vs rho u).
  { rewrite Hq. unfold polar. replace (2 * PI * u) with (u * 2 * PI) by ring. f_equal; ring. }
  destruct (Rlt_dec u 0) as [Hneg|Hpos].
  - exists rho, (u + 1). unfold st in *. destruct (RltbP ea sa) as [L|L]; [|lra].
    repeat split; auto; try lra; [right; lra|].
    rewrite Hq'. unfold polar. replace (2 * PI * (u + 1)) with (2 * PI * u + 2 * PI) by ring.
    rewrite cos_plus, sin_plus, cos_2PI, sin_2PI. f_equal; ring.
  - exists rho, u. repeat split; auto; try lra.
    unfold st, sector in *. destruct (RltbP ea sa) as [L|L]; lra.
Qed.

(** The arcs are reported as boundary. *)
Lemma ring_arcs_zero cplx ce ra vs sa ea w q : 0 < ra -> 0 < vs -> 0 < w -> ra - w / 2 <> 0 ->
  (cplx = false -> snd ce = 0) -> ring_arcs ce ra vs sa ea w q -> check_ring cplx ce ra vs sa ea w q = Ok 0%Z.
Proof.
  intros Hra Hvs Hw Hne Hc (rho & t & Hrho & _ & _ & ->).
  rewrite check_ring_eq by auto. cbv zeta.
  assert (HQ : ring_q (fst (rel cplx (polar ce vs rho t) ce)) (snd (rel cplx (polar ce vs rho t) ce)) vs = rho * rho).
  { unfold rel, polar, ring_q. cbn [fst snd].
    assert (E : (if cplx then snd ce + vs * (rho * sin (2 * PI * t)) - snd ce else snd ce + vs * (rho * sin (2 * PI * t)))
       = vs * (rho * sin (2 * PI * t))) by (destruct cplx; [ring|rewrite (Hc eq_refl); ring]).
    rewrite E. pose proof (sin2_cos2 (2 * PI * t)) as T. unfold Rsqr in T.
    set (S := sin (2 * PI * t)) in *. set (C := cos (2 * PI * t)) in *.
    replace (fst ce + rho * C - fst ce) with (rho * C) by ring.
    transitivity (rho * rho * (S * S + C * C)); [field; lra|rewrite T; ring]. }
  rewrite HQ.
  assert (Z0 : (rsign (1 - rho * rho / ((ra + w / 2) * (ra + w / 2))) *
                rsign (-1 + rho * rho / ((ra - w / 2) * (ra - w / 2))))%Z = 0%Z).
  { destruct Hrho as [-> | ->].
    - rewrite (proj2 (rsign_zero (1 - _))); [reflexivity|]. field. lra.
    - rewrite (proj2 (rsign_zero (-1 + _))); [lia|]. field. lra. }
  rewrite Z0. reflexivity.
Qed.

(** Symmetry *)
Lemma axisymmetric_sound cplx MAXR tol r vertical p : 0 < MAXR -> reachable cplx MAXR r ->
  rg_is_axisymmetric r vertical = true ->
  (vertical = true -> forall ce ra vs w, data r <> Ring ce ra vs (/ 2) 1 w) ->
  rg_check_inside cplx tol r (reflect_point vertical p) = rg_check_inside cplx tol r p.
Proof.
  intros HM HR HA HX. destruct (reachable_ok _ _ _ HM HR) as (HS & Hs & _).
  rewrite !check_inside_scaled by auto. f_equal.
  unfold rg_is_axisymmetric in HA. unfold reflect_point.
  assert (N : forall x s, - x / s = - (x / s)) by (intros; unfold Rdiv; ring).
  destruct vertical; cbn [mirror conj fst snd] in *; unfold mirror, conj; cbn [fst snd]; rewrite N;
    destruct (data r) as [a b c d|ce ra vs|ce ra vs sa ea w|vs]; try discriminate; simpl in HS; cbn [check_shape].
  - f_equal. apply check_interval_mirror. destruct (ReqbP a (- b)); congruence.
  - apply check_ellipse_mirror. destruct (ReqbP (fst ce) 0); congruence.
  - apply andb_prop in HA as (H1 & H2). destruct (ReqbP (fst ce) 0); [|discriminate].
    destruct (ReqbP (Rabs (sa + ea - 1)) (/ 2)); [|discriminate].
    apply check_ring_mirror; try tauto. intros (-> & ->). now apply (HX eq_refl ce ra vs w).
  - f_equal. apply check_interval_conj. destruct (ReqbP c (- d)); congruence.
  - apply check_ellipse_conj. destruct (ReqbP (snd ce) 0); congruence.
  - apply andb_prop in HA as (H1 & H2). destruct (ReqbP (snd ce) 0); [|discriminate].
    destruct (ReqbP (sa + ea) 1); [|discriminate].
    apply check_ring_conj; tauto.
Qed.

(** Points that may be skipped thanks to RGCanUseConjugates: ellipse. *)
Lemma conj_halves_ellipse cplx MAXR r ce ra vs n : 0 < MAXR -> reachable cplx MAXR r ->
  data r = Ellipse ce ra vs -> rg_can_use_conjugates cplx MAXR r true = true ->
  complement r = false -> (0 < n)%Z ->
  exists cr, rg_contour cplx MAXR r n = Ok cr /\
    forall i, (0 <= i < n)%Z -> exists q, aget cr i = Ok (Some q) /\ aget cr (n - 1 - i) = Ok (Some (conj q)).
Proof.
  intros HM HR HD HU HC Hn. destruct (reachable_ok _ _ _ HM HR) as (HS & Hs & _).
  unfold rg_can_use_conjugates, rg_is_axisymmetric in HU. rewrite HD in HU, HS.
  destruct (ReqbP (snd ce) 0) as [H0|]; [|rewrite andb_false_r in HU; discriminate]. clear HU.
  unfold rg_contour. rewrite HC, HD. cbn [negb check].
  destruct (contour_ellipse_points cplx ce ra vs n (unwritten n)) as (cr & -> & F); [lia|apply zlen_unwritten; lia|auto|].
  cbn [bind]. eexists; split; [reflexivity|]. intros i Hi.
  destruct F as (HL & F). destruct (F i Hi) as (q & E & G). destruct (F (n - 1 - i)%Z ltac:(lia)) as (q' & E' & G').
  pose proof (ell_point_conj ce ra vs n i q q' Hn H0 G G') as ->.
  assert (M : forall j v, aget cr j = Ok v ->
    aget (map (option_map (fun z : point => (fst z * sfactor r, snd z * sfactor r))) cr) j
    = Ok (option_map (fun z : point => (fst z * sfactor r, snd z * sfactor r)) v)).
  { intros j v. unfold aget. destruct (j <? 0)%Z; [discriminate|]. rewrite nth_error_map.
    destruct (nth_error cr (Z.to_nat j)); [|discriminate]. intros H; injection H as ->. reflexivity. }
  exists (fst q * sfactor r, snd q * sfactor r). split.
  - rewrite (M _ _ E). reflexivity.
  - rewrite (M _ _ E'). unfold conj. cbn [option_map fst snd]. do 3 f_equal. ring.
Qed.

(** Polygon *)
Lemma edges_edge_list vs : edges vs = edge_list vs.
Proof.
  destruct vs as [|v vs]; [reflexivity|]. unfold edges, edge_list.
  apply nth_ext with (d := ((0, 0), (0, 0))) (d' := ((0, 0), (0, 0))).
  - rewrite combine_length, map_length, seq_length, app_length. cbn [length]. lia.
  - intros i Hi. rewrite combine_length, app_length in Hi. cbn [length] in Hi.
    rewrite combine_nth by (rewrite app_length; cbn [length]; lia).
    rewrite nth_indep with (d' := (fun i => (nth i (v :: vs) (0, 0), nth (S i mod length (v :: vs)) (v :: vs) (0, 0))) 0%nat)
      by (rewrite map_length, seq_length; cbn [length]; lia).
    rewrite map_nth with (f := fun i => (nth i (v :: vs) (0, 0), nth (S i mod length (v :: vs)) (v :: vs) (0, 0))).
    rewrite seq_nth by (cbn [length]; lia). rewrite Nat.add_0_l. f_equal.
    cbn [length]. destruct (Nat.eq_dec i (length vs)) as [->|Ne].
    + rewrite Nat.mod_same by lia. rewrite app_nth2 by lia. rewrite Nat.sub_diag. reflexivity.
    + rewrite Nat.mod_small by lia. rewrite app_nth1 by lia. reflexivity.
Qed.
Lemma check_polygon_edges tol vs p :
  check_polygon tol vs p = poly_loop tol (map (shift_edge p) (edge_list vs)) (-1).
Proof. unfold check_polygon. rewrite edges_map, edges_edge_list. reflexivity. Qed.

Lemma polygon_parity cplx MAXR tol r vs p : 0 < MAXR -> 0 < tol -> reachable cplx MAXR r -> data r = Polygon vs ->
  let p' := (fst p / sfactor r, snd p / sfactor r) in
  (forall e, In e (edge_list vs) -> straddles p' e -> tol <= Rabs (height_at p' e - snd p')) ->
  exists b, parity (crosses_above p') (edge_list vs) b /\
    rg_check_inside cplx tol r p = Ok (if xorb b (complement r) then 1 else -1)%Z.
Proof.
  intros HM HT HR HD p' HE. destruct (reachable_ok _ _ _ HM HR) as (HS & Hs & _).
  rewrite check_inside_scaled by auto. fold p'. rewrite HD. cbn [check_shape]. rewrite check_polygon_edges.
  destruct (poly_parity tol p' (edge_list vs) (-1)%Z HT HE) as (b & Pb & ->). cbn [bind].
  exists b. split; auto. destruct b, (complement r); reflexivity.
Qed.
Lemma polygon_zero cplx MAXR tol r vs p : 0 < MAXR -> 0 < tol -> reachable cplx MAXR r -> data r = Polygon vs ->
  rg_check_inside cplx tol r p = Ok 0%Z ->
  let p' := (fst p / sfactor r, snd p / sfactor r) in
  exists e, In e (edge_list vs) /\ straddles p' e /\ Rabs (height_at p' e - snd p') < tol.
Proof.
  intros HM HT HR HD HC p'. destruct (reachable_ok _ _ _ HM HR) as (HS & Hs & _).
  rewrite check_inside_scaled in HC by auto. fold p' in HC. rewrite HD in HC. cbn [check_shape] in HC.
  rewrite check_polygon_edges in HC. apply bind_ok in HC as (z & HC & E).
  apply (poly_zero tol p' (edge_list vs) (-1)%Z HT); [lia|]. rewrite HC. f_equal.
  destruct (complement r); injection E; lia.
Qed.

(** Entries beyond 2*(n/2) are not touched by the rectangle contour. *)
Lemma aset2_frame {A} (l l2 : list A) i1 v1 i2 v2 j :
  (do l' <- aset l i1 v1; aset l' i2 v2) = Ok l2 -> (j <> i1)%Z -> (j <> i2)%Z -> aget l2 j = aget l j.
Proof.
  intros E H1 H2. apply bind_ok in E as (l' & E1 & E2).
  rewrite (aget_aset _ _ _ _ j E2), (proj2 (Z.eqb_neq j i2) H2), (aget_aset _ _ _ _ j E1), (proj2 (Z.eqb_neq j i1) H1).
  reflexivity.
Qed.
Lemma contour_interval_frame MAXR a b c d n cr cr' Nv j :
  contour_interval true MAXR a b c d n cr = Ok cr' -> interval_nv a b c d (n / 2) = Ok Nv ->
  (1 <= Nv <= n / 2 - 1)%Z -> a < b -> c < d -> (2 * (n / 2) <= j)%Z -> aget cr' j = aget cr j.
Proof.
  intros E EN HN AB CD Hj. unfold contour_interval in E. apply check_ok in E as (_ & E).
  destruct (ReqbP a b); [lra|]. destruct (ReqbP c d); [lra|]. cbn [orb] in E.
  apply check_ok in E as (_ & E). rewrite EN in E. cbn [bind] in E.
  apply bind_ok in E as (hh & _ & E). apply bind_ok in E as (hv & _ & E).
  apply bind_ok in E as (c1 & E1 & E). apply bind_ok in E as (c2 & E2 & E).
  assert (D : (0 <= Nv / 2 /\ 2 * (Nv / 2) <= Nv /\ Nv < 2 * (Nv / 2) + 2)%Z).
  { pose proof (Z.div_mod Nv 2 ltac:(lia)). pose proof (Z.mod_pos_bound Nv 2 ltac:(lia)).
    split; [apply Z.div_pos; lia|lia]. }
  transitivity (aget c2 j).
  { apply (forz_pres (fun x => aget x j = aget c2 j) _ _ _ _ _ E); [reflexivity|].
    intros i x y Hi <- H. cbv beta in H. apply (aset2_frame _ _ _ _ _ _ j H); lia. }
  transitivity (aget c1 j).
  { apply (forz_pres (fun x => aget x j = aget c1 j) _ _ _ _ _ E2); [reflexivity|].
    intros i x y Hi <- H. cbv beta in H. apply (aset2_frame _ _ _ _ _ _ j H); lia. }
  apply (forz_pres (fun x => aget x j = aget cr j) _ _ _ _ _ E1); [reflexivity|].
  intros i x y Hi <- H. cbv beta in H. apply (aset2_frame _ _ _ _ _ _ j H); lia.
Qed.
