(** Lemmas on regions: rings, symmetry, bounding boxes, polygons. *)
From Coq Require Import Reals ZArith List Bool Lra Lia Psatz.
From Verif Require Import Prelude RealBool RGModel RGSpec RGProofs.
Import ListNotations.
Open Scope R_scope.

(** * Ring *)

(** Quadratic form of a point relative to the centre: dx^2 + (dy/vs)^2. *)
Definition ring_q (dx dy vs : R) : R := dx * dx + (dy / vs) * (dy / vs).

Lemma check_ring_eq cplx ce ra vs sa ea w p :
  0 < vs -> 0 < ra -> 0 < w -> ra - w / 2 <> 0 ->
  check_ring cplx ce ra vs sa ea w p =
  let q := rel cplx p ce in
  let Q := ring_q (fst q) (snd q) vs in
  let ins := (rsign (1 - Q / ((ra + w/2) * (ra + w/2))) * rsign (-1 + Q / ((ra - w/2) * (ra - w/2))))%Z in
  if (ins =? 1)%Z then
    do r <- ring_angle (fst q) (snd q) vs;
    Ok (if angle_out sa ea r then (-1)%Z else ins)
  else Ok ins.
Proof.
  intros Hv Hr Hw Hi. unfold check_ring. cbv zeta.
  assert (vs * vs <> 0) by nra. assert (ra + w/2 <> 0) by lra.
  destruct (rel cplx p ce) as [dx dy]; simpl.
  repeat (rewrite rdiv_ok by assumption; simpl).
  replace (1 - dx / (ra + w/2) * (dx / (ra + w/2)) - dy / (ra + w/2) * (dy / (ra + w/2)) / (vs * vs))
    with (1 - ring_q dx dy vs / ((ra + w/2) * (ra + w/2)))
    by (unfold ring_q; field; repeat split; lra).
  replace (-1 + dx / (ra - w/2) * (dx / (ra - w/2)) + dy / (ra - w/2) * (dy / (ra - w/2)) / (vs * vs))
    with (-1 + ring_q dx dy vs / ((ra - w/2) * (ra - w/2)))
    by (unfold ring_q; field; repeat split; lra).
  reflexivity.
Qed.

Lemma tan_angle x : cos x <> 0 -> sin x / cos x = tan x.
Proof. intros _. reflexivity. Qed.

Lemma ring_angle_polar vs rho t :
  0 < vs -> 0 < rho -> 0 <= t < 1 ->
  ring_angle (rho * cos (2 * PI * t)) (vs * (rho * sin (2 * PI * t))) vs = Ok t.
Proof.
  intros Hv Hr Ht. pose proof PI_RGT_0 as Hpi. unfold ring_angle.
  destruct (Rlt_dec t (1/4)) as [L1|L1].
  { assert (Hc : 0 < cos (2 * PI * t)) by (apply cos_gt_0; nra).
    assert (Hs : 0 <= sin (2 * PI * t)) by (apply sin_ge_0; nra).
    rbh; [exfalso; nra|]. rewrite rdiv_ok by lra. simpl. rewrite rdiv_ok by nra. simpl.
    rbh; [|exfalso; nra]. rbh; [|exfalso; apply n0; apply Rmult_le_pos; [lra|nra]].
    f_equal. replace (vs * (rho * sin (2 * PI * t)) / vs / (rho * cos (2 * PI * t)))
      with (tan (2 * PI * t)) by (unfold tan; field; lra).
    rewrite atan_tan by nra. field. lra. }
  destruct (Req_EM_T t (1/4)) as [->|N1].
  { replace (2 * PI * (1/4)) with (PI/2) by field. rewrite cos_PI2, sin_PI2.
    rbh; [|lra]. rbh; [exfalso; nra|]. rbh; [|exfalso; nra]. f_equal. lra. }
  destruct (Rlt_dec t (3/4)) as [L2|L2].
  { assert (E : 2 * PI * t = (2 * PI * t - PI) + PI) by ring.
    set (y := 2 * PI * t - PI) in *.
    assert (Hy : - PI / 2 < y < PI / 2) by (unfold y; split; nra).
    assert (Hc : 0 < cos y) by (apply cos_gt_0; lra).
    rewrite E, neg_cos, neg_sin.
    rbh; [exfalso; nra|]. rewrite rdiv_ok by lra. simpl. rewrite rdiv_ok by nra. simpl.
    rbh; [exfalso; nra|]. f_equal.
    replace (vs * (rho * - sin y) / vs / (rho * - cos y)) with (tan y) by (unfold tan; field; lra).
    rewrite atan_tan by lra. unfold y. field. lra. }
  destruct (Req_EM_T t (3/4)) as [->|N2].
  { replace (2 * PI * (3/4)) with (PI/2 + PI) by field. rewrite neg_cos, neg_sin, cos_PI2, sin_PI2.
    rbh; [|lra]. rbh; [exfalso; nra|]. rbh; [exfalso; nra|]. f_equal. }
  assert (E : 2 * PI * t = (2 * PI * t - 2 * PI) + 2 * INR 1 * PI) by (simpl; ring).
  set (y := 2 * PI * t - 2 * PI) in *.
  assert (Hy : - PI / 2 < y < 0) by (unfold y; split; nra).
  rewrite E, cos_period, sin_period.
  assert (Hc : 0 < cos y) by (apply cos_gt_0; lra).
  assert (Hs : sin y < 0) by (apply sin_lt_0_var; lra).
  rbh; [exfalso; nra|]. rewrite rdiv_ok by lra. simpl. rewrite rdiv_ok by nra. simpl.
  rbh; [|exfalso; nra]. rbh.
  { exfalso. assert (rho * sin y < 0) by nra. nra. }
  f_equal. replace (vs * (rho * sin y) / vs / (rho * cos y)) with (tan y) by (unfold tan; field; lra).
  rewrite atan_tan by lra. unfold y. field. lra.
Qed.

Lemma angle_out_sector sa ea t : angle_out sa ea t = false <-> sector sa ea t.
Proof.
  unfold angle_out, sector. repeat rb; simpl; split; intros; try discriminate; try lra; auto; intuition lra.
Qed.

Lemma div_lt_1 Q d : 0 < d -> (Q / d < 1 <-> Q < d).
Proof.
  intros Hd. split; intros H.
  - apply Rmult_lt_reg_r with (/ d); [now apply Rinv_0_lt_compat|]. rewrite Rinv_r by lra. exact H.
  - apply Rmult_lt_reg_r with d; [auto|]. unfold Rdiv. rewrite Rmult_assoc, Rinv_l, Rmult_1_r; lra.
Qed.
Lemma div_gt_1 Q d : 0 < d -> (1 < Q / d <-> d < Q).
Proof.
  intros Hd. split; intros H.
  - apply Rmult_lt_reg_r with (/ d); [now apply Rinv_0_lt_compat|]. rewrite Rinv_r by lra. exact H.
  - apply Rmult_lt_reg_r with d; [auto|]. unfold Rdiv. rewrite Rmult_assoc, Rinv_l, Rmult_1_r; lra.
Qed.
Lemma div_eq_1 Q d : 0 < d -> (Q / d = 1 <-> Q = d).
Proof.
  intros Hd. split; intros H.
  - apply Rmult_eq_reg_r with (/ d); [|apply Rinv_neq_0_compat; lra]. rewrite Rinv_r by lra. exact H.
  - subst. field. lra.
Qed.

(** Membership in a ring in polar coordinates. *)
Lemma check_ring_polar cplx ce ra vs sa ea w rho t :
  0 < vs -> 0 < w -> w / 2 < ra -> (cplx = false -> snd ce = 0) -> 0 < rho -> 0 <= t < 1 ->
  exists z, check_ring cplx ce ra vs sa ea w (polar ce vs rho t) = Ok z
  /\ (z = 1%Z <-> ra - w/2 < rho < ra + w/2 /\ sector sa ea t)
  /\ (z = 0%Z <-> rho = ra - w/2 \/ rho = ra + w/2)
  /\ (z = 1%Z \/ z = 0%Z \/ z = (-1)%Z).
Proof.
  intros Hv Hw Hra Hce Hrho Ht.
  rewrite check_ring_eq by lra. cbv zeta.
  assert (E : rel cplx (polar ce vs rho t) ce = (rho * cos (2*PI*t), vs * (rho * sin (2*PI*t)))).
  { unfold rel, polar. simpl. destruct cplx; [f_equal; ring|]. rewrite (Hce eq_refl). f_equal; ring. }
  rewrite E. simpl fst; simpl snd.
  assert (EQ : ring_q (rho * cos (2*PI*t)) (vs * (rho * sin (2*PI*t))) vs = rho * rho).
  { unfold ring_q. pose proof (sin2_cos2 (2*PI*t)) as S2. unfold Rsqr in S2.
    replace (vs * (rho * sin (2 * PI * t)) / vs) with (rho * sin (2*PI*t)) by (field; lra).
    replace (rho * rho) with (rho * rho * (sin (2 * PI * t) * sin (2 * PI * t) + cos (2 * PI * t) * cos (2 * PI * t)))
      by (rewrite S2; ring). ring. }
  rewrite EQ.
  assert (D1 : 0 < (ra + w/2) * (ra + w/2)) by nra.
  assert (D2 : 0 < (ra - w/2) * (ra - w/2)) by nra.
  pose proof (div_lt_1 (rho*rho) _ D1) as A1. pose proof (div_gt_1 (rho*rho) _ D1) as A2.
  pose proof (div_eq_1 (rho*rho) _ D1) as A3.
  pose proof (div_lt_1 (rho*rho) _ D2) as B1. pose proof (div_gt_1 (rho*rho) _ D2) as B2.
  pose proof (div_eq_1 (rho*rho) _ D2) as B3.
  set (X := rho*rho / ((ra + w/2) * (ra + w/2))) in *.
  set (Y := rho*rho / ((ra - w/2) * (ra - w/2))) in *.
  assert (S1 : forall a, 0 < a -> (rho*rho < a*a <-> rho < a)) by (intros; split; nra).
  assert (S2 : forall a, 0 < a -> (a*a < rho*rho <-> a < rho)) by (intros; split; nra).
  assert (S3 : forall a, 0 < a -> (rho*rho = a*a <-> rho = a)).
  { intros a Ha; split; [|now intros ->]. intros H.
    destruct (Rtotal_order rho a) as [L | [L | L]]; auto; exfalso; nra. }
  rewrite S1 in A1, B1 by lra. rewrite S2 in A2, B2 by lra. rewrite S3 in A3, B3 by lra.
  clearbody X Y.
  destruct (rsign_cases (1 - X)) as [[-> HX] | [[-> HX] | [-> HX]]];
  destruct (rsign_cases (-1 + Y)) as [[-> HY] | [[-> HY] | [-> HY]]];
    cbn [Z.mul Z.eqb Pos.mul Pos.eqb Z.opp].
  (* outer=1, inner=1: the angle decides *)
  - rewrite (ring_angle_polar vs rho t Hv Hrho Ht). simpl.
    pose proof (angle_out_sector sa ea t) as AS.
    destruct (angle_out sa ea t); eexists; (split; [reflexivity|]).
    + split; [split; [discriminate|intros [_ S]; apply AS in S; discriminate]|].
      split; [split; [discriminate|intros; exfalso; intuition lra]|auto].
    + split; [split; [intros _; split; [intuition lra|now apply AS]|auto]|].
      split; [split; [discriminate|intros; exfalso; intuition lra]|auto].
  - eexists; split; [reflexivity|].
    split; [split; [discriminate|intros [? _]; exfalso; intuition lra]|].
    split; [split; [intros _; intuition lra|auto]|auto].
  - eexists; split; [reflexivity|].
    split; [split; [discriminate|intros [? _]; exfalso; intuition lra]|].
    split; [split; [discriminate|intros; exfalso; intuition lra]|auto].
  - eexists; split; [reflexivity|].
    split; [split; [discriminate|intros [? _]; exfalso; intuition lra]|].
    split; [split; [intros _; intuition lra|auto]|auto].
  - exfalso. intuition lra.
  - exfalso. intuition lra.
  - eexists; split; [reflexivity|].
    split; [split; [discriminate|intros [? _]; exfalso; intuition lra]|].
    split; [split; [discriminate|intros; exfalso; intuition lra]|auto].
  - exfalso. intuition lra.
  - exfalso. intuition lra.
Qed.
