(** Lemmas on regions: symmetry and bounding boxes. *)
From Coq Require Import Reals ZArith List Bool Lra Lia Psatz.
From Verif Require Import Prelude RealBool RGModel RGSpec RGProofs RGProofs2.
Import ListNotations.
Open Scope R_scope.

(** * Symmetry *)
Lemma check_interval_conj a b c d x y : c = - d ->
  check_interval a b c d x (- y) = check_interval a b c d x y.
Proof.
  intros ->. unfold check_interval.
  repeat rb; subst; simpl; repeat rb; subst; simpl; try reflexivity; exfalso; lra.
Qed.
Lemma check_interval_mirror a b c d x y : a = - b ->
  check_interval a b c d (- x) y = check_interval a b c d x y.
Proof.
  intros ->. unfold check_interval.
  repeat rb; subst; simpl; repeat rb; subst; simpl; try reflexivity; exfalso; lra.
Qed.

Lemma rel_conj cplx x y ce : snd ce = 0 ->
  rel cplx (x, - y) ce = (fst (rel cplx (x,y) ce), - snd (rel cplx (x,y) ce)).
Proof. intros H. unfold rel. simpl. rewrite H. destruct cplx; f_equal; ring. Qed.
Lemma rel_mirror cplx x y ce : fst ce = 0 ->
  rel cplx (- x, y) ce = (- fst (rel cplx (x,y) ce), snd (rel cplx (x,y) ce)).
Proof. intros H. unfold rel. simpl. rewrite H. f_equal; ring. Qed.

Lemma rdiv_opp a b : rdiv (- a) b = do q <- rdiv a b; Ok (- q).
Proof. unfold rdiv. rb; simpl; [reflexivity|]. f_equal. field. auto. Qed.

Lemma check_ellipse_conj cplx ce ra vs x y : snd ce = 0 ->
  check_ellipse cplx ce ra vs (x, - y) = check_ellipse cplx ce ra vs (x, y).
Proof.
  intros H. unfold check_ellipse. rewrite rel_conj by auto.
  destruct (rel cplx (x, y) ce) as [u v]. cbn [fst snd]. rewrite rdiv_opp.
  destruct (rdiv u ra); simpl; auto. destruct (rdiv v ra) as [q| | |]; simpl; auto.
  replace (- q * - q) with (q * q) by ring. reflexivity.
Qed.
Lemma check_ellipse_mirror cplx ce ra vs x y : fst ce = 0 ->
  check_ellipse cplx ce ra vs (- x, y) = check_ellipse cplx ce ra vs (x, y).
Proof.
  intros H. unfold check_ellipse. rewrite rel_mirror by auto.
  destruct (rel cplx (x, y) ce) as [u v]. cbn [fst snd]. rewrite rdiv_opp.
  destruct (rdiv u ra) as [q| | |]; simpl; auto. destruct (rdiv v ra); simpl; auto.
  destruct (rdiv (_ * _) _); simpl; auto. now replace (- q * - q) with (q * q) by ring.
Qed.

(** Angle of the conjugate. *)
Lemma ring_angle_conj dx dy vs r : 0 < vs -> (dx <> 0 \/ dy <> 0) -> ring_angle dx dy vs = Ok r ->
  ring_angle dx (- dy) vs = Ok (if Reqb r 0 then 0 else 1 - r) /\ 0 <= r < 1.
Proof.
  intros Hv Hnz. unfold ring_angle. pose proof PI_RGT_0 as Hpi.
  assert (AB : forall x, - / 4 < atan x / (2 * PI) < / 4).
  { intros x. pose proof (atan_bound x). split; apply Rmult_lt_reg_r with (2*PI); try lra;
      unfold Rdiv; rewrite Rmult_assoc, Rinv_l by lra; lra. }
  destruct (ReqbP dx 0) as [->|Hx].
  - intros H. injection H as <-.
    destruct (ReqbP dy 0); [exfalso; lra|].
    destruct (ReqbP (-dy) 0); [exfalso; lra|].
    destruct (RltbP 0 dy), (RltbP 0 (-dy)); try (exfalso; lra).
    + destruct (ReqbP (/4) 0); [exfalso; lra|]. split; [f_equal; lra|lra].
    + destruct (ReqbP (3/4) 0); [exfalso; lra|]. split; [f_equal; lra|lra].
  - rewrite !rdiv_ok by lra. simpl. rewrite !rdiv_ok by lra. simpl.
    replace (- dy / vs / dx) with (- (dy / vs / dx)) by (field; lra). rewrite atan_opp.
    set (t := dy / vs / dx). specialize (AB t).
    destruct (RltbP 0 dx) as [P|P].
    + destruct (RlebP 0 dy) as [Q|Q]; intros H; injection H as <-.
      * assert (0 <= t) by (unfold t; apply Rmult_le_pos; [apply Rmult_le_pos; [lra|]|];
          left; apply Rinv_0_lt_compat; lra).
        assert (0 <= atan t).
        { destruct H as [H|H]; [left; rewrite <- atan_0; apply atan_increasing; auto|rewrite <- H, atan_0; lra]. }
        assert (0 <= atan t / (2*PI)) by (apply Rmult_le_pos; [lra|left; apply Rinv_0_lt_compat; lra]).
        split; [|lra].
        destruct (RlebP 0 (-dy)) as [Q'|Q'].
        -- assert (dy = 0) by lra. subst dy. unfold t. replace (0 / vs / dx) with 0 by (field; lra).
           rewrite atan_0. destruct (ReqbP (0 / (2*PI)) 0) as [E|E]; [f_equal; field; lra|].
           exfalso. apply E. field. lra.
        -- destruct (ReqbP (atan t / (2 * PI)) 0) as [E|E].
           ++ exfalso. assert (atan t = 0).
              { apply Rmult_eq_reg_r with (/ (2*PI)); [|apply Rinv_neq_0_compat; lra].
                rewrite Rmult_0_l. exact E. }
              assert (0 < t) by (unfold t; apply Rmult_lt_0_compat; [apply Rmult_lt_0_compat; [lra|]|];
                apply Rinv_0_lt_compat; lra).
              pose proof (atan_increasing 0 t H3). rewrite atan_0 in H4. lra.
           ++ f_equal. field. lra.
      * assert (t < 0).
        { unfold t. replace (dy / vs / dx) with (- ((- dy) * / vs * / dx)) by (field; lra).
          apply Ropp_lt_gt_0_contravar. apply Rmult_lt_0_compat; [apply Rmult_lt_0_compat; [lra|]|];
          apply Rinv_0_lt_compat; lra. }
        pose proof (atan_increasing t 0 H) as A0. rewrite atan_0 in A0.
        assert (atan t / (2*PI) < 0).
        { replace (atan t / (2*PI)) with (- ((- atan t) * / (2*PI))) by (field; lra).
          apply Ropp_lt_gt_0_contravar. apply Rmult_lt_0_compat; [lra|apply Rinv_0_lt_compat; lra]. }
        split; [|lra]. destruct (RlebP 0 (-dy)); [|exfalso; lra].
        destruct (ReqbP (atan t / (2 * PI) + 1) 0); [exfalso; lra|]. f_equal. field. lra.
    + intros H. injection H as <-. split; [|lra].
      destruct (ReqbP (atan t / (2*PI) + /2) 0); [exfalso; lra|]. f_equal. field. lra.
Qed.

(** Angle of the mirror image with respect to the vertical axis. *)
Lemma ring_angle_mirror dx dy vs r : 0 < vs -> (dx <> 0 \/ dy <> 0) -> ring_angle dx dy vs = Ok r ->
  ring_angle (- dx) dy vs = Ok (if Rleb r (/2) then /2 - r else 3/2 - r).
Proof.
  intros Hv Hnz. unfold ring_angle. pose proof PI_RGT_0 as Hpi.
  assert (AB : forall x, - / 4 < atan x / (2 * PI) < / 4).
  { intros x. pose proof (atan_bound x). split; apply Rmult_lt_reg_r with (2*PI); try lra;
      unfold Rdiv; rewrite Rmult_assoc, Rinv_l by lra; lra. }
  assert (AS : forall x, (0 <= x -> 0 <= atan x / (2*PI)) /\ (x < 0 -> atan x / (2*PI) < 0) /\ (0 < x -> 0 < atan x / (2*PI))).
  { intros x. assert (IP : 0 < / (2*PI)) by (apply Rinv_0_lt_compat; lra). repeat split; intros H.
    - apply Rmult_le_pos; [|lra]. destruct H as [H|H];
        [left; rewrite <- atan_0; apply atan_increasing; auto|rewrite <- H, atan_0; lra].
    - pose proof (atan_increasing x 0 H) as A0. rewrite atan_0 in A0. unfold Rdiv. nra.
    - pose proof (atan_increasing 0 x H) as A0. rewrite atan_0 in A0. unfold Rdiv. nra. }
  destruct (ReqbP dx 0) as [->|Hx].
  - intros H. injection H as <-. destruct (ReqbP (-0) 0); [|exfalso; lra].
    destruct (ReqbP dy 0); [exfalso; lra|].
    destruct (RltbP 0 dy).
    + destruct (RlebP (/4) (/2)); [f_equal; lra|exfalso; lra].
    + destruct (RlebP (3/4) (/2)); [exfalso; lra|f_equal; lra].
  - rewrite !rdiv_ok by lra. simpl. rewrite !rdiv_ok by lra. simpl.
    destruct (ReqbP (-dx) 0); [exfalso; lra|].
    replace (dy / vs / - dx) with (- (dy / vs / dx)) by (field; lra). rewrite atan_opp.
    set (t := dy / vs / dx). specialize (AB t). specialize (AS t) as (A1 & A2 & A3).
    assert (T : (0 < dx -> (0 <= dy -> 0 <= t) /\ (dy < 0 -> t < 0)) /\
                (dx < 0 -> (0 < dy -> t < 0) /\ (dy = 0 -> t = 0) /\ (dy < 0 -> 0 < t))).
    { assert (IV : 0 < / vs) by (apply Rinv_0_lt_compat; lra).
      split; intros D; repeat split; intros E; unfold t, Rdiv.
      - apply Rmult_le_pos; [apply Rmult_le_pos; lra|left; now apply Rinv_0_lt_compat].
      - assert (0 < / dx) by now apply Rinv_0_lt_compat.
        assert (dy * / vs < 0) by nra. nra.
      - assert (/ dx < 0) by now apply Rinv_lt_0_compat.
        assert (0 < dy * / vs) by nra. nra.
      - subst dy. ring.
      - assert (/ dx < 0) by now apply Rinv_lt_0_compat.
        assert (dy * / vs < 0) by nra. nra. }
    destruct T as (T1 & T2).
    destruct (RltbP 0 dx) as [P|P].
    + destruct (T1 P) as (T3 & T4).
      destruct (RltbP 0 (-dx)); [exfalso; lra|].
      destruct (RlebP 0 dy) as [Q|Q]; intros H; injection H as <-.
      * specialize (A1 (T3 Q)).
        destruct (RlebP (atan t / (2*PI)) (/2)); [f_equal; field; lra|exfalso; lra].
      * destruct (RlebP (atan t / (2*PI) + 1) (/2)); [exfalso; lra|]. f_equal. field. lra.
    + assert (D : dx < 0) by lra. destruct (T2 D) as (T3 & T4 & T5).
      destruct (RltbP 0 (-dx)); [|exfalso; lra].
      intros H. injection H as <-.
      destruct (RlebP 0 dy) as [Q|Q].
      * assert (atan t / (2*PI) <= 0).
        { destruct Q as [Q|Q]; [left; auto|]. rewrite (T4 (eq_sym Q)), atan_0. unfold Rdiv. lra. }
        destruct (RlebP (atan t / (2*PI) + /2) (/2)); [f_equal; field; lra|exfalso; lra].
      * assert (dy < 0) by lra. specialize (A3 (T5 H)).
        destruct (RlebP (atan t / (2*PI) + /2) (/2)); [exfalso; lra|]. f_equal. field. lra.
Qed.

Lemma ring_angle_total dx dy vs : 0 < vs -> exists r, ring_angle dx dy vs = Ok r.
Proof.
  intros Hv. unfold ring_angle. destruct (ReqbP dx 0); [eauto|]. rewrite rdiv_ok by lra. simpl.
  rewrite rdiv_ok by lra. simpl. destruct (Rltb 0 dx); eauto.
Qed.

Lemma check_ring_cong cplx ce ra vs sa ea w p p' :
  (0 < vs) ->
  let q := rel cplx p ce in let q' := rel cplx p' ce in
  (fst q' = fst q \/ fst q' = - fst q) -> (snd q' = snd q \/ snd q' = - snd q) ->
  ((fst q <> 0 \/ snd q <> 0) ->
     forall r r', ring_angle (fst q) (snd q) vs = Ok r -> ring_angle (fst q') (snd q') vs = Ok r' ->
     angle_out sa ea r' = angle_out sa ea r) ->
  check_ring cplx ce ra vs sa ea w p' = check_ring cplx ce ra vs sa ea w p.
Proof.
  intros Hv q q' H1 H2 HA. unfold check_ring. fold q q'. clearbody q q'.
  assert (G : forall x y : R, x = y \/ x = - y -> exists b : bool, forall u,
     rdiv x u = (do a <- rdiv y u; Ok (if b then a else - a))).
  { intros x y [->| ->]; [exists true|exists false]; intros u;
      [destruct (rdiv _ _); reflexivity|apply rdiv_opp]. }
  destruct (G _ _ H1) as (b1 & D1). destruct (G _ _ H2) as (b2 & D2).
  assert (SQ : forall (b : bool) a, (if b then a else - a) * (if b then a else - a) = a * a)
    by (intros [] a; ring).
  rewrite !D1, !D2.
  destruct (rdiv (fst q) (ra + w/2)) as [a| | |]; simpl; auto.
  destruct (rdiv (snd q) (ra + w/2)) as [b| | |]; simpl; auto.
  rewrite !SQ.
  destruct (rdiv (b * b) (vs * vs)) as [e| | |]; simpl; auto.
  destruct (rdiv (fst q) (ra - w/2)) as [a'| | |] eqn:Ea; simpl; auto.
  destruct (rdiv (snd q) (ra - w/2)) as [b'| | |] eqn:Eb; simpl; auto.
  rewrite !SQ.
  destruct (rdiv (b' * b') (vs * vs)) as [e'| | |] eqn:Ee; simpl; auto.
  destruct (_ =? 1)%Z eqn:EI; auto.
  destruct (ring_angle_total (fst q) (snd q) vs Hv) as (r & Er).
  destruct (ring_angle_total (fst q') (snd q') vs Hv) as (r' & Er').
  rewrite Er, Er'. simpl.
  destruct (Req_EM_T (fst q) 0) as [Z1|Z1]; [destruct (Req_EM_T (snd q) 0) as [Z2|Z2]|].
  - assert (Er'' : Ok r = Ok r').
    { rewrite <- Er, <- Er'. replace (fst q') with (fst q) by lra. replace (snd q') with (snd q) by lra. reflexivity. }
    injection Er'' as <-. reflexivity.
  - rewrite (HA (or_intror Z2) r r' Er Er'). reflexivity.
  - rewrite (HA (or_introl Z1) r r' Er Er'). reflexivity.
Qed.

Lemma check_ring_conj cplx ce ra vs sa ea w x y :
  0 < vs -> 0 <= sa <= 1 -> 0 <= ea <= 1 -> snd ce = 0 -> sa + ea = 1 ->
  check_ring cplx ce ra vs sa ea w (x, - y) = check_ring cplx ce ra vs sa ea w (x, y).
Proof.
  intros Hv Hs He Hc Hse. apply check_ring_cong; auto; rewrite ?rel_conj by auto; cbn [fst snd]; auto.
  destruct (rel cplx (x, y) ce) as [u v]. cbn [fst snd]. intros NZ r r' Er Er'.
  destruct (ring_angle_conj u v vs r Hv NZ Er) as (E & B). rewrite E in Er'. injection Er' as <-.
  unfold angle_out. repeat rb; subst; simpl; auto; try lra.
Qed.

Lemma ring_angle_range u v vs r : 0 < vs -> (u <> 0 \/ v <> 0) -> ring_angle u v vs = Ok r -> 0 <= r < 1.
Proof. intros Hv NZ E. now apply (ring_angle_conj u v vs r Hv NZ E). Qed.

Lemma check_ring_mirror cplx ce ra vs sa ea w x y :
  0 < vs -> 0 <= sa <= 1 -> 0 <= ea <= 1 -> fst ce = 0 -> Rabs (sa + ea - 1) = / 2 ->
  ~ (sa = / 2 /\ ea = 1) ->
  check_ring cplx ce ra vs sa ea w (- x, y) = check_ring cplx ce ra vs sa ea w (x, y).
Proof.
  intros Hv Hs He Hc Hse Hbad. apply check_ring_cong; auto; rewrite ?rel_mirror by auto; cbn [fst snd]; auto.
  destruct (rel cplx (x, y) ce) as [u v]. cbn [fst snd]. intros NZ r r' Er Er'.
  pose proof (ring_angle_range u v vs r Hv NZ Er) as B.
  rewrite (ring_angle_mirror u v vs r Hv NZ Er) in Er'. injection Er' as <-.
  assert (Hse' : sa + ea = /2 \/ sa + ea = 3/2).
  { unfold Rabs in Hse. destruct (Rcase_abs _); lra. }
  unfold angle_out. destruct Hse' as [Q|Q];
    repeat rb; subst; simpl; auto; try lra; exfalso; try lra; apply Hbad; lra.
Qed.

(** * Bounding box *)
Lemma poly_loop_parity tol es (b : point -> bool) :
  (forall u v, In (u, v) es -> 0 <= snd u /\ 0 <= snd v) ->
  forall z, b = (fun u => negb (Rltb (fst u) 0)) ->
  poly_loop tol es z = Ok (fold_left (fun z '(u, v) => if xorb (b u) (b v) then (- z)%Z else z) es z).
Proof.
  intros H z Hb. revert z. induction es as [|[[xi yi] [xj yj]] es IH]; intros z; simpl; [reflexivity|].
  destruct (H (xi, yi) (xj, yj)) as [Y1 Y2]; [now left|]. simpl in Y1, Y2.
  assert (IH' : forall z, poly_loop tol es z = Ok (fold_left (fun z '(u, v) => if xorb (b u) (b v) then (- z)%Z else z) es z))
    by (apply IH; intros; apply H; now right).
  rewrite Hb. cbn [fst].
  destruct (RltbP yi 0); [exfalso; lra|]. destruct (RltbP yj 0); [exfalso; lra|].
  destruct (RltbP xi 0), (RltbP xj 0); simpl; rewrite IH', Hb; reflexivity.
Qed.

Lemma fold_path {A} (b : A -> bool) (vs : list A) (v last : A) z :
  fold_left (fun z '(u, w) => if xorb (b u) (b w) then (- z)%Z else z) (combine (v :: vs) (vs ++ [last])) z
  = if xorb (b v) (b last) then (- z)%Z else z.
Proof.
  revert v z. induction vs as [|w vs IH]; intros v z; [reflexivity|].
  change (combine (v :: w :: vs) ((w :: vs) ++ [last])) with ((v, w) :: combine (w :: vs) (vs ++ [last])).
  cbn [fold_left]. rewrite IH. destruct (b v), (b w), (b last); simpl; auto; lia.
Qed.

Lemma in_edges {A} (vs : list A) u v : In (u, v) (edges vs) -> In u vs /\ In v vs.
Proof.
  destruct vs as [|a vs]; cbn [edges]; intros H; [contradiction|].
  split; [eapply in_combine_l; eauto|]. apply in_combine_r in H. rewrite in_app_iff in H.
  simpl in *. tauto.
Qed.

Lemma poly_loop_skip tol es z :
  (forall u v, In (u, v) es ->
     (fst u < 0 /\ fst v < 0) \/ (0 <= fst u /\ 0 <= fst v) \/ (snd u < 0 /\ snd v < 0)) ->
  poly_loop tol es z = Ok z.
Proof.
  induction es as [|[[xi yi] [xj yj]] es IH]; intros H; simpl; [reflexivity|].
  assert (IH' : poly_loop tol es z = Ok z) by (apply IH; intros; apply H; now right).
  destruct (H (xi, yi) (xj, yj)) as [C | [C | C]]; [now left|..]; simpl in C;
    repeat rb; simpl; auto; exfalso; lra.
Qed.

(** A point outside the range of the vertices is exterior. *)
Lemma check_polygon_out tol vs p (a b c d : R) :
  (forall v, In v vs -> a <= fst v <= b /\ c <= snd v <= d) ->
  ~ (a <= fst p <= b /\ c <= snd p <= d) ->
  check_polygon tol vs p = Ok (-1)%Z.
Proof.
  intros HB HN. unfold check_polygon.
  assert (HE : forall u v, In (u, v) (edges (map (shift_point p) vs)) ->
     (a - fst p <= fst u <= b - fst p /\ c - snd p <= snd u <= d - snd p) /\
     (a - fst p <= fst v <= b - fst p /\ c - snd p <= snd v <= d - snd p)).
  { intros u v H. apply in_edges in H as [H1 H2].
    apply in_map_iff in H1 as (u0 & <- & H1). apply in_map_iff in H2 as (v0 & <- & H2).
    apply HB in H1. apply HB in H2. unfold shift_point; simpl. lra. }
  destruct (Rlt_dec (fst p) a) as [L|L].
  { apply poly_loop_skip. intros u v H. apply HE in H. right; left. lra. }
  destruct (Rlt_dec b (fst p)) as [L2|L2].
  { apply poly_loop_skip. intros u v H. apply HE in H. left. lra. }
  destruct (Rlt_dec d (snd p)) as [L3|L3].
  { apply poly_loop_skip. intros u v H. apply HE in H. right; right. lra. }
  assert (L4 : snd p < c) by lra.
  rewrite (poly_loop_parity tol _ (fun u => negb (Rltb (fst u) 0))); [|intros u v H; apply HE in H; lra|reflexivity].
  f_equal. destruct vs as [|v vs]; [reflexivity|].
  simpl map. unfold edges. rewrite fold_path. now rewrite xorb_nilpotent.
Qed.

Definition bbox_step (acc : R * R * R * R) (v : point) : R * R * R * R :=
  let '(a, b, c, d) := acc in (Rmin a (fst v), Rmax b (fst v), Rmin c (snd v), Rmax d (snd v)).
Lemma bbox_fold vs acc a b c d :
  fold_left bbox_step vs acc = (a, b, c, d) ->
  let '(a0, b0, c0, d0) := acc in
  (a <= a0 /\ b0 <= b /\ c <= c0 /\ d0 <= d) /\
  (forall v, In v vs -> a <= fst v <= b /\ c <= snd v <= d).
Proof.
  revert acc. induction vs as [|v vs IH]; intros [[[a0 b0] c0] d0] H; simpl in *.
  - injection H as <- <- <- <-. split; [lra|contradiction].
  - apply IH in H. destruct H as [(H1 & H2 & H3 & H4) H5].
    pose proof (Rmin_l a0 (fst v)). pose proof (Rmin_r a0 (fst v)).
    pose proof (Rmax_l b0 (fst v)). pose proof (Rmax_r b0 (fst v)).
    pose proof (Rmin_l c0 (snd v)). pose proof (Rmin_r c0 (snd v)).
    pose proof (Rmax_l d0 (snd v)). pose proof (Rmax_r d0 (snd v)).
    split; [lra|]. intros w [<-|Hw]; [lra|auto].
Qed.
Lemma bbox_polygon MAXR vs a b c d :
  bbox_shape MAXR (Polygon vs) = (a, b, c, d) ->
  forall v, In v vs -> a <= fst v <= b /\ c <= snd v <= d.
Proof.
  intros H. simpl in H. 
  assert (H' : fold_left bbox_step vs (MAXR, -MAXR, MAXR, -MAXR) = (a, b, c, d)) by exact H.
  apply bbox_fold in H'. apply H'.
Qed.

Lemma sq_bound u v : 0 <= v -> u * u <= v * v -> - v <= u <= v.
Proof. intros. split; nra. Qed.

Lemma bbox_shape_contains cplx MAXR tol s p z a b c d :
  shape_ok cplx s -> check_shape cplx tol s p = Ok z -> (0 <= z)%Z ->
  bbox_shape MAXR s = (a, b, c, d) ->
  a <= fst p <= b /\ c <= snd p <= d.
Proof.
  intros Hok HC Hz HB.
  destruct s as [a0 b0 c0 d0|ce ra vs|ce ra vs sa ea w|vs].
  - simpl in *. injection HB as <- <- <- <-. injection HC as <-.
    destruct Hok as (H1 & H2 & _).
    destruct (check_interval_position a0 b0 c0 d0 p H1 H2) as [[_ H] | [[_ H] | [H _]]];
      [unfold rect_in in H; lra|unfold rect_bd in H; lra|lia].
  - simpl in *. injection HB as <- <- <- <-. destruct Hok as (H1 & H2 & H3).
    rewrite check_ellipse_eq in HC by auto. injection HC as <-.
    assert (Q : ell_q ce ra vs p <= 1).
    { destruct (rsign_cases (1 - ell_q ce ra vs p)) as [[_ ?] | [[_ ?] | [E ?]]]; [lra|lra|lia]. }
    unfold ell_q in Q.
    set (u := (fst p - fst ce) / ra) in *. set (v := (snd p - snd ce) / (ra * vs)) in *.
    assert (B1 : -1 <= u <= 1) by (apply sq_bound; nra).
    assert (B2 : -1 <= v <= 1) by (apply sq_bound; nra).
    assert (E1 : fst p - fst ce = u * ra) by (unfold u; field; lra).
    assert (E2 : snd p - snd ce = v * (ra * vs)) by (unfold v; field; lra).
    assert (0 < ra * vs) by nra. split; split; nra.
  - simpl in HC, HB. destruct Hok as (H1 & H2 & H3 & H4 & H5 & H6).
    injection HB as <- <- <- <-.
    destruct (Req_EM_T (ra - w/2) 0) as [E0|N0].
    { exfalso. unfold check_ring in HC. rewrite !(rdiv_ok _ (ra + w/2)) in HC by lra. simpl in HC.
      rewrite (rdiv_ok _ (vs * vs)) in HC by nra. simpl in HC. rewrite E0 in HC.
      unfold rdiv in HC. destruct (ReqbP 0 0); [discriminate|lra]. }
    rewrite check_ring_eq in HC by lra. cbv zeta in HC.
    assert (ER : rel cplx p ce = (fst p - fst ce, snd p - snd ce)).
    { unfold rel. destruct cplx; [reflexivity|]. destruct (H6 eq_refl) as [-> _]. f_equal. ring. }
    rewrite ER in HC. cbn [fst snd] in HC.
    set (Q := ring_q (fst p - fst ce) (snd p - snd ce) vs) in *.
    assert (QB : Q <= (ra + w/2) * (ra + w/2)).
    { apply Rnot_lt_le. intros L.
      assert (D1 : 0 < (ra + w/2) * (ra + w/2)) by nra.
      assert (D2 : 0 < (ra - w/2) * (ra - w/2)) by nra.
      assert (D3 : (ra - w/2) * (ra - w/2) < Q) by nra.
      apply (div_gt_1 Q _ D1) in L. apply (div_gt_1 Q _ D2) in D3.
      rewrite (proj2 (rsign_neg (1 - Q / ((ra + w/2) * (ra + w/2))))) in HC by lra.
      rewrite (proj2 (rsign_pos (-1 + Q / ((ra - w/2) * (ra - w/2))))) in HC by lra.
      simpl in HC. injection HC as <-. lia. }
    unfold Q, ring_q in QB.
    set (v := (snd p - snd ce) / vs) in *.
    pose proof (Rle_0_sqr (fst p - fst ce)) as S1. pose proof (Rle_0_sqr v) as S2. unfold Rsqr in S1, S2.
    assert (B1 : - (ra + w/2) <= fst p - fst ce <= ra + w/2) by (apply sq_bound; lra).
    assert (B2 : - (ra + w/2) <= v <= ra + w/2) by (apply sq_bound; lra).
    assert (E2 : snd p - snd ce = v * vs) by (unfold v; field; lra).
    clearbody v. split; split; nra.
  - destruct (Rle_dec a (fst p)) as [L1|L1]; [destruct (Rle_dec (fst p) b) as [L2|L2];
      [destruct (Rle_dec c (snd p)) as [L3|L3]; [destruct (Rle_dec (snd p) d) as [L4|L4]; [lra|]|]|]|];
    exfalso; simpl check_shape in HC;
    rewrite (check_polygon_out tol vs p a b c d (bbox_polygon MAXR vs a b c d HB)) in HC by lra;
    injection HC as <-; lia.
Qed.
