(** Lemmas on regions: contours of intervals, ellipses and rings; polygon parity. *)
From Coq Require Import Reals ZArith List Bool Lra Lia Psatz.
From Verif Require Import Prelude RealBool RGModel RGSpec RGProofs RGProofs2.
Import ListNotations.
Open Scope R_scope.

(** Entries [j] with [W j] of the array are written and satisfy [good j]. *)
Definition filled (good : Z -> point -> Prop) (n : Z) (W : Z -> Prop) (cr : contour_array) : Prop :=
  zlen cr = n /\ forall j, W j -> exists q, aget cr j = Ok (Some q) /\ good j q.

Lemma aget_range {A} (l : list A) i a : aget l i = Ok a -> (0 <= i < zlen l)%Z.
Proof. intros H. apply aget_ok_iff. eauto. Qed.

Lemma filled_aset good n (W W' : Z -> Prop) cr i q :
  filled good n W cr -> (0 <= i < n)%Z -> good i q ->
  (forall j, W' j -> W j \/ j = i) ->
  exists cr', aset cr i (@Some (R * R) q) = Ok cr' /\ filled good n W' cr'.
Proof.
  intros [HL HW] Hi Hg HS.
  destruct (proj2 (aset_ok_iff cr i (Some q))) as (cr' & E); [lia|].
  exists cr'. split; [exact E|]. split; [rewrite (aset_len _ _ _ _ E); exact HL|].
  intros j Hj; cbv beta in *. rewrite (aget_aset _ _ _ _ j E).
  destruct (Z.eqb_spec j i) as [->|N]; [eauto|].
  destruct (HS j Hj); [auto|contradiction].
Qed.

Lemma unwritten_len n : (0 <= n)%Z -> zlen (unwritten n) = n.
Proof. intros. unfold zlen, unwritten. rewrite repeat_length. lia. Qed.
Lemma filled_unwritten good n : (0 <= n)%Z -> filled good n (fun _ => False) (unwritten n).
Proof. intros. split; [now apply unwritten_len|contradiction]. Qed.
Lemma filled_sub good n (W W' : Z -> Prop) cr :
  filled good n W cr -> (forall j, W' j -> W j) -> filled good n W' cr.
Proof. intros [H1 H2] H. split; auto. Qed.

(** floor *)
Lemma rfloor_spec t : IZR (rfloor t) <= t < IZR (rfloor t) + 1.
Proof. unfold rfloor. pose proof (base_Int_part t). lra. Qed.
Lemma rceil_spec t : t <= IZR (rceil t) < t + 1.
Proof. unfold rceil. rewrite opp_IZR. pose proof (base_Int_part (-t)). lra. Qed.
Lemma rfloor_eq t k : IZR k <= t < IZR k + 1 -> rfloor t = k.
Proof.
  intros H. pose proof (rfloor_spec t) as S.
  assert (IZR (rfloor t) < IZR (k + 1)) by (rewrite plus_IZR; lra).
  assert (IZR k < IZR (rfloor t + 1)) by (rewrite plus_IZR; lra).
  apply lt_IZR in H0. apply lt_IZR in H1. lia.
Qed.

Lemma interval_nv_range a b c d N : a < b -> c < d -> (2 <= N)%Z ->
  exists Nv, interval_nv a b c d N = Ok Nv /\ (1 <= Nv <= N - 1)%Z.
Proof.
  intros H1 H2 HN. unfold interval_nv. rewrite rdiv_ok by lra. simpl. eexists. split; [reflexivity|].
  set (t := (d - c) / (d - c + b - a) * IZR N).
  assert (HN' : 2 <= IZR N) by (apply (IZR_le 2); lia).
  assert (R0 : 0 < (d - c) / (d - c + b - a)) by (apply Rmult_lt_0_compat; [lra|apply Rinv_0_lt_compat; lra]).
  assert (R1 : (d - c) / (d - c + b - a) < 1) by (apply div_lt_1; lra).
  assert (T : 0 < t < IZR N) by (unfold t; split; nra).
  pose proof (rfloor_spec t) as F. pose proof (rceil_spec t) as C.
  assert (B1 : (0 <= rfloor t < N)%Z).
  { split; [|apply lt_IZR; lra]. assert (-1 < rfloor t)%Z by (apply lt_IZR; lra). lia. }
  assert (B2 : (1 <= rceil t <= N)%Z).
  { assert (0 < rceil t)%Z by (apply lt_IZR; lra).
    assert (rceil t < N + 1)%Z by (apply lt_IZR; rewrite plus_IZR; lra). lia. }
  destruct (Rltb _ _); [set (x := rceil t) in *|set (x := rfloor t) in *];
    destruct (Z.eqb_spec x 0); destruct (Z.eqb_spec x N); lia.
Qed.

Lemma step_bound x0 x1 (i m : Z) : x0 < x1 -> (0 <= i <= m)%Z -> (0 < m)%Z ->
  let h := (x1 - x0) / IZR m in 0 <= IZR i * h <= x1 - x0 /\ 0 < h /\ IZR m * h = x1 - x0.
Proof.
  intros H Hi Hm h.
  assert (P : 0 < IZR m) by (apply (IZR_lt 0); lia).
  assert (Hh : 0 < h) by (unfold h; apply Rmult_lt_0_compat; [lra|now apply Rinv_0_lt_compat]).
  assert (E : IZR m * h = x1 - x0) by (unfold h; field; lra).
  assert (0 <= IZR i) by (apply (IZR_le 0); lia). assert (IZR i <= IZR m) by (apply IZR_le; lia).
  repeat split; auto; nra.
Qed.

(** The exact points of the contour of a non-degenerate rectangle (complex scalars). *)
Definition rect_point (a b c d hh hv : R) (N Nv : Z) (j : Z) (q : point) : Prop :=
  let k1 := (Nv / 2 + 1)%Z in let k0 := (Nv - k1)%Z in let Nh := (N - Nv)%Z in
  let upper j := if (j <? k0)%Z then (b, c + IZR (j + k1) * hv)
      else if (j <? k0 + Nh)%Z then (b - IZR (j - k0) * hh, d)
      else (a, d - IZR (j - k0 - Nh) * hv) in
  let lower j := if (j <? k0)%Z then (a, d - IZR (j + k1) * hv)
      else if (j <? k0 + Nh)%Z then (a + IZR (j - k0) * hh, c)
      else (b, c + IZR (j - k0 - Nh) * hv) in
  q = if (j <? N)%Z then upper j else lower (j - N)%Z.

Lemma contour_interval_points MAXR a b c d n cr :
  -MAXR < a -> b < MAXR -> -MAXR < c -> d < MAXR -> a < b -> c < d -> (3 < n)%Z -> zlen cr = n ->
  exists Nv cr', contour_interval true MAXR a b c d n cr = Ok cr'
    /\ interval_nv a b c d (n / 2) = Ok Nv /\ (1 <= Nv <= n / 2 - 1)%Z
    /\ filled (rect_point a b c d ((b - a) / IZR (n/2 - Nv)) ((d - c) / IZR Nv) (n/2) Nv) n
         (fun j => 0 <= j < 2 * (n / 2))%Z cr'.
Proof.
  intros M1 M2 M3 M4 Hab Hcd Hn HL.
  set (N := (n / 2)%Z).
  assert (HN : (2 <= N)%Z) by (apply Z.div_le_lower_bound; lia).
  assert (HN2 : (2 * N <= n)%Z) by (apply Z.mul_div_le; lia).
  destruct (interval_nv_range a b c d N Hab Hcd HN) as (Nv & ENv & HNv).
  exists Nv. unfold contour_interval.
  destruct (RltbP (-MAXR) a); [|lra]. destruct (RltbP b MAXR); [|lra].
  destruct (RltbP (-MAXR) c); [|lra]. destruct (RltbP d MAXR); [|lra]. simpl.
  destruct (ReqbP a b); [lra|]. destruct (ReqbP c d); [lra|]. simpl.
  destruct (Z.ltb_spec 3 n); [|lia]. unfold check. fold N. rewrite ENv. simpl.
  assert (Q1 : IZR (N - Nv) <> 0) by (apply IZR_neq; lia).
  assert (Q2 : IZR Nv <> 0) by (apply IZR_neq; lia).
  rewrite !rdiv_ok by assumption. simpl.
  set (hh := (b - a) / IZR (N - Nv)). set (hv := (d - c) / IZR Nv).
  assert (D : (0 <= Nv / 2 /\ 2 * (Nv / 2) <= Nv /\ Nv < 2 * (Nv / 2) + 2)%Z).
  { pose proof (Z.div_mod Nv 2 ltac:(lia)). pose proof (Z.mod_pos_bound Nv 2 ltac:(lia)).
    split; [apply Z.div_pos; lia|lia]. }
  set (k1 := (Nv / 2 + 1)%Z) in *. set (k0 := (Nv - k1)%Z).
  set (good := rect_point a b c d hh hv N Nv).
  (* first loop; if Nv=1 then k1=1=Nv, k0=0 *)
  assert (Hk : (k1 <= Nv)%Z \/ (Nv = 1)%Z) by lia.
  assert (Hk1 : (k1 <= Nv)%Z) by (destruct Hk; [auto|subst Nv; unfold k1; simpl; lia]).
  destruct (forz_inv (fun i cr => filled good n (fun j => (0 <= j < i - k1) \/ (N <= j < N + (i - k1)))%Z cr)
     k1 Nv (fun i cr =>
        do cr <- aset cr (i - k1) (Some (b, c + IZR i * hv));
        aset cr (i - k1 + N) (Some (a, d - IZR i * hv))) cr Hk1) as (cr1 & E1 & F1).
  { split; [exact HL|]. intros j Hj; cbv beta in *. lia. }
  { intros i x Hi Fx. cbv beta.
    destruct (filled_aset good n _ (fun j => (0 <= j < i + 1 - k1) \/ (N <= j < N + (i - k1)))%Z x (i - k1)
      (b, c + IZR i * hv) Fx) as (x1 & Ex1 & Fx1); [lia|..].
    { unfold good, rect_point. fold k1 k0.
      destruct (Z.ltb_spec (i - k1) N); [|lia]. destruct (Z.ltb_spec (i - k1) k0); [|unfold k0 in *; lia].
      replace (i - k1 + k1)%Z with i by lia. reflexivity. }
    { intros; lia. }
    rewrite Ex1. simpl.
    destruct (filled_aset good n _ (fun j => (0 <= j < i + 1 - k1) \/ (N <= j < N + (i + 1 - k1)))%Z x1 (i - k1 + N)
      (a, d - IZR i * hv) Fx1) as (x2 & Ex2 & Fx2); [unfold k0 in *; lia|..].
    { unfold good, rect_point. fold k1 k0.
      destruct (Z.ltb_spec (i - k1 + N) N); [lia|]. replace (i - k1 + N - N)%Z with (i - k1)%Z by lia.
      destruct (Z.ltb_spec (i - k1) k0); [|unfold k0 in *; lia].
      replace (i - k1 + k1)%Z with i by lia. reflexivity. }
    { intros; lia. }
    exists x2. split; [exact Ex2|exact Fx2]. }
  rewrite E1. simpl.
  assert (HNh : (0 <= N - Nv)%Z) by lia.
  destruct (forz_inv (fun i cr => filled good n (fun j => (0 <= j < k0 + i) \/ (N <= j < N + (k0 + i)))%Z cr)
     0 (N - Nv) (fun i cr =>
        do cr <- aset cr (i + k0) (Some (b - IZR i * hh, d));
        aset cr (i + k0 + N) (Some (a + IZR i * hh, c))) cr1 HNh) as (cr2 & E2 & F2).
  { eapply filled_sub; [exact F1|]. intros j Hj; cbv beta in *. unfold k0 in *; lia. }
  { intros i x Hi Fx. cbv beta.
    assert (K0 : (0 <= k0)%Z) by (unfold k0; lia).
    destruct (filled_aset good n _ (fun j => (0 <= j < k0 + (i + 1)) \/ (N <= j < N + (k0 + i)))%Z x (i + k0)
      (b - IZR i * hh, d) Fx) as (x1 & Ex1 & Fx1); [unfold k0 in *; lia|..].
    { unfold good, rect_point. fold k1 k0.
      destruct (Z.ltb_spec (i + k0) N); [|unfold k0 in *; lia]. destruct (Z.ltb_spec (i + k0) k0); [lia|].
      destruct (Z.ltb_spec (i + k0) (k0 + (N - Nv))); [|lia].
      replace (i + k0 - k0)%Z with i by lia. reflexivity. }
    { intros; lia. }
    rewrite Ex1. simpl.
    destruct (filled_aset good n _ (fun j => (0 <= j < k0 + (i + 1)) \/ (N <= j < N + (k0 + (i + 1))))%Z x1 (i + k0 + N)
      (a + IZR i * hh, c) Fx1) as (x2 & Ex2 & Fx2); [unfold k0 in *; lia|..].
    { unfold good, rect_point. fold k1 k0.
      destruct (Z.ltb_spec (i + k0 + N) N); [lia|]. replace (i + k0 + N - N)%Z with (i + k0)%Z by lia.
      destruct (Z.ltb_spec (i + k0) k0); [lia|].
      destruct (Z.ltb_spec (i + k0) (k0 + (N - Nv))); [|lia].
      replace (i + k0 - k0)%Z with i by lia. reflexivity. }
    { intros; lia. }
    exists x2. split; [exact Ex2|exact Fx2]. }
  rewrite E2. simpl.
  assert (Hk1' : (0 <= k1)%Z) by (unfold k1; lia).
  set (Nh := (N - Nv)%Z) in *.
  destruct (forz_inv (fun i cr => filled good n (fun j => (0 <= j < k0 + Nh + i) \/ (N <= j < N + (k0 + Nh + i)))%Z cr)
     0 k1 (fun i cr =>
        do cr <- aset cr (i + k0 + Nh) (Some (a, d - IZR i * hv));
        aset cr (i + k0 + Nh + N) (Some (b, c + IZR i * hv))) cr2 Hk1') as (cr3 & E3 & F3).
  { eapply filled_sub; [exact F2|]. intros j Hj; cbv beta in *. lia. }
  { intros i x Hi Fx. cbv beta.
    assert (K0 : (0 <= k0)%Z) by (unfold k0; lia).
    destruct (filled_aset good n _ (fun j => (0 <= j < k0 + Nh + (i + 1)) \/ (N <= j < N + (k0 + Nh + i)))%Z x (i + k0 + Nh)
      (a, d - IZR i * hv) Fx) as (x1 & Ex1 & Fx1); [unfold k0, Nh in *; lia|..].
    { unfold good, rect_point. fold k1 k0 Nh.
      destruct (Z.ltb_spec (i + k0 + Nh) N); [|unfold k0, Nh in *; lia]. destruct (Z.ltb_spec (i + k0 + Nh) k0); [lia|].
      destruct (Z.ltb_spec (i + k0 + Nh) (k0 + Nh)); [lia|].
      replace (i + k0 + Nh - k0 - Nh)%Z with i by lia. reflexivity. }
    { intros; lia. }
    rewrite Ex1. simpl.
    destruct (filled_aset good n _ (fun j => (0 <= j < k0 + Nh + (i + 1)) \/ (N <= j < N + (k0 + Nh + (i + 1))))%Z x1 (i + k0 + Nh + N)
      (b, c + IZR i * hv) Fx1) as (x2 & Ex2 & Fx2); [unfold k0, Nh in *; lia|..].
    { unfold good, rect_point. fold k1 k0 Nh.
      destruct (Z.ltb_spec (i + k0 + Nh + N) N); [lia|]. replace (i + k0 + Nh + N - N)%Z with (i + k0 + Nh)%Z by lia.
      destruct (Z.ltb_spec (i + k0 + Nh) k0); [lia|].
      destruct (Z.ltb_spec (i + k0 + Nh) (k0 + Nh)); [lia|].
      replace (i + k0 + Nh - k0 - Nh)%Z with i by lia. reflexivity. }
    { intros; lia. }
    exists x2. split; [exact Ex2|exact Fx2]. }
  exists cr3. split; [exact E3|]. split; [reflexivity|]. split; [lia|].
  eapply filled_sub; [exact F3|]. intros j Hj; cbv beta in *. assert (Hj2 : (0 <= j < 2 * N)%Z) by exact Hj. clear Hj. unfold k0, Nh in *. lia.
Qed.

Lemma rect_point_bd a b c d N Nv j q : a < b -> c < d -> (1 <= Nv <= N - 1)%Z -> (0 <= j < 2 * N)%Z ->
  rect_point a b c d ((b - a) / IZR (N - Nv)) ((d - c) / IZR Nv) N Nv j q -> rect_bd a b c d q.
Proof.
  intros Hab Hcd HN Hj. unfold rect_point. intros ->.
  assert (D : (0 <= Nv / 2 /\ 2 * (Nv / 2) <= Nv /\ Nv < 2 * (Nv / 2) + 2)%Z).
  { pose proof (Z.div_mod Nv 2 ltac:(lia)). pose proof (Z.mod_pos_bound Nv 2 ltac:(lia)).
    split; [apply Z.div_pos; lia|lia]. }
  set (k1 := (Nv / 2 + 1)%Z) in *.
  assert (BV : forall i, (0 <= i <= Nv)%Z -> 0 <= IZR i * ((d - c) / IZR Nv) <= d - c)
    by (intros i Hi; apply (step_bound c d i Nv Hcd Hi); lia).
  assert (BH : forall i, (0 <= i <= N - Nv)%Z -> 0 <= IZR i * ((b - a) / IZR (N - Nv)) <= b - a)
    by (intros i Hi; apply (step_bound a b i (N - Nv) Hab Hi); lia).
  unfold rect_bd.
  destruct (Z.ltb_spec j N).
  - destruct (Z.ltb_spec j (Nv - k1)); [|destruct (Z.ltb_spec j (Nv - k1 + (N - Nv)))]; cbn [fst snd].
    + pose proof (BV (j + k1)%Z ltac:(lia)). split; [lra|auto].
    + pose proof (BH (j - (Nv - k1))%Z ltac:(lia)). split; [lra|auto].
    + pose proof (BV (j - (Nv - k1) - (N - Nv))%Z ltac:(lia)). split; [lra|auto].
  - destruct (Z.ltb_spec (j - N) (Nv - k1)); [|destruct (Z.ltb_spec (j - N) (Nv - k1 + (N - Nv)))]; cbn [fst snd].
    + pose proof (BV (j - N + k1)%Z ltac:(lia)). split; [lra|auto].
    + pose proof (BH (j - N - (Nv - k1))%Z ltac:(lia)). split; [lra|auto].
    + pose proof (BV (j - N - (Nv - k1) - (N - Nv))%Z ltac:(lia)). split; [lra|auto].
Qed.

(** Degenerate rectangles (segments): both builds. *)
Lemma contour_segment cplx MAXR a b c d n cr :
  -MAXR < a -> b < MAXR -> -MAXR < c -> d < MAXR -> a <= b -> c <= d -> a = b \/ c = d ->
  (2 <= n)%Z -> zlen cr = n ->
  exists cr', contour_interval cplx MAXR a b c d n cr = Ok cr'
    /\ filled (fun _ => rect_bd a b c d) n (fun j => 0 <= j < n)%Z cr'.
Proof.
  intros M1 M2 M3 M4 Hab Hcd Hdeg Hn HL. unfold contour_interval.
  destruct (RltbP (-MAXR) a); [|lra]. destruct (RltbP b MAXR); [|lra].
  destruct (RltbP (-MAXR) c); [|lra]. destruct (RltbP d MAXR); [|lra]. simpl.
  assert (B : Reqb a b || Reqb c d = true).
  { destruct (ReqbP a b), (ReqbP c d); simpl; auto. destruct Hdeg; contradiction. }
  rewrite B.
  assert (Q : IZR (n - 1) <> 0) by (apply IZR_neq; lia).
  assert (P : 0 < IZR (n - 1)) by (apply (IZR_lt 0); lia).
  assert (G : forall hh hv, (forall i, (0 <= i < n)%Z -> rect_bd a b c d (a + hh * IZR i, c + hv * IZR i)) ->
    exists cr', forz 0 n (fun i cr => aset cr i (Some (a + hh * IZR i, c + hv * IZR i))) cr = Ok cr'
    /\ filled (fun _ => rect_bd a b c d) n (fun j => 0 <= j < n)%Z cr').
  { intros hh hv Hg.
    apply (forz_inv (fun i cr => filled (fun _ => rect_bd a b c d) n (fun j => 0 <= j < i)%Z cr)); [lia| |].
    - split; [exact HL|intros; lia].
    - intros i x Hi Fx. cbv beta. eapply filled_aset; [exact Fx|lia|apply Hg; lia|intros; cbv beta in *; lia]. }
  destruct (ReqbP a b) as [Eab|Nab].
  - rewrite rdiv_ok by assumption. simpl. apply G. intros i Hi. unfold rect_bd. cbn [fst snd].
    destruct Hcd as [Hcd|Hcd].
    + pose proof (step_bound c d i (n-1) Hcd ltac:(lia) ltac:(lia)) as (S & _). cbv zeta in S.
      split; [|left; lra]. rewrite (Rmult_comm _ (IZR i)). lra.
    + subst d. replace (c - c) with 0 by ring. unfold Rdiv. rewrite !Rmult_0_l. split; [lra|left; lra].
  - destruct (ReqbP c d) as [Ecd|Ncd]; [|destruct Hdeg; contradiction].
    rewrite rdiv_ok by assumption. simpl. apply G. intros i Hi. unfold rect_bd. cbn [fst snd].
    pose proof (step_bound a b i (n-1) ltac:(lra) ltac:(lia) ltac:(lia)) as (S & _). cbv zeta in S.
    rewrite (Rmult_comm _ (IZR i)). split; [lra|right; right; left; lra].
Qed.

(** Ellipse *)
Definition ell_theta (n i : Z) : R := 2 * PI * (IZR i + / 2) / IZR n.
Definition ell_point (ce : point) (ra vs : R) (n : Z) (i : Z) (q : point) : Prop :=
  q = (fst ce + ra * cos (ell_theta n i), snd ce + ra * vs * sin (ell_theta n i)).
Lemma contour_ellipse_points cplx ce ra vs n cr : (0 <= n)%Z -> zlen cr = n -> (cplx = false -> snd ce = 0) ->
  exists cr', contour_ellipse cplx ce ra vs n cr = Ok cr'
    /\ filled (ell_point ce ra vs n) n (fun j => 0 <= j < n)%Z cr'.
Proof.
  intros Hn HL Hc. unfold contour_ellipse.
  apply (forz_inv (fun i cr => filled (ell_point ce ra vs n) n (fun j => 0 <= j < i)%Z cr)); [lia| |].
  - split; [exact HL|intros; lia].
  - intros i x Hi Fx. cbv beta. rewrite rdiv_ok by (apply IZR_neq; lia). simpl.
    eapply filled_aset; [exact Fx|lia| |intros; cbv beta in *; lia].
    unfold ell_point, ell_theta. destruct cplx; [reflexivity|]. now rewrite (Hc eq_refl).
Qed.
Lemma ell_q_trig ce ra vs x : 0 < ra -> 0 < vs ->
  ell_q ce ra vs (fst ce + ra * cos x, snd ce + ra * vs * sin x) = 1.
Proof.
  intros. unfold ell_q. cbn [fst snd].
  replace ((fst ce + ra * cos x - fst ce) / ra) with (cos x) by (field; lra).
  replace ((snd ce + ra * vs * sin x - snd ce) / (ra * vs)) with (sin x) by (field; lra).
  pose proof (sin2_cos2 x) as S. unfold Rsqr in S. simpl. lra.
Qed.
Lemma ell_point_bd ce ra vs n i q : 0 < ra -> 0 < vs -> ell_point ce ra vs n i q -> ell_bd ce ra vs q.
Proof. intros H1 H2 ->. unfold ell_bd. now apply ell_q_trig. Qed.
(** Points i and n-1-i are conjugate. *)
Lemma ell_point_conj ce ra vs n i q q' : (0 < n)%Z -> snd ce = 0 ->
  ell_point ce ra vs n i q -> ell_point ce ra vs n (n - 1 - i) q' -> q' = conj q.
Proof.
  intros Hn Hc -> ->. unfold conj. cbn [fst snd].
  assert (HP : 0 < IZR n) by (apply (IZR_lt 0); lia).
  assert (E : ell_theta n (n - 1 - i) = - ell_theta n i + 2 * INR 1 * PI).
  { unfold ell_theta. rewrite !minus_IZR. simpl INR. field. lra. }
  rewrite E, cos_period, sin_period, cos_neg, sin_neg, Hc. f_equal. ring.
Qed.

(** Ring: radius and angle of each point. *)
Definition ring_point (ce : point) (ra vs sa ea w : R) (n : Z) (j : Z) (q : point) : Prop :=
  let st := if Rltb ea sa then sa - 1 else sa in
  exists t, q = (fst ce + (if (j <? n/2)%Z then ra + w/2 else ra - w/2) * cos ((t + st) * 2 * PI),
                 snd ce + (if (j <? n/2)%Z then ra + w/2 else ra - w/2) * vs * sin ((t + st) * 2 * PI))
    /\ t = (ea - st) * IZR (if (j <? n/2)%Z then j else n - j) / IZR (n/2).
Lemma contour_ring_points cplx ce ra vs sa ea w n cr : (2 <= n)%Z -> zlen cr = n -> (cplx = false -> snd ce = 0) ->
  exists cr', contour_ring cplx ce ra vs sa ea w n cr = Ok cr'
    /\ filled (ring_point ce ra vs sa ea w n) n (fun j => 0 <= j < n)%Z cr'.
Proof.
  intros Hn HL Hc. unfold contour_ring.
  assert (H2 : (1 <= n / 2)%Z) by (apply Z.div_le_lower_bound; lia).
  apply (forz_inv (fun i cr => filled (ring_point ce ra vs sa ea w n) n (fun j => 0 <= j < i)%Z cr)); [lia| |].
  - split; [exact HL|intros; lia].
  - intros i x Hi Fx. cbv beta.
    destruct (i <? n/2)%Z eqn:Ei; rewrite rdiv_ok by (apply IZR_neq; lia); simpl;
      (eapply filled_aset; [exact Fx|lia| |intros; cbv beta in *; lia]);
      unfold ring_point; cbv zeta; rewrite Ei; eexists; (split; [|reflexivity]);
      (destruct cplx; [reflexivity|]); now rewrite (Hc eq_refl).
Qed.
