(** Lemmas on polygons: crossing parity and contour walk. *)
From Coq Require Import Reals ZArith List Bool Lra Lia Psatz.
From Verif Require Import Prelude RealBool RGModel RGSpec RGProofs RGProofs2 RGProofs3 RGProofs4.
Import ListNotations.
Open Scope R_scope.

(** * Parity *)
Definition shift_edge (p : point) (e : point * point) : point * point :=
  (shift_point p (fst e), shift_point p (snd e)).

Lemma combine_map2 {A B} (f : A -> B) l l' :
  combine (map f l) (map f l') = map (fun e => (f (fst e), f (snd e))) (combine l l').
Proof. revert l'. induction l as [|a l IH]; intros [|b l']; simpl; auto. now rewrite IH. Qed.
Lemma edges_map {A B} (f : A -> B) vs :
  edges (map f vs) = map (fun e => (f (fst e), f (snd e))) (edges vs).
Proof.
  destruct vs as [|v vs]; [reflexivity|]. unfold edges. simpl map at 1.
  rewrite <- combine_map2. simpl. now rewrite map_app.
Qed.

Lemma height_val p u w : fst u <> fst w ->
  (snd (shift_point p u) * fst (shift_point p w) - fst (shift_point p u) * snd (shift_point p w))
    / (fst (shift_point p w) - fst (shift_point p u)) = height_at p (u, w) - snd p.
Proof. intros H. unfold height_at, shift_point. simpl. field. lra. Qed.

Lemma height_between p u w : straddles p (u, w) ->
  (snd p <= snd u -> snd p <= snd w -> snd p <= height_at p (u, w)) /\
  (snd u < snd p -> snd w < snd p -> height_at p (u, w) < snd p).
Proof.
  intros S. unfold straddles in S. cbn [fst snd] in S. unfold height_at. cbn [fst snd].
  assert (E : exists s, 0 <= s <= 1 /\ (fst p - fst u) * (snd w - snd u) / (fst w - fst u) = s * (snd w - snd u)).
  { exists ((fst p - fst u) / (fst w - fst u)). split; [|field; lra].
    destruct S as [S|S].
    - assert (0 < / (fst w - fst u)) by (apply Rinv_0_lt_compat; lra). split.
      + apply Rmult_le_pos; lra.
      + apply Rmult_le_reg_r with (fst w - fst u); [lra|]. unfold Rdiv. rewrite Rmult_assoc, Rinv_l by lra. lra.
    - replace ((fst p - fst u) / (fst w - fst u)) with ((fst u - fst p) / (fst u - fst w)) by (field; lra).
      assert (0 < / (fst u - fst w)) by (apply Rinv_0_lt_compat; lra). split.
      + apply Rmult_le_pos; lra.
      + apply Rmult_le_reg_r with (fst u - fst w); [lra|]. unfold Rdiv. rewrite Rmult_assoc, Rinv_l by lra. lra. }
  destruct E as (s & Hs & ->).
  replace (snd u + s * (snd w - snd u)) with ((1 - s) * snd u + s * snd w) by ring.
  split; intros H1 H2.
  - assert ((1 - s) * snd p <= (1 - s) * snd u) by (apply Rmult_le_compat_l; lra).
    assert (s * snd p <= s * snd w) by (apply Rmult_le_compat_l; lra). lra.
  - assert ((1 - s) * snd u <= (1 - s) * snd p) by (apply Rmult_le_compat_l; lra).
    assert (s * snd w <= s * snd p) by (apply Rmult_le_compat_l; lra).
    destruct (Req_dec s 0) as [->|Ns]; [lra|].
    assert (s * snd w < s * snd p) by (apply Rmult_lt_compat_l; lra). lra.
Qed.

(** One step of the loop. *)
Lemma poly_step tol p u w es z : 0 < tol ->
  poly_loop tol (shift_edge p (u, w) :: es) z =
  if Rltb (fst u) (fst p) && Rleb (fst p) (fst w) || Rltb (fst w) (fst p) && Rleb (fst p) (fst u)
  then (if (Rltb (snd u) (snd p) || Rltb (snd w) (snd p)) && Rltb (Rabs (height_at p (u, w) - snd p)) tol
           && negb (Rltb (snd u) (snd p) && Rltb (snd w) (snd p)) then Ok 0%Z
        else if Rleb (snd p) (height_at p (u, w)) then poly_loop tol es (- z)%Z else poly_loop tol es z)
  else poly_loop tol es z.
Proof.
  intros Ht. unfold shift_edge. cbn [fst snd]. unfold shift_point at 1 2. cbn [poly_loop fst snd].
  assert (R1 : forall a b : R, Rltb (a - b) 0 = Rltb a b).
  { intros. destruct (RltbP (a - b) 0), (RltbP a b); auto; lra. }
  assert (R2 : forall a b : R, Rleb a b = negb (Rltb b a)).
  { intros. destruct (RlebP a b), (RltbP b a); auto; lra. }
  rewrite !R1, (R2 (fst p) (fst w)), (R2 (fst p) (fst u)).
  destruct (RltbP (fst u) (fst p)) as [X1|X1], (RltbP (fst w) (fst p)) as [X2|X2];
    cbn [andb orb negb]; rewrite ?andb_false_r, ?orb_false_r; rewrite ?orb_true_r; cbn [andb orb negb]; try reflexivity.
  - (* u left, w right *)
    assert (S : straddles p (u, w)) by (left; simpl; lra).
    destruct (height_between p u w S) as (G1 & G2).
    destruct (RltbP (snd u) (snd p)), (RltbP (snd w) (snd p)); cbn [andb orb negb].
    + destruct (RlebP (snd p) (height_at p (u, w))); [exfalso; lra|].
      rewrite andb_false_r. reflexivity.
    + rewrite rdiv_ok by lra. pose proof (height_val p u w ltac:(lra)) as E.
      unfold shift_point in E. cbn [fst snd] in E. cbn [bind]. rewrite E.
      destruct (Rltb (Rabs _) tol) eqn:T; [reflexivity|].
      destruct (RltbP 0 (height_at p (u, w) - snd p)), (RlebP (snd p) (height_at p (u, w))); auto; try lra.
      exfalso. assert (H0 : height_at p (u, w) - snd p = 0) by lra. rewrite H0, Rabs_R0 in T.
      destruct (RltbP 0 tol); [discriminate|lra].
    + rewrite rdiv_ok by lra. pose proof (height_val p u w ltac:(lra)) as E.
      unfold shift_point in E. cbn [fst snd] in E. cbn [bind]. rewrite E.
      destruct (Rltb (Rabs _) tol) eqn:T; [reflexivity|].
      destruct (RltbP 0 (height_at p (u, w) - snd p)), (RlebP (snd p) (height_at p (u, w))); auto; try lra.
      exfalso. assert (H0 : height_at p (u, w) - snd p = 0) by lra. rewrite H0, Rabs_R0 in T.
      destruct (RltbP 0 tol); [discriminate|lra].
    + destruct (RlebP (snd p) (height_at p (u, w))); [reflexivity|exfalso; lra].
  - assert (S : straddles p (u, w)) by (right; simpl; lra).
    destruct (height_between p u w S) as (G1 & G2).
    destruct (RltbP (snd u) (snd p)), (RltbP (snd w) (snd p)); cbn [andb orb negb].
    + destruct (RlebP (snd p) (height_at p (u, w))); [exfalso; lra|].
      rewrite andb_false_r. reflexivity.
    + rewrite rdiv_ok by lra. pose proof (height_val p u w ltac:(lra)) as E.
      unfold shift_point in E. cbn [fst snd] in E. cbn [bind]. rewrite E.
      destruct (Rltb (Rabs _) tol) eqn:T; [reflexivity|].
      destruct (RltbP 0 (height_at p (u, w) - snd p)), (RlebP (snd p) (height_at p (u, w))); auto; try lra.
      exfalso. assert (H0 : height_at p (u, w) - snd p = 0) by lra. rewrite H0, Rabs_R0 in T.
      destruct (RltbP 0 tol); [discriminate|lra].
    + rewrite rdiv_ok by lra. pose proof (height_val p u w ltac:(lra)) as E.
      unfold shift_point in E. cbn [fst snd] in E. cbn [bind]. rewrite E.
      destruct (Rltb (Rabs _) tol) eqn:T; [reflexivity|].
      destruct (RltbP 0 (height_at p (u, w) - snd p)), (RlebP (snd p) (height_at p (u, w))); auto; try lra.
      exfalso. assert (H0 : height_at p (u, w) - snd p = 0) by lra. rewrite H0, Rabs_R0 in T.
      destruct (RltbP 0 tol); [discriminate|lra].
    + destruct (RlebP (snd p) (height_at p (u, w))); [reflexivity|exfalso; lra].
Qed.

Lemma straddles_b p u w :
  reflect (straddles p (u, w))
    (Rltb (fst u) (fst p) && Rleb (fst p) (fst w) || Rltb (fst w) (fst p) && Rleb (fst p) (fst u)).
Proof.
  unfold straddles. cbn [fst snd].
  destruct (RltbP (fst u) (fst p)), (RlebP (fst p) (fst w)), (RltbP (fst w) (fst p)), (RlebP (fst p) (fst u));
    cbn [andb orb]; constructor; lra.
Qed.

Lemma poly_parity tol p es z : 0 < tol ->
  (forall e, In e es -> straddles p e -> tol <= Rabs (height_at p e - snd p)) ->
  exists b, parity (crosses_above p) es b /\
    poly_loop tol (map (shift_edge p) es) z = Ok (if b then (- z)%Z else z).
Proof.
  intros Ht. revert z. induction es as [|[u w] es IH]; intros z HF.
  - exists false. split; [constructor|reflexivity].
  - simpl map. rewrite poly_step by auto.
    assert (HF' : forall e, In e es -> straddles p e -> tol <= Rabs (height_at p e - snd p))
      by (intros; apply HF; auto; now right).
    destruct (straddles_b p u w) as [S|S].
    + assert (F := HF (u, w) (or_introl eq_refl) S).
      destruct (RltbP (Rabs (height_at p (u, w) - snd p)) tol); [exfalso; lra|].
      rewrite andb_false_r. cbn [andb].
      destruct (RlebP (snd p) (height_at p (u, w))) as [L|L].
      * destruct (IH (- z)%Z HF') as (b & Pb & E). exists (negb b). split.
        -- constructor; auto. split; auto.
           destruct L as [L|L]; auto. rewrite L, Rminus_diag_eq, Rabs_R0 in F by auto. lra.
        -- rewrite E. f_equal. destruct b; simpl; lia.
      * destruct (IH z HF') as (b & Pb & E). exists b. split; auto.
        constructor; auto. intros [_ C]. lra.
    + destruct (IH z HF') as (b & Pb & E). exists b. split; auto.
      constructor; auto. intros [C _]. contradiction.
Qed.

Lemma poly_zero tol p es z : 0 < tol -> z <> 0%Z ->
  poly_loop tol (map (shift_edge p) es) z = Ok 0%Z ->
  exists e, In e es /\ straddles p e /\ Rabs (height_at p e - snd p) < tol.
Proof.
  intros Ht. revert z. induction es as [|[u w] es IH]; intros z Hz; simpl map.
  - simpl. intros H. injection H as ->. contradiction.
  - rewrite poly_step by auto.
    assert (IH' : forall z, z <> 0%Z -> poly_loop tol (map (shift_edge p) es) z = Ok 0%Z ->
       exists e, In e ((u, w) :: es) /\ straddles p e /\ Rabs (height_at p e - snd p) < tol).
    { intros z' Hz' E. destruct (IH z' Hz' E) as (e & ? & ?). exists e. split; [now right|auto]. }
    destruct (straddles_b p u w) as [S|S]; [|apply IH'; auto].
    destruct (RltbP (Rabs (height_at p (u, w) - snd p)) tol) as [L|L].
    + intros _. exists (u, w). split; [now left|auto].
    + rewrite andb_false_r. cbn [andb]. destruct (Rleb _ _); apply IH'; auto; lia.
Qed.

(** * Contour of a polygon *)
Definition dist (u w : point) : R := modulus (fst u - fst w) (snd u - snd w).
Lemma dist_nonneg u w : 0 <= dist u w.
Proof. apply sqrt_pos. Qed.
Lemma modulus_scale t x y : 0 <= t -> modulus (t * x) (t * y) = t * modulus x y.
Proof.
  intros Ht. unfold modulus. replace (t * x * (t * x) + t * y * (t * y)) with ((t * t) * (x * x + y * y)) by ring.
  rewrite sqrt_mult_alt by nra. now rewrite sqrt_square.
Qed.
Lemma dist_sym u w : dist u w = dist w u.
Proof. unfold dist, modulus. f_equal. ring. Qed.

(** Length of the path v_idx, v_{idx-1}, ..., v_0. *)
Fixpoint tail_len (vs : list point) (idx : nat) : R :=
  match idx with
  | O => 0
  | S i => match nth_error vs (S i), nth_error vs i with
           | Some w, Some u => dist u w + tail_len vs i
           | _, _ => 0
           end
  end.
Lemma tail_len_nonneg vs i : 0 <= tail_len vs i.
Proof.
  induction i; cbn [tail_len]; [lra|]. destruct (nth_error vs (S i)), (nth_error vs i); try lra.
  pose proof (dist_nonneg p0 p). lra.
Qed.

Lemma aget_nth {A} (vs : list A) (i : nat) a : nth_error vs i = Some a -> aget vs (Z.of_nat i) = Ok a.
Proof.
  intros H. unfold aget. destruct (Z.ltb_spec (Z.of_nat i) 0); [lia|]. rewrite Nat2Z.id, H. reflexivity.
Qed.

(** [u] is joined to the vertex number [i] by an edge traversed towards [i]. *)
Definition edge_to (vs : list point) (u : point) (i : nat) : Prop :=
  nth_error vs (S i) = Some u \/ (S i = length vs /\ nth_error vs 0 = Some u).

Lemma edge_to_edge vs u w i : edge_to vs u i -> nth_error vs i = Some w -> is_edge vs w u.
Proof.
  intros [H|[H1 H2]] Hw; exists i; split; auto.
  - rewrite Nat.mod_small; auto. apply nth_error_Some. congruence.
  - rewrite H1, Nat.mod_same; auto. lia.
Qed.
Lemma on_segment_sym u w q : on_segment u w q -> on_segment w u q.
Proof. intros (s & Hs & ->). exists (1 - s). split; [lra|]. f_equal; ring. Qed.

Definition onp (vs : list point) (q : point) : Prop :=
  on_polygon vs q.

Section Walk.
Variable vs : list point.
Variable n : Z.
Variable h : R.
Hypothesis Hh : 0 < h.

Definition fillk (k : Z) (cr : contour_array) : Prop :=
  filled (fun _ : Z => on_polygon vs) n (fun j : Z => 0 <= j < k)%Z cr.

Lemma poly_walk_ok fuel : forall k i (ini : bool) rem incr cr,
  (1 <= k)%Z -> (k <= n)%Z -> fillk k cr -> (i < length vs)%nat ->
  (Z.to_nat (n - k) + i + (if ini then 0 else 1) < fuel)%nat ->
  (if ini
   then (* about to walk from vertex i to vertex i-1 *)
     0 <= rem <= h /\ rem + tail_len vs i = IZR (n - k + 1) * h
   else exists q u w s, aget cr (k - 1) = Ok (Some q) /\ nth_error vs i = Some w /\ edge_to vs u i
     /\ 0 <= s <= 1 /\ q = (fst u + s * (fst w - fst u), snd u + s * (snd w - snd u))
     /\ dist w q + tail_len vs i = IZR (n - k + 1) * h
     /\ (0 < dist w q -> incr = Some ((fst w - fst q) / dist w q, (snd w - snd q) / dist w q))) ->
  exists cr', poly_walk fuel vs n h k (if ini then Z.of_nat i - 1 else Z.of_nat i)%Z ini rem incr cr = Ok cr'
    /\ fillk n cr'.
Proof.
  induction fuel as [|fuel IH]; intros k i ini rem incr cr Hk1 Hkn Fk Hi Hf Hinv; [lia|].
  cbn [poly_walk]. destruct (Z.ltb_spec k n) as [Lk|Lk].
  2:{ exists cr. split; [reflexivity|]. replace n with k by lia. exact Fk. }
  assert (H2 : 2 * h <= IZR (n - k + 1) * h).
  { apply Rmult_le_compat_r; [lra|]. apply (IZR_le 2). lia. }
  destruct ini.
  - destruct Hinv as (Hr & HL).
    destruct i as [|i].
    { exfalso. cbn [tail_len] in HL. lra. }
    destruct (nth_error vs (S i)) as [w1|] eqn:E1; [|apply nth_error_None in E1; lia].
    destruct (nth_error vs i) as [w0|] eqn:E0; [|apply nth_error_None in E0; lia].
    replace (Z.of_nat (S i) - 1)%Z with (Z.of_nat i) by lia.
    replace (Z.of_nat i + 1)%Z with (Z.of_nat (S i)) by lia.
    rewrite (aget_nth _ _ _ E0), (aget_nth _ _ _ E1). cbn [bind].
    assert (HT : tail_len vs (S i) = dist w0 w1 + tail_len vs i) by (cbn [tail_len]; now rewrite E1, E0).
    fold (dist w0 w1). set (d := dist w0 w1) in *.
    destruct (RltbP h (rem + d)) as [L|L].
    + assert (Hd : 0 < d) by lra. unfold direction.
      destruct (ReqbP d 0); [lra|].
      set (q := (fst w1 + fst ((fst w0 - fst w1) / d, (snd w0 - snd w1) / d) * (h - rem),
                 snd w1 + snd ((fst w0 - fst w1) / d, (snd w0 - snd w1) / d) * (h - rem))).
      set (s := (h - rem) / d).
      assert (Hs : 0 <= s < 1).
      { unfold s. split; [apply Rmult_le_pos; [lra|left; now apply Rinv_0_lt_compat]|apply div_lt_1; lra]. }
      assert (Eq : q = (fst w1 + s * (fst w0 - fst w1), snd w1 + s * (snd w0 - snd w1))).
      { unfold q, s. cbn [fst snd]. f_equal; field; lra. }
      assert (Dq : dist w0 q = d - (h - rem)).
      { rewrite Eq. unfold dist. cbn [fst snd].
        replace (fst w0 - (fst w1 + s * (fst w0 - fst w1))) with ((1 - s) * (fst w0 - fst w1)) by ring.
        replace (snd w0 - (snd w1 + s * (snd w0 - snd w1))) with ((1 - s) * (snd w0 - snd w1)) by ring.
        rewrite modulus_scale by lra. fold (dist w0 w1). fold d. unfold s. field. lra. }
      assert (ET : edge_to vs w1 i) by (left; exact E1).
      destruct (filled_aset (fun _ : Z => on_polygon vs) n _ (fun j : Z => 0 <= j < k + 1)%Z cr k q Fk)
        as (cr' & Ec & Fc); [lia| | |].
      { exists w0, w1. split; [eapply edge_to_edge; eauto|]. apply on_segment_sym. exists s. split; [lra|exact Eq]. }
      { intros j Hj; cbv beta in *. lia. }
      rewrite Ec. cbn [bind].
      apply (IH (k + 1)%Z i false rem (Some ((fst w0 - fst w1) / d, (snd w0 - snd w1) / d)) cr');
        try lia; auto.
      exists q, w1, w0, s. repeat split; auto; try lra.
      * replace (k + 1 - 1)%Z with k by lia. rewrite (aget_aset _ _ _ _ k Ec), Z.eqb_refl. reflexivity.
      * rewrite Dq. replace (n - (k + 1) + 1)%Z with (n - k + 1 - 1)%Z by lia. rewrite minus_IZR. lra.
      * intros _. rewrite Dq. 
        assert (Eq1 : fst w0 - fst q = (1 - s) * (fst w0 - fst w1)) by (rewrite Eq; cbn [fst]; ring).
        assert (Eq2 : snd w0 - snd q = (1 - s) * (snd w0 - snd w1)) by (rewrite Eq; cbn [snd]; ring).
        rewrite Eq1, Eq2. f_equal. unfold s. f_equal; field; lra.
    + pose proof (dist_nonneg w0 w1). fold d in H.
      replace (Z.of_nat i - 1)%Z with (if true then Z.of_nat i - 1 else Z.of_nat i)%Z by reflexivity.
      apply (IH k i true); try lia; auto. rewrite HT in HL. split; lra.
  - destruct Hinv as (q & u & w & s & Eq & Ew & Ed & Hs & Hq & HL & Hinc).
    rewrite (aget_nth _ _ _ Ew). cbn [bind]. rewrite Eq. cbn [bind].
    fold (dist w q). set (r := dist w q) in *.
    destruct (RltbP h r) as [L|L].
    + rewrite Hinc by lra. clear Hinc.
      set (q' := (fst q + fst ((fst w - fst q) / r, (snd w - snd q) / r) * h,
                  snd q + snd ((fst w - fst q) / r, (snd w - snd q) / r) * h)).
      set (l := h / r).
      assert (Hl : 0 <= l < 1).
      { unfold l. split; [apply Rmult_le_pos; [lra|left; apply Rinv_0_lt_compat; lra]|apply div_lt_1; lra]. }
      assert (Eq' : q' = (fst u + (s + (1 - s) * l) * (fst w - fst u), snd u + (s + (1 - s) * l) * (snd w - snd u))).
      { unfold q'. rewrite Hq. cbn [fst snd]. unfold l. f_equal; field; lra. }
      assert (D1 : fst w - fst q' = (1 - l) * (fst w - fst q)).
      { unfold q', l. cbn [fst snd]. field. lra. }
      assert (D2 : snd w - snd q' = (1 - l) * (snd w - snd q)).
      { unfold q', l. cbn [fst snd]. field. lra. }
      assert (Dq : dist w q' = r - h).
      { unfold dist. rewrite D1, D2, modulus_scale by lra. fold (dist w q). fold r. unfold l. field. lra. }
      assert (Hs' : 0 <= s + (1 - s) * l <= 1) by nra.
      destruct (filled_aset (fun _ : Z => on_polygon vs) n _ (fun j : Z => 0 <= j < k + 1)%Z cr k q' Fk)
        as (cr' & Ec & Fc); [lia| | |].
      { exists w, u. split; [eapply edge_to_edge; eauto|]. apply on_segment_sym. eexists; split; [exact Hs'|exact Eq']. }
      { intros j Hj; cbv beta in *. lia. }
      rewrite Ec. cbn [bind].
      apply (IH (k + 1)%Z i false r (Some ((fst w - fst q) / r, (snd w - snd q) / r)) cr'); try lia; auto.
      exists q', u, w, (s + (1 - s) * l). repeat split; auto; try lra.
      * replace (k + 1 - 1)%Z with k by lia. rewrite (aget_aset _ _ _ _ k Ec), Z.eqb_refl. reflexivity.
      * rewrite Dq. replace (n - (k + 1) + 1)%Z with (n - k + 1 - 1)%Z by lia. rewrite minus_IZR. lra.
      * intros _. rewrite Dq, D1, D2. f_equal. unfold l. f_equal; field; lra.
    + replace (Z.of_nat i - 1)%Z with (if true then Z.of_nat i - 1 else Z.of_nat i)%Z by reflexivity.
      apply (IH k i true r incr cr); try lia; auto.
      pose proof (dist_nonneg w q). fold r in H. split; lra.
Qed.
End Walk.

Lemma nth_error_zlen {A} (vs : list A) (i : Z) : (0 <= i < zlen vs)%Z ->
  exists v, nth_error vs (Z.to_nat i) = Some v /\ aget vs i = Ok v.
Proof.
  intros Hi. destruct (nth_error vs (Z.to_nat i)) as [v|] eqn:E.
  - exists v. split; auto. rewrite <- (aget_nth vs (Z.to_nat i) v E). f_equal. lia.
  - apply nth_error_None in E. unfold zlen in Hi. lia.
Qed.

(** Perimeter of the closed polygon. *)
Definition perimeter (vs : list point) : R :=
  fold_right (fun e s => dist (fst e) (snd e) + s) 0 (edges vs).

Lemma length_loop vs x0 : vs <> [] ->
  forz 0 (zlen vs - 1) (fun (i : Z) (len : R) =>
       do v <- aget vs i; do w <- aget vs (i + 1);
       Ok (len + modulus (fst v - fst w) (snd v - snd w))) x0
  = Ok (x0 + tail_len vs (length vs - 1)).
Proof.
  intros NE. assert (HL : (1 <= zlen vs)%Z) by (destruct vs; [contradiction|rewrite zlen_cons; pose proof (zlen_nonneg vs); lia]).
  destruct (forz_inv (fun i x => x = x0 + tail_len vs (Z.to_nat i)) 0 (zlen vs - 1)
     (fun i len => do v <- aget vs i; do w <- aget vs (i + 1);
       Ok (len + modulus (fst v - fst w) (snd v - snd w))) x0) as (b & E & Hb); [lia|simpl; lra| |].
  - intros i x Hi ->. cbv beta.
    destruct (nth_error_zlen vs i) as (v & V1 & ->); [lia|].
    destruct (nth_error_zlen vs (i + 1)) as (w & W1 & ->); [lia|]. cbn [bind].
    eexists; split; [reflexivity|].
    replace (Z.to_nat (i + 1)) with (S (Z.to_nat i)) in * by lia. cbn [tail_len]. rewrite W1, V1.
    fold (dist v w). lra.
  - rewrite E, Hb. f_equal. f_equal. f_equal. unfold zlen. lia.
Qed.

Lemma contour_polygon_ok vs n cr : vs <> [] -> (exists u w, In u vs /\ In w vs /\ u <> w) ->
  (1 <= n)%Z -> zlen cr = n ->
  exists cr', contour_polygon vs n cr = Ok cr'
    /\ filled (fun _ : Z => on_polygon vs) n (fun j : Z => 0 <= j < n)%Z cr'.
Proof.
  intros NE Hdist Hn HL.
  assert (HM : (1 <= zlen vs)%Z) by (destruct vs; [contradiction|rewrite zlen_cons; pose proof (zlen_nonneg vs); lia]).
  unfold contour_polygon. destruct (Z.eqb_spec (zlen vs) 0); [lia|]. cbn [negb check].
  destruct (nth_error_zlen vs 0) as (v0 & V0 & ->); [lia|].
  destruct (nth_error_zlen vs (zlen vs - 1)) as (vl & VL & ->); [lia|]. cbn [bind].
  rewrite length_loop by auto. cbn [bind]. rewrite rdiv_ok by (apply IZR_neq; lia). cbn [bind].
  replace (Z.to_nat (zlen vs - 1)) with (length vs - 1)%nat in VL by (unfold zlen; lia).
  fold (dist v0 vl). set (m := (length vs - 1)%nat) in *.
  set (L := dist v0 vl + tail_len vs m).
  assert (HLp : 0 < L).
  { destruct (Rlt_dec 0 L) as [|NL]; auto. exfalso.
    pose proof (dist_nonneg v0 vl) as D0. pose proof (tail_len_nonneg vs m) as T0.
    assert (T1 : tail_len vs m = 0) by (unfold L in *; lra).
    assert (Z1 : forall x y, x * x + y * y = 0 -> x = 0 /\ y = 0) by (intros; split; nra).
    assert (DZ : forall u w, dist u w = 0 -> u = w).
    { intros [x1 y1] [x2 y2] H. unfold dist, modulus in H. cbn [fst snd] in H.
      apply sqrt_eq_0 in H; [|pose proof (Rle_0_sqr (x1-x2)); pose proof (Rle_0_sqr (y1-y2)); unfold Rsqr in *; lra]. apply Z1 in H. f_equal; lra. }
    assert (ALL : forall i u, (i <= m)%nat -> nth_error vs i = Some u -> u = v0).
    { assert (G : forall k, (k <= m)%nat -> tail_len vs k = 0 -> forall i u, (i <= k)%nat -> nth_error vs i = Some u -> u = v0).
      { induction k as [|k IHk]; intros Hk Tk i u Hi Hu.
        - replace i with 0%nat in Hu by lia. change (Z.to_nat 0) with 0%nat in V0. congruence.
        - cbn [tail_len] in Tk.
          destruct (nth_error vs (S k)) as [a|] eqn:Ea; [|apply nth_error_None in Ea; unfold m in *; lia].
          destruct (nth_error vs k) as [b|] eqn:Eb; [|apply nth_error_None in Eb; unfold m in *; lia].
          pose proof (dist_nonneg b a). pose proof (tail_len_nonneg vs k).
          assert (tail_len vs k = 0) by lra. assert (dist b a = 0) by lra.
          destruct (Nat.eq_dec i (S k)) as [->|Ni].
          + rewrite Ea in Hu. injection Hu as <-. rewrite <- (DZ _ _ H2).
            apply (IHk ltac:(lia) H1 k b (le_n _) Eb).
          + apply (IHk ltac:(lia) H1 i u ltac:(lia) Hu). }
      intros i u. apply (G m (le_n _) T1 i u). }
    destruct Hdist as (u & w & Hu & Hw & Nuw). apply Nuw.
    apply In_nth_error in Hu as (iu & Hu). apply In_nth_error in Hw as (iw & Hw).
    assert (iu < length vs)%nat by (apply nth_error_Some; congruence).
    assert (iw < length vs)%nat by (apply nth_error_Some; congruence).
    rewrite (ALL iu u), (ALL iw w); auto; unfold m; lia. }
  assert (HnR : 0 < IZR n) by (apply (IZR_lt 0); lia).
  set (h := L / IZR n).
  assert (Hh : 0 < h) by (unfold h; apply Rmult_lt_0_compat; [lra|now apply Rinv_0_lt_compat]).
  assert (ED : edge_to vs v0 m) by (right; split; [unfold m; unfold zlen in HM; lia|exact V0]).
  destruct (filled_aset (fun _ : Z => on_polygon vs) n (fun _ : Z => False) (fun j : Z => 0 <= j < 1)%Z cr 0%Z v0)
    as (cr1 & E1 & F1); [split; [exact HL|contradiction]|lia| |intros j Hj; lia|].
  { exists vl, v0. split; [eapply edge_to_edge; eauto|]. exists 1. split; [lra|].
    destruct v0, vl; cbn [fst snd]; f_equal; ring. }
  assert (EA : aset cr 0 (Some v0) = Ok cr1) by (destruct v0; exact E1).
  rewrite EA. cbn [bind].
  replace (zlen vs - 1)%Z with (Z.of_nat m) by (unfold m, zlen in *; lia).
  apply (poly_walk_ok vs n h Hh _ 1 m false 0); try lia; auto; [unfold m, zlen in *; lia..|].
  exists v0, v0, vl, 0. repeat split; auto; try lra.
  - rewrite (aget_aset _ _ _ _ _ E1). reflexivity.
  - destruct v0; cbn [fst snd]; f_equal; ring.
  - rewrite dist_sym. replace (n - 1 + 1)%Z with n by lia. fold L. unfold h. field. lra.
  - intros Hp. unfold direction. fold (dist vl v0).
    destruct (ReqbP (dist vl v0) 0); [lra|reflexivity].
Qed.
