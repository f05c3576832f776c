(** Lemmas on the distribution of integration points and quadrature sums. *)
From mathcomp Require Import all_ssreflect all_algebra.
From mathcomp Require Import zify.
From Verif Require Import ContourModel.
Set Implicit Arguments. Unset Strict Implicit. Unset Printing Implicit Defensive.
Import GRing.Theory.
Local Open Scope ring_scope.

Lemma lt_npoints n npart c i : (0 < npart)%N -> (c < npart)%N ->
  (i < npoints n npart c)%N = (p_id npart c i < n)%N.
Proof.
move=> Hp Hc; rewrite /npoints /p_id [X in _ = (_ < X)%N](divn_eq n npart).
have Hr : (n %% npart < npart)%N by rewrite ltn_mod.
move: (n %/ npart)%N (n %% npart)%N Hr => q r Hr.
case: (ltngtP i q) => [lt|gt|->].
- have le : (i.+1 * npart <= q * npart)%N by rewrite leq_mul2r lt orbT.
  rewrite mulSn in le; move: le; move: (i * npart)%N (q * npart)%N => x y le.
  case: (ltnP c r) => _ /=; apply/idP/idP; lia.
- have le : (q.+1 * npart <= i * npart)%N by rewrite leq_mul2r gt orbT.
  rewrite mulSn in le; move: le; move: (i * npart)%N (q * npart)%N => x y le.
  case: (ltnP c r) => H /=; apply/idP/idP; lia.
- by move: (q * npart)%N => x; case: (ltnP c r) => H /=; apply/idP/idP; lia.
Qed.

Definition all_points (n npart : nat) : seq nat :=
  [seq p_id npart c i | c <- iota 0 npart, i <- iota 0 (npoints n npart c)].

Lemma p_id_div npart c i : (c < npart)%N -> (p_id npart c i %/ npart)%N = i /\ (p_id npart c i %% npart)%N = c.
Proof.
move=> Hc; rewrite /p_id; have Hp : (0 < npart)%N by lia.
by rewrite divnMDl // divn_small // addn0 modnMDl modn_small.
Qed.

Lemma all_points_perm n npart : (0 < npart)%N -> perm_eq (all_points n npart) (iota 0 n).
Proof.
move=> Hp; apply: uniq_perm; last 1 first.
- move=> p; rewrite mem_iota /= add0n; apply/idP/idP.
    move/allpairsPdep => [c [i []]]; rewrite !mem_iota /= !add0n => Hc Hi ->.
    by rewrite -lt_npoints.
  move=> Hpn; apply/allpairsPdep; exists (p %% npart)%N, (p %/ npart)%N.
  have Hc : (p %% npart < npart)%N by rewrite ltn_mod.
  by rewrite !mem_iota /= !add0n Hc lt_npoints // /p_id -divn_eq Hpn; split.
- apply: allpairs_uniq_dep; first exact: iota_uniq.
    by move=> c _; apply: iota_uniq.
  move=> [c i] [c' i'] /allpairsPdep [x [y [Hx _ [-> ->]]]] /allpairsPdep [x' [y' [Hx' _ [-> ->]]]] /=.
  move: Hx Hx'; rewrite !mem_iota /= !add0n => Hx Hx' E.
  have [E1 E2] := p_id_div y Hx. have [E3 E4] := p_id_div y' Hx'.
  by move: E1 E2; rewrite E E3 E4 => -> ->.
- exact: iota_uniq.
Qed.

Lemma points_sum (V : zmodType) n npart (F : nat -> V) : (0 < npart)%N ->
  \sum_(c < npart) \sum_(i < npoints n npart c) F (p_id npart c i) = \sum_(p < n) F p.
Proof.
move=> Hp.
rewrite -(big_mkord xpredT F) /index_iota subn0 -(perm_big _ (all_points_perm n Hp)) /=.
rewrite /all_points big_allpairs_dep /= -(big_mkord xpredT (fun c => \sum_(i < npoints n npart c) F (p_id npart c i))).
rewrite /index_iota subn0; apply: eq_bigr => c _.
by rewrite -(big_mkord xpredT (fun i => F (p_id npart c i))) /index_iota subn0.
Qed.

Lemma npoints_sum n npart : (0 < npart)%N -> (\sum_(c < npart) npoints n npart c = n)%N.
Proof.
move=> Hp; transitivity (size (all_points n npart)); last by rewrite (perm_size (all_points_perm n Hp)) size_iota.
rewrite /all_points size_allpairs_dep sumnE big_map.
rewrite -(big_mkord xpredT (fun c => npoints n npart c)) /index_iota subn0.
by apply: eq_bigr => c _; rewrite size_iota.
Qed.

(** Scatter: disjoint row ranges that cover 0..m-1 give all of 0..m*npart-1 once. *)
Lemma scatter_perm npart m (parts : seq (nat * nat)) :
  perm_eq (flatten [seq iota p.1 (p.2 - p.1) | p <- parts]) (iota 0 m) ->
  perm_eq (flatten [seq [seq x.2 | x <- scatter_idx npart m p.1 p.2] | p <- parts]) (iota 0 (m * npart)).
Proof.
move=> H.
have -> : iota 0 (m * npart) = flatten [seq [seq (i + m * k)%N | i : nat <- iota 0 m] | k : nat <- iota 0 npart].
  elim: npart => [|k IH]; first by rewrite muln0.
  rewrite mulnS addnC iotaD add0n -[k.+1]addn1 iotaD map_cat flatten_cat /= -IH cats0 add0n; congr (_ ++ _).
  by rewrite -[in LHS](addn0 (m * k)%N) iotaDl; apply: eq_map => i; rewrite addnC.
apply: perm_trans (_ : perm_eq (flatten [seq [seq (i + m * k)%N | i <- flatten [seq iota p.1 (p.2 - p.1) | p <- parts]] | k <- iota 0 npart]) _); last first.
  elim: (iota 0 npart) => //= k s IH; apply: perm_cat => //; exact: perm_map.
apply/permP => P; rewrite -!sum1_count !big_mkcond !big_flatten !big_map /=.
under eq_bigr => p _ do rewrite /scatter_idx map_allpairs big_allpairs_dep /=.
rewrite exchange_big /=; apply: eq_bigr => k _.
by rewrite [RHS]big_mkcond big_map big_flatten big_map /=.
Qed.

(** Array updates in a loop. *)
Lemma updE (T : Type) (f : nat -> T) i v j : upd f i v j = if j == i then v else f j.
Proof. by []. Qed.

Lemma foldl_upd_inj (T : Type) (I : eqType) (idx : I -> nat) (g : I -> T -> T) (s : seq I) (f : nat -> T) :
  uniq (map idx s) ->
  (forall x, x \in s -> foldl (fun f x => upd f (idx x) (g x (f (idx x)))) f s (idx x) = g x (f (idx x))) /\
  (forall y, y \notin map idx s -> foldl (fun f x => upd f (idx x) (g x (f (idx x)))) f s y = f y).
Proof.
elim: s f => [|a s IH] f /=; first by split.
case/andP=> Ha Hs; have [IH1 IH2] := IH (upd f (idx a) (g a (f (idx a)))) Hs; split.
- move=> x; rewrite inE; case/orP=> [/eqP ->|Hx].
    by rewrite IH2 // updE eqxx.
  rewrite IH1 // updE; case: eqP => // E.
  by move: Ha; rewrite -E map_f.
- move=> y; rewrite inE negb_or; case/andP=> Hy Hys.
  by rewrite IH2 // updE (negbTE Hy).
Qed.

Lemma foldl_upd_fun (T : Type) (I : Type) (idx : I -> nat) (G : nat -> T) (s : seq I) (f : nat -> T) y :
  foldl (fun f x => upd f (idx x) (G (idx x))) f s y = if y \in map idx s then G y else f y.
Proof.
elim: s f => [|a s IH] f //=; rewrite IH inE updE.
by case: eqP => [->|] //=; case: ifP.
Qed.

Lemma foldl_upd_acc (A : zmodType) (I : Type) (idx : I -> nat) (val : I -> A) (s : seq I) (f : nat -> A) y :
  foldl (fun f x => upd f (idx x) (f (idx x) + val x)) f s y = f y + \sum_(x <- s | idx x == y) val x.
Proof.
elim: s f => [|a s IH] f /=; first by rewrite big_nil addr0.
by rewrite IH big_cons updE eq_sym; case: eqP => [<-|_]; rewrite ?addrA.
Qed.

Lemma foldl_ext (A B : Type) (g h : A -> B -> A) (s : seq B) (a : A) :
  (forall a b, g a b = h a b) -> foldl g a s = foldl h a s.
Proof. by move=> E; elim: s a => //= b s IH a; rewrite E IH. Qed.

Lemma foldl_add (A : zmodType) (I : Type) (F : I -> A) (s : seq I) (a : A) :
  foldl (fun a i => a + F i) a s = a + \sum_(i <- s) F i.
Proof. by elim: s a => [|x s IH] a /=; rewrite ?big_nil ?addr0 // IH big_cons addrA. Qed.

Lemma foldl_ext_in (A : Type) (B : eqType) (g h : A -> B -> A) (s : seq B) (a : A) :
  (forall a b, b \in s -> g a b = h a b) -> foldl g a s = foldl h a s.
Proof.
elim: s a => //= b s IH a E; rewrite E ?mem_head // IH // => x y Hy.
by apply: E; rewrite inE Hy orbT.
Qed.

Lemma foldl_acc_gen (A : zmodType) (I : Type) (step : (nat -> A) -> I -> nat -> A) (D : I -> nat -> A) (s : seq I) f y :
  (forall f b, step f b y = f y + D b y) -> foldl step f s y = f y + \sum_(b <- s) D b y.
Proof.
by move=> E; elim: s f => [|a s IH] f /=; rewrite ?big_nil ?addr0 // IH E big_cons addrA.
Qed.

Lemma big_iota_pick (A : zmodType) (F : nat -> A) n x : (x < n)%N -> \sum_(i <- iota 0 n | i == x) F i = F x.
Proof.
move=> Hx; rewrite (big_rem x) ?mem_iota //= eqxx.
rewrite big1_seq ?addr0 // => i /andP [/eqP -> H].
by move: H; rewrite mem_rem_uniq ?iota_uniq // inE eqxx.
Qed.

(** A loop over a loop is a loop over the pairs. *)
Lemma foldl_pairs (A B C : Type) (g : A -> B -> C -> A) (s : seq B) (t : B -> seq C) (a : A) :
  foldl (fun a b => foldl (fun a c => g a b c) a (t b)) a s =
  foldl (fun a p => g a p.1 p.2) a [seq (b, c) | b <- s, c <- t b].
Proof.
elim: s a => //= b s IH a; rewrite foldl_cat IH; congr foldl.
by elim: (t b) a => //= c u IHu a; rewrite IHu.
Qed.

Lemma idx2_inj L a b a' b' : (a < L)%N -> (a' < L)%N -> (a + b * L = a' + b' * L)%N -> a = a' /\ b = b'.
Proof.
move=> Ha Ha' E.
have Eb : b = b'.
  have := congr1 (divn ^~ L) E; rewrite !divnDMl ?(leq_ltn_trans _ Ha) //.
  by rewrite !divn_small.
by split=> //; move: E; rewrite Eb => /addIn.
Qed.

Lemma mem_scatter_all npart m parts q :
  perm_eq (flatten [seq iota p.1 (p.2 - p.1) | p <- parts]) (iota 0 m) ->
  (q \in scatter_all npart m parts) = [&& (q.1 < m)%N, (q.2 == q.1 + m * ((q.2 - q.1) %/ m))%N & ((q.2 - q.1) %/ m < npart)%N].
Proof.
move=> H; have HM i : (i \in flatten [seq iota p.1 (p.2 - p.1) | p <- parts]) = (i < m)%N by rewrite (perm_mem H) mem_iota.
apply/idP/idP.
  move/flattenP => [s /mapP [p Hp ->]] /allpairsPdep [k [i [Hk Hi ->]]] /=.
  have Hm : (i < m)%N by rewrite -HM; apply/flattenP; exists (iota p.1 (p.2 - p.1)) => //; apply: map_f.
  rewrite Hm addKn mulKn ?(leq_ltn_trans _ Hm) // eqxx /=.
  by move: Hk; rewrite mem_iota.
case: q => i x /= /and3P [Hi /eqP E Hk].
have: i \in flatten [seq iota p.1 (p.2 - p.1) | p <- parts] by rewrite HM.
case/flattenP => s /mapP [p Hp ->] Hip.
apply/flattenP; exists (scatter_idx npart m p.1 p.2); first exact: map_f.
apply/allpairsPdep; exists ((x - i) %/ m)%N, i; split => //; first by rewrite mem_iota.
by rewrite -E.
Qed.

Lemma scatter_snd npart m parts : [seq x.2 | x <- scatter_all npart m parts] =
  flatten [seq [seq x.2 | x <- scatter_idx npart m p.1 p.2] | p <- parts].
Proof. by rewrite /scatter_all map_flatten -map_comp. Qed.

Lemma scatter_fwdE (T : Type) npart m parts (v x : nat -> T) i k :
  perm_eq (flatten [seq iota p.1 (p.2 - p.1) | p <- parts]) (iota 0 m) ->
  (i < m)%N -> (k < npart)%N -> scatter_fwd (scatter_all npart m parts) v x (i + m * k)%N = v i.
Proof.
move=> H Hi Hk; rewrite /scatter_fwd.
have U : uniq (map snd (scatter_all npart m parts)).
  by rewrite scatter_snd (perm_uniq (scatter_perm npart H)) iota_uniq.
have [H1 _] := foldl_upd_inj (fun p _ => v p.1) x U.
have HI : (i, (i + m * k)%N) \in scatter_all npart m parts.
  by rewrite mem_scatter_all // /= Hi addKn mulKn ?(leq_ltn_trans _ Hi) // eqxx.
exact: (H1 _ HI).
Qed.

Lemma scatter_revE (A : zmodType) npart m parts (v x : nat -> A) i :
  perm_eq (flatten [seq iota p.1 (p.2 - p.1) | p <- parts]) (iota 0 m) ->
  (i < m)%N -> scatter_rev_add (scatter_all npart m parts) x v i = v i + \sum_(k < npart) x (i + m * k)%N.
Proof.
move=> H Hi; rewrite /scatter_rev_add foldl_upd_acc; congr (_ + _).
rewrite /scatter_all big_mkcond big_flatten big_map /=.
under eq_bigr => p _ do rewrite /scatter_idx big_allpairs_dep /=.
rewrite exchange_big /= -(big_mkord xpredT (fun k => x (i + m * k)%N)) /index_iota subn0.
apply: eq_bigr => k _.
transitivity (\sum_(i0 <- flatten [seq iota p.1 (p.2 - p.1) | p <- parts]) (if i0 == i then x (i0 + m * k)%N else 0)).
  by rewrite big_flatten big_map.
by rewrite (perm_big _ H) -big_mkcond big_iota_pick.
Qed.

Section Quad.
Variables (K : fieldType) (V : lmodType K).
Variable twice_re : K -> K.
Variable twice_reV : V -> V.
Variable dotp : V -> V -> K.
Variables (w zn : nat -> K).

Lemma ppk_nextE npart c np ppk i :
  ppk_next zn npart c np ppk i = if (i < np)%N then ppk i * zn (p_id npart c i) else ppk i.
Proof.
rewrite /ppk_next.
have U : uniq (map id (iota 0 np)) by rewrite map_id iota_uniq.
have [H1 H2] := foldl_upd_inj (fun i v => v * zn (p_id npart c i)) ppk U.
case: ifP => Hi; first by rewrite H1 // mem_iota.
by rewrite H2 // map_id mem_iota add0n Hi.
Qed.

(** The powers held after k steps. *)
Fixpoint ppk_at (npart c np k : nat) : nat -> K :=
  if k is k'.+1 then ppk_next zn npart c np (ppk_at npart c np k') else fun _ => 1.

Lemma ppk_atE npart c np k i : (i < np)%N -> ppk_at npart c np k i = zn (p_id npart c i) ^+ k.
Proof.
move=> Hi; elim: k => [|k IH] /=; first by rewrite expr0.
by rewrite ppk_nextE Hi IH exprSr.
Qed.

Lemma sum_local_eq npart c np Lmax Y ppk useconj j :
  sum_local twice_reV w npart c np Lmax Y ppk useconj j =
  let v := \sum_(i < np) (ppk i * w (p_id npart c i)) *: Y (i * Lmax + j)%N in
  if useconj then twice_reV v else v.
Proof.
rewrite /sum_local foldl_add add0r.
by rewrite -(big_mkord xpredT (fun i => (ppk i * w (p_id npart c i)) *: Y (i * Lmax + j)%N)) /index_iota subn0.
Qed.

(** State of BVSumQuadrature after M values of k. *)
Section SumQ.
Variables (npart n L Lmax : nat) (scat : bool) (Y : nat -> nat -> V) (useconj : bool) (S : nat -> V).

Definition sq_val (k j : nat) (old : V) : V :=
  if scat then foldl (fun s c => s + sum_local twice_reV w npart c (npoints n npart c) Lmax (Y c)
                               (ppk_at npart c (npoints n npart c) k) useconj j) old (iota 0 npart)
  else sum_local twice_reV w npart 0 (npoints n npart 0) Lmax (Y 0%N) (ppk_at npart 0 (npoints n npart 0) k) useconj j.

Lemma sum_storeE ppk S' k j :
  (forall c, ppk c = ppk_at npart c (npoints n npart c) k) ->
  sum_store twice_reV w npart n Lmax scat Y ppk useconj S' (k * L + j)%N j =
  upd S' (k * L + j)%N (sq_val k j (S' (k * L + j)%N)).
Proof.
move=> E; rewrite /sum_store /sq_val; case: ifP => _; last by rewrite E.
by congr upd; apply: foldl_ext => a c; rewrite E.
Qed.

Lemma sum_quadrature_state M :
  let st := foldl (fun (st : (nat -> V) * (nat -> nat -> K)) k =>
     let S' := foldl (fun S j => sum_store twice_reV w npart n Lmax scat Y st.2 useconj S (k * L + j)%N j) st.1 (iota 0 L) in
     (S', fun c => ppk_next zn npart c (npoints n npart c) (st.2 c)))
   (S, fun _ _ => 1) (iota 0 M) in
  [/\ forall c, st.2 c = ppk_at npart c (npoints n npart c) M,
      forall k j, (k < M)%N -> (j < L)%N -> st.1 (k * L + j)%N = sq_val k j (S (k * L + j)%N) &
      forall y, (M * L <= y)%N -> st.1 y = S y].
Proof.
elim: M => [|M]; first by split.
rewrite -[M.+1]addn1 iotaD foldl_cat add0n addn1 [iota M 1]/= [foldl _ _ [:: M]]/=.
move: (foldl _ _ (iota 0 M)) => st [I1 I2 I3]; split => /=.
- by move=> c; rewrite I1.
- move=> k j Hk Hj.
  rewrite (@foldl_ext _ _ _ (fun S' j => upd S' (M * L + j)%N (sq_val M j (S' (M * L + j)%N)))); last first.
    by move=> a b; rewrite sum_storeE.
  have U : uniq (map (fun j => M * L + j)%N (iota 0 L)) by rewrite map_inj_uniq ?iota_uniq // => x y /addnI.
  have [H1 H2] := foldl_upd_inj (sq_val M) st.1 U.
  move: Hk; rewrite ltnS leq_eqVlt; case/orP=> [/eqP ->|Hk].
    by rewrite H1 ?mem_iota // I3 // leq_addr.
  rewrite H2 ?I2 //; apply/negP => /mapP [x _ E].
  have : (k * L + j < M * L)%N by apply: leq_trans (_ : (k.+1 * L <= _)%N); rewrite ?leq_mul2r ?Hk ?orbT // mulSn addnC ltn_add2r.
  by rewrite E ltnNge leq_addr.
- move=> y Hy.
  rewrite (@foldl_ext _ _ _ (fun S' j => upd S' (M * L + j)%N (sq_val M j (S' (M * L + j)%N)))); last first.
    by move=> a b; rewrite sum_storeE.
  have U : uniq (map (fun j => M * L + j)%N (iota 0 L)) by rewrite map_inj_uniq ?iota_uniq // => x z /addnI.
  have [H1 H2] := foldl_upd_inj (sq_val M) st.1 U.
  rewrite H2; last first.
    apply/negP => /mapP [x]; rewrite mem_iota add0n => /= Hx E.
    by move: Hy; rewrite E mulSn [(L + _)%N]addnC leq_add2l leqNgt Hx.
  by apply: I3; apply: leq_trans Hy; rewrite leq_mul2r leqnSn orbT.
Qed.
End SumQ.

Lemma sum_quadrature_main npart n M L Lmax (Y : nat -> nat -> V) (y : nat -> nat -> V) (useconj : bool) S k j :
  (0 < npart)%N -> {morph twice_reV : a b / a + b} -> twice_reV 0 = 0 ->
  (forall c i j, (c < npart)%N -> (i < npoints n npart c)%N -> (j < L)%N ->
     Y c (i * Lmax + j)%N = y (p_id npart c i) j) ->
  (k < M)%N -> (j < L)%N ->
  let v := \sum_(p < n) (zn p ^+ k * w p) *: y p j in
  sum_quadrature twice_reV w zn npart n M L Lmax (1 < npart)%N Y useconj S (k * L + j)%N =
  (if (1 < npart)%N then S (k * L + j)%N else 0) + (if useconj then twice_reV v else v).
Proof.
move=> Hp HD H0 HY Hk Hj v; rewrite /sum_quadrature.
have [_ -> // _] := sum_quadrature_state npart n L Lmax (1 < npart)%N Y useconj S M.
have E c : (c < npart)%N ->
  sum_local twice_reV w npart c (npoints n npart c) Lmax (Y c) (ppk_at npart c (npoints n npart c) k) useconj j =
  let v := \sum_(i < npoints n npart c) (zn (p_id npart c i) ^+ k * w (p_id npart c i)) *: y (p_id npart c i) j in
  if useconj then twice_reV v else v.
  move=> Hc; rewrite sum_local_eq /=.
  have -> : \sum_(i < npoints n npart c) (ppk_at npart c (npoints n npart c) k i * w (p_id npart c i)) *: Y c (i * Lmax + j)%N
     = \sum_(i < npoints n npart c) (zn (p_id npart c i) ^+ k * w (p_id npart c i)) *: y (p_id npart c i) j by
    apply: eq_bigr => i _; rewrite ppk_atE ?HY.
  by [].
have P := points_sum n (fun p => (zn p ^+ k * w p) *: y p j) Hp.
rewrite /sq_val; case: ltnP => H1.
  rewrite foldl_add; congr (_ + _).
  have -> : \sum_(c <- iota 0 npart) sum_local twice_reV w npart c (npoints n npart c) Lmax (Y c)
       (ppk_at npart c (npoints n npart c) k) useconj j
     = \sum_(c < npart) sum_local twice_reV w npart c (npoints n npart c) Lmax (Y c)
       (ppk_at npart c (npoints n npart c) k) useconj j.
    by rewrite -(big_mkord xpredT (fun c => sum_local twice_reV w npart c (npoints n npart c) Lmax (Y c)
       (ppk_at npart c (npoints n npart c) k) useconj j)) /index_iota subn0.
  rewrite (eq_bigr _ (fun c _ => E _ (ltn_ord c))) /v -P /=.
  by case: ifP => _ //; rewrite -(big_morph _ HD H0).
have E1 : (npart = 1)%N by lia.
by rewrite add0r E // /v -P E1 big_ord1.
Qed.

(** BVDotQuadrature. *)
Lemma dot_tempE np L Lmax H s j i : (s < L)%N -> (j < L)%N -> (i < np)%N ->
  dot_temp np L Lmax H (s + (j + i * L) * L)%N = H (s + (j + i * Lmax) * L)%N :> K.
Proof.
move=> Hs Hj Hi; rewrite /dot_temp.
set G := fun x => H (x %% L + (x %/ L %% L + (x %/ L %/ L) * Lmax) * L)%N.
have HL : (0 < L)%N by exact: leq_ltn_trans Hs.
have EG k j0 i0 : (k < L)%N -> (j0 < L)%N -> G (k + j0 * L + i0 * L * L)%N = H (k + j0 * L + i0 * L * Lmax)%N.
  move=> Hk Hj0; rewrite /G.
  have -> : (k + j0 * L + i0 * L * L = k + (j0 + i0 * L) * L)%N by nia.
  have -> : ((k + (j0 + i0 * L) * L) %% L = k)%N by rewrite addnC modnMDl modn_small.
  have -> : ((k + (j0 + i0 * L) * L) %/ L = j0 + i0 * L)%N by rewrite divnDMl // divn_small.
  have -> : ((j0 + i0 * L) %% L = j0)%N by rewrite addnC modnMDl modn_small.
  have -> : ((j0 + i0 * L) %/ L = i0)%N by rewrite divnDMl // divn_small.
  by congr H; nia.
rewrite (@foldl_ext _ _ _ (fun f i => foldl (fun f p => upd f (p.2 + p.1 * L + i * L * L)%N (H (p.2 + p.1 * L + i * L * Lmax)%N)) f
   [seq (b, c) | b <- iota 0 L, c <- iota 0 L])); last by move=> a b; rewrite foldl_pairs.
rewrite foldl_pairs /=.
rewrite (@foldl_ext_in _ _ _ (fun f q => upd f (q.2.2 + q.2.1 * L + q.1 * L * L)%N (G (q.2.2 + q.2.1 * L + q.1 * L * L)%N))); last first.
  move=> f [i0 [j0 k0]] /allpairsPdep [i1 [[j1 k1] [Hi1 /allpairsPdep [j2 [k2 [Hj2 Hk2 [-> ->]]]] [-> -> ->]]]] /=.
  by move: Hj2 Hk2; rewrite !mem_iota !add0n /= => Hj2 Hk2; rewrite EG.
rewrite foldl_upd_fun; case: ifP.
  move=> _; have -> : (s + (j + i * L) * L = s + j * L + i * L * L)%N by nia.
  by rewrite EG //; congr H; nia.
move/negP; case; apply/mapP; exists (i, (j, s)); last by rewrite /=; nia.
apply/allpairsPdep; exists i, (j, s); split => //; first by rewrite mem_iota.
by apply/allpairsPdep; exists j, s; rewrite !mem_iota; split.
Qed.

Lemma dot_local_main npart c np M L Lmax (Yc Vc : nat -> V) (useconj : bool) s j k :
  (s < L)%N -> (j < L)%N -> (k < 2 * M)%N ->
  dot_local twice_re dotp w zn npart c np M L Lmax Yc Vc useconj (s + (j + k * L) * L)%N =
  \sum_(i < np) (let x := (zn (p_id npart c i) ^+ k * w (p_id npart c i)) * dotp (Yc (i * Lmax + j)%N) (Vc s) in
                 if useconj then twice_re x else x).
Proof.
move=> Hs Hj; have HL : (0 < L)%N by exact: leq_ltn_trans Hs.
rewrite /dot_local; move: (2 * M)%N => N Hk.
set temp := dot_temp np L Lmax _.
have ET i : (i < np)%N -> temp (s + (j + i * L) * L)%N = dotp (Yc (i * Lmax + j)%N) (Vc s).
  move=> Hi; rewrite /temp dot_tempE // divnDMl // divn_small // add0n addnC; congr dotp.
  by rewrite addnC modnMDl modn_small.
set body := (X in foldl X).
suff [I1 I2] : (foldl body (fun _ => 0, fun _ => 1) (iota 0 N)).2 = ppk_at npart c np N /\
  (foldl body (fun _ => 0, fun _ => 1) (iota 0 N)).1 (s + (j + k * L) * L)%N = 
  if (k < N)%N then \sum_(i < np) (let x := (zn (p_id npart c i) ^+ k * w (p_id npart c i)) * dotp (Yc (i * Lmax + j)%N) (Vc s) in
                 if useconj then twice_re x else x) else 0 by rewrite I2 Hk.
elim: N {Hk} => [|N]; first by split.
rewrite -[N.+1]addn1 iotaD foldl_cat add0n addn1 [iota N 1]/= [foldl _ _ [:: N]]/=.
move: (foldl body _ (iota 0 N)) => st [I1 I2].
rewrite /body /=; split; first by rewrite I1.
set F := fun j i s => if useconj then twice_re (st.2 i * w (p_id npart c i) * temp (s + (j + i * L) * L)%N)
     else st.2 i * w (p_id npart c i) * temp (s + (j + i * L) * L)%N.
rewrite (@foldl_acc_gen _ _ _ (fun j y => \sum_(i <- iota 0 np) \sum_(s <- iota 0 L | (s + (j + N * L) * L)%N == y) F j i s)); last first.
  move=> f j0; apply: (@foldl_acc_gen _ _ _ (fun i y => \sum_(s <- iota 0 L | (s + (j0 + N * L) * L)%N == y) F j0 i s)) => g i.
  exact: foldl_upd_acc.
rewrite I2 [(k < N.+1)%N]ltnS [(k <= N)%N]leq_eqVlt; case: (eqVneq k N) => [->|neq] /=.
  rewrite ltnn add0r.
  rewrite (big_rem j) ?mem_iota //= [X in _ + X]big1_seq ?addr0; last first.
    move=> j1 /andP [_]; rewrite mem_rem_uniq ?iota_uniq // inE => /andP [n1 Hj1].
    move: Hj1; rewrite -[is_true _]/(is_true (j1 \in iota 0 L)) mem_iota /= add0n => Hj1.
    rewrite big1 // => i _; rewrite big1_seq // => s1 /andP [/eqP E]; rewrite mem_iota /= add0n => Hs1.
    have [_ E2] := idx2_inj Hs1 Hs E; have [E3 _] := idx2_inj Hj1 Hj E2.
    by rewrite E3 eqxx in n1.
  rewrite -(big_mkord xpredT (fun i => let x := zn (p_id npart c i) ^+ N * w (p_id npart c i) *
        dotp (Yc (i * Lmax + j)%N) (Vc s) in if useconj then twice_re x else x)) /index_iota subn0.
  apply: eq_big_seq => i; rewrite mem_iota /= add0n => Hi.
  rewrite (eq_bigl (fun s1 => s1 == s)); last by move=> s1; rewrite eqn_add2r.
  by rewrite big_iota_pick // /F I1 ppk_atE // ET.
rewrite [X in _ + X]big1_seq ?addr0 // => j1 /andP [_]; rewrite mem_iota /= add0n => Hj1.
rewrite big1 // => i _; rewrite big1_seq // => s1 /andP [/eqP E]; rewrite mem_iota /= add0n => Hs1.
have [_ E2] := idx2_inj Hs1 Hs E; have [_ E3] := idx2_inj Hj1 Hj E2.
by rewrite E3 eqxx in neq.
Qed.

Lemma dot_quadrature_main npart n M L Lmax size (Y Vs : nat -> nat -> V) (y : nat -> nat -> V) (v : nat -> V) (useconj : bool) s j k :
  (0 < npart)%N -> (forall c, (c < npart)%N -> (size c)%:R != 0 :> K) ->
  (forall c i j, (c < npart)%N -> (i < npoints n npart c)%N -> (j < L)%N ->
     Y c (i * Lmax + j)%N = y (p_id npart c i) j) ->
  (forall c s, (c < npart)%N -> (s < L)%N -> Vs c s = v s) ->
  (s < L)%N -> (j < L)%N -> (k < 2 * M)%N ->
  dot_quadrature twice_re dotp w zn npart n M L Lmax size Y Vs useconj (s + (j + k * L) * L)%N =
  \sum_(p < n) (let x := (zn p ^+ k * w p) * dotp (y p j) (v s) in if useconj then twice_re x else x).
Proof.
move=> Hp Hsz HY HV Hs Hj Hk.
rewrite -(points_sum n (fun p => let x := (zn p ^+ k * w p) * dotp (y p j) (v s) in if useconj then twice_re x else x) Hp).
rewrite /dot_quadrature; apply: eq_bigr => c _.
rewrite sumr_const card_ord -[_ *+ _]mulr_natr divfK ?Hsz //.
rewrite dot_local_main //; apply: eq_bigr => i _.
by rewrite HY // HV.
Qed.

Definition tr_y npart n Lmax (Y : nat -> nat -> V) c j := foldl (fun y i => y + w (p_id npart c i) *: Y c (i * Lmax + j)%N) 0 (iota 0 (npoints n npart c)).

Lemma tr_yE npart n L Lmax (Y : nat -> nat -> V) y c j :
  (forall c i j, (c < npart)%N -> (i < npoints n npart c)%N -> (j < L)%N ->
     Y c (i * Lmax + j)%N = y (p_id npart c i) j) -> (c < npart)%N -> (j < L)%N ->
  tr_y npart n Lmax Y c j = \sum_(i < npoints n npart c) w (p_id npart c i) *: y (p_id npart c i) j.
Proof.
move=> HY Hc Hj; rewrite /tr_y foldl_add add0r.
rewrite -(big_mkord xpredT (fun i => w (p_id npart c i) *: y (p_id npart c i) j)) /index_iota subn0.
by apply: eq_big_seq => i; rewrite mem_iota /= add0n => Hi; rewrite HY.
Qed.

Lemma trace_quadrature_main npart n L Lmax (Y : nat -> nat -> V) (v : nat -> V) (y : nat -> nat -> V) (useconj : bool) :
  (0 < npart)%N -> (npart = 1)%N \/ (L <= 1)%N ->
  (forall c i j, (c < npart)%N -> (i < npoints n npart c)%N -> (j < L)%N ->
     Y c (i * Lmax + j)%N = y (p_id npart c i) j) ->
  trace_quadrature twice_re dotp w npart n L Lmax (1 < npart)%N Y v useconj =
  \sum_(j < L) (let d := dotp (v j) (\sum_(p < n) w p *: y p j) in if useconj then twice_re d else d).
Proof.
move=> Hp [E1|HL] HY; rewrite /trace_quadrature.
- subst npart; rewrite ltnn.
  set body := fun st j => _.
  have HE M : (M <= L)%N -> (foldl body (0, 0) (iota 0 M)).1 =
     \sum_(j < M) (let d := dotp (v j) (\sum_(p < n) w p *: y p j) in if useconj then twice_re d else d).
    elim: M => [|M IH] HM; first by rewrite big_ord0.
    rewrite -[M.+1]addn1 iotaD foldl_cat add0n addn1 [iota M 1]/= [foldl _ _ [:: M]]/=.
    rewrite big_ord_recr /= IH 1?ltnW //; congr (_ + _).
    rewrite -/(tr_y 1 n Lmax Y 0 M) (tr_yE HY) //.
    by have := points_sum n (fun p => w p *: y p M) Hp; rewrite big_ord1 => ->.
  exact: HE.
- case: L HL HY => [|[|//]] _ HY; first by rewrite big_ord0.
  rewrite big_ord1 /= add0r; case: ltnP => H1; last first.
    have E1 : (npart = 1)%N by lia.
    rewrite -/(tr_y npart n Lmax Y 0 0) (tr_yE HY) // -(points_sum n (fun p => w p *: y p 0%N) Hp).
    by rewrite E1 big_ord1.
  rewrite foldl_add add0r.
  have -> : \sum_(c <- iota 0 npart) tr_y npart n Lmax Y c 0 = \sum_(p < n) w p *: y p 0%N; last by [].
  rewrite -(points_sum n (fun p => w p *: y p 0%N) Hp) -(big_mkord xpredT (fun c => \sum_(i < npoints n npart c) w (p_id npart c i) *: y (p_id npart c i) 0%N)).
  rewrite /index_iota subn0; apply: eq_big_seq => c; rewrite mem_iota /= add0n => Hc.
  by rewrite (tr_yE HY).
Qed.

End Quad.
