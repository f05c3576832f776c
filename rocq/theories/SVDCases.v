(** Singular values: concrete cases of C50-C52 and the refuted parts. *)
From mathcomp Require Import all_ssreflect all_algebra.
From mathcomp Require Import algC ring.
From Verif Require Import Prelude GSModel GSSpec GSProofs GSProps SVDModel SVDSpec SVDProofs SVDProps SVDGProps.
Set Implicit Arguments. Unset Strict Implicit. Unset Printing Implicit Defensive.
Import GRing.Theory Num.Theory Order.TTheory.
Local Open Scope ring_scope.

Notation C := [numFieldType of algC].
Definition id_re (a : C) : C := a.
Lemma id_re_ok : real_part id_re. Proof. by []. Qed.

(** A sorting function *)
Definition sort_C (n : nat) (f : nat -> C) (i : nat) : nat :=
  nth 0%N (sort (fun a b => f a <= f b) (iota 0 n)) i.
Lemma sort_C_ok : sorting sort_C.
Proof.
move=> n f Hf; rewrite /sort_C; set s := sort _ _.
have Hs : size s = n by rewrite size_sort size_iota.
have Hm i : (i < n)%N -> (nth 0%N s i < n)%N.
  by rewrite -{1}Hs => /(mem_nth 0%N); rewrite mem_sort mem_iota.
split=> //.
  move=> i j Hi Hj /eqP; rewrite nth_uniq ?Hs // ?sort_uniq ?iota_uniq // => /eqP //.
have So : sorted (fun a b => f a <= f b) s.
  apply: (@sort_sorted_in _ (fun a => (a < n)%N)).
    by move=> a b Ha Hb; apply: real_comparable; apply: Hf.
  by apply/allP => a; rewrite mem_iota.
have tr : transitive (fun a b => f a <= f b) by move=> b a c; exact: le_trans.
move=> i j /andP [Hij Hj].
have rf : reflexive (fun a b => f a <= f b) by move=> a /=.
by apply: (sorted_leq_nth tr rf 0%N So); rewrite ?inE ?Hs // (leq_ltn_trans Hij).
Qed.

(** A = [0 2; 1 0] *)
Definition A0 : mat plane := Mat (fun x : plane => pt (2%:R * x.2) x.1) (fun x : plane => pt x.2 (2%:R * x.1)).
Definition I0 : mat plane := Mat (fun x : plane => x) (fun x : plane => x).
(** A = [0 0; 0 2] *)
Definition Z0 : mat plane := Mat (fun x : plane => pt 0 (2%:R * x.2)) (fun x : plane => pt 0 (2%:R * x.2)).
Definition in0 (a : mat plane) (t : problem) (w : order) : input plane := Input a I0 2 2 2 id false true t w true.
Definition e0 : plane := pt 1 0.
Definition e1 : plane := pt 0 1.
Lemma A0_lin : linop (mult A0). Proof. by move=> c [x1 x2] [y1 y2]; congr (_, _); rewrite /= mulrDr ![c *: _]/GRing.scale /= mulrCA. Qed.
Lemma A0_linh : linop (multh A0). Proof. by move=> c [x1 x2] [y1 y2]; congr (_, _); rewrite /= mulrDr ![c *: _]/GRing.scale /= mulrCA. Qed.
Lemma A0_adj : adjoint dot2 (mult A0) (multh A0).
Proof. by move=> x y; rewrite /dot2 /= rmorphM conjC_nat addrC; congr (_ + _); rewrite mulrCA mulrA. Qed.
Lemma Z0_lin : linop (mult Z0). Proof. by move=> c [x1 x2] [y1 y2]; congr (_, _); rewrite /= ?scaler0 ?addr0 // mulrDr ![c *: _]/GRing.scale /= mulrCA. Qed.
Lemma Z0_adj : adjoint dot2 (mult Z0) (multh Z0).
Proof. by move=> x y; rewrite /dot2 /= rmorphM conjC_nat conjC0 mul0r mulr0 !add0r mulrCA mulrA. Qed.
Lemma I0_lin : linop (mult I0). Proof. by []. Qed.
Lemma I0_adj : adjoint dot2 (mult I0) (multh I0). Proof. by []. Qed.

(** An eigensolver for the matrices that are diagonal; for others one Ritz pair *)
Definition eps0 (c : plane -> plane) (d : option (plane -> plane)) : nat * (nat -> C) * (nat -> plane) :=
  let x i := if i == 0%N then e0 else e1 in
  (if dot2 (c e0) e1 == 0 then 2%N else 1%N, fun i => dot2 (c (x i)) (x i), x).
Lemma e00 : dot2 e0 e0 = 1. Proof. by rewrite /dot2 /= conjC1 conjC0 mulr1 mulr0 addr0. Qed.
Lemma e11 : dot2 e1 e1 = 1. Proof. by rewrite /dot2 /= conjC1 conjC0 mulr1 mulr0 add0r. Qed.
Lemma e01 : dot2 e0 e1 = 0. Proof. by rewrite /dot2 /= conjC1 conjC0 mulr0 mul0r addr0. Qed.
Lemma e10 : dot2 e1 e0 = 0. Proof. by rewrite /dot2 /= conjC1 conjC0 mulr0 mul0r addr0. Qed.
Lemma eps0_ok c : linop c -> self_adjoint dot2 c -> (forall x, 0 <= dot2 (c x) x) ->
  let '(n, la, x) := eps0 c None in ritz_pairs dot2 c n la x /\ (n <= ncols (cfg false true Always))%N.
Proof.
move=> _ Hc _; rewrite /eps0; case: ifP => [/eqP E|_]; (split; last by []); split.
- by case=> [|[|?]] // [|[|?]] // _ _; rewrite /= ?e00 ?e01 ?e10 ?e11.
- have E' : dot2 (c e1) e0 = 0 by rewrite Hc; have [_ -> _ _] := dot2_hermitian; rewrite E rmorph0.
  by case=> [|[|?]] // [|[|?]] //.
- by case=> // [] [] // _ _; rewrite /= e00.
- by case=> // [] [] //.
Qed.
Lemma diag_A0 : dot2 (multh A0 (mult A0 e0)) e1 = 0.
Proof. by rewrite /dot2 /= !mulr0 conjC0 mulr0 mul0r addr0. Qed.
Lemma diag_Z0 : dot2 (multh Z0 (mult Z0 e0)) e1 = 0.
Proof. by rewrite /dot2 /= !mulr0 conjC0 mulr0 mul0r addr0. Qed.

Lemma solve_case a : linop (mult a) -> linop (multh a) -> adjoint dot2 (mult a) (multh a) ->
  dot2 (multh a (mult a e0)) e1 = 0 ->
  sqrt2 (dot2 (multh a (mult a e0)) e0) <= sqrt2 (dot2 (multh a (mult a e1)) e1) ->
  exists r, [/\ solve_cross sqrt2 id_re true 1 (in0 a Standard Largest) eps0 sort_C = Ok r, nconv r = 2%N,
    get_value r 0 = Ok (sqrt2 (dot2 (multh a (mult a e1)) e1)) &
    get_value r 1 = Ok (sqrt2 (dot2 (multh a (mult a e0)) e0))].
Proof.
move=> L1 L2 Ad Hd Hle; pose x i := if i == 0%N then e0 else e1 : plane.
pose la i := dot2 (multh a (mult a (x i))) (x i).
have la0 k : 0 <= la k by rewrite /la (gram_dot dot2_hermitian _ _ Ad) (dot_ge0 dot2_hermitian dot2_positive).
have [|sg Es Hs] := @cross_values_ok _ _ sqrt2 _ id_re_ok 1 ltr01 (in0 a Standard Largest) 2 0 la (fun _ => 0) erefl.
  by move=> k _; exact: la0.
exists (Solved 2 sg (sorted_perm (in0 a Standard Largest) sort_C 2 sg) la x).
have Hr : solve_cross sqrt2 id_re true 1 (in0 a Standard Largest) eps0 sort_C =
          Ok (Solved 2 sg (sorted_perm (in0 a Standard Largest) sort_C 2 sg) la x).
  have -> : solve_cross sqrt2 id_re true 1 (in0 a Standard Largest) eps0 sort_C =
    (do sigma <- cross_values sqrt2 id_re 1 (in0 a Standard Largest)
                   (if dot2 (multh a (mult a e0)) e1 == 0 then 2%N else 1%N) 0 la (fun _ => 0);
     Ok (Solved (if dot2 (multh a (mult a e0)) e1 == 0 then 2%N else 1%N) sigma
       (sorted_perm (in0 a Standard Largest) sort_C (if dot2 (multh a (mult a e0)) e1 == 0 then 2%N else 1%N) sigma) la x)).
    by [].
  by rewrite Hd eqxx Es.
have Hp : sg 0%N <= sg 1%N by rewrite !Hs.
split=> //.
- by rewrite /get_value /sorted_perm /sort_C /sort /= Hp /= Hs.
- by rewrite /get_value /sorted_perm /sort_C /sort /= Hp /= Hs.
Qed.
Lemma sqrt_4 : sqrt2 4%:R = 2%:R.
Proof. by apply: (sqrtE sqrt2_root); rewrite ?ler0n // -natrX. Qed.
Lemma A0_values : dot2 (multh A0 (mult A0 e0)) e0 = 1 /\ dot2 (multh A0 (mult A0 e1)) e1 = 4%:R.
Proof. by split; rewrite /dot2 /= conjC1 conjC0 ?mulr0 ?mulr1 ?addr0 ?add0r -?natrM. Qed.
Lemma Z0_values : dot2 (multh Z0 (mult Z0 e0)) e0 = 0 /\ dot2 (multh Z0 (mult Z0 e1)) e1 = 4%:R.
Proof. by split; rewrite /dot2 /= conjC1 conjC0 ?mulr0 ?mulr1 ?mul0r ?addr0 ?add0r -?natrM. Qed.
Definition vec0 (a : mat plane) (r : solved C plane) :=
  vectors_cross dot2 conj2 sqrt2 id_re (in0 a Standard Largest) (cfg false true Always) (cfg false true Always) s0 r.

(** The matrix [0 2; 1 0]: singular values 2 and 1. *)
Example ex_C50 : exists r u v, [/\ solve_cross sqrt2 id_re true 1 (in0 A0 Standard Largest) eps0 sort_C = Ok r,
  get_triplet (in0 A0 Standard Largest) r (vec0 A0 r) 0 = Ok (2%:R, u, v),
  get_value r 1 = Ok 1, mult A0 v = 2%:R *: u & dot2 u u = 1].
Proof.
have [V0 V1] := A0_values; have [|r [Er Hn G0 G1]] := solve_case A0_lin A0_linh A0_adj diag_A0.
  by rewrite V0 V1 sqrt_4 /sqrt2 sqrtC1 ler1n.
rewrite V1 sqrt_4 in G0; rewrite V0 /sqrt2 sqrtC1 in G1.
have [r' [n [la [x [p [Er' [_ [Hn' _]] [[Hp Hi] _] [Hv _]]]]]]] :=
  @C50_cross _ _ dot2 conj2 sqrt2 id_re dot2_hermitian dot2_positive sqrt2_root id_re_ok true 1 ltr01
    (in0 A0 Standard Largest) A0_lin A0_linh A0_adj sort_C sort_C_ok (cfg false true Always) (cfg false true Always) s0
    (cfg_eta _ _ _) (cfg_tol _ _ _) erefl erefl 0 0 erefl (fun _ => isT) isT isT eps0 eps0_ok.
move: Er'; rewrite Er => -[?]; subst r'; rewrite Hn in Hn'; subst n.
have E0 := Hv 0%N isT; have E1 := Hv 1%N isT; rewrite G0 in E0; rewrite G1 in E1.
case=> [[[k Hk Ek] _]|[_ [u [v [Ou _ H]]]]].
  have : (k = p 0 \/ k = p 1)%N.
    have := Hp 0%N isT; have := Hp 1%N isT; have := @Hi 0%N 1%N isT isT.
    by case: k Hk {Ek} => [|[|?]] // _; case: (p 0%N) => [|[|?]] //; case: (p 1%N) => [|[|?]] // I1 _ _; try (by move: (I1 erefl)); auto.
  have Z : sqrt2 0 = 0 :> C by exact: (sqrt0 sqrt2_root).
  case=> Ep; rewrite Ep in Ek; [move: E0|move: E1]; rewrite Ek Z => -[] /eqP; first by rewrite pnatr_eq0.
  by rewrite oner_eq0.
have [T Av _ _] := H 0%N isT.
exists r, (u 0%N), (v 0%N); case: E0 => E0; rewrite -E0 in T Av; split=> //.
exact: (Ou 0%N 0%N isT isT).
Qed.

(** A singular value computed as zero: the values are available, but no vector is, because the product of the
    matrix with the corresponding vector is zero and the orthogonalization stops with an error. *)
Theorem C50_zero_value_refuted : exists r,
  [/\ solve_cross sqrt2 id_re true 1 (in0 Z0 Standard Largest) eps0 sort_C = Ok r,
      get_value r 0 = Ok 2%:R, get_value r 1 = Ok 0 &
      forall i, get_triplet (in0 Z0 Standard Largest) r (vec0 Z0 r) i = Err].
Proof.
have [V0 V1] := Z0_values; have [|r [Er Hn G0 G1]] := solve_case Z0_lin Z0_lin Z0_adj diag_Z0.
  by rewrite V0 V1 sqrt_4 (sqrt0 sqrt2_root) ler0n.
rewrite V1 sqrt_4 in G0; rewrite V0 (sqrt0 sqrt2_root) in G1.
exists r; split=> //.
have [r' [n [la [x [p [Er' [_ [Hn' _]] [[Hp Hi] _] [Hv _]]]]]]] :=
  @C50_cross _ _ dot2 conj2 sqrt2 id_re dot2_hermitian dot2_positive sqrt2_root id_re_ok true 1 ltr01
    (in0 Z0 Standard Largest) Z0_lin Z0_lin Z0_adj sort_C sort_C_ok (cfg false true Always) (cfg false true Always) s0
    (cfg_eta _ _ _) (cfg_tol _ _ _) erefl erefl 0 0 erefl (fun _ => isT) isT isT eps0 eps0_ok.
move: Er'; rewrite Er => -[?]; subst r'; rewrite Hn in Hn'; subst n.
have E1 := Hv 1%N isT; rewrite G1 in E1; case: E1 => E1.
case=> [[_ H] //|[/(_ _ (Hp 1%N isT)) H _]].
by have := sqrt_gt0 sqrt2_root H; rewrite -E1 ltxx.
Qed.

(** * Cyclic *)
Notation pairs := (plane * plane)%type.
Definition is2 : C := (sqrt2 2%:R)^-1.
Lemma is2_sqr : is2 * is2 = 2%:R^-1.
Proof. by rewrite /is2 -invfM -expr2 (sqr_sqrt sqrt2_root) ?ler0n. Qed.
Lemma is2_gt0 : 0 < is2. Proof. by rewrite invr_gt0; exact: (sqrt2_gt0 sqrt2_root). Qed.
Lemma is2_conj : is2^* = is2. Proof. by apply: conj_Creal; rewrite ger0_real // ltW // is2_gt0. Qed.
Lemma is2K : sqrt2 2%:R * is2 = 1 :> C. Proof. by rewrite divff // gt_eqF // (sqrt2_gt0 sqrt2_root). Qed.
Lemma half_half : 2%:R^-1 + 2%:R^-1 = 1 :> C. Proof. by rewrite -mulr2n -[_ *+ 2]mulr_natr mulVf // pnatr_eq0. Qed.
(** Eigenpair 2, (e0,e1)/sqrt(2) of the cyclic matrix of [0 2; 1 0] *)
Definition x2 : pairs := (pt is2 0, pt 0 is2).
(** and -2, (e0,-e1)/sqrt(2) *)
Definition x3 : pairs := (pt is2 0, pt 0 (- is2)).
Definition epsc0 (_ : pairs -> pairs) (_ : option (pairs -> pairs)) : nat * (nat -> C) * (nat -> pairs) :=
  (2%N, fun i => if i == 0%N then - 2%:R else 2%:R, fun i => if i == 0%N then x3 else x2).
Lemma x22 : dotp dot2 x2 x2 = 1.
Proof. by rewrite /dotp /dot2 /= is2_conj conjC0 !mulr0 addr0 add0r is2_sqr half_half. Qed.
Lemma epsc0_ok c : linop c -> self_adjoint (dotp dot2) c ->
  let '(n, la, x) := epsc0 c None in orthonormal (dotp dot2) x n /\ forall k, (k < n)%N -> la k \is Num.real.
Proof.
move=> _ _; split; last by case=> [|[|?]] // _; rewrite /= ?rpredN realn.
case=> [|[|?]] // [|[|?]] // _ _; rewrite /= ?x22 //= /dotp /dot2 /= ?rmorphN ?is2_conj conjC0 !mulr0 addr0 add0r
  ?mulrN ?mulNr ?opprK is2_sqr ?half_half // subrr //.
Qed.
Definition z0 : vectors plane plane := Vectors (fun _ => pt 0 0) (fun _ => pt 0 0) (fun _ => 1).

Example ex_C51 : exists r n, [/\ solve_cyclic id_re (in0 A0 Standard Largest) sort_C 2 epsc0 = Ok (r, n), nconv r = 1%N &
  get_triplet (in0 A0 Standard Largest) r (vectors_cyclic sqrt2 id_re r n z0) 0 = Ok (2%:R, e0, e1)].
Proof.
pose inp := in0 A0 Standard Largest.
have Ev : cyclic_values id_re inp 2 0 0 (fun i => if i == 0%N then - 2%:R else 2%:R) (fun _ => 0) =
          (1%N, upd (fun _ => 0 : C) 0 2%:R).
  by rewrite /= /id_re oppr_gt0 ltrn0 ltr0n.
have Ew r : lambda r = (fun i => if i == 0%N then - 2%:R else 2%:R) -> evec r = (fun i => if i == 0%N then x3 else x2) ->
  vectors_cyclic sqrt2 id_re r 2 z0 =
  Ok (Vectors (upd (colU z0) 0 (sqrt2 2%:R *: x2.1)) (upd (colV z0) 0 (sqrt2 2%:R *: x2.2)) (sign z0)).
  by move=> E1 E2; rewrite /vectors_cyclic E1 E2 /= /id_re oppr_lt0 ltr0n (le_gtF (ler0n _ _)).
have Es : solve_cyclic id_re inp sort_C 2 epsc0 =
  let '(k, sigma) := cyclic_values id_re inp 2 0 0 (fun i => if i == 0%N then - 2%:R else 2%:R) (fun _ => 0) in
  Ok (Solved k sigma (sorted_perm inp sort_C k sigma) (fun i => if i == 0%N then - 2%:R else 2%:R)
        (fun i => if i == 0%N then x3 else x2), 2%N) by [].
rewrite Ev in Es; eexists; exists 2%N; split; [exact: Es|by []|].
rewrite Ew // /get_triplet /check /= /sorted_perm /sort_C /= /upd /=; congr (Ok (_, _, _)); congr (_, _);
  by rewrite /GRing.scale /= ?mulr0 ?is2K.
Qed.

(** The eigenpairs 0, (e0,0) and 2, (e1,e1)/sqrt(2) of the cyclic matrix of [0 0; 0 2], in this order: for
    instance by distance to the target 1/2 of a shift-and-invert. *)
Definition epsc1 (_ : pairs -> pairs) (_ : option (pairs -> pairs)) : nat * (nat -> C) * (nat -> pairs) :=
  (2%N, fun i => if i == 0%N then 0 else 2%:R, fun i => if i == 0%N then (e0, pt 0 0) else (pt 0 is2, pt 0 is2)).
(** All the pairs are exact and the value 2 is returned, but with the vectors of the eigenvalue zero. *)
Theorem C51_zero_first_refuted : exists r n u v,
  [/\ (forall c, let '(n, la, x) := epsc1 c None in
         orthonormal (dotp dot2) x n /\ forall k, (k < n)%N -> la k \is Num.real /\ herm (in0 Z0 Standard Largest) (x k) = la k *: x k),
      solve_cyclic id_re (in0 Z0 Standard Largest) sort_C 2 epsc1 = Ok (r, n), nconv r = 1%N,
      get_triplet (in0 Z0 Standard Largest) r (vectors_cyclic sqrt2 id_re r n z0) 0 = Ok (2%:R, u, v) &
      v = 0 /\ mult Z0 v <> 2%:R *: u].
Proof.
pose inp := in0 Z0 Standard Largest.
pose la i : C := if i == 0%N then 0 else 2%:R.
pose x i : pairs := if i == 0%N then (e0, pt 0 0) else (pt 0 is2, pt 0 is2).
have Ev : cyclic_values id_re inp 2 0 0 la (fun _ => 0) = (1%N, upd (fun _ => 0 : C) 0 2%:R).
  by rewrite /= /id_re /la /= ltxx ltr0n.
have Es : solve_cyclic id_re inp sort_C 2 epsc1 =
  let '(k, sigma) := cyclic_values id_re inp 2 0 0 la (fun _ => 0) in
  Ok (Solved k sigma (sorted_perm inp sort_C k sigma) la x, 2%N) by [].
rewrite Ev in Es.
have Ew r : lambda r = la -> evec r = x -> vectors_cyclic sqrt2 id_re r 2 z0 =
  Ok (Vectors (upd (upd (colU z0) 0 (sqrt2 2%:R *: (x 0%N).1)) 1 (sqrt2 2%:R *: (x 1%N).1))
              (upd (upd (colV z0) 0 (sqrt2 2%:R *: (x 0%N).2)) 1 (sqrt2 2%:R *: (x 1%N).2)) (sign z0)).
  by move=> E1 E2; rewrite /vectors_cyclic E1 E2 /= /id_re /la /= ltxx (le_gtF (ler0n _ _)).
eexists; exists 2%N, (sqrt2 2%:R *: e0), 0; split; [|exact: Es|by []| |].
- move=> c; split.
    by case=> [|[|?]] // [|[|?]] // _ _; rewrite /dotp /dot2 /= ?is2_conj ?conjC0 ?conjC1 ?mulr0 ?mul0r ?mulr1
      ?addr0 ?add0r ?is2_sqr ?half_half.
  case=> [|[|?]] // _; split; rewrite /= ?real0 ?realn //.
    by rewrite scale0r /herm /=; congr (_, _); congr (_, _); rewrite mulr0.
  by rewrite /herm /=; congr (_, _); congr (_, _); rewrite /GRing.scale /= ?mulr0.
- rewrite Ew // /get_triplet /check /= /sorted_perm /sort_C /= /upd /=; congr (Ok (_, _, _)).
  by congr (_, _); rewrite /GRing.scale /= mulr0.
split=> // /(congr1 fst) /= /eqP; rewrite /GRing.scale /= mulr1 eq_sym mulf_eq0 pnatr_eq0 /=.
by rewrite gt_eqF // (sqrt2_gt0 sqrt2_root).
Qed.

(** * Generalized problems: A = [0 2; 1 0], B = I *)
Definition epsg (c : plane -> plane) (d : option (plane -> plane)) : nat * (nat -> C) * (nat -> plane) :=
  if d is Some d then (if 0 < dot2 (d e1) e1 then 1%N else 0%N, fun _ => dot2 (c e1) e1 / dot2 (d e1) e1, fun _ => e1)
  else (0%N, fun _ => 0, fun _ => e1).
Lemma epsg_ok c d : self_adjoint dot2 c -> self_adjoint dot2 d ->
  let '(n, la, x) := epsg c (Some d) in
  forall k, (k < n)%N -> 0 < dot2 (d (x k)) (x k) /\ dot2 (c (x k)) (x k) = la k * dot2 (d (x k)) (x k).
Proof. by move=> _ _; rewrite /epsg; case: ifP => // H k _; split; rewrite // divfK // gt_eqF. Qed.

Example ex_C52 : exists r u v y c s,
  [/\ solve_cross sqrt2 id_re true 1 (in0 A0 Generalized Largest) epsg sort_C = Ok r,
      get_gtriplet r (gvectors_cross dot2 sqrt2 id_re (in0 A0 Generalized Largest) r) 0 = Ok (2%:R, (u, v), y),
      mult A0 y = c *: u, y = s *: v & dot2 u u = 1 /\ c = 2%:R * s].
Proof.
pose inp := in0 A0 Generalized Largest.
have [_ V1] := A0_values.
have [r [n [la [x [p [Er Hl [Hp Hn _] _ H]]]]]] :=
  @C52_gsvd_cross _ _ dot2 conj2 sqrt2 id_re dot2_hermitian dot2_positive sqrt2_root id_re_ok true 1 ltr01 inp
    A0_lin A0_linh A0_adj I0_lin I0_lin I0_adj sort_C sort_C_ok 0 0 erefl isT isT isT (fun _ => isT) epsg epsg_ok.
have [sg Es Hs] : exists2 sg, cross_values sqrt2 id_re 1 inp 1 0 (fun _ => 4%:R) (fun _ => 0) = Ok sg & sg 0%N = 2%:R.
  have [|sg Es Hs] := @cross_values_ok _ _ sqrt2 _ id_re_ok 1 ltr01 inp 1 0 (fun _ => 4%:R) (fun _ => 0) erefl.
    by move=> k _; rewrite ler0n.
  by exists sg => //; rewrite Hs /= sqrt_4.
have Er' : solve_cross sqrt2 id_re true 1 inp epsg sort_C =
  Ok (Solved 1 sg (sorted_perm inp sort_C 1 sg) (fun _ => 4%:R) (fun _ => e1)).
  have -> : solve_cross sqrt2 id_re true 1 inp epsg sort_C =
    (do sigma <- cross_values sqrt2 id_re 1 inp (if 0 < dot2 e1 e1 then 1%N else 0%N) 0
                   (fun _ => dot2 (multh A0 (mult A0 e1)) e1 / dot2 e1 e1) (fun _ => 0);
     Ok (Solved (if 0 < dot2 e1 e1 then 1%N else 0%N) sigma
           (sorted_perm inp sort_C (if 0 < dot2 e1 e1 then 1%N else 0%N) sigma)
           (fun _ => dot2 (multh A0 (mult A0 e1)) e1 / dot2 e1 e1) (fun _ => e1))) by [].
  by rewrite e11 ltr01 V1 divr1 Es.
move: Er; rewrite Er' => -[?]; subst r; rewrite /= in Hn; subst n.
have [u [v [y [c [s [T [_ Hs0 _ Sg] [Ay By _ _ Hu] _ _]]]]]] := H 0%N isT.
have G : sqrt2 (la (p 0%N)) = 2%:R.
  by move: T; rewrite /get_gtriplet /check /sorted_perm /sort_C /= Hs => -[<-].
have L0 : 0 < la (p 0%N).
  have [_ L] := Hl _ (proj1 Hp 0%N isT); rewrite lt_neqAle L andbT eq_sym; apply/eqP => L'.
  by move/eqP: G; rewrite L' (sqrt0 sqrt2_root) eq_sym pnatr_eq0.
exists (Solved 1 sg (sorted_perm inp sort_C 1 sg) (fun _ => 4%:R) (fun _ => e1)), u, v, y, c, s.
split=> //; first by rewrite T G.
by split; [exact: Hu|rewrite -G Sg divfK // gt_eqF].
Qed.

(** Eigenpair 2, (e0,e1)/sqrt(2) of the pencil, if it has norm one *)
Definition epsgc (_ : pairs -> pairs) (d : option (pairs -> pairs)) : nat * (nat -> C) * (nat -> pairs) :=
  if d is Some d then (if dotp dot2 (d x2) x2 == 1 then 1%N else 0%N, fun _ => 2%:R, fun _ => x2)
  else (0%N, fun _ => 0, fun _ => x2).
Lemma epsgc_ok c d : self_adjoint (dotp dot2) c -> self_adjoint (dotp dot2) d ->
  let '(n, la, x) := epsgc c (Some d) in
  forall k, (k < n)%N -> la k \is Num.real /\ dotp dot2 (d (x k)) (x k) = 1.
Proof. by move=> _ _; rewrite /epsgc; case: ifP => // /eqP H k _; rewrite realn. Qed.
Definition zg : vectors plane pairs := Vectors (fun _ => (pt 0 0, pt 0 0)) (fun _ => pt 0 0) (fun _ => 1).
Example ex_C52_cyclic : exists r n u v y c s,
  [/\ solve_cyclic id_re (in0 A0 Generalized Largest) sort_C 2 epsgc = Ok (r, n),
      get_gtriplet r (gvectors_cyclic sqrt2 id_re (in0 A0 Generalized Largest) r n zg) 0 = Ok (2%:R, (u, v), y),
      mult A0 y = c *: u, y = s *: v & [/\ dot2 u u = 1, dot2 v v = 1 & c = 2%:R * s]].
Proof.
pose inp := in0 A0 Generalized Largest.
have [r [n [la [x [q [Er [[n' En Hnc] Hn] Hv _ H]]]]]] :=
  @C52_gsvd_cyclic _ _ dot2 conj2 sqrt2 id_re dot2_hermitian sqrt2_root id_re_ok inp
    A0_lin A0_linh A0_adj I0_lin I0_lin I0_adj sort_C sort_C_ok 0 0 erefl isT isT isT epsgc 2 zg (fun _ => isT) epsgc_ok.
have Ex : pencilB inp x2 = x2 by [].
rewrite /epsgc Ex x22 eqxx in En; case: En => ? ? ?; subst n' la x; rewrite /= in Hnc; subst n.
have Hp : pencilA inp x2 = 2%:R *: pencilB inp x2.
  by rewrite /pencilA /pencilB /k1 /k2 /=; congr (_, _); congr (_, _); rewrite /GRing.scale /= ?mulr0.
have N1 : nconv r = 1%N by rewrite Hn /= ltr0n.
have H1 : (0 < nconv r)%N by rewrite N1.
have [||sg [u [v [y [c [s [T [_ s0 _ Sg] [Ay By Hu Hv'] _ _]]]]]]] := H _ _ 0%N H1.
- by move=> k l /andP []; case: l.
- by [].
have [_ _] := Hv 0%N H1; rewrite /get_value /check H1 /= => -[G].
have Sg2 : sg = 2%:R by move: T; rewrite /get_gtriplet /check H1 => -[<- _ _].
exists r, 1%N, u, v, y, c, s; rewrite T Sg2; split=> //; split=> //.
by rewrite -Sg2 Sg divfK // gt_eqF.
Qed.
Print Assumptions C50_zero_value_refuted.
Print Assumptions C51_zero_first_refuted.
