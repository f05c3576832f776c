(** Property theorems C50-C52: singular values through an eigensolver. *)
From mathcomp Require Import all_ssreflect all_algebra all_field.
From Verif Require Import Prelude GSModel GSSpec GSProofs GSProps SVDModel SVDSpec SVDProofs.
Set Implicit Arguments. Unset Strict Implicit. Unset Printing Implicit Defensive.
Import GRing.Theory Num.Theory Order.TTheory.
Local Open Scope ring_scope.

Section Props.
Variables (F : numFieldType) (W : lmodType F) (dot : W -> W -> F) (conj : {rmorphism F -> F}) (sqrt re : F -> F).
Hypothesis HH : hermitian conj dot.
Hypothesis Hpd : positive_definite dot.
Hypothesis Hsqrt : square_root sqrt.
Hypothesis Hre : real_part re.
Variables (cplx : bool) (tiny : F).
Hypothesis Htiny : 0 < tiny.
Variable inp : input W.
(** The matrix and its Hermitian transpose. *)
Hypothesis Hlin : linop (mult (op inp)).
Hypothesis Hlinh : linop (multh (op inp)).
Hypothesis Hadj : adjoint dot (mult (op inp)) (multh (op inp)).
Variable sort_perm : nat -> (nat -> F) -> nat -> nat.
Hypothesis Hsort : sorting sort_perm.
(** The BV of the vectors computed by multiplication. *)
Variables (g gom : config F) (u0 : mem W).
Hypothesis Heta : 0 < eta g <= 1.
Hypothesis Htol : 0 < deftol g.
Hypothesis Hdef : indef g = false.
Hypothesis Hnc : nc g = 0%N.
Variables (nrma nrmb : F).

Let dL : forall a x y z, dot (a *: x + y) z = a * dot x z + dot y z. Proof. by case: HH. Qed.
Let dC : forall x y, dot x y = conj (dot y x). Proof. by case: HH. Qed.
Let cR : forall a, a \is Num.real -> conj a = a. Proof. by case: HH. Qed.

Lemma sorted_perm_ok n (f : nat -> F) : (forall i, (i < n)%N -> f i \is Num.real) ->
  renumbering n (sorted_perm inp sort_perm n f) /\
  forall i j, (i <= j < n)%N ->
  if which inp is Largest then f (sorted_perm inp sort_perm n f j) <= f (sorted_perm inp sort_perm n f i)
  else f (sorted_perm inp sort_perm n f i) <= f (sorted_perm inp sort_perm n f j).
Proof.
move=> Hf; have [S1 S2 S3] := Hsort Hf; rewrite /sorted_perm; case: (which inp).
- have Hr i : (i < n)%N -> (n - i - 1 < n)%N by move=> Hi; rewrite -subnDA addn1 ltn_subrL (leq_ltn_trans _ Hi).
  split; first split=> [i Hi|i j Hi Hj]; rewrite ?Hi ?Hj; first by apply: S1; exact: Hr.
    move/(S2 _ _ (Hr _ Hi) (Hr _ Hj)); rewrite -!subnDA !addn1 => E.
    by apply/eqP; rewrite -eqSS; have := subKn Hi; rewrite E (subKn Hj) => ->.
  move=> i j /andP [Hij Hj]; rewrite Hj (leq_ltn_trans Hij Hj); apply: S3.
  by rewrite Hr ?(leq_ltn_trans Hij Hj) // andbT -!subnDA leq_sub2l // leq_add2r.
- split; first split=> [i Hi|i j Hi Hj]; rewrite ?Hi ?Hj; [exact: S1|exact: S2|].
  by move=> i j /andP [Hij Hj]; rewrite Hj (leq_ltn_trans Hij Hj); apply: S3; rewrite Hij.
Qed.

(** * C50: the cross product matrix *)
Section Cross.
Hypothesis Hstd : ptype inp = Standard.
Hypothesis Hsupp : explicitmatrix inp -> expltrans inp || ~~ cplx.
Hypothesis HM : M inp != 0%N.
Hypothesis HN : N inp != 0%N.
(** A^* A or, for a matrix with more columns than rows, A A^*. *)
Definition gram (x : W) : W :=
  if (M inp < N inp)%N then mult (op inp) (multh (op inp) x) else multh (op inp) (mult (op inp) x).
(** The number of pairs computed fits in the BV. *)
Variable eps : (W -> W) -> option (W -> W) -> nat * (nat -> F) * (nat -> W).
Hypothesis Heps : forall c, linop c -> self_adjoint dot c -> (forall x, 0 <= dot (c x) x) ->
  let '(n, lambda, x) := eps c None in ritz_pairs dot c n lambda x /\ (n <= ncols g)%N.

Lemma is_std : isgeneralized inp = false /\ ishyperbolic inp = false.
Proof. by rewrite /isgeneralized /ishyperbolic Hstd. Qed.
Lemma product_std : exists2 c, product_mat cplx inp (mA inp) (mAT inp) = Ok c & forall x, c x = gram x.
Proof.
have [E1 E2] := is_std.
rewrite /product_mat /mult_cross /mA /mAT /swapped /gram E1 E2 /= leqNgt.
case: (M inp < N inp)%N; (case: (explicitmatrix inp) Hsupp => /= Hs; last by eexists; first by []);
  (case: (expltrans inp) Hs => /= [_|/(_ isT) /negbTE ->]; by eexists; first by []).
Qed.
Lemma multA : mult (mA inp) = if (M inp < N inp)%N then multh (op inp) else mult (op inp).
Proof. by have [E1 _] := is_std; rewrite /mA E1 /= leqNgt; case: (M inp < N inp)%N. Qed.
Lemma multAT : mult (mAT inp) = if (M inp < N inp)%N then mult (op inp) else multh (op inp).
Proof. by have [E1 _] := is_std; rewrite /mAT E1 /= leqNgt; case: (M inp < N inp)%N. Qed.
Lemma gramE x : gram x = mult (mAT inp) (mult (mA inp) x).
Proof. by rewrite /gram multA multAT; case: ifP. Qed.
Lemma adjA : adjoint dot (mult (mA inp)) (mult (mAT inp)).
Proof. by rewrite multA multAT; case: ifP => _ //; exact: (adjointC HH). Qed.
Lemma linA : linop (mult (mA inp)). Proof. by rewrite multA; case: ifP. Qed.
Lemma linAT : linop (mult (mAT inp)). Proof. by rewrite multAT; case: ifP. Qed.
Lemma gram_lin : linop gram. Proof. by move=> c x y; rewrite !gramE linA linAT. Qed.
Lemma gram_dotA x y : dot (gram x) y = dot (mult (mA inp) x) (mult (mA inp) y).
Proof. by rewrite gramE (adjointC HH adjA). Qed.

Lemma cross_values_ok n i (la sg : nat -> F) : ishyperbolic inp = false ->
  (forall k, (i <= k < i + n)%N -> 0 <= la k) ->
  exists2 sg', cross_values sqrt re tiny inp n i la sg = Ok sg' &
  forall k, sg' k = if (i <= k < i + n)%N then sqrt (la k) else sg k.
Proof.
move=> E; elim: n i sg => [|n IH] i sg H /=.
  by exists sg => // k; rewrite addn0 ltnNge andbN.
have Hi : 0 <= la i by apply: H; rewrite leqnn addnS ltnS leq_addr.
rewrite E /check Hre ?ger0_real // (lt_le_trans _ Hi) ?oppr_lt0 // (le_gtF Hi).
have [|sg' -> H'] := IH i.+1 (upd sg i (sqrt (la i))).
  by move=> k /andP [H1 H2]; apply: H; rewrite (ltnW H1) addnS -addSn.
exists sg' => // k; rewrite H' /upd addSn addnS; case: (ltngtP i k) => //= <-.
by rewrite ltnS leq_addr.
Qed.

(** SVDSolve with the solver cross: the singular values are the square roots of the eigenvalues, in the order
    requested.  If none is zero the left and right vectors returned are orthonormal, one of the relations
    A v = s u, A^* u = s v is exact, and the errors computed are those of the eigensolver. *)
Theorem C50_cross : exists r n la x p,
  [/\ solve_cross sqrt re cplx tiny inp eps sort_perm = Ok r,
      ritz_pairs dot gram n la x /\ (nconv r = n /\ exists2 c, forall y, c y = gram y & eps c None = (n, la, x)),
      renumbering n p /\ (forall k, (k < n)%N -> 0 <= la k),
      (forall i, (i < n)%N -> get_value r i = Ok (sqrt (la (p i)))) /\
      (forall i j, (i <= j < n)%N ->
         if which inp is Largest then sqrt (la (p j)) <= sqrt (la (p i)) else sqrt (la (p i)) <= sqrt (la (p j))) &
      let vec := vectors_cross dot conj sqrt re inp g gom u0 r in
      ((exists2 k, (k < n)%N & la k = 0) /\ (forall i, get_triplet inp r vec i = Err)) \/
      ((forall k, (k < n)%N -> 0 < la k) /\
       exists u v, [/\ orthonormal dot u n, orthonormal dot v n &
       forall i, (i < n)%N -> let s := sqrt (la (p i)) in
       let e := if (M inp < N inp)%N then mult (op inp) (v i) - s *: u i
                else multh (op inp) (u i) - s *: v i in
       [/\ get_triplet inp r vec i = Ok (s, u i, v i),
           if (M inp < N inp)%N then multh (op inp) (u i) = s *: v i else mult (op inp) (v i) = s *: u i,
           s *: e = gram (x (p i)) - la (p i) *: x (p i) &
           forall a, is_norm dot (gram (x (p i)) - la (p i) *: x (p i)) a ->
           let err t := compute_error dot sqrt inp nrma nrmb r vec i t in
           [/\ err Absolute = Ok (a / s), err Relative = Ok (a / (la (p i) * sqrt 2%:R)) &
               err Norm = Ok (a / s / (pmax nrma nrmb * sqrt 2%:R))]]])].
Proof.
have [E1 E2] := is_std.
have [c Ec Hc] := product_std.
have := Heps (c := c); have := Hc.
rewrite /solve_cross /check /sizes_ok E1 /= (negbTE HM) (negbTE HN) /= /cross_operators Ec /= E1 E2 /=.
case Ee: (eps c None) => [[n la] x] Hc' [|||[Ho Hla] Hn].
- by move=> a y z; rewrite !Hc gram_lin.
- by move=> y z; rewrite !Hc gram_dotA gramE adjA.
- by move=> y; rewrite Hc gram_dotA (dot_ge0 HH Hpd).
have R : ritz_pairs dot gram n la x by split=> // i j Hi Hj; rewrite -Hc Hla.
have La k : (k < n)%N -> la k = dot (mult (mA inp) (x k)) (mult (mA inp) (x k)).
  by move=> Hk; have := Hla k k Hk Hk; rewrite eqxx Hc gram_dotA.
have L0 k : (k < n)%N -> 0 <= la k by move=> Hk; rewrite La // (dot_ge0 HH Hpd).
have [|sg -> Hsg] := cross_values_ok (n := n) (i := 0) (la := la) (fun _ => 0) E2.
  by move=> k; rewrite add0n; exact: L0.
have Sg k : (k < n)%N -> sg k = sqrt (la k) by move=> Hk; rewrite Hsg add0n Hk.
pose p := sorted_perm inp sort_perm n sg.
have [|[P1 P2] P3] := @sorted_perm_ok n sg.
  by move=> i Hi; rewrite Sg // ger0_real // (sqrt_ge0 Hsqrt) ?L0.
exists (Solved n sg p la x), n, la, x, p; split; [by []|by split=> //; split=> //; exists c|by split; [split|]| |].
  split=> [i Hi|i j Hij]; first by rewrite /get_value /check /= Hi /= -/p Sg ?P1.
  have Hi : (i < n)%N by case/andP: Hij; exact: leq_ltn_trans.
  have Hj : (j < n)%N by case/andP: Hij.
  by have := P3 i j Hij; rewrite -/p !Sg ?P1.
set r := Solved _ _ _ _ _; set vec := vectors_cross _ _ _ _ _ _ _ _ r.
pose start := with_col u0 (fun i => if (i < n)%N then mult (mA inp) (x i) else col u0 i).
have Ev : vec = do ' (s, _) <- orthogonalize dot conj sqrt g 0 n start None; Ok (Vectors (col s) x (fun _ => 1)).
  by rewrite /vec /vectors_cross /vectors_left E2.
have [|Hz] := boolP [exists k : 'I_n, la k == 0].
  case/existsP => k /eqP Ek; left; split; first by exists k.
  have E0 : col start k = 0.
    rewrite /start /= ltn_ord; apply/eqP.
    by rewrite -(dot_eq0 HH Hpd) -La // Ek.
  move=> i; rewrite /get_triplet Ev (orthogonalize_dependent HH Hpd Hsqrt Heta Htol Hdef Hnc (k := k)) ?ltn_ord //.
  by rewrite /check; case: ifP.
have Lp k : (k < n)%N -> 0 < la k.
  move=> Hk; rewrite lt_neqAle L0 // andbT eq_sym; apply: contra Hz => Ek.
  by apply/existsP; exists (Ordinal Hk).
right; split=> //.
have Cs i : (i < n)%N -> col start i = mult (mA inp) (x i) by move=> Hi; rewrite /start /= Hi.
have [|i Hi|s' [Es Hs]] := orthogonalize_orthogonal HH Hpd Hsqrt Heta Htol Hdef Hnc (s := start) Hn.
- by move=> i j Hi Hj Hij; rewrite !Cs // -gram_dotA; case: R => _ -> //; rewrite (negbTE Hij).
- by rewrite Cs // -(dot_eq0 HH Hpd) -La // gt_eqF ?Lp.
pose S k := sqrt (la k); pose b k := (S k)^-1 *: mult (mA inp) (x k).
have S0 k : (k < n)%N -> 0 < S k by move=> Hk; rewrite (sqrt_gt0 Hsqrt) ?Lp.
have S2 k : (k < n)%N -> la k = S k ^+ 2 by move=> Hk; rewrite (sqr_sqrt Hsqrt) ?L0.
have Hb k : (k < n)%N -> col s' k = b k.
  by move=> Hk; rewrite Hs // Cs // /norm2 -La.
have Ob : orthonormal dot b n.
  move=> i j Hi Hj; rewrite /b (dotZZ HH) -gram_dotA; case: R => _ -> //.
  case: eqP => [<-|_]; last by rewrite mulr0.
  by rewrite cR ?rpredV ?ger0_real ?ltW ?S0 // S2 // expr2 mulrACA mulVf ?mulr1 // gt_eqF ?S0.
have Op (h : nat -> W) : orthonormal dot h n -> orthonormal dot (fun i => h (p i)) n.
  move=> Hh i j Hi Hj; rewrite Hh ?P1 //; congr (_%:R); congr nat_of_bool.
  by apply/eqP/eqP => [|-> //]; exact: P2.
have Aa k : (k < n)%N -> mult (mA inp) (x k) = S k *: b k.
  by move=> Hk; rewrite /b scalerA divff ?scale1r // gt_eqF ?S0.
have Ab k : (k < n)%N -> S k *: (mult (mAT inp) (b k) - S k *: x k) = gram (x k) - la k *: x k.
  move=> Hk; rewrite scalerBr -(linopZ _ _ linAT) -Aa // -gramE scalerA -expr2 -S2 //.
exists (fun i => if (M inp < N inp)%N then x (p i) else b (p i)),
       (fun i => if (M inp < N inp)%N then b (p i) else x (p i)).
split; [by case: (M inp < N inp)%N; apply: Op; case: R|by case: (M inp < N inp)%N; apply: Op; case: R|move=> i Hi].
set s := sqrt (la (p i)).
set e := if _ then mult _ _ - _ else multh _ _ - _.
have T : get_triplet inp r vec i = Ok (s, if (M inp < N inp)%N then x (p i) else b (p i),
                                         if (M inp < N inp)%N then b (p i) else x (p i)).
  rewrite /get_triplet /check /r /= Hi /= -/p Ev Es /= Sg ?P1 // Hb ?P1 // -/s.
  by case: (M inp < N inp)%N.
have He : s *: e = gram (x (p i)) - la (p i) *: x (p i).
  by rewrite -Ab ?P1 // /e /s /S multAT; case: (M inp < N inp)%N.
split=> //.
  by have := Aa _ (P1 _ Hi); rewrite multA /s /S; case: (M inp < N inp)%N.
move=> a Na.
have Nz : norm2 dot sqrt 0 = 0 by exact: (norm20 HH Hsqrt).
have s0 : 0 < s by rewrite /s S0 ?P1.
have Ne : norm2 dot sqrt e = a / s.
  apply: (mulfI (x := s)); rewrite ?gt_eqF // -(norm2Z HH Hpd Hsqrt) ?ltW // He (norm2_eq Hsqrt Na).
  by rewrite mulrC divfK // gt_eqF.
have Nr : residual_norms dot sqrt inp s 1 (if (M inp < N inp)%N then x (p i) else b (p i))
            (if (M inp < N inp)%N then b (p i) else x (p i)) =
          if (M inp < N inp)%N then (a / s, 0) else (0, a / s).
  have := Aa _ (P1 _ Hi); rewrite /residual_norms E2 -Ne /e multA multAT -/(S (p i)) /s.
  by case: (M inp < N inp)%N => ->; rewrite subrr Nz.
have a0 : 0 <= a / s by apply: divr_ge0; [case: Na|exact: ltW].
have Es2 : slepc_abs sqrt (if (M inp < N inp)%N then a / s else 0) (if (M inp < N inp)%N then 0 else a / s) = a / s.
  by rewrite /slepc_abs; case: (M inp < N inp)%N; rewrite expr0n ?addr0 ?add0r (sqrt_sqr Hsqrt).
have Er t : compute_error dot sqrt inp nrma nrmb r vec i t =
  Ok (match t with Absolute => a / s | Relative => a / s / (s * sqrt 2%:R)
      | Norm => a / s / (pmax nrma nrmb * sqrt 2%:R) end).
  move: Nr; rewrite /compute_error T; move: (residual_norms dot sqrt inp) => rn Nr; rewrite Ev Es /= E2 Nr.
  by move: Es2; case: (M inp < N inp)%N => ->.
split; rewrite Er //.
by rewrite S2 ?P1 // -/s expr2 -mulrA -invfM mulrA.
Qed.
End Cross.

(** * C51: the cyclic matrix *)
Section Cyclic.
(** The inner product of the space of the pairs *)
Definition dotp (x y : W * W) : F := dot x.1 y.1 + dot x.2 y.2.
(** H(A) = [0 A; A^* 0], or H(A^* ) for a matrix with more columns than rows *)
Definition herm (x : W * W) : W * W :=
  if (M inp < N inp)%N then (multh (op inp) x.2, mult (op inp) x.1) else (mult (op inp) x.2, multh (op inp) x.1).
Variable epsc : (W * W -> W * W) -> option (W * W -> W * W) -> nat * (nat -> F) * (nat -> W * W).
Variables (ncv : nat) (z : vectors W W).
(** The left and right part of an eigenvector *)
Definition left_part (x : W * W) : W := if (M inp < N inp)%N then x.2 else x.1.
Definition right_part (x : W * W) : W := if (M inp < N inp)%N then x.1 else x.2.

Lemma left_partE y c : left_part (herm y - c *: y) = mult (op inp) (right_part y) - c *: left_part y.
Proof. by case: y => y1 y2; rewrite /left_part /right_part /herm; case: (M inp < N inp)%N. Qed.
Lemma right_partE y c : right_part (herm y - c *: y) = multh (op inp) (left_part y) - c *: right_part y.
Proof. by case: y => y1 y2; rewrite /left_part /right_part /herm; case: (M inp < N inp)%N. Qed.
Lemma cyclic_values_place n i j la sg : let P k := 0 < re (la k) in
  cyclic_values re inp n i j la sg =
  ((j + count P (iota i n))%N,
   place P (fun k => if isgeneralized inp && (if which inp is Smallest then true else false) then 1 / re (la k) else re (la k)) n i j sg).
Proof.
move=> P; elim: n i j sg => [|n IH] i j sg /=; first by rewrite addn0.
by rewrite /P; case: ifP => H; rewrite IH ?addnA ?addn1 ?addn0.
Qed.
Lemma cyclic_vectors_place n i j la x (y : vectors W W) : let Q k := ~~ (re (la k) < 0) in
  colU (cyclic_vectors sqrt re n i j la x y) = place Q (fun k => sqrt 2%:R *: (x k).1) n i j (colU y) /\
  colV (cyclic_vectors sqrt re n i j la x y) = place Q (fun k => sqrt 2%:R *: (x k).2) n i j (colV y).
Proof.
move=> Q; elim: n i j y => [|n IH] i j y //=.
by rewrite /Q; case: ifP => H /=; exact: IH.
Qed.

Hypothesis Hstd : ptype inp = Standard.
Hypothesis Hsupp : explicitmatrix inp -> expltrans inp.
Hypothesis HM : M inp != 0%N.
Hypothesis HN : N inp != 0%N.
(** The eigensolver returns real eigenvalues and orthonormal eigenvectors, exact or not. *)
Hypothesis Heps : forall c, linop c -> self_adjoint dotp c ->
  let '(n, la, x) := epsc c None in orthonormal dotp x n /\ forall k, (k < n)%N -> la k \is Num.real.

(** SVDSolve with the solver cyclic: the singular values are the positive ones of the eigenvalues examined, in
    the order requested.  The vectors are the parts of the eigenvectors provided that no eigenvalue that is
    exactly zero is listed before a positive one. *)
Theorem C51_cyclic : exists r n la x q,
  [/\ solve_cyclic re inp sort_perm ncv epsc = Ok (r, n),
      (exists2 c, forall y, c y = herm y & exists2 n', epsc c None = (n', la, x) & n = minn n' ncv) /\
      (orthonormal dotp x n /\ forall k, (k < n)%N -> la k \is Num.real),
      nconv r = count (fun k => 0 < la k) (iota 0 n) /\
      (forall i, (i < nconv r)%N -> [/\ (q i < n)%N, 0 < la (q i) & get_value r i = Ok (la (q i))]),
      (forall i j, (i < nconv r)%N -> (j < nconv r)%N -> q i = q j -> i = j) /\
      (forall i j, (i <= j < nconv r)%N ->
         if which inp is Largest then la (q j) <= la (q i) else la (q i) <= la (q j)) &
      (forall k l, (k < l < n)%N -> la k = 0 -> ~~ (0 < la l)) ->
      let vec := vectors_cyclic sqrt re r n z in
      let u i := sqrt 2%:R *: left_part (x (q i)) in
      let v i := sqrt 2%:R *: right_part (x (q i)) in
      (forall i, (i < nconv r)%N ->
       [/\ get_triplet inp r vec i = Ok (la (q i), u i, v i) &
           forall a, is_norm dotp (herm (x (q i)) - la (q i) *: x (q i)) a ->
           let err t := compute_error dot sqrt inp nrma nrmb r vec i t in
           [/\ err Absolute = Ok (sqrt 2%:R * a), err Relative = Ok (a / la (q i)) &
               err Norm = Ok (a / pmax nrma nrmb)]]) /\
      ((forall k, (k < n)%N -> herm (x k) = la k *: x k) ->
       [/\ orthonormal dot u (nconv r), orthonormal dot v (nconv r) &
        forall i, (i < nconv r)%N -> mult (op inp) (v i) = la (q i) *: u i /\ multh (op inp) (u i) = la (q i) *: v i])].
Proof.
have [E1 E2] : isgeneralized inp = false /\ ishyperbolic inp = false by rewrite /isgeneralized /ishyperbolic Hstd.
have [c Ec Hc] : exists2 c, cyclic_operators inp = Ok (c, None) & forall x, c x = herm x.
  have -> : cyclic_operators inp = Ok (cyclic_mat (mA inp) (mAT inp), None).
    by rewrite /cyclic_operators E1 /check; case: (explicitmatrix inp) Hsupp => //= /(_ isT) ->.
  exists (cyclic_mat (mA inp) (mAT inp)) => // x.
  by rewrite /cyclic_mat /mA /mAT E1 /= leqNgt /herm; case: (M inp < N inp)%N.
have hL : linop herm.
  by move=> a x y; rewrite /herm; case: (M inp < N inp)%N; rewrite /= Hlin Hlinh.
have hA : self_adjoint dotp herm.
  move=> x y; rewrite /dotp /herm; case: (M inp < N inp)%N => /=;
    by rewrite Hadj (adjointC HH Hadj) addrC.
have := Heps (c := c).
rewrite /solve_cyclic /check /sizes_ok E1 /= (negbTE HM) (negbTE HN) /= Ec /=.
case Ee: (epsc c None) => [[n0 la] x] [||Ho0 Hr0].
- by move=> a y w; rewrite !Hc hL.
- by move=> y w; rewrite !Hc hA.
rewrite cyclic_values_place add0n; set n := minn n0 ncv.
have Hn : (n <= n0)%N by exact: geq_minl.
have Hr k : (k < n)%N -> la k \is Num.real by move=> Hk; apply: Hr0; exact: leq_trans Hn.
have Ho : orthonormal dotp x n by move=> i j Hi Hj; apply: Ho0; [exact: leq_trans Hn|exact: leq_trans Hn].
pose P k := 0 < re (la k); set sg := place _ _ _ _ _ _.
have Er k : (k < n)%N -> re (la k) = la k by move=> Hk; rewrite Hre ?Hr.
have Cn : count P (iota 0 n) = count (fun k => 0 < la k) (iota 0 n).
  by apply: eq_in_count => k; rewrite mem_iota add0n => /andP [_ Hk]; rewrite /P Er.
set m := count _ _.
have Hm : m = count P (iota 0 n) by [].
pose t k := nth 0%N (filter P (iota 0 n)) k.
have T1 k : (k < m)%N -> (t k < n)%N /\ 0 < la (t k).
  by move=> Hk; have [H1] := filter_iota_nth Hk; rewrite -/(t k) /P Er.
have T2 k l : (k < m)%N -> (l < m)%N -> t k = t l -> k = l by exact: filter_iota_inj.
have Sg k : (k < m)%N -> sg k = la (t k).
  move=> Hk; rewrite /sg placeE leq0n add0n -/P -/m Hk E1 /= subn0 -/(t k) Er //.
  by have [] := T1 k Hk.
have [|[P1 P2] P3] := @sorted_perm_ok m sg.
  by move=> k Hk; rewrite Sg //; apply: Hr; have [] := T1 k Hk.
pose p := sorted_perm inp sort_perm m sg; pose q i := t (p i).
exists (Solved m sg p la x), n, la, x, q; split; [by []|by split=> //; exists c => //; exists n0| | |].
- split=> // i Hi; have [H1 H2] := T1 _ (P1 i Hi); split=> //.
  by rewrite /get_value /check /= Hi -/p Sg ?P1.
- split=> [i j Hi Hj /(T2 _ _ (P1 i Hi) (P1 j Hj))|i j Hij]; first exact: P2.
  have Hi : (i < m)%N by case/andP: Hij; exact: leq_ltn_trans.
  have Hj : (j < m)%N by case/andP: Hij.
  by have := P3 i j Hij; rewrite -/p !Sg ?P1.
move=> Hz; set r := Solved _ _ _ _ _; set vec := vectors_cyclic _ _ _ _ _.
pose s2 := sqrt 2%:R : F; have s20 : 0 < s2 by exact: (sqrt2_gt0 Hsqrt).
have s22 : s2 ^+ 2 = 2%:R by rewrite (sqr_sqrt Hsqrt) ?ler0n.
have Q k : (k < m)%N -> (t k < n)%N /\ 0 < la (t k) by exact: T1.
have Tq k : (k < m)%N -> t k = nth 0%N (filter (fun k => ~~ (re (la k) < 0)) (iota 0 n)) k.
  move=> Hk; apply: filter_prefix; rewrite ?size_filter //.
    by move=> a Ha; rewrite /P => Hp; rewrite (lt_gtF Hp).
  move=> a b /andP [_ Hab] Hb; rewrite add0n in Hb; rewrite /P !Er // ?(ltn_trans Hab Hb) // => H1 H2.
  apply: (Hz a); rewrite ?Hab //; apply/eqP.
  by have := Hr a (ltn_trans Hab Hb); rewrite realE !le_eqVlt (negbTE H1) (negbTE H2) !orbF eq_sym orbb.
have Mq : (m <= count (fun k => ~~ (re (la k) < 0)%R) (iota 0 n))%N.
  by apply: sub_count => k; rewrite /P /= => Hp; rewrite (lt_gtF Hp).
have Hvec : exists y, [/\ vec = Ok y, forall k, (k < m)%N -> colU y k = s2 *: (x (t k)).1 &
                          forall k, (k < m)%N -> colV y k = s2 *: (x (t k)).2].
  eexists; split; first by [].
  - move=> k Hk; have [-> _] := cyclic_vectors_place n 0 0 la x z.
    by rewrite placeE leq0n add0n (leq_trans Hk Mq) /= subn0 -Tq.
  - move=> k Hk; have [_ ->] := cyclic_vectors_place n 0 0 la x z.
    by rewrite placeE leq0n add0n (leq_trans Hk Mq) /= subn0 -Tq.
have [y [Ey YU YV]] := Hvec.
split=> [i Hi|Hex].
  have T : get_triplet inp r vec i = Ok (la (q i), s2 *: left_part (x (q i)), s2 *: right_part (x (q i))).
    rewrite /get_triplet /check Ey /= Hi -/p YU ?P1 // YV ?P1 // Sg ?P1 //.
    by rewrite /left_part /right_part -/(q i); case: (M inp < N inp)%N.
  split=> // a Na.
  have [Hq Lq] := T1 _ (P1 i Hi); rewrite -/p -/(q i) in Hq Lq.
  set e := herm _ - _ in Na.
  have Nr : residual_norms dot sqrt inp (la (q i)) (sign y (p i)) (s2 *: left_part (x (q i))) (s2 *: right_part (x (q i))) =
    (s2 * norm2 dot sqrt (left_part e), s2 * norm2 dot sqrt (right_part e)).
    rewrite -!(norm2Z HH Hpd Hsqrt) ?ltW // /e left_partE right_partE /residual_norms E2.
    have -> (w : W) : (if (M inp < N inp)%N then mult (mA inp) w else mult (mAT inp) w) = multh (op inp) w.
      by rewrite /mA /mAT E1 /= (leqNgt (N inp)); case: (M inp < N inp)%N.
    by rewrite (linopZ _ _ Hlin) (linopZ _ _ Hlinh) !scalerBr !scalerA ![_ * s2]mulrC.
  have Ea : slepc_abs sqrt (s2 * norm2 dot sqrt (left_part e)) (s2 * norm2 dot sqrt (right_part e)) = s2 * a.
    case: Na => a0 Ha; apply: (sqrtE Hsqrt); first by apply: mulr_ge0 => //; exact: ltW.
    rewrite !exprMn -mulrDr !(sqr_norm2 HH Hpd Hsqrt) Ha /dotp /left_part /right_part.
    by case: (M inp < N inp)%N; rewrite // addrC.
  have Et t' : compute_error dot sqrt inp nrma nrmb r vec i t' =
    Ok (match t' with Absolute => s2 * a | Relative => s2 * a / (la (q i) * s2)
        | Norm => s2 * a / (pmax nrma nrmb * s2) end).
    move: Nr Ea; rewrite /compute_error T; move: (residual_norms dot sqrt inp) => rn Nr Ea; rewrite Ey /= E2 Nr.
    by rewrite Ea.
  have Es b : s2 * a / (b * s2) = a / b.
    by rewrite [b * s2]mulrC invfM mulrACA divff ?mul1r // gt_eqF.
  by split; rewrite Et -/s2 ?Es.
have hx i : (i < m)%N -> mult (op inp) (right_part (x (q i))) = la (q i) *: left_part (x (q i)) /\
                         multh (op inp) (left_part (x (q i))) = la (q i) *: right_part (x (q i)).
  move=> Hi; have [Hq _] := T1 _ (P1 i Hi); rewrite -/p -/(q i) in Hq.
  have := Hex _ Hq; rewrite /herm /left_part /right_part.
  by case: (x (q i)) => x1 x2; case: (M inp < N inp)%N => -[-> ->].
have Hd i j : (i < m)%N -> (j < m)%N ->
  dot (left_part (x (q i))) (left_part (x (q j))) = (i == j)%:R / 2%:R /\
  dot (right_part (x (q i))) (right_part (x (q j))) = (i == j)%:R / 2%:R.
  move=> Hi Hj; have [Hqi Li] := T1 _ (P1 i Hi); have [Hqj Lj] := T1 _ (P1 j Hj).
  rewrite -/p -/(q i) in Hqi Li; rewrite -/p -/(q j) in Hqj Lj.
  have [A1 A2] := hx i Hi; have [B1 B2] := hx j Hj.
  have Ri := cR (gtr0_real Li); have Rj := cR (gtr0_real Lj).
  set d1 := dot (left_part _) _; set d2 := dot (right_part _) _.
  have D1 : la (q i) * d1 = la (q j) * d2.
    by rewrite /d1 -(dotZl dL) -A1 Hadj B2 (dotZr dL dC) Rj.
  have D2 : la (q i) * d2 = la (q j) * d1.
    by rewrite /d2 -(dotZl dL) -A2 (adjointC HH Hadj) B1 (dotZr dL dC) Rj.
  have D3 : d1 = d2.
    apply/eqP; rewrite -subr_eq0; have : (la (q i) + la (q j)) * (d1 - d2) = 0.
      by rewrite mulrBr !mulrDl D1 D2; apply/eqP; rewrite subr_eq0 addrC.
    by move/eqP; rewrite mulf_eq0 gt_eqF ?addr_gt0.
  have D4 : d1 + d2 = (i == j)%:R.
    have -> : d1 + d2 = dotp (x (q i)) (x (q j)).
      by rewrite /dotp /d1 /d2 /left_part /right_part; case: (M inp < N inp)%N; rewrite // addrC.
    rewrite Ho //; congr (_%:R); congr nat_of_bool.
    apply/eqP/eqP => [/(T2 _ _ (P1 i Hi) (P1 j Hj))|-> //]; exact: P2.
  by rewrite -D4 -D3 -mulr2n -[d1 *+ 2]mulr_natr mulfK ?pnatr_eq0.
have Hu (h : W * W -> W) : (forall i j, (i < m)%N -> (j < m)%N -> dot (h (x (q i))) (h (x (q j))) = (i == j)%:R / 2%:R) ->
  orthonormal dot (fun i => s2 *: h (x (q i))) m.
  move=> Hh i j Hi Hj; rewrite (dotZZ HH) Hh // cR ?gtr0_real // -expr2 s22 mulrC divfK ?pnatr_eq0 //.
split.
- by apply: Hu => i j Hi Hj; have [-> _] := Hd i j Hi Hj.
- by apply: Hu => i j Hi Hj; have [_ ->] := Hd i j Hi Hj.
move=> i Hi; have [A1 A2] := hx i Hi.
by rewrite (linopZ _ _ Hlin) (linopZ _ _ Hlinh) A1 A2 !scalerA ![_ * sqrt 2%:R]mulrC.
Qed.
End Cyclic.
End Props.
Print Assumptions C50_cross.
Print Assumptions C51_cyclic.
