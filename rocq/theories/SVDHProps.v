(** Property theorem C53: hyperbolic singular values with the cross product matrix. *)
From mathcomp Require Import all_ssreflect all_algebra.
From mathcomp Require Import algC ring.
From Verif Require Import Prelude GSModel GSSpec GSProofs GSProps SVDModel SVDSpec SVDProofs SVDProps SVDCases.
Set Implicit Arguments. Unset Strict Implicit. Unset Printing Implicit Defensive.
Import GRing.Theory Num.Theory Order.TTheory.
Local Open Scope ring_scope.

Definition signum (F : numFieldType) (a : F) : F := if a < 0 then -1 else 1.

(** Gram-Schmidt with an indefinite inner product on an orthogonal family without isotropic vectors *)
Section Indefinite.
Variables (F : numFieldType) (W : lmodType F) (dot : W -> W -> F) (conj : {rmorphism F -> F}) (sqrt : F -> F).
Hypothesis HH : hermitian conj dot.
Hypothesis Hsqrt : square_root sqrt.
Variable g : config F.
Hypothesis Heta : 0 < eta g <= 1.
Hypothesis Htol : 0 < deftol g.
Hypothesis Hindef : indef g.
Hypothesis Hnc : nc g = 0%N.
Let dL : forall a x y z, dot (a *: x + y) z = a * dot x z + dot y z. Proof. by case: HH. Qed.
Let dC : forall x y, dot x y = conj (dot y x). Proof. by case: HH. Qed.
Let dR : forall x, dot x x \is Num.real. Proof. by case: HH. Qed.
Let cR : forall a, a \is Num.real -> conj a = a. Proof. by case: HH. Qed.

Lemma signum_real (a : F) : signum a \is Num.real.
Proof. by rewrite /signum; case: ifP => _; rewrite ?rpredN rpred1. Qed.
Lemma signum_sqr (a : F) : signum a * signum a = 1.
Proof. by rewrite /signum; case: ifP => _; rewrite ?mulrNN mulr1. Qed.
Lemma signum_norm (a : F) : a \is Num.real -> signum a * `|a| = a.
Proof.
rewrite /signum realE; case: ifP => [/ltr0_norm -> _|H /orP [/ger0_norm ->|Ha]]; rewrite ?mulN1r ?opprK ?mul1r //.
by move: H; rewrite lt_neqAle Ha andbT => /negbFE /eqP ->; rewrite normr0.
Qed.

Lemma orthogonalize_indefinite n (c : nat -> W) (s : mem W) : (n <= ncols g)%N ->
  (forall i, (i < n)%N -> col s i = c i) ->
  (forall i j, (i < n)%N -> (j < n)%N -> i != j -> dot (c i) (c j) = 0) ->
  (forall i, (i < n)%N -> dot (c i) (c i) != 0) ->
  exists s', orthogonalize dot conj sqrt g 0 n s None = Ok (s', None) /\
    forall i, (i < n)%N -> omega s' i = signum (dot (c i) (c i)) /\
      col s' i = (signum (dot (c i) (c i)) / sqrt `|dot (c i) (c i)|) *: c i.
Proof.
move=> Hn Hc Ho Hz; rewrite /orthogonalize /check Hnc eqxx subn0.
pose t i := signum (dot (c i) (c i)) / sqrt `|dot (c i) (c i)|.
have sq0 i : (i < n)%N -> 0 < sqrt `|dot (c i) (c i)| by move=> Hi; rewrite (sqrt_gt0 Hsqrt) // normr_gt0 Hz.
have tt i : (i < n)%N -> t i * conj (t i) * dot (c i) (c i) = signum (dot (c i) (c i)).
  move=> Hi; rewrite cR; last by rewrite rpredM ?signum_real // rpredV ger0_real // ltW // sq0.
  rewrite -{1}(signum_norm (dR (c i))) -{1}(sqr_sqrt Hsqrt (normr_ge0 (dot (c i) (c i)))) /t.
  set q := sqrt _; have q0 : q != 0 by rewrite gt_eqF // sq0.
  set e := signum _; have e1 : e * e = 1 by exact: signum_sqr.
  have -> : e / q * (e / q) * (e * q ^+ 2) = (e * e) * e by field.
  by rewrite e1 mul1r.
suff G m j (s1 : mem W) : (j + m = n)%N ->
    (forall i, (j <= i < n)%N -> col s1 i = c i) ->
    (forall i, (i < j)%N -> omega s1 i = signum (dot (c i) (c i)) /\ col s1 i = t i *: c i) ->
  exists s', orthogonalize_gs dot conj sqrt g m j s1 None = Ok (s', None) /\
    forall i, (i < n)%N -> omega s' i = signum (dot (c i) (c i)) /\ col s' i = t i *: c i.
  by have [|s' H] := G n 0%N s (add0n n) Hc; [|exists s'].
elim: m j s1 => [|m IH] j s1 Hj H1 H2 /=.
  by exists s1; split=> // i Hi; apply: H2; rewrite -(addn0 j) Hj.
have jn : (j < n)%N by rewrite -Hj addnS ltnS leq_addr.
have Hlt i : (i < j)%N -> (i < n)%N by move=> Hi; exact: ltn_trans jn.
have So : sig_orthogonal dot (col s1) (omega s1) (nc g + j).
  rewrite Hnc add0n; split=> [i k Hi Hk|i Hi].
    have [-> ->] := H2 i Hi; have [_ ->] := H2 k Hk; rewrite (dotZZ HH).
    case: eqP => [<-|/eqP Hik]; first by rewrite tt ?Hlt.
    by rewrite Ho ?mulr0 ?Hlt.
  by have [-> _] := H2 i Hi; rewrite /signum; case: ifP; [right|left].
have [o] := C23_indefinite_column HH Hsqrt Heta Htol 0 None true false Hindef (leq_trans jn Hn) So.
rewrite Hnc add0n => -[-> [W1 W2 W3] _ [[a Ea Ha] _] [O1 O2]] /=.
have cj : col s1 j = c j by apply: H1; rewrite leqnn.
have Ew : col (after o) j = c j.
  have := W2; rewrite cj (comb_zero (W := W)); first by rewrite addr0.
  move=> i Hi; have [_ ->] := H2 i Hi; rewrite (dotZr dL dC) Ho ?mulr0 ?gtn_eqF //; exact: Hlt.
rewrite Ew in Ha O1; rewrite Ea /=.
have aE : a = signum (dot (c j) (c j)) * sqrt `|dot (c j) (c j)|.
  move: Ha; rewrite /signum; case: ifP => [Hd [A1 A2]|Hd [A1 A2]].
    rewrite mulN1r ltr0_norm // -A2 -sqrrN (sqrt_sqr Hsqrt) ?opprK // oppr_ge0 ltW //.
  have Hd0 : 0 <= dot (c j) (c j) by rewrite -A2 exprn_ge0.
  by rewrite mul1r ger0_norm // -A2 (sqrt_sqr Hsqrt).
have sz : signum (dot (c j) (c j)) != 0 by rewrite /signum; case: ifP => _; rewrite ?oppr_eq0 oner_neq0.
have qz : sqrt `|dot (c j) (c j)| != 0 by rewrite gt_eqF // sq0.
have -> : (a != 0) by rewrite aE mulf_neq0.
have ta : 1 / a = t j.
  rewrite aE /t invfM mul1r; congr (_ * _); apply: (mulfI sz); rewrite divff // signum_sqr //.
have [|||s' [E H]] := IH j.+1 (scale_column g j (1 / a) (after o)).
- by rewrite addSn -addnS.
- move=> i /andP [Hi Hin]; rewrite /= Hnc add0n /upd gtn_eqF // W3 ?gtn_eqF //.
  by apply: H1; rewrite (ltnW Hi).
- move=> i; rewrite ltnS leq_eqVlt => /orP [/eqP ->|Hi].
    by rewrite /= Hnc add0n /upd eqxx Ew ta O1.
  by rewrite /= Hnc add0n /upd ltn_eqF // W3 ?O2 ?ltn_eqF //; exact: H2.
by exists s'.
Qed.
End Indefinite.

(** * C53: hyperbolic problems with at least as many rows as columns *)
Section Hyperbolic.
Variables (F : numFieldType) (W : lmodType F) (dot : W -> W -> F) (conj : {rmorphism F -> F}) (sqrt re : F -> F).
Hypothesis HH : hermitian conj dot.
Hypothesis Hpd : positive_definite dot.
Hypothesis Hsqrt : square_root sqrt.
Hypothesis Hre : real_part re.
Variables (cplx : bool) (tiny : F).
Variable inp : input W.
Hypothesis Hlin : linop (mult (op inp)).
Hypothesis Hlinh : linop (multh (op inp)).
Hypothesis Hadj : adjoint dot (mult (op inp)) (multh (op inp)).
(** The signature is a diagonal matrix with entries 1 and -1. *)
Hypothesis Hsl : linop (signature inp).
Hypothesis Hss : self_adjoint dot (signature inp).
Hypothesis Hsi : forall x, signature inp (signature inp x) = x.
Variable sort_perm : nat -> (nat -> F) -> nat -> nat.
Hypothesis Hsort : sorting sort_perm.
(** The BV of the left vectors, with the inner product of the signature. *)
Variables (g gom : config F) (u0 : mem W).
Hypothesis Heta : 0 < eta gom <= 1.
Hypothesis Htol : 0 < deftol gom.
Hypothesis Hindef : indef gom.
Hypothesis Hnc : nc gom = 0%N.
Variables (nrma nrmb : F).
Hypothesis Hhyp : ptype inp = Hyperbolic.
Hypothesis Hsupp : explicitmatrix inp -> expltrans inp || ~~ cplx.
Hypothesis HN : N inp != 0%N.
Hypothesis Htall : (N inp <= M inp)%N.

(** The inner product given by the signature, and A^* Omega A *)
Definition dots (x y : W) : F := dot (signature inp x) y.
Definition hgram (x : W) : W := multh (op inp) (signature inp (mult (op inp) x)).
Variable eps : (W -> W) -> option (W -> W) -> nat * (nat -> F) * (nat -> W).
Hypothesis Heps : forall c, linop c -> self_adjoint dot c ->
  let '(n, lambda, x) := eps c None in ritz_pairs dot c n lambda x /\ (n <= ncols gom)%N.

Let dL : forall a x y z, dot (a *: x + y) z = a * dot x z + dot y z. Proof. by case: HH. Qed.
Let dC : forall x y, dot x y = conj (dot y x). Proof. by case: HH. Qed.
Let cR : forall a, a \is Num.real -> conj a = a. Proof. by case: HH. Qed.

Lemma dots_hermitian : hermitian conj dots.
Proof.
case: (HH) => H1 H2 H3 H4; split=> // [a x y z|x y|x].
- by rewrite /dots Hsl H1.
- by rewrite /dots Hss H2.
- have -> : dots x x = (dot (signature inp x + x) (signature inp x + x) - dot x x *+ 2) / 2%:R.
    rewrite (dotDl dL) !(dotDr dL dC) Hss Hsi /dots -(Hss x x).
    set a := dot x x; set b := dot (signature inp x) x; by field.
  by apply: realM; rewrite ?realV ?realn // realB ?H3 // mulr2n realD ?H3.
Qed.
Lemma is_hyp : [/\ isgeneralized inp = false, ishyperbolic inp = true, swapped inp = false & (M inp < N inp)%N = false].
Proof.
have H : (M inp < N inp)%N = false by rewrite ltnNge Htall.
by rewrite /swapped /isgeneralized /ishyperbolic Hhyp H.
Qed.
Lemma product_hyp : exists2 c, product_mat cplx inp (mA inp) (mAT inp) = Ok c & forall x, c x = hgram x.
Proof.
have [E1 E2 E3 E4] := is_hyp; rewrite /product_mat /mult_cross /mA /mAT E1 E2 E3 Htall /=.
case: (explicitmatrix inp) Hsupp => /= Hs; last by eexists; first by [].
by case: (expltrans inp) Hs => /= [_|/(_ isT) /negbTE ->]; eexists; first by [].
Qed.
Lemma hgram_lin : linop hgram. Proof. by move=> c x y; rewrite /hgram Hlin Hsl Hlinh. Qed.
Lemma hgram_dot x y : dot (hgram x) y = dots (mult (op inp) x) (mult (op inp) y).
Proof. by rewrite /hgram (adjointC HH Hadj). Qed.
Lemma hgram_adj : self_adjoint dot hgram.
Proof. by move=> x y; rewrite hgram_dot /dots Hss Hadj. Qed.

Lemma hyper_values n i (la sg : nat -> F) : (forall k, (i <= k < i + n)%N -> la k \is Num.real) ->
  exists2 sg', cross_values sqrt re tiny inp n i la sg = Ok sg' &
  forall k, sg' k = if (i <= k < i + n)%N then sqrt `|la k| else sg k.
Proof.
have [_ E _ _] := is_hyp; elim: n i sg => [|n IH] i sg H /=.
  by exists sg => // k; rewrite addn0 ltnNge andbN.
rewrite E Hre; last by apply: H; rewrite leqnn addnS ltnS leq_addr.
have [|sg' -> H'] := IH i.+1 (upd sg i (sqrt `|la i|)).
  by move=> k /andP [H1 H2]; apply: H; rewrite (ltnW H1) addnS -addSn.
exists sg' => // k; rewrite H' /upd addSn addnS; case: (ltngtP i k) => //= <-.
by rewrite ltnS leq_addr.
Qed.

Lemma flipE n sg (u : nat -> W) k : flip re n sg u k = if (k < n)%N && (re (sg k) < 0) then - u k else u k.
Proof.
elim: n k => [|n IH] k //=; rewrite ltnS leq_eqVlt; case: ifP => H; rewrite /upd !IH.
  case: eqP => [->|/eqP E] //=.
  by rewrite H ltnn scaleN1r.
by case: eqP => [->|_] //=; rewrite H ltnn.
Qed.

(** SVDSolve of a hyperbolic problem with the solver cross: the values are the square roots of the absolute
    values of the eigenvalues of A^* Omega A in the order requested.  If none is zero the left vectors are
    orthonormal up to sign for the signature, the right vectors orthonormal, A v = s u is exact and the errors
    computed are those of the eigensolver. *)
Theorem C53_hyperbolic : exists r n la x p,
  [/\ solve_cross sqrt re cplx tiny inp eps sort_perm = Ok r,
      ritz_pairs dot hgram n la x /\ (nconv r = n /\ exists2 c, forall y, c y = hgram y & eps c None = (n, la, x)),
      renumbering n p /\ (forall k, (k < n)%N -> la k \is Num.real),
      (forall i, (i < n)%N -> get_value r i = Ok (sqrt `|la (p i)|)) /\
      (forall i j, (i <= j < n)%N -> if which inp is Largest then sqrt `|la (p j)| <= sqrt `|la (p i)|
                                     else sqrt `|la (p i)| <= sqrt `|la (p j)|) &
      (forall k, (k < n)%N -> la k != 0) ->
      let vec := vectors_cross dot conj sqrt re inp g gom u0 r in
      exists u v, [/\ (forall i j, (i < n)%N -> (j < n)%N ->
                         dots (u i) (u j) = if i == j then (if la (p i) < 0 then -1 else 1) else 0),
       orthonormal dot v n &
       forall i, (i < n)%N -> let s := sqrt `|la (p i)| in let sg := if la (p i) < 0 then -1 else 1 in
       [/\ get_triplet inp r vec i = Ok (s, u i, v i), mult (op inp) (v i) = s *: u i,
           s *: (multh (op inp) (signature inp (u i)) - (s * sg) *: v i) = hgram (x (p i)) - la (p i) *: x (p i) &
           forall a b, is_norm dot (hgram (x (p i)) - la (p i) *: x (p i)) a -> is_norm dot (u i) b ->
           let err t := compute_error dot sqrt inp nrma nrmb r vec i t in
           [/\ err Absolute = Ok (a / s), err Relative = Ok (a / (`|la (p i)| * sqrt (1 + b ^+ 2))) &
               err Norm = Ok (a / s / (pmax nrma nrmb * sqrt (1 + b ^+ 2)))]]]].
Proof.
have [E1 E2 E3 E4] := is_hyp; have [c Ec Hc] := product_hyp.
have HM : M inp != 0%N by rewrite -lt0n (leq_trans _ Htall) // lt0n.
have mAE : mA inp = op inp by rewrite /mA Htall orbT.
have mATE : mAT inp = htranspose (op inp) by rewrite /mAT Htall orbT.
have := Heps (c := c).
rewrite /solve_cross /check /sizes_ok E1 /= (negbTE HM) (negbTE HN) /= /cross_operators Ec /= E1 E2 E3 /=.
case Ee: (eps c None) => [[n la] x] [||[Ho Hla] Hn].
- by move=> a y z; rewrite !Hc hgram_lin.
- by move=> y z; rewrite !Hc hgram_adj.
have R : ritz_pairs dot hgram n la x by split=> // i j Hi Hj; rewrite -Hc Hla.
have La k : (k < n)%N -> la k = dots (mult (op inp) (x k)) (mult (op inp) (x k)).
  by move=> Hk; have := Hla k k Hk Hk; rewrite eqxx Hc hgram_dot.
have Lr k : (k < n)%N -> la k \is Num.real by move=> Hk; rewrite La //; case: dots_hermitian.
have [|sg -> Hsg] := @hyper_values n 0 la (fun _ => 0).
  by move=> k; rewrite add0n; exact: Lr.
have Sg k : (k < n)%N -> sg k = sqrt `|la k| by move=> Hk; rewrite Hsg add0n Hk.
pose p := sorted_perm inp sort_perm n sg.
have [|[P1 P2] P3] := sorted_perm_ok inp Hsort (n := n) (f := sg).
  by move=> i Hi; rewrite Sg // ger0_real // (sqrt_ge0 Hsqrt).
exists (Solved n sg p la x), n, la, x, p; split; [by []|by split=> //; split=> //; exists c|by split; [split|]| |].
  split=> [i Hi|i j Hij]; first by rewrite /get_value /check /= Hi /= -/p Sg ?P1.
  have Hi : (i < n)%N by case/andP: Hij; exact: leq_ltn_trans.
  have Hj : (j < n)%N by case/andP: Hij.
  by have := P3 i j Hij; rewrite -/p !Sg ?P1.
move=> Lz; set r := Solved _ _ _ _ _; set vec := vectors_cross _ _ _ _ _ _ _ _ r.
pose start := with_col u0 (fun i => if (i < n)%N then mult (op inp) (x i) else col u0 i).
have Cs i : (i < n)%N -> col start i = mult (op inp) (x i) by move=> Hi; rewrite /start /= Hi.
have [||s' [Es Hs]] := @orthogonalize_indefinite _ _ dots conj sqrt dots_hermitian Hsqrt gom Heta Htol Hindef Hnc n
    (fun i => mult (op inp) (x i)) start Hn Cs.
- by move=> i j Hi Hj Hij; rewrite -hgram_dot; case: R => _ -> //; rewrite (negbTE Hij).
- by move=> i Hi; rewrite -La // Lz.
pose S k := sqrt `|la k|; pose b k := (S k)^-1 *: mult (op inp) (x k).
have S0 k : (k < n)%N -> 0 < S k by move=> Hk; rewrite (sqrt_gt0 Hsqrt) // normr_gt0 Lz.
have S2 k : (k < n)%N -> `|la k| = S k ^+ 2 by move=> Hk; rewrite (sqr_sqrt Hsqrt).
have Ev : vec = Ok (Vectors (flip re n (omega s') (col s')) x (fun i => if (i < n)%N then re (omega s' i) else 1)).
  by rewrite /vec /vectors_cross /vectors_left E2 E3 /= mAE -/start -/dots Es.
have Om k : (k < n)%N -> re (omega s' k) = signum (la k).
  by move=> Hk; have [-> _] := Hs k Hk; rewrite -La // Hre // signum_real.
have Hb k : (k < n)%N -> flip re n (omega s') (col s') k = b k.
  move=> Hk; rewrite flipE Hk Om //; have [_ ->] := Hs k Hk; rewrite -La // /b -/(S k) /signum.
  case: (la k < 0); rewrite /= ?ltr10 ?ltrN10 ?mulN1r ?mul1r ?scaleNr ?opprK //.
have Bb i j : (i < n)%N -> (j < n)%N -> dots (b i) (b j) = if i == j then signum (la i) else 0.
  move=> Hi Hj; rewrite /b (dotZZ dots_hermitian) -hgram_dot; case: R => _ -> //.
  case: eqP => [<-|_]; last by rewrite mulr0.
  rewrite cR ?rpredV ?ger0_real ?ltW ?S0 // -{1}(signum_norm (Lr i Hi)) S2 //.
  have z : S i != 0 by rewrite gt_eqF ?S0.
  by move: (signum _) => e; field.
have Av k : (k < n)%N -> mult (op inp) (x k) = S k *: b k.
  by move=> Hk; rewrite /b scalerA divff ?scale1r // gt_eqF ?S0.
have Rs k : (k < n)%N -> S k *: (multh (op inp) (signature inp (b k)) - (S k * signum (la k)) *: x k) =
    hgram (x k) - la k *: x k.
  move=> Hk; rewrite scalerBr -(linopZ _ _ Hlinh) -(linopZ _ _ Hsl) -Av // -/(hgram _) scalerA mulrA -expr2 -S2 //.
  by rewrite mulrC signum_norm ?Lr.
exists (fun i => b (p i)), (fun i => x (p i)); split.
- move=> i j Hi Hj; rewrite Bb ?P1 // -/(signum _); have -> : (p i == p j) = (i == j); last by [].
  by apply/eqP/eqP => [|-> //]; exact: P2.
- move=> i j Hi Hj; rewrite Ho ?P1 //; congr (_%:R); congr nat_of_bool.
  by apply/eqP/eqP => [|-> //]; exact: P2.
move=> i Hi; rewrite -/(signum _); have Hp := P1 _ Hi; rewrite -/p in Hp.
set s := sqrt _; set sn := signum _.
have T : get_triplet inp r vec i = Ok (s, b (p i), x (p i)).
  by rewrite /get_triplet /check /r /= Hi /= -/p Ev /= Sg // Hb // E4.
split; [by []|exact: Av|exact: Rs|].
move=> a nb Na Nb; pose err t := compute_error dot sqrt inp nrma nrmb r vec i t.
have s0 : 0 < s by rewrite /s S0.
have Ne : norm2 dot sqrt (multh (op inp) (signature inp (b (p i))) - (s * sn) *: x (p i)) = a / s.
  apply: (mulfI (x := s)); rewrite ?gt_eqF // -(norm2Z HH Hpd Hsqrt) ?ltW // Rs // (norm2_eq Hsqrt Na).
  by rewrite mulrC divfK // gt_eqF.
have Nr : residual_norms dot sqrt inp s sn (b (p i)) (x (p i)) = (0, a / s).
  by rewrite /residual_norms E2 E4 mATE /= Ne Av // subrr (norm20 HH Hsqrt).
have a0 : 0 <= a / s by apply: divr_ge0; [case: Na|exact: ltW].
have Er t : err t =
  Ok (match t with Absolute => a / s | Relative => a / s / (s * sqrt (1 + nb ^+ 2))
      | Norm => a / s / (pmax nrma nrmb * sqrt (1 + nb ^+ 2)) end).
  move: Nr; rewrite /err /compute_error T; move: (residual_norms dot sqrt inp) => rn Nr.
  rewrite Ev /= -/p Hp Om // Nr E2 (norm2_eq Hsqrt Nb).
  by rewrite /slepc_abs expr0n add0r (sqrt_sqr Hsqrt).
by split; rewrite -/(err _) Er // S2 // -/s expr2 -mulrA -invfM mulrA.
Qed.
End Hyperbolic.
Print Assumptions C53_hyperbolic.

(** * Concrete cases *)
(** Omega = diag(1,-1) *)
Definition sig0 (x : plane) : plane := pt x.1 (- x.2).
Lemma sig0_lin : linop sig0. Proof. by move=> c [x1 x2] [y1 y2]; congr (_, _); rewrite /= opprD scalerN. Qed.
Lemma sig0_adj : self_adjoint dot2 sig0.
Proof. by move=> x y; rewrite /dot2 /= rmorphN mulrN mulNr. Qed.
Lemma sig0_inv x : sig0 (sig0 x) = x. Proof. by case: x => x1 x2; congr (_, _); exact: opprK. Qed.
Definition inh : input plane := Input A0 I0 2 2 2 sig0 false true Hyperbolic Largest true.
Lemma eps0_okh c : linop c -> self_adjoint dot2 c ->
  let '(n, la, x) := eps0 c None in ritz_pairs dot2 c n la x /\ (n <= ncols (cfg true true Always))%N.
Proof.
move=> _ Hc; rewrite /eps0; case: ifP => [/eqP E|_]; (split; last by []); split.
- by case=> [|[|?]] // [|[|?]] // _ _; rewrite /= ?e00 ?e01 ?e10 ?e11.
- have E' : dot2 (c e1) e0 = 0 by rewrite Hc; have [_ -> _ _] := dot2_hermitian; rewrite E rmorph0.
  by case=> [|[|?]] // [|[|?]] //.
- by case=> // [] [] // _ _; rewrite /= e00.
- by case=> // [] [] //.
Qed.
Definition hg (i : nat) : C := if i == 0%N then -1 else 4%:R.
Lemma hgram_values : [/\ dot2 (hgram inh e0) e1 = 0, dot2 (hgram inh e0) e0 = hg 0 & dot2 (hgram inh e1) e1 = hg 1].
Proof.
by split; rewrite /dot2 /hgram /= ?conjC0 ?conjC1 ?mulr0 ?mulr1 ?oppr0 ?mulr0 ?mul0r ?addr0 ?add0r // -natrM.
Qed.

(** The matrix [0 2; 1 0] with Omega = diag(1,-1): values 2, of sign 1, and 1, of sign -1. *)
Example ex_C53 : exists r u v, let vec := vectors_cross dot2 conj2 sqrt2 id_re inh (cfg false true Always) (cfg true true Always) s0 r in
  [/\ solve_cross sqrt2 id_re true 1 inh eps0 sort_C = Ok r,
      get_triplet inh r vec 0 = Ok (2%:R, u 0%N, v 0%N), get_triplet inh r vec 1 = Ok (1, u 1%N, v 1%N),
      dot2 (sig0 (u 0%N)) (u 0%N) = 1 /\ dot2 (sig0 (u 1%N)) (u 1%N) = -1 &
      mult A0 (v 0%N) = 2%:R *: u 0%N :> plane /\ mult A0 (v 1%N) = 1 *: u 1%N :> plane].
Proof.
have [Z V0 V1] := hgram_values.
have [r [n [la [x [p [Er [_ [Hn [c Hc Ee]]] [[Hp Hi] _] [Hv Hs] H]]]]]] :=
  @C53_hyperbolic _ _ dot2 conj2 sqrt2 id_re dot2_hermitian dot2_positive sqrt2_root id_re_ok true 1 inh
    A0_lin A0_linh A0_adj sig0_lin sig0_adj sig0_inv sort_C sort_C_ok (cfg false true Always) (cfg true true Always) s0
    (cfg_eta _ _ _) (cfg_tol _ _ _) isT erefl 0 0 erefl (fun _ => isT) isT isT eps0 eps0_okh.
move: Ee; rewrite /eps0 !Hc Z eqxx => -[En El Ex]; clear Hn; subst n.
have L i : (i < 2)%N -> la i = hg i.
  by rewrite -El; case: i => [|[|?]] // _; rewrite Hc ?V0 ?V1.
have L0 : la 0%N = -1 by rewrite L. have L1 : la 1%N = 4%:R by rewrite L.
have q1 : sqrt2 `|-1| = 1 :> C by rewrite normrN1 /sqrt2 sqrtC1.
have q4 : sqrt2 `|4%:R| = 2%:R :> C by rewrite normr_nat sqrt_4.
have [P0 P1] : p 0%N = 1%N /\ p 1%N = 0%N.
  have := Hs 0%N 1%N isT; have := Hp 0%N isT; have := Hp 1%N isT; have := @Hi 0%N 1%N isT isT.
  case: (p 0%N) => [|[|?]] //; case: (p 1%N) => [|[|?]] // I1 _ _; try (by move: (I1 erefl)).
    by rewrite /= L0 L1 q1 q4 (ler_nat _ 2 1).
have [|u [v [O _ T]]] := H.
  by case=> [|[|?]] // _; rewrite ?L0 ?L1 ?oppr_eq0 ?oner_eq0 ?pnatr_eq0.
have [T0 A00 _ _] := T 0%N isT; have [T1 A01 _ _] := T 1%N isT.
have D0 := O 0%N 0%N isT isT; have D1 := O 1%N 1%N isT isT.
rewrite P0 L1 q4 in T0 A00 D0; rewrite P1 L0 q1 in T1 A01 D1.
have n4 : (4%:R < 0 :> C) = false by rewrite ltrn0.
have n1 : (-1 < 0 :> C) by rewrite ltrN10.
by rewrite /= n4 in D0; rewrite /= n1 in D1; exists r, u, v; split.
Qed.

(** A = [1 0] with one row, Omega = -1: more columns than rows. *)
Definition A1 : mat plane := Mat (fun x : plane => pt x.1 0) (fun x : plane => pt x.1 0).
Definition sig1 (x : plane) : plane := pt (- x.1) x.2.
Definition inw : input plane := Input A1 I0 1 2 0 sig1 false true Hyperbolic Largest true.
(** The exact eigenpair of A A^* x = la Omega x *)
Definition epsw (c : plane -> plane) (d : option (plane -> plane)) : nat * (nat -> C) * (nat -> plane) :=
  (1%N, fun _ => -1, fun _ => e0).
Lemma epsw_exact : mult A1 (multh A1 e0) = -1 *: sig1 e0.
Proof. by congr (_, _); rewrite /= ?scaleN1r ?opprK ?oppr0. Qed.

(** For more columns than rows and a negative sign, and an exact eigenpair, the triplet returned satisfies
    A v = - s u instead of A v = s u, and A^* Omega u = s v instead of A^* Omega u = - s v;
    SVDComputeError reports 2 sqrt(2). *)
Theorem C53_wide_refuted : exists r u v,
  let vec := vectors_cross dot2 conj2 sqrt2 id_re inw (cfg false true Always) (cfg true true Always) s0 r in
  [/\ solve_cross sqrt2 id_re true 1 inw epsw sort_C = Ok r, get_triplet inw r vec 0 = Ok (1, u, v),
      mult (op inw) v = - u /\ mult (mA inw) (sig1 u) = v, u != 0 &
      compute_error dot2 sqrt2 inw 0 0 r vec 0 Absolute = Ok (sqrt2 8%:R)].
Proof.
pose sg : nat -> C := upd (fun _ => 0) 0%N (sqrt2 `|id_re (-1)|).
pose r := Solved 1 sg (sorted_perm inw sort_C 1 sg) (fun _ => -1) (fun _ => e0 : plane).
have q1 : sqrt2 1 = 1 :> C by exact: (sqrt1 sqrt2_root).
have sg1 : sg 0%N = 1 by rewrite /sg /upd /= normrN1 q1.
exists r, (- e0 : plane), (e0 : plane).
have al : dot2 e0 (sig1 e0) = -1 by rewrite /dot2 /= rmorphN1 conjC0 mulr0 addr0 mul1r.
pose vec := vectors_cross dot2 conj2 sqrt2 id_re inw (cfg false true Always) (cfg true true Always) s0 r.
have ps : psign (id_re (dot2 e0 (sig1 e0))) = -1 :> C.
  by rewrite al /psign /id_re oppr_ge0 ler10.
have w0 : (1 / sqrt2 `|dot2 e0 (sig1 e0)|) *: sig1 e0 = - e0 :> plane.
  by rewrite al normrN1 q1 divr1 scale1r; congr (_, _); rewrite /= oppr0.
have m0 : mult (mA inw) (sig1 (- e0)) = e0 by congr (_, _); rewrite /= opprK.
pose start := with_col s0 (fun i => if (i < 1)%N then mult (mA inw) (signature inw (- e0)) else col s0 i).
have c0 : col start 0%N = e0 by rewrite /start /= opprK.
have Hnn : (1 <= ncols (cfg false true Always))%N by [].
have [||s' [Es Hs]] := orthogonalize_orthogonal dot2_hermitian dot2_positive sqrt2_root (cfg_eta false true Always)
   (cfg_tol false true Always) erefl erefl (s := start) Hnn.
- by case=> // [] [].
- by case=> // _; rewrite c0 xpair_eqE oner_eq0.
have Hs0 : col s' 0%N = e0.
  by rewrite Hs // c0 /norm2 e00 q1 invr1 scale1r.
have Ev : exists2 z, vec = Ok z & [/\ colU z 0%N = e0, colV z 0%N = - e0 & sign z 0%N = -1].
  rewrite /vec /vectors_cross /vectors_left /=.
  have -> : with_col s0 (fun i => if (i < 1)%N then mult (mA inw) (sig1 ((1 / sqrt2 `|dot2 e0 (sig1 e0)|) *: sig1 e0)) else col s0 i) = start.
    by rewrite w0.
  by rewrite Es /=; eexists; first by []; split=> //=; rewrite ?w0 ?ps.
case: Ev => z Ez [zu zv zs].
have T : get_triplet inw r vec 0 = Ok (1, - e0, e0) by rewrite /get_triplet Ez /= sg1 zu zv.
split=> //.
- by split; congr (_, _); rewrite /= opprK.
- by rewrite oppr_eq0 xpair_eqE oner_eq0.
- rewrite /compute_error -/vec T Ez /= zs.
  have n2 (x : plane) : x = 2%:R *: e0 -> norm2 dot2 sqrt2 x = 2%:R.
    by move=> ->; rewrite /norm2 (dotZZ dot2_hermitian) e00 conjC_nat mulr1 -natrM sqrt_4.
  rewrite !n2 ?/slepc_abs -?natrX -?natrD //.
    by congr (_, _); rewrite /= mul1r scaleN1r ?opprK ?oppr0 ?addr0 /GRing.scale /= ?mulr1 ?mulr0.
  by congr (_, _); rewrite /= scale1r ?opprK ?oppr0 ?addr0 /GRing.scale /= ?mulr1 ?mulr0.
Qed.
Print Assumptions C53_wide_refuted.
