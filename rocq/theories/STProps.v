(** Property theorems C37-C40: spectral transformations. *)
From mathcomp Require Import all_ssreflect all_algebra all_field zify.
From mathcomp Require Import complex algebra_tactics.ring.
From Verif Require Import Prelude STModel STSpec STProofs STProofs2 STProofs3 STProofs7 STProofs9 STProofs10 STProofs11 STProofs12.
Set Implicit Arguments. Unset Strict Implicit. Unset Printing Implicit Defensive.
Import GRing.Theory Num.Theory Order.TTheory.
Local Open Scope ring_scope.

Section Eigen.
Variable K : fieldType.
Variable n : nat.
Notation mat := 'M[K]_n.
Notation vec := 'cV[K]_n.

(** ** C37: eigenpairs and back-transforms *)

(** An eigenpair of the operator gives, with the back-transformed value, an eigenpair of the problem, and the
    other way round. *)
Theorem C37_eigenpairs (t : sttype) (sg nu : K) (a : mat) b d th x :
  den t sg a b \in unitmx -> nonzero d -> separate t sg nu -> finite_value t th ->
  eig (operator t sg nu a b d) th x <-> geig a (second b) (back t sg nu th) (unbalance d x).
Proof. exact: eig_geig. Qed.

(** No finite eigenvalue is lost: each is the back-transform of its transformed value, which is an
    eigenvalue of the operator with the same vector. *)
Theorem C37_every_eigenpair (t : sttype) (sg nu : K) (a : mat) b d lam x :
  den t sg a b \in unitmx -> nonzero d -> separate t sg nu ->
  geig a (second b) lam (unbalance d x) ->
  [/\ eig (operator t sg nu a b d) (theta t sg nu lam) x, finite_value t (theta t sg nu lam) &
      back t sg nu (theta t sg nu lam) = lam].
Proof.
move=> U D S G; have L := geig_not_shift U G.
have F := finite_theta S L; have B := back_theta S L.
by split=> //; apply/eig_geig => //; rewrite B.
Qed.

(** The remaining values, 0 for shift-and-invert and 1 for Cayley, belong to the infinite eigenvalues. *)
Theorem C37_infinite (t : sttype) (sg nu : K) (a : mat) b d th x :
  den t sg a b \in unitmx -> nonzero d -> separate t sg nu -> ~~ finite_value t th ->
  eig (operator t sg nu a b d) th x <-> unbalance d x != 0 /\ second b *m unbalance d x = 0.
Proof.
move=> U D S F; rewrite eig_operator //; set y := unbalance d x.
case: t U S F => //= U S; rewrite negbK => /eqP ->; rewrite ?scale0r ?scale1r //.
rewrite mulmxDl mulmxBl -!scalemxAl; split=> -[y0 E]; split=> //; last by rewrite E !scaler0 addr0 subr0.
move/eqP: E; rewrite (inj_eq (addrI _)) -subr_eq0 opprK -scalerDl scaler_eq0 addr_eq0 (negbTE S) /=.
by move/eqP.
Qed.

Theorem C37_round_trip (t : sttype) (sg nu th : K) :
  finite_value t th -> separate t sg nu -> theta t sg nu (back t sg nu th) = th.
Proof. exact: theta_back. Qed.
End Eigen.

(** Real scalars: a conjugate pair is given by its real and imaginary part. *)
Section Real.
Variable R : rcfType.
Local Open Scope complex_scope.
Definition number (e : R * R) : R[i] := e.1 +i* e.2.
Theorem C37_real_pairs_shift (s : R) e : number (rback_shift s e) = back Shift s%:C 0 (number e).
Proof. exact: rback_shiftE. Qed.
Theorem C37_real_pairs_sinvert (s : R) e : e != (0, 0) ->
  number (rback_sinvert s e) = back Sinvert s%:C 0 (number e).
Proof. exact: rback_sinvertE. Qed.
(** Only real eigenvalues are covered for Cayley. *)
Theorem C37_real_values_cayley (s v : R) e : e.2 = 0 -> e.1 != 1 ->
  number (rback_cayley s v e) = back Cayley s%:C v%:C (number e).
Proof. exact: rback_cayleyE. Qed.
(** A conjugate pair is transformed wrongly: cayley.c:99-101 computes the denominator from the new values of
    r and i.  Here theta = 1 + i with sigma = nu = 1: the eigenvalue is 1 - 2i, not (1 - 2i)/4. *)
Theorem C37_real_pairs_cayley_refuted :
  number (rback_cayley 1 1 (1, 1)) = 4%:R^-1%:C * (1 -i* 2%:R) /\
  back Cayley 1%:C 1%:C (number (1, 1)) = 1 -i* 2%:R /\
  number (rback_cayley 1 1 (1, 1)) != back Cayley 1%:C 1%:C (number (1, 1)).
Proof.
have N : (1 == 0 :> R) = false by rewrite oner_eq0.
have E1 : number (rback_cayley 1 1 (1, 1)) = 4%:R^-1%:C * (1 -i* 2%:R).
  rewrite /number /rback_cayley /= N /=.
  have -> : 1 * (1 * 1 + 1 * 1 - 1) + 1 * (1 - 1) = 1 :> R by ring.
  have -> : -1 * 1 - 1 * 1 = - 2%:R :> R by ring.
  have -> : - 2%:R * - 2%:R + 1 * (1 - 2%:R) + 1 = 4%:R :> R by ring.
  by apply/eqP; rewrite eq_complex /= !mul0r subr0 addr0 mul1r mulr1 mulrC !eqxx.
have E2 : back Cayley 1%:C 1%:C (number (1, 1)) = 1 -i* 2%:R.
  rewrite /back /number /= cayley_true; last by rewrite xpair_eqE N andbF.
  have -> : 1 * 1 + 1 * (1 - 2%:R) + 1 = 1 :> R by ring.
  by rewrite !divr1; congr (_ +i* _); ring.
split=> //; split=> //; rewrite E1 E2; apply/eqP => /(congr1 (@complex.Re R)) /=.
rewrite mul0r subr0 mulr1 => /eqP; rewrite invr_eq1 -(subr_eq0 _ 1) -(natrB _ (isT : (1 <= 4)%N)) /=.
by rewrite pnatr_eq0.
Qed.
End Real.

(** The generalized problem diag(6,2) x = lambda diag(2,1) x with shift-and-invert at 1: theta = 1/2, lambda = 3. *)
Example ex_C37 : let a : 'M[rat]_2 := diag_mx (\row_i (if i == 0 then 6%:R else 2%:R)) in
  let b : 'M[rat]_2 := diag_mx (\row_i (if i == 0 then 2%:R else 1)) in
  [/\ den Sinvert 1 a (Some b) \in unitmx, @nonzero [fieldType of rat] 2 None, separate Sinvert (1 : rat) 0,
      finite_value Sinvert (2%:R^-1 : rat) & geig a b 3%:R (delta_mx 0 0)] /\
  back Sinvert 1 0 (2%:R^-1 : rat) = 3%:R.
Proof.
split=> //; split=> //.
- rewrite /den /second /= unitmxE -linearZ -linearB det_diag big_ord_recl big_ord1 !mxE /=.
  by rewrite unitfE; vm_compute.
- split; first by apply/eqP=> /matrixP /(_ 0 0); rewrite !mxE.
  rewrite -!colE; apply/matrixP => i j; rewrite !mxE.
  by case: i => [[|[|]]] // p; rewrite /= ?mulr0n ?mulr1n ?mulr0 //; vm_compute.
Qed.

(** ** C38: histories *)
Section Histories.
Variable n : nat.
Variable K : fieldType.
Variable conj : {rmorphism K -> K}.
Hypothesis conjK : involutive conj.
Hypothesis two : 2%:R != 0 :> K.
Notation mat := 'M[K]_n.
Notation vec := 'cV[K]_n.
Notation go t os := (answers (run conj (create K n t) os)).
Notation should t os := (answers (s_run conj (s_create K n t) os)).

(** Every history of covered calls gives the answers of the abstract object (in particular STApply, its
    transposes and the contents of the user's matrices), and never touches freed memory. *)
Theorem C38_histories (t : sttype) (os : seq (op K n)) : legal_run conj (s_create K n t) os ->
  go t os = should t os /\ (go t os = Err \/ exists l, go t os = Ok l).
Proof. exact: (run_ok two conjK (rel_create K n t)). Qed.

(** The matrices are handed back: after STPostSolve the user finds the values last given, in every mode. *)
Theorem C38_matrices_returned (t : sttype) (os : seq (op K n)) a b s l :
  let os' := os ++ [:: OPostSolve K n; OReadA K n] in
  legal_run conj (s_create K n t) os' ->
  s_run conj (s_create K n t) os = Ok (s, l) -> s_mats s = Some (a, b) ->
  go t os' = Ok (l ++ [:: Unit K n; Mat a]).
Proof.
move=> os' L E M; have [-> _] := C38_histories L; rewrite /os'.
have cat (s0 : sst K n) (p q : seq (op K n)) s1 l1 : s_run conj s0 p = Ok (s1, l1) ->
  answers (s_run conj s0 (p ++ q)) = do l <- answers (s_run conj s1 q); Ok (l1 ++ l).
  elim: p s0 l1 => [|o p IH] s0 l1 /=; first by case=> <- <-; case: (answers _).
  case: (s_step conj s0 o) => [[s2 x]|||] //=.
  case E2 : (s_run conj s2 p) => [[s3 l3]|||] //= [Es El]; subst s3 l1.
  move: (IH _ _ E2) => H; case: (s_run conj s2 (p ++ q)) H => [[? ?]|||] /=;
  by case: (s_run conj s1 q) => [[? ?]|||] //= [->].
rewrite (cat _ _ _ _ _ E) /=; case I : (inplace (s_mode s)) => /=.
  by rewrite M /shifted /= andbF.
by rewrite M /shifted I.
Qed.

(** *** What happens outside the covered calls *)
Notation U := (Unit K n).

(** The type is changed while A is shifted in place: A stays shifted although nothing is set up any more. *)
Theorem C38_change_while_shifted_refuted (a : mat) :
  let os := [:: OTransform K n true; OMode K n Inplace; OMatrices a None; OShift n (1 : K); OSetUp K n;
                OType K n Sinvert; OReadA K n] in
  go Shift os = Ok [:: U; U; U; U; U; U; Mat (a + (- 1)%:M)] /\
  should Shift os = Ok [:: U; U; U; U; U; U; Mat a].
Proof. by split; [exact: h1_run|exact: h1_spec]. Qed.

(** The shift is changed between STGetOperator and the set-up: the operator keeps the old shift. *)
Theorem C38_shift_after_getoperator_refuted (a : mat) x :
  let os := [:: OTransform K n true; OMatrices a None; OGetOperator K n; OShift n (1 : K); OApply x] in
  go Shift os = Ok [:: U; U; U; U; Vec (a *m x)] /\
  should Shift os = Ok [:: U; U; U; U; Vec ((a - 1%:M) *m x)].
Proof. by split; [exact: h2_run|exact: h2_spec]. Qed.

(** Cayley, antishift following the shift: the opposite shift is refused although it is admissible. *)
Theorem C38_opposite_cayley_shift_refuted (a : mat) :
  let os := [:: OTransform K n true; OMatrices a None; OShift n (1 : K); OSetUp K n; OShift n (- 1)] in
  go Cayley os = Err /\ should Cayley os = Ok [:: U; U; U; U; U].
Proof. by split; [exact: h3_run|exact: h3_spec]. Qed.

(** Cayley: an antishift that stops being zero has no effect on the products. *)
Theorem C38_antishift_from_zero_refuted x :
  let os := [:: OTransform K n true; OMatrices 2%:R%:M None; OShift n (1 : K); OAntishift n (0 : K);
                OSetUp K n; OAntishift n (1 : K); OApply x] in
  go Cayley os = Ok [:: U; U; U; U; U; U; Vec (2%:R *: x)] /\
  should Cayley os = Ok [:: U; U; U; U; U; U; Vec (3%:R *: x)].
Proof. by split; [exact: h4_run|exact: h4_spec]. Qed.

(** Cayley: an antishift that becomes zero leaves a pointer to a destroyed matrix, used by the next product. *)
Theorem C38_antishift_to_zero_refuted x :
  let os := [:: OTransform K n true; OMatrices 2%:R%:M None; OShift n (1 : K); OSetUp K n;
                OAntishift n (0 : K); OApply x] in
  go Cayley os = UB /\ should Cayley os = Ok [:: U; U; U; U; U; Vec (2%:R *: x)].
Proof. by split; [exact: h5_run|exact: h5_spec]. Qed.

(** STGetOperator as the first use after the type was changed: the user's matrix B is overwritten. *)
Theorem C38_getoperator_after_change_refuted (a b : mat) :
  let os := [:: OTransform K n true; OMatrices a (Some b); OShift n (1 : K); OSetUp K n; OType K n Sinvert;
                OGetOperator K n; OReadB K n] in
  go Shift os = Ok [:: U; U; U; U; U; U; Mat 0] /\ should Shift os = Ok [:: U; U; U; U; U; U; Mat b].
Proof. by split; [exact: h6_run|exact: h6_spec]. Qed.

(** STPostSolve without a set-up shifts A. *)
Theorem C38_postsolve_not_shifted_refuted (a : mat) :
  let os := [:: OMode K n Inplace; OMatrices a None; OShift n (1 : K); OPostSolve K n; OReadA K n] in
  go Shift os = Ok [:: U; U; U; U; Mat (a + 1%:M)] /\ should Shift os = Ok [:: U; U; U; U; Mat a].
Proof. by split; [exact: h7_run|exact: h7_spec]. Qed.

(** Cayley in place: the transposed product uses the conjugate of sigma+nu. *)
Theorem C38_transpose_cayley_inplace_refuted (s : K) x : s != 0 ->
  let os := [:: OTransform K n true; OMode K n Inplace; OMatrices (1 + s)%:M None; OShift n s; OSetUp K n;
                OApplyT x] in
  go Cayley os = Ok [:: U; U; U; U; U; Vec (x + conj (s + s) *: x)] /\
  should Cayley os = Ok [:: U; U; U; U; U; Vec (x + (s + s) *: x)].
Proof.
move=> s0; have E : (0 == s) = false by rewrite eq_sym (negbTE s0).
have E2 : (s == - s) = false.
  by rewrite -subr_eq0 opprK -mulr2n -mulr_natl mulf_eq0 (negbTE two) (negbTE s0).
by split; [exact: h8_run|exact: h8_spec].
Qed.
End Histories.

(** A covered history with two changes of the shift, in place; the answers. *)
Example ex_C38 (a : 'M[rat]_2) x : let Q := [fieldType of rat] in let idc := [rmorphism of @idfun Q] in
  let os := [:: OTransform Q 2 true; OMode Q 2 Inplace; OMatrices a None; OShift 2 (1 : Q); OSetUp Q 2;
                OApply x; OShift 2 (- 1 : Q); OApply x; OReadA Q 2; OPostSolve Q 2; OReadA Q 2] in
  legal_run idc (s_create Q 2 Shift) os.
Proof. exact: legal_ex. Qed.

(** ** C39: polynomials *)
Section Poly.
Variable K : fieldType.
Variable conj : {rmorphism K -> K}.
Variable n : nat.
Notation mat := 'M[K]_n.
Notation vec := 'cV[K]_n.

(** Set-up and any number of changes of the shift succeed, leave the user's matrices unchanged, and the matrices
    T[k] (assembled or shells, multiplied, transposed or conjugate-transposed) are the coefficients of the
    transformed polynomial, for any content of the fresh arrays of coefficients. *)
Theorem C39_polynomials (t : sttype) (md : matmode) (Av : seq mat) s junk l :
  t <> Cayley -> md <> Inplace -> (2 < size Av)%N ->
  let len := ((size Av * (size Av + 1)) %/ 2)%N in
  size junk = len -> all (fun j => size j.2 == len) l ->
  let s' := last s (map fst l) in
  exists h T As Tm, [/\ poly_run t md Av s junk l = Ok (s', h, T, As),
    forall i, (i < size Av)%N -> hdense h (nth None As i) = Ok (nth 0 Av i),
    size Tm = size Av,
    forall k, (k < size Av)%N -> exists f, pderef conj As h (nth None T k) = Ok f /\
      forall x, [/\ l_mult f x = nth 0 Tm k *m x, l_multT f x = (nth 0 Tm k)^T *m x &
                 l_multH f x = (map_mx conj (nth 0 Tm k))^T *m x] &
    transformed t s' Av Tm].
Proof.
move=> Ht Hmd Hn len Hj Hl s'; rewrite /poly_run.
have O0 : own (Heap (fun _ => None) 0 : heap K n) [::] by [].
have C0 : clean (Heap (fun _ => None) 0 : heap K n) by [].
have [h0 [As [-> [O1 C1] SA D1 _]]] := poly_new_ok Av O0 C0; cbn [bind].
have A0 : forall i, (i < size Av)%N -> nth None As i \in As ++ As ++ [::].
  by move=> i Hi; rewrite mem_cat mem_nth // SA.
have [h1 [T1 [-> B1]]] := poly_setup_ok SA A0 Hn Hmd Ht s O1 C1 D1 Hj; cbn [bind].
have [h2 [T2 [-> [I2 P2]]]] := poly_shifts_ok SA A0 Hn Hmd Ht B1 Hl; cbn [bind].
exists h2, T2, As, (mkseq (fun k => target Av (firstt Av t k) s') (size Av)).
have U2 : user_ok As Av h2 by case: I2.
split=> //; first by rewrite size_mkseq.
- move=> k Hk; have Hf : (firstt Av t k < size Av)%N.
    by rewrite /firstt; case: (t) => //; rewrite /first_shift /first_sinvert; lia.
  have [f [Ef [F1 F2 F3]]] := slot_value conj SA Hn Hmd U2 (P2 k Hk) Hf.
  by exists f; split=> // x; rewrite nth_mkseq //.
- rewrite /transformed /peval size_mkseq.
  have E z : \sum_(i < size Av) z ^+ i *: nth 0 (mkseq (fun k => target Av (firstt Av t k) s') (size Av)) i =
     \sum_(0 <= i < size Av) z ^+ i *: target Av (firstt Av t i) s'.
    by rewrite big_mkord; apply: eq_bigr => i _; rewrite nth_mkseq.
  case: (t) Ht E => // _ E z; first by rewrite E -[RHS]/(peval Av _) -shifted_poly.
  move=> z0; rewrite E -[X in _ *: X]/(peval Av _) -subn1 -reversed_poly //; lia.
Qed.

(** Eigenpairs of the transformed polynomial and of the user's polynomial. *)
Theorem C39_eigenpairs (t : sttype) s (Av Tm : seq mat) th (x : vec) :
  t <> Cayley -> transformed t s Av Tm -> finite_value t th ->
  peval Tm th *m x = 0 <-> peval Av (back t s 0 th) *m x = 0.
Proof.
case: t => // _ /=; rewrite /back_shift /back_sinvert => H F; first by rewrite H.
rewrite div1r H // -scalemxAl; split=> [/eqP|->]; last by rewrite scaler0.
by rewrite scaler_eq0 expf_eq0 (negbTE F) andbF /= => /eqP.
Qed.
End Poly.

(** A quadratic problem, shift-and-invert with shells, one change of the shift. *)
Example ex_C39 : let Av : seq 'M[rat]_2 := [:: 1%:M; 0; 2%:R%:M] in
  (2 < size Av)%N /\ size (nseq 6 (7%:R : rat)) = ((size Av * (size Av + 1)) %/ 2)%N /\
  all (fun j => size j.2 == ((size Av * (size Av + 1)) %/ 2)%N) [:: (1 : rat, nseq 6 (0 : rat))].
Proof. by []. Qed.

(** ** C40: the diagonal of the shell matrix *)
Section Diag.
Variable K : fieldType.
Variable conj : {rmorphism K -> K}.
Variable n : nat.
Notation mat := 'M[K]_n.

(** Shells with one matrix, or with alpha=0, report the diagonal of the matrix they multiply by. *)
Theorem C40_shell_diagonal (al : K) (a : mat) (Ms : seq mat) : al = 0 \/ Ms = [::] ->
  exists m, (forall x, l_mult (shell_lin conj None al (a :: Ms)) x = m *m x) /\
            shell_diag None al (a :: Ms) = \col_i m i i.
Proof.
case=> ->.
  by exists a; split=> [x|]; rewrite /= ?/shell_product /shell_diag eqxx.
exists (a + al%:M); split=> [x|] /=; rewrite ?/shell_product /shell_diag.
  by rewrite /=; case: eqP => [->|_] /=; rewrite ?raddf0 ?addr0 // mulmxDl mul_scalar_mx.
case: eqP => [->|_] /=; apply/matrixP => i j; rewrite !mxE ?mul0rn ?addr0 // eqxx mulr1n //.
Qed.
(** With two matrices A + alpha B the diagonal of alpha A + B is returned (VecAYPX in stshellmat.c:136). *)
Theorem C40_shell_diagonal_refuted (al : K) (a b : mat) : al != 0 ->
  (forall x, l_mult (shell_lin conj None al [:: a; b]) x = (a + al *: b) *m x) /\
  shell_diag None al [:: a; b] = \col_i (al *: a + b) i i.
Proof.
move=> al0; split=> [x|].
  by rewrite /= /shell_product /= al0 mul1r mulmxDl scalemxAl.
by rewrite /shell_diag /= al0 mul1r; apply/matrixP => i j; rewrite !mxE.
Qed.
End Diag.
Example ex_C40 : let a : 'M[rat]_1 := 1%:M in
  shell_diag None 2%:R [:: a; 0] 0 0 = 2%:R /\ (a + 2%:R *: 0) 0 0 = 1.
Proof. by split; rewrite ?/shell_diag /= ?mxE /= ?mxE //= !mxE /= ?mulr1 ?addr0. Qed.

Print Assumptions C37_eigenpairs.
Print Assumptions C37_every_eigenpair.
Print Assumptions C37_infinite.
Print Assumptions C37_round_trip.
Print Assumptions C37_real_pairs_shift.
Print Assumptions C37_real_pairs_sinvert.
Print Assumptions C37_real_values_cayley.
Print Assumptions C37_real_pairs_cayley_refuted.
Print Assumptions C38_histories.
Print Assumptions C38_matrices_returned.
Print Assumptions C38_change_while_shifted_refuted.
Print Assumptions C38_shift_after_getoperator_refuted.
Print Assumptions C38_opposite_cayley_shift_refuted.
Print Assumptions C38_antishift_from_zero_refuted.
Print Assumptions C38_antishift_to_zero_refuted.
Print Assumptions C38_getoperator_after_change_refuted.
Print Assumptions C38_postsolve_not_shifted_refuted.
Print Assumptions C38_transpose_cayley_inplace_refuted.
Print Assumptions C39_polynomials.
Print Assumptions C39_eigenpairs.
Print Assumptions C40_shell_diagonal.
Print Assumptions C40_shell_diagonal_refuted.
