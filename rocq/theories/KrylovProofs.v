(** Lemmas on the model of BVMatArnoldi and BVMatLanczos. *)
From mathcomp Require Import all_ssreflect all_algebra.
From mathcomp Require Import zify.
From Verif Require Import Prelude GSModel GSSpec GSProofs GSProps KrylovModel.
Set Implicit Arguments. Unset Strict Implicit. Unset Printing Implicit Defensive.
Import GRing.Theory Num.Theory Order.TTheory.
Local Open Scope ring_scope.

(** * Entries of the buffer that an orthogonalization does not write *)
Section Buffer.
Variables (F : numFieldType) (V : lmodType F) (dot : V -> V -> F) (conj : F -> F) (sqrt : F -> F).
Variable g : config F.
Notation mem := (GSModel.mem V).
Implicit Types (s : mem) (j i q n : nat).

Definition other j q i : bool := (q != 0)%N && ((q != j) || (nc g + j <= i)%N).
Definition keeps j s s' : Prop := forall q i, other j q i -> buf s' q i = buf s q i.
Lemma keeps_refl j s : keeps j s s. Proof. by []. Qed.
Arguments keeps_refl : clear implicits.
Lemma keeps_trans j s1 s2 s3 : keeps j s1 s2 -> keeps j s2 s3 -> keeps j s1 s3.
Proof. by move=> H1 H2 q i H; rewrite H2 // H1. Qed.

Lemma keeps_c_set j i x s : keeps j s (c_set (Column j) i x s).
Proof. by move=> q k /andP [Hq _] /=; rewrite /upd2 (negbTE Hq). Qed.
Arguments keeps_c_set : clear implicits.
Lemma keeps_h_set j i x s : (i < nc g + j)%N -> keeps j s (h_set (Column j) i x s).
Proof.
move=> Hi q k /andP [_ Hq] /=; rewrite /upd2; case: eqP Hq => [->|//] /=; rewrite /upd => Hk.
by rewrite gtn_eqF // (leq_trans Hi).
Qed.
Arguments keeps_h_set : clear implicits.
Lemma keeps_work j w s : keeps j s (set_work g s (Column j) w).
Proof. by []. Qed.
Arguments keeps_work : clear implicits.
Lemma keeps_loop j n (f : nat -> mem -> mem) s :
  (forall i s, (i < n)%N -> keeps j s (f i s)) -> keeps j s (loop n f s).
Proof.
move=> H; elim: n H => [|n IH] H; first exact: keeps_refl.
rewrite loopS; apply: (keeps_trans _ (H n _ (ltnSn n))); apply: IH => i s' Hi.
by apply: H; rewrite ltnS ltnW.
Qed.

Definition keeps_res j s (r : res (mem * option F * option F)) : Prop :=
  forall s' a b, r = Ok (s', a, b) -> keeps j s s'.
Lemma keeps_add j s : keeps j s (add_coefficients g (Column j) s).
Proof. by apply: keeps_loop => i s' Hi; exact: keeps_h_set. Qed.
Arguments keeps_add : clear implicits.
Lemma keeps_clean j s : keeps j s (clean_coefficients g (Column j) s).
Proof. by apply: keeps_loop => i s' Hi; exact: keeps_h_set. Qed.
Arguments keeps_clean : clear implicits.
Lemma keeps_signature j b s : keeps j s (apply_signature g (Column j) b s).
Proof. by apply: keeps_loop => i s' Hi; exact: keeps_c_set. Qed.
Arguments keeps_signature : clear implicits.
Lemma keeps_dots j n s : keeps j s (dots dot g (Column j) n s).
Proof. by apply: keeps_loop => i s' Hi; exact: keeps_c_set. Qed.
Arguments keeps_dots : clear implicits.

Lemma bind_ok A B (r : res A) (f : A -> res B) b : bind r f = Ok b -> exists2 a, r = Ok a & f a = Ok b.
Proof. by case: r => //= a H; exists a. Qed.

Lemma keeps_mgs1 j which wo wn s a b : keeps_res j s (mgs1 dot sqrt g (Column j) which wo wn s a b).
Proof.
move=> s1 a1 b1; rewrite /mgs1 => H; case: (bind_ok H) => o _ {}H; case: (bind_ok H) => o1 _ {H} H; case: H => <- _ _.
apply: (keeps_trans _ (keeps_add j _)); apply: keeps_loop => i s2 Hi.
case: ifP => // _; exact: keeps_c_set.
Qed.
Lemma keeps_cgs1 j wo wn s a b : keeps_res j s (cgs1 dot conj sqrt g (Column j) wo wn s a b).
Proof.
move=> s' a' b' H; case: (bind_ok H) => [[s1 be] H1 {}H].
have K1 : keeps j s s1.
  move: H1; case: (wo || wn) => [H1|[<- _]]; last exact: keeps_dots.
  by case: (bind_ok H1) => x _ [<- _]; exact: keeps_dots.
case: (bind_ok H) => x _ [<- _ _].
apply: (keeps_trans _ (keeps_add j _)).
have K2 : keeps j s1 (if indef g then apply_signature g (Column j) true s1 else s1).
  by case: ifP => // _; exact: keeps_signature.
apply: (keeps_trans K1); apply: (keeps_trans K2).
by case: (indef g) => //; exact: keeps_signature.
Qed.
Lemma keeps_gs1 j which wo wn s a b : keeps_res j s (gs1 dot conj sqrt g (Column j) which wo wn s a b).
Proof. rewrite /gs1; case: ifP => _; [exact: keeps_mgs1|exact: keeps_cgs1]. Qed.
Lemma keeps_refine n j which s a b : keeps_res j s (refine_loop dot conj sqrt g n (Column j) which s a b).
Proof.
elim: n s a b => [|n IH] s a b s' a' b' H; case: (bind_ok H) => x _ {}H; case: (bind_ok H) => y _ {H};
  case: ifP => _; try by case=> <-.
move=> H; case: (bind_ok H) => [[[s1 a1] b1] H1 H2].
exact: keeps_trans (keeps_gs1 H1) (IH _ _ _ _ _ _ H2).
Qed.

(** Everything but the column of the buffer that belongs to the vector and the scratch column; without
    the norm also the entries of that column after the coefficients. *)
Lemma gs_keeps j which wn wl s s' a b :
  gs dot conj sqrt g (Column j) which wn wl s = Ok (s', a, b) ->
  forall q i, (q != 0)%N -> (q != j) || (nc g + j < i + ~~ wn)%N -> buf s' q i = buf s q i.
Proof.
move=> H; case: (bind_ok H) => [[[s1 n1] l1] H1 {}H].
have K1 : keeps j s s1.
  apply: (keeps_trans (keeps_clean j s)); move: H1; case: (ref g) => H1; case: (bind_ok H1) => [[[s2 o2] n2] H2 {}H1].
  - case: (bind_ok H1) => [[[s3 o3] n3] H3 {}H1]; case: (bind_ok H1) => x _ [<- _ _].
    exact: keeps_trans (keeps_gs1 H2) (keeps_refine H3).
  - case: (bind_ok H1) => x _ {}H1; case: (bind_ok H1) => y _ [<- _ _].
    exact: keeps_gs1 H2.
  - case: (bind_ok H1) => [[[s3 o3] n3] H3 {}H1]; case: (bind_ok H1) => x _ [<- _ _].
    exact: keeps_trans (keeps_gs1 H2) (keeps_gs1 H3).
case: (bind_ok H) => s2 H2 {}H.
have K2 : keeps j s s2.
  move: H2; case: (indef g && true) => [H2|[<-] //].
  by case: (bind_ok H2) => x _ [<-].
move: H; case: wn {H1} => [H|[<- _ _] q i Hq Hi]; last first.
  by apply: K2; rewrite /other Hq /=; case: (q == j) Hi => //=; rewrite addn1 ltnS.
case: (bind_ok H) => x _ [<- _ _] q i Hq; rewrite addn0 => Hi.
have -> : buf s q i = buf s2 q i.
  by apply/esym/K2; rewrite /other Hq /=; case: (q == j) Hi => //= /ltnW.
by case: ifP => _ /=; rewrite /upd2; case: eqP Hi => //= -> Hi; rewrite /upd gtn_eqF.
Qed.
End Buffer.

(** * The Arnoldi loop *)
Section Arnoldi.
Variables (F : numFieldType) (V : lmodType F) (dot : V -> V -> F) (conj : {rmorphism F -> F}) (sqrt : F -> F).
Hypothesis HH : hermitian conj dot.
Hypothesis Hsqrt : square_root sqrt.
Hypothesis Hpd : positive_definite dot.
Variables (op : V -> V) (N : nat).
(** No orthonormal family has more than N elements. *)
Hypothesis Hdim : forall u n, orthonormal dot u n -> (n <= N)%N.
Variable g : config F.
Hypothesis Heta : 0 < eta g <= 1.
Hypothesis Htol : 0 < deftol g.
Hypothesis Hdef : indef g = false.
Notation mem := (GSModel.mem V).
Implicit Types (s : mem) (j k n m i q : nat).

(** Column j of the decomposition: what one step establishes between the objects before and after. *)
Record arnoldi_step (j : nat) (s s' : mem) (a : F) (b : bool) : Prop := ArnoldiStep {
  as_col : forall i, i != (nc g + j.+1)%N -> col s' i = col s i;
  as_rel : op (col s (nc g + j)) = comb (col s) (nc g + j.+1) (buf s' j.+1) + a *: col s' (nc g + j.+1);
  as_buf : forall q i, (q != 0)%N -> q != j.+1 -> buf s' q i = buf s q i;
  as_top : if j.+1 == N then buf s' j.+1 (nc g + j.+1) = buf s j.+1 (nc g + j.+1)
           else buf s' j.+1 (nc g + j.+1) = a;
  as_flag : if b then a = 0 /\ col s' (nc g + j.+1) = 0
            else 0 < a /\ orthonormal dot (col s') (nc g + j.+1).+1 }.

Definition step_of j s : res (mem * F * bool) :=
  do s <- mat_mult_column op g j s;
  if j.+1 == N then orthogonalize_safe dot conj sqrt g j.+1 s
  else orthonormalize_column dot conj sqrt g j.+1 false 0 0 s.

Let dL : forall a x y z, dot (a *: x + y) z = a * dot x z + dot y z. Proof. by case: HH. Qed.
Let dC : forall x y, dot x y = conj (dot y x). Proof. by case: HH. Qed.
Let dR : forall x, dot x x \is Num.real. Proof. by case: HH. Qed.

Lemma step_ok j s : (j.+1 < ncols g)%N -> orthonormal dot (col s) (nc g + j.+1) ->
  exists s' a b, [/\ step_of j s = Ok (s', a, b), arnoldi_step j s s' a b & b = (a == 0)].
Proof.
move=> Hj Ho; rewrite /step_of /mat_mult_column /check Hj; cbn [bind].
set s1 := with_col s _.
have E1 i : i != (nc g + j.+1)%N -> col s1 i = col s i by move=> Hi; rewrite /= /upd (negbTE Hi).
have En : col s1 (nc g + j.+1) = op (col s (nc g + j)) by rewrite /= /upd eqxx.
have Ho1 : orthonormal dot (col s1) (nc g + j.+1).
  by move=> i q Hi Hq; rewrite E1 ?(ltn_eqF Hi) // E1 ?(ltn_eqF Hq) // Ho.
have Ec c : comb (col s1) (nc g + j.+1) c = comb (col s) (nc g + j.+1) c.
  by apply: comb_ext => i Hi; rewrite E1 ?(ltn_eqF Hi).
have Ecb c c' : (forall i, (i < nc g + j.+1)%N -> c i = c' i) ->
    comb (col s) (nc g + j.+1) c = comb (col s) (nc g + j.+1) c'.
  move=> H; rewrite /comb big_nat_cond [RHS]big_nat_cond; apply: eq_bigr => i /andP [/andP [_ Hi] _].
  by rewrite H.
case: eqVneq => [EN|HN].
- have Hdef' : indef (no_refinement g) = false by [].
  have [s' [w [c [E [Ew Fr] [O1 O2] Hh Hl]]]] :=
    gs_definite HH Hsqrt (g := no_refinement g) Heta Htol Hpd Hdef' (t := Column j.+1) false false Ho1.
  have K := gs_keeps E.
  have W0 : w = 0.
    apply/eqP/negP => /negP Hw.
    pose u := upd (col s1) (nc g + j.+1) ((nval sqrt (dot w w))^-1 *: w).
    have Hu : orthonormal dot u (nc g + j.+1).+1.
      apply: (orthonormal_append HH Hpd (w := w) Ho1) => //.
      + by move=> i Hi; rewrite /u /upd ltn_eqF.
      + by rewrite /u /upd eqxx.
      + exact: (nval_norm HH Hsqrt Hpd).
    by have := Hdim Hu; rewrite -EN; lia.
  exists s', 0, true; rewrite /orthogonalize_safe /orthogonalize_column /check Hj E /=; split=> //; last by rewrite eqxx.
  split.
  + by move=> i Hi; rewrite (proj1 Fr) // E1.
  + rewrite -En [col s1 _]O2 W0 add0r [comb _ _ _]Ec scale0r addr0; apply: Ecb => i Hi.
    by rewrite -[buf _ _ _]/(h_get s' (Column j.+1) i) Hh.
  + by move=> q i Hq Hqj; rewrite K // Hqj.
  + have -> : (j.+1 == N) by apply/eqP.
    by rewrite K //= eqxx /= addn1 ltnS.
  + by split=> //; rewrite -[col _ _]/(work (no_refinement g) s' (Column j.+1)) Ew W0.
- have [s' [w [c [E [Ew Fr] [O1 O2] Hh Hl]]]] :=
    gs_definite HH Hsqrt Heta Htol Hpd Hdef (t := Column j.+1) true true Ho1.
  have [s'' [E' _ _ _ Hh']] := gs_ok dL dC dR Hsqrt (Hpos HH Hpd (g := g)) Htol Heta (t := Column j.+1) None true true
    (ortho_of Hdef Ho1).
  have K := gs_keeps E.
  have [_ [_ [Hn _]]] := Hh' isT; move: Hn => /(_ isT) Hn.
  have Es : s'' = s' by move: E'; rewrite E => [] [].
  have Ea : nval sqrt (dot w w) = nval sqrt (dot (resid dot g (seln g None) s1 (Column j.+1))
      (resid dot g (seln g None) s1 (Column j.+1))) by move: E'; rewrite E => [] [].
  rewrite Es -Ea in Hn; set a := nval sqrt (dot w w) in E Ea Hn.
  have Ha : is_norm dot w a by exact: (nval_norm HH Hsqrt Hpd).
  have Ha0 : (a == 0) = (w == 0) by rewrite (nval_eq0 Hsqrt (dR w)) (dot_eq0 HH Hpd).
  set s2 := if (a != 1) && (a != 0) then scale_column g j.+1 (1 / a) s' else s'.
  have Es2 : orthonormalize_column dot conj sqrt g j.+1 false 0 0 s1 = Ok (s2, a, w == 0).
    by rewrite /orthonormalize_column /check Hj E /= -/a -/s2; case: (w == 0).
  exists s2, a, (w == 0); split=> //.
  have Eb q i : buf s2 q i = buf s' q i by rewrite /s2; case: ifP.
  have Ec2 i : i != (nc g + j.+1)%N -> col s2 i = col s i.
    move=> Hi; rewrite -E1 // -(proj1 Fr i Hi) /s2; case: ifP => //= _.
    by rewrite /upd (negbTE Hi).
  have Ewn : col s' (nc g + j.+1) = w by [].
  have Ew2 : a != 0 -> col s2 (nc g + j.+1) = a^-1 *: w.
    move=> Hz; rewrite /s2 Hz andbT; case: eqVneq => [Ha1|_] /=; last by rewrite /upd eqxx Ewn div1r.
    by rewrite Ewn Ha1 invr1 scale1r.
  have Ew3 : a = 0 -> col s2 (nc g + j.+1) = 0.
    move=> Hz; rewrite /s2 Hz eqxx andbF Ewn; apply/eqP; by rewrite -Ha0 Hz eqxx.
  split=> //.
  + rewrite -En [col s1 _]O2 [comb _ _ _]Ec addrC; congr (_ + _).
      by apply: Ecb => i Hi; rewrite Eb -[buf _ _ _]/(h_get s' (Column j.+1) i) Hh.
    case: (eqVneq a 0) => [Hz|Hz]; last by rewrite Ew2 // scalerA divff // scale1r.
    by rewrite Hz scale0r; apply/eqP; rewrite -Ha0 Hz eqxx.
  + by move=> q i Hq Hqj; rewrite Eb K // Hqj.
  + by rewrite (negbTE HN) Eb.
  + case: (eqVneq w 0) => Hw.
      have Hz : a = 0 by apply/eqP; rewrite Ha0 Hw.
      by split=> //; exact: Ew3.
    have Hz : a != 0 by rewrite Ha0.
    split; first by rewrite lt_neqAle eq_sym Hz; case: Ha.
    apply: (orthonormal_append HH Hpd (w := w) Ho1 _ (Ew2 Hz) O1 Hw Ha) => i Hi.
    by rewrite Ec2 ?(ltn_eqF Hi) // E1 ?(ltn_eqF Hi).
Qed.

(** Steps [j] .. [m]-1, from [s] to [s']; [v i] is column i (constraints come before). *)
Record arnoldi_run (j m : nat) (s s' : mem) (beta : F) (b : bool) : Prop := ArnoldiRun {
  ar_le : (j <= m)%N;
  ar_col : forall i, (i <= nc g + j)%N || (nc g + m < i)%N -> col s' i = col s i;
  ar_buf : forall q i, (q != 0)%N -> (q <= j)%N || (m < q)%N -> buf s' q i = buf s q i;
  ar_rel : forall p, (j <= p < m)%N -> op (col s' (nc g + p)) =
    comb (col s') (nc g + p.+1) (buf s' p.+1) +
    (if p.+1 == m then beta else buf s' p.+1 (nc g + p.+1)) *: col s' (nc g + p.+1);
  ar_pos : forall p, (j <= p)%N -> (p.+1 < m)%N -> 0 < buf s' p.+1 (nc g + p.+1);
  ar_top : (j < m)%N -> buf s' m (nc g + m) = if m == N then buf s m (nc g + m) else beta;
  ar_orth : orthonormal dot (col s') (nc g + m + ~~ b);
  ar_flag : if b then [/\ (j < m)%N, beta = 0 & col s' (nc g + m) = 0]
            else (j < m)%N -> 0 < beta }.

Lemma run_ok n : forall j s beta, (j + n < ncols g)%N -> orthonormal dot (col s) (nc g + j.+1) ->
  exists s' m beta' b, [/\ krylov_loop dot conj sqrt op N g n j s beta = Ok (s', m, beta', b),
    arnoldi_run j m s s' beta' b, (if b then (m <= j + n)%N else m == (j + n)%N) & n = 0%N -> beta' = beta].
Proof.
elim: n => [|n IH] j s beta Hn Ho.
  exists s, j, beta, false; split=> //; last by rewrite addn0.
  split=> //; try by move=> *; lia.
  by rewrite addn1 -addnS.
have Hj : (j.+1 < ncols g)%N by lia.
have [s1 [a [b [E St Eb]]]] := step_ok Hj Ho.
rewrite [krylov_loop _ _ _ _ _ _ _ _ _ _]/=.
have {E} E : forall T (f : mem * F * bool -> res T), (do s <- mat_mult_column op g j s;
    do x <- (if j.+1 == N then orthogonalize_safe dot conj sqrt g j.+1 s
             else orthonormalize_column dot conj sqrt g j.+1 false 0 0 s); f x) = f (s1, a, b).
  by move=> T f; move: E; rewrite /step_of; case: (mat_mult_column _ _ _ _) => //= x ->.
rewrite E; case: b St Eb {E} => [] [S1 S2 S3 S4 S5] Eb.
- exists s1, j.+1, a, true; split=> //; last by lia.
  case: S5 => Ha Hz; split=> //; try lia.
  + by move=> i Hi; apply: S1; lia.
  + by move=> q i Hq Hqj; apply: S3 => //; lia.
  + move=> p Hp; have -> : p = j by lia.
    rewrite eqxx (S1 (nc g + j)%N); last by lia.
    rewrite S2; congr (_ + _); apply: comb_ext => i Hi; apply/esym/S1; lia.
  + move=> _; move: S4; by case: eqP.
  + by rewrite addn0 => i q Hi Hq; rewrite !S1 ?Ho //; lia.
- case: S5 => Ha Ho1.
  have HN : (j.+1 == N) = false.
    apply/eqP => EN; have := Hdim Ho1; lia.
  rewrite HN in S4.
  have Ho1' : orthonormal dot (col s1) (nc g + j.+2) by rewrite addnS.
  have Hn' : (j.+1 + n < ncols g)%N by lia.
  have [s' [m [beta' [b [E [R1 R2 R3 R4 R5 R6 R7 R8] Hm H0]]]]] := IH _ _ a Hn' Ho1'.
  have {H0} H0 : j.+1 = m -> beta' = a.
    move=> Em; apply: H0; move: Hm R8; case: (b) => [_ [Hlt _ _]|/eqP Hm _]; lia.
  exists s', m, beta', b; split=> //.
  + split=> //.
    * lia.
    * by move=> i Hi; rewrite R2 ?S1 //; lia.
    * by move=> q i Hq Hqj; rewrite R3 ?S3 //; lia.
    * move=> p Hp; case: (ltnP j p) => Hpj; first by apply: R4; lia.
      have -> : p = j by lia.
      rewrite R2 ?S1; try lia.
      rewrite S2; congr (_ + _).
        have Eq : comb (col s') (nc g + j.+1) (buf s' j.+1) = comb (col s) (nc g + j.+1) (buf s' j.+1).
          by apply: comb_ext => i Hi; rewrite R2 ?S1 //; lia.
        rewrite Eq /comb; apply: eq_bigr => i _; rewrite R3 //; lia.
      rewrite R2; last by lia.
      case: eqP => Em; first by rewrite H0.
      by rewrite R3 ?S4 //; lia.
    * move=> p Hp Hpm; case: (ltnP j p) => Hpj; first by apply: R5; lia.
      have -> : p = j by lia.
      by rewrite R3 ?S4 //; lia.
    * move=> Hjm; case: (ltnP j.+1 m) => Hm2; first by rewrite R6 // S3 //; lia.
      have Em : m = j.+1 by lia.
      by rewrite Em HN R3 ?S4 ?H0 //; lia.
    * case: (b) R8 => [[H1 H2 H3]|H1 Hjm]; first by split=> //; lia.
      case: (ltnP j.+1 m) => Hm2; first by apply: H1.
      by rewrite H0 //; lia.
  + move: Hm; case: (b) => Hm; lia.
Qed.
End Arnoldi.

(** * Copying the buffer to H and T *)
Section Store.
Variables (F : numFieldType) (V : lmodType F).
Variable re : F -> F.
Variable cplx : bool.
Variable g : config F.
Notation mem := (GSModel.mem V).
Implicit Types (s : mem) (H : dense F) (T : tridiag F).

Lemma copy_column_ok n j src H : (n <= lda H)%N -> (j < cols H)%N ->
  exists e, copy_column n j src H = Ok (Dense (rows H) (cols H) (lda H) e) /\
    forall p q, e p q = if (q == j) && (p < n)%N then src p else entry H p q.
Proof.
move=> Hn Hj; elim: n Hn => [|n IH] Hn /=.
  exists (entry H); split; first by case: (H).
  by move=> p q; rewrite ltn0 andbF.
have [e [-> He]] := IH (ltnW Hn); rewrite /= /hset /= Hn Hj /=.
eexists; split; first by [].
move=> p q; rewrite /upd2 /upd ltnS leq_eqVlt.
case: (p =P n) => [->|Hp] /=; last by rewrite He.
by case: (q =P j) => //= Hq; rewrite He (negbTE (introN eqP Hq)).
Qed.

Lemma store_columns_ok n j s H : (j + n <= cols H)%N -> (j + n < lda H)%N || (n == 0%N) ->
  exists e, store_columns g n j s H = Ok (Dense (rows H) (cols H) (lda H) e) /\
    forall p q, e p q = if (j <= q < j + n)%N && (p <= q.+1)%N then buf s q.+1 (nc g + p) else entry H p q.
Proof.
elim: n j H => [|n IH] j H Hc Hl.
  exists (entry H); split; first by case: (H).
  by move=> p q; case: ifP => //; lia.
have -> : store_columns g n.+1 j s H =
  bind (copy_column j.+2 j (fun i => buf s j.+1 (nc g + i)) H) (store_columns g n j.+1 s) by [].
have [||e [E He]] := @copy_column_ok j.+2 j (fun i => buf s j.+1 (nc g + i)) H; try lia.
rewrite E /= {E}.
have [||e' [E He']] := IH j.+1 (Dense (rows H) (cols H) (lda H) e); rewrite /=; try lia.
exists e'; split=> // p q; rewrite He' /= He.
case: (q =P j) => [->|Hq] /=.
  have -> : (j < j)%N = false by lia.
  have -> : (j <= j < j + n.+1)%N by lia.
  by rewrite /= ltnS.
by case: ifP; case: ifP => //; lia.
Qed.

Lemma store_h_ok k m s H : (k < m)%N -> (m <= cols H)%N -> (m <= lda H)%N ->
  exists e, store_h g k m s H = Ok (Dense (rows H) (cols H) (lda H) e) /\
    forall p q, e p q = if [&& (k <= q < m)%N, (p <= q.+1)%N & (p < m)%N || (m < lda H)%N]
                        then buf s q.+1 (nc g + p) else entry H p q.
Proof.
move=> Hk Hc Hl; rewrite /store_h.
have [||e [E He]] := @store_columns_ok (m.-1 - k) k s H; try lia.
rewrite E /= {E}.
have [||e' [E He']] := @copy_column_ok m m.-1 (fun i => buf s m (nc g + i)) (Dense (rows H) (cols H) (lda H) e);
  rewrite /=; try lia.
rewrite E /= {E}; case: (ltnP m (lda H)) => Hm; last first.
  exists e'; split=> // p q; rewrite He' /= He.
  case: (q =P m.-1) => [->|Hq] /=.
    have -> : m.-1.+1 = m by lia.
    by do ?(case: ifP => // ?); lia.
  by do ?(case: ifP => // ?); lia.
rewrite /hset /= Hm; have -> : (m.-1 < cols H)%N by lia.
eexists; split; first by [].
move=> p q; rewrite /upd2 /upd.
case: (p =P m) => [->|Hp].
  case: (q =P m.-1) => [->|Hq].
    have -> : m.-1.+1 = m by lia.
    by do ?(case: ifP => // ?); lia.
  rewrite He' /= He (negbTE (introN eqP Hq)) /=.
  by do ?(case: ifP => // ?); lia.
rewrite He' /= He; case: (q =P m.-1) => [->|Hq] /=.
  have -> : m.-1.+1 = m by lia.
  by do ?(case: ifP => // ?); lia.
by do ?(case: ifP => // ?); lia.
Qed.

Lemma store_t_ok n j s T : (j + n <= tlda T)%N -> ((if cplx then 1 else 2) <= tcols T)%N ->
  exists a b, store_t re cplx g n j s T = Ok (Tri (trows T) (tcols T) (tlda T) a b) /\
    forall q, a q = (if (j <= q < j + n)%N then re (buf s q.+1 (nc g + q)) else alpha T q) /\
              b q = (if (j <= q < j + n)%N then re (buf s q.+1 (nc g + q.+1)) else betat T q).
Proof.
elim: n j T => [|n IH] j T Hl Hc.
  exists (alpha T), (betat T); split; first by case: (T).
  by move=> q; split; do ?(case: ifP => // ?); lia.
rewrite [store_t _ _ _ _ _ _ _]/= /tset.
have -> : (j < tlda T)%N by lia.
rewrite Hc /=.
set T' := Tri _ _ _ _ _.
have [||a [b [E Hab]]] := IH j.+1 T'; rewrite /=; try lia.
exists a, b; split=> // q; have [-> ->] := Hab q; rewrite /= /upd.
case: (q =P j) => [->|Hq]; split; do ?(case: ifP => // ?); lia.
Qed.
End Store.
