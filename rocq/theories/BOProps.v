(** Block orthogonalization: the properties. *)
From mathcomp Require Import all_ssreflect all_algebra.
From mathcomp Require Import zify ring.
From Verif Require Import Prelude BOModel BOSpec BOProofs.
Set Implicit Arguments. Unset Strict Implicit. Unset Printing Implicit Defensive.
Import GRing.Theory Num.Theory Order.TTheory.
Local Open Scope ring_scope.

Section Props.
Variables (F : numFieldType) (conj : {rmorphism F -> F}) (V : lmodType F) (dot : V -> V -> F).
Hypothesis conjK : involutive conj.
Hypothesis dotL : forall c x y z, dot (c *: x + y) z = c * dot x z + dot y z.
Hypothesis dotC : forall x y, dot x y = conj (dot y x).
Hypothesis dot_gt : forall x, x != 0 -> 0 < dot x x.
Variables (eps : F) (sqrt : F -> F).
Hypothesis sqrt_ok : forall x, 0 < x -> sqrt x ^+ 2 = x /\ conj (sqrt x) = sqrt x.
Variables (potrf trtri : nat -> nat -> (nat -> nat -> F) -> option (nat -> nat -> F)).
Variable syev : nat -> nat -> (nat -> nat -> F) -> option ((nat -> F) * (nat -> nat -> F)).
Variable tsqr_r : nat -> nat -> (nat -> V) -> nat -> nat -> F.
Notation orth := (orthogonalize dot eps sqrt potrf trtri syev tsqr_r).
Notation mat := (nat -> nat -> F).

Lemma adjM n (A B : 'M[F]_n) : adj conj (A *m B) = adj conj B *m adj conj A.
Proof. by rewrite /adj trmx_mul map_mxM. Qed.
Lemma adj1 n : adj conj (1%:M : 'M[F]_n) = 1%:M.
Proof. by rewrite /adj trmx1 map_mx1. Qed.
Lemma eq_blk l k (A B : mat) : (forall i j, inb l k i -> inb l k j -> A i j = B i j) -> blk l k A = blk l k B.
Proof. by move=> H; apply/matrixP => i j; rewrite !mxE H ?inbP. Qed.

Lemma finish l k v (R : mat) w (Sm Rf R1 : mat) : (l <= k)%N -> orthonormal dot l v ->
  (forall j, inb l k j -> v j = \sum_(0 <= i < l) R i j *: v i + w j) -> (forall j, ~~ inb l k j -> w j = v j) ->
  (forall i j, (i < l)%N -> inb l k j -> dot (w j) (v i) = 0) ->
  adj conj (blk l k Sm) *m G dot l k w *m blk l k Sm = 1%:M ->
  let v' := mult_in_place l k Sm w in
  [/\ forall j, ~~ inb l k j -> v' j = v j, orthonormal dot k v' &
    blk l k Sm *m blk l k Rf = 1%:M -> (forall i j, inb l k j -> (i < l)%N -> Rf i j = R i j) ->
    (forall i j, inb l k j -> (i < k)%N -> R1 i j = Rf i j) ->
    forall j, inb l k j -> v j = \sum_(0 <= i < k) R1 i j *: v' i].
Proof.
move=> Hlk Ho E1 E2 E3 HG v'.
have Out j : ~~ inb l k j -> v' j = v j by move=> H; rewrite /v' Q_out ?E2.
split=> //; first exact: (all_orthonormal dotL dotC Hlk Ho E2 E3 HG).
move=> HS HR HR1 j Hj; rewrite (@big_cat_nat _ _ _ l) //= {1}E1 //; congr (_ + _).
  apply: eq_big_nat => i /andP[_ Hi]; rewrite HR1 ?(leq_trans Hi) // HR // Out //.
  by rewrite /inb leqNgt Hi.
have [j' Ej] := inbE Hj; rewrite Ej -(Q_inv w _ HS) -Ej; apply: eq_big_nat => i /andP[_ Hi].
by rewrite HR1.
Qed.

(** BVOrthogonalize with BV_ORTHOG_BLOCK_CHOL or _TSQRCHOL, linearly independent columns with orthonormal leading
    ones: succeeds; the leading columns and those that are not active do not change, all columns up to k are
    orthonormal, V = V' R with R upper triangular, columns of R of the leading columns are not touched. *)
Theorem C62_triangular m (matrix : bool) l k buf v Rin :
  (m = Chol -> potrf_spec conj l k potrf) -> (m = TsqrChol -> tsqr_spec conj dot l k tsqr_r) -> trtri_spec l k trtri ->
  m <> Svqb -> (m = TsqrChol -> matrix = false) ->
  (l <= k)%N -> orthonormal dot l v -> independent k v -> (forall n R0, Rin = Some (n, R0) -> (k <= n)%N) ->
  exists v' R', [/\ orth m matrix l k buf v Rin = Ok (v', R'),
    (forall j, ~~ (l <= j < k)%N -> v' j = v j), orthonormal dot k v' &
    match Rin, R' with
    | Some (_, R0), Some R1 => qr_ok l k v v' R0 R1 /\ upper l k R1
    | None, None => True
    | _, _ => False
    end].
Proof.
move=> Hpotrf Htsqr Htrtri Hm Hmx Hlk Ho Hi HR; rewrite /orthogonalize.
have -> : (if Rin is Some (n, _) then (k <= n)%N else true) = true.
  by case: (Rin) HR => [[n R0]|] // /(_ n R0 erefl).
have -> : (if m is TsqrChol then ~~ matrix else true) = true by case: (m) Hmx => // ->.
cbv beta iota.
have := leading_ok dotL buf Ho Hlk; case: (leading dot l k buf v) => R w [E1 E2 E3].
have P := G_posdef dotL dotC dot_gt Hlk Hi E1.
(* what both methods have in common: a factor C of the Gram matrix and its inverse T *)
have Core (C T Sm Rf R1 : mat) : adj conj (blk l k (up C)) *m blk l k (up C) = G dot l k w ->
    blk l k (up T) *m blk l k (up C) = 1%:M -> blk l k Sm = blk l k (up T) -> 
    let v' := mult_in_place l k Sm w in
    [/\ forall j, ~~ inb l k j -> v' j = v j, orthonormal dot k v' &
    blk l k Rf = blk l k (up C) -> (forall i j, inb l k j -> (i < l)%N -> Rf i j = R i j) ->
    (forall i j, inb l k j -> (i < k)%N -> R1 i j = Rf i j) ->
    forall j, inb l k j -> v j = \sum_(0 <= i < k) R1 i j *: v' i].
  move=> EC ET ES; have [|a b c] := @finish l k v R w Sm Rf R1 Hlk Ho E1 E2 E3.
    rewrite ES -EC !mulmxA -adjM (mulmx1C ET) adj1 mul1mx; exact: mulmx1C.
  by split=> // EF; apply: c; rewrite ES EF.
have inblkE i j : inblk l k i j = inb l k i && inb l k j by [].
have low i j : (l <= j < k)%N -> (j < i < k)%N -> inb l k i by rewrite /inb; lia.
case: m Hm Hpotrf Htsqr {Hmx} => // _ => [/(_ erefl) Hpotrf _|_ /(_ erefl) Htsqr].
- (* Cholesky *)
  set M := gram dot l k R w; have EM : blk l k M = G dot l k w.
    by apply: eq_blk => i j Hi' Hj'; rewrite /M /gram inblkE Hi' Hj'.
  have [] := Hpotrf M; rewrite EM => /(_ P); rewrite /chol_inv; case EP: (potrf l k M) => [C|//] _ /(_ C).
  move=> /(_ (G_adj dotC l k w) erefl) [EC NC]; rewrite [bind (Ok C) _]/=.
  set Ru := fun i j => if inblk l k i j && (i <= j)%N then C i j else M i j.
  have [] := Htrtri Ru; case ET: (trtri l k Ru) => [T|]; last first.
    by move=> H _; case: H => // i Hi'; rewrite /Ru inblkE /inb Hi' leqnn /=; apply: NC.
  move=> _ /(_ T erefl) HT.
  have EU : blk l k (up Ru) = blk l k (up C).
    by apply: eq_blk => i j Hi' Hj'; rewrite /up /Ru inblkE Hi' Hj' /=; case: leqP.
  rewrite EU in HT.
  case: Rin HR => [[n R0]|] HR; rewrite [bind _ _]/=.
    set Rf := fun i j => if inblk l k i j && (j < i)%N then 0 else Ru i j.
    set Sm := fun i j => if inblk l k i j then _ else _.
    have [|a b c] := Core C T Sm Rf (store l k true Rf Sm) EC HT.
      by apply: eq_blk => i j Hi' Hj'; rewrite /Sm inblkE Hi' Hj'.
    do 2 eexists; split; [reflexivity|exact: a|exact: b|split].
    + split.
        apply: c.
        * by apply: eq_blk => i j Hi' Hj'; rewrite /Rf /Ru /up inblkE Hi' Hj' /=; case: leqP.
        * move=> i j Hj' Hil; rewrite /Rf /Ru /M /gram inblkE.
          by have -> : inb l k i = false by rewrite /inb leqNgt Hil.
        * move=> i j Hj' Hik; rewrite /store Hj' ltnS /=; case: leqP => // Hji.
          have Hi' : inb l k i by apply: low Hj' _; rewrite Hji.
          by rewrite /Sm /Rf inblkE Hi' Hj' /= Hji leqNgt Hji.
      move=> i j /negbTE Hj'; rewrite /store /inb Hj' /= /Sm inblkE /inb Hj' andbF.
      by rewrite /zeroed /inb Hj'.
    + move=> i j Hj' /andP[Hji Hik]; rewrite /store /inb Hj' ltnS leqNgt Hji /= /Sm inblkE.
      by rewrite (low i j) ?Hji // /inb Hj' /= leqNgt Hji.
  set Sm := fun i j => if inblk l k i j then _ else _.
  have [|a b _] := Core C T Sm Sm Sm EC HT; last by exists (mult_in_place l k Sm w), None.
  by apply: eq_blk => i j Hi' Hj'; rewrite /Sm inblkE Hi' Hj'.
- (* triangular factor from TSQR *)
  have [L EC NC] := Htsqr w; rewrite /tri_inv.
  set C := tsqr_r l k w in L EC NC *.
  set Ru := fun i j => if inblk l k i j then C i j else R i j.
  have [] := Htrtri Ru; case ET: (trtri l k Ru) => [T|]; last first.
    by move=> H _; case: H => // i Hi'; rewrite /Ru inblkE /inb Hi' /=; apply: NC.
  move=> _ /(_ T erefl) HT.
  have EC' : blk l k (up C) = blk l k C.
    by apply: eq_blk => i j Hi' Hj'; rewrite /up leqNgt; case: ltnP => //= Hji; rewrite L.
  have EU : blk l k (up Ru) = blk l k (up C).
    by apply: eq_blk => i j Hi' Hj'; rewrite /up /Ru inblkE Hi' Hj' /=; case: leqP.
  rewrite EU in HT; rewrite -EC' in EC.
  case: Rin HR => [[n R0]|] HR; rewrite [bind _ _]/=.
    set Sm := fun i j => if inblk l k i j && _ then _ else _.
    have [|a b c] := Core C T Sm Ru (store l k true Ru Sm) EC HT.
      apply: eq_blk => i j Hi' Hj'; rewrite /Sm inblkE Hi' Hj' /= /up; case: leqP => // Hji.
      by rewrite L.
    do 2 eexists; split; [reflexivity|exact: a|exact: b|split].
    + split.
        apply: c.
        * by rewrite EC'; apply: eq_blk => i j Hi' Hj'; rewrite /Ru inblkE Hi' Hj'.
        * move=> i j Hj' Hil; rewrite /Ru inblkE.
          by have -> : inb l k i = false by rewrite /inb leqNgt Hil.
        * move=> i j Hj' Hik; rewrite /store Hj' ltnS /=; case: leqP => // Hji.
          have Hi' : inb l k i by apply: low Hj' _; rewrite Hji.
          by rewrite /Sm /Ru inblkE Hi' Hj' /= leqNgt Hji.
      move=> i j /negbTE Hj'; rewrite /store /inb Hj' /= /Sm inblkE /inb Hj' andbF.
      by rewrite /zeroed /inb Hj'.
    + move=> i j Hj' /andP[Hji Hik]; rewrite /store /inb Hj' ltnS leqNgt Hji /= /Sm inblkE.
      have Hi' := low i j; rewrite Hji in Hi'; rewrite Hi' // /inb Hj' /= leqNgt Hji /=.
      by rewrite L //; exact: Hi'.
  set Sm := fun i j => if inblk l k i j && _ then _ else _.
  have [|a b _] := Core C T Sm Sm Sm EC HT; last by exists (mult_in_place l k Sm w), None.
  apply: eq_blk => i j Hi' Hj'; rewrite /Sm inblkE Hi' Hj' /= /up; case: leqP => // Hji.
  by rewrite L.
Qed.
(** The same with BV_ORTHOG_BLOCK_SVQB.  The matrix returned is not triangular; V = V' R if scalars are real. *)
Theorem C62_svqb (matrix : bool) l k buf v Rin : syev_spec conj l k syev -> (l <= k)%N -> orthonormal dot l v ->
  independent k v ->
  (forall n R0, Rin = Some (n, R0) -> (k <= n)%N) ->
  exists v' R', [/\ orth Svqb matrix l k buf v Rin = Ok (v', R'),
    (forall j, ~~ (l <= j < k)%N -> v' j = v j), orthonormal dot k v' &
    match Rin, R' with
    | Some (_, R0), Some R1 => (forall x, conj x = x) -> qr_ok l k v v' R0 R1
    | None, None => True
    | _, _ => False
    end].
Proof.
move=> Hsyev Hlk Ho Hi HR; rewrite /orthogonalize.
have -> : (if Rin is Some (n, _) then (k <= n)%N else true) = true.
  by case: (Rin) HR => [[n R0]|] // /(_ n R0 erefl).
cbv beta iota.
have := leading_ok dotL buf Ho Hlk; case: (leading dot l k buf v) => R w [E1 E2 E3].
have P := G_posdef dotL dotC dot_gt Hlk Hi E1.
have inblkE i j : inblk l k i j = inb l k i && inb l k j by [].
set M := gram dot l k R w; have EM : blk l k M = G dot l k w.
  by apply: eq_blk => i j Hi' Hj'; rewrite /M /gram inblkE Hi' Hj'.
have dpos (i : 'I_(k - l)) : 0 < M (i + l)%N (i + l)%N.
  have Nz : delta_mx i 0 != 0 :> 'cV[F]_(k - l).
    by apply/eqP => /matrixP /(_ i 0) /eqP; rewrite !mxE !eqxx oner_eq0.
  have := P.2 _ Nz; rewrite map_delta_mx trmx_delta -rowE -colE !mxE.
  by rewrite /M /gram inblkE !inbP.
have hasE (f : nat -> F) : (forall i : 'I_(k - l), f (i + l)%N != 0) ->
    has (fun i => f i == 0) (iota l (k - l)) = false.
  move=> H; apply/hasP => -[i]; rewrite mem_iota subnKC // => /inbE[i' ->]; exact/negP/H.
rewrite /svqb (hasE (fun i => M i i)); last by move=> i; rewrite gt_eqF.
set D := fun i => 1 / sqrt (M i i); set N := fun i j => M i j * D i * D j.
pose d : 'rV[F]_(k - l) := \row_i D (i + l)%N.
have sne x : 0 < x -> sqrt x != 0.
  by move=> Hx; have [+ _] := sqrt_ok Hx; apply: contra_eq_neq => ->; rewrite expr0n /= eq_sym gt_eqF.
have Dne (i : 'I_(k - l)) : D (i + l)%N != 0 by rewrite /D mul1r invr_eq0 sne.
have Dc (i : 'I_(k - l)) : conj (D (i + l)%N) = D (i + l)%N.
  by rewrite /D rmorphM rmorph1 fmorphV (sqrt_ok (dpos i)).2.
have adjd : adj conj (diag_mx d) = diag_mx d.
  by apply/matrixP => i j; rewrite !mxE rmorphMn Dc eq_sym; case: eqP => // ->.
have EN : blk l k N = diag_mx d *m G dot l k w *m diag_mx d.
  rewrite -EM; apply/matrixP => i j; rewrite mul_mx_diag mul_diag_mx !mxE /N; congr (_ * _); exact: mulrC.
have AN : adj conj (blk l k N) = blk l k N by rewrite EN !adjM adjd (G_adj dotC) mulmxA.
have [eig [U [-> UU NU eigc]]] := Hsyev _ AN.
pose e : 'rV[F]_(k - l) := \row_i eig (i + l)%N.
have Ee : blk l k (fun i j => if i == j then eig i else 0) = diag_mx e.
  by apply/matrixP => i j; rewrite !mxE eqn_add2r val_eqE; case: eqP => [->|].
rewrite Ee in NU; set u := blk l k U in UU NU.
have UNU : adj conj (diag_mx d *m u) *m G dot l k w *m (diag_mx d *m u) = diag_mx e.
  have -> : adj conj (diag_mx d *m u) *m G dot l k w *m (diag_mx d *m u) = adj conj u *m (blk l k N *m u).
    by rewrite EN adjM adjd !mulmxA.
  by rewrite NU mulmxA UU mul1mx.
have epos (j : 'I_(k - l)) : 0 < eig (j + l)%N.
  have -> : eig (j + l)%N = (diag_mx e) j j by rewrite !mxE eqxx.
  set X := diag_mx d *m u in UNU.
  have Nz : col j X != 0.
    apply/eqP => /(congr1 (mulmx (adj conj u *m diag_mx (map_mx GRing.inv d)))).
    rewrite mulmx0 colE !mulmxA -(mulmxA (adj conj u)).
    have -> : diag_mx (map_mx GRing.inv d) *m diag_mx d = 1%:M.
      apply/matrixP => a b; rewrite mul_diag_mx !mxE; case: eqP => [->|_]; last by rewrite mulr0.
      by rewrite mulr1n mulVf.
    rewrite mulmx1 UU mul1mx => /matrixP /(_ j 0) /eqP; by rewrite !mxE !eqxx oner_eq0.
  have := P.2 _ Nz; rewrite -UNU.
  have -> // : ((map_mx conj (col j X))^T *m G dot l k w *m col j X) 0 0 =
     (adj conj X *m G dot l k w *m X) j j.
  rewrite !mxE; apply: eq_bigr => a _; rewrite !mxE; congr (_ * _); apply: eq_bigr => b _; by rewrite !mxE.
rewrite (hasE eig); last by move=> i; rewrite gt_eqF.
set S1 := fun i j => U i j * D i / sqrt (eig j).
pose r : 'rV[F]_(k - l) := \row_i (sqrt (eig (i + l)%N))^-1.
have adjr : adj conj (diag_mx r) = diag_mx r.
  apply/matrixP => i j; rewrite !mxE rmorphMn fmorphV (sqrt_ok (epos _)).2 eq_sym; by case: eqP => // ->.
have ES : blk l k S1 = diag_mx d *m u *m diag_mx r.
  apply/matrixP => i j; rewrite mul_mx_diag mul_diag_mx !mxE /S1; congr (_ / _); exact: mulrC.
have HG : adj conj (blk l k S1) *m G dot l k w *m blk l k S1 = 1%:M.
  rewrite ES adjM adjr; set X := diag_mx d *m u in UNU *.
  have -> : diag_mx r *m adj conj X *m G dot l k w *m (X *m diag_mx r) =
      diag_mx r *m (adj conj X *m G dot l k w *m X) *m diag_mx r by rewrite !mulmxA.
  rewrite UNU.
  apply/matrixP => i j; rewrite mul_mx_diag mul_diag_mx !mxE; case: eqP => [->|_]; last by rewrite !(mulr0, mul0r).
  rewrite mulr1n; have [E _] := sqrt_ok (epos j); rewrite -[X in _ * X * _]E; have := sne _ (epos j).
  by move: (sqrt _) => z Nz; rewrite /= mulr1n; field.
case: Rin HR => [[n R0]|] HR; rewrite [bind _ _]/=.
  set Rf := fun i j => if inblk l k i j then U j i * _ / _ else _.
  set Sm := fun i j => if inblk l k i j then S1 i j else _.
  have EB : blk l k Sm = blk l k S1 by apply: eq_blk => i j Hi' Hj'; rewrite /Sm inblkE Hi' Hj'.
  have [|a b c] := @finish l k v R w Sm Rf (store l k false Rf Sm) Hlk Ho E1 E2 E3; first by rewrite EB.
  do 2 eexists; split; [reflexivity|exact: a|exact: b|move=> creal; split].
    apply: c.
    + have -> : blk l k Rf = diag_mx (map_mx GRing.inv r) *m u^T *m diag_mx (map_mx GRing.inv d).
        apply/matrixP => i j; rewrite mul_mx_diag mul_diag_mx !mxE /Rf inblkE !inbP /= invrK; congr (_ / _).
        exact: mulrC.
      have ur : adj conj u = u^T by rewrite /adj; apply/matrixP => i j; rewrite !mxE creal.
      rewrite EB ES !mulmxA -(mulmxA _ (diag_mx r)).
      have inv1 (x : 'rV[F]_(k - l)) : (forall i, x 0 i != 0) -> diag_mx x *m diag_mx (map_mx GRing.inv x) = 1%:M.
        move=> Hx; apply/matrixP => a' b'; rewrite mul_diag_mx !mxE; case: eqP => [->|_]; last by rewrite mulr0.
        by rewrite mulr1n mulfV.
      rewrite inv1 ?mulmx1; last by move=> i; rewrite mxE invr_eq0 sne.
      rewrite -(mulmxA _ u) -ur (mulmx1C UU) mulmx1 inv1 // => i; by rewrite mxE.
    + move=> i j Hj' Hil; rewrite /Rf /M /gram inblkE.
      by have -> : inb l k i = false by rewrite /inb leqNgt Hil.
    + by move=> i j Hj' Hik; rewrite /store Hj' Hik.
  move=> i j /negbTE Hj'; by rewrite /store /inb Hj' /= /Sm inblkE /inb Hj' andbF.
set Sm := fun i j => if inblk l k i j then S1 i j else _.
have EB : blk l k Sm = blk l k S1 by apply: eq_blk => i j Hi' Hj'; rewrite /Sm inblkE Hi' Hj'.
have [|a b _] := @finish l k v R w Sm Sm Sm Hlk Ho E1 E2 E3; first by rewrite EB.
by exists (mult_in_place l k Sm w), None.
Qed.
End Props.
Print Assumptions C62_triangular.
Print Assumptions C62_svqb.
