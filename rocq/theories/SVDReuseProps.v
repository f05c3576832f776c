(** An SVD object used for several matrices: the properties. *)
From mathcomp Require Import all_ssreflect.
From mathcomp Require Import zify.
From Verif Require Import Prelude SVDReuseModel.
Set Implicit Arguments. Unset Strict Implicit. Unset Printing Implicit Defensive.

(** One use of the object: optional reset, a matrix with M rows and N columns, k options, setup, a further setup *)
Record use := Use { rs : bool; rows : nat; columns : nat; options : nat; again : bool }.
Definition calls (u : use) : seq call :=
  (if rs u then [:: Reset] else [::]) ++ SetOperators (rows u) (columns u) :: nseq (options u) Option ++
  SetUp :: if again u then [:: Option; SetUp] else [::].

(** The object is ready for a matrix with M rows and N columns: vectors of V and U have the right lengths for the
    matrix svd->A, which is transposed iff M < N, as the flag says. *)
Definition ready (M N : nat) (s : svd) : Prop :=
  [/\ op s = Some (M, N), active s, swapped s = (M < N), work s = Some (maxn M N, minn M N) &
      bases s = Some (minn M N, maxn M N)].

Lemma run_cat cs ds s : run (cs ++ ds) s = bind (run cs s) (run ds).
Proof. by elim: cs s => //= c cs IH s; case: (step c s) => [s'| | |] //=. Qed.
Lemma run_options k s : run (nseq k Option) s = Ok (if k == 0 then s else Svd (op s) false (swapped s) (bases s) (work s)).
Proof. by elim: k s => //= k IH s; rewrite IH; case: k {IH}. Qed.

Definition good (s : svd) : Prop := s = create \/ exists M N, [/\ 0 < M, 0 < N & ready M N s].
Lemma set_up_ready M N s : 0 < M -> 0 < N -> op s = Some (M, N) -> active s = false ->
  (swapped s = false /\ bases s = None) \/ (swapped s = (M < N) /\ bases s = Some (minn M N, maxn M N)) ->
  exists2 s', set_up s = Ok s' & ready M N s'.
Proof.
case: s => o a w b k /= HM HN -> -> H; rewrite /set_up /=.
have -> : (M == 0) || (N == 0) = false by lia.
case: H => -[-> ->]; case: (ltnP M N) => H /=; eexists; try reflexivity; split=> //=; repeat congr (Some (_, _)); lia.
Qed.
Lemma use_ok u s : 0 < rows u -> 0 < columns u -> good s -> exists2 s', run (calls u) s = Ok s' & ready (rows u) (columns u) s'.
Proof.
case: u => r M N k ag /= HM HN Hs; rewrite /calls /=.
set s1 := if r then reset s else s.
have G1 : good s1 by rewrite /s1; case: (r); [left|].
have -> : run ((if r then [:: Reset] else [::]) ++ SetOperators M N :: nseq k Option ++ SetUp :: (if ag then [:: Option; SetUp] else [::])) s
  = run (nseq k Option ++ SetUp :: (if ag then [:: Option; SetUp] else [::])) (set_operators M N s1) by rewrite /s1; case: (r).
rewrite run_cat run_options [bind _ _]/=.
set s2 := if k == 0 then _ else _.
have [s3 E3 R3] : exists2 s3, set_up s2 = Ok s3 & ready M N s3.
  have P : [/\ op (set_operators M N s1) = Some (M, N), active (set_operators M N s1) = false &
    (swapped (set_operators M N s1) = false /\ bases (set_operators M N s1) = None) \/
    (swapped (set_operators M N s1) = (M < N) /\ bases (set_operators M N s1) = Some (minn M N, maxn M N))].
    case: G1 => [->|[M0 [N0 [_ _ [E1 E2 E3 _ E5]]]]]; first by split=> //; left.
    rewrite /set_operators E1 E2 /=; split=> //.
    by case: eqP => [[<- <-]|_] /=; [right; rewrite E3 E5|left].
  by case: P => P1 P2 P3; apply: set_up_ready => //; rewrite /s2; case: ifP.
rewrite E3 [bind _ _]/=; case: ag; last by exists s3.
rewrite /= ; case: R3 => R1 R2 R4 _ R5.
have [s4 E4 R6] := @set_up_ready M N (Svd (op s3) false (swapped s3) (bases s3) (work s3)) HM HN R1 erefl
  (or_intror (conj R4 R5)).
by exists s4 => //; rewrite E4.
Qed.
(** The object can be used for any sequence of matrices, if options are changed between SVDSetOperators and
    SVDSetUp (or between two setups for the same matrix): it is ready for the last one. *)
Theorem C67_reuse (us : seq use) u : all (fun v => (0 < rows v) && (0 < columns v)) (rcons us u) ->
  exists2 s, run (flatten (map calls (rcons us u))) create = Ok s & ready (rows u) (columns u) s.
Proof.
rewrite all_rcons => /andP[/andP[HM HN] Ha]; rewrite map_rcons -cats1 flatten_cat /= cats0.
have [s E G] : exists2 s, run (flatten (map calls us)) create = Ok s & good s.
  have : good create by left.
  elim: us create Ha => [|v vs IH] s0 /= ; first by move=> _ G; exists s0.
  move=> /andP[/andP[Hv1 Hv2] Ha] G; have [s1 E1 R1] := use_ok Hv1 Hv2 G.
  have [|s2 E2 G2] := IH s1 Ha; first by right; exists (rows v), (columns v).
  by exists s2 => //; rewrite run_cat E1.
have [s' E' R] := use_ok HM HN G.
by exists s' => //; rewrite run_cat E.
Qed.
(** Refuted: options can be changed at any time.  If one is changed between the solution for a matrix and
    SVDSetOperators with a matrix of another size, the bases of the former matrix are kept. *)
Theorem C67_option_refuted M N M2 N2 : 0 < N <= M -> 0 < N2 <= M2 -> (M, N) <> (M2, N2) ->
  exists2 s, run [:: SetOperators M N; SetUp; Option; SetOperators M2 N2; SetUp] create = Ok s &
    [/\ active s, work s = Some (M2, N2) & bases s = Some (N, M)] /\ ~ ready M2 N2 s.
Proof.
move=> H1 H2 H3; rewrite /run /step /set_up /set_operators /=.
have -> : (M == 0) || (N == 0) = false by lia.
have -> : (M < N) = false by lia.
have -> : (N <= M) = true by lia.
rewrite /=; have -> : (M2 == 0) || (N2 == 0) = false by lia.
have -> : (M2 < N2) = false by lia.
have -> : (N2 <= M2) = true by lia.
eexists; first reflexivity; split=> // -[_ _ _ _ /= [E1 E2]]; apply: H3.
by congr (_, _); lia.
Qed.
(** Refuted: also the flag may be wrong: a matrix with more rows than columns is taken as a transposed one. *)
Theorem C67_swapped_refuted M N M2 N2 : 0 < M < N -> 0 < N2 <= M2 ->
  exists2 s, run [:: SetOperators M N; SetUp; Option; SetOperators M2 N2; SetUp] create = Ok s &
    [/\ active s, work s = Some (M2, N2), bases s = Some (M, N) & swapped s].
Proof.
move=> H1 H2; rewrite /run /step /set_up /set_operators /=.
have -> : (M == 0) || (N == 0) = false by lia.
have -> : (M < N) = true by lia.
have -> : (N <= M) = false by lia.
rewrite /=; have -> : (M2 == 0) || (N2 == 0) = false by lia.
have -> : (M2 < N2) = false by lia.
have -> : (N2 <= M2) = true by lia.
by eexists; first reflexivity.
Qed.
Print Assumptions C67_reuse.
Print Assumptions C67_option_refuted.
Print Assumptions C67_swapped_refuted.
Example ex_C67 : exists2 s, run (flatten (map calls [:: Use false 2 5 1 false; Use false 7 3 0 true])) create = Ok s &
  ready 7 3 s.
Proof. by eexists; first reflexivity. Qed.
