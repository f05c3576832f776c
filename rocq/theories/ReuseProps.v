(** EPS and PEP objects used for several matrices: the properties. *)
From mathcomp Require Import all_ssreflect.
From mathcomp Require Import zify.
From Verif Require Import Prelude ReuseModel.
Set Implicit Arguments. Unset Strict Implicit. Unset Printing Implicit Defensive.

(** One use of the object: optional reset, matrices of size n, k options, setup, and [again] further setups each after an
    option *)
Record use := Use { rs : bool; dim : nat; options : nat; again : nat }.
Definition calls (u : use) : seq call :=
  (if rs u then [:: Reset] else [::]) ++ SetOperators (dim u) :: nseq (options u) Option ++
  SetUp :: flatten (nseq (again u) [:: Option; SetUp]).
Definition ready (n : nat) (s : obj) : Prop := [/\ mat s = Some n, size s = n, active s & basis s = Some n].

Lemma run_cat cs ds s : run (cs ++ ds) s = bind (run cs s) (run ds).
Proof. by elim: cs s => //= c cs IH s; case: (step c s) => [s'| | |] //=. Qed.
Lemma run_options k s : run (nseq k Option) s = Ok (if k == 0 then s else Obj (mat s) (size s) false (basis s)).
Proof. by elim: k s => //= k IH s; rewrite IH; case: k {IH}. Qed.
Lemma again_ok k n s : 0 < n -> ready n s -> exists2 s', run (flatten (nseq k [:: Option; SetUp])) s = Ok s' & ready n s'.
Proof.
move=> Hn; elim: k s => [|k IH] s R; first by exists s.
case: R => R1 R2 _ R4; rewrite /= /set_up /= R1 R4 (gtn_eqF Hn) /=; exact: IH.
Qed.
Definition idle (s : obj) : Prop := active s = false /\ basis s = None.
Lemma use_ok u s : 0 < dim u -> idle s \/ (exists n, ready n s) ->
  exists2 s', run (calls u) s = Ok s' & ready (dim u) s'.
Proof.
case: u => r n k a /= Hn Hs; rewrite /calls /=.
set s1 := if r then reset s else s.
have G1 : idle s1 \/ exists n, ready n s1 by rewrite /s1; case: (r); [left|].
have -> t : run ((if r then [:: Reset] else [::]) ++ t) s = run t s1 by rewrite /s1; case: (r).
rewrite [run _ _]/= run_cat run_options [bind _ _]/=; set s2 := if k == 0 then _ else _.
have [M A B] : [/\ mat s2 = Some n, active s2 = false & basis s2 = None \/ basis s2 = Some n].
  have : [/\ mat (set_operators n s1) = Some n, active (set_operators n s1) = false &
    basis (set_operators n s1) = None \/ basis (set_operators n s1) = Some n].
    split=> //; rewrite /set_operators; case: G1 => [[-> ->]|[n0 [_ E2 -> E4]]] /=; first by left.
    by rewrite E2; case: eqP => [->|_] /=; [right|left].
  by rewrite /s2; case: ifP.
rewrite /= /set_up A M (gtn_eqF Hn) [bind _ _]/=; apply: again_ok => //; split=> //=.
by case: B => ->.
Qed.
(** The object can be used for any sequence of matrices, if options are changed after the new matrices are given or
    between two setups with the same matrices: its basis fits to the last ones. *)
Theorem C68_reuse (us : seq use) u : all (fun v => 0 < dim v) (rcons us u) ->
  exists2 s, run (flatten (map calls (rcons us u))) create = Ok s & ready (dim u) s.
Proof.
rewrite all_rcons => /andP[Hn Ha]; rewrite map_rcons -cats1 flatten_cat /= cats0.
have [s E G] : exists2 s, run (flatten (map calls us)) create = Ok s & idle s \/ exists n, ready n s.
  have : idle create \/ exists n, ready n create by left.
  elim: us create Ha => [|v vs IH] s0 /= ; first by move=> _ G; exists s0.
  move=> /andP[Hv Ha] G; have [s1 E1 R1] := use_ok Hv G.
  have [|s2 E2 G2] := IH s1 Ha; first by right; exists (dim v).
  by exists s2 => //; rewrite run_cat E1.
have [s' E' R] := use_ok Hn G.
by exists s' => //; rewrite run_cat E.
Qed.
(** Refuted: options can be changed at any time.  After an option, matrices of another size leave the basis of the former
    ones in place, and the setup succeeds. *)
Theorem C68_option_refuted n n2 : 0 < n -> 0 < n2 -> n <> n2 ->
  exists2 s, run [:: SetOperators n; SetUp; Option; SetOperators n2; SetUp] create = Ok s &
    [/\ active s, size s = n2 & basis s = Some n] /\ ~ ready n2 s.
Proof.
move=> H1 H2 H3; rewrite /= /set_up /= (gtn_eqF H1) /= (gtn_eqF H2) /=.
by eexists; first reflexivity; split=> // -[_ _ _ [E]].
Qed.
Print Assumptions C68_reuse.
Print Assumptions C68_option_refuted.
Example ex_C68 : exists2 s, run (flatten (map calls [:: Use false 5 1 0; Use false 9 0 2])) create = Ok s & ready 9 s.
Proof. by eexists; first reflexivity. Qed.
