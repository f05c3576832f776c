(** The interface of the eigensolver: discarded values, default dimensions. *)
From mathcomp Require Import all_ssreflect zify.
From Verif Require Import Prelude EPSModel.
Set Implicit Arguments. Unset Strict Implicit. Unset Printing Implicit Defensive.

(** The entries of the array in the first n places *)
Definition entries (perm : nat -> nat) (n : nat) : seq nat := [seq perm j | j <- iota 0 n].

Lemma swap_entries perm n i m : i < m -> m < n ->
  perm_eq (entries (upd (upd perm i (perm m)) m (perm i)) n) (entries perm n).
Proof.
move=> Him Hmn; rewrite /entries.
have S : iota 0 n = iota 0 i ++ i :: iota i.+1 (m - i.+1) ++ m :: iota m.+1 (n - m.+1).
  have E1 : n = i + (1 + ((m - i.+1) + (1 + (n - m.+1)))) by lia.
  rewrite {1}E1 iotaD add0n iotaD addn1 iotaD iotaD /=.
  by rewrite (_ : i.+1 + (m - i.+1) = m) ?addn1 //; lia.
rewrite S !map_cat !map_cons !map_cat !map_cons.
have K s : (forall x, x \in s -> (x != i) && (x != m)) -> [seq upd (upd perm i (perm m)) m (perm i) j | j <- s] = [seq perm j | j <- s].
  move=> Hs; apply/eq_in_map => x /Hs /andP[/negbTE a /negbTE b].
  by rewrite /upd b a.
rewrite !K; last first.
- by move=> x; rewrite mem_iota; lia.
- by move=> x; rewrite mem_iota; lia.
- by move=> x; rewrite mem_iota; lia.
rewrite /upd !eqxx (_ : (i == m) = false) ?eqxx; last by lia.
by apply/permP => p; rewrite !count_cat /= !count_cat /=; lia.
Qed.

Lemma loop_ok fuel outside i n perm N : n - i < fuel -> i <= n -> n <= N ->
  (forall j, j < i -> ~~ outside (perm j)) -> (forall j, n <= j < N -> outside (perm j)) ->
  exists n' perm', [/\ discard_loop fuel outside i n perm = Ok (n', perm'), n' <= n,
    perm_eq (entries perm' N) (entries perm N),
    (forall j, j < n' -> ~~ outside (perm' j)) /\ (forall j, n' <= j < N -> outside (perm' j)) &
    forall j, N <= j -> perm' j = perm j].
Proof.
elim: fuel i n perm => // fuel IH i n perm Hf Hin HnN Hk Ho; rewrite [discard_loop _ _ _ _ _]/=.
case: ifP => Hi; last first.
  exists n, perm; split=> //; split=> // j Hj; apply: Hk; lia.
case: ifP => Hout; last first.
  apply: IH => //; [lia|]; move=> j Hj; case: (ltngtP j i) => [H|H|->]; [exact: Hk|lia|by rewrite Hout].
case: ifP => Hi'; last first.
  (* the last one: nothing to exchange *)
  have En : n = i.+1 by lia.
  case: fuel IH Hf => [|fuel] _ Hf; first by lia.
  rewrite /= En /= (_ : i.+1 < i = false); last by lia.
  exists i, perm; split=> //; split=> // j Hj.
  by case: (ltngtP j i) => H; [lia|apply: Ho; lia|rewrite H].
have Sw j : upd (upd perm i (perm n.-1)) n.-1 (perm i) j = if j == n.-1 then perm i else if j == i then perm n.-1 else perm j by [].
have [| | | | |n' [perm' [E1 E2 E3 E4 E5]]] := IH i n.-1 (upd (upd perm i (perm n.-1)) n.-1 (perm i)); try lia.
- move=> j Hj; rewrite Sw.
  have -> : (j == n.-1) = false by lia.
  have -> : (j == i) = false by lia.
  exact: Hk.
- move=> j Hj; rewrite Sw; case: (altP (j =P n.-1)) => [_|/eqP H]; first by rewrite Hout.
  rewrite (_ : (j == i) = false); [apply: Ho; lia|lia].
- exists n', perm'; split=> //; first lia.
  + by apply: perm_trans E3 _; apply: swap_entries; lia.
  + move=> j Hj; rewrite (E5 _ Hj) Sw.
    have -> : (j == n.-1) = false by lia.
    by have -> : (j == i) = false by lia.
Qed.

(** With STFILTER, EPSSolve keeps exactly the values inside of the interval: the array of positions is permuted, the
    first nconv' places are those inside and the others are outside; nconv' is their number. *)
Theorem C60_discard outside nconv perm : exists nconv' perm',
  [/\ discard outside nconv perm = Ok (nconv', perm'), perm_eq (entries perm' nconv) (entries perm nconv),
    nconv' = count (fun k => ~~ outside k) (entries perm nconv),
    (forall j, j < nconv' -> ~~ outside (perm' j)) /\ (forall j, nconv' <= j < nconv -> outside (perm' j)) &
    forall j, nconv <= j -> perm' j = perm j].
Proof.
have [| | | | |n' [perm' [E1 E2 E3 [E4 E5] E6]]] := @loop_ok nconv.+1 outside 0 nconv perm nconv; try lia; try by [].
exists n', perm'; split=> //.
rewrite -(permP E3) /entries count_map -{1}(subnKC E2) iotaD count_cat add0n.
rewrite (_ : count _ (iota n' _) = 0); last first.
  apply/eqP; rewrite -leqn0 leqNgt -has_count; apply/hasPn => j; rewrite mem_iota /= => Hj.
  by rewrite E5 //; lia.
rewrite addn0 -[LHS](size_iota 0); symmetry.
by apply/eqP; rewrite -all_count; apply/allP => j; rewrite mem_iota /= => Hj; apply: E4; lia.
Qed.
Print Assumptions C60_discard.
Example ex_C60 : exists perm', discard (fun k => odd k) 5 id = Ok (3, perm') /\ entries perm' 5 = [:: 0; 4; 2; 3; 1].
Proof. by eexists; split; first reflexivity. Qed.

(** Dimensions: values of the user are kept; the others are such that the subspace is large enough for the
    requested number of values, room is left for at least one more vector unless the subspace is the whole space,
    and it is never larger than the problem. *)
Theorem C61_dimensions (half krylov thres : bool) n nev ncv mpd nev' ncv' mpd' :
  set_dimensions half krylov thres n nev ncv mpd = Ok (nev', ncv', mpd') ->
  let size := if half then n %/ 2 else n in
  let wanted := if half then nev'.+1 %/ 2 else nev' in
  [/\ nev' = (if (nev == 0) && ~~ thres then 1 else nev), (forall c, ncv = Some c -> ncv' = c),
    (forall m, mpd = Some m -> mpd' = m),
    (ncv = None -> ncv' <= size /\ (mpd = None -> mpd' <= 500 \/ mpd' = ncv')) &
    (ncv <> None \/ wanted <= size) -> (mpd <> Some 0) ->
      wanted <= ncv' /\ (krylov -> wanted < ncv' \/ ncv' = size)].
Proof.
rewrite /set_dimensions; set nv := if (nev == 0) && _ then 1 else nev; set sz := if half then n %/ 2 else n.
case: ncv => [c|].
  set g := if krylov then _ else _; case Hg: g => //= -[<- <- <-]; split=> //.
  - by move=> c' [].
  - by move=> m ->.
  - move=> _ _; move: Hg; rewrite /g; case: (krylov) => //= /orP[H|/andP[/eqP H1 /eqP H2]]; split; try lia.
case: mpd => [m|].
  move=> /= [<- <- <-]; split=> //; first by move=> m' [].
  + by move=> _; split=> //; rewrite geq_minl.
  + move=> [//|Hw] Hm; have : m != 0 by apply/eqP => E; apply: Hm; rewrite E.
    set w := if half then _ else _ in Hw *; move: Hw; rewrite -/sz; lia.
case: ifP => H /= [<- <- <-]; split=> //.
+ by move=> _; split; [rewrite geq_minl|right].
+ by move=> [//|Hw] _; move: Hw; rewrite -/sz; lia.
+ by move=> _; split; [rewrite geq_minl|left].
+ by move=> [//|Hw] _; move: Hw; rewrite -/sz; lia.
Qed.
Print Assumptions C61_dimensions.
Example ex_C61 : set_dimensions false true false 100 4 None None = Ok (4, 19, 19).
Proof. by []. Qed.

(** The request is rejected exactly if the user's subspace has no room for the requested values (Krylov solvers need
    one more vector, unless the subspace is the whole space). *)
Theorem C61_rejected (half krylov thres : bool) n nev ncv mpd :
  let size := if half then n %/ 2 else n in
  let nev' := if (nev == 0) && ~~ thres then 1 else nev in
  let wanted := if half then nev'.+1 %/ 2 else nev' in
  set_dimensions half krylov thres n nev ncv mpd = Err <->
  exists c, ncv = Some c /\ (c < wanted \/ [/\ krylov, c = wanted & c <> size]).
Proof.
move=> size nev' wanted; rewrite /set_dimensions -/nev' -/size -/wanted; case: ncv => [c|]; last first.
  by split; [case: mpd => [m|] //; case: ifP | case=> c []].
split.
  set g := if krylov then _ else _; case Hg: g => //= _; exists c; split=> //; move: Hg; rewrite /g.
  case: (krylov) => H; last by left; lia.
  case: (ltngtP c wanted) H => [Hc|Hc|->] H; [by left|lia|right; split=> //].
  by move=> E; move: H; rewrite -E eqxx orbT.
move=> [_ [[<-] [Hc|[-> -> /eqP Hn]]]]; last by rewrite ltnn eqxx /= (negbTE Hn).
have -> : (if krylov then (wanted < c) || (c == wanted) && (c == size) else wanted <= c) = false.
  by case: (krylov); lia.
by [].
Qed.
Print Assumptions C61_rejected.
