(** DSSort: the properties. *)
From mathcomp Require Import all_ssreflect.
From mathcomp Require Import zify.
From Verif Require Import Prelude DPModel DPSpec DPProofs.
Set Implicit Arguments. Unset Strict Implicit. Unset Printing Implicit Defensive.

Section Props.
Variables (V W : Type) (lt : V -> V -> bool).
Hypothesis Hlt : weak_order lt.
Notation data := (data V W).

Lemma order_ok (st : ds) real (d : nat -> V) rr n : dl st <= n -> n <= dn st -> dt st <= n ->
  let s := order lt st real d rr in
  permutes (dl st) n s /\ in_order lt (dl st) (dt st) (if rr is Some r then r else d) s.
Proof.
move=> Hl Hn Ht s; set key := if rr is Some r then r else d.
have T k : dl st <= k < n -> trivial (dn st) (dperm st) k = k.
  by move=> Hk; rewrite /trivial /range; case: ifP => //; lia.
have [[R I] Id O] : sorted_to lt (dl st) n key (maxn (dt st) (dl st)) s.
  rewrite /s /order /key; case: rr {s key} => [r|].
    by apply: (sort_sorted Hlt Hl Ht _ T) => f i Hi; apply: sift_inserted.
  case: real.
    by apply: (sort_sorted Hlt Hl Ht _ T) => f i Hi; apply: sink_inserted.
  by apply: (sort_sorted Hlt Hl Ht _ T) => f i Hi; apply: sift_inserted.
have mn : maxn (dt st) (dl st) <= n by rewrite geq_max Ht Hl.
move: (maxn _ _) (leq_maxl (dt st) (dl st)) (leq_maxr (dt st) (dl st)) mn R I Id O => m m1 m2 mn R I Id O.
split; last by move=> i j Hi Hj; apply: O => //; lia.
split=> [i Hi|i j Hi Hj E].
  by case: (ltnP i m) => Him; [have := R i; lia|rewrite Id //; lia].
move: E; case: (ltnP i m) => Him; case: (ltnP j m) => Hjm.
- by apply: I; lia.
- by rewrite (Id j); [have := R i; lia|lia].
- by rewrite (Id i); [have := R j; lia|lia].
- by rewrite !Id //; lia.
Qed.
Lemma reorder_range T l n s (f f0 : nat -> T) : reordered l n s f f0 (range l n (fun i => f (s i)) f0).
Proof. by split=> i Hi; rewrite /range; [rewrite Hi|rewrite (negbTE Hi)]. Qed.
Lemma reorder_copy T l n s (f f0 f1 g : nat -> T) : reordered l n s f f0 g -> reordered l n s f f1 (range l n g f1).
Proof. by case=> H _; split=> i Hi; rewrite /range; [rewrite Hi H|rewrite (negbTE Hi)]. Qed.
Lemma cols_ok (st : ds) real (d : nat -> V) rr n (Q : nat -> W) : dl st <= n -> n <= dn st -> dt st <= n -> n <= dld st ->
  exists2 Q', permute (dld st) (dl st) n (order lt st real d rr) Q = Ok Q' & reordered (dl st) n (order lt st real d rr) Q Q Q'.
Proof.
move=> Hl Hn Ht Hld; have [P _] := order_ok real d rr Hl Hn Ht.
by apply: permute_ok => //; apply: permutes_surj.
Qed.

(** DSSort, DSHEP: one permutation s of the active positions describes everything.  Values (in the array of the
    caller, in T, and in A unless the storage is compact) and vectors are reordered by s, the sort keys (the values,
    or those given by the caller) are in order, equal ones keep their order, locked positions are not touched. *)
Theorem C63_hep (st : ds) rr (x : data) : dl st <= dn st -> dt st <= dn st -> dn st <= dld st ->
  exists y s, [/\ sort_hep lt st rr x = Ok y, permutes (dl st) (dn st) s,
    in_order lt (dl st) (dt st) (if rr is Some r then r else dT x) s,
    reordered (dl st) (dn st) s (cols x) (cols x) (cols y) &
    [/\ reordered (dl st) (dn st) s (dT x) (wr x) (wr y), reordered (dl st) (dn st) s (dT x) (dT x) (dT y) &
      if dcompact st then dA y = dA x else reordered (dl st) (dn st) s (dT x) (dA x) (dA y)]].
Proof.
move=> Hl Ht Hld; have [P O] := order_ok true (dT x) rr Hl (leqnn _) Ht.
have [Q E R] := cols_ok true (dT x) rr (cols x) Hl (leqnn _) Ht Hld.
rewrite /sort_hep E [bind _ _]/=; do 2 eexists; split; [reflexivity|exact: P|exact: O|exact: R|].
split; [exact: reorder_range|exact: reorder_copy (reorder_range _ _ _ _ _)|rewrite /=].
by case: (dcompact st) => //; exact: reorder_copy (reorder_range _ _ _ _ _).
Qed.

(** The same for DSGHEP, whose values are on the diagonal of A. *)
Theorem C63_ghep (st : ds) rr (x : data) : dl st <= dn st -> dt st <= dn st -> dn st <= dld st ->
  exists y s, [/\ sort_ghep lt st rr x = Ok y, permutes (dl st) (dn st) s,
    forall i j, dl st <= i < j -> j < dt st -> let key := if rr is Some r then r else dA x in
      lt (key (s j)) (key (s i)) = false /\ (lt (key (s i)) (key (s j)) = false -> s i < s j),
    reordered (dl st) (dn st) s (cols x) (cols x) (cols y) &
    reordered (dl st) (dn st) s (dA x) (wr x) (wr y) /\ reordered (dl st) (dn st) s (dA x) (dA x) (dA y)].
Proof.
move=> Hl Ht Hld; set w := range (dl st) (dn st) (dA x) (wr x).
have [P O] := order_ok false w rr Hl (leqnn _) Ht.
have [Q E R] := cols_ok false w rr (cols x) Hl (leqnn _) Ht Hld.
rewrite /sort_ghep -/w E [bind _ _]/=; set s := order lt st false w rr in P O E R *.
have ws i : dl st <= i < dn st -> w (s i) = dA x (s i) by move=> Hi; rewrite /w /range P.1.
have RA : reordered (dl st) (dn st) s (dA x) (dA x) (range (dl st) (dn st) (fun i => w (s i)) (dA x)).
  by split=> i Hi; rewrite /range; [rewrite Hi ws|rewrite (negbTE Hi)].
do 2 eexists; split; [reflexivity|exact: P| |exact: R|split; [|exact: RA]].
  move=> i j Hi Hj; have := O i j Hi Hj; case: (rr) => [r|] //=.
  by rewrite !ws //; lia.
by split=> i Hi; rewrite /= {1}/range; [rewrite Hi /range Hi ws|rewrite (negbTE Hi) /w /range (negbTE Hi)].
Qed.

(** The same for DSSVD and DSHSVD (with the signs), if the current size does not exceed the number of columns. *)
Theorem C63_svd hyper m (st : ds) rr (x : data) : m <> 0 -> dl st <= minn (dn st) m -> dt st <= minn (dn st) m ->
  dn st <= dld st ->
  let n := minn (dn st) m in
  exists y s, [/\ sort_svd lt hyper m st rr x = Ok y, permutes (dl st) n s,
    in_order lt (dl st) (dt st) (if rr is Some r then r else dT x) s,
    reordered (dl st) n s (cols x) (cols x) (cols y) &
    [/\ reordered (dl st) n s (dT x) (wr x) (wr y), reordered (dl st) n s (dT x) (dT x) (dT y),
      if dcompact st then dA y = dA x else reordered (dl st) n s (dT x) (dA x) (dA y) &
      if hyper then reordered (dl st) n s (dS x) (dS x) (dS y) else dS y = dS x]].
Proof.
move=> /eqP Hm Hl Ht Hld n; have Hn : n <= dn st := geq_minl _ _.
have [P O] := order_ok true (dT x) rr Hl Hn Ht.
have [Q E R] := cols_ok true (dT x) rr (cols x) Hl Hn Ht (leq_trans Hn Hld).
rewrite /sort_svd /check Hm -/n E [bind _ _]/=; do 2 eexists; split; [reflexivity|exact: P|exact: O|exact: R|].
split; [exact: reorder_range|exact: reorder_copy (reorder_range _ _ _ _ _)|rewrite /=|rewrite /=].
  by case: (dcompact st) => //; exact: reorder_copy (reorder_range _ _ _ _ _).
by case: hyper => //; exact: reorder_range.
Qed.

(** The same for DSGSVD, sorted by the quotient of both diagonals. *)
Theorem C63_gsvd quot m (st : ds) (x : data) : m <> 0 -> dl st <= dt st -> dt st <= dn st -> dn st <= dld st ->
  let c := if dcompact st then dT x else dA x in let q i := quot (c i) (dS x i) in
  exists y s, [/\ sort_gsvd lt quot m st x = Ok y, permutes (dl st) (dt st) s, in_order lt (dl st) (dt st) q s,
    reordered (dl st) (dt st) s (cols x) (cols x) (cols y) &
    [/\ reordered (dl st) (dt st) s q (wr x) (wr y), reordered (dl st) (dt st) s (dS x) (dS x) (dS y),
      if dcompact st then dA y = dA x else dT y = dT x &
      reordered (dl st) (dt st) s c c (if dcompact st then dT y else dA y)]].
Proof.
move=> /eqP Hm Hl Ht Hld c q; have [P O] := order_ok true q None Hl Ht (leqnn _).
have [Q E R] := cols_ok true q None (cols x) Hl Ht (leqnn _) (leq_trans Ht Hld).
rewrite /sort_gsvd /check Hm -/c -/q E [bind _ _]/=; do 2 eexists; split; [reflexivity|exact: P|exact: O|exact: R|].
split; [exact: reorder_range|exact: reorder_range|by rewrite /=; case: (dcompact st)|rewrite /= /c].
by case: (dcompact st); exact: reorder_range.
Qed.
End Props.
Print Assumptions C63_hep.
Print Assumptions C63_ghep.
Print Assumptions C63_svd.
Print Assumptions C63_gsvd.

(** DSSVD with more rows than columns: also the entries of T after the last singular value are sorted.  With the order
    of SVD_SMALLEST, one column and two rows, the value returned is 0 instead of the singular value v. *)
Theorem C63_svd_rows_refuted : exists st : ds, [/\ dl st = 0, dt st = dn st, dn st <= dld st &
  weak_order ltn /\ forall v (x : data nat nat), 0 < v -> dT x 0 = v -> dT x 1 = 0 ->
    exists2 y, sort_svd ltn false 1 st None x = Ok y & wr y 0 = 0 /\ cols y 0 = cols x 1].
Proof.
exists (Ds 0 2 2 2 (fun i => i) false); split=> //; split; first by split=> [a b|a b c] /=; lia.
move=> v x Hv E0 E1.
have L : (dT x 1 < dT x 0) = true by rewrite E0 E1 Hv.
rewrite /sort_svd /check /order /sort_real /= /trivial /range /= L /permute /permute_loop /permute_step /=.
rewrite /upd /=; eexists; first reflexivity.
by rewrite /= E1.
Qed.
Print Assumptions C63_svd_rows_refuted.

(** Three active values after one locked value: decreasing order of 1, 3, 3. *)
Example ex_C63 : let st := Ds 1 4 4 5 (fun _ => 7) true in
  let x := Data (fun _ => 0) (nth 0 [:: 9; 1; 3; 3]) (fun _ => 0) (fun i => i) (fun _ => 0) in
  weak_order (fun a b => b < a) /\
  if sort_hep (fun a b => b < a) st None x is Ok y
  then map (wr y) (iota 0 4) = [:: 0; 3; 3; 1] /\ map (cols y) (iota 0 4) = [:: 0; 2; 3; 1] else False.
Proof. by split; [split=> [a b|a b c] /=; lia|]. Qed.
