(** DSSort: the insertion sorts and the permutation of columns. *)
From mathcomp Require Import all_ssreflect.
From mathcomp Require Import zify.
From Verif Require Import Prelude DPModel DPSpec.
Set Implicit Arguments. Unset Strict Implicit. Unset Printing Implicit Defensive.

Section Proofs.
Variables (V W : Type) (lt : V -> V -> bool).
Hypothesis Hlt : weak_order lt.

Definition rotated (x q p : nat) (f g : nat -> nat) : Prop :=
  [/\ g q = x, forall k, q <= k < p -> g k.+1 = f k & forall k, k < q \/ p < k -> g k = f k].
Definition inserted l (d : nat -> V) (re : V) x p (f g : nat -> nat) : Prop :=
  exists q, [/\ l <= q <= p, rotated x q p f g, forall k, q <= k < p -> lt re (d (f k)) &
    q = l \/ lt re (d (f q.-1)) = false].

Lemma sink_inserted l d re p f : l <= p -> inserted l d re (f p) p f (sink lt l d re p f).
Proof.
elim: p f => [|j IH] f Hl /=.
  by exists 0; split; [lia|split=> // k; lia|lia|left; lia].
case: ifP => [/andP[Hlj C]|C].
  set f1 := upd _ _ _; have [q [Hq [R1 R2 R3] M E]] := IH f1 Hlj.
  have f1j : f1 j = f j.+1 by rewrite /f1 /upd; case: eqP => [|_]; [lia|rewrite eqxx].
  have f1p : f1 j.+1 = f j by rewrite /f1 /upd eqxx.
  have f1k k : k <> j -> k <> j.+1 -> f1 k = f k by move=> H1 H2; rewrite /f1 /upd; do 2 (case: eqP => // _).
  exists q; split; [lia|split| |].
  - by rewrite R1.
  - move=> k Hk; case: (k =P j) => [->|N]; first by rewrite R3 //; right; lia.
    by rewrite R2 ?f1k //; lia.
  - by move=> k Hk; rewrite R3 ?f1k //; lia.
  - move=> k Hk; case: (k =P j) => [->|N] //; have := M k; rewrite f1k //; [|lia]; apply; lia.
  - case: (q =P l) => [|N]; [by left|right]; case: E => [//|]; rewrite f1k //; lia.
exists j.+1; split; [lia|split=> // k; lia|lia|].
case: (j.+1 =P l) => [|N]; [by left|right]; move: C; have -> : l <= j by lia.
by [].
Qed.
Lemma sift_inserted l d re x p f : l <= p -> inserted l d re x p f (sift lt l d re x p f).
Proof.
elim: p f => [|j IH] f Hl /=.
  exists 0; split; [lia| |lia|left; lia].
  split=> [|k Hk|k Hk]; [by []|lia|by rewrite /upd; case: eqP => //; lia].
case: ifP => [/andP[Hlj C]|C].
  set f1 := upd _ _ _; have [q [Hq [R1 R2 R3] M E]] := IH f1 Hlj.
  have f1p : f1 j.+1 = f j by rewrite /f1 /upd eqxx.
  have f1k k : k <> j.+1 -> f1 k = f k by move=> H2; rewrite /f1 /upd; case: eqP.
  exists q; split; [lia|split=> //| |].
  - move=> k Hk; case: (k =P j) => [->|N]; first by rewrite R3 //; right; lia.
    by rewrite R2 ?f1k //; lia.
  - by move=> k Hk; rewrite R3 ?f1k //; lia.
  - move=> k Hk; case: (k =P j) => [->|N] //; have := M k; rewrite f1k //; [|lia]; apply; lia.
  - case: (q =P l) => [|N]; [by left|right]; case: E => [//|]; rewrite f1k //; lia.
exists j.+1; split; [lia| |lia|].
  split=> [|k|k]; first (by rewrite /upd eqxx); first lia.
  by rewrite /upd; case: eqP => //; lia.
case: (j.+1 =P l) => [|N]; [by left|right]; move: C; have -> : l <= j by lia.
by [].
Qed.

(** Before the insertion of position i: a permutation of l..i-1 in order, trivial elsewhere in l..n-1 *)
Definition sorted_to l n (d : nat -> V) i (f : nat -> nat) : Prop :=
  [/\ permutes l i f, forall k, i <= k < n -> f k = k & in_order lt l i d f].
Lemma inserted_sorted l n d i f g : l < i < n -> sorted_to l n d i f -> inserted l d (d (f i)) (f i) i f g ->
  sorted_to l n d i.+1 g.
Proof.
case: Hlt => asym trans Hi [[R I] T O] [q [Hq [G1 G2 G3] M E]].
have fi : f i = i by apply: T; lia.
(* where an entry of g comes from *)
have src k : l <= k <= i -> [\/ k = q /\ g k = i, k < q /\ g k = f k | q < k /\ g k = f k.-1].
  move=> Hk; case: (ltngtP k q) => [H|H|->].
  - by constructor 2; split=> //; apply: G3; left.
  - constructor 3; split=> //; have := G2 k.-1; rewrite prednK //; last lia.
    by apply; lia.
  - by constructor 1; rewrite G1 fi.
have pre k : l <= k < i -> l <= f k < i by exact: R.
split; first split.
- move=> k Hk; have /src : l <= k <= i by lia.
  by case=> -[H ->]; [lia|have := pre k; lia|have := pre k.-1; lia].
- move=> a b Ha Hb; have /src Sa : l <= a <= i by lia.
  have /src Sb : l <= b <= i by lia.
  have Pa := pre a; have Pa1 := pre a.-1; have Pb := pre b; have Pb1 := pre b.-1.
  case: Sa Sb => [[Ea ->]|[Ea ->]|[Ea ->]] [[Eb ->]|[Eb ->]|[Eb ->]] EE; try lia.
  + by apply: I => //; lia.
  + have := I a b.-1; lia.
  + have := I a.-1 b; lia.
  + have := I a.-1 b.-1; lia.
- by move=> k Hk; rewrite G3 ?T //; lia.
move=> a b Hab Hb; have /src Sa : l <= a <= i by lia.
have /src Sb : l <= b <= i by lia.
have Pa := pre a; have Pa1 := pre a.-1; have Pb := pre b; have Pb1 := pre b.-1.
case: Sa Sb => [[Ea ->]|[Ea ->]|[Ea ->]] [[Eb ->]|[Eb ->]|[Eb ->]]; try lia.
- (* the new entry before an entry that was moved *)
  have := M b.-1; rewrite fi => L; split; last by rewrite L //; lia.
  by apply: asym; apply: L; lia.
- (* the new entry after an entry that was not moved *)
  split; last by move=> _; have := pre a; lia.
  case: E => [|]; [lia|rewrite fi => E].
  case: (a =P q.-1) => [->//|N]; have [L _] := O a q.-1 ltac:(lia) ltac:(lia); exact: trans L E.
- by apply: O; lia.
- by apply: O; lia.
- by apply: O; lia.
Qed.

Lemma sort_sorted l n t d (step : (nat -> nat) -> nat -> (nat -> nat)) f : l <= n -> t <= n ->
  (forall f i, l <= i -> inserted l d (d (f i)) (f i) i f (step f i)) -> (forall k, l <= k < n -> f k = k) ->
  sorted_to l n d (maxn t l) (foldl step f (iota l.+1 (t - l.+1))).
Proof.
move=> Hln Ht Hs Hf.
case: (leqP t l) => Htl.
  have -> : t - l.+1 = 0 by lia.
  split=> //; first by split=> i; lia.
  by move=> i j; lia.
have E : t = (t - l.+1) + l.+1 by lia.
move: (t - l.+1) E => m E; subst t.
have S0 : sorted_to l n d l.+1 f.
  split; last by move=> i j; lia.
    split=> [i Hi|i j Hi Hj _]; last lia.
    by rewrite Hf; lia.
  by move=> k Hk; apply: Hf; lia.
clear Htl; elim: m Ht => [|m IH] Ht; first by [].
have -> : iota l.+1 m.+1 = rcons (iota l.+1 m) (l.+1 + m) by rewrite -cats1 -(iotaD _ m 1) addn1.
rewrite foldl_rcons; have -> : m.+1 + l.+1 = (l.+1 + m).+1 by lia.
set g := foldl _ _ _; have Sg : sorted_to l n d (l.+1 + m) g by rewrite addnC; apply: IH; lia.
apply: inserted_sorted Sg _; first lia.
by apply: Hs; lia.
Qed.

(** The permutation of columns *)
Definition perm_inv l i n (f0 f : nat -> nat) (Q0 Q : nat -> W) : Prop :=
  [/\ permutes i n f, forall k, l <= k < i -> f k = k, forall k, l <= k < n -> Q (f k) = Q0 (f0 k),
    forall k, i <= k < n -> exists2 j, i <= j < n & f j = k &
    forall k, ~~ (l <= k < n) -> Q k = Q0 k].
Lemma find_ok fuel ld f i j j0 : f j0 = i -> j <= j0 -> j0 < ld -> ld <= fuel + j ->
  exists2 k, find fuel ld f i j = Some k & f k = i /\ j <= k <= j0.
Proof.
move=> Hf; elim: fuel j => [|m IH] j Hj Hl Hm /=; first lia.
have -> : (ld <= j) = false by lia.
case: eqP => [E|N]; first by exists j => //; lia.
have Hjj : j < j0 by rewrite ltn_neqAle Hj andbT; apply/eqP => E; apply: N; rewrite E.
have [|k E [H1 H2]] := IH j.+1 Hjj Hl; first lia.
by exists k => //; split=> //; lia.
Qed.
Lemma step_inv ld l i n f0 f Q0 Q : l <= i < n -> n <= ld -> perm_inv l i n f0 f Q0 Q ->
  exists f' Q', permute_step ld i (f, Q) = Ok (f', Q') /\ perm_inv l i.+1 n f0 f' Q0 Q'.
Proof.
move=> Hi Hld [[R I] T E Su O]; rewrite /permute_step.
case: eqP => [Ei|Ni].
  exists f, Q; split=> //; split=> //.
  - split=> [k Hk|a b Ha Hb]; last by apply: I; lia.
    have := R k; have := I k i; lia.
  - move=> k Hk; case: (k =P i) => [->//|N]; apply: T; lia.
  - move=> k Hk; have [|j Hj Ej] := Su k; first lia.
    exists j => //; case: (j =P i) => [Eji|]; last lia.
    by move: Ej; rewrite Eji Ei; lia.
have [|j0 Hj0 Ej0] := Su i; first lia.
have Nj : j0 <> i by move=> H; rewrite H in Ej0.
have [|||j -> [Ej Hj]] := @find_ok ld ld f i i.+1 j0 Ej0; [lia|lia|lia|].
have jj : j = j0 by apply: I; lia.
have Rp : i <= f i < n by apply: R; lia.
set p := f i in Ni Rp *.
exists (upd (upd f j p) i i), (upd (upd Q p (Q i)) i (Q p)); split=> //.
have ui : upd (upd f j p) i i i = i by rewrite /upd eqxx.
have uj : upd (upd f j p) i i j = p by rewrite /upd eqxx; case: eqP => //; lia.
have uk k : k <> i -> k <> j -> upd (upd f j p) i i k = f k by move=> H1 H2; rewrite /upd; do 2 (case: eqP => // _).
move: (upd (upd f j p) i i) ui uj uk => g ui uj uk.
have qi : upd (upd Q p (Q i)) i (Q p) i = Q p by rewrite /upd eqxx.
have qp : upd (upd Q p (Q i)) i (Q p) p = Q i by rewrite /upd eqxx; case: eqP => //; lia.
have qk k : k <> i -> k <> p -> upd (upd Q p (Q i)) i (Q p) k = Q k.
  by move=> H1 H2; rewrite /upd; do 2 (case: eqP => // _).
move: (upd (upd Q p (Q i)) i (Q p)) qi qp qk => P qi qp qk.
split.
- split.
    move=> k Hk; case: (k =P j) => [->|N]; first by rewrite uj; lia.
    rewrite uk //; last lia. have := R k; have := I k j; lia.
  move=> a b Ha Hb; case: (a =P j) => [->|Na]; case: (b =P j) => [->|Nb] //.
  + rewrite uj uk //; last lia. by move=> H; have := I i b; lia.
  + rewrite uj uk //; last lia. by move=> H; have := I a i; lia.
  + rewrite !uk //; [|lia|lia]. by apply: I; lia.
- move=> k Hk; case: (k =P i) => [->//|N]; rewrite uk ?T //; lia.
- move=> k Hk; rewrite -E //; case: (k =P i) => [->|Nk]; first by rewrite ui qi.
  case: (k =P j) => [->|Nkj]; first by rewrite uj qp Ej.
  rewrite uk // qk //.
    move=> H; case: (leqP i k) => Hik; first by have := I k j; lia.
    by have := T k; lia.
  move=> H; case: (leqP i k) => Hik; first by have := I k i; lia.
  by have := T k; lia.
- move=> k Hk; case: (k =P p) => [->|N]; first by exists j => //; lia.
  have [|a Ha Ea] := Su k; first lia.
  exists a; last by rewrite uk //; move=> H; subst; lia.
  case: (a =P i) => [H|]; last lia.
  by subst a; lia.
- move=> k Hk; rewrite qk ?O //; lia.
Qed.
Lemma permute_ok ld l n f (Q : nat -> W) : l <= n -> n <= ld -> permutes l n f -> (forall k, l <= k < n -> exists2 j, l <= j < n & f j = k) ->
  exists2 Q', permute ld l n f Q = Ok Q' & reordered l n f Q Q Q'.
Proof.
move=> Hln Hld Hp Hs; rewrite /permute.
have P0 : perm_inv l l n f f Q Q by split=> // k; lia.
have L m i g P : i + m = n -> l <= i -> perm_inv l i n f g Q P ->
    exists g' P', permute_loop ld m i (g, P) = Ok (g', P') /\ perm_inv l n n f g' Q P'.
  elim: m i g P => [|m IH] i g P Em Hl Hi; first by exists g, P; move: Hi; have -> : i = n by lia.
  rewrite -[permute_loop _ _ _ _]/(bind (permute_step ld i (g, P)) (permute_loop ld m i.+1)).
  have [|g1 [P1 [-> H1]]] := step_inv _ Hld Hi; first lia.
  by rewrite [bind _ _]/=; apply: IH => //; lia.
have [|//|g [P [-> [_ T E _ O]]]] := L (n - l) l f Q _ _ P0; first lia.
by exists P => //; split=> // i Hi; rewrite -E // T.
Qed.

Lemma permutes_surj l n f : l <= n -> permutes l n f -> forall k, l <= k < n -> exists2 j, l <= j < n & f j = k.
Proof.
move=> Hln [R I] k Hk.
pose s := map f (iota l (n - l)).
have U : uniq s.
  rewrite map_inj_in_uniq ?iota_uniq // => a b; rewrite !mem_iota => Ha Hb; apply: I; lia.
have sub : {subset s <= iota l (n - l)}.
  by move=> x /mapP[j Hj ->]; move: Hj; rewrite !mem_iota => Hj; have := R j; lia.
have [|_ eqm] := uniq_min_size U sub; first by rewrite size_map !size_iota.
have : k \in s by rewrite eqm mem_iota; lia.
by case/mapP => j; rewrite mem_iota => Hj ->; exists j => //; lia.
Qed.
End Proofs.
