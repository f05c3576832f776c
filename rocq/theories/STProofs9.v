(** Polynomial problems: the transformed matrices hold the coefficients of the transformed polynomial. *)
From mathcomp Require Import all_ssreflect all_algebra zify.
From Verif Require Import Prelude STModel STSpec STProofs STProofs2 STProofs3 STProofs8.
Set Implicit Arguments. Unset Strict Implicit. Unset Printing Implicit Defensive.
Import GRing.Theory.
Local Open Scope ring_scope.

Section P.
Variable K : fieldType.
Variable conj : {rmorphism K -> K}.
Variable n : nat.
Notation mat := 'M[K]_n.
Notation vec := 'cV[K]_n.
Notation heap := (heap K n).
Implicit Types (h : heap) (L : seq ptr) (p q : ptr).

Arguments hdense : simpl never.
Arguments hobj : simpl never.
Arguments hdestroy : simpl never.
Arguments halloc : simpl never.
Arguments hset : simpl never.
Arguments href : simpl never.
Arguments mat_dup : simpl never.
Arguments mat_axpy : simpl never.
Arguments mat_copy : simpl never.

Ltac gen_nb := repeat match goal with |- context [nat_of_bool ?b] => let k := fresh "k" in
  set k := nat_of_bool b; clearbody k end.
Ltac perm := apply: own_perm; [eassumption | clear; move=> ? /=; gen_nb; lia].

Lemma pget_ok (As : seq ptr) i : (i < size As)%N -> pget As i = Ok (nth None As i).
Proof. by rewrite /pget => ->. Qed.

Lemma count_in (T : seq ptr) k p i : (k < size T)%N ->
  count_mem (Some i) (set_nth None T k p) = ((p == Some i) + count_mem (Some i) (set_nth None T k None))%N.
Proof. by elim: T k => //= a T IH [|k] /= Hk; [lia|rewrite IH //; lia]. Qed.
Lemma count_out (T : seq ptr) k i : (k < size T)%N ->
  count_mem (Some i) T = ((nth None T k == Some i) + count_mem (Some i) (set_nth None T k None))%N.
Proof. by elim: T k => //= a T IH [|k] /= Hk; [lia|rewrite (IH k) //; lia]. Qed.

Variables (As : seq ptr) (Av : seq mat).
Let nm := size Av.
Hypothesis sA : size As = nm.
Notation ap i := (nth None As i).
Notation am i := (nth 0 Av i).

(** The matrices of the user. *)
Definition user_ok h : Prop := forall i, (i < nm)%N -> hdense h (ap i) = Ok (am i).

(** Coefficient k of P(z+s). *)
Definition target (k : nat) (s : K) : mat := \sum_(i < nm - k) (('C(k + i, i))%:R * s ^+ i) *: am (k + i).

Lemma axpys_ok (k : nat) cs alpha y m i t h L my : own h L -> clean h -> y \in L -> hdense h y = Ok my ->
  (1 < nm)%N -> (i + m <= nm)%N -> (k <= i)%N -> (i - k + m <= size cs)%N ->
  (forall j, (i <= j < i + m)%N -> ap j <> y /\ hdense h (ap j) = Ok (am j)) ->
  exists h', [/\ axpys As nm k (Some cs) alpha y m i t h = Ok h', own h' L, clean h',
    hdense h' y = Ok (my + \sum_(j < m) (t * alpha ^+ j.+1 * nth 0 cs (i - k + j)) *: am (i + j)) &
    forall q, q <> y -> hobj h' q = hobj h q].
Proof.
elim: m i t h my => [|m IH] i t h my O C Hy Ey Hn Hi Hk Hc Ha /=.
  by exists h; split=> //; rewrite big_ord0 addr0.
rewrite cget_ok; last by lia.
rewrite big_ord_recl /= expr1 !addn0; cbn [bind].
have [|N1 D1] := Ha i; first by lia.
have Es : \sum_(j < m) (t * alpha ^+ (bump 0 j).+1 * nth 0 cs (i - k + bump 0 j)) *: am (i + bump 0 j) =
  \sum_(j < m) (t * alpha * alpha ^+ j.+1 * nth 0 cs (i.+1 - k + j)) *: am (i.+1 + j).
  apply: eq_bigr => j _; rewrite /bump /= add1n (exprS _ j.+1) mulrA.
  by congr ((_ * nth 0 cs _) *: nth 0 Av _); lia.
rewrite Es Hn.
have [T0|T0] := eqVneq (t * alpha * nth 0 cs (i - k)) 0; rewrite /=.
  rewrite T0 scale0r add0r; apply: IH => // [| | |j Hj]; [lia|lia|lia|].
  by apply: Ha; lia.
rewrite pget_ok; last by lia.
cbn [bind].
have [h1 [-> O1 C1 E1 F1]] := axpy_ok (t * alpha * nth 0 cs (i - k)) O C Hy Ey D1; cbn [bind].
have Hd j : (i.+1 <= j < i.+1 + m)%N -> ap j <> y /\ hdense h1 (ap j) = Ok (am j).
  move=> Hj; have [|N D] := Ha j; first by lia.
  by split=> //; rewrite (hdense_ext (h:=h)) // F1.
have [|||h2 [-> O2 C2 E2 F2]] := IH i.+1 (t * alpha) h1 _ O1 C1 Hy E1 Hn _ _ _ Hd; [by lia|by lia|by lia|].
exists h2; split=> //; first by rewrite E2 addrA.
by move=> q Hq; rewrite F2 // F1.
Qed.

Lemma any_nz_ok (cs : seq K) m i : (i + m <= size cs)%N -> exists b, any_nz cs m i = Ok b /\
  (b = false -> forall j, (i <= j < i + m)%N -> nth 0 cs j = 0).
Proof.
elim: m i => [|m IH] i H /=; first by exists false; split=> // _ j; lia.
rewrite cget_ok /=; last by lia.
have [Z|_] := eqVneq (nth 0 cs i) 0; last by exists true.
have [|b [-> Hb]] := IH i.+1; first by lia.
exists b; split=> // E j Hj; have [->//|N] := eqVneq j i.
by apply: Hb => //; lia.
Qed.

Definition lincomb (cs : seq K) (k : nat) (al : K) : mat :=
  \sum_(i < nm - k) (al ^+ i * nth 0 cs i) *: am (k + i).

Lemma lincombS cs k al : (k < nm)%N -> nth 0 cs 0 = 1 -> lincomb cs k al =
  am k + \sum_(j < nm - k.+1) (al ^+ j.+1 * nth 0 cs j.+1) *: am (k.+1 + j).
Proof.
move=> Hk C0; rewrite /lincomb; have -> : (nm - k = (nm - k.+1).+1)%N by lia.
rewrite big_ord_recl /= expr0 mul1r C0 scale1r addn0; congr (_ + _).
by apply: eq_bigr => j _; rewrite /bump /= add1n addnS addSn.
Qed.

Lemma maxpy_copy k cs alpha beta initial h L s : own h (s :: L) -> clean h -> user_ok h ->
  (forall i, (i < nm)%N -> ap i \in L) -> (k.+1 < nm)%N -> nth 0 cs 0 = 1 -> (nm - k <= size cs)%N ->
  (s = None \/ (exists m, hdense h s = Ok m) /\ (s = ap k \/ s \notin As)) ->
  exists h' s', [/\ maxpy Copy As nm alpha beta k (Some cs) initial h s = Ok (h', s') /\ clean h',
    own h' (s' :: L), hdense h' s' = Ok (lincomb cs k alpha) /\ (s' = ap k \/ s' \notin As),
    (forall q, q \in L -> q <> s \/ s = ap k -> hobj h' q = hobj h q) &
    [\/ s' = ap k, s' = s | s' \notin L]].
Proof.
move=> O C U A Hk C0 Sc Hs.
have AL : {subset As <= L} by move=> q /(nthP None) [i Hi <-]; apply: A; rewrite -sA.
have Ek : (nm - k = (nm - k.+1).+1)%N by lia.
have Uk := U k (ltnW Hk).
have S0 : (0 < size cs)%N by lia.
rewrite /maxpy Ek /= (cget_ok S0) /= C0 oner_eq0 /= (cget_ok S0) /= C0 eqxx /= subn1 /=.
have [|nz [-> Hz]] := @any_nz_ok cs (nm - k.+1) 1; [by rewrite add1n -Ek|cbn [bind]].
rewrite addn0 pget_ok; last by lia.
cbn [bind]; rewrite eqxx andbT.
case: ifP => Hal.
  have [|h1 [-> O1 C1 F1]] := @href_ok _ _ h (s :: L) (ap k) O C; first by right; rewrite inE A ?orbT //; lia.
  cbn [bind].
  have O1' : own h1 (s :: ap k :: L) by perm.
  have [h2 [-> O2 C2 F2]] := hdestroy_ok O1' C1; cbn [bind].
  exists h2, (ap k); split=> //; last 2 first.
  - by move=> q Hq _; rewrite F2 ?F1 // inE Hq orbT.
  - by constructor 1.
  split; last by left.
  have -> : hdense h2 (ap k) = Ok (am k) by rewrite -Uk; apply: hdense_ext; rewrite F2 ?F1 // mem_head.
  rewrite (lincombS _ (ltnW Hk) C0); congr Ok; rewrite big1 ?addr0 // => j _.
  case/orP: Hal => [/eqP->|/negbTE N]; first by rewrite expr0n /= mul0r scale0r.
  by rewrite Hz // ?mulr0 ?scale0r //; move: (ltn_ord j); lia.
have HD : exists h1 y, [/\ (if (s != None) && (s != ap k) then do h <- mat_copy h (ap k) s; Ok (h, s)
     else do h <- hdestroy h s; mat_dup h (ap k)) = Ok (h1, y) /\ clean h1, own h1 (y :: L),
     hdense h1 y = Ok (am k) /\ y \notin As,
     (forall q, q \in L -> q <> s \/ s = ap k -> hobj h1 q = hobj h q) & y = s \/ y \notin L].
  case: ifP => [/andP[/eqP N1 /eqP N2]|Hn].
    case: Hs => [//|[[m Dm] [//|Ns]]].
    rewrite /mat_copy Uk Dm; cbn [bind].
    have [h1 [-> O1 C1 E1 F1]] := hset_ok (Dense (am k)) O C (mem_head _ _) N1; cbn [bind].
    exists h1, s; split=> //; first by split=> //; exact: obj_hdense.
      by move=> q Hq [Q|//]; exact: F1.
    by left.
  have [h1 [-> O1 C1 F1]] := hdestroy_ok O C; cbn [bind].
  have D1 : hdense h1 (ap k) = Ok (am k) by rewrite (hdense_ext (h:=h)) // F1 // A // ltnW.
  have [h2 [i [[-> O2] C2 N2 E2 F2]]] := dup_ok O1 C1 D1.
  exists h2, (Some i); split=> //; last by right.
  - by split=> //; apply: contra N2; exact: AL.
  - by move=> q Hq _; rewrite F2 // F1.
have [h1 [y [[-> C1] O1 [E1 N1] F1 Y1]]] := HD; cbn [bind].
rewrite (cget_ok S0); cbn [bind]; rewrite C0 eqxx; cbn [bind negb].
have -> : (maxn 2 nm - (k + 1) = nm - k.+1)%N by lia.
have Yl : y \in y :: L by rewrite mem_head.
have U1 j : (j < nm)%N -> hdense h1 (ap j) = Ok (am j).
  move=> Hj; rewrite -(U j Hj); apply: hdense_ext; apply: F1; first exact: A.
  case: Hs => [->|[_ [->|Ns]]]; [left=> Q|by right|left=> Q].
    by move: (U j Hj); rewrite Q.
  by move: Ns; rewrite -Q mem_nth // sA.
have [| | | |j Hj|h2 [-> O2 C2 E2 F2]] := @axpys_ok k cs alpha y (nm - k.+1) (k + 1) 1 h1 (y :: L) (am k) O1 C1 Yl E1.
- by lia.
- by lia.
- by lia.
- by have -> : (k + 1 - k + (nm - k.+1) = nm - k)%N by lia.
- split; last by apply: U1; lia.
  by move=> Q; move: N1; rewrite -Q mem_nth // sA; lia.
cbn [bind]; exists h2, y; split=> //.
- split; last by right.
  rewrite E2 (lincombS _ (ltnW Hk) C0); congr (Ok (_ + _)); apply: eq_bigr => j _.
  by rewrite mul1r addn1 addSn subSn // subnn add1n.
- move=> q Hq Q; rewrite F2 ?F1 // => Qy.
  case: Y1 => [Y1|Y1]; last by move: Y1; rewrite -Qy Hq.
  case: Q => [[]|Q]; first by rewrite Qy.
  by move: N1; rewrite Y1 Q mem_nth // sA ltnW.
- by case: Y1 => [->|Y1]; [constructor 2|constructor 3].
Qed.

(** ** The slots of T *)

Definition brow (cs : seq K) (k : nat) : Prop := forall i, (i < nm - k)%N -> nth 0 cs i = ('C(k + i, i))%:R.

Lemma lincomb_target cs k s : brow cs k -> lincomb cs k s = target k s.
Proof.
move=> B; apply: eq_bigr => i _; rewrite mulrC B //; exact: ltn_ord.
Qed.
Lemma target_last s : (0 < nm)%N -> target (nm - 1) s = am (nm - 1).
Proof.
move=> H; rewrite /target; rewrite subKn //.
by rewrite big_ord_recl big_ord0 /= addn0 bin0 expr0 mulr1 scale1r addr0.
Qed.

(** The matrix T[k] of the transformed polynomial, with the coefficient [k] of P(z+s). *)
Definition pslot (md : matmode) h p k s : Prop :=
  match md with
  | Copy => hdense h p = Ok (target k s) /\ (p = ap k \/ p \notin As)
  | Inplace => False
  | ShellMode => (exists cs, hobj h p = Ok (Shell n s (Some cs) (iota k (nm - k))) /\ brow cs k /\ (k.+1 < nm)%N) \/
                 (k = (nm - 1)%N /\ p = ap k)
  end.
Lemma pslot_ext md h h' p k s : hobj h' p = hobj h p -> pslot md h p k s -> pslot md h' p k s.
Proof. by move=> E; rewrite /pslot (hdense_ext E) E. Qed.

Lemma maxpy_slot md k s beta (initial : bool) cs h L p : own h (p :: L) -> clean h -> user_ok h -> md <> Inplace ->
  (forall i, (i < nm)%N -> ap i \in L) -> (2 < nm)%N -> (k.+1 < nm)%N ->
  (md = Copy \/ initial -> exists2 c, cs = Some c & brow c k /\ (nm - k <= size c)%N) ->
  (if initial then p = None else exists old, pslot md h p k old) ->
  exists h' p', [/\ maxpy md As nm s beta k cs initial h p = Ok (h', p') /\ clean h',
    own h' (p' :: L), pslot md h' p' k s,
    (forall q, q \in L -> q <> p \/ p = ap k -> hobj h' q = hobj h q) &
    [\/ p' = ap k, p' = p | p' \notin L]].
Proof.
move=> O C U; case: md => // _ A Hn Hk Hc Hp.
  have [|c -> [B Sc]] := Hc; first by left.
  have C0 : nth 0 c 0 = 1 by rewrite B ?addn0 ?bin0 // subn_gt0 ltnW.
  have Hs : p = None \/ (exists m, hdense h p = Ok m) /\ (p = ap k \/ p \notin As).
    by move: Hp; case: (initial) => [|[old [E1 E2]]]; [left|right; split=> //; exists (target k old)].
  have [h' [p' [E1 E2 [E3 E4] E5 E6]]] := @maxpy_copy k c s beta initial h L p O C U A Hk C0 Sc Hs.
  by exists h', p'; split=> //; split=> //; rewrite E3 lincomb_target.
rewrite /maxpy; case: initial Hc Hp => Hc Hp.
  have [|c -> [B Sc]] := Hc; first by right.
  rewrite Hn size_iota Sc; cbn [bind].
  have O' : own h L by perm.
  have [h1 [i [[-> O1] C1 N1 E1 F1]]] := halloc_ok (Shell n s (Some (take (nm - k) c)) (iota k (nm - k))) O' C.
  exists h1, (Some i); split=> //; last by constructor 3.
    left; exists (take (nm - k) c); split=> //; split=> // j Hj; rewrite nth_take //; exact: B.
  by move=> q Hq _; rewrite F1.
case: Hp => old [[c [E [B Hk']]]|[E _]]; last by move: Hk; rewrite E; lia.
have Np : p <> None by move=> Q; move: E; rewrite Q.
rewrite E; cbn [bind].
have [h1 [-> O1 C1 E1 F1]] := hset_ok (Shell n s (Some c) (iota k (nm - k))) O C (mem_head _ _) Np; cbn [bind].
exists h1, p; split=> //; last by constructor 2.
  by left; exists c.
move=> q Hq [Q|Q]; first exact: F1.
by move: (U k (ltnW Hk)); rewrite -Q /hdense E.
Qed.

(** ** The loop *)

Section Build.
Variables (L0 : seq ptr) (md : matmode).
Hypothesis A0 : forall i, (i < nm)%N -> ap i \in L0.
Hypothesis Hn : (2 < nm)%N.
Hypothesis Hmd : md <> Inplace.
Variable first : nat -> nat.

Record inv h (T : seq ptr) : Prop := Inv {
  i_own : own h (T ++ L0); i_clean : clean h; i_user : user_ok h; i_size : size T = nm;
  i_alias : forall j k, (j < nm)%N -> (k < nm)%N -> nth None T j = nth None T k ->
    [\/ j = k, nth None T k = None | nth None T k \in As] }.

Lemma build_step (s beta : K) (initial : bool) cs k h T : inv h T -> (k < nm)%N -> ((first k).+1 < nm)%N ->
  (md = Copy \/ initial -> exists2 c, cs = Some c & brow c (first k) /\ (nm - first k <= size c)%N) ->
  (if initial then nth None T k = None else exists old, pslot md h (nth None T k) (first k) old) ->
  exists h' p, [/\ maxpy md As nm s beta (first k) cs initial h (nth None T k) = Ok (h', p),
    inv h' (set_nth None T k p), pslot md h' p (first k) s &
    forall j, (j < nm)%N -> j <> k -> hobj h' (nth None T j) = hobj h (nth None T j)].
Proof.
case=> O C U S Al Hk Hf Hc Hp.
pose L := set_nth None T k None ++ L0.
have SL : size (set_nth None T k None) = nm by rewrite size_set_nth S; lia.
have O1 : own h (nth None T k :: L).
  apply: own_perm O _ => i; by rewrite /L /= !count_cat (count_out (T:=T) i (k:=k)) ?S // addnA leqnn.
have AL i : (i < nm)%N -> ap i \in L by move=> Hi; rewrite mem_cat A0 ?orbT.
have TL j : (j < nm)%N -> j <> k -> nth None T j \in L.
  move=> Hj /eqP Njk; rewrite mem_cat; apply/orP; left.
  by have := @mem_nth _ None (set_nth None T k None) j; rewrite SL nth_set_nth /= (negbTE Njk); apply.
have PA : nth None T k \in As -> nth None T k = ap (first k).
  move=> M; case: initial Hc Hp => Hc Hp.
    move: M; rewrite Hp => /(nthP None) [i]; rewrite sA => Hi Q.
    by move: (U i Hi); rewrite Q.
  case: Hp => old; rewrite /pslot; case: (md) => //; first by case=> _ [//|]; rewrite M.
  case=> [[c [E _]]|[_ //]].
  move/(nthP None): M => [i]; rewrite sA => Hi Q.
  by move: (U i Hi); rewrite Q /hdense E.
have [h' [p [[E C'] O' Ps F Pp]]] := @maxpy_slot md (first k) s beta initial cs h L _ O1 C U Hmd AL Hn Hf Hc Hp.
have FT j : (j < nm)%N -> j <> k -> hobj h' (nth None T j) = hobj h (nth None T j).
  move=> Hj Njk; have [Q|Q] := eqVneq (nth None T j) (nth None T k); last first.
    by apply: F; [exact: TL|left; exact/eqP].
  case: (Al j k Hj Hk Q) => [//|Q2|Q2]; first by rewrite Q Q2.
  by apply: F; [exact: TL|right; exact: PA].
have U' : user_ok h'.
  move=> i Hi; rewrite -(U i Hi); apply: hdense_ext.
  have [Q|Q] := eqVneq (ap i) (nth None T k); last by apply: F; [exact: AL|left; exact/eqP].
  by apply: F; [exact: AL|right; apply: PA; rewrite -Q mem_nth // sA].
exists h', p; split=> //; constructor=> //.
- apply: own_perm O' _ => i; by rewrite /L /= !count_cat (count_in (T:=T) p i (k:=k)) ?S // addnA leqnn.
- by rewrite size_set_nth S; lia.
move=> i j Hi Hj; rewrite !nth_set_nth /=.
case: (i =P k) => [->|Nik]; case: (j =P k) => [->|Njk]; first by constructor 1.
- move=> Q; case: Pp => [Q1|Q1|]; last by rewrite Q TL.
    by constructor 3; rewrite -Q Q1 mem_nth // sA ltnW.
  by rewrite -Q Q1; case: (Al k j Hk Hj _) => [|Q2|Q2|Q2];
     [rewrite -Q Q1|case: Njk|constructor 2; rewrite -Q1 Q|constructor 3; rewrite -Q1 Q].
- move=> Q; case: Pp => [Q1|Q1|]; last by rewrite -Q TL.
    by constructor 3; rewrite Q1 mem_nth // sA ltnW.
  by case: (Al i k Hi Hk _) => [|Q2|Q2|Q2];
     [rewrite Q Q1|case: Nik|constructor 2; rewrite Q1|constructor 3; rewrite Q1].
- exact: Al.
Qed.

Lemma build_ok (s beta : K) (initial : bool) (off : nat -> nat) cs ks h T : inv h T -> uniq ks ->
  (forall k, k \in ks -> (k < nm)%N /\ ((first k).+1 < nm)%N) ->
  (forall k, k \in ks -> md = Copy \/ initial -> exists2 c, omap (drop (off k)) cs = Some c &
     brow c (first k) /\ (nm - first k <= size c)%N) ->
  (forall k, k \in ks -> if initial then nth None T k = None
     else exists old, pslot md h (nth None T k) (first k) old) ->
  (forall k, (k < nm)%N -> k \notin ks -> pslot md h (nth None T k) (first k) s) ->
  exists h' T', [/\ build md As nm s beta initial first off cs ks h T = Ok (h', T'), inv h' T' &
    forall k, (k < nm)%N -> pslot md h' (nth None T' k) (first k) s].
Proof.
elim: ks h T => [|k ks IH] h T I /=; first by move=> _ _ _ _ H; exists h, T; split=> // k Hk; exact: H.
case/andP=> Nk Uk Hb Hc Hp Hd.
have [Hk Hf] := Hb k (mem_head _ _).
rewrite pget_ok; last by rewrite (i_size I).
cbn [bind].
have [h1 [p [-> I1 P1 F1]]] := build_step s beta I Hk Hf (Hc k (mem_head _ _)) (Hp k (mem_head _ _)); cbn [bind].
apply: IH => //.
- by move=> j Hj; apply: Hb; rewrite inE Hj orbT.
- by move=> j Hj; apply: Hc; rewrite inE Hj orbT.
- move=> j Hj; have Njk : j <> k by move=> Q; move: Nk; rewrite -Q Hj.
  have [|Hjn _] := Hb j; first by rewrite inE Hj orbT.
  have := Hp j; rewrite inE Hj orbT nth_set_nth /= (introF eqP Njk) => /(_ isT).
  case: (initial) => // -[old Hold]; exists old; apply: pslot_ext Hold; exact: F1.
- move=> j Hj Nj; rewrite nth_set_nth /=; case: (j =P k) => [->//|Njk].
  apply: pslot_ext (F1 j Hj Njk) _; apply: Hd => //.
  by rewrite inE negb_or Nj andbT; apply/eqP.
Qed.
End Build.

End P.
