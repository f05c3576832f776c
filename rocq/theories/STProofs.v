(** Heap of matrix objects: ownership, and the three ways of building a transformed matrix. *)
From mathcomp Require Import all_ssreflect all_algebra zify.
From Verif Require Import Prelude STModel STSpec.
Set Implicit Arguments. Unset Strict Implicit. Unset Printing Implicit Defensive.
Import GRing.Theory.
Local Open Scope ring_scope.

Section P.
Variable K : fieldType.
Variable conj : {rmorphism K -> K}.
Variable n : nat.
Notation mat := 'M[K]_n.
Notation vec := 'cV[K]_n.
Notation heap := (heap K n).
Notation obj := (obj K n).
Implicit Types (h : heap) (L : seq ptr) (p q s : ptr).

Definition rc h (i : nat) : nat := if cell h i is Some (r, _) then r else 0%N.
(** Every reference of the list is counted. *)
Definition own h L : Prop := forall i, (count_mem (Some i) L <= rc h i)%N.
Definition clean h : Prop := forall i, (nxt h <= i)%N -> cell h i = None.

Lemma own_perm h L L' : own h L -> (forall i, count_mem (Some i) L' <= count_mem (Some i) L)%N -> own h L'.
Proof. by move=> H G i; apply: leq_trans (G i) (H i). Qed.

Lemma own_live h L i : own h L -> Some i \in L -> exists r o, cell h i = Some (r.+1, o).
Proof.
move=> H; rewrite -has_pred1 has_count => G.
have := leq_trans G (H i); rewrite /rc; case: (cell h i) => [[[|r] o]|] //= _.
by exists r, o.
Qed.

Lemma own_hobj h L p : own h L -> p \in L -> p <> None -> exists o, hobj h p = Ok o.
Proof. by case: p => // i H G _; have [r [o E]] := own_live H G; exists o; rewrite /= E. Qed.

Lemma href_ok h L p : own h L -> clean h -> p = None \/ p \in L ->
  exists h', [/\ href h p = Ok h', own h' (p :: L), clean h' & forall q, hobj h' q = hobj h q].
Proof.
move=> H C; case: p => [i|] /= G; last first.
  by exists h; split=> // i; have := H i; rewrite /=; lia.
case: G => // G; have [r [o E]] := own_live H G; rewrite E.
exists (hput h i (Some (r.+2, o))); split=> //.
- move=> k /=; have := H k; rewrite /rc /hput /= /upd.
  have [->|Hki] := eqVneq k i; first by rewrite E eqxx /=; lia.
  have -> : (Some i == Some k) = false by apply/eqP=> -[] /esym/eqP; rewrite (negbTE Hki).
  by rewrite /= add0n.
- move=> k Hk /=; rewrite /upd; case: eqP => [Ek|_]; last exact: C.
  by move: (C k Hk); rewrite Ek E.
- by case=> // k /=; rewrite /upd; case: eqP => // ->; rewrite E.
Qed.

Lemma hdestroy_ok h L p : own h (p :: L) -> clean h ->
  exists h', [/\ hdestroy h p = Ok h', own h' L, clean h' & forall q, q \in L -> hobj h' q = hobj h q].
Proof.
move=> H C; case: p H => [i|] H /=; last by exists h; split=> // k; have := H k; rewrite /=; lia.
have [r [o E]] := own_live H (mem_head _ _); rewrite E.
have Hi := H i; rewrite /= eqxx /rc E in Hi.
have neq k : k != i -> (Some i == Some k :> ptr) = false.
  by move=> Hki; apply/eqP=> -[] /esym/eqP; rewrite (negbTE Hki).
have Cn k v : (nxt h <= k)%N -> upd (cell h) i v k = None.
  by move=> Hk; rewrite /upd; case: eqP => [Ek|_]; [move: (C k Hk); rewrite Ek E|exact: C].
case: r Hi E => [|r] Hi E.
- exists (hput h i None); split=> // [k|k Hk|]; last 1 first.
  + case=> // k Hk /=; rewrite /upd; case: eqP => // Ek.
    by move: Hk Hi; rewrite Ek -has_pred1 has_count add1n ltnS leqn0 => G /eqP Q; rewrite Q in G.
  + rewrite /rc /hput /= /upd; have [->|Hki] := eqVneq k i; first by lia.
    by have := H k; rewrite /= neq // /rc add0n.
  + exact: Cn.
- exists (hput h i (Some (r.+1, o))); split=> // [k|k Hk|]; last 1 first.
  + by case=> // k _ /=; rewrite /upd; case: eqP => // ->; rewrite E.
  + rewrite /rc /hput /= /upd; have [->|Hki] := eqVneq k i; first by lia.
    by have := H k; rewrite /= neq // /rc add0n.
  + exact: Cn.
Qed.

Lemma halloc_ok h L o : own h L -> clean h ->
  exists h' i, [/\ halloc h o = (h', i) /\ own h' (Some i :: L), clean h',
    Some i \notin L, hobj h' (Some i) = Ok o & forall q, q \in L -> hobj h' q = hobj h q].
Proof.
move=> H C; set i := nxt h.
have Hn : Some i \notin L.
  by apply/negP=> G; have [r [o' E]] := own_live H G; rewrite C in E.
exists (Heap (upd (cell h) i (Some (1%N, o))) i.+1), i; split=> //.
- split=> // k; rewrite /rc /= /upd; have [->|Hki] := eqVneq k i.
    by rewrite eqxx; move: Hn; rewrite -has_pred1 has_count -eqn0Ngt => /eqP ->.
  have -> : (Some i == Some k :> ptr) = false by apply/eqP=> -[] /esym/eqP; rewrite (negbTE Hki).
  by rewrite add0n; exact: H.
- by move=> k /= Hk; rewrite /upd; case: eqP => [Ek|_]; [lia|apply: C; lia].
- by rewrite /= /upd eqxx.
- by case=> // k Hk /=; rewrite /upd; case: eqP => // Ek; rewrite -Ek Hk in Hn.
Qed.

Lemma hset_ok h L p o : own h L -> clean h -> p \in L -> p <> None ->
  exists h', [/\ hset h p o = Ok h', own h' L, clean h', hobj h' p = Ok o &
    forall q, q <> p -> hobj h' q = hobj h q].
Proof.
case: p => // i H C G _; have [r [o' E]] := own_live H G; rewrite /= E.
exists (hput h i (Some (r.+1, o))); split=> //.
- move=> k; have := H k; rewrite /rc /hput /= /upd; have [->|Hki] := eqVneq k i => //.
  by rewrite E.
- move=> k Hk /=; rewrite /upd; case: eqP => [Ek|_]; last exact: C.
  by move: (C k Hk); rewrite Ek E.
- by rewrite /= /upd eqxx.
- by case=> // k Hk /=; rewrite /upd; case: eqP => // Ek; case: Hk; rewrite Ek.
Qed.

Arguments halloc : simpl never.
Arguments hset : simpl never.
Arguments href : simpl never.
Arguments hdestroy : simpl never.
Arguments hdense : simpl never.
Arguments hobj : simpl never.

Lemma hdense_obj h p m : hdense h p = Ok m -> hobj h p = Ok (Dense m).
Proof. by rewrite /hdense; case: (hobj h p) => //= -[] //= m' [->]. Qed.
Lemma obj_hdense h p m : hobj h p = Ok (Dense m) -> hdense h p = Ok m.
Proof. by rewrite /hdense => ->. Qed.
Lemma hdense_ext h h' p : hobj h' p = hobj h p -> hdense h' p = hdense h p.
Proof. by rewrite /hdense => ->. Qed.
Lemma hdense_some h p m : hdense h p = Ok m -> p <> None.
Proof. by case: p. Qed.

Lemma axpy_ok h L y x a my mx : own h L -> clean h -> y \in L -> hdense h y = Ok my -> hdense h x = Ok mx ->
  exists h', [/\ mat_axpy h y a x = Ok h', own h' L, clean h', hdense h' y = Ok (my + a *: mx) &
    forall q, q <> y -> hobj h' q = hobj h q].
Proof.
move=> H C Hy Ey Ex; rewrite /mat_axpy Ey Ex /=.
have [h' [E1 E2 E3 E4 E5]] := hset_ok (Dense (my + a *: mx)) H C Hy (hdense_some Ey).
by exists h'; split=> //; apply: obj_hdense.
Qed.
Lemma shift_ok h L y a my : own h L -> clean h -> y \in L -> hdense h y = Ok my ->
  exists h', [/\ mat_shift h y a = Ok h', own h' L, clean h', hdense h' y = Ok (my + a *: 1%:M) &
    forall q, q <> y -> hobj h' q = hobj h q].
Proof.
move=> H C Hy Ey; rewrite /mat_shift Ey /=.
have [h' [E1 E2 E3 E4 E5]] := hset_ok (Dense (my + a%:M)) H C Hy (hdense_some Ey).
exists h'; split=> //; apply: obj_hdense; rewrite E4; congr (Ok (Dense _)).
by rewrite scale_scalar_mx mulr1.
Qed.

Lemma dup_ok h L x m : own h L -> clean h -> hdense h x = Ok m ->
  exists h' i, [/\ mat_dup h x = Ok (h', Some i) /\ own h' (Some i :: L), clean h',
    Some i \notin L, hdense h' (Some i) = Ok m & forall q, q \in L -> hobj h' q = hobj h q].
Proof.
move=> O C E; have [h' [i [[A1 A2] A3 A4 A5 A6]]] := halloc_ok (Dense m) O C.
exists h', i; split=> //; last exact: obj_hdense.
by split=> //; rewrite /mat_dup E; cbn [bind]; rewrite A1.
Qed.
Arguments mat_dup : simpl never.

(** The second matrix. *)
Definition isB h (x1 : ptr) (b : option mat) : Prop :=
  match b with Some mb => hdense h x1 = Ok mb | None => x1 = None end.
Lemma isB_ext h h' x1 b : hobj h' x1 = hobj h x1 -> isB h x1 b -> isB h' x1 b.
Proof. by case: b => //= mb E <-; apply: hdense_ext. Qed.

(** Y = Y + a B, with B the second matrix or the identity. *)
Lemma addB_ok h L y x1 (nm : nat) a my (b : option mat) : own h L -> clean h -> y \in L -> hdense h y = Ok my ->
  nm = (if b is Some _ then 2 else 1)%N ->
  isB h x1 b ->
  exists h', [/\ (if (1 < nm)%N then mat_axpy h y a x1 else mat_shift h y a) = Ok h', own h' L, clean h',
    hdense h' y = Ok (my + a *: second b) & forall q, q <> y -> hobj h' q = hobj h q].
Proof.
move=> H C Hy Ey ->; case: b => [mb|] Hb /=; first exact: axpy_ok.
exact: shift_ok.
Qed.

Definition idx_of (b : option mat) : seq nat := (if b is Some _ then [:: 0; 1] else [:: 0])%N.

(** What must be known of the slot S before the call, and what is known after. *)
Definition slot_pre (md : matmode) (initial : bool) (x0 x1 : ptr) (b : option mat) h s : Prop :=
  match md with
  | Copy => s = None \/ s = x0 \/ (s <> x1 /\ exists m, hdense h s = Ok m)
  | Inplace => initial \/ s = x0
  | ShellMode => initial \/ exists al, hobj h s = Ok (Shell n al None (idx_of b))
  end.

Lemma maxpy_ok md x0 x1 (nm : nat) alpha beta initial h L s ma (b : option mat) :
  own h (s :: L) -> clean h -> x0 \in L -> x1 \in L -> x0 <> x1 ->
  nm = (if b is Some _ then 2 else 1)%N ->
  hdense h x0 = Ok ma -> isB h x1 b ->
  slot_pre md initial x0 x1 b h s ->
  exists h' s', [/\ maxpy md [:: x0; x1] nm alpha beta 0 None initial h s = Ok (h', s') /\ clean h',
    own h' (s' :: L), s' <> None /\ s' <> x1,
    (forall q, q \in L -> q <> s' -> hobj h' q = hobj h q) /\ hobj h' x1 = hobj h x1 &
    match md with
    | Copy => [/\ hdense h' s' = Ok (ma + alpha *: second b), hobj h' x0 = hobj h x0,
                 s' = x0 \/ s' = s \/ s' \notin L &
                 alpha != 0 -> s' <> x0 /\ (s <> x0 -> s <> None -> s' = s)]
    | Inplace => s' = x0 /\ hdense h' x0 = Ok (ma + (if initial then alpha else alpha - beta) *: second b)
    | ShellMode => [/\ hobj h' s' = Ok (Shell n alpha None (idx_of b)), hobj h' x0 = hobj h x0,
                      s' = s \/ s' \notin L & ~~ initial -> s' = s]
    end].
Proof.
move=> H C Hx0 Hx1 Hx01 Hnm E0 E1 Hpre.
have nm2 : (nm <= 2)%N by rewrite Hnm; case: (b).
have x0N := hdense_some E0.
have own1 : own h L by apply: own_perm H _ => i /=; lia.
case: md Hpre => Hpre; rewrite /maxpy.
- (* Copy *)
  cbn [bind pget size nth]. rewrite /pget /= orbF eqxx andbT.
  have [Ea|Na] := eqVneq alpha 0.
    have [h1 [R1 O1 C1 F1]] := href_ok own1 C (or_intror Hx0).
    (* the count of s is kept *)
    have O1' : exists h1', [/\ href h x0 = Ok h1', own h1' (s :: x0 :: L), clean h1' & forall q, hobj h1' q = hobj h q].
      have Hx0' : x0 \in s :: L by rewrite inE Hx0 orbT.
      have [g [G1 G2 G3 G4]] := href_ok H C (or_intror Hx0').
      by exists g; split=> //; apply: own_perm G2 _ => i /=; lia.
    have {h1 R1 O1 C1 F1} [h1 [R1 O1 C1 F1]] := O1'.
    rewrite R1 /=.
    have [h2 [R2 O2 C2 F2]] := hdestroy_ok O1 C1.
    rewrite R2 /=; exists h2, x0; split=> //.
    + split=> [q Hq _|]; first by rewrite F2 ?F1 // inE Hq orbT.
      by rewrite F2 ?F1 // inE Hx1 orbT.
    + split=> //; [|by rewrite F2 ?F1 // inE Hx0 orbT|by left].
      rewrite (hdense_ext (h:=h)) ?Ea ?scale0r ?addr0 //.
      by rewrite F2 ?F1 // inE Hx0 orbT.
  have Hstep : exists h1 s1, [/\
      (if (s != None) && (s != x0) then do h <- mat_copy h x0 s; Ok (h, s) else do h <- hdestroy h s; mat_dup h x0)
        = Ok (h1, s1), own h1 (s1 :: L), clean h1,
      [/\ hdense h1 s1 = Ok ma, s1 <> x0, s1 <> x1 & s1 <> None] /\ (s1 = s \/ s1 \notin L) &
      (forall q, q \in L -> q <> s1 -> hobj h1 q = hobj h q) /\ (s <> x0 -> s <> None -> s1 = s)].
    case: (eqVneq s None) => [sN|sN]; [|case: (eqVneq s x0) => [sx|sx]].
    - rewrite sN; have -> : hdestroy h None = Ok h by [].
      have [h' [i [[A1 A2] A3 A4 A5 A6]]] := dup_ok own1 C E0.
      rewrite /= A1; exists h', (Some i); split=> //; last by split=> // q Hq _; exact: A6.
      split; last by right.
      by split=> //; [move=> Q; rewrite -Q (negbTE A4) in Hx0|move=> Q; rewrite -Q (negbTE A4) in Hx1].
    - have [h' [D1 D2 D3 D4]] := hdestroy_ok H C.
      rewrite andbF D1; cbn [bind].
      have E0' : hdense h' x0 = Ok ma by rewrite (hdense_ext (h:=h)) ?D4.
      have [h2 [i [[A1 A2] A3 A4 A5 A6]]] := dup_ok D2 D3 E0'.
      rewrite A1; exists h2, (Some i); split=> //.
      + split; last by right.
        by split=> //; [move=> Q; rewrite -Q (negbTE A4) in Hx0|move=> Q; rewrite -Q (negbTE A4) in Hx1].
      + by split=> // q Hq _; rewrite A6 ?D4.
    - rewrite /=; case: Hpre => [Q|[Q|[sx1 [m Em]]]]; [by rewrite Q in sN|by rewrite Q eqxx in sx|].
      rewrite /mat_copy E0 Em /=.
      have [h' [S1 S2 S3 S4 S5]] := hset_ok (Dense ma) H C (mem_head _ _) (hdense_some Em).
      rewrite S1 /=; exists h', s; split=> //.
      + split; last by left.
        by split=> //; [exact: obj_hdense|exact/eqP|exact: hdense_some Em].
      + by split=> // q _; exact: S5.
  have [h1 [s1 [-> O1 C1 [[D1 D2 D3 D4] D5] [F1 F1']]]] := Hstep; rewrite /=.
  have E1' : isB h1 x1 b by apply: isB_ext E1; apply: F1 => //; exact: nesym.
  have -> : (maxn 2 nm - 1)%N = 1%N by lia.
  cbn [axpys bind]; rewrite mul1r Na.
  have [h2 [A1 A2 A3 A4 A5]] := addB_ok alpha O1 C1 (mem_head _ _) D1 Hnm E1'.
  rewrite /pget /=; cbn [bind]; rewrite A1 /=.
  exists h2, s1; split=> //.
  + split=> [q Hq Hs|]; first by rewrite A5 ?F1.
    by rewrite A5 ?F1 //; exact: nesym.
  + split=> //; first by rewrite A5 ?F1 //; exact: nesym.
    by right.
- (* Inplace *)
  rewrite nm2 /= /pget /=.
  have Hstep : exists h1, [/\ (if initial then do h <- href h x0; Ok (h, x0, alpha) else Ok (h, s, alpha - beta))
       = Ok (h1, x0, if initial then alpha else alpha - beta), own h1 (x0 :: L), clean h1 &
       forall q, hobj h1 q = hobj h q].
    case: initial Hpre => Hpre.
      have [h1 [-> O1 C1 F1]] := href_ok own1 C (or_intror Hx0).
      by exists h1.
    by case: Hpre => // <-; exists h.
  have [h1 [-> O1 C1 F1]] := Hstep; rewrite /=.
  set gamma := if initial then _ else _.
  have E0' : hdense h1 x0 = Ok ma by rewrite (hdense_ext (h:=h)).
  have E1' : isB h1 x1 b by apply: isB_ext E1.
  have [Eg|Ng] := eqVneq gamma 0.
    rewrite /=; exists h1, x0; split=> //; last by rewrite Eg scale0r addr0.
  rewrite /=; have [h2 [A1 A2 A3 A4 A5]] := addB_ok gamma O1 C1 (mem_head _ _) E0' Hnm E1'.
  rewrite A1 /=; exists h2, x0; split=> //; split=> [q _ Hq|].
    by rewrite A5.
  by rewrite A5; [exact: F1|exact: nesym].
- (* Shell *)
  case: initial Hpre => Hpre.
    have -> : (2 < nm)%N = false by lia.
    have -> : (if (1 < nm)%N then [:: 0; 1]%N else [:: 0]%N) = idx_of b by rewrite Hnm; case: (b).
    cbn [bind].
    have [h' [i [[A1 A2] A3 A4 A5 A6]]] := halloc_ok (Shell n alpha None (idx_of b)) own1 C.
    rewrite A1; exists h', (Some i); split=> //.
    + by split=> // Q; rewrite Q Hx1 in A4.
    + split; first by move=> q Hq _; exact: A6.
      by rewrite A6.
    + by split=> //; [rewrite A6|right].
  case: Hpre => // -[al Es].
  have sN : s <> None by move=> Q; rewrite Q in Es.
  have s0 : x0 <> s by move=> Q; rewrite -Q (hdense_obj E0) in Es.
  have s1 : x1 <> s.
    by move=> Q; move: E1; case: (b) => [mb|] G; [rewrite -Q (hdense_obj G) in Es|rewrite G in Q; rewrite -Q in sN].
  rewrite Es /=; have [h' [S1 S2 S3 S4 S5]] := hset_ok (Shell n alpha None (idx_of b)) H C (mem_head _ _) sN.
  rewrite S1 /=; exists h', s; split=> //; first by split=> //; exact: nesym.
    by split=> [q _|]; exact: S5.
  by split=> //; [exact: S5|left].
Qed.

End P.
