(** The ST object refines the abstract object: relation, and computation of the operator. *)
From mathcomp Require Import all_ssreflect all_algebra zify.
From Verif Require Import Prelude STModel STSpec STProofs.
Set Implicit Arguments. Unset Strict Implicit. Unset Printing Implicit Defensive.
Import GRing.Theory.
Local Open Scope ring_scope.

Section P.
Variable K : fieldType.
Variable conj : {rmorphism K -> K}.
Variable n : nat.
Notation mat := 'M[K]_n.
Notation vec := 'cV[K]_n.
Notation heap := (heap K n).
Notation world := (world K n).
Implicit Types (h : heap) (L : seq ptr) (p q s : ptr) (w : world).

Definition slots w : seq ptr := [:: u0 w; u1 w; a0 w; a1 w; t0 w; t1 w; pp w; ksp w].

(** A transformed matrix A + coef B; [cur] tells whether its content is up to date. *)
Definition slot (cur : bool) (md : matmode) h (x0 x1 : ptr) (a : mat) (b : option mat) (p : ptr) (coef : K) : Prop :=
  [/\ p <> None, p <> x1 &
   match md with
   | Copy => exists m, [/\ hdense h p = Ok m, cur -> m = a + coef *: second b & cur -> coef != 0 -> p <> x0]
   | Inplace => p = x0
   | ShellMode => exists al, hobj h p = Ok (Shell n al None (idx_of b)) /\ (cur -> al = coef)
   end].

Definition tstruct (cur : bool) w (a : mat) (b : option mat) : Prop :=
  let sl := slot cur (mode w) (hp w) (a0 w) (a1 w) a b in
  match ty w with
  | Shift => [/\ t1 w = a1 w, sl (t0 w) (- sigma w) &
      cur -> [/\ pp w = a1 w, mm w = t0 w & isSome b -> ksp w = a1 w]]
  | Sinvert => [/\ t0 w = a1 w, sl (t1 w) (- sigma w) &
      cur -> [/\ pp w = t1 w, ksp w = t1 w & mm w = a1 w]]
  | Cayley => [/\ (if inplace (mode w) then hobj (hp w) (t0 w) = Ok (CayleyShell K n) else sl (t0 w) (nu w)),
      sl (t1 w) (- sigma w), t0 w = t1 w -> t0 w = a0 w &
      cur -> [/\ pp w = t1 w, ksp w = t1 w & mm w = t0 w]]
  end.

(** The abstract object is read off the concrete one, except for [built] and the matrices. *)
Definition abs w (built : bool) (ms : option (mat * option mat)) : sst K n :=
  Sst (ty w) (mode w) (sigma w) (sigset w) (defsig w) (transf w) (state w) (opready w) (opmade w) built ms
      (nu w) (nuset w) (bal w).

Definition shiftedw w : bool := inplace (mode w) && opready w.

Record rel w (built : bool) (ms : option (mat * option mat)) : Prop := Rel {
  r_own : own (hp w) (slots w);
  r_clean : clean (hp w);
  r_built : built = false -> [/\ t0 w = None, t1 w = None & opready w = false];
  r_none : ms = None -> [/\ nmat w = 0%N, [/\ a0 w = None, a1 w = None, u0 w = None & u1 w = None],
     state w = Initial, built = false & opready w = false];
  r_nmat : forall a b, ms = Some (a, b) -> nmat w = (if b is Some _ then 2 else 1)%N;
  r_user : a0 w = u0 w /\ a1 w = u1 w;
  r_dist : forall a b, ms = Some (a, b) -> u0 w <> u1 w;
  r_A : forall a b, ms = Some (a, b) ->
     hdense (hp w) (u0 w) = Ok (if shiftedw w then a + - sigma w *: second b else a);
  r_B : forall a b, ms = Some (a, b) -> isB (hp w) (u1 w) b;
  r_setup : state w = SetUp -> opready w;
  r_tr : state w = SetUp -> transf w;
  r_def : opready w -> ty w <> Shift -> sigset w = false -> sigma w = defsig w;
  r_nu : opready w -> ty w = Cayley -> nuset w = false -> nu w = sigma w /\ nu w != 0;
  r_bal : if bal w is Some d then [forall i, d i 0 != 0] else true;
  r_T : forall a b, ms = Some (a, b) -> opready w || ~~ state_eq (state w) Initial -> tstruct (opready w) w a b }.

Lemma assign_ok h L sl x : own h (sl :: L) -> clean h -> x = None \/ x \in L ->
  exists h', [/\ assign h sl x = Ok h', own h' (x :: L), clean h' &
    forall q, q \in x :: L -> hobj h' q = hobj h q].
Proof.
move=> H C Hx.
have Hx' : x = None \/ x \in sl :: L by case: Hx => ?; [left|right; rewrite inE; apply/orP; right].
have [h1 [R1 O1 C1 F1]] := href_ok H C Hx'.
have O2 : own h1 (sl :: x :: L) by apply: own_perm O1 _ => i /=; lia.
have [h2 [R2 O3 C3 F3]] := hdestroy_ok O2 C1.
by exists h2; split=> // [|q Hq]; [rewrite /assign R1 /=|rewrite F3].
Qed.

(* the counts are compared as sums of unknowns *)
Ltac gen_nb := repeat match goal with |- context [nat_of_bool ?b] => let k := fresh "k" in
  set k := nat_of_bool b; clearbody k end.
Ltac perm := apply: own_perm; [eassumption | clear; move=> ? /=; gen_nb; lia].
Ltac inl := by rewrite ?inE ?eqxx ?orbT.

Arguments maxpy : simpl never.
Arguments assign : simpl never.
Arguments hdense : simpl never.
Arguments hobj : simpl never.

Lemma set_P_ok w L x : own (hp w) (pp w :: L) -> clean (hp w) -> x = None \/ x \in L ->
  exists h', [/\ set_P w x = Ok (set_pp x (set_hp h' w)), own h' (x :: L), clean h' &
    forall q, q \in x :: L -> hobj h' q = hobj (hp w) q].
Proof.
move=> H C Hx; have [h' [A1 A2 A3 A4]] := assign_ok H C Hx.
by exists h'; split=> //; rewrite /set_P A1.
Qed.

Lemma ksp_set_ok w L x : own (hp w) (ksp w :: L) -> clean (hp w) -> x = None \/ x \in L ->
  exists h', [/\ ksp_set w x = Ok (set_ksp x (set_hp h' w)), own h' (x :: L), clean h' &
    forall q, q \in x :: L -> hobj h' q = hobj (hp w) q].
Proof.
move=> H C Hx; have [h' [A1 A2 A3 A4]] := assign_ok H C Hx.
by exists h'; split=> //; rewrite /ksp_set A1.
Qed.

(** A slot in the shape expected by [maxpy_ok]. *)
Lemma slot_is_pre cur md h x0 x1 a b p coef ini : slot cur md h x0 x1 a b p coef -> slot_pre md ini x0 x1 b h p.
Proof.
case=> pN p1; rewrite /slot_pre; case: md.
- by case=> m [E _ _]; right; right; split=> //; exists m.
- by move=> ->; right.
- by case=> al [E _]; right; exists al.
Qed.
Lemma none_is_pre md h x0 x1 b : slot_pre md true x0 x1 b h None.
Proof. by rewrite /slot_pre; case: md => //; left. Qed.
Lemma slot_ext cur md h h' x0 x1 a b p coef : hobj h' p = hobj h p ->
  slot cur md h x0 x1 a b p coef -> slot cur md h' x0 x1 a b p coef.
Proof. by move=> E [A B]; rewrite /slot (hdense_ext E) E. Qed.
Lemma slot_old cur md h x0 x1 a b a' p coef coef' : slot cur md h x0 x1 a b p coef -> slot false md h x0 x1 a' b p coef'.
Proof.
case=> A B; case: md => [[m [E _ _]]|E|[al [E _]]]; split=> //; first by exists m.
by exists al.
Qed.

(** What is needed before the operator is computed. *)
Definition ready_to_compute w := state w = Initial -> t0 w = None /\ t1 w = None.

Lemma pre_of st md h x0 x1 a b p coef : (st = Updated -> slot false md h x0 x1 a b p coef) ->
  (st = Initial -> p = None) -> st <> SetUp -> slot_pre md (~~ state_eq st Updated) x0 x1 b h p.
Proof.
case: st => //= A B C; last by apply: slot_is_pre (A _).
by rewrite B //; exact: none_is_pre.
Qed.

Lemma maxpyw_ok w alpha beta initial L s ma (b : option mat) :
  own (hp w) (s :: L) -> clean (hp w) -> a0 w \in L -> a1 w \in L -> a0 w <> a1 w ->
  nmat w = (if b is Some _ then 2 else 1)%N ->
  hdense (hp w) (a0 w) = Ok ma -> isB (hp w) (a1 w) b ->
  slot_pre (mode w) initial (a0 w) (a1 w) b (hp w) s ->
  exists h' s', [/\ maxpyw w alpha beta initial s = Ok (set_hp h' w, s') /\ clean h',
    own h' (s' :: L), [/\ s' <> None, s' <> a1 w & isB h' (a1 w) b],
    hdense h' (a0 w) = Ok (if inplace (mode w) then ma + (if initial then alpha else alpha - beta) *: second b else ma)
    /\ (forall q, q \in L -> (if inplace (mode w) then q <> a0 w else q <> s \/ q = a0 w) ->
         hobj h' q = hobj (hp w) q) /\ [\/ s' = a0 w, s' = s | s' \notin L] &
    match mode w with
    | Copy => hdense h' s' = Ok (ma + alpha *: second b) /\
                 (alpha != 0 -> s' <> a0 w /\ (s <> a0 w -> s <> None -> s' = s))
    | Inplace => s' = a0 w
    | ShellMode => hobj h' s' = Ok (Shell n alpha None (idx_of b)) /\ (~~ initial -> s' = s)
    end].
Proof.
move=> H C Hx0 Hx1 Hx01 Hnm E0 E1 Hpre.
have [h' [s' [[R Cl] R2 [R3 R3'] [R4 R4'] R5]]] := maxpy_ok alpha beta H C Hx0 Hx1 Hx01 Hnm E0 E1 Hpre.
have B' : isB h' (a1 w) b by apply: isB_ext E1.
exists h', s'; split=> //; first by split=> //; rewrite /maxpyw /arr R.
- move: R5; case: (mode w) => /=.
  + case=> _ Q Q' _; split; first by rewrite (hdense_ext (h:=hp w)).
    split; last by case: Q' => [|[]]; [constructor 1|constructor 2|constructor 3].
    move=> q Hq Hs; case: (eqVneq q s') => [qs|/eqP]; last exact: R4.
    case: Hs => [Hs|->]; last by [].
    case: Q' => [Q'|[Q'|Q']]; [by rewrite qs Q'|by rewrite qs Q' in Hs|by rewrite -qs Hq in Q'].
  + case=> Q1 Q; split=> //; split; last by constructor 1.
    by move=> q Hq Hs; apply: R4 => //; rewrite Q1.
  + case=> _ Q Q' _; split; first by rewrite (hdense_ext (h:=hp w)).
    split; last by case: Q'; [constructor 2|constructor 3].
    move=> q Hq Hs; case: (eqVneq q s') => [qs|/eqP]; last exact: R4.
    case: Hs => [Hs|->]; last by [].
    by case: Q' => Q'; [rewrite qs Q' in Hs|rewrite -qs Hq in Q'].
- by move: R5; case: (mode w) => [[]|[]|[]].
Qed.


Lemma slot_of md h x0 x1 a ma b s s' alpha (initial : bool) : (inplace md = false -> ma = a) -> s' <> None -> s' <> x1 ->
  match md with
  | Copy => hdense h s' = Ok (ma + alpha *: second b) /\ (alpha != 0 -> s' <> x0 /\ (s <> x0 -> s <> None -> s' = s))
  | Inplace => s' = x0
  | ShellMode => hobj h s' = Ok (Shell n alpha None (idx_of b)) /\ (~~ initial -> s' = s)
  end -> slot true md h x0 x1 a b s' alpha.
Proof.
move=> Em A B C; split=> //; case: md Em C => [Em [C D]|//|Em [C D]].
- by rewrite Em // in C; exists (a + alpha *: second b); split=> // _ /D [].
- by exists alpha.
Qed.

Definition computed w (a : mat) (b : option mat) (r : res world) : Prop :=
  exists w', [/\ r = Ok w', rel w' true (Some (a, b)) &
    abs w' true (Some (a, b)) =
    let s := abs w true (Some (a, b)) in
    Sst (ty w) (mode w) (eff_sigma s) (sigset w) (defsig w) (transf w) (state w) true (opmade w) true (Some (a, b))
      (eff_nu s) (nuset w) (bal w)].

Lemma compute_shift_ok w built a b : rel w built (Some (a, b)) -> ty w = Shift -> opready w = false ->
  ready_to_compute w -> computed w a b (compute_operator w).
Proof.
move=> R Et Er Hc; have /= HT := r_T R (erefl _); have /= Hsu := r_setup R.
have [/= U0 U1] := r_user R; have /= Ud := r_dist R (erefl _); have /= HA := r_A R (erefl _).
have /= HB := r_B R (erefl _); have /= Hn := r_nmat R (erefl _); have /= Hb := r_bal R.
have /= O := r_own R; have /= C := r_clean R.
case: w R Et Er Hc HT Hsu U0 U1 Ud HA HB Hn Hb O C =>
  h ty md sg ss df tr st rd mk nm x0 x1 y0 y1 p m kk v vs bl v0 v1 /= R Et Er Hc HT Hsu U0 U1 Ud HA HB Hn Hb O C.
subst ty rd x0 x1; rewrite /shiftedw /= andbF in HA.
rewrite /slots /= in O.
rewrite /compute_operator /compute_shift /=.
have O1 : own h (y1 :: [:: v0; v1; v0; v1; y0; p; kk]) by perm.
have Q1 : v1 = None \/ v1 \in [:: v0; v1; v0; v1; y0; p; kk] by right; inl.
have [h1 [-> O2 C2 F2]] := assign_ok O1 C Q1; cbn [bind].
have pre : slot_pre md (~~ state_eq st Updated) v0 v1 b h1 y0.
  apply: (@pre_of _ _ _ _ _ a _ _ (- sg)).
  - by move=> Es; move: HT; rewrite Es /= => /(_ isT) [_ S _]; apply: slot_ext S; apply: F2; inl.
  - by move=> Es; case: (Hc Es).
  - by move=> Es; have := Hsu Es.
have HA1 : hdense h1 v0 = Ok a by rewrite (hdense_ext (h:=h)) ?F2 //; inl.
have HB1 : isB h1 v1 b by apply: isB_ext HB; apply: F2; inl.
have O3 : own h1 (y0 :: [:: v1; v0; v1; v0; v1; p; kk]) by perm.
rewrite /=; pose w1 := W h1 Shift md sg ss df tr st false mk nm v0 v1 y0 v1 p m kk v vs bl v0 v1.
have [|//|h2 [s' [[E2 C3] O4 [N1 N2 B2] [A2 [F3 _]] Cont]]] :=
  @maxpyw_ok w1 (- sg) 0 (~~ state_eq st Updated) _ y0 a b O3 C2 _ _ Ud Hn HA1 HB1 pre; try inl.
rewrite /= in E2; rewrite E2; cbn [bind]; rewrite /=.
have xE : (if (1 < nm)%N then v1 else None) = v1 by move: Hn HB; case: (b) => [mb|] -> //= ->.
rewrite xE.
have O5 : own h2 (p :: [:: s'; v1; v0; v1; v0; v1; kk]) by perm.
pose w2 := W h2 Shift md sg ss df tr st false mk nm v0 v1 s' v1 p m kk v vs bl v0 v1.
have Q2 : v1 = None \/ v1 \in [:: s'; v1; v0; v1; v0; v1; kk] by right; inl.
have [h3 [E3 O6 C4 F4]] := @set_P_ok w2 _ v1 O5 C3 Q2.
rewrite /= in E3; rewrite E3; cbn [bind]; rewrite /=.
pose w3 := W h3 Shift md sg ss df tr st false mk nm v0 v1 s' v1 v1 s' kk v vs bl v0 v1; rewrite -/w3.
have O7 : own h3 (kk :: [:: v1; s'; v1; v0; v1; v0; v1]) by perm.
have [h4 [kk' [E5 O8 C5 F5 K5]]] : exists h4 kk', [/\
   (if (1 < nm)%N && (v1 != None) then ksp_set w3 v1 else Ok w3) = Ok (set_ksp kk' (set_hp h4 w3)),
   own h4 (kk' :: [:: v1; s'; v1; v0; v1; v0; v1]), clean h4,
   (forall q, q \in [:: v1; s'; v1; v0; v1; v0; v1] -> hobj h4 q = hobj h3 q) & isSome b -> kk' = v1].
  move: Hn HB; case: (b) => [mb|] -> /= HB; last by exists h3, kk; split.
  have -> : (v1 != None) by apply/eqP; exact: hdense_some HB.
  have Q3 : v1 = None \/ v1 \in [:: v1; s'; v1; v0; v1; v0; v1] by right; inl.
  have [h4 [E4 O8 C5 F5]] := @ksp_set_ok w3 _ v1 O7 C4 Q3.
  by exists h4, v1; split=> // q Hq; apply: F5; rewrite inE Hq orbT.
rewrite /= in E5; rewrite E5; cbn [bind]; rewrite /=.
have F q : q \in [:: s'; v0; v1] -> hobj h4 q = hobj h2 q.
  move=> Hq; rewrite F5; last by move: Hq; rewrite !inE => /or3P[]/eqP->; rewrite eqxx ?orbT.
  by apply: F4; move: Hq; rewrite !inE => /or3P[]/eqP->; rewrite eqxx ?orbT.
eexists; split; first reflexivity; last by [].
constructor=> //=.
- by rewrite /slots /=; perm.
- by move=> a1 b1 [_ <-].
- move=> a' b' [<- <-]; rewrite (hdense_ext (h:=h2)) ?A2 /shiftedw /= ?andbT; last by apply: F; inl.
  by rewrite subr0 if_same.
- by move=> a' b' [_ <-]; apply: isB_ext B2; apply: F; inl.
- by move=> Q; have := Hsu Q.
- move=> a' b' [<- <-] _; split=> //=.
  apply: slot_ext (slot_of (fun _ => erefl) N1 N2 Cont); apply: F; inl.
Qed.


Definition csin w : res world :=
  do h <- assign (hp w) (t0 w) (a1 w);
  let w := set_t0 (a1 w) (set_hp h w) in
  do '(w, t) <- maxpyw w (- sigma w) 0 (~~ state_eq (state w) Updated) (t1 w);
  let w := set_t1 t w in
  do w <- set_P w (t1 w);
  Ok (set_mm (if (1 < nmat w)%N then t0 w else None) w).
Lemma compute_sinvertE w :
  compute_sinvert w = csin (set_sigma (if sigset w then sigma w else defsig w) w).
Proof. by rewrite /compute_sinvert; case: w => ? ? ? ? []. Qed.

Lemma compute_sinvert_ok w built a b : rel w built (Some (a, b)) -> ty w = Sinvert -> opready w = false ->
  ready_to_compute w -> computed w a b (compute_operator w).
Proof.
move=> R Et Er Hc; have /= HT := r_T R (erefl _); have /= Hsu := r_setup R.
have [/= U0 U1] := r_user R; have /= Ud := r_dist R (erefl _); have /= HA := r_A R (erefl _).
have /= HB := r_B R (erefl _); have /= Hn := r_nmat R (erefl _); have /= Hb := r_bal R.
have /= O := r_own R; have /= C := r_clean R.
case: w R Et Er Hc HT Hsu U0 U1 Ud HA HB Hn Hb O C =>
  h ty md sg ss df tr st rd mk nm x0 x1 y0 y1 p m kk v vs bl v0 v1 /= R Et Er Hc HT Hsu U0 U1 Ud HA HB Hn Hb O C.
subst ty rd x0 x1; rewrite /shiftedw /= andbF in HA.
rewrite /slots /= in O.
rewrite /compute_operator; cbn [opready ty]; rewrite compute_sinvertE /csin.
cbn [sigset sigma defsig]; set g := if ss then sg else df; rewrite /=.
have O1 : own h (y0 :: [:: v0; v1; v0; v1; y1; p; kk]) by perm.
have Q1 : v1 = None \/ v1 \in [:: v0; v1; v0; v1; y1; p; kk] by right; inl.
have [h1 [-> O2 C2 F2]] := assign_ok O1 C Q1; cbn [bind].
have pre : slot_pre md (~~ state_eq st Updated) v0 v1 b h1 y1.
  apply: (@pre_of _ _ _ _ _ a _ _ (- sg)).
  - by move=> Es; move: HT; rewrite Es /= => /(_ isT) [_ S _]; apply: slot_ext S; apply: F2; inl.
  - by move=> Es; case: (Hc Es).
  - by move=> Es; have := Hsu Es.
have HA1 : hdense h1 v0 = Ok a by rewrite (hdense_ext (h:=h)) ?F2 //; inl.
have HB1 : isB h1 v1 b by apply: isB_ext HB; apply: F2; inl.
have O3 : own h1 (y1 :: [:: v1; v0; v1; v0; v1; p; kk]) by perm.
rewrite /=; pose w1 := W h1 Sinvert md g ss df tr st false mk nm v0 v1 v1 y1 p m kk v vs bl v0 v1.
have [|//|h2 [s' [[E2 C3] O4 [N1 N2 B2] [A2 [F3 _]] Cont]]] :=
  @maxpyw_ok w1 (- g) 0 (~~ state_eq st Updated) _ y1 a b O3 C2 _ _ Ud Hn HA1 HB1 pre; try inl.
rewrite /= in E2; rewrite E2; cbn [bind]; rewrite /=.
have xE : (if (1 < nm)%N then v1 else None) = v1 by move: Hn HB; case: (b) => [mb|] -> //= ->.
have O5 : own h2 (p :: [:: s'; v1; v0; v1; v0; v1; kk]) by perm.
pose w2 := W h2 Sinvert md g ss df tr st false mk nm v0 v1 v1 s' p m kk v vs bl v0 v1.
have Q2 : s' = None \/ s' \in [:: s'; v1; v0; v1; v0; v1; kk] by right; inl.
have [h3 [E3 O6 C4 F4]] := @set_P_ok w2 _ s' O5 C3 Q2.
rewrite /= in E3; rewrite E3; cbn [bind]; rewrite /= xE.
have O7 : own h3 (kk :: [:: s'; s'; v1; v0; v1; v0; v1]) by perm.
have -> : (s' != None) by apply/eqP.
pose w3 := W h3 Sinvert md g ss df tr st false mk nm v0 v1 v1 s' s' v1 kk v vs bl v0 v1; rewrite -/w3.
have Q3 : s' = None \/ s' \in [:: s'; s'; v1; v0; v1; v0; v1] by right; inl.
have [h4 [E4 O8 C5 F5]] := @ksp_set_ok w3 _ s' O7 C4 Q3.
rewrite /= in E4; rewrite E4; cbn [bind]; rewrite /=.
have F q : q \in [:: s'; v0; v1] -> hobj h4 q = hobj h2 q.
  move=> Hq; rewrite F5; last by move: Hq; rewrite !inE => /or3P[]/eqP->; rewrite eqxx ?orbT.
  by apply: F4; move: Hq; rewrite !inE => /or3P[]/eqP->; rewrite eqxx ?orbT.
eexists; split; first reflexivity; last by [].
constructor=> //=.
- by rewrite /slots /=; perm.
- by move=> a1 b1 [_ <-].
- move=> a' b' [<- <-]; rewrite (hdense_ext (h:=h2)) ?A2 /shiftedw /= ?andbT; last by apply: F; inl.
  by rewrite subr0 if_same.
- by move=> a' b' [_ <-]; apply: isB_ext B2; apply: F; inl.
- by move=> Q; have := Hsu Q.
- by rewrite /g => _ _ ->.
- move=> a' b' [<- <-] _; split=> //=.
  apply: slot_ext (slot_of (fun _ => erefl) N1 N2 Cont); apply: F; inl.
Qed.


Definition ccay1 w : res world :=
  if mode w is Inplace then
    let '(h, i) := halloc (hp w) (CayleyShell K n) in Ok (set_t0 (Some i) (set_hp h w))
  else
    do '(w, t) <- maxpyw w (nu w) 0 (~~ state_eq (state w) Updated) (t0 w);
    Ok (set_t0 t w).
Definition ccay w : res world :=
  check ((nu w != 0) || (sigma w != 0))
  (check (nu w != - sigma w)
  (do w <- ccay1 w;
   let w := set_mm (t0 w) w in
   do '(w, t) <- maxpyw w (- sigma w) 0 (~~ state_eq (state w) Updated) (t1 w);
   let w := set_t1 t w in
   set_P w (t1 w))).
Lemma compute_cayleyE w : compute_cayley w =
  let g := if sigset w then sigma w else defsig w in
  ccay (set_nu (if nuset w then nu w else g) (set_sigma g w)).
Proof. by rewrite /compute_cayley; case: w => ? ? ? ? [] ? ? ? ? ? ? ? ? ? ? ? ? ? ? []. Qed.

Lemma compute_cayley_ok w built a b : rel w built (Some (a, b)) -> ty w = Cayley -> opready w = false ->
  ready_to_compute w ->
  let s := abs w built (Some (a, b)) in
  if admissible Cayley (eff_sigma s) (eff_nu s) then computed w a b (compute_operator w)
  else compute_operator w = Err.
Proof.
move=> R Et Er Hc; have /= HT := r_T R (erefl _); have /= Hsu := r_setup R.
have [/= U0 U1] := r_user R; have /= Ud := r_dist R (erefl _); have /= HA := r_A R (erefl _).
have /= HB := r_B R (erefl _); have /= Hn := r_nmat R (erefl _); have /= Hb := r_bal R.
have /= O := r_own R; have /= C := r_clean R.
case: w R Et Er Hc HT Hsu U0 U1 Ud HA HB Hn Hb O C =>
  h ty md sg ss df tr st rd mk nm x0 x1 y0 y1 p m kk v vs bl v0 v1 /= R Et Er Hc HT Hsu U0 U1 Ud HA HB Hn Hb O C.
subst ty rd x0 x1; rewrite /shiftedw /= andbF in HA.
rewrite /slots /= in O.
rewrite /compute_operator; cbn [opready ty]; rewrite compute_cayleyE /ccay /eff_nu /eff_sigma.
cbn [sigset sigma defsig nuset nu s_ty s_sigset s_sigma s_nuset s_nu s_def abs ty].
set g := if ss then sg else df; set v' := if vs then v else g; rewrite /=.
case E1 : ((v' != 0) || (g != 0)); last by [].
case E2 : (v' != - g); last by [].
cbn [andb].
have Nn : vs = false -> v' = g /\ v' != 0.
  by rewrite /v' => Q; move: E1; rewrite /v' Q orbb.
have [h1 [s0 [X1 O1 C1 [HA1 HB1] [S0N S01 S0y S0c pre]]]] : exists h1 s0, [/\
    ccay1 (W h Cayley md g ss df tr st false mk nm v0 v1 y0 y1 p m kk v' vs bl v0 v1) =
      Ok (W h1 Cayley md g ss df tr st false mk nm v0 v1 s0 y1 p m kk v' vs bl v0 v1),
    own h1 [:: s0; v0; v1; v0; v1; y1; p; kk], clean h1, hdense h1 v0 = Ok a /\ isB h1 v1 b &
    [/\ s0 <> None, s0 <> v1, s0 = y1 -> s0 = v0,
      (if inplace md then s0 <> v0 /\ hobj h1 s0 = Ok (CayleyShell K n) else slot true md h1 v0 v1 a b s0 v') &
      slot_pre md (~~ state_eq st Updated) v0 v1 b h1 y1]].
  have pre0 h1 : (st = Updated -> hobj h1 y1 = hobj h y1) -> slot_pre md (~~ state_eq st Updated) v0 v1 b h1 y1.
    move=> Q; apply: (@pre_of _ _ _ _ _ a _ _ (- sg)).
    - move=> Es; move: HT; rewrite Es /= => /(_ isT) [_ S _ _]; apply: slot_ext S; exact: Q.
    - by move=> Es; case: (Hc Es).
    - by move=> Es; have := Hsu Es.
  have Hyy : y1 <> None -> y0 = y1 -> y0 = v0.
    move=> yN; move: HT Hc Hsu; rewrite /ready_to_compute /=; case: (st) => /= HT' Hc' Hsu'.
    - by case: (Hc' (erefl _)) => _ Q; case: (yN Q).
    - by have := Hsu' (erefl _).
    - by have [] := HT' isT.
  rewrite /ccay1; cbn [mode nu state t0 hp]; case Em : (inplace md).
    have Em' : md = Inplace by case: (md) Em.
    have O1 : own h [:: v0; v1; v0; v1; y1; p; kk] by perm.
    have [h' [i [[A1 A2] A3 A4 A5 A6]]] := halloc_ok (CayleyShell K n) O1 C.
    rewrite Em' A1; exists h', (Some i).
    have ni q : q \in [:: v0; v1; v0; v1; y1; p; kk] -> Some i <> q by move=> Q Q'; rewrite Q' Q in A4.
    split=> //.
    + split; first by rewrite (hdense_ext (h:=h)) ?A6 //; inl.
      by apply: isB_ext HB; apply: A6; inl.
    + split=> //.
      * by apply: ni; inl.
      * by move=> Q; case: (ni y1) => //; inl.
      * by split=> //; apply: ni; inl.
      * by rewrite -Em'; apply: pre0 => _; apply: A6; inl.
  have pre1 : slot_pre md (~~ state_eq st Updated) v0 v1 b h y0.
    apply: (@pre_of _ _ _ _ _ a _ _ v).
    - by move=> Es; move: HT; rewrite Es /= => /(_ isT) [S _ _ _]; move: S; rewrite /= Em.
    - by move=> Es; case: (Hc Es).
    - by move=> Es; have := Hsu Es.
  have O1 : own h (y0 :: [:: v0; v1; v0; v1; y1; p; kk]) by perm.
  have [|//|h1 [s0 [[X2 C3] O4 [N1 N2 B2] [A2 [F3 F3']] Cont]]] :=
    @maxpyw_ok (W h Cayley md g ss df tr st false mk nm v0 v1 y0 y1 p m kk v' vs bl v0 v1)
      v' 0 (~~ state_eq st Updated) _ y0 a b O1 C _ _ Ud Hn HA HB pre1; try inl.
  rewrite /= Em in F3.
  exists h1, s0; rewrite /= in X2; rewrite X2; split=> //.
  + by case: (md) Em.
  + by split=> //; rewrite A2 /= Em.
  + split=> //.
    * move=> Q; case: F3' => // Q'; last by move: Q'; rewrite Q !inE eqxx !orbT.
      by rewrite Q'; apply: Hyy; rewrite -?Q.
    * exact: slot_of (fun _ => erefl) N1 N2 Cont.
    * apply: pre0 => Es; apply: F3; first by inl.
      have [Q|/eqP Q] := eqVneq y1 y0; last by left.
      right; rewrite Q; apply: Hyy => //.
      by move: HT; rewrite Es /= => /(_ isT) [_ [Q' _ _] _ _].
rewrite X1; cbn [bind]; rewrite /=.
have O2 : own h1 (y1 :: [:: s0; v0; v1; v0; v1; p; kk]) by perm.
have [|//|h2 [s1 [[X2 C3] O4 [N1 N2 B2] [A2 [F3 F3']] Cont]]] :=
  @maxpyw_ok (W h1 Cayley md g ss df tr st false mk nm v0 v1 s0 y1 p s0 kk v' vs bl v0 v1)
    (- g) 0 (~~ state_eq st Updated) _ y1 a b O2 C1 _ _ Ud Hn HA1 HB1 pre; try inl.
rewrite /= in X2; rewrite X2; cbn [bind]; rewrite /=.
have O5 : own h2 (p :: [:: s1; s0; v0; v1; v0; v1; kk]) by perm.
have Q2 : s1 = None \/ s1 \in [:: s1; s0; v0; v1; v0; v1; kk] by right; inl.
have [h3 [E3 O6 C4 F4]] :=
  @set_P_ok (W h2 Cayley md g ss df tr st false mk nm v0 v1 s0 s1 p s0 kk v' vs bl v0 v1) _ s1 O5 C3 Q2.
rewrite /= in E3; rewrite E3; cbn [bind]; rewrite /=.
have O7 : own h3 (kk :: [:: s1; s1; s0; v0; v1; v0; v1]) by perm.
have -> : (s1 != None) by apply/eqP.
have Q3 : s1 = None \/ s1 \in [:: s1; s1; s0; v0; v1; v0; v1] by right; inl.
have [h4 [E4 O8 C5 F5]] :=
  @ksp_set_ok (W h3 Cayley md g ss df tr st false mk nm v0 v1 s0 s1 s1 s0 kk v' vs bl v0 v1) _ s1 O7 C4 Q3.
rewrite /= in E4; rewrite E4; cbn [bind]; rewrite /=.
have F q : q \in [:: s0; s1; v0; v1] -> hobj h4 q = hobj h2 q.
  move=> Hq; rewrite F5; last by move: Hq; rewrite !inE => /or4P[]/eqP->; rewrite eqxx ?orbT.
  by apply: F4; move: Hq; rewrite !inE => /or4P[]/eqP->; rewrite eqxx ?orbT.
eexists; split; first reflexivity; last by [].
constructor=> //=.
- by rewrite /slots /=; perm.
- by move=> a1 b1 [_ <-].
- move=> a' b' [<- <-]; rewrite (hdense_ext (h:=h2)) ?A2 /shiftedw /= ?andbT; last by apply: F; inl.
  by rewrite subr0 if_same.
- by move=> a' b' [_ <-]; apply: isB_ext B2; apply: F; inl.
- by move=> Q; have := Hsu Q.
- by rewrite /g => _ _ ->.
- move=> a' b' [<- <-] _; split=> //=.
  + move: S0c F3; rewrite /=; case: (inplace md) => [[Q1 Q4]|Q1] F3.
      by rewrite F; [rewrite F3 //; inl|inl].
    apply: slot_ext Q1; rewrite F; [rewrite F3 //; first by inl|inl].
    have [Q|/eqP Q] := eqVneq s0 y1; last by left.
    by right; exact: S0y.
  + by apply: slot_ext (slot_of (fun _ => erefl) N1 N2 Cont); apply: F; inl.
  + move=> Q; case: F3' => /= Q'.
    * by rewrite Q.
    * by apply: S0y; rewrite Q.
    * by move: Q'; rewrite -Q !inE eqxx.
Qed.

Lemma compute_ok w built a b : rel w built (Some (a, b)) -> (opready w = false -> ready_to_compute w) ->
  match s_compute (abs w built (Some (a, b))) with
  | Ok s' => exists w', [/\ compute_operator w = Ok w', rel w' true (Some (a, b)) & s' = abs w' true (Some (a, b))]
  | r => r = Err /\ compute_operator w = Err
  end.
Proof.
move=> R Hc; rewrite /s_compute; cbn [s_ready abs].
case Er : (opready w).
  rewrite /compute_operator Er; have Eb : built = true by case: built R => // R; have [_ _] := r_built R (erefl _); rewrite Er.
  by exists w; split=> //; [rewrite -Eb|rewrite /abs Er Eb].
move: (Hc Er) => {}Hc.
case Et : (ty w).
- have [w' [A1 A2 A3]] := compute_shift_ok R Et Er Hc.
  by rewrite /= Et /=; exists w'; split=> //; rewrite A3 /= Et.
- have [w' [A1 A2 A3]] := compute_sinvert_ok R Et Er Hc.
  by rewrite /= Et /=; exists w'; split=> //; rewrite A3 /= Et.
- have /= := compute_cayley_ok R Et Er Hc; rewrite /= Et /=.
  case: ifP => H; last by [].
  by case=> w' [A1 A2 A3]; exists w'; split=> //; rewrite A3 /= Et.
Qed.

End P.
