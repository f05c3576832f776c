(** The ST object refines the abstract object: changes of the shift, antishift, configuration, matrices. *)
From mathcomp Require Import all_ssreflect all_algebra zify.
From Verif Require Import Prelude STModel STSpec STProofs STProofs2 STProofs3.
Set Implicit Arguments. Unset Strict Implicit. Unset Printing Implicit Defensive.
Import GRing.Theory.
Local Open Scope ring_scope.

Section P.
Variable K : fieldType.
Hypothesis two : 2%:R != 0 :> K.
Variable conj : {rmorphism K -> K}.
Hypothesis conjK : involutive conj.
Variable n : nat.
Notation mat := 'M[K]_n.
Notation vec := 'cV[K]_n.
Notation heap := (heap K n).
Notation world := (world K n).
Implicit Types (h : heap) (L : seq ptr) (p q : ptr) (w : world).

Arguments maxpy : simpl never.
Arguments assign : simpl never.
Arguments hdense : simpl never.
Arguments hobj : simpl never.
Arguments hdestroy : simpl never.
Arguments halloc : simpl never.
Arguments hset : simpl never.
Arguments href : simpl never.

Ltac gen_nb := repeat match goal with |- context [nat_of_bool ?b] => let k := fresh "k" in
  set k := nat_of_bool b; clearbody k end.
Ltac perm := apply: own_perm; [eassumption | clear; move=> ? /=; gen_nb; lia].
Ltac inl := by rewrite ?inE ?eqxx ?orbT.

(** Bring the setters of a world into the form of a record. *)
Ltac flat := rewrite /set_sigset /set_sigma /set_nu /set_nuset /set_t0 /set_state /set_opready /set_hp;
  cbn [hp ty mode sigma sigset defsig transf state opready opmade nmat a0 a1 t0 t1 pp mm ksp nu nuset bal u0 u1].

Definition refines (r : res (world * answer K n)) (sr : res (sst K n * answer K n)) : Prop :=
  match sr with
  | Ok (s', ans) => exists w' built' ms', [/\ r = Ok (w', ans), rel w' built' ms' & s' = abs w' built' ms']
  | r' => r' = Err /\ r = Err
  end.

(** ** Changes of configuration *)

Lemma rel_reconf w w' built ms : rel w built ms -> ~~ shiftedw w ->
  (hp w', nmat w', slots w') = (hp w, nmat w, slots w) -> opready w' = false -> state w' = Initial ->
  (if bal w' is Some d then [forall i, d i 0 != 0] else true) -> rel w' built ms.
Proof.
move=> R Hs [E1 E2 E3 E4 E5 E6 E7 E8 E9 E10] Er Es Hb; constructor.
- by rewrite E1 /slots E3 E4 E5 E6 E7 E8 E9 E10; exact: r_own R.
- by rewrite E1; exact: r_clean R.
- by move=> Q; rewrite E7 E8 Er; have [] := r_built R Q.
- by move=> Q; rewrite E2 E3 E4 E5 E6 Er Es; have [] := r_none R Q.
- by move=> a b Q; rewrite E2; exact: r_nmat R _ _ Q.
- by rewrite E3 E4 E5 E6; exact: r_user R.
- by move=> a b Q; rewrite E3 E4; exact: r_dist R _ _ Q.
- move=> a b Q; rewrite E1 E3 (r_A R Q) (negbTE Hs).
  by rewrite /shiftedw Er andbF.
- by move=> a b Q; rewrite E1 E4; exact: r_B R _ _ Q.
- by rewrite Es.
- by rewrite Es.
- by rewrite Er.
- by rewrite Er.
- by [].
- by move=> a b _; rewrite Er Es.
Qed.

(** ** STPostSolve *)

Lemma postsolve_ok w built ms : rel w built ms -> ~~ inplace (mode w) || opready w ->
  exists w', [/\ postsolve w = Ok w', rel w' built ms &
    abs w' built ms = if inplace (mode w) then changed (abs w built ms) else abs w built ms].
Proof.
move=> R; rewrite /postsolve; case Em : (mode w) => /= Hr; [by exists w| |by exists w].
case: ms R => [[a b]|] R; last by have [_ _ _ _] := r_none R (erefl _); rewrite Hr.
have Hn := r_nmat R (erefl _).
have -> : (0 < nmat w)%N by rewrite Hn; case: (b).
have [U0 U1] := r_user R.
have HA : hdense (hp w) (a0 w) = Ok (a + - sigma w *: second b).
  by rewrite U0 (r_A R (erefl _)) /shiftedw Em Hr.
have HB : isB (hp w) (a1 w) b by rewrite U1; exact: r_B R _ _ (erefl _).
have H0 : a0 w \in slots w by inl.
have Ud := r_dist R (erefl _).
have [h' [E1 O1 C1 D1 F1]] := addB_ok (sigma w) (r_own R) (r_clean R) H0 HA Hn HB.
rewrite /check E1 /=; exists (set_opready false (set_state Initial (set_hp h' w))).
split=> //.
case: w R Em Hr Hn U0 U1 HA HB H0 Ud E1 O1 D1 F1 =>
  h ty md sg ss df tr st rd mk nm x0 x1 y0 y1 p m kk v vs bl v0 v1 /= R Em Hr Hn U0 U1 HA HB H0 Ud E1 O1 D1 F1.
rewrite /is_true in Hr; subst x0 x1 md rd; constructor=> //=.
- by move=> Q; have [] := r_built R Q.
- by move=> a' b' Q; exact: r_nmat R _ _ Q.
- move=> a' b' [<- _]; rewrite /shiftedw /= D1; congr (Ok _).
  by rewrite -addrA -scalerDl addNr scale0r addr0.
- by move=> a' b' [_ <-]; apply: isB_ext HB; apply: F1; exact: nesym.
- exact: r_bal R.
Qed.

(** ** The shift *)

Lemma setP_if w L x : own (hp w) (pp w :: L) -> clean (hp w) -> x = None \/ x \in L ->
  exists h', [/\ (if pp w != x then set_P w x else Ok w) = Ok (set_pp x (set_hp h' w)), own h' (x :: L), clean h' &
    forall q, q \in x :: L -> hobj h' q = hobj (hp w) q].
Proof.
move=> H C Hx; case: (eqVneq (pp w) x) => [E|_]; last exact: set_P_ok.
by exists (hp w); split=> //=; [rewrite -E; case: (w)|rewrite -E].
Qed.

Definition up_nu w g : K := if sttype_eq (ty w) Cayley && ~~ nuset w then g else nu w.

Definition shifted_to w built ms g v (r : res world) : Prop :=
  exists w', [/\ r = Ok w', rel (set_sigset true (set_sigma g w')) built ms &
    abs (set_sigset true (set_sigma g w')) built ms =
    Sst (ty w) (mode w) g true (defsig w) (transf w) (state w) (opready w) (opmade w) built ms v (nuset w) (bal w)].

Lemma setshift_shift_ok w built a b g : rel w built (Some (a, b)) -> ty w = Shift -> state w = SetUp ->
  shifted_to w built (Some (a, b)) g (nu w) (setshift_shift w g).
Proof.
move=> R Et Es; have Er : opready w = true := r_setup R Es; have /= HT := r_T R (erefl _).
have [/= U0 U1] := r_user R; have /= Ud := r_dist R (erefl _); have /= HA := r_A R (erefl _).
have /= HB := r_B R (erefl _); have /= Hn := r_nmat R (erefl _); have /= Hb := r_bal R.
have /= O := r_own R; have /= C := r_clean R; have Ht : transf w = true := r_tr R Es; have Hbu := r_built R.
case: w R Et Es Er HT U0 U1 Ud HA HB Hn Hb O C Ht Hbu =>
  h ty md sg ss df tr st rd mk nm x0 x1 y0 y1 p m kk v vs bl v0 v1 /= R Et Es Er HT U0 U1 Ud HA HB Hn Hb O C Ht Hbu.
subst ty rd x0 x1 st; rewrite /shiftedw /= andbT in HA.
rewrite /slots /= in O; have [/= T1 S T2] := HT isT; have [P1 P2 P3] := T2 isT.
have Hb1 : built = true by case: (built) Hbu => // /(_ (erefl _)) [].
subst built tr y1 p m; rewrite /setshift_shift /=.
have O1 : own h (y0 :: [:: v0; v1; v0; v1; v1; v1; kk]) by perm.
have [|//|h2 [s' [[E2 C3] O4 [N1 N2 B2] [A2 [F3 _]] Cont]]] :=
  @maxpyw_ok _ _ (W h Shift md sg ss df true SetUp true mk nm v0 v1 y0 v1 v1 y0 kk v vs bl v0 v1)
    (- g) (- sg) false _ y0 _ b O1 C _ _ Ud Hn HA HB (slot_is_pre _ S); try inl.
rewrite /= in E2; rewrite E2; cbn [bind]; rewrite /=.
eexists; split; first reflexivity; last by [].
flat; constructor=> //=.
- by rewrite /slots /=; perm.
- by move=> a1 b1 [_ <-].
- move=> a' b' [<- <-]; rewrite A2 /shiftedw /= ?andbT; case: (inplace md) => //.
  by rewrite -addrA -scalerDl opprK addrCA addNr addr0.
- by move=> a' b' [_ <-].
- move=> a' b' [<- <-] _; split=> //=.
  by rewrite /= in N2 Cont; apply: (slot_of (initial:=false) _ N1 N2 Cont) => ->.
Qed.

Lemma setshift_sinvert_ok w built a b g : rel w built (Some (a, b)) -> ty w = Sinvert -> state w = SetUp ->
  shifted_to w built (Some (a, b)) g (nu w) (setshift_sinvert w g).
Proof.
move=> R Et Es; have Er : opready w = true := r_setup R Es; have /= HT := r_T R (erefl _).
have [/= U0 U1] := r_user R; have /= Ud := r_dist R (erefl _); have /= HA := r_A R (erefl _).
have /= HB := r_B R (erefl _); have /= Hn := r_nmat R (erefl _); have /= Hb := r_bal R.
have /= O := r_own R; have /= C := r_clean R; have Ht : transf w = true := r_tr R Es; have Hbu := r_built R.
case: w R Et Es Er HT U0 U1 Ud HA HB Hn Hb O C Ht Hbu =>
  h ty md sg ss df tr st rd mk nm x0 x1 y0 y1 p m kk v vs bl v0 v1 /= R Et Es Er HT U0 U1 Ud HA HB Hn Hb O C Ht Hbu.
subst ty rd x0 x1 st; rewrite /shiftedw /= andbT in HA.
rewrite /slots /= in O; have [/= T1 S T2] := HT isT; have [P1 P2 P3] := T2 isT.
have Hb1 : built = true by case: (built) Hbu => // /(_ (erefl _)) [].
subst built tr y0 p m kk; rewrite /setshift_sinvert /=.
have O1 : own h (y1 :: [:: v0; v1; v0; v1; v1; y1; y1]) by perm.
have [|//|h2 [s' [[E2 C3] O4 [N1 N2 B2] [A2 [F3 _]] Cont]]] :=
  @maxpyw_ok _ _ (W h Sinvert md sg ss df true SetUp true mk nm v0 v1 v1 y1 y1 v1 y1 v vs bl v0 v1)
    (- g) (- sg) false _ y1 _ b O1 C _ _ Ud Hn HA HB (slot_is_pre _ S); try inl.
rewrite /= in E2; rewrite E2; cbn [bind]; rewrite /=.
have O5 : own h2 (y1 :: [:: s'; v0; v1; v0; v1; v1; y1]) by perm.
have Q2 : s' = None \/ s' \in [:: s'; v0; v1; v0; v1; v1; y1] by right; inl.
have [h3 [E3 O6 C4 F4]] :=
  @setP_if (W h2 Sinvert md sg ss df true SetUp true mk nm v0 v1 v1 s' y1 v1 y1 v vs bl v0 v1) _ s' O5 C3 Q2.
rewrite /= in E3; rewrite E3; cbn [bind]; rewrite /=.
have -> : (s' != None) by apply/eqP.
have O7 : own h3 (y1 :: [:: s'; s'; v0; v1; v0; v1; v1]) by perm.
have Q3 : s' = None \/ s' \in [:: s'; s'; v0; v1; v0; v1; v1] by right; inl.
have [h4 [E4 O8 C5 F5]] :=
  @ksp_set_ok _ _ (W h3 Sinvert md sg ss df true SetUp true mk nm v0 v1 v1 s' s' v1 y1 v vs bl v0 v1) _ s' O7 C4 Q3.
rewrite /= in E4; rewrite E4; cbn [bind]; rewrite /=.
have F q : q \in [:: s'; v0; v1] -> hobj h4 q = hobj h2 q.
  move=> Hq; rewrite F5; last by move: Hq; rewrite !inE => /or3P[]/eqP->; rewrite eqxx ?orbT.
  by apply: F4; move: Hq; rewrite !inE => /or3P[]/eqP->; rewrite eqxx ?orbT.
eexists; split; first reflexivity; last by [].
flat; constructor=> //=.
- by rewrite /slots /=; perm.
- by move=> a1 b1 [_ <-].
- move=> a' b' [<- <-]; rewrite (hdense_ext (h:=h2)); last by apply: F; inl.
  rewrite A2 /shiftedw /= ?andbT; case: (inplace md) => //.
  by rewrite -addrA -scalerDl opprK addrCA addNr addr0.
- by move=> a' b' [_ <-]; apply: isB_ext B2; apply: F; inl.
- move=> a' b' [<- <-] _; split=> //=.
  apply: slot_ext; last by rewrite /= in N2 Cont; apply: (slot_of (initial:=false) _ N1 N2 Cont) => ->.
  by apply: F; inl.
Qed.


(** The first matrix of a Cayley transform (not in place) is recomputed for the antishift g. *)
Lemma recoef_ok h md sg ss df tr st rd mk nm v0 v1 y0 y1 p m kk v vs bl built a b g :
  rel (W h Cayley md sg ss df tr st rd mk nm v0 v1 y0 y1 p m kk v vs bl v0 v1) built (Some (a, b)) ->
  st <> Initial -> inplace md = false ->
  exists h' s', [/\
    maxpyw (W h Cayley md sg ss df tr st rd mk nm v0 v1 y0 y1 p m kk v vs bl v0 v1) g v false y0 =
      Ok (W h' Cayley md sg ss df tr st rd mk nm v0 v1 y0 y1 p m kk v vs bl v0 v1, s'),
    own h' [:: s'; v0; v1; v0; v1; y1; p; kk] /\ clean h', hdense h' v0 = Ok a /\ isB h' v1 b,
    slot true md h' v0 v1 a b s' g /\ slot rd md h' v0 v1 a b y1 (- sg) &
    (s' = y1 -> s' = v0) /\ (rd -> md = ShellMode \/ v != 0 /\ g != 0 -> s' = y0)].
Proof.
move=> R Es Em; have := r_T R (erefl _); rewrite /= => HT.
have /= HA := r_A R (erefl _); rewrite /shiftedw /= Em /= in HA.
have /= HB := r_B R (erefl _); have /= Hn := r_nmat R (erefl _); have /= Ud := r_dist R (erefl _).
have /= O := r_own R; have /= C := r_clean R; rewrite /slots /= in O.
have [] := HT; first by case: (st) Es => //; rewrite orbT.
rewrite /= Em => S0 S1 Hyy _.
have O1 : own h (y0 :: [:: v0; v1; v0; v1; y1; p; kk]) by perm.
have [|//|h2 [s' [[E2 C3] O4 [N1 N2 B2] [A2 [F3 F3']] Cont]]] :=
  @maxpyw_ok _ _ (W h Cayley md sg ss df tr st rd mk nm v0 v1 y0 y1 p m kk v vs bl v0 v1)
    g v false _ y0 _ b O1 C _ _ Ud Hn HA HB (slot_is_pre _ S0); try inl.
rewrite /= Em in A2; rewrite /= Em in F3; rewrite /= in E2 N2 B2 Cont F3'.
exists h2, s'; split=> //.
- split; first exact: (slot_of (initial:=false) (fun _ => erefl) N1 N2 Cont).
  apply: slot_ext S1; apply: F3; first by inl.
  have [Q|/eqP Q] := eqVneq y1 y0; last by left.
  by right; rewrite Q; apply: Hyy.
- split.
  + move=> Q; case: F3' => // Q'; last by move: Q'; rewrite Q !inE eqxx !orbT.
    by rewrite Q'; apply: Hyy; rewrite -Q -Q'.
  + move=> Hrd; case=> [Emd|[v_0 g_0]].
      by move: Cont; rewrite Emd => -[_]; apply.
    case: (md) Em S0 Cont => //= _ [P1 _ P3] Cont.
      case: P3 => m' [_ _ P3]; case: Cont => _ /(_ g_0) [_]; apply=> //.
      exact: P3.
    by case: Cont => _; apply.
Qed.

Lemma setshift_cayley_ok w built a b g : rel w built (Some (a, b)) -> ty w = Cayley -> state w = SetUp ->
  (~~ nuset w -> g != - nu w) ->
  let v := if nuset w then nu w else g in
  if admissible Cayley g v then shifted_to w built (Some (a, b)) g v (setshift_cayley w g)
  else setshift_cayley w g = Err.
Proof.
move=> R Et Es Hg; have Er : opready w = true := r_setup R Es; have /= HT := r_T R (erefl _).
have [/= U0 U1] := r_user R; have /= Ud := r_dist R (erefl _); have /= HA := r_A R (erefl _).
have /= HB := r_B R (erefl _); have /= Hn := r_nmat R (erefl _); have /= Hb := r_bal R.
have /= O := r_own R; have /= C := r_clean R; have Ht : transf w = true := r_tr R Es; have Hbu := r_built R.
have Hnu := r_nu R.
case: w R Et Es Er HT U0 U1 Ud HA HB Hn Hb O C Ht Hbu Hnu Hg =>
  h ty md sg ss df tr st rd mk nm x0 x1 y0 y1 p m kk v vs bl v0 v1 /= R Et Es Er HT U0 U1 Ud HA HB Hn Hb O C Ht Hbu Hnu Hg.
subst ty rd x0 x1 st; rewrite /shiftedw /= andbT in HA.
rewrite /slots /= in O; have [/= T0 S1 Hyy T2] := HT isT; have [P1 P2 P3] := T2 isT.
have Hb1 : built = true by case: (built) Hbu => // /(_ (erefl _)) [].
subst built tr p m kk; rewrite /setshift_cayley; cbn [nuset nu].
have -> : (((if vs then v else g) != 0) || (g != 0)) && ((if vs then v else g) != - g) = ((g != 0) || vs && (v != 0)) && (v != - g).
  case: (vs) Hg => /= Hg; first by rewrite orbC.
  rewrite orbb orbF; have -> : (v != - g) = true by rewrite eq_sym; have := Hg isT; rewrite -[in X in X -> _]eqr_oppLR eq_sym.
  rewrite andbT; case: (eqVneq g 0) => //= g0.
  by rewrite -addr_eq0 -mulr2n -mulr_natr mulf_neq0.
case E1 : ((g != 0) || vs && (v != 0)); last by [].
case E2 : (v != - g); last by [].
cbn [andb check].
set v' := if vs then v else g.
(* the first matrix *)
have [h1 [X1 O1 C1 [HA1 HB1] [S0' S1']]] : exists h1, [/\
    (if vs then Ok (W h Cayley md sg ss df true SetUp true mk nm v0 v1 y0 y1 y1 y0 y1 v vs bl v0 v1)
     else do w <- (if md is Inplace then Ok (W h Cayley md sg ss df true SetUp true mk nm v0 v1 y0 y1 y1 y0 y1 v vs bl v0 v1)
                   else do '(w, t) <- maxpyw (W h Cayley md sg ss df true SetUp true mk nm v0 v1 y0 y1 y1 y0 y1 v vs bl v0 v1) g v false y0;
                        Ok (set_t0 t w));
          Ok (set_nu g w)) = Ok (W h1 Cayley md sg ss df true SetUp true mk nm v0 v1 y0 y1 y1 y0 y1 v' vs bl v0 v1),
    own h1 [:: y0; v0; v1; v0; v1; y1; y1; y1], clean h1,
    hdense h1 v0 = Ok (if inplace md then a + - sg *: second b else a) /\ isB h1 v1 b &
    (if inplace md then hobj h1 y0 = Ok (CayleyShell K n) else slot true md h1 v0 v1 a b y0 v') /\
    slot true md h1 v0 v1 a b y1 (- sg)].
  have O' : own h [:: y0; v0; v1; v0; v1; y1; y1; y1] by perm.
  rewrite /v'; case Ev : (vs); first by exists h.
  case Em : (inplace md) HA T0 => HA T0.
    have Em' : md = Inplace by case: (md) Em.
    by rewrite Em'; rewrite Em' in S1; exists h.
  have g0 : g != 0 by move: E1; rewrite Ev orbF.
  have vn : v != 0 by have [] := Hnu isT (erefl _) Ev.
  have [//|h' [s' [X2 [O2 C2] A2 [S2 S2'] [_ /(_ isT (or_intror (Logic.conj vn g0))) Q]]]] := recoef_ok g R _ Em.
  subst s'; rewrite Ev in X2; exists h'; rewrite X2; split=> //.
  by case: (md) Em.
cbn [mode t0 state] in *.
rewrite X1; cbn [bind]; rewrite /=.
have O2 : own h1 (y1 :: [:: y0; v0; v1; v0; v1; y1; y1]) by perm.
have [|//|h2 [s1 [[X2 C3] O4 [N1 N2 B2] [A2 [F3 F3']] Cont]]] :=
  @maxpyw_ok _ _ (W h1 Cayley md sg ss df true SetUp true mk nm v0 v1 y0 y1 y1 y0 y1 v' vs bl v0 v1)
    (- g) (- sg) false _ y1 _ b O2 C1 _ _ Ud Hn HA1 HB1 (slot_is_pre _ S1'); try inl.
rewrite /= in X2; rewrite X2; cbn [bind]; rewrite /=.
have O5 : own h2 (y1 :: [:: s1; y0; v0; v1; v0; v1; y1]) by perm.
have Q2 : s1 = None \/ s1 \in [:: s1; y0; v0; v1; v0; v1; y1] by right; inl.
have [h3 [E3 O6 C4 F4]] :=
  @setP_if (W h2 Cayley md sg ss df true SetUp true mk nm v0 v1 y0 s1 y1 y0 y1 v' vs bl v0 v1) _ s1 O5 C3 Q2.
rewrite /= in E3; rewrite E3; cbn [bind]; rewrite /=.
have O7 : own h3 (y1 :: [:: s1; s1; y0; v0; v1; v0; v1]) by perm.
have Q3 : s1 = None \/ s1 \in [:: s1; s1; y0; v0; v1; v0; v1] by right; inl.
have [h4 [E4 O8 C5 F5]] :=
  @ksp_set_ok _ _ (W h3 Cayley md sg ss df true SetUp true mk nm v0 v1 y0 s1 s1 y0 y1 v' vs bl v0 v1) _ s1 O7 C4 Q3.
rewrite /= in E4; rewrite E4.
have F q : q \in [:: y0; s1; v0; v1] -> hobj h4 q = hobj h2 q.
  move=> Hq; rewrite F5; last by move: Hq; rewrite !inE => /or4P[]/eqP->; rewrite eqxx ?orbT.
  by apply: F4; move: Hq; rewrite !inE => /or4P[]/eqP->; rewrite eqxx ?orbT.
eexists; split; first reflexivity; last by [].
flat; constructor=> //=.
- by rewrite /slots /=; perm.
- by move=> a1 b1 [_ <-].
- move=> a' b' [<- <-]; rewrite (hdense_ext (h:=h2)); last by apply: F; inl.
  rewrite A2 /shiftedw /= ?andbT; case: (inplace md) => //.
  by rewrite -addrA -scalerDl opprK addrCA addNr addr0.
- by move=> a' b' [_ <-]; apply: isB_ext B2; apply: F; inl.
- by move=> _ _ Ev; rewrite /v' Ev; split=> //; move: E1; rewrite Ev orbF.
- move=> a' b' [<- <-] _; split=> //=.
  + move: S0' F3 HA1; rewrite /=; case Em : (inplace md) => S0' F3 HA1.
      rewrite F; [rewrite F3 //; first by inl|inl].
      by move=> Q; rewrite Q (hdense_obj HA1) in S0'.
    apply: slot_ext S0'; rewrite F; [rewrite F3 //; first by inl|inl].
    have [Q|/eqP Q] := eqVneq y0 y1; last by left.
    by right; apply: Hyy.
  + apply: slot_ext; last by rewrite /= in N2 Cont; apply: (slot_of (initial:=false) _ N1 N2 Cont) => ->.
    by apply: F; inl.
  + move=> Q; case: F3' => /= Q'.
    * by rewrite Q.
    * by apply: Hyy; rewrite Q.
    * by move: Q'; rewrite -Q !inE eqxx.
Qed.

End P.
