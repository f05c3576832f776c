(** Changing the matrices of the ST object. *)
From mathcomp Require Import all_ssreflect all_algebra zify.
From Verif Require Import Prelude STModel STSpec STProofs STProofs2 STProofs3 STProofs4 STProofs5.
Set Implicit Arguments. Unset Strict Implicit. Unset Printing Implicit Defensive.
Import GRing.Theory.
Local Open Scope ring_scope.

Section P.
Variable K : fieldType.
Hypothesis two : 2%:R != 0 :> K.
Variable conj : {rmorphism K -> K}.
Hypothesis conjK : involutive conj.
Variable n : nat.
Notation mat := 'M[K]_n.
Notation vec := 'cV[K]_n.
Notation heap := (heap K n).
Notation world := (world K n).
Implicit Types (h : heap) (L : seq ptr) (p q : ptr) (w : world).

Arguments maxpy : simpl never.
Arguments assign : simpl never.
Arguments hdense : simpl never.
Arguments hobj : simpl never.
Arguments hdestroy : simpl never.
Arguments halloc : simpl never.
Arguments hset : simpl never.
Arguments href : simpl never.

Ltac gen_nb := repeat match goal with |- context [nat_of_bool ?b] => let k := fresh "k" in
  set k := nat_of_bool b; clearbody k end.
Ltac perm := apply: own_perm; [eassumption | clear; move=> ? /=; gen_nb; lia].
Ltac inl := by rewrite ?inE ?eqxx ?orbT.
Ltac flat := rewrite /set_sigset /set_sigma /set_nu /set_nuset /set_t0 /set_state /set_opready /set_hp;
  cbn [hp ty mode sigma sigset defsig transf state opready opmade nmat a0 a1 t0 t1 pp mm ksp nu nuset bal u0 u1].

(** ** The matrices *)

Definition attach h (x0 x1 b0 b1 : ptr) : res heap :=
  do h <- hdestroy h x0; do h <- hdestroy h x1; do h <- assign h None b0;
  if b1 is Some _ then assign h None b1 else Ok h.

Lemma attach_ok h L x0 x1 b0 b1 : own h [:: x0, x1 & L] -> clean h -> b0 \in L -> b1 = None \/ b1 \in L ->
  exists h', [/\ attach h x0 x1 b0 b1 = Ok h', own h' [:: b0, b1 & L], clean h' &
    forall q, q \in L -> hobj h' q = hobj h q].
Proof.
move=> O C H0 H1; rewrite /attach.
have [h1 [-> O1 C1 F1]] := hdestroy_ok O C; cbn [bind].
have [h2 [-> O2 C2 F2]] := hdestroy_ok O1 C1; cbn [bind].
have O2' : own h2 (None :: L) by perm.
have [h3 [-> O3 C3 F3]] := assign_ok O2' C2 (or_intror H0); cbn [bind].
have Fq q : q \in L -> hobj h3 q = hobj h q.
  by move=> Hq; rewrite F3 ?F2 ?F1 // inE Hq orbT.
case: b1 H1 => [j|] H1; last by exists h3; split=> //; perm.
have O3' : own h3 (None :: b0 :: L) by perm.
have H1' : Some j = None \/ Some j \in b0 :: L by right; case: H1 => // H1; rewrite inE H1 orbT.
have [h4 [-> O4 C4 F4]] := assign_ok O3' C3 H1'.
exists h4; split=> // [|q Hq]; first by perm.
by rewrite F4 ?Fq // !inE Hq !orbT.
Qed.

Definition kof (b1 : ptr) : nat := if b1 is Some _ then 2%N else 1%N.

Lemma setmatrices_initial h ty md sg ss df tr rd mk nm x0 x1 y0 y1 p m kk v vs bl v0 v1 b0 b1 :
  setmatrices (W h ty md sg ss df tr Initial rd mk nm x0 x1 y0 y1 p m kk v vs bl v0 v1) b0 b1 =
  do h' <- attach h x0 x1 b0 b1;
  Ok (W h' ty md sg ss df tr Initial false mk (kof b1) b0 b1 y0 y1 p m kk v vs bl v0 v1).
Proof.
rewrite /setmatrices /attach /=.
case: (hdestroy h x0) => //= h1; case: (hdestroy h1 x1) => //= h2; case: b1 => [j|] /=.
  by case: (assign h2 None b0) => //= h3; case: (assign h3 None (Some j)).
by case: (assign h2 None b0).
Qed.

Lemma setmatrices_same h ty md sg ss df tr st rd mk nm x0 x1 y0 y1 p m kk v vs bl v0 v1 :
  state_eq st Initial = false -> kof x1 = nm ->
  setmatrices (W h ty md sg ss df tr st rd mk nm x0 x1 y0 y1 p m kk v vs bl v0 v1) x0 x1 =
  do h2 <- assign h x0 x0;
  do h3 <- (if (nm == 2)%N then assign h2 x1 x1 else Ok h2);
  Ok (W h3 ty md sg ss df tr Updated false mk nm x0 x1 y0 y1 p m kk v vs bl v0 v1).
Proof.
rewrite /setmatrices /kof /= => -> <-; rewrite !eqxx /=; case: x1 => [j|] /=.
  by case: (assign h x0 x0) => //= h2; case: (assign h2 (Some j) (Some j)).
by case: (assign h x0 x0).
Qed.

Lemma reset_ok h ty md sg ss df tr st rd mk nm x0 x1 y0 y1 p m kk v vs bl v0 v1 L :
  own h [:: kk, y0, y1, x0, x1, p & L] -> clean h ->
  exists h', [/\ reset (W h ty md sg ss df tr st rd mk nm x0 x1 y0 y1 p m kk v vs bl v0 v1) =
      Ok (W h' ty md sg ss df tr Initial false false 0%N None None None None None m None v vs None v0 v1),
    own h' L, clean h' & forall q, q \in L -> hobj h' q = hobj h q].
Proof.
move=> O C; rewrite /reset; cbn [hp ksp t0 t1 a0 a1 pp].
have [h1 [-> O1 C1 F1]] := hdestroy_ok O C; cbn [bind].
have [h2 [-> O2 C2 F2]] := hdestroy_ok O1 C1; cbn [bind].
have [h3 [-> O3 C3 F3]] := hdestroy_ok O2 C2; cbn [bind].
have [h4 [-> O4 C4 F4]] := hdestroy_ok O3 C3; cbn [bind].
have [h5 [-> O5 C5 F5]] := hdestroy_ok O4 C4; cbn [bind].
have [h6 [-> O6 C6 F6]] := hdestroy_ok O5 C5; cbn [bind].
exists h6; split=> // q Hq.
by rewrite F6 ?F5 ?F4 ?F3 ?F2 ?F1 // !in_cons Hq !orbT.
Qed.

Lemma reset_state w w' : reset w = Ok w' -> state w' = Initial.
Proof.
rewrite /reset; move: (hdestroy (hp w) (ksp w)) => r1; case: r1 => // h1; cbn [bind].
move: (hdestroy h1 (t0 w)) => r1; case: r1 => // h2; cbn [bind].
move: (hdestroy h2 (t1 w)) => r1; case: r1 => // h3; cbn [bind].
move: (hdestroy h3 (a0 w)) => r1; case: r1 => // h4; cbn [bind].
move: (hdestroy h4 (a1 w)) => r1; case: r1 => // h5; cbn [bind].
by move: (hdestroy h5 (pp w)) => r1; case: r1 => // h6 [<-].
Qed.

Lemma setmatrices_reset w b0 b1 : state w <> Initial -> b0 <> a0 w ->
  setmatrices w b0 b1 = do w <- reset w; setmatrices w b0 b1.
Proof.
move=> Es Eb; have Es' : state_eq (state w) Initial = false by case: state_eqP.
have Eb' : (b0 == a0 w) = false by apply/eqP.
rewrite {1}/setmatrices Eb' !andbF Es'; cbn [negb andb].
case Er : (reset w) => [w'|||] //; cbn [bind].
by rewrite /setmatrices (reset_state Er).
Qed.

Lemma user_new_ok h ty md sg ss df tr st rd mk nm x0 x1 y0 y1 p m kk v vs bl v0 v1 L a (b : option mat) :
  own h L -> clean h ->
  exists h' b0 b1, [/\ user_new (W h ty md sg ss df tr st rd mk nm x0 x1 y0 y1 p m kk v vs bl v0 v1) a b =
      W h' ty md sg ss df tr st rd mk nm x0 x1 y0 y1 p m kk v vs bl b0 b1,
    own h' [:: b0, b1 & L] /\ clean h', hdense h' b0 = Ok a /\ isB h' b1 b,
    [/\ b0 <> None, b0 <> b1 & b0 \notin L] & kof b1 = (if b is Some _ then 2 else 1)%N].
Proof.
move=> O C; rewrite /user_new; cbn [hp].
have [h1 [i [[-> A2] A3 A4 A5 A6]]] := halloc_ok (Dense a) O C.
have D1 : hdense h1 (Some i) = Ok a by exact: obj_hdense.
case: b => [b|]; last first.
  exists h1, (Some i), None; split=> //; split=> //.
have [h2 [j [[-> B2] B3 B4 B5 B6]]] := halloc_ok (Dense b) A2 A3.
exists h2, (Some i), (Some j); split=> //.
- by split=> //; perm.
- split; last exact: obj_hdense.
  by rewrite (hdense_ext (h:=h1)) // B6 // inE eqxx.
- by split=> // Q; move: B4; rewrite Q inE eqxx.
Qed.

Lemma matrices_step w built ms a b : rel w built ms -> legal conj (abs w built ms) (OMatrices a b) ->
  refines (step conj w (OMatrices a b)) (s_step conj (abs w built ms) (OMatrices a b)).
Proof.
move=> R; rewrite /legal /s_step; cbn [s_mode s_ready abs s_state s_ty s_made s_built s_bal] => Hs.
have O := r_own R; have C := r_clean R; have Bu := r_built R; have Bl := r_bal R.
case: w R Hs O C Bu Bl => h ty md sg ss df tr st rd mk nm x0 x1 y0 y1 p m kk v vs bl v0 v1 R Hs O C Bu Bl.
rewrite /slots /= in O C Bu Bl.
have O1 : own h [:: kk; y0; y1; x0; x1; p] by perm.
have [h1 [b0 [b1 [E1 [O2 C2] [A2 B2] [N1 N2 N3] Ek]]]] :=
  user_new_ok ty md sg ss df tr st rd mk nm x0 x1 y0 y1 p m kk v vs bl v0 v1 a b O1 C.
rewrite /step E1; cbn [u0 u1].
case: state_eqP => Es /=; rewrite /= in Es.
  subst st; rewrite setmatrices_initial.
  have O3 : own h1 [:: x0, x1 & [:: b0; b1; y0; y1; p; kk]] by perm.
  have H0 : b0 \in [:: b0; b1; y0; y1; p; kk] by inl.
  have H1 : b1 = None \/ b1 \in [:: b0; b1; y0; y1; p; kk] by right; inl.
  have [h2 [-> O4 C4 F4]] := attach_ok O3 C2 H0 H1; cbn [bind].
  exists (W h2 ty md sg ss df tr Initial false mk (kof b1) b0 b1 y0 y1 p m kk v vs bl b0 b1), built, (Some (a, b)).
  split=> //; constructor=> //=.
  - by move=> Q; have [] := Bu Q.
  - by move=> a' b' [_ <-].
  - by move=> a' b' [<- _]; rewrite /shiftedw andbF (hdense_ext (h:=h1)) // F4 //; inl.
  - by move=> a' b' [_ <-]; apply: isB_ext B2; apply: F4; inl.
have Nb : b0 <> x0 by move=> Q; move: N3; rewrite Q !inE eqxx !orbT.
rewrite setmatrices_reset //.
have O3 : own h1 [:: kk, y0, y1, x0, x1, p & [:: b0; b1]] by perm.
have [h2 [-> O4 C4 F4]] := reset_ok ty md sg ss df tr st rd mk nm m v vs bl b0 b1 O3 C2; cbn [bind].
rewrite setmatrices_initial.
have O5 : own h2 [:: None, None & [:: b0; b1]] by perm.
have H0 : b0 \in [:: b0; b1] by inl.
have H1 : b1 = None \/ b1 \in [:: b0; b1] by right; inl.
have [h3 [-> O6 C6 F6]] := attach_ok O5 C4 H0 H1; cbn [bind].
exists (W h3 ty md sg ss df tr Initial false false (kof b1) b0 b1 None None None m None v vs None b0 b1), false, (Some (a, b)).
split=> //; constructor=> //=.
- by move=> a' b' [_ <-].
- move=> a' b' [<- _]; rewrite /shiftedw andbF (hdense_ext (h:=h1)) //.
  by rewrite F6 ?F4 //; inl.
- by move=> a' b' [_ <-]; apply: isB_ext B2; rewrite F6 ?F4 //; inl.
Qed.



(** The user changes the content of the matrices. *)
Lemma store_ok h L x0 x1 a (b : option mat) : own h L -> clean h -> x0 \in L -> x0 <> None -> x0 <> x1 ->
  (isSome b -> x1 \in L /\ x1 <> None) -> (~~ isSome b -> x1 = None) ->
  exists h', [/\ (do h <- hset h x0 (Dense a); if b is Some b then hset h x1 (Dense b) else Ok h) = Ok h',
    own h' L, clean h', hdense h' x0 = Ok a /\ isB h' x1 b &
    forall q, q <> x0 -> q <> x1 -> hobj h' q = hobj h q].
Proof.
move=> O C H0 N0 Nd Hb Hn.
have [h1 [-> O1 C1 D1 F1]] := hset_ok (Dense a) O C H0 N0; cbn [bind].
case: b Hb Hn => [b|] Hb Hn; last first.
  exists h1; split=> // [|q Q _]; last exact: F1.
  by split; [exact: obj_hdense|rewrite /isB Hn].
have [H1 N1] := Hb isT.
have [h2 [-> O2 C2 D2 F2]] := hset_ok (Dense b) O1 C1 H1 N1.
exists h2; split=> // [|q Q Q']; last by rewrite F2 // F1.
by split; [apply: obj_hdense; rewrite F2|exact: obj_hdense].
Qed.

Lemma slot_store cur md h h' x0 x1 a b a' b' p coef m : slot cur md h x0 x1 a b p coef ->
  isSome b' = isSome b -> hdense h x0 = Ok m -> hdense h' x0 = Ok a' ->
  (forall q, q <> x0 -> q <> x1 -> hobj h' q = hobj h q) -> slot false md h' x0 x1 a' b' p coef.
Proof.
case=> A B S Eb E0 E0' F; split=> //.
have Q : p = x0 \/ hobj h' p = hobj h p.
  by have [->|/eqP N] := eqVneq p x0; [left|right; apply: F].
case: md S => // [[m' [D _ _]]|[al [D _]]].
  case: Q => [Q|Q]; first by exists a'; split=> //; rewrite Q.
  by exists m'; split=> //; rewrite (hdense_ext Q).
exists al; split=> //; case: Q => [Q|->].
  by move: E0; rewrite -Q /hdense D.
by rewrite D /idx_of; case: b b' Eb {D} => [?|] [?|].
Qed.

Lemma cshell_store h h' x0 x1 p m : hobj h p = Ok (CayleyShell K n) -> hdense h x0 = Ok m ->
  p <> x1 -> (forall q, q <> x0 -> q <> x1 -> hobj h' q = hobj h q) -> hobj h' p = Ok (CayleyShell K n).
Proof.
move=> E D N F; rewrite F // => Q; move: D; rewrite -Q /hdense E //.
Qed.

Lemma update_step w built ms a b : rel w built ms -> legal conj (abs w built ms) (OUpdate a b) ->
  refines (step conj w (OUpdate a b)) (s_step conj (abs w built ms) (OUpdate a b)).
Proof.
move=> R; rewrite /legal /s_step; cbn [s_mode s_ready abs s_state s_ty s_made s_built s_bal s_mats].
case: ms R => [[am bm]|] // R /eqP Eb.
have [Ua Ub] := r_user R; have O := r_own R; have C := r_clean R; have Bu := r_built R; have Bl := r_bal R.
have Nm := r_nmat R (erefl _); have Di := r_dist R (erefl _); have A := r_A R (erefl _); have B := r_B R (erefl _).
have Tr := r_tr R; have T := r_T R (erefl _).
case: w R Ua Ub O C Bu Bl Nm Di A B Tr T => h tp md sg ss df tr st rd mk nm x0 x1 y0 y1 p m kk v vs bl v0 v1 R Ua Ub O C Bu Bl Nm Di A B Tr T.
rewrite /slots /= in Ua Ub O C Bu Bl Nm Di A B Tr T; subst v0 v1.
have N0 : x0 <> None by move=> Q; move: A; rewrite Q.
have H0 : x0 \in [:: x0; x1; x0; x1; y0; y1; p; kk] by inl.
have Hb : isSome b -> x1 \in [:: x0; x1; x0; x1; y0; y1; p; kk] /\ x1 <> None.
  rewrite Eb => Q; split; first by inl.
  by move: B; case: bm Q {Eb A R T Nm} => //= bm _ B Q; move: B; rewrite Q.
have Hn : ~~ isSome b -> x1 = None by rewrite Eb; move: B; case: bm {Eb A R T Nm}.
have [h1 [E1 O1 C1 [A1 B1] F1]] := store_ok a O C H0 N0 Di Hb Hn.
rewrite /step /user_store; cbn [hp u0 u1].
pose W1 := fun h' => W h' tp md sg ss df tr st rd mk nm x0 x1 y0 y1 p m kk v vs bl x0 x1.
rewrite /set_hp; cbn [hp ty mode sigma sigset defsig transf state opready opmade nmat a0 a1 t0 t1 pp mm ksp nu nuset bal u0 u1].
have -> : (do h <- hset h x0 (Dense a);
   match b with Some b => do h <- hset h x1 (Dense b); Ok (W1 h) | None => Ok (W1 h) end) = Ok (W1 h1).
  move: E1; case: (hset h x0 (Dense a)) => // h2; cbn [bind]; case: (b) => [b'|] //; last by move=> [->].
  by move=> ->.
cbn [bind]; rewrite /W1; cbn [u0 u1] => {W1}.
have Ek : kof x1 = (if b is Some _ then 2 else 1)%N.
  by move: Hb Hn; case: (b) => [?|] Hb Hn /=; [case: (x1) Hb => // Hb; case: (Hb isT)|rewrite Hn].
have Ek' : kof x1 = (if bm is Some _ then 2 else 1)%N by rewrite Ek; case: (b) (bm) Eb => [?|] [?|].
case: (state_eqP st Initial) => Es.
  subst st; rewrite setmatrices_initial.
  have O3 : own h1 [:: x0, x1 & [:: x0; x1; y0; y1; p; kk]] by perm.
  have H0' : x0 \in [:: x0; x1; y0; y1; p; kk] by inl.
  have H1 : x1 = None \/ x1 \in [:: x0; x1; y0; y1; p; kk] by right; inl.
  have [h2 [-> O4 C4 F4]] := attach_ok O3 C1 H0' H1; cbn [bind].
  exists (W h2 tp md sg ss df tr Initial false mk (kof x1) x0 x1 y0 y1 p m kk v vs bl x0 x1), built, (Some (a, b)).
  split=> //; constructor=> //=.
  - by move=> Q; have [] := Bu Q.
  - by move=> a' b' [_ <-].
  - by move=> a' b' [<- _]; rewrite /shiftedw andbF (hdense_ext (h:=h1)) // F4 //; inl.
  - by move=> a' b' [_ <-]; apply: isB_ext B1; apply: F4; inl.
have -> : (match st with Initial => Initial | _ => Updated end) = Updated by case: (st) Es.
have Hm : exists m0, hdense h x0 = Ok m0 by eexists; exact: A.
have [m0 A0] := Hm.
have Es' : state_eq st Initial = false by case: state_eqP.
rewrite setmatrices_same //; last by rewrite Ek' Nm.
have O2 : own h1 (x0 :: [:: x0; x1; x1; y0; y1; p; kk]) by perm.
have Q2 : x0 = None \/ x0 \in [:: x0; x1; x1; y0; y1; p; kk] by right; inl.
have [h2 [-> O3 C3 F3]] := assign_ok O2 C1 Q2; cbn [bind].
have O3' : own h2 (x1 :: [:: x0; x0; x1; y0; y1; p; kk]) by perm.
have Q3 : x1 = None \/ x1 \in [:: x0; x0; x1; y0; y1; p; kk] by right; inl.
have [h3 [E3 O4 C4 F4]] := assign_ok O3' C3 Q3.
exists (W (if (nm == 2)%N then h3 else h2) tp md sg ss df tr Updated false mk nm x0 x1 y0 y1 p m kk v vs bl x0 x1), built, (Some (a, b)).
split=> //.
  by case: (nm == 2)%N; rewrite ?E3.
set h4 := if _ then h3 else h2.
have [O5 C5 F5] : [/\ own h4 [:: x0; x1; x0; x1; y0; y1; p; kk], clean h4 &
   forall q, q \in [:: x0; x1; y0; y1; p; kk] -> hobj h4 q = hobj h1 q].
  rewrite /h4; case: (nm == 2)%N; split=> //; try by perm.
    move=> q; rewrite !inE => Hq; rewrite F4 ?F3 // !inE; move: Hq; by repeat (case/orP => [->|]; rewrite ?orbT //); move=> ->; rewrite ?orbT.
  move=> q; rewrite !inE => Hq; rewrite F3 // !inE; move: Hq; by repeat (case/orP => [->|]; rewrite ?orbT //); move=> ->; rewrite ?orbT.
constructor=> //=.
- by move=> Q; have [] := Bu Q.
- by move=> a' b' [_ <-]; rewrite Nm -Ek' Ek.
- by move=> a' b' [<- _]; rewrite /shiftedw andbF (hdense_ext (h:=h1)) // F5 //; inl.
- by move=> a' b' [_ <-]; apply: isB_ext B1; apply: F5; inl.
- move=> a' b' [<- <-] _.
  have {T}T : tstruct rd (W h tp md sg ss df tr st rd mk nm x0 x1 y0 y1 p m kk v vs bl x0 x1) am bm.
    by apply: T; rewrite Es' orbT.
  have SS cur q coef : slot cur md h x0 x1 am bm q coef -> q \in [:: x0; x1; y0; y1; p; kk] ->
      slot false md h4 x0 x1 a b q coef.
    by move=> S Hq; apply: slot_ext (F5 _ Hq) _; exact: slot_store S Eb A0 A1 F1.
  move: T; rewrite /tstruct; cbn [hp ty mode sigma sigset defsig transf state opready opmade nmat a0 a1 t0 t1 pp mm ksp nu nuset bal u0 u1].
  case: (tp) => [[T1 T2 _]|[T1 T2 _]|[T1 T2 T3 _]]; split=> //; try (by apply: SS; [eassumption|inl]).
  move: T1; case: (inplace md) => [T1|T1]; last by apply: SS; [eassumption|inl].
  rewrite F5; last by inl.
  apply: (cshell_store T1 A0 _ F1) => Q.
  move: B T1; rewrite Q; case: (bm) => [b2|] /= B T1; first by move: B; rewrite /hdense T1.
  by move: T1; rewrite B.
Qed.

End P.
