(** The ST object refines the abstract object: set-up, and the products with the operator. *)
From mathcomp Require Import all_ssreflect all_algebra zify.
From Verif Require Import Prelude STModel STSpec STProofs STProofs2.
Set Implicit Arguments. Unset Strict Implicit. Unset Printing Implicit Defensive.
Import GRing.Theory.
Local Open Scope ring_scope.

Section P.
Variable K : fieldType.
Variable conj : {rmorphism K -> K}.
Hypothesis conjK : involutive conj.
Variable n : nat.
Notation mat := 'M[K]_n.
Notation vec := 'cV[K]_n.
Notation heap := (heap K n).
Notation world := (world K n).
Implicit Types (h : heap) (L : seq ptr) (w : world).

Notation conjm := (conjm conj).

(** ** Linear algebra *)

Lemma matrix_of_mul (m : mat) (f : vec -> vec) : (forall x, f x = m *m x) -> matrix_of f = m.
Proof.
move=> H; apply/matrixP=> i j; rewrite mxE H mxE (bigD1 j) //= big1 ?addr0 => [|k kj].
  by rewrite mxE !eqxx mulr1.
by rewrite mxE (negbTE kj) mulr0.
Qed.

Lemma exact_solve_mul (m : mat) (f : vec -> vec) (b : vec) : (forall x, f x = m *m x) ->
  exact_solve f b = if m \in unitmx then Ok (invmx m *m b) else Err.
Proof. by move=> H; rewrite /exact_solve (matrix_of_mul H). Qed.

Lemma conjm_mul p q r (m : 'M[K]_(p, q)) (m' : 'M[K]_(q, r)) : conjm (m *m m') = conjm m *m conjm m'.
Proof. exact: map_mxM. Qed.
Lemma conjmK p q (m : 'M[K]_(p, q)) : conjm (conjm m) = m.
Proof. by apply/matrixP=> i j; rewrite !mxE conjK. Qed.
Lemma conjm_inv (m : mat) : conjm (invmx m) = invmx (conjm m).
Proof. exact: map_invmx. Qed.
Lemma conjm_tr p q (m : 'M[K]_(p, q)) : (conjm m)^T = conjm m^T.
Proof. by rewrite /STModel.conjm map_trmx. Qed.

(** What a matrix object computes. *)
Definition acts (l : lin K n) (m : mat) : Prop := forall x, l_mult l x = m *m x.
Definition actsT (l : lin K n) (m : mat) : Prop := forall x, l_multT l x = m^T *m x.
Definition actsH (l : lin K n) (m : mat) : Prop := forall x, l_multH l x = (conjm m)^T *m x.
Definition actsA l m := [/\ acts l m, actsT l m & actsH l m].

Lemma dense_acts (m : mat) : actsA (dense_lin conj m) m.
Proof. by []. Qed.

(** The shell of a linear problem. *)
Definition mlist (a : mat) (b : option mat) : seq mat := if b is Some b then [:: a; b] else [:: a].
Lemma shell_acts al (a : mat) (b : option mat) :
  actsA (shell_lin conj None al (mlist a b)) (a + al *: second b).
Proof.
rewrite /actsA /acts /actsT /actsH /= /shell_product.
have [->|al0] := eqVneq al 0.
  by rewrite scale0r addr0 /=; case: b.
case: b => [b|] /=; split=> x; rewrite ?mul1r.
- by rewrite mulmxDl -scalemxAl.
- by rewrite linearD linearZ /= mulmxDl -scalemxAl.
- by rewrite /STModel.conjm map_mxD map_mxZ linearD linearZ /= mulmxDl -scalemxAl.
- by rewrite mulmxDl -scalemxAl mul1mx.
- by rewrite linearD linearZ /= trmx1 mulmxDl -scalemxAl mul1mx.
- by rewrite /STModel.conjm map_mxD map_mxZ map_mx1 linearD linearZ /= trmx1 mulmxDl -scalemxAl mul1mx.
Qed.

Lemma cayley_acts md sg nu (a ma : mat) (b : option mat) :
  ma = (if inplace md then a + - sg *: second b else a) ->
  acts (cayley_lin conj md sg nu ma b) (a + nu *: second b).
Proof.
move=> -> x; rewrite /cayley_lin /=.
have E : forall c, (a + c *: second b) *m x = a *m x + c *: (second b *m x).
  by move=> c; rewrite mulmxDl -scalemxAl.
case: md => /=; case: b E => [b|] /= E; rewrite !E ?mul1mx //.
- by rewrite -addrA -scalerDl addrCA addNr addr0.
- by rewrite -addrA -scalerDl addrCA addNr addr0.
Qed.

Lemma cayley_actsTH sg nu (a ma : mat) (b : option mat) :
  ma = a + - sg *: second b -> conj (nu + sg) = nu + sg ->
  actsT (cayley_lin conj Inplace sg nu ma b) (a + nu *: second b) /\
  actsH (cayley_lin conj Inplace sg nu ma b) (a + nu *: second b).
Proof.
move=> -> Er.
have T : actsT (cayley_lin conj Inplace sg nu (a + - sg *: second b) b) (a + nu *: second b).
  move=> x; rewrite /cayley_lin /= Er.
  have E : forall c, (a + c *: second b)^T *m x = a^T *m x + c *: ((second b)^T *m x).
    by move=> c; rewrite linearD linearZ /= mulmxDl -scalemxAl.
  case: b E => [b|] /= E; rewrite !E ?trmx1 ?mul1mx //.
  - by rewrite -addrA -scalerDl addrCA addNr addr0.
  - by rewrite -addrA -scalerDl addrCA addNr addr0.
split=> // x; set l := cayley_lin _ _ _ _ _ _ in T *.
have -> : l_multH l x = conjm (l_multT l (conjm x)) by [].
by rewrite T conjm_mul conjmK conjm_tr.
Qed.

(** Balancing. *)
Lemma dmx_mul (d x : vec) : dmx d *m x = pmul x d.
Proof.
apply/matrixP=> i j; rewrite ord1 !mxE (bigD1 i) //= big1 ?addr0 => [|k ki].
  by rewrite !mxE eqxx mulr1n mulrC.
by rewrite !mxE eq_sym (negbTE ki) mulr0n mul0r.
Qed.
Lemma dmx_unit (d : vec) : [forall i, d i 0 != 0] -> dmx d \in unitmx.
Proof.
move=> /forallP H; rewrite unitmxE unitfE det_diag; apply/prodf_neq0 => i _.
by rewrite mxE.
Qed.
Lemma dmx_inv (d x : vec) : [forall i, d i 0 != 0] -> invmx (dmx d) *m x = pdiv x d.
Proof.
move=> H; have U := dmx_unit H.
rewrite -[LHS](mulKmx U) -[RHS](mulKmx U); congr (_ *m _).
rewrite mulKVmx // dmx_mul; apply/matrixP=> i j; rewrite ord1 !mxE.
by rewrite divfK //; move/forallP: H.
Qed.
Lemma dmx_tr (d : vec) : (dmx d)^T = dmx d.
Proof. exact: tr_diag_mx. Qed.


(** ** The matrix objects of an object whose operator is computed *)

Section Ready.
Variables (w : world) (a : mat) (b : option mat).
Hypothesis R : rel w true (Some (a, b)).
Hypothesis Hr : opready w.
Let HA : hdense (hp w) (a0 w) = Ok (if inplace (mode w) then a + - sigma w *: second b else a).
Proof. by have [-> _] := r_user R; rewrite (r_A R (erefl _)) /shiftedw Hr andbT. Qed.
Let HB : isB (hp w) (a1 w) b.
Proof. by have [_ ->] := r_user R; exact: r_B R _ _ (erefl _). Qed.
Let HN : nmat w = (if b is Some _ then 2 else 1)%N := r_nmat R (erefl _).
Let HT : tstruct true w a b.
Proof. by have := r_T R (erefl _); rewrite Hr; apply. Qed.

Lemma deref_slot p coef : slot true (mode w) (hp w) (a0 w) (a1 w) a b p coef ->
  (inplace (mode w) -> coef = - sigma w) ->
  exists l, deref conj w p = Ok l /\ actsA l (a + coef *: second b).
Proof.
case=> _ _; rewrite /deref; case Em : (mode w).
- case=> m [E1 E2 _] Hi; by rewrite (hdense_obj E1) /=; exists (dense_lin conj m); split=> //; rewrite -E2.
- move=> -> Hi; have -> := hdense_obj HA; rewrite Em /= Hi //.
  by eexists; split; first reflexivity.
- case=> al [E1 E2] Hi; rewrite E1 E2 //=.
  have -> : mats (hp w) (arr w) (idx_of b) = Ok (mlist a b).
    move: HA HB; rewrite Em /= => HA' HB'.
    by case: (b) HB' => [mb|] /= HB'; rewrite HA' //= HB'.
  by eexists; split; [reflexivity|exact: shell_acts].
Qed.

Lemma deref_B : a1 w <> None -> exists l, deref conj w (a1 w) = Ok l /\ actsA l (second b).
Proof.
move: HB; case: (b) => [mb|] // E _.
by rewrite /deref (hdense_obj E) /=; exists (dense_lin conj mb).
Qed.
Lemma none_B : a1 w = None -> b = None.
Proof. by move: HB; case: (b) => // mb E Q; case: (hdense_some E). Qed.

(** The matrix of the solver and the matrix of the product. *)
Lemma solver_ok :
  (pp w = None -> den (ty w) (sigma w) a b = 1%:M) /\
  (pp w <> None -> exists l, deref conj w (ksp w) = Ok l /\ actsA l (den (ty w) (sigma w) a b)).
Proof.
move: HT; rewrite /tstruct; case: (ty w) => /=.
- case=> _ _ [//|-> _ Hk]; split=> [/none_B -> //|N].
  by rewrite Hk; [exact: deref_B|move: HB N; case: (b)].
- case=> _ S [//|-> -> _]; split=> [|_]; first by case: S.
  by rewrite -scaleNr; apply: deref_slot.
- case=> _ S _ [//|-> -> _]; split=> [|_]; first by case: S.
  by rewrite -scaleNr; apply: deref_slot.
Qed.
Definition realw : Prop := ty w = Cayley -> inplace (mode w) -> conj (nu w + sigma w) = nu w + sigma w.
Lemma product_ok :
  (mm w = None -> num (ty w) (sigma w) (nu w) a b = 1%:M) /\
  (mm w <> None -> exists l, [/\ deref conj w (mm w) = Ok l, acts l (num (ty w) (sigma w) (nu w) a b) &
     realw -> actsT l (num (ty w) (sigma w) (nu w) a b) /\ actsH l (num (ty w) (sigma w) (nu w) a b)]).
Proof.
move: HT; rewrite /tstruct /realw; case: (ty w) => /=.
- case=> _ S [//|_ -> _]; split=> [|_]; first by case: S.
  rewrite -scaleNr; have [//|l [E [A1 A2 A3]]] := deref_slot S.
  by exists l.
- case=> _ _ [//|_ _ ->]; split=> [/none_B -> //|N].
  by have [l [E [A1 A2 A3]]] := deref_B N; exists l.
- case=> S0 S1 _ [//|_ _ ->].
  case Em : (inplace (mode w)) S0 => S0; last first.
    split=> [|_]; first by case: S0.
    have [|l [E [A1 A2 A3]]] := deref_slot S0; first by rewrite Em.
    by exists l.
  split=> [Q|_]; first by rewrite Q in S0.
  rewrite /deref S0 /= HA Em /= HN.
  have Em' : mode w = Inplace by case: (mode w) Em.
  have -> : (if (1 < if b is Some _ then 2 else 1)%N then
       do mb <- hdense (hp w) (a1 w);
       Ok (cayley_lin conj (mode w) (sigma w) (nu w) (a + - sigma w *: second b) (Some mb))
     else Ok (cayley_lin conj (mode w) (sigma w) (nu w) (a + - sigma w *: second b) None)) =
     Ok (cayley_lin conj (mode w) (sigma w) (nu w) (a + - sigma w *: second b) b).
    by move: HB; case: (b) => //= mb ->.
  eexists; split; first reflexivity.
  + by apply: cayley_acts; rewrite Em.
  + by move=> /(_ (erefl _) isT) Hreal; rewrite Em'; apply: cayley_actsTH.
Qed.

Notation D := (den (ty w) (sigma w) a b).
Notation N := (num (ty w) (sigma w) (nu w) a b).

Lemma matsolve_ok x : matsolve conj w x = if D \in unitmx then Ok (invmx D *m x) else Err.
Proof.
have [H1 H2] := solver_ok; rewrite /matsolve; case E : (pp w) => [i|].
  have [|l [-> [A _ _]]] := H2; first by rewrite E.
  by rewrite /= (exact_solve_mul _ A).
by rewrite H1 // unitmx1 invmx1 mul1mx.
Qed.
Lemma matsolveT_ok x : matsolveT conj w x = if D \in unitmx then Ok ((invmx D)^T *m x) else Err.
Proof.
have [H1 H2] := solver_ok; rewrite /matsolveT; case E : (pp w) => [i|].
  have [|l [-> [_ A _]]] := H2; first by rewrite E.
  by rewrite /= (exact_solve_mul _ A) unitmx_tr trmx_inv.
by rewrite H1 // unitmx1 invmx1 trmx1 mul1mx.
Qed.
Lemma matsolveH_ok x : matsolveH conj w x = if D \in unitmx then Ok ((conjm (invmx D))^T *m x) else Err.
Proof.
have [H1 H2] := solver_ok; rewrite /matsolveH; case E : (pp w) => [i|].
  have [|l [-> [_ A _]]] := H2; first by rewrite E.
  rewrite /= (exact_solve_mul _ A) unitmx_tr; case: ifP => //= _.
  by rewrite conjm_mul conjmK conjm_tr trmx_inv.
by rewrite H1 // unitmx1 invmx1 /STModel.conjm map_mx1 trmx1 mul1mx.
Qed.

Lemma generic_ok x : apply_generic conj w x = if D \in unitmx then Ok (invmx D *m N *m x) else Err.
Proof.
have [H1 H2] := product_ok; rewrite /apply_generic; case E : (mm w) => [i|].
  have [|l [L A _]] := H2; first by rewrite E.
  rewrite E in L; rewrite L.
  rewrite /= A; case E' : (pp w) => [j|]; first by rewrite matsolve_ok mulmxA.
  have [Q _] := solver_ok; rewrite Q // unitmx1 invmx1 mul1mx //.
by rewrite H1 // mulmx1; exact: matsolve_ok.
Qed.
Lemma genericT_ok x : realw ->
  apply_genericT conj w x = if D \in unitmx then Ok ((invmx D *m N)^T *m x) else Err.
Proof.
move=> Hreal; have [H1 H2] := product_ok; rewrite /apply_genericT trmx_mul; case E : (mm w) => [i|].
  have [|l [L _ /(_ Hreal) [A _]]] := H2; first by rewrite E.
  rewrite E in L; rewrite L.
  rewrite /=; case E' : (pp w) => [j|]; first by rewrite matsolveT_ok; case: ifP => //= _; rewrite A mulmxA.
  have [Q _] := solver_ok; rewrite Q // unitmx1 invmx1 trmx1 mulmx1 //; by rewrite A.
by rewrite H1 // trmx1 mul1mx; exact: matsolveT_ok.
Qed.
Lemma genericH_ok x : realw ->
  apply_genericH conj w x = if D \in unitmx then Ok ((conjm (invmx D *m N))^T *m x) else Err.
Proof.
move=> Hreal; have [H1 H2] := product_ok; rewrite /apply_genericH conjm_mul trmx_mul; case E : (mm w) => [i|].
  have [|l [L _ /(_ Hreal) [_ A]]] := H2; first by rewrite E.
  rewrite E in L; rewrite L.
  rewrite /=; case E' : (pp w) => [j|]; first by rewrite matsolveH_ok; case: ifP => //= _; rewrite A mulmxA.
  have [Q _] := solver_ok; rewrite Q // unitmx1 invmx1 /STModel.conjm map_mx1 trmx1 mulmx1 //; by rewrite A.
by rewrite H1 // /STModel.conjm map_mx1 trmx1 mul1mx; exact: matsolveH_ok.
Qed.

Notation O := (operator (ty w) (sigma w) (nu w) a b (bal w)).
Lemma balanced_ok x :
  (if bal w is Some d then do y <- apply_generic conj w (pdiv x d); Ok (pmul y d) else apply_generic conj w x)
  = if D \in unitmx then Ok (O *m x) else Err.
Proof.
have := r_bal R; rewrite /operator; case: (bal w) => [d|] Hd; last exact: generic_ok.
rewrite generic_ok; case: ifP => //= _.
by rewrite -(dmx_inv x Hd) -dmx_mul !mulmxA.
Qed.
Lemma balancedT_ok x : realw ->
  (if bal w is Some d then do y <- apply_genericT conj w (pmul x d); Ok (pdiv y d) else apply_genericT conj w x)
  = if D \in unitmx then Ok (O^T *m x) else Err.
Proof.
move=> Hreal; have := r_bal R; rewrite /operator; case: (bal w) => [d|] Hd; last exact: genericT_ok.
rewrite genericT_ok //; case: ifP => //= _.
by rewrite -(dmx_inv _ Hd) -dmx_mul !trmx_mul (trmx_inv (dmx d)) dmx_tr !mulmxA.
Qed.
Lemma balancedH_ok x : realw ->
  (if bal w is Some d then do y <- apply_genericH conj w (pmul x (conjm d)); Ok (pdiv y (conjm d))
   else apply_genericH conj w x)
  = if D \in unitmx then Ok ((conjm O)^T *m x) else Err.
Proof.
move=> Hreal; have := r_bal R; rewrite /operator; case: (bal w) => [d|] Hd; last exact: genericH_ok.
rewrite genericH_ok //; case: ifP => //= _.
have Hd' : [forall i, conjm d i 0 != 0].
  by apply/forallP=> i; rewrite mxE fmorph_eq0; move/forallP: Hd.
have cd : conjm (dmx d) = dmx (conjm d) by rewrite /dmx /STModel.conjm map_diag_mx map_trmx.
by rewrite -(dmx_inv _ Hd') -dmx_mul !conjm_mul !trmx_mul (conjm_inv (dmx d)) cd (trmx_inv (dmx _)) dmx_tr !mulmxA.
Qed.
End Ready.

(** ** Set-up *)

Ltac gen_nb := repeat match goal with |- context [nat_of_bool ?b] => let k := fresh "k" in
  set k := nat_of_bool b; clearbody k end.
Ltac perm := apply: own_perm; [eassumption | clear; move=> ? /=; gen_nb; lia].
Ltac inl := by rewrite ?inE ?eqxx ?orbT.

Lemma rel_opmade w built ms : rel w built ms -> rel (set_opmade true w) built ms.
Proof. by case: w => ? ? ? ? ? ? ? ? ? ? ? ? ? ? ? ? ? ? ? ? ? ? ? [] *; constructor. Qed.

Arguments compute_operator : simpl never.

Lemma rel_setup w built a b : rel w built (Some (a, b)) -> opready w -> transf w -> rel (set_state SetUp w) built (Some (a, b)).
Proof.
case: w => ? ? ? ? ? ? ? st rd ? ? ? ? ? ? ? ? ? ? ? ? ? ? R /= Hr Ht.
have T := r_T R; case: R => *; constructor=> //=.
by move=> a' b' E _; have := T _ _ E; rewrite /= Hr; apply.
Qed.

Lemma s_compute_ready (s s' : sst K n) : s_compute s = Ok s' -> s_ready s' /\ s_made s' = s_made s.
Proof.
rewrite /s_compute; case E : (s_ready s); first by case=> <-.
by rewrite /check; case: ifP => // _ [<-].
Qed.

Lemma setup_tail w built a b : rel w built (Some (a, b)) -> transf w -> (opready w = false -> ready_to_compute w) ->
  match (do s <- s_compute (abs w built (Some (a, b))); Ok (with_state SetUp s)) with
  | Ok s' => exists w', [/\
      (do w <- compute_operator w;
       let w := if ty w is Sinvert then (if sigset w then w else set_sigma (defsig w) w) else w in
       Ok (set_state SetUp w)) = Ok w', rel w' true (Some (a, b)), s' = abs w' true (Some (a, b)), opready w' &
      opmade w' = opmade w]
  | r => r = Err /\ 
      (do w <- compute_operator w;
       let w := if ty w is Sinvert then (if sigset w then w else set_sigma (defsig w) w) else w in
       Ok (set_state SetUp w)) = Err
  end.
Proof.
move=> R Ht Hc; have := compute_ok R Hc.
case E : (s_compute _) => [s'| | |] /=; [|by case=> _ ->|by case..].
case=> w1 [-> R1 E1]; rewrite /bind.
have [Hrd Hmk] := s_compute_ready E; rewrite E1 /= in Hrd Hmk.
have -> : (match ty w1 with Sinvert => if sigset w1 then w1 else set_sigma (defsig w1) w1 | _ => w1 end) = w1.
  case Et : (ty w1) => //; case Es : (sigset w1) => //.
  have <- : sigma w1 = defsig w1 by apply: (r_def R1 Hrd _ Es); rewrite Et.
  by case: (w1).
exists (set_state SetUp w1); split=> //; first (apply: rel_setup => //).
  have /= <- := f_equal (@s_transf _ _) E1; move: E; rewrite /s_compute /=.
  by case: ifP => _; [case=> <- |rewrite /check; case: ifP => // _ [<-]].
by rewrite E1.
Qed.

Lemma setup_ok w built ms : rel w built ms -> transf w ->
  match s_setup (abs w built ms) with
  | Ok s' => exists w', [/\ setup w = Ok w', rel w' true ms, s' = abs w' true ms, opready w' & opmade w' = opmade w]
  | r => r = Err /\ setup w = Err
  end.
Proof.
case: ms => [[a b]|] R Ht; last first.
  by rewrite /s_setup /=; have [Q _ _ _ _] := r_none R (erefl _); rewrite /setup Q.
have Hn : (0 < nmat w)%N by rewrite (r_nmat R (erefl _)); case: (b).
rewrite /s_setup /setup Hn; cbn [check isSome s_mats abs].
case Es : (state w) => /=.
- case Er : (opready w).
    by rewrite /= Ht; apply: setup_tail => //; rewrite Er.
  have /= O := r_own R; have C := r_clean R.
  have O1 : own (hp w) (t0 w :: [:: t1 w; pp w; u0 w; u1 w; a0 w; a1 w; ksp w]) by perm.
  have [h1 [-> O2 C2 F2]] := hdestroy_ok O1 C; cbn [bind].
  have [h2 [-> O3 C3 F3]] := hdestroy_ok O2 C2; cbn [bind].
  have [h3 [-> O4 C4 F4]] := hdestroy_ok O3 C3; cbn [bind].
  have F q : q \in [:: u0 w; u1 w] -> hobj h3 q = hobj (hp w) q.
    by rewrite !inE => /orP[]/eqP->; (rewrite F4; [rewrite F3; [rewrite F2 //|]|]); inl.
  set w1 := set_pp _ _.
  have R1 : rel w1 built (Some (a, b)).
    rewrite /w1; case: w R Ht Hn Es Er O C O1 O2 O3 O4 F2 F3 F4 F {w1} =>
      ? ? ? ? ? ? ? st rd ? ? ? ? ? ? ? ? ? ? ? ? ? ? /= R Ht Hn Es Er O C O1 O2 O3 O4 F2 F3 F4 F.
    rewrite /= in Es Er; subst st rd; have HB := r_built R; have HA := r_A R; have HB' := r_B R.
    case: R => *; constructor=> //=.
    + by move=> a' b' E; rewrite (hdense_ext (F _ _)) ?(HA _ _ E) //; inl.
    + by move=> a' b' E; apply: isB_ext (HB' _ _ E); apply: F; inl.
  have E1 : abs w built (Some (a, b)) = abs w1 built (Some (a, b)) by [].
  have -> : transf w1 = true by [].
  rewrite E1; have -> : opmade w = opmade w1 by [].
  by apply: setup_tail.
- have := r_setup R Es; move=> Hr; rewrite /s_compute /= Hr.
  have Eb : built = true by case: built R => // R; have [_ _] := r_built R (erefl _); rewrite Hr.
  by exists w; split=> //; [rewrite -Eb|rewrite /abs /with_state /= Es Eb Hr].
- by rewrite Ht; apply: setup_tail => // _ Q; rewrite Es in Q.
Qed.

Lemma getoperator_ok w built ms : rel w built ms -> unused (abs w built ms) ->
  match check (isSome ms) (if opmade w then Ok (abs w built ms)
      else do s <- s_compute (abs w built ms); Ok (with_made s)) with
  | Ok s' => exists w' built', [/\ getoperator w = Ok w', rel w' built' ms, s' = abs w' built' ms & opmade w']
  | r => r = Err /\ getoperator w = Err
  end.
Proof.
case: ms => [[a b]|] R Hu; last first.
  by have [Q _ _ _ _] := r_none R (erefl _); rewrite /getoperator Q.
have Hn : (0 < nmat w)%N by rewrite (r_nmat R (erefl _)); case: (b).
rewrite /getoperator Hn; cbn [check isSome].
case Em : (opmade w); first by exists w, built; split=> //.
have Hc : opready w = false -> ready_to_compute (set_opmade true w).
  move=> Er Es; move: Hu; rewrite /unused /= Em Er; rewrite /= in Es; rewrite Es /= => /negbTE Eb.
  by have [] := r_built R Eb.
have := compute_ok (rel_opmade R) Hc.
have -> : s_compute (abs (set_opmade true w) built (Some (a, b))) =
   do s <- s_compute (abs w built (Some (a, b))); Ok (with_made s).
  rewrite /s_compute /=; case: (opready w) => //=.
  by rewrite /check; do 2?case: ifP.
case E : (s_compute _) => [s'| | |] //=.
case=> w1 [E1 R1 E2]; exists w1, true; split=> //.
by have /= := f_equal (@s_made _ _) E2.
Qed.

(** STApply and its transposes: the object is set up and the operator is computed. *)
Lemma prepare_ok w built ms : rel w built ms -> unused (abs w built ms) -> transf w ->
  match s_setup (abs w built ms) with
  | Ok s' => exists w', [/\ (do w <- getoperator w; setup w) = Ok w', rel w' true ms,
      with_made s' = abs w' true ms & opready w']
  | r => r = Err /\ (do w <- getoperator w; setup w) = Err
  end.
Proof.
move=> R Hu Ht; have := getoperator_ok R Hu.
case: ms R Hu => [[a b]|] R Hu; last by case=> _ ->.
rewrite /s_setup; cbn [check isSome s_mats abs].
set s := abs _ _ _.
case Em : (opmade w); rewrite ?Em.
  case=> w1 [b1 [-> R1 E1 M1]]; rewrite /bind.
  have Ht1 : transf w1 by have /= <- := f_equal (@s_transf _ _) E1.
  have := setup_ok R1 Ht1; rewrite -E1 /s_setup; cbn [check isSome s_mats abs].
  rewrite -/s; case E : (s_compute s) => [s'| | |] //=.
  case=> w2 [A1 A2 A3 A4 A5]; exists w2; split=> //.
  by rewrite A3 /with_made /abs /= A5 M1.
case E : (s_compute s) => [s'| | |] /=; [|by case=> _ ->|by case|by case].
case=> w1 [b1 [-> R1 E1 M1]] /=.
have Ht1 : transf w1.
  have /= <- := f_equal (@s_transf _ _) E1; move: E; rewrite /s_compute /s /=.
  by case: ifP => _; [case=> <- |rewrite /check; case: ifP => // _ [<-]].
have [Hrd _] := s_compute_ready E.
have := setup_ok R1 Ht1; rewrite -E1 /s_setup /=.
have Em1 : s_mats s' = Some (a, b) by have /= := f_equal (@s_mats _ _) E1.
have -> : isSome (s_mats s') by rewrite Em1.
rewrite /s_compute /= Hrd /=.
case=> w2 [A1 A2 A3 A4 A5]; exists w2; split=> //.
Qed.

End P.
