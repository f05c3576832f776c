(** Lemmas on the Gram-Schmidt model. *)
From mathcomp Require Import all_ssreflect all_algebra.
From Verif Require Import Prelude GSModel.
Set Implicit Arguments. Unset Strict Implicit. Unset Printing Implicit Defensive.
Import GRing.Theory Num.Theory Order.TTheory.
Local Open Scope ring_scope.

Section Arrays.
Variables (F : numFieldType) (V : lmodType F).
Notation mem := (mem V).
Notation loop := (@loop F V).

Lemma foldl_iotaS A (f : A -> nat -> A) a m n :
  foldl f a (iota m n.+1) = f (foldl f a (iota m n)) (m + n)%N.
Proof. by rewrite -addn1 iotaD foldl_cat /= . Qed.
Lemma loopS n f s : loop n.+1 f s = f n (loop n f s).
Proof. by rewrite /GSModel.loop foldl_iotaS add0n. Qed.

Lemma foldl_sum (W : zmodType) (f : nat -> W) n :
  foldl (fun a i => a + f i) 0 (iota 0 n) = \sum_(0 <= i < n) f i.
Proof.
elim: n => [|n IH]; first by rewrite big_geq.
by rewrite foldl_iotaS add0n IH big_nat_recr.
Qed.

(** Everything but the arrays of coefficients. *)
Definition geo (s s' : mem) : Prop := [/\ col s' = col s, vec s' = vec s & omega s' = omega s].
Definition nalias (t : target) : bool := if t is Column 0 then false else true.

Lemma geo_refl s : geo s s. Proof. by []. Qed.
Lemma geo_trans s1 s2 s3 : geo s1 s2 -> geo s2 s3 -> geo s1 s3.
Proof. by move=> [E1 E2 E3] [F1 F2 F3]; split; rewrite ?F1 ?F2 ?F3. Qed.

Lemma geo_c_set t i x s : geo s (c_set t i x s).
Proof. by case: t. Qed.
Lemma geo_h_set t i x s : geo s (h_set t i x s).
Proof. by case: t. Qed.

Lemma c_get_c_set t i x (s : mem) k : c_get (c_set t i x s) t k = if k == i then x else c_get s t k.
Proof. by case: t => [j|n] /=; rewrite /upd2 /upd. Qed.
Lemma h_get_h_set t i x (s : mem) k : h_get (h_set t i x s) t k = if k == i then x else h_get s t k.
Proof. by case: t => [j|n] /=; rewrite /upd2 /upd ?eqxx. Qed.
Lemma h_get_c_set t i x (s : mem) k : nalias t -> h_get (c_set t i x s) t k = h_get s t k.
Proof. by case: t => [[|j]|n] //=. Qed.
Lemma c_get_h_set t i x (s : mem) k : nalias t -> c_get (h_set t i x s) t k = c_get s t k.
Proof. by case: t => [[|j]|n] //=. Qed.

(** Loops that write c[i] from the geometry and c[i]. *)
Lemma c_loop t n (f : mem -> nat -> F) s :
  (forall s1 s2 i, geo s1 s2 -> c_get s2 t i = c_get s1 t i -> f s2 i = f s1 i) ->
  let s' := loop n (fun i s => c_set t i (f s i) s) s in
  [/\ geo s s',
      (forall i, c_get s' t i = if (i < n)%N then f s i else c_get s t i) &
      nalias t -> forall i, h_get s' t i = h_get s t i].
Proof.
move=> Hf /=; elim: n => [|n [IH1 IH2 IH3]]; first by [].
rewrite loopS; split.
- exact: geo_trans IH1 (geo_c_set _ _ _ _).
- move=> i; rewrite c_get_c_set IH2 [(i < n.+1)%N]ltnS [(i <= n)%N]leq_eqVlt; case: eqVneq => [->|] //=.
  by apply: Hf => //; rewrite IH2 ltnn.
- by move=> na i; rewrite h_get_c_set // IH3.
Qed.
(** Loops that write h[i] from h[i] and c[i]. *)
Lemma h_loop t n (f : mem -> nat -> F) s :
  (forall s1 s2 i, c_get s2 t i = c_get s1 t i -> h_get s2 t i = h_get s1 t i -> f s2 i = f s1 i) ->
  let s' := loop n (fun i s => h_set t i (f s i) s) s in
  geo s s' /\ (nalias t ->
  (forall i, h_get s' t i = if (i < n)%N then f s i else h_get s t i) /\ (forall i, c_get s' t i = c_get s t i)).
Proof.
move=> Hf /=; elim: n => [|n [IH1 IH2]]; first by [].
rewrite loopS; split; first exact: geo_trans IH1 (geo_h_set _ _ _ _).
move=> na; case: (IH2 na) => IH3 IH4; split; last by move=> i; rewrite c_get_h_set.
move=> i; rewrite h_get_h_set IH3 [(i < n.+1)%N]ltnS [(i <= n)%N]leq_eqVlt; case: eqVneq => [->|] //=.
by apply: Hf => //; rewrite IH3 ltnn.
Qed.
End Arrays.

Section Proofs.
Variables (F : numFieldType) (V : lmodType F) (dot : V -> V -> F) (conj : {rmorphism F -> F}) (sqrt : F -> F).
Hypothesis dotL : forall a x y z, dot (a *: x + y) z = a * dot x z + dot y z.
Hypothesis dotC : forall x y, dot x y = conj (dot y x).
Hypothesis dotR : forall x, dot x x \is Num.real.
Hypothesis sqrtP : forall a, 0 <= a -> 0 <= sqrt a /\ sqrt a ^+ 2 = a.

Lemma dotDl x y z : dot (x + y) z = dot x z + dot y z.
Proof. by rewrite -[x in LHS]scale1r dotL mul1r. Qed.
Lemma dot0l z : dot 0 z = 0.
Proof. by apply: (addrI (dot 0 z)); rewrite -dotDl !addr0. Qed.
Lemma dotZl a x z : dot (a *: x) z = a * dot x z.
Proof. by rewrite -[a *: x]addr0 dotL dot0l addr0. Qed.
Lemma dotNl x z : dot (- x) z = - dot x z.
Proof. by rewrite -scaleN1r dotZl mulN1r. Qed.
Lemma dotBl x y z : dot (x - y) z = dot x z - dot y z.
Proof. by rewrite dotDl dotNl. Qed.
Lemma dot_suml n (P : pred nat) (f : nat -> V) z :
  dot (\sum_(0 <= i < n | P i) f i) z = \sum_(0 <= i < n | P i) dot (f i) z.
Proof. by apply: (big_morph (fun x => dot x z)) => [x y|]; rewrite ?dotDl ?dot0l. Qed.
Lemma dotDr x y z : dot z (x + y) = dot z x + dot z y.
Proof. by rewrite dotC dotDl rmorphD -!dotC. Qed.
Lemma dot0r z : dot z 0 = 0.
Proof. by rewrite dotC dot0l rmorph0. Qed.
Lemma dotZr a x z : dot z (a *: x) = conj a * dot z x.
Proof. by rewrite dotC dotZl rmorphM -dotC. Qed.
Lemma dotNr x z : dot z (- x) = - dot z x.
Proof. by rewrite dotC dotNl rmorphN -dotC. Qed.
Lemma dotBr x y z : dot z (x - y) = dot z x - dot z y.
Proof. by rewrite dotDr dotNr. Qed.
Lemma dot_sumr n (P : pred nat) (f : nat -> V) z :
  dot z (\sum_(0 <= i < n | P i) f i) = \sum_(0 <= i < n | P i) dot z (f i).
Proof. by apply: (big_morph (dot z)) => [x y|]; rewrite ?dotDr ?dot0r. Qed.
Lemma dotC0 x y : dot x y = 0 -> dot y x = 0.
Proof. by move=> E; rewrite dotC E rmorph0. Qed.

Variable g : config F.
Hypothesis Hpos : indef g = false -> forall x, 0 <= dot x x.
Hypothesis Htol : 0 < deftol g.
Notation mem := (mem V).
Notation work := (work g).
Implicit Types (s : mem) (t : target) (sel : nat -> bool).
Notation set_work := (set_work g).
Notation selected := (selected g).
Notation num t := (nc g + upto t)%N.

Definition sg (s : mem) (i : nat) : F := if indef g then omega s i else 1.
Definition ortho (s : mem) (n : nat) : Prop :=
  (forall i j, (i < n)%N -> (j < n)%N -> dot (col s i) (col s j) = if i == j then sg s i else 0) /\
  (forall i, (i < n)%N -> sg s i != 0).
(** Norm as BV_SafeSqrt computes it. *)
Definition nval (a : F) : F := if a < 0 then - sqrt (- a) else sqrt a.
Definition resid (sel : nat -> bool) (s : mem) (t : target) : V :=
  work s t - \sum_(0 <= i < num t | sel i) (dot (work s t) (col s i) / sg s i) *: col s i.

Lemma safe_sqrtE x : safe_sqrt sqrt g (dot x x) = Ok (nval (dot x x)).
Proof.
rewrite /safe_sqrt dotR /= /nval; case Ei: (indef g) => //.
have H0 := Hpos Ei x; rewrite (le_gtF H0) /=.
by rewrite /check (lt_le_trans _ H0) // oppr_lt0.
Qed.
Lemma norm_workE t s : norm_work dot sqrt g t s = Ok (nval (dot (work s t) (work s t))).
Proof. exact: safe_sqrtE. Qed.

Lemma nval_real a : a \is Num.real -> nval a \is Num.real.
Proof.
rewrite /nval; move=> Ha; case: ifP => H.
- have Hn : 0 <= - a by rewrite oppr_ge0 ltW.
  by have [H1 _] := sqrtP Hn; rewrite realN ger0_real.
- have H0 : 0 <= a by rewrite real_leNgt // ?H // real0.
  by have [H1 _] := sqrtP H0; rewrite ger0_real.
Qed.
Lemma nval_eq0 a : a \is Num.real -> (nval a == 0) = (a == 0).
Proof.
rewrite /nval => Ha; case: ifP => H.
- have Hn : 0 <= - a by rewrite oppr_ge0 ltW.
  by have [_ H2] := sqrtP Hn; rewrite oppr_eq0 -[LHS]sqrf_eq0 H2 oppr_eq0.
- have H0 : 0 <= a by rewrite real_leNgt // ?H // real0.
  by have [_ H2] := sqrtP H0; rewrite -[LHS]sqrf_eq0 H2.
Qed.

Lemma col_set_work s t w i : (i < num t)%N -> col (set_work s t w) i = col s i.
Proof. by case: t => [j|k] //= Hi; rewrite /upd ltn_eqF. Qed.
Lemma work_set_work s t w : work (set_work s t w) t = w.
Proof. by case: t => [j|k] //=; rewrite /upd eqxx. Qed.
Lemma set_work_set s t w w' : omega (set_work s t w) = omega s /\
  (forall i, c_get (set_work s t w) t i = c_get s t i) /\ (forall i, h_get (set_work s t w) t i = h_get s t i) /\
  (forall i, i < num t -> col (set_work (set_work s t w) t w') i = col s i)%N.
Proof.
split; [by case: t|split; [by case: t|split; [by case: t|]]] => i Hi.
by rewrite !col_set_work.
Qed.
Lemma geo_work s s' t : geo s s' -> work s' t = work s t.
Proof. by case: t => [j|k] [E1 E2 E3] /=; rewrite ?E1 ?E2. Qed.

(** Columns other than the one that is orthogonalized. *)
Definition frame (t : target) (s s' : mem) : Prop :=
  (forall i, (if t is Column j then i != (nc g + j)%N else true) -> col s' i = col s i) /\
  (if t is Column _ then vec s' = vec s else True).
Lemma frame_trans t s1 s2 s3 : frame t s1 s2 -> frame t s2 s3 -> frame t s1 s3.
Proof.
move=> [H1 H2] [H3 H4]; split => [i Hi|]; first by rewrite H3 // H1.
by case: t H1 H2 H3 H4 => //= j _ -> _ ->.
Qed.
Lemma frame_geo t s s' : geo s s' -> frame t s s'.
Proof. by move=> [E1 E2 E3]; split; [rewrite E1|case: t]. Qed.
Lemma frame_set_work t s w : frame t s (set_work s t w).
Proof. by case: t => [j|k]; split => //= i Hi; rewrite /upd (negbTE Hi). Qed.
Lemma frame_col t s s' i : frame t s s' -> (i < num t)%N -> col s' i = col s i.
Proof. by move=> [H _] Hi; apply: H; case: t Hi => //= j Hi; rewrite ltn_eqF. Qed.

(** One pass. *)
Record pass (t : target) (sel : nat -> bool) (s s' : mem) : Prop := Pass {
  p_work : work s' t = resid sel s t;
  p_frame : frame t s s';
  p_omega : omega s' = omega s;
  p_h : nalias t -> forall i, (i < num t)%N ->
        h_get s' t i = h_get s t i + (if sel i then dot (work s t) (col s i) else c_get s t i);
  p_c : nalias t -> forall i, (i < num t)%N ->
        c_get s' t i = if sel i then dot (work s t) (col s i) else c_get s t i
}.

Lemma add_coefficientsE t s :
  let s' := add_coefficients g t s in
  geo s s' /\ (nalias t -> (forall i, (i < num t)%N -> h_get s' t i = h_get s t i + c_get s t i) /\
  (forall i, c_get s' t i = c_get s t i)).
Proof.
have [H1 H2] := @h_loop F V t (num t) (fun s i => h_get s t i + c_get s t i) s
  (fun s1 s2 i E1 E2 => congr2 +%R E2 E1).
split=> // na; have [H3 H4] := H2 na; split=> // i Hi.
by rewrite [LHS]H3 Hi.
Qed.

Lemma mgs1_ok t which wo wn s onrm nrm : ortho s (num t) ->
  exists2 s', mgs1 dot sqrt g t which wo wn s onrm nrm =
      Ok (s', (if wo then Some (nval (dot (work s t) (work s t))) else onrm),
              (if wn then Some (nval (dot (work s' t) (work s' t))) else nrm)) &
    pass t (selected which) s s'.
Proof.
move=> [Ho Hs].
pose body := fun i (s : mem) =>
             if ~~ selected which i then s
             else let d := dot (work s t) (col s i) in
                  let s := c_set t i d s in
                  let d := if indef g then d / omega s i else d in
                  set_work s t (work s t - d *: col s i).
have L : forall n, (n <= num t)%N -> let s' := loop n body s in
  [/\ work s' t = work s t - \sum_(0 <= i < n | selected which i) (dot (work s t) (col s i) / sg s i) *: col s i,
      frame t s s', omega s' = omega s,
      (forall i, c_get s' t i = if (i < n)%N && selected which i then dot (work s t) (col s i) else c_get s t i) &
      (nalias t -> forall i, h_get s' t i = h_get s t i)].
  elim=> [|n IH] Hn /=.
    by rewrite big_geq // subr0; split=> //; exact: frame_geo.
  have [IH1 IH2 IH3 IH4 IH5] := IH (ltnW Hn).
  rewrite loopS /=; set s1 := loop n body s in IH1 IH2 IH3 IH4 IH5 *.
  rewrite {1 2 3 4 5}/body big_mkcond big_nat_recr //= -big_mkcond /=.
  case Esel: (selected which n) => /=; last first.
    rewrite addr0; split=> // i; rewrite IH4 [(i < n.+1)%N]ltnS [(i <= n)%N]leq_eqVlt.
    by case: eqVneq => [->|] //=; rewrite Esel andbF.
  have Ec : col s1 n = col s n by exact: frame_col IH2 Hn.
  have Ed : dot (work s1 t) (col s1 n) = dot (work s t) (col s n).
    rewrite IH1 Ec dotBl dot_suml big_seq_cond big1 ?subr0 // => i.
    rewrite mem_index_iota => /andP [/andP [_ Hi] _].
    by rewrite dotZl Ho ?(ltn_trans Hi) // (ltn_eqF Hi) mulr0.
  rewrite Ed; set d := dot (work s t) (col s n).
  set s2 := c_set t n d s1.
  have G : geo s1 s2 by exact: geo_c_set.
  have [E2 E3 E4] := G.
  have Eo : (if indef g then d / omega s2 n else d) = d / sg s n.
    by rewrite E4 IH3 /sg; case: (indef g) => //; rewrite divr1.
  rewrite Eo (geo_work t G) E2 Ec.
  have [F1 [F2 [F3 _]]] := set_work_set s2 t (work s1 t - (d / sg s n) *: col s n) 0.
  split.
  - by rewrite work_set_work IH1 opprD addrA.
  - exact: frame_trans (frame_trans IH2 (frame_geo t G)) (frame_set_work _ _ _).
  - by rewrite F1 E4 IH3.
  - move=> i; rewrite F2 /s2 c_get_c_set IH4 [(i < n.+1)%N]ltnS [(i <= n)%N]leq_eqVlt; case: eqVneq => [->|] //=.
    by rewrite Esel.
  - by move=> na i; rewrite F3 /s2 h_get_c_set // IH5.
have [L1 L2 L3 L4 L5] := L _ (leqnn _).
set s1 := loop (num t) body s in L1 L2 L3 L4 L5.
have [A1 A2] := add_coefficientsE t s1.
exists (add_coefficients g t s1).
  rewrite /mgs1 -/body -/s1 !norm_workE /=.
  rewrite (geo_work t A1).
  by case: wo; case: wn.
split.
- by rewrite (geo_work t A1).
- exact: frame_trans L2 (frame_geo t A1).
- by case: A1 => _ _ ->.
- move=> na i Hi; have [A3 _] := A2 na; rewrite A3 // L5 // L4 Hi /=.
  by [].
- move=> na i Hi; have [_ A4] := A2 na; by rewrite A4 L4 Hi.
Qed.

Lemma resid_ext sel1 sel2 s t : (forall i, (i < num t)%N -> sel1 i = sel2 i) -> resid sel1 s t = resid sel2 s t.
Proof.
move=> E; congr (_ - _); rewrite big_seq_cond [RHS]big_seq_cond; apply: eq_bigl => i.
by rewrite mem_index_iota /=; case Hi: (i < _)%N => //=; rewrite E.
Qed.

Lemma resid_orth sel s t i : ortho s (num t) -> (i < num t)%N -> sel i -> dot (resid sel s t) (col s i) = 0.
Proof.
move=> [Ho Hs] Hi Si; rewrite /resid dotBl dot_suml.
rewrite big_mkcond (bigD1_seq i) ?iota_uniq ?mem_index_iota //= Si dotZl Ho // eqxx divfK ?Hs //.
rewrite big_seq_cond big1 ?addr0 ?subrr // => k.
rewrite mem_index_iota => /andP [/andP [_ Hk] /negbTE Ek].
by case: (sel k) => //; rewrite dotZl Ho // Ek mulr0.
Qed.

(** Norm of the projection (definite case). *)
Lemma pythagoras s t : indef g = false -> ortho s (num t) ->
  let w := resid (fun _ => true) s t in
  dot w w = dot (work s t) (work s t) -
            \sum_(0 <= i < num t) dot (work s t) (col s i) * conj (dot (work s t) (col s i)).
Proof.
move=> Ei Ho /=; have Hs i : sg s i = 1 by rewrite /sg Ei.
rewrite {2}/resid dotBr dot_sumr.
rewrite [X in _ - X]big_nat_cond [X in _ - X]big1 ?subr0; last first.
  move=> i /andP [/andP [_ Hi] _].
  by rewrite dotZr resid_orth // mulr0.
rewrite /resid dotBl dot_suml; congr (_ - _); apply: eq_bigr => i _.
by rewrite dotZl Hs divr1 [in LHS](dotC (col s i)).
Qed.

Lemma dotsE t n s : (n <= (num t).+1)%N -> let s' := dots dot g t n s in
  [/\ geo s s',
      (forall i, c_get s' t i = if (i < n)%N then dot (work s t) (col s i) else c_get s t i) &
      nalias t -> forall i, h_get s' t i = h_get s t i].
Proof.
move=> _; apply: (@c_loop F V t n (fun s i => dot (work s t) (col s i)) s) => s1 s2 i G _.
by rewrite (geo_work t G); case: G => -> _ _.
Qed.
Lemma signatureE t inv s : let s' := apply_signature g t inv s in
  [/\ geo s s',
      (forall i, c_get s' t i = if (i < num t)%N then
           (if inv then c_get s t i / omega s i else c_get s t i * omega s i) else c_get s t i) &
      nalias t -> forall i, h_get s' t i = h_get s t i].
Proof.
apply: (@c_loop F V t (num t) (fun s i => if inv then c_get s t i / omega s i else c_get s t i * omega s i) s).
by move=> s1 s2 i [_ _ E] Ec; rewrite E Ec.
Qed.

Lemma cgs1_ok t wo wn s onrm nrm : ortho s (num t) ->
  exists2 s', cgs1 dot conj sqrt g t wo wn s onrm nrm =
      Ok (s', (if wo then Some (nval (dot (work s t) (work s t))) else onrm),
              (if wn then Some (nval (dot (work s' t) (work s' t))) else nrm)) &
    pass t (fun _ => true) s s'.
Proof.
move=> Ho.
(* products *)
have [s1 [beta [E1 [G1 C1 H1] B1]]] : exists s1 beta,
  [/\ (if wo || wn then
       match t with
       | Column _ => let s := dots dot g t (num t).+1 s in do b <- safe_sqrt sqrt g (c_get s t (num t)); Ok (s, Some b)
       | Vector _ => let s := dots dot g t (num t) s in do b <- norm_work dot sqrt g t s; Ok (s, Some b)
       end
     else Ok (dots dot g t (num t) s, None)) = Ok (s1, beta),
   [/\ geo s s1, (forall i, (i < num t)%N -> c_get s1 t i = dot (work s t) (col s i)) &
       nalias t -> forall i, h_get s1 t i = h_get s t i] &
   (wo || wn -> beta = Some (nval (dot (work s t) (work s t))))].
  case Ew: (wo || wn); last first.
    have [D1 D2 D3] := dotsE s (leqnSn (num t)).
    by exists (dots dot g t (num t) s), None; split=> //; split=> // i Hi; rewrite D2 Hi.
  case: t Ho => [j|k] Ho.
    have [D1 D2 D3] := @dotsE (Column j) _ s (leqnn _).
    exists (dots dot g (Column j) (num (Column j)).+1 s), (Some (nval (dot (work s (Column j)) (work s (Column j))))).
    split=> //; last by split=> // i Hi; rewrite D2 ltnS (ltnW Hi).
    set s1 := dots _ _ _ _ _ in D2 *.
    change ((do b <- safe_sqrt sqrt g (c_get s1 (Column j) (num (Column j))); Ok (s1, Some b)) =
            Ok (s1, Some (nval (dot (work s (Column j)) (work s (Column j)))))).
    by rewrite D2 ltnSn safe_sqrtE.
  have [D1 D2 D3] := @dotsE (Vector k) _ s (leqnSn (num (Vector k))).
  exists (dots dot g (Vector k) (num (Vector k)) s), (Some (nval (dot (work s (Vector k)) (work s (Vector k))))).
  split=> //; last by split=> // i Hi; rewrite D2 Hi.
  by cbv zeta; rewrite norm_workE (geo_work (Vector k) D1).
(* signature, multiplication, signature *)
set s2 := if indef g then apply_signature g t true s1 else s1.
have [G2 C2 H2] : [/\ geo s s2, (forall i, (i < num t)%N -> c_get s2 t i = dot (work s t) (col s i) / sg s i) &
       nalias t -> forall i, h_get s2 t i = h_get s t i].
  rewrite /s2 /sg; case Ei: (indef g).
    have [D1 D2 D3] := signatureE t true s1; split; first exact: geo_trans G1 D1.
      by move=> i Hi; rewrite D2 Hi C1 //; case: G1 => _ _ ->.
    by move=> na i; rewrite D3 // H1.
  by split=> // i Hi; rewrite divr1 C1.
set s3 := mult g t s2.
have Ew3 : work s3 t = resid (fun _ => true) s t.
  rewrite /s3 /mult work_set_work (geo_work t G2) foldl_sum /resid; congr (_ - _).
  rewrite big_nat_cond [RHS]big_nat_cond; apply: eq_bigr => i /andP [/andP [_ Hi] _].
  by rewrite C2 //; case: G2 => -> _ _.
have [F1 [F2 [F3 _]]] : omega s3 = omega s2 /\ (forall i, c_get s3 t i = c_get s2 t i) /\
   (forall i, h_get s3 t i = h_get s2 t i) /\ True.
  have [? [? [? _]]] := set_work_set s2 t (work s2 t - foldl (fun a i => a + c_get s2 t i *: col s2 i) 0 (iota 0 (nc g + upto t))) 0.
  by [].
have Fr3 : frame t s s3 by exact: frame_trans (frame_geo t G2) (frame_set_work _ _ _).
set s4 := if indef g then apply_signature g t false s3 else s3.
have [G4 C4 H4] : [/\ geo s3 s4, (forall i, (i < num t)%N -> c_get s4 t i = dot (work s t) (col s i)) &
       nalias t -> forall i, h_get s4 t i = h_get s t i].
  have Hs := proj2 Ho; rewrite /s4; case Ei: (indef g).
    have [D1 D2 D3] := signatureE t false s3; split=> //.
      move=> i Hi; rewrite D2 Hi F2 C2 // F1; case: G2 => _ _ ->.
      by have := Hs i Hi; rewrite /sg Ei => Hz; rewrite divfK.
    by move=> na i; rewrite D3 // F3 H2.
  split=> // [i Hi|na i]; last by rewrite F3 H2.
  by rewrite F2 C2 // /sg Ei divr1.
have [A1 A2] := add_coefficientsE t s4.
have Ew5 : work (add_coefficients g t s4) t = resid (fun _ => true) s t.
  by rewrite (geo_work t A1) (geo_work t G4).
exists (add_coefficients g t s4).
  rewrite /cgs1 E1 /= -/s2 -/s3 -/s4; clear E1.
  have Eo : (if wo then beta else onrm) = (if wo then Some (nval (dot (work s t) (work s t))) else onrm).
    by case: wo B1 => // ->.
  rewrite Eo; case: wn B1 => [B1|_] /=; last by [].
  rewrite Ew5.
  have Enw : norm_work dot sqrt g t s4 = Ok (nval (dot (resid (fun _ => true) s t) (resid (fun _ => true) s t))).
    by rewrite norm_workE (geo_work t G4) Ew3.
  case Ei: (indef g) => /=; first by rewrite Enw.
  rewrite B1 ?orbT // /square_sum foldl_sum.
  have -> : \sum_(0 <= i < nc g + upto t) c_get s4 t i * conj (c_get s4 t i) =
            \sum_(0 <= i < num t) dot (work s t) (col s i) * conj (dot (work s t) (col s i)).
    rewrite big_nat_cond [RHS]big_nat_cond; apply: eq_bigr => i /andP [/andP [_ Hi] _].
    by rewrite C4.
  have H0 := Hpos Ei (work s t).
  have Eb : nval (dot (work s t) (work s t)) * nval (dot (work s t) (work s t)) = dot (work s t) (work s t).
    by rewrite /nval (le_gtF H0) -expr2; have [_ ->] := sqrtP H0.
  rewrite Eb -pythagoras //; set r := resid _ s t.
  have H0r := Hpos Ei r.
  case: ifP => Hr; first by rewrite Enw.
  by rewrite /nval (le_gtF H0r).
split=> //.
- exact: frame_trans (frame_trans Fr3 (frame_geo t G4)) (frame_geo t A1).
- by case: A1 => _ _ ->; case: G4 => _ _ ->; rewrite F1; case: G2.
- move=> na i Hi; have [A3 _] := A2 na; by rewrite A3 // C4 // H4.
- move=> na i Hi; have [_ A4] := A2 na; by rewrite A4 C4.
Qed.

Definition seln (which : option (nat -> bool)) (i : nat) : bool := if mgs g then selected which i else true.
Lemma gs1_ok t which wo wn s onrm nrm : ortho s (num t) ->
  exists2 s', gs1 dot conj sqrt g t which wo wn s onrm nrm =
      Ok (s', (if wo then Some (nval (dot (work s t) (work s t))) else onrm),
              (if wn then Some (nval (dot (work s' t) (work s' t))) else nrm)) &
    pass t (seln which) s s'.
Proof.
move=> Ho; rewrite /gs1 /seln; case Em: (mgs g); first exact: mgs1_ok.
exact: cgs1_ok.
Qed.

(** A second pass changes nothing. *)
Lemma ortho_pass t sel s s' : pass t sel s s' -> ortho s (num t) -> ortho s' (num t).
Proof.
move=> P [Ho Hs]; split=> [i j Hi Hj|i Hi].
- by rewrite !(frame_col (p_frame P)) // Ho // /sg (p_omega P).
- by have := Hs i Hi; rewrite /sg (p_omega P).
Qed.
Lemma pass2 t sel s s1 s2 : ortho s (num t) -> pass t sel s s1 -> pass t sel s1 s2 ->
  work s2 t = work s1 t.
Proof.
move=> Ho P1 P2; rewrite (p_work P2) /resid big_seq_cond big1 ?subr0 // => i.
rewrite mem_index_iota => /andP [/andP [_ Hi] Si].
by rewrite (frame_col (p_frame P1) Hi) (p_work P1) resid_orth // mul0r scale0r.
Qed.

Lemma cleanE t s : let s' := clean_coefficients g t s in
  geo s s' /\ (nalias t -> (forall i, (i < num t)%N -> h_get s' t i = 0) /\
  (forall i, c_get s' t i = c_get s t i)).
Proof.
have [H1 H2] := @h_loop F V t (num t) (fun _ _ => 0) s (fun s1 s2 i E1 E2 => erefl).
split=> // na; have [H3 H4] := H2 na; split=> // i Hi.
by rewrite [LHS]H3 Hi.
Qed.

(** Several passes: [n] is their number. *)
Record passes (n : nat) (t : target) (sel : nat -> bool) (s s' : mem) : Prop := Passes {
  q_work : work s' t = resid sel s t;
  q_frame : frame t s s';
  q_omega : omega s' = omega s;
  q_h : nalias t -> forall i, (i < num t)%N ->
        h_get s' t i = h_get s t i + (if sel i then dot (work s t) (col s i) else c_get s t i *+ n);
  q_c : nalias t -> forall i, (i < num t)%N -> ~~ sel i -> c_get s' t i = c_get s t i
}.
Lemma passes1 t sel s s' : pass t sel s s' -> passes 1 t sel s s'.
Proof.
case=> P1 P2 P3 P4 P5; split=> // na i Hi.
by rewrite P5 // => /negbTE ->.
Qed.
Lemma ortho_passes n t sel s s' : passes n t sel s s' -> ortho s (num t) -> ortho s' (num t).
Proof.
move=> P [Ho Hs]; split=> [i j Hi Hj|i Hi].
- by rewrite !(frame_col (q_frame P)) // Ho // /sg (q_omega P).
- by have := Hs i Hi; rewrite /sg (q_omega P).
Qed.
Lemma passesS n t sel s s1 s2 : ortho s (num t) -> passes n t sel s s1 -> pass t sel s1 s2 -> passes n.+1 t sel s s2.
Proof.
move=> Ho P1 P2.
have O i : (i < num t)%N -> sel i -> dot (work s1 t) (col s1 i) = 0.
  by move=> Hi Si; rewrite (frame_col (q_frame P1) Hi) (q_work P1) resid_orth.
split.
- rewrite (p_work P2) {1}/resid big_seq_cond big1; first by rewrite subr0 (q_work P1).
  move=> i.
  by rewrite mem_index_iota => /andP [/andP [_ Hi] Si]; rewrite O // mul0r scale0r.
- exact: frame_trans (q_frame P1) (p_frame P2).
- by rewrite (p_omega P2) (q_omega P1).
- move=> na i Hi; rewrite (p_h P2) // (q_h P1) //.
  case Si: (sel i); first by rewrite O // addr0.
  by rewrite (q_c P1) // ?Si // -addrA mulrSr.
- by move=> na i Hi Si; rewrite (p_c P2) // (negbTE Si) (q_c P1).
Qed.

Hypothesis Heta : 0 < eta g <= 1.
Notation nrm2 x := (nval (dot x x)).
Lemma nrm2_real x : nrm2 x \is Num.real.
Proof. exact: nval_real (dotR x). Qed.
Lemma eta_real : eta g \is Num.real.
Proof. by case/andP: Heta => H _; rewrite gtr0_real. Qed.

Lemma eta_same (a : F) : (`|a| < eta g * `|a|) = false.
Proof.
have [_ H] := andP Heta; apply/negP => H2.
have : eta g * `|a| <= `|a| by rewrite ler_pimull.
by rewrite real_leNgt ?H2 // ?normr_real // realM ?normr_real // eta_real.
Qed.

Lemma refine_loop_ok n t which s0 s onrm : ortho s0 (num t) -> passes n t (seln which) s0 s ->
  (n == 1)%N || (onrm == nrm2 (work s t)) ->
  exists m s' onrm', [/\ (0 < m)%N, refine_loop dot conj sqrt g 2 t which s (Some onrm) (Some (nrm2 (work s t))) =
     Ok (s', Some onrm', Some (nrm2 (work s' t))), passes m t (seln which) s0 s' &
     ~~ ((nrm2 (work s' t) != 0) && (`|nrm2 (work s' t)| < eta g * `|onrm'|))] \/ n = 0%N.
Proof.
move=> Ho P _; have Ho1 := ortho_passes P Ho.
case: n P => [|n] P; first by exists 1%N, s, onrm; right.
rewrite [refine_loop _ _ _ _ _ _ _ _ _ _]/=.
case E: ((nrm2 (work s t) != 0) && (`|nrm2 (work s t)| < eta g * `|onrm|)); last first.
  by exists n.+1, s, onrm; left; rewrite E.
have [s1 E1 P1] := gs1_ok which (~~ (mgs g || indef g)) true
  (if mgs g || indef g then Some (nrm2 (work s t)) else Some onrm) (Some (nrm2 (work s t))) Ho1.
have P2 := passesS Ho P P1.
have Ew : work s1 t = work s t by rewrite (q_work P) (q_work P2).
exists n.+2, s1, (nrm2 (work s t)); left.
split=> //; last by rewrite Ew eta_same andbF.
rewrite E1 /= Ew.
have -> : (if ~~ (mgs g || indef g) then Some (nrm2 (work s t)) else
           if mgs g || indef g then Some (nrm2 (work s t)) else Some onrm) = Some (nrm2 (work s t)).
  by case: (mgs g || indef g).
by rewrite /= eta_same andbF.
Qed.

Lemma dependentE a b : a \is Num.real -> ~~ ((a != 0) && (`|a| < eta g * `|b|)) ->
  dependent g (Some b) (Some a) = Ok (a == 0).
Proof.
move=> Ha; rewrite /dependent /=; case: eqP => //= _ H.
by rewrite real_leNgt ?(negbTE H) // ?normr_real // realM ?normr_real // eta_real.
Qed.

Lemma nval_lt0 a : a \is Num.real -> (nval a < 0) = (a < 0).
Proof.
rewrite /nval => Ha; case: ifP => H.
- have Hn : 0 <= - a by rewrite oppr_ge0 ltW.
  have [H1 H2] := sqrtP Hn; rewrite oppr_lt0 lt_neqAle H1 andbT eq_sym -[_ == 0]sqrf_eq0 H2 oppr_eq0.
  by rewrite (lt_eqF H).
- have H0 : 0 <= a by rewrite real_leNgt // ?H // real0.
  by have [H1 _] := sqrtP H0; rewrite le_gtF.
Qed.

Theorem gs_ok t which wnorm wlin s : ortho s (num t) ->
  let r := resid (seln which) s t in
  exists s', [/\
    gs dot conj sqrt g t which wnorm wlin s =
      Ok (s', (if wnorm then Some (nrm2 r) else None),
              (if wlin then Some (~~ indef g && (dot r r == 0)) else None)),
    work s' t = r, frame t s s',
    omega s' = (if indef g && (if t is Column _ then true else false)
                then upd (omega s) (num t) (if dot r r < 0 then -1 else 1) else omega s) &
    nalias t ->
      (forall i, (i < num t)%N -> seln which i -> h_get s' t i = dot (work s t) (col s i)) /\
      (exists2 n, (0 < n)%N & forall i, (i < num t)%N -> ~~ seln which i -> h_get s' t i = c_get s t i *+ n) /\
      (wnorm -> (if t is Column _ then h_get s' t (num t) = nrm2 r else True)) /\
      (ref g = Never -> forall i, (i < num t)%N ->
         c_get s' t i = if seln which i then dot (work s t) (col s i) else c_get s t i)].
Proof.
move=> Ho r.
have [G0 C0] := cleanE t s; set s0 := clean_coefficients g t s in G0 C0.
have Ho0 : ortho s0 (num t).
  by case: G0 => E1 E2 E3; case: Ho => H1 H2; split=> i *; rewrite /sg ?E1 ?E3 ?H1 // -/(sg s i) ?H2.
have Er : resid (seln which) s0 t = r.
  by rewrite /r /resid (geo_work t G0); case: G0 => E1 E2 E3; rewrite /sg E1 E3.
set signature := indef g && (if t is Column _ then true else false).
set dolindep := ~~ indef g && wlin.
(* the three policies *)
have [m [s1 [nrm [Hm E1 P1 N1 Hc1]]]] : exists m s1 nrm, [/\ (0 < m)%N,
   match ref g with
    | IfNeeded =>
        do ' (s, onrm, nrm) <- gs1 dot conj sqrt g t which true true s0 None None;
        do ' (s, onrm, nrm) <- refine_loop dot conj sqrt g 2 t which s onrm nrm;
        do lin <- (if dolindep then do b <- dependent g onrm nrm; Ok (Some b) else Ok None);
        Ok (s, nrm, lin)
    | Never =>
        do ' (s, onrm, nrm) <- gs1 dot conj sqrt g t which false false s0 None None;
        do nrm <- (if wnorm || dolindep || signature then do b <- norm_work dot sqrt g t s; Ok (Some b) else Ok nrm);
        do lin <- (if dolindep then do a <- value nrm; Ok (Some (a == 0)) else Ok None);
        Ok (s, nrm, lin)
    | Always =>
        do ' (s, onrm, nrm) <- gs1 dot conj sqrt g t which false false s0 None None;
        do ' (s, onrm, nrm) <- gs1 dot conj sqrt g t which dolindep (wnorm || dolindep || signature) s onrm nrm;
        do lin <- (if dolindep then do b <- dependent g onrm nrm; Ok (Some b) else Ok None);
        Ok (s, nrm, lin)
    end = Ok (s1, nrm, if dolindep then Some (nrm2 r == 0) else None),
    passes m t (seln which) s0 s1,
    (wnorm || dolindep || signature -> nrm = Some (nrm2 r)) &
    (ref g = Never -> pass t (seln which) s0 s1)].
  case: (ref g).
  - have [s1 -> P1] := gs1_ok which true true None None Ho0; cbn [bind].
    have [m [s2 [onrm [|//]]]] := refine_loop_ok (onrm := nrm2 (work s0 t)) Ho0 (passes1 P1) isT.
    case=> Hm -> P2 Hn /=; have Ew : work s2 t = r by rewrite (q_work P2).
    exists m, s2, (Some (nrm2 (work s2 t))); split=> //; last by rewrite Ew.
    rewrite Ew in Hn *.
    by case: dolindep => //=; rewrite dependentE // nrm2_real.
  - have [s1 -> P1] := gs1_ok which false false None None Ho0 => /=.
    have P2 := passes1 P1; have Ew : work s1 t = r by rewrite (q_work P2).
    rewrite norm_workE Ew /=.
    exists 1%N, s1, (if wnorm || dolindep || signature then Some (nrm2 r) else None); split=> //; last by move=> ->.
    by case: wnorm; case: dolindep; case: signature.
  - have [s1 -> P1] := gs1_ok which false false None None Ho0 => /=.
    have P2 := passes1 P1; have Ew : work s1 t = r by rewrite (q_work P2).
    have [s2 -> P3] := gs1_ok which dolindep (wnorm || dolindep || signature) None None (ortho_passes P2 Ho0) => /=.
    have P4 := passesS Ho0 P2 P3; have Ew2 : work s2 t = r by rewrite (q_work P4).
    rewrite Ew Ew2.
    exists 2%N, s2, (if wnorm || dolindep || signature then Some (nrm2 r) else None); split=> //; last by move=> ->.
    have D : dependent g (Some (nrm2 r)) (Some (nrm2 r)) = Ok (nrm2 r == 0).
      by apply: dependentE; rewrite ?nrm2_real ?eta_same ?andbF.
    by case: dolindep; rewrite ?orbT //= D.
have Ew : work s1 t = r by rewrite (q_work P1).
(* signature *)
set s2 := if signature then with_omega s1 (upd (omega s1) (num t) (if nrm2 r < 0 then -1 else 1)) else s1.
have E2 : (if signature then
             do a <- value nrm; Ok (with_omega s1 (upd (omega s1) (nc g + upto t) (if a < 0 then -1 else 1)))
           else Ok s1) = Ok s2.
  by move: N1; rewrite /s2; case: (signature) => // N1; rewrite N1 ?orbT.
have W2 : work s2 t = r /\ frame t s s2 /\ (forall i, h_get s2 t i = h_get s1 t i).
  have Fr : frame t s s1 by exact: frame_trans (frame_geo t G0) (q_frame P1).
  rewrite /s2; case Es: signature; last by [].
  by split=> //; case: (t).
case: W2 => W2 [Fr2 H2].
have O2 : omega s2 = (if signature then upd (omega s) (num t) (if dot r r < 0 then -1 else 1) else omega s).
  have E : omega s1 = omega s by rewrite (q_omega P1); case: G0.
  by rewrite /s2; case: (signature) => //=; rewrite E nval_lt0.
set s3 := if wnorm then (if t is Column _ then h_set t (num t) (nrm2 r) s2 else s2) else s2.
exists s3; split.
- rewrite /gs -/s0 -/dolindep -/signature E1 /= E2 /=.
  have El : (if indef g && wlin then Some false else if dolindep then Some (nrm2 r == 0) else None) =
            (if wlin then Some (~~ indef g && (dot r r == 0)) else None).
    by rewrite /dolindep; case: (indef g); case: (wlin) => //=; rewrite nval_eq0.
  rewrite El /s3; move: N1; case: (wnorm) => // N1; rewrite N1 //=.
  case: (t) => [j|//]; rewrite /= /dolindep.
  case Ei: (~~ indef g && wlin) => //=; case/andP: Ei => -> -> /=.
  case: eqP => //= E0; have /eqP -> : nrm2 r == 0 by rewrite nval_eq0 // E0.
  by [].
- by rewrite -W2 /s3; case: (wnorm) => //; case: (t).
- by rewrite /s3; case: (wnorm) => //; case: (t) Fr2.
- by rewrite -O2 /s3; case: (wnorm) => //; case: (t).
- move=> na.
  have H3 i : (i < num t)%N -> h_get s3 t i = h_get s1 t i.
    move=> Hi; rewrite -H2 /s3; case: (wnorm) => //; case: (t) Hi => //= j Hi.
    by rewrite /upd2 eqxx /upd ltn_eqF.
  have [C1 C2] := C0 na.
  split; [|split; [|split]].
  + move=> i Hi Si; rewrite H3 // (q_h P1) // Si C1 // add0r (geo_work t G0).
    by case: G0 => -> _ _.
  + by exists m => // i Hi Si; rewrite H3 // (q_h P1) // (negbTE Si) C1 // add0r C2.
  + by move=> Hw; rewrite /s3 Hw; case: (t) => //= j; rewrite /upd2 eqxx /upd eqxx.
  + move=> Hn i Hi.
    have -> : c_get s3 t i = c_get s1 t i.
      have -> : c_get s3 t i = c_get s2 t i.
        by rewrite /s3; case: (wnorm) => //; case: (t) na => [[|j]|k].
      by rewrite /s2; case: (signature) => //; case: (t).
    rewrite (p_c (Hc1 Hn)) // (geo_work t G0) C2; by case: G0 => -> _ _.
Qed.
End Proofs.
